From Coq Require Import List ZArith Bool Arith Lia Ascii String DecimalString DecimalNat.
Import ListNotations.
From Verif Require Import HostModel HostSpec.
Local Open Scope list_scope.
Local Open Scope Z_scope.

(** * Words *)
Lemma tobytes_mod v : tobytes v = [v mod 256; v / 256 mod 256; v / 65536 mod 256; v / 16777216 mod 256].
Proof.
  unfold tobytes. cbn [seq map]. rewrite !Z.shiftr_div_pow2 by lia.
  replace 255 with (Z.ones 8) by reflexivity. rewrite !Z.land_ones by lia.
  cbn [Z.of_nat Z.mul]. change (2 ^ (8 * 0)) with 1. rewrite Z.div_1_r. reflexivity.
Qed.
Lemma tobytes_length v : List.length (tobytes v) = 4%nat.
Proof. reflexivity. Qed.
Lemma tobytes_bytes v : Forall is_byte (tobytes v).
Proof. rewrite tobytes_mod. unfold is_byte. repeat constructor; try (apply Z.mod_pos_bound; lia). Qed.

Lemma byte_at_mid (a x b : list Z) k : 0 <= k < len x -> byte_at (a ++ x ++ b) (len a + k) = byte_at x k.
Proof.
  intros Hk. unfold byte_at, len in *. rewrite app_nth2 by lia.
  replace (Z.to_nat (Z.of_nat (List.length a) + k) - List.length a)%nat with (Z.to_nat k) by lia.
  rewrite app_nth1 by lia. reflexivity.
Qed.
Lemma word_of_tobytes v : 0 <= v < 2 ^ 32 -> word_at (tobytes v) 0 = v.
Proof.
  intros Hv. rewrite tobytes_mod. unfold word_at, byte_at. cbn [nth Z.to_nat Z.add Pos.to_nat Pos.iter_op Init.Nat.add].
  change (Pos.to_nat 1) with 1%nat. change (Pos.to_nat 2) with 2%nat. change (Pos.to_nat 3) with 3%nat. cbn [nth].
  change (2 ^ 32) with 4294967296 in Hv. change (2 ^ 8) with 256. change (2 ^ 16) with 65536. change (2 ^ 24) with 16777216.
  Z.to_euclidean_division_equations; lia.
Qed.
Lemma word_mid (a b : list Z) v p : 0 <= v < 2 ^ 32 -> p = len a -> word_at (a ++ tobytes v ++ b) p = v.
Proof.
  intros Hv ->. rewrite <- (word_of_tobytes v Hv) at 2. unfold word_at.
  rewrite <- (Z.add_0_r (len a)) at 1.
  rewrite !byte_at_mid by (unfold len; rewrite tobytes_length; lia). reflexivity.
Qed.
Lemma region_mid (a x b : list Z) p q : p = len a -> q = len a + len x -> region (a ++ x ++ b) p q = x.
Proof.
  intros -> ->. unfold region, len. rewrite Nat2Z.id.
  replace (Z.to_nat (Z.of_nat (List.length a) + Z.of_nat (List.length x)) - List.length a)%nat with (List.length x) by lia.
  rewrite skipn_app, skipn_all, Nat.sub_diag. cbn [skipn app]. rewrite firstn_app, Nat.sub_diag, firstn_all. cbn [firstn].
  apply app_nil_r.
Qed.

(** * Flash image *)
Definition engine_size (e : engine) : Z := len (e_model e) + 4 + len (e_params e) + len (e_ops e) + len (e_xip e).
Definition engines_size (es : list engine) : Z := fold_right (fun e a => engine_size e + a) 0 es.
Lemma len_app a b : len (a ++ b) = len a + len b.
Proof. unfold len. rewrite app_length. lia. Qed.
Lemma len_nonneg l : 0 <= len l.
Proof. unfold len. lia. Qed.
Lemma len_tobytes v : len (tobytes v) = 4.
Proof. reflexivity. Qed.
Lemma len_engine e : len (engine_bytes e) = engine_size e.
Proof. unfold engine_bytes, engine_size. rewrite !len_app, len_tobytes. lia. Qed.
Lemma len_engines es : len (flat_map engine_bytes es) = engines_size es.
Proof. induction es as [|e es IH]; [reflexivity|]. cbn [flat_map]. rewrite len_app, len_engine, IH. reflexivity. Qed.
Lemma h_length_size e s : h_length (make_header e s) = engine_size e.
Proof. unfold make_header, engine_size. cbn [h_length]. lia. Qed.
Lemma engines_size_app a b : engines_size (a ++ b) = engines_size a + engines_size b.
Proof. unfold engines_size. induction a as [|x a IH]; cbn [app fold_right]; lia. Qed.
Lemma make_headers_app a b s : make_headers (a ++ b) s = make_headers a s ++ make_headers b (s + engines_size a).
Proof.
  revert s. induction a as [|e a IH]; intros s; cbn [app make_headers].
  - unfold engines_size. cbn [fold_right]. rewrite Z.add_0_r. reflexivity.
  - rewrite IH, h_length_size. cbn [engines_size fold_right]. change (fold_right (fun (e : engine) (a : Z) => engine_size e + a) 0 a) with (engines_size a).
    rewrite Z.add_assoc. reflexivity.
Qed.
Lemma make_headers_length a s : List.length (make_headers a s) = List.length a.
Proof. revert s. induction a as [|e a IH]; intros s; cbn; [reflexivity|]. rewrite IH. reflexivity. Qed.
Lemma len_header_bytes hs : len (flat_map header_bytes hs) = 16 * Z.of_nat (List.length hs).
Proof.
  induction hs as [|h hs IH]; [reflexivity|]. cbn [flat_map List.length]. rewrite len_app, IH. unfold header_bytes.
  rewrite !len_app, !len_tobytes. lia.
Qed.
Lemma len_magic : len (magic ++ version_bytes) = 36.
Proof. reflexivity. Qed.

(** The image, seen from engine [e]. *)
Lemma image_at pre e post :
  let es := pre ++ e :: post in
  let s0 := 36 + 16 * Z.of_nat (List.length es) in
  let s := s0 + engines_size pre in
  exists H1 H2, flash_image es = H1 ++ header_bytes (make_header e s) ++ H2 ++ flat_map engine_bytes pre ++ engine_bytes e ++ flat_map engine_bytes post
    /\ len H1 = 36 + 16 * Z.of_nat (List.length pre) /\ len H1 + 16 + len H2 = s0.
Proof.
  intros es s0 s. unfold flash_image. change (32 + 4) with 36. fold s0.
  exists (magic ++ version_bytes ++ flat_map header_bytes (make_headers pre s0)).
  exists (flat_map header_bytes (make_headers post (s + engine_size e))).
  split; [|split].
  - unfold es at 1 2. rewrite make_headers_app. cbn [make_headers]. rewrite h_length_size. fold s.
    rewrite !flat_map_app. cbn [flat_map]. rewrite <- !app_assoc. reflexivity.
  - rewrite app_assoc, len_app, len_magic, len_header_bytes, make_headers_length. reflexivity.
  - rewrite app_assoc, len_app, len_magic, !len_header_bytes, !make_headers_length.
    unfold s0, es. rewrite app_length. cbn [List.length]. lia.
Qed.

Lemma swap_involutive x : is_byte x -> swap_nibbles (swap_nibbles x) = x.
Proof.
  intros Hx. unfold is_byte in Hx.
  assert (Hall : forallb (fun n => Z.of_nat n =? swap_nibbles (swap_nibbles (Z.of_nat n))) (seq 0 256) = true) by (vm_compute; reflexivity).
  rewrite forallb_forall in Hall. specialize (Hall (Z.to_nat x)). rewrite Z2Nat.id in Hall by lia.
  apply Z.eqb_eq in Hall; [congruence|]. apply in_seq. lia.
Qed.
Lemma swap_byte x : is_byte x -> is_byte (swap_nibbles x).
Proof.
  intros Hx. unfold is_byte in Hx.
  assert (Hall : forallb (fun n => (0 <=? swap_nibbles (Z.of_nat n)) && (swap_nibbles (Z.of_nat n) <? 256)) (seq 0 256) = true) by (vm_compute; reflexivity).
  rewrite forallb_forall in Hall. specialize (Hall (Z.to_nat x)). rewrite Z2Nat.id in Hall by lia.
  assert (Hin : In (Z.to_nat x) (seq 0 256)) by (apply in_seq; lia). apply Hall in Hin. unfold is_byte. lia.
Qed.

(** * USB *)
Lemma transfer_full full last rest : Forall (fun p => List.length p = 512%nat) full -> (List.length last < 512)%nat ->
  transfer ((full ++ [last]) ++ rest) = Some (List.concat full ++ last, rest).
Proof.
  intros Hf Hl. induction Hf as [|p full Hp Hf IH]; cbn [app transfer List.concat].
  - replace (List.length last <? 512)%nat with true by (symmetry; apply Nat.ltb_lt; exact Hl). reflexivity.
  - rewrite Hp. change (512 <? 512)%nat with false. cbn [app] in IH. rewrite IH. cbn iota. rewrite app_assoc. reflexivity.
Qed.
Lemma read_until_short_full full last rest : Forall (fun p => List.length p = 512%nat) full -> (List.length last < 512)%nat ->
  forall fuel, (List.length full < fuel)%nat -> read_until_short fuel ((full ++ [last]) ++ rest) = Some (List.concat full ++ last, rest).
Proof.
  intros Hf Hl. induction Hf as [|p full Hp Hf IH]; intros fuel Hfuel; cbn [app]; (destruct fuel as [|fuel]; [cbn [List.length] in Hfuel; lia|]);
    cbn [read_until_short List.concat].
  - unfold block. replace (Nat.eqb (List.length last) 512) with false by (symmetry; apply Nat.eqb_neq; lia). reflexivity.
  - rewrite Hp. unfold block at 1. change (Nat.eqb 512 512) with true. cbn iota. cbn [List.length] in Hfuel.
    rewrite IH by lia. cbn iota. rewrite app_assoc. reflexivity.
Qed.
Lemma chunks_spec fuel : forall data, (List.length data <= fuel)%nat -> data <> [] ->
  exists full last, chunks fuel data = full ++ [last] /\ Forall (fun p => List.length p = 512%nat) full /\
    (0 < List.length last <= 512)%nat /\ data = List.concat full ++ last.
Proof.
  induction fuel as [|fuel IH]; intros data Hlen Hne.
  - destruct data; [contradiction|cbn in Hlen; lia].
  - destruct data as [|x data]; [contradiction|]. cbn [chunks].
    set (d := x :: data) in *. clearbody d.
    assert (Hpos : (0 < List.length d)%nat) by (destruct d; [contradiction|cbn; lia]).
    destruct (Nat.le_gt_cases (List.length d) 512) as [Hs|Hs].
    + unfold block. rewrite firstn_all2, skipn_all2 by lia. exists [], d.
      split; [destruct fuel; reflexivity|]. split; [constructor|]. split; [lia|reflexivity].
    + assert (Hsk : List.length (skipn block d) = (List.length d - 512)%nat) by (unfold block; apply skipn_length).
      destruct (IH (skipn block d)) as (full & last & E & Hf & Hl & Hd).
      * lia.
      * intros C. rewrite C in Hsk. cbn in Hsk. lia.
      * rewrite E. exists (firstn block d :: full), last.
        split; [reflexivity|]. split; [constructor; [|exact Hf]|].
        { rewrite firstn_length. unfold block. lia. }
        split; [exact Hl|]. cbn [List.concat]. rewrite <- app_assoc, <- Hd, firstn_skipn. reflexivity.
Qed.
Lemma concat_full_length full : Forall (fun p : list Z => List.length p = 512%nat) full -> List.length (List.concat full) = (512 * List.length full)%nat.
Proof. induction 1 as [|p full Hp Hf IH]; [reflexivity|]. cbn [List.concat List.length]. rewrite app_length, Hp, IH. lia. Qed.
Lemma download_is_transfer cmd m t data : data <> [] ->
  exists packets, download_data cmd m t data = [cmd; m; t] :: packets /\ is_transfer packets data.
Proof.
  intros Hne. unfold download_data. cbn [usb_write]. change (chunks (List.length [cmd; m; t]) [cmd; m; t]) with [[cmd; m; t]].
  cbn [app]. eexists. split; [reflexivity|].
  destruct (chunks_spec (List.length data) data (le_n _) Hne) as (full & last & E & Hf & Hl & Hd).
  assert (Hw : usb_write data = full ++ [last]) by (destruct data; [contradiction|exact E]).
  rewrite Hw.
  assert (HL : List.length data = (512 * List.length full + List.length last)%nat) by (rewrite Hd at 1; rewrite app_length, concat_full_length by exact Hf; reflexivity).
  unfold block. destruct (Nat.eq_dec (List.length last) 512) as [H5|H5].
  - replace (Nat.eqb (Nat.modulo (List.length data) 512) 0) with true.
    2:{ symmetry. apply Nat.eqb_eq. rewrite HL, H5. replace (512 * List.length full + 512)%nat with ((List.length full + 1) * 512)%nat by lia. apply Nat.mod_mul. lia. }
    exists (full ++ [last]), []. split; [reflexivity|]. split; [apply Forall_app; split; [exact Hf|constructor; [exact H5|constructor]]|].
    split; [cbn; lia|]. rewrite concat_app, app_nil_r. cbn [List.concat]. rewrite app_nil_r. exact Hd.
  - replace (Nat.eqb (Nat.modulo (List.length data) 512) 0) with false.
    2:{ symmetry. apply Nat.eqb_neq. rewrite HL. rewrite Nat.add_comm, Nat.mul_comm, Nat.mod_add by lia. rewrite Nat.mod_small by lia. lia. }
    rewrite app_nil_r. exists full, last. split; [reflexivity|]. split; [exact Hf|]. split; [lia|exact Hd].
Qed.

(** * Versions *)
Lemma split_dots_nodot s : forall cur rest, Forall (fun c => c <> "."%char) s ->
  split_dots cur (s ++ "."%char :: rest) = match rev s ++ cur with [] => split_dots [] rest | l => rev l :: split_dots [] rest end.
Proof.
  induction s as [|c s IH]; intros cur rest Hs; cbn [app split_dots rev].
  - rewrite Ascii.eqb_refl. destruct cur; reflexivity.
  - inversion Hs as [|? ? Hc Hs']; subst. destruct (Ascii.eqb_spec c "."%char) as [E|E]; [contradiction|].
    rewrite IH by exact Hs'. rewrite <- app_assoc. reflexivity.
Qed.
Lemma split_dots_end s : forall cur, Forall (fun c => c <> "."%char) s ->
  split_dots cur s = match rev s ++ cur with [] => [] | l => [rev l] end.
Proof.
  induction s as [|c s IH]; intros cur Hs; cbn [app split_dots rev].
  - destruct cur; reflexivity.
  - inversion Hs as [|? ? Hc Hs']; subst. destruct (Ascii.eqb_spec c "."%char) as [E|E]; [contradiction|].
    rewrite IH by exact Hs'. rewrite <- app_assoc. reflexivity.
Qed.
Definition chars (d : Decimal.uint) : list ascii := list_ascii_of_string (NilEmpty.string_of_uint d).
Lemma parse_chars d : forall acc, parse_digits (Z.of_nat acc) (chars d) = Some (Z.of_nat (Nat.of_uint_acc d acc)).
Proof.
  unfold chars. induction d; intros acc; cbn [NilEmpty.string_of_uint list_ascii_of_string parse_digits Nat.of_uint_acc]; [reflexivity| ..];
    (match goal with |- context [digit ?c] => let v := eval vm_compute in (digit c) in change (digit c) with v end; cbn iota;
     rewrite <- IHd; f_equal;
     change (Nat.tail_mul 10 acc) with (Nat.tail_addmul 0 10 acc);
     rewrite ?Nat.tail_mul_spec; try (unfold Nat.tail_addmul; idtac); lia).
Qed.
Lemma chars_nodot d : Forall (fun c => c <> "."%char) (chars d).
Proof. unfold chars. induction d; cbn [NilEmpty.string_of_uint list_ascii_of_string]; constructor; try assumption; discriminate. Qed.
