(** C39-C43: flash images, host transfers, metadata, versions, dynamic shapes. *)
From Coq Require Import List ZArith Bool Arith Lia Ascii String DecimalString DecimalNat.
Import ListNotations.
From Verif Require Import HostModel HostSpec HostProofs.
Local Open Scope list_scope.
Local Open Scope Z_scope.

(** * C39: flash image *)
(** Every engine's model and parameters are read back exactly, whatever the number of
    engines and the contents, as long as the image has less than 2^32 bytes. *)
Theorem C39_flash_image : forall (es : list engine) (i : nat) (e : engine),
  len (flash_image es) < 2 ^ 32 -> nth_error es i = Some e ->
  read_model (flash_image es) i = e_model e /\
  read_params (flash_image es) i = e_params e /\
  region (flash_image es) (entry (flash_image es) i 2) (entry (flash_image es) i 3) = e_ops e /\
  region (flash_image es) (entry (flash_image es) i 3) (entry (flash_image es) i 3 + len (e_xip e)) = e_xip e.
Proof.
  intros es i e Hsize Hi.
  destruct (nth_error_split es i Hi) as (pre & post & -> & Hlen).
  destruct (image_at pre e post) as (H1 & H2 & E & L1 & L2).
  set (es := pre ++ e :: post) in *. set (s0 := 36 + 16 * Z.of_nat (List.length es)) in *.
  set (s := s0 + engines_size pre) in *. set (img := flash_image es) in *.
  assert (Hn : 0 <= len H1 /\ 0 <= len H2 /\ 0 <= engines_size pre /\ 0 <= len (e_model e) /\ 0 <= len (e_params e) /\ 0 <= len (e_ops e)
     /\ 0 <= len (e_xip e) /\ 0 <= len (flat_map engine_bytes post)).
  { rewrite <- (len_engines pre). repeat split; apply len_nonneg. }
  assert (Htot : len img = s + engine_size e + len (flat_map engine_bytes post)).
  { rewrite E, !len_app, len_engine, len_engines. unfold header_bytes. rewrite !len_app, !len_tobytes. lia. }
  set (tailE := flat_map engine_bytes post) in *.
  unfold engine_size in Htot.
  assert (W0 : entry img i 0 = s).
  { unfold entry. rewrite E. unfold header_bytes, make_header. cbn [h_model h_params h_ops h_xip]. rewrite <- !app_assoc.
    apply word_mid; lia. }
  assert (W1 : entry img i 1 = s + len (e_model e) + 4).
  { unfold entry. rewrite E. unfold header_bytes, make_header. cbn [h_model h_params h_ops h_xip]. rewrite <- !app_assoc.
    rewrite (app_assoc H1). apply word_mid; [lia|rewrite len_app, len_tobytes; lia]. }
  assert (W2 : entry img i 2 = s + len (e_model e) + 4 + len (e_params e)).
  { unfold entry. rewrite E. unfold header_bytes, make_header. cbn [h_model h_params h_ops h_xip]. rewrite <- !app_assoc.
    rewrite (app_assoc H1), (app_assoc (H1 ++ _)). apply word_mid; [lia|rewrite !len_app, !len_tobytes; lia]. }
  assert (W3 : entry img i 3 = s + len (e_model e) + 4 + len (e_params e) + len (e_ops e)).
  { unfold entry. rewrite E. unfold header_bytes, make_header. cbn [h_model h_params h_ops h_xip]. rewrite <- !app_assoc.
    rewrite (app_assoc H1), (app_assoc (H1 ++ _)), (app_assoc ((H1 ++ _) ++ _)). apply word_mid; [lia|rewrite !len_app, !len_tobytes; lia]. }
  (* the data *)
  set (before := H1 ++ header_bytes (make_header e s) ++ H2 ++ flat_map engine_bytes pre) in *.
  assert (Hb : len before = s).
  { unfold before. rewrite !len_app, len_engines. unfold header_bytes. rewrite !len_app, !len_tobytes. lia. }
  assert (E' : img = before ++ tobytes (len (e_model e)) ++ e_model e ++ e_params e ++ e_ops e ++ e_xip e ++ tailE).
  { rewrite E. unfold before, engine_bytes. rewrite <- !app_assoc. reflexivity. }
  clearbody before tailE. clear E.
  assert (WL : word_at img s = len (e_model e)).
  { rewrite E'. apply word_mid; lia. }
  unfold read_model, read_params. rewrite W0, W1, W2, W3, WL, E'.
  split; [|split; [|split]].
  - rewrite app_assoc. apply region_mid; rewrite len_app, len_tobytes; lia.
  - rewrite app_assoc, (app_assoc (before ++ _)). apply region_mid; rewrite !len_app, len_tobytes; lia.
  - rewrite app_assoc, (app_assoc (before ++ _)), (app_assoc ((before ++ _) ++ _)). apply region_mid; rewrite !len_app, len_tobytes; lia.
  - rewrite app_assoc, (app_assoc (before ++ _)), (app_assoc ((before ++ _) ++ _)), (app_assoc (((before ++ _) ++ _) ++ _)).
    apply region_mid; rewrite !len_app, len_tobytes; lia.
Qed.

(** The regions follow each other without overlap, engine after engine, and end with the image. *)
Theorem C39_regions : forall (es : list engine) (i j : nat) (e f : engine),
  len (flash_image es) < 2 ^ 32 -> nth_error es i = Some e -> nth_error es j = Some f -> (i < j)%nat ->
  let img := flash_image es in
  36 + 16 * Z.of_nat (List.length es) <= entry img i 0 /\
  entry img i 0 + 4 <= entry img i 1 <= entry img i 2 /\ entry img i 2 <= entry img i 3 /\
  entry img i 3 + len (e_xip e) <= entry img j 0 /\ entry img j 3 + len (e_xip f) <= len img.
Proof.
  assert (W : forall es i e, len (flash_image es) < 2 ^ 32 -> nth_error es i = Some e ->
    let s := 36 + 16 * Z.of_nat (List.length es) + engines_size (firstn i es) in
    entry (flash_image es) i 0 = s /\ entry (flash_image es) i 1 = s + len (e_model e) + 4 /\
    entry (flash_image es) i 2 = s + len (e_model e) + 4 + len (e_params e) /\
    entry (flash_image es) i 3 = s + len (e_model e) + 4 + len (e_params e) + len (e_ops e) /\
    s + engine_size e <= len (flash_image es)).
  { intros es i e Hsize Hi.
    destruct (nth_error_split es i Hi) as (pre & post & -> & Hlen).
    assert (Hf : firstn i (pre ++ e :: post) = pre).
    { rewrite firstn_app, Hlen, Nat.sub_diag. cbn [firstn]. rewrite app_nil_r, <- Hlen. apply firstn_all. }
    rewrite Hf.
    destruct (image_at pre e post) as (H1 & H2 & E & L1 & L2).
    set (es := pre ++ e :: post) in *. set (s0 := 36 + 16 * Z.of_nat (List.length es)) in *.
    set (s := s0 + engines_size pre) in *. set (img := flash_image es) in *.
    assert (Hn : 0 <= len H1 /\ 0 <= len H2 /\ 0 <= engines_size pre /\ 0 <= len (e_model e) /\ 0 <= len (e_params e) /\ 0 <= len (e_ops e)
       /\ 0 <= len (e_xip e) /\ 0 <= len (flat_map engine_bytes post)).
    { rewrite <- (len_engines pre). repeat split; apply len_nonneg. }
    assert (Htot : len img = s + engine_size e + len (flat_map engine_bytes post)).
    { rewrite E, !len_app, len_engine, len_engines. unfold header_bytes. rewrite !len_app, !len_tobytes. lia. }
    set (tailE := flat_map engine_bytes post) in *.
    intros s'. change s' with s. clear s'. unfold engine_size in Htot.
    unfold entry. rewrite E. unfold header_bytes, make_header. cbn [h_model h_params h_ops h_xip]. rewrite <- !app_assoc.
    split; [apply word_mid; lia|].
    split; [rewrite (app_assoc H1); apply word_mid; [lia|rewrite len_app, len_tobytes; lia]|].
    split; [rewrite (app_assoc H1), (app_assoc (H1 ++ _)); apply word_mid; [lia|rewrite !len_app, !len_tobytes; lia]|].
    split; [rewrite (app_assoc H1), (app_assoc (H1 ++ _)), (app_assoc ((H1 ++ _) ++ _)); apply word_mid; [lia|rewrite !len_app, !len_tobytes; lia]|].
    fold s. match goal with |- _ <= ?x => replace x with (len img) end.
    2:{ rewrite E. unfold header_bytes, make_header. cbn [h_model h_params h_ops h_xip]. rewrite <- !app_assoc. reflexivity. }
    unfold engine_size. lia. }
  intros es i j e f Hsize Hi Hj Hij img.
  destruct (W es i e Hsize Hi) as (Wi0 & Wi1 & Wi2 & Wi3 & _).
  destruct (W es j f Hsize Hj) as (Wj0 & Wj1 & Wj2 & Wj3 & Wje).
  fold img in Wi0, Wi1, Wi2, Wi3, Wj0, Wj1, Wj2, Wj3, Wje.
  assert (Hp : engines_size (firstn i es) + engine_size e <= engines_size (firstn j es)).
  { destruct (nth_error_split es i Hi) as (pre & post & -> & Hlen).
    assert (Hf : firstn i (pre ++ e :: post) = pre).
    { rewrite firstn_app, Hlen, Nat.sub_diag. cbn [firstn]. rewrite app_nil_r, <- Hlen. apply firstn_all. }
    rewrite Hf. rewrite firstn_app. rewrite firstn_all2 by lia.
    destruct (j - List.length pre)%nat as [|k] eqn:Ek; [lia|]. cbn [firstn]. rewrite engines_size_app.
    cbn [engines_size fold_right]. change (fold_right (fun (e : engine) (a : Z) => engine_size e + a) 0 (firstn k post)) with (engines_size (firstn k post)).
    pose proof (len_nonneg (flat_map engine_bytes (firstn k post))) as Hx. rewrite len_engines in Hx. lia. }
  assert (Hn : 0 <= engines_size (firstn i es)).
  { rewrite <- len_engines. apply len_nonneg. }
  pose proof (len_nonneg (e_model e)). pose proof (len_nonneg (e_params e)). pose proof (len_nonneg (e_ops e)). pose proof (len_nonneg (e_xip e)).
  rewrite Wi0, Wi1, Wi2, Wi3, Wj0, Wj3. unfold engine_size in *. repeat split; lia.
Qed.

(** The file has the nibbles of every byte swapped; swapping them again gives the image.
    The contents are made of bytes when the models and parameters are. *)
(** Every image starts with the calibration pattern and version 1.2, each byte of the version followed by its complement. *)
Theorem C39_preamble : forall es,
  (forall k, (k < 8)%nat -> word_at (flash_image es) (4 * Z.of_nat k) = nth k calibration_pattern 0) /\
  byte_at (flash_image es) 32 = 1 /\ byte_at (flash_image es) 33 = 2 /\
  byte_at (flash_image es) 34 = 255 - byte_at (flash_image es) 32 /\ byte_at (flash_image es) 35 = 255 - byte_at (flash_image es) 33.
Proof.
  intros es. unfold flash_image. generalize (flat_map header_bytes (make_headers es (32 + 4 + 16 * Z.of_nat (List.length es))) ++ flat_map engine_bytes es) as rest.
  intros rest. split; [|repeat split].
  intros k H. do 8 (destruct k as [|k]; [reflexivity|]). lia.
Qed.
Theorem C39_file : forall es,
  (forall e, In e es -> Forall is_byte (e_model e) /\ Forall is_byte (e_params e) /\ Forall is_byte (e_ops e) /\ Forall is_byte (e_xip e)) ->
  Forall is_byte (flash_file es) /\ map swap_nibbles (flash_file es) = flash_image es.
Proof.
  intros es Hes.
  assert (Hb : Forall is_byte (flash_image es)).
  { unfold flash_image. rewrite app_assoc. apply Forall_app. split; [|apply Forall_app; split].
    - assert (Hm : forallb (fun b => (0 <=? b) && (b <? 256)) (magic ++ version_bytes) = true) by (vm_compute; reflexivity).
      rewrite forallb_forall in Hm. apply Forall_forall. intros x Hx. apply Hm in Hx. unfold is_byte. lia.
    - apply Forall_forall. intros x Hx. apply in_flat_map in Hx. destruct Hx as (h & _ & Hx).
      assert (Hh : Forall is_byte (header_bytes h)) by (unfold header_bytes; rewrite !Forall_app; repeat split; apply tobytes_bytes).
      rewrite Forall_forall in Hh. apply Hh. exact Hx.
    - apply Forall_forall. intros x Hx. apply in_flat_map in Hx. destruct Hx as (e & He & Hx).
      destruct (Hes e He) as (A & B & C & D).
      assert (Hh : Forall is_byte (engine_bytes e)) by (unfold engine_bytes; rewrite !Forall_app; repeat split; try assumption; apply tobytes_bytes).
      rewrite Forall_forall in Hh. apply Hh. exact Hx. }
  unfold flash_file. split.
  - apply Forall_map. eapply Forall_impl; [|exact Hb]. apply swap_byte.
  - rewrite map_map. rewrite <- (map_id (flash_image es)) at 2. apply map_ext_in. intros x Hx.
    rewrite Forall_forall in Hb. apply swap_involutive, Hb, Hx.
Qed.

(** generate_flash: every readable pair of files ends up in the image, in order. *)
Theorem C39_generate : forall fs models params file,
  generate_flash fs models params = Some file ->
  List.length models = List.length params /\
  exists es, file = map swap_nibbles (flash_image es) /\ List.length es = List.length models /\
  forall i m p, nth_error models i = Some m -> nth_error params i = Some p ->
    exists e, nth_error es i = Some e /\
      Some (e_model e) = (if String.eqb m "-" then Some [] else fs m) /\
      Some (e_params e) = (if String.eqb p "-" then Some [] else fs p) /\ e_ops e = [] /\ e_xip e = [].
Proof.
  intros fs models params file H. unfold generate_flash in H.
  destruct (load_engines fs models params) as [es|] eqn:E; [|discriminate]. cbn in H. injection H as <-.
  assert (G : forall models params es, load_engines fs models params = Some es ->
    List.length models = List.length params /\ List.length es = List.length models /\
    forall i m p, nth_error models i = Some m -> nth_error params i = Some p ->
    exists e, nth_error es i = Some e /\
      Some (e_model e) = (if String.eqb m "-" then Some [] else fs m) /\
      Some (e_params e) = (if String.eqb p "-" then Some [] else fs p) /\ e_ops e = [] /\ e_xip e = []).
  { clear. induction models as [|m models IH]; intros params es E.
    - destruct params; [|discriminate]. cbn in E. injection E as <-. repeat split; try reflexivity.
      intros i m p Hm. destruct i; discriminate.
    - destruct params as [|p params]; [discriminate|]. cbn [load_engines] in E.
      destruct (read_whole_binary_file fs m) as [a|] eqn:Ea; [|discriminate].
      destruct (read_whole_binary_file fs p) as [b|] eqn:Eb; [|discriminate].
      destruct (load_engines fs models params) as [es'|] eqn:Ees; [|discriminate]. injection E as <-.
      destruct (IH _ _ Ees) as (L1 & L2 & Hall). cbn [List.length]. split; [congruence|]. split; [congruence|].
      intros [|i] m' p' Hm Hp; cbn [nth_error] in Hm, Hp.
      + injection Hm as <-. injection Hp as <-. eexists. split; [reflexivity|]. cbn [e_model e_params e_ops e_xip].
        unfold read_whole_binary_file in Ea, Eb. repeat split; congruence.
      + apply Hall; assumption. }
  destruct (G _ _ _ E) as (L1 & L2 & Hall). split; [exact L1|]. exists es. split; [reflexivity|]. split; assumption.
Qed.
Theorem C39_generate_fails : forall fs models params, List.length models <> List.length params -> generate_flash fs models params = None.
Proof.
  intros fs models params H. destruct (generate_flash fs models params) eqn:E; [|reflexivity].
  exfalso. apply H. apply (C39_generate _ _ _ _ E).
Qed.

(** Beyond 2^32 bytes the addresses wrap around: with 2^32 bytes of parameters in engine 0
    the header of engine 1 points to the wrong place. *)
Theorem C39_refuted_beyond_4GB : exists e0 e1 : engine,
  entry (flash_image [e0; e1]) 1 0 <> 36 + 16 * 2 + engine_size e0.
Proof.
  exists (Engine [] (repeat 0 (Z.to_nat (2 ^ 32))) [] []), (Engine [7] [] [] []).
  set (big := repeat 0 (Z.to_nat (2 ^ 32))).
  assert (Lb : len big = 2 ^ 32) by (unfold len, big; rewrite repeat_length, Z2Nat.id by lia; reflexivity).
  unfold entry, flash_image. cbn [List.length make_headers flat_map].
  unfold engine_size. cbn [e_model e_params e_ops e_xip]. rewrite Lb.
  unfold make_header, header_bytes at 1. cbn [e_model e_params e_ops e_xip h_length h_model h_params h_ops h_xip].
  change (len []) with 0. rewrite Lb.
  assert (Hm : forall v (a b : list Z) p, p = len a -> word_at (a ++ tobytes v ++ b) p < 2 ^ 32).
  { intros v a b p ->. unfold word_at. rewrite <- (Z.add_0_r (len a)) at 1.
    rewrite !byte_at_mid by (rewrite len_tobytes; lia).
    pose proof (tobytes_bytes v) as Hb. rewrite tobytes_mod in *.
    inversion_clear Hb as [|x0 l0 B0 Hb1]. inversion_clear Hb1 as [|x1 l1 B1 Hb2]. inversion_clear Hb2 as [|x2 l2 B2 Hb3]. inversion_clear Hb3 as [|x3 l3 B3 Hb4].
    unfold byte_at, is_byte in *. change (Z.to_nat 0) with 0%nat. change (Z.to_nat 1) with 1%nat. change (Z.to_nat 2) with 2%nat. change (Z.to_nat 3) with 3%nat.
    cbn [nth]. change (2 ^ 8) with 256. change (2 ^ 16) with 65536. change (2 ^ 24) with 16777216. change (2 ^ 32) with 4294967296. lia. }
  clearbody big. clear Lb.
  intros C. unfold header_bytes in C. cbn [h_length h_model h_params h_ops h_xip] in C.
  rewrite <- !app_assoc in C.
  match type of C with word_at (?a1 ++ ?a2 ++ ?a3 ++ ?a4 ++ ?a5 ++ ?a6 ++ tobytes ?v ++ ?r) _ = _ =>
    assert (X : a1 ++ a2 ++ a3 ++ a4 ++ a5 ++ a6 ++ tobytes v ++ r = (a1 ++ a2 ++ a3 ++ a4 ++ a5 ++ a6) ++ tobytes v ++ r) by (rewrite <- !app_assoc; reflexivity);
    rewrite X in C; pose proof (Hm v (a1 ++ a2 ++ a3 ++ a4 ++ a5 ++ a6) r (36 + 16 * Z.of_nat 1 + 4 * Z.of_nat 0)) as Y
  end.
  rewrite C in Y. specialize (Y eq_refl). change (2 ^ 32) with 4294967296 in Y. lia.
Qed.

(** * C40: USB transfers *)
(** The packets of a sequence of calls on an IOServer. *)
Definition packets_of (c : call) : list (list Z) :=
  match c with
  | WriteInput m t d => download_data 3 m t d
  | ReadOutput m t => usb_write [2; m; t]
  | StartInference => invoke_packets
  | Reset => reset_packets
  end.
(** Any history of calls arrives at the device as exactly these commands with exactly these
    data, when no written tensor is empty. *)
Theorem C40_session : forall calls : list call,
  (forall m t d, In (WriteInput m t d) calls -> d <> []) ->
  device_receives (flat_map packets_of calls) = Some (map expected calls).
Proof.
  intros calls Hne. unfold device_receives.
  assert (G : forall fuel, (List.length (flat_map packets_of calls) <= fuel)%nat -> device fuel (flat_map packets_of calls) = Some (map expected calls)).
  { induction calls as [|c calls IH]; intros fuel Hf.
    - cbn. destruct fuel; reflexivity.
    - cbn [flat_map map] in *. rewrite app_length in Hf.
      assert (IH' : forall n, (List.length (flat_map packets_of calls) <= n)%nat -> device n (flat_map packets_of calls) = Some (map expected calls)).
      { apply IH. intros m t d Hin. apply (Hne m t). right. exact Hin. }
      destruct c as [m t d|m t| |].
      + destruct (download_is_transfer 3 m t d) as (ps & E & full & last & Ep & Hfull & Hlast & Hd).
        { apply (Hne m t). left. reflexivity. }
        cbn [packets_of] in Hf |- *. rewrite E in Hf |- *. destruct fuel as [|fuel]; [cbn [List.length] in Hf; lia|].
        cbn [app device]. cbn [Z.eqb Pos.eqb]. rewrite Ep, transfer_full by assumption. cbn iota.
        rewrite IH'. 2:{ cbn [List.length] in Hf. lia. }
        cbn [option_map expected]. rewrite Hd. reflexivity.
      + cbn [packets_of] in Hf |- *. change (usb_write [2; m; t]) with [[2; m; t]] in *. destruct fuel as [|fuel]; [cbn [List.length] in Hf; lia|].
        cbn [app device]. cbn [Z.eqb Pos.eqb]. rewrite IH' by (cbn [List.length] in Hf; lia). reflexivity.
      + cbn [packets_of] in Hf |- *. change invoke_packets with [[1; 0; 0]; []] in *. destruct fuel as [|fuel]; [cbn [List.length] in Hf; lia|].
        cbn [app device transfer]. cbn [Z.eqb Pos.eqb List.length Nat.ltb Nat.leb]. cbn iota. rewrite IH' by (cbn [List.length] in Hf; lia). reflexivity.
      + cbn [packets_of] in Hf |- *. change reset_packets with [[7; 0; 0]; []] in *. destruct fuel as [|fuel]; [cbn [List.length] in Hf; lia|].
        cbn [app device transfer]. cbn [Z.eqb Pos.eqb List.length Nat.ltb Nat.leb]. cbn iota. rewrite IH' by (cbn [List.length] in Hf; lia). reflexivity. }
  apply G. lia.
Qed.
(** Reading: whatever the length, the data of the first transfer of the device, and the
    packets after it stay for the next read. *)
Theorem C40_upload : forall (packets rest : list (list Z)) (data : list Z),
  is_transfer packets data -> upload_data (packets ++ rest) = Some (data, rest).
Proof.
  intros packets rest data (full & last & -> & Hf & Hl & ->). unfold upload_data.
  apply read_until_short_full; try assumption. rewrite !app_length. cbn. lia.
Qed.
(** Every data has such packets: what the host itself would send. *)
Theorem C40_transfer_exists : forall data, exists packets, is_transfer packets data.
Proof.
  intros [|x data].
  - exists [[]], [], []. repeat split; [constructor|cbn; lia].
  - destruct (download_is_transfer 3 0 0 (x :: data)) as (ps & _ & H); [discriminate|]. exists ps. exact H.
Qed.
(** The array handed to the user is the tensor, also when the device sends a padded tensor. *)
Theorem C40_bytes_to_arr : forall (shape : list nat) (tensor padding : list Z),
  List.length tensor = fold_right Nat.mul 1%nat shape -> bytes_to_arr shape (tensor ++ padding) = Some tensor.
Proof.
  intros shape tensor padding H. unfold bytes_to_arr. rewrite <- H.
  rewrite firstn_app, Nat.sub_diag, firstn_all. cbn [firstn]. rewrite app_nil_r, Nat.eqb_refl. reflexivity.
Qed.
(** An empty tensor: two empty packets are sent, the device takes the second for a command. *)
Theorem C40_refuted_empty : device_receives (flat_map packets_of [WriteInput 0 0 []; StartInference]) = None.
Proof. reflexivity. Qed.

(** * C41: offline memory plan metadata *)
Lemma words_at (ws : list Z) : forall k w, nth_error ws k = Some w -> - 2 ^ 31 <= w < 2 ^ 31 ->
  int_at (flat_map (fun w => tobytes (w mod 2 ^ 32)) ws) k = w.
Proof.
  intros k w Hk Hw. destruct (nth_error_split ws k Hk) as (pre & post & -> & Hlen).
  unfold int_at. rewrite flat_map_app. cbn [flat_map].
  rewrite word_mid.
  - change (2 ^ 31) with 2147483648 in *. change (2 ^ 32) with 4294967296 in *. destruct (Z_lt_le_dec w 0) as [Hn|Hn].
    + replace (w mod 4294967296) with (w + 4294967296). 2:{ rewrite <- (Z.mod_add w 1) by lia. rewrite Z.mod_small; lia. }
      replace (w + 4294967296 <? 2147483648) with false by lia. lia.
    + rewrite Z.mod_small by lia. replace (w <? 2147483648) with true by lia. reflexivity.
  - apply Z.mod_pos_bound. lia.
  - rewrite <- Hlen. clear. unfold len. induction pre as [|x pre IH]; [reflexivity|]. cbn [flat_map List.length].
    rewrite app_length, tobytes_length. lia.
Qed.
Lemma words_len (ws : list Z) : len (flat_map (fun w => tobytes (w mod 2 ^ 32)) ws) = 4 * Z.of_nat (List.length ws).
Proof. unfold len. induction ws as [|x ws IH]; [reflexivity|]. cbn [flat_map List.length]. rewrite app_length, tobytes_length. lia. Qed.

(** The metadata buffer read by the runtime: format version 0, subgraph 0, the number of
    tensors, then the offset of every tensor; its size is a multiple of 16 bytes. *)
Theorem C41_offline_metadata : forall offsets : list Z,
  Z.of_nat (List.length offsets) < 2 ^ 31 -> (forall o, In o offsets -> - 2 ^ 31 <= o < 2 ^ 31) ->
  let m := offline_metadata offsets in
  int_at m 0 = 0 /\ int_at m 1 = 0 /\ int_at m 2 = Z.of_nat (List.length offsets) /\
  (forall t o, nth_error offsets t = Some o -> int_at m (3 + t) = o) /\
  len m mod 16 = 0 /\ 4 * (3 + Z.of_nat (List.length offsets)) <= len m < 4 * (3 + Z.of_nat (List.length offsets)) + 16.
Proof.
  intros offsets Hn Ho m. unfold m, offline_metadata.
  assert (Hnth : forall k w, nth_error ([0; 0; Z.of_nat (List.length offsets)] ++ offsets) k = Some w -> nth_error (offline_words offsets) k = Some w).
  { intros k w Hk. unfold offline_words. rewrite nth_error_app1; [exact Hk|]. apply nth_error_Some. congruence. }
  split; [apply words_at; [apply Hnth; reflexivity|lia]|].
  split; [apply words_at; [apply Hnth; reflexivity|lia]|].
  split; [apply words_at; [apply Hnth; reflexivity|lia]|].
  split. { intros t o Ht. apply words_at; [apply Hnth; exact Ht|]. apply Ho. eapply nth_error_In. exact Ht. }
  rewrite words_len.
  assert (HL : Z.of_nat (List.length (offline_words offsets)) = (3 + Z.of_nat (List.length offsets) + 3) / 4 * 4).
  { unfold offline_words. rewrite app_length, repeat_length. set (n := List.length ([0; 0; Z.of_nat (List.length offsets)] ++ offsets)).
    assert (En : n = (3 + List.length offsets)%nat) by reflexivity. clearbody n.
    assert (Hd : ((n + 3) / 4 * 4 >= n)%nat).
    { pose proof (Nat.div_mod (n + 3) 4 ltac:(lia)) as D. pose proof (Nat.mod_upper_bound (n + 3) 4 ltac:(lia)). lia. }
    replace (n + ((n + 3) / 4 * 4 - n))%nat with ((n + 3) / 4 * 4)%nat by lia.
    rewrite Nat2Z.inj_mul, Nat2Z.inj_div, Nat2Z.inj_add, En, Nat2Z.inj_add. reflexivity. }
  rewrite HL. split; Z.to_euclidean_division_equations; lia.
Qed.
Example C41_example : let m := offline_metadata [73728; -1; 0] in
  map (int_at m) [0; 1; 2; 3; 4; 5; 6; 7]%nat = [0; 0; 3; 73728; -1; 0; 0; 0] /\ List.length m = 32%nat.
Proof. vm_compute. split; reflexivity. Qed.

(** * C42: versions *)
Lemma chars_cons d : exists c tl, list_ascii_of_string (NilZero.string_of_uint d) = c :: tl /\ c <> "-"%char /\ Forall (fun c => c <> "."%char) (c :: tl)
  /\ parse_digits 0 (c :: tl) = Some (Z.of_nat (Nat.of_uint d)).
Proof.
  destruct d as [|d|d|d|d|d|d|d|d|d|d].
  - exists "0"%char, []. split; [reflexivity|]. split; [discriminate|]. split; [constructor; [discriminate|constructor]|reflexivity].
  - change (NilZero.string_of_uint (Decimal.D0 d)) with (NilEmpty.string_of_uint (Decimal.D0 d)); eexists; eexists; split; [reflexivity|]; split; [discriminate|]; split; [exact (chars_nodot (Decimal.D0 d))|exact (parse_chars (Decimal.D0 d) 0%nat)].
  - change (NilZero.string_of_uint (Decimal.D1 d)) with (NilEmpty.string_of_uint (Decimal.D1 d)); eexists; eexists; split; [reflexivity|]; split; [discriminate|]; split; [exact (chars_nodot (Decimal.D1 d))|exact (parse_chars (Decimal.D1 d) 0%nat)].
  - change (NilZero.string_of_uint (Decimal.D2 d)) with (NilEmpty.string_of_uint (Decimal.D2 d)); eexists; eexists; split; [reflexivity|]; split; [discriminate|]; split; [exact (chars_nodot (Decimal.D2 d))|exact (parse_chars (Decimal.D2 d) 0%nat)].
  - change (NilZero.string_of_uint (Decimal.D3 d)) with (NilEmpty.string_of_uint (Decimal.D3 d)); eexists; eexists; split; [reflexivity|]; split; [discriminate|]; split; [exact (chars_nodot (Decimal.D3 d))|exact (parse_chars (Decimal.D3 d) 0%nat)].
  - change (NilZero.string_of_uint (Decimal.D4 d)) with (NilEmpty.string_of_uint (Decimal.D4 d)); eexists; eexists; split; [reflexivity|]; split; [discriminate|]; split; [exact (chars_nodot (Decimal.D4 d))|exact (parse_chars (Decimal.D4 d) 0%nat)].
  - change (NilZero.string_of_uint (Decimal.D5 d)) with (NilEmpty.string_of_uint (Decimal.D5 d)); eexists; eexists; split; [reflexivity|]; split; [discriminate|]; split; [exact (chars_nodot (Decimal.D5 d))|exact (parse_chars (Decimal.D5 d) 0%nat)].
  - change (NilZero.string_of_uint (Decimal.D6 d)) with (NilEmpty.string_of_uint (Decimal.D6 d)); eexists; eexists; split; [reflexivity|]; split; [discriminate|]; split; [exact (chars_nodot (Decimal.D6 d))|exact (parse_chars (Decimal.D6 d) 0%nat)].
  - change (NilZero.string_of_uint (Decimal.D7 d)) with (NilEmpty.string_of_uint (Decimal.D7 d)); eexists; eexists; split; [reflexivity|]; split; [discriminate|]; split; [exact (chars_nodot (Decimal.D7 d))|exact (parse_chars (Decimal.D7 d) 0%nat)].
  - change (NilZero.string_of_uint (Decimal.D8 d)) with (NilEmpty.string_of_uint (Decimal.D8 d)); eexists; eexists; split; [reflexivity|]; split; [discriminate|]; split; [exact (chars_nodot (Decimal.D8 d))|exact (parse_chars (Decimal.D8 d) 0%nat)].
  - change (NilZero.string_of_uint (Decimal.D9 d)) with (NilEmpty.string_of_uint (Decimal.D9 d)); eexists; eexists; split; [reflexivity|]; split; [discriminate|]; split; [exact (chars_nodot (Decimal.D9 d))|exact (parse_chars (Decimal.D9 d) 0%nat)].
Qed.
Lemma decimal_spec n : exists c tl, list_ascii_of_string (decimal n) = c :: tl /\ Forall (fun c => c <> "."%char) (c :: tl)
  /\ to_integer (c :: tl) = if Z.of_nat n <? 2 ^ 31 then Some (Z.of_nat n) else None.
Proof.
  destruct (chars_cons (Nat.to_uint n)) as (c & tl & E & Hm & Hd & Hp). exists c, tl. split; [exact E|]. split; [exact Hd|].
  unfold to_integer. destruct (Ascii.eqb_spec c "-"%char) as [Ec|_]; [contradiction|]. rewrite Hp, Unsigned.of_to.
  replace (- 2 ^ 31 <=? Z.of_nat n) with true by (symmetry; apply Z.leb_le; change (2 ^ 31) with 2147483648; lia). reflexivity.
Qed.
Lemma list_ascii_app a b : list_ascii_of_string (a ++ b)%string = list_ascii_of_string a ++ list_ascii_of_string b.
Proof. induction a as [|c a IH]; cbn; [reflexivity|]. rewrite IH. reflexivity. Qed.
Lemma compatible_of_triple a b c major minor patch :
  is_compatible_version (version_string a b c) major minor patch =
  (Z.of_nat a <? 2 ^ 31) && (Z.of_nat b <? 2 ^ 31) && (Z.of_nat c <? 2 ^ 31) &&
  negb ((major =? 0) && (Z.of_nat a =? 0) && negb (minor =? Z.of_nat b) || negb (major =? Z.of_nat a) || (minor >? Z.of_nat b)).
Proof.
  destruct (decimal_spec a) as (ca & ta & Ea & Da & Ta). destruct (decimal_spec b) as (cb & tb & Eb & Db & Tb). destruct (decimal_spec c) as (cc & tc & Ec & Dc & Tc).
  unfold is_compatible_version, version_string. rewrite !list_ascii_app, Ea, Eb, Ec. cbn [list_ascii_of_string].
  match goal with |- match ?l with _ => _ end = _ => assert (El : l = (ca :: ta) ++ "."%char :: (cb :: tb) ++ "."%char :: (cc :: tc)) by (cbn; reflexivity); rewrite El end.
  assert (Es : split_dots [] ((ca :: ta) ++ "."%char :: (cb :: tb) ++ "."%char :: (cc :: tc)) = [ca :: ta; cb :: tb; cc :: tc]).
  { assert (Hr : forall (x : ascii) (l : list ascii), exists y m, rev (x :: l) ++ [] = y :: m /\ rev (y :: m) = x :: l).
    { intros x l. destruct (rev (x :: l)) as [|y m] eqn:E.
      - apply (f_equal (@List.length ascii)) in E. rewrite rev_length in E. discriminate.
      - exists y, m. split; [apply app_nil_r|]. rewrite <- E. apply rev_involutive. }
    destruct (Hr ca ta) as (ya & ma & R1 & R1'). destruct (Hr cb tb) as (yb & mb & R2 & R2'). destruct (Hr cc tc) as (yc & mc & R3 & R3').
    rewrite split_dots_nodot by exact Da. rewrite R1, R1'. rewrite split_dots_nodot by exact Db. rewrite R2, R2'. rewrite split_dots_end by exact Dc. rewrite R3, R3'. reflexivity. }
  assert (Ed : forall l, l = (ca :: ta) ++ "."%char :: (cb :: tb) ++ "."%char :: (cc :: tc) -> l <> []) by (intros l -> C; discriminate).
  destruct ((ca :: ta) ++ "."%char :: (cb :: tb) ++ "."%char :: (cc :: tc)) as [|c0 l0] eqn:Ell; [discriminate|].
  rewrite Es, Ta, Tb, Tc. destruct (Z.of_nat a <? 2 ^ 31), (Z.of_nat b <? 2 ^ 31), (Z.of_nat c <? 2 ^ 31); reflexivity.
Qed.
(** A version written a.b.c is accepted exactly when it is compatible (numbers that fit in
    an int). *)
Theorem C42_version_check : forall (major minor patch a b c : nat),
  Z.of_nat a < 2 ^ 31 -> Z.of_nat b < 2 ^ 31 -> Z.of_nat c < 2 ^ 31 ->
  is_compatible_version (version_string a b c) (Z.of_nat major) (Z.of_nat minor) (Z.of_nat patch) = true <->
  semver_compatible major minor a b.
Proof.
  intros major minor patch a b c Ha Hb Hc. rewrite compatible_of_triple.
  replace (Z.of_nat a <? 2 ^ 31) with true by (symmetry; apply Z.ltb_lt; assumption). replace (Z.of_nat b <? 2 ^ 31) with true by (symmetry; apply Z.ltb_lt; assumption). replace (Z.of_nat c <? 2 ^ 31) with true by (symmetry; apply Z.ltb_lt; assumption).
  cbn [andb]. unfold semver_compatible. rewrite negb_true_iff, !orb_false_iff, !andb_false_iff, !negb_false_iff, Z.gtb_ltb, !Z.eqb_eq, !Z.eqb_neq, Z.ltb_ge.
  destruct (Nat.eqb_spec major 0) as [E|E]; [subst major|]; split.
  - intros ((H1 & H2) & H3). assert (a = 0)%nat by lia. subst a. split; [reflexivity|]. destruct H1 as [[H1|H1]|H1]; lia.
  - intros [-> ->]. split; [split|]; [right| |]; lia.
  - intros ((H1 & H2) & H3). split; lia.
  - intros [-> H]. split; [split|]; [left; left| |]; lia.
Qed.
(** Numbers that do not fit are refused. *)
Theorem C42_overflow : forall (major minor patch a b c : nat),
  2 ^ 31 <= Z.of_nat a \/ 2 ^ 31 <= Z.of_nat b \/ 2 ^ 31 <= Z.of_nat c ->
  is_compatible_version (version_string a b c) (Z.of_nat major) (Z.of_nat minor) (Z.of_nat patch) = false.
Proof.
  intros major minor patch a b c H. rewrite compatible_of_triple.
  destruct (Z.ltb_spec (Z.of_nat a) (2 ^ 31)), (Z.ltb_spec (Z.of_nat b) (2 ^ 31)), (Z.ltb_spec (Z.of_nat c) (2 ^ 31)); cbn [andb]; try reflexivity. lia.
Qed.
(** Without the option nothing is checked. *)
Theorem C42_no_version : forall major minor patch, is_compatible_version "" major minor patch = true.
Proof. reflexivity. Qed.
(** The format is looser than a.b.c: empty parts are dropped. *)
Theorem C42_format_is_loose : is_compatible_version ".1..2.3." 1 2 0 = true /\ is_compatible_version "1.2" 1 2 0 = false
  /\ is_compatible_version "1.2.x" 1 2 0 = false /\ is_compatible_version "v1.2.3" 1 2 0 = false.
Proof. vm_compute. repeat split; reflexivity. Qed.
Example C42_examples : is_compatible_version "0.5.9" 0 5 3 = true /\ is_compatible_version "0.6.0" 0 5 3 = false
  /\ is_compatible_version "1.7.0" 1 5 3 = true /\ is_compatible_version "2.5.3" 1 5 3 = false /\ is_compatible_version "1.4.9" 1 5 3 = false.
Proof. vm_compute. repeat split; reflexivity. Qed.

(** * C43: dynamic batch *)
(** A static dimension of a tensor: an int. *)
Definition static (d : Z) : Prop := 0 <= d < 2 ^ 31.
Lemma wrap_static d : static d -> wrap_int d = d.
Proof. intros H. unfold static, wrap_int in *. change (2 ^ 31) with 2147483648 in *. change (2 ^ 32) with 4294967296. rewrite Z.mod_small; lia. Qed.
(** Every type of the function (arguments, results, results of operations): a dynamic batch
    dimension becomes 1 and everything else stays; other shapes do not change. *)
Theorem C43_remove_dynamic : forall (f : func_types),
  let g := remove_dynamic_shape f in
  let same_except_batch (before after : list Z) :=
    match before with
    | b :: (_ :: _) as rest => after = (if b =? - 2 ^ 63 then 1 else b) :: tl before
    | _ => after = before
    end in
  let batch_only (s : list Z) := match s with b :: rest => Forall static rest | [] => True end in
  Forall batch_only (f_args f ++ f_results f ++ f_values f) ->
  Forall2 same_except_batch (f_args f) (f_args g) /\ Forall2 same_except_batch (f_results f) (f_results g) /\
  Forall2 same_except_batch (f_values f) (f_values g).
Proof.
  intros f g same batch_only H. rewrite !Forall_app in H. destruct H as (H1 & H2 & H3).
  assert (G : forall l, Forall batch_only l -> Forall2 same l (map new_shape l)).
  { induction 1 as [|s l Hs Hl IH]; cbn [map]; constructor; [|exact IH].
    unfold same. destruct s as [|b [|b' rest]]; [reflexivity|reflexivity|]. cbn [new_shape]. unfold kDynamic.
    destruct (Z.eqb_spec b (- 2 ^ 63)) as [E|E]; [|reflexivity]. f_equal. cbn [tl]. unfold batch_only in Hs.
    clear - Hs. induction Hs as [|d rest' Hd Hr IHr]; [reflexivity|]. cbn [map]. rewrite wrap_static by exact Hd. f_equal. exact IHr. }
  repeat split; apply G; assumption.
Qed.
(** After the pass, tensors of rank at least 2 whose other dimensions are static are static. *)
Theorem C43_result_static : forall b rest, rest <> [] -> Forall static rest -> b = - 2 ^ 63 \/ static b ->
  Forall static (new_shape (b :: rest)).
Proof.
  intros b rest Hne Hr Hb. destruct rest as [|d rest]; [contradiction|]. cbn [new_shape List.tl]. unfold kDynamic.
  destruct (Z.eqb_spec b (- 2 ^ 63)) as [E|E].
  - constructor; [unfold static; lia|].
    assert (Hm : map wrap_int (d :: rest) = d :: rest).
    { clear - Hr. induction Hr as [|x l Hx Hl IH]; [reflexivity|]. cbn [map]. rewrite IH, wrap_static by exact Hx. reflexivity. }
    rewrite Hm. exact Hr.
  - destruct Hb as [Hb|Hb]; [contradiction|]. constructor; assumption.
Qed.
(** With a second dynamic dimension the result has a dimension 0; a rank-1 tensor stays
    dynamic; without a dynamic batch nothing is resolved. *)
Theorem C43_refuted_other_dynamic : new_shape [- 2 ^ 63; - 2 ^ 63; 16] = [1; 0; 16]
  /\ new_shape [- 2 ^ 63] = [- 2 ^ 63] /\ new_shape [1; - 2 ^ 63; 16] = [1; - 2 ^ 63; 16]
  /\ new_shape [- 2 ^ 63; 2 ^ 32 + 3; 2 ^ 31] = [1; 3; - 2 ^ 31].
Proof. vm_compute. repeat split; reflexivity. Qed.
Example C43_example : new_shape [- 2 ^ 63; 224; 224; 3] = [1; 224; 224; 3].
Proof. reflexivity. Qed.

(** Concrete cases of C39 and C40. *)
Example C39_example : let es := [Engine [10; 20; 30] [1; 2] [] []; Engine [] [255; 0; 7] [9] [5; 6]] in
  len (flash_image es) < 2 ^ 32 /\ nth_error es 1 = Some (Engine [] [255; 0; 7] [9] [5; 6]) /\ entry (flash_image es) 1 0 = 77 /\ read_params (flash_image es) 1 = [255; 0; 7].
Proof. vm_compute. repeat split; reflexivity. Qed.
Example C40_example : let calls := [WriteInput 0 0 (repeat 3 1024); StartInference; ReadOutput 0 0] in
  (forall m t d, In (WriteInput m t d) calls -> d <> []) /\ List.length (flat_map packets_of calls) = 7%nat.
Proof. split; [|vm_compute; reflexivity]. intros m t d [H|[H|[H|[]]]]; try discriminate. injection H as _ _ <-. discriminate. Qed.

Print Assumptions C39_flash_image.
Print Assumptions C39_regions.
Print Assumptions C39_file.
Print Assumptions C39_generate.
Print Assumptions C39_refuted_beyond_4GB.
Print Assumptions C40_session.
Print Assumptions C40_upload.
Print Assumptions C41_offline_metadata.
Print Assumptions C42_version_check.
Print Assumptions C42_overflow.
Print Assumptions C43_remove_dynamic.
Print Assumptions C43_result_static.
Print Assumptions C39_preamble.
