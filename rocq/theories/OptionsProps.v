(** C63: layout of the operator parameters.  C64: sizes of tensors. *)
From Coq Require Import String.
From Verif Require Import Base NdSpec NdBase TextModel OptionsModel OptionsSpec.
Local Open Scope list_scope.
Local Open Scope nat_scope.

Lemma le_value_le_bytes : forall w v, (0 <= v < 256 ^ Z.of_nat w)%Z -> le_value (le_bytes w v) = v.
Proof.
  induction w as [|w IH]; intros v H; cbn [le_bytes le_value].
  - change (256 ^ Z.of_nat 0)%Z with 1%Z in H. lia.
  - rewrite Nat2Z.inj_succ, Z.pow_succ_r in H by lia. rewrite IH.
    + pose proof (Z.div_mod v 256). lia.
    + split; [apply Z.div_pos; lia|]. apply Z.div_lt_upper_bound; lia.
Qed.
Lemma le_bytes_length w : forall v, length (le_bytes w v) = w.
Proof. induction w; intros; cbn [le_bytes length]; auto. Qed.

Lemma width_u_pos len : width_u len = 1 \/ width_u len = 2 \/ width_u len = 4 \/ width_u len = 8.
Proof. unfold width_u. destruct (_ <? _)%Z; auto. destruct (_ <? _)%Z; auto. destruct (_ <? _)%Z; auto. Qed.

(** A string put into the buffer can be read back whatever is appended later, and the buffer only grows. *)
Lemma put_string_spec s buf b loc : put_string s buf = (b, loc) -> (Z.of_nat (length s) < 2 ^ 64)%Z ->
  let w := width_u (Z.of_nat (length s)) in
  (exists t, b = buf ++ t) /\ loc = length buf + padding_bytes (length buf) w + w /\ length b = loc + length s + 1 /\
  forall tail, string_at (b ++ tail) loc w s.
Proof.
  unfold put_string. intros E HL. injection E as <- <-. set (w := width_u (Z.of_nat (length s))).
  set (pre := buf ++ repeat 0%Z (padding_bytes (length buf) w)).
  assert (Q : buf ++ repeat 0%Z (padding_bytes (length buf) w) ++ le_bytes w (Z.of_nat (length s)) = pre ++ le_bytes w (Z.of_nat (length s)))
    by (unfold pre; rewrite app_assoc; reflexivity).
  rewrite Q. assert (LP : length pre = length buf + padding_bytes (length buf) w) by (unfold pre; rewrite app_length, repeat_length; reflexivity).
  split; [|split; [|split]].
  - unfold pre. exists (repeat 0%Z (padding_bytes (length buf) w) ++ le_bytes w (Z.of_nat (length s)) ++ s ++ [0%Z]).
    repeat rewrite <- app_assoc. reflexivity.
  - rewrite app_length, le_bytes_length. lia.
  - repeat rewrite app_length. cbn [length]. lia.
  - intros tail. rewrite app_length, le_bytes_length. unfold string_at. repeat rewrite <- app_assoc.
    split; [lia|].
    assert (S1 : skipn (length pre + w) (pre ++ le_bytes w (Z.of_nat (length s)) ++ s ++ [0%Z] ++ tail) = s ++ [0%Z] ++ tail).
    { rewrite app_assoc. rewrite <- (le_bytes_length w (Z.of_nat (length s))) at 1. rewrite <- app_length. rewrite skipn_app, skipn_all, Nat.sub_diag.
      reflexivity. }
    split; [|split].
    + rewrite S1. rewrite firstn_app, firstn_all, Nat.sub_diag. cbn [firstn]. apply app_nil_r.
    + rewrite nth_error_app2 by lia. rewrite nth_error_app2 by (rewrite le_bytes_length; lia). rewrite le_bytes_length.
      rewrite nth_error_app2 by lia. replace (length pre + w + length s - length pre - w - length s) with 0 by lia. reflexivity.
    + replace (length pre + w - w) with (length pre) by lia. rewrite skipn_app, skipn_all, Nat.sub_diag. cbn [app skipn].
      rewrite firstn_app. rewrite firstn_all2 by (rewrite le_bytes_length; lia). rewrite le_bytes_length, Nat.sub_diag. cbn [firstn].
      rewrite app_nil_r. apply le_value_le_bytes. split; [lia|]. unfold w, width_u. change (2 ^ 64)%Z with 18446744073709551616%Z in HL.
      destruct (Z.ltb_spec (Z.of_nat (length s)) 256); [change (256 ^ Z.of_nat 1)%Z with 256%Z; lia|].
      destruct (Z.ltb_spec (Z.of_nat (length s)) 65536); [change (256 ^ Z.of_nat 2)%Z with 65536%Z; lia|].
      destruct (Z.ltb_spec (Z.of_nat (length s)) 4294967296); [change (256 ^ Z.of_nat 4)%Z with 4294967296%Z; lia|].
      change (256 ^ Z.of_nat 8)%Z with 18446744073709551616%Z. lia.
Qed.

Lemma string_at_app buf t loc w s : string_at buf loc w s -> string_at (buf ++ t) loc w s.
Proof.
  unfold string_at. intros (H1 & H2 & H3 & H4).
  assert (L : loc + length s < length buf) by (apply nth_error_Some; congruence).
  repeat split; auto.
  - rewrite skipn_app, firstn_app. rewrite skipn_length. replace (length s - (length buf - loc)) with 0 by lia. cbn [firstn].
    rewrite app_nil_r. exact H2.
  - rewrite nth_error_app1 by lia. exact H3.
  - rewrite skipn_app, firstn_app. rewrite skipn_length. replace (w - (length buf - (loc - w))) with 0 by lia. cbn [firstn].
    rewrite app_nil_r. exact H4.
Qed.

Lemma padding_1 n : padding_bytes n 1 = 0.
Proof. unfold padding_bytes. rewrite Z.mod_1_r. reflexivity. Qed.
Lemma width_small n : n < 256 -> width_u (Z.of_nat n) = 1.
Proof. intros. unfold width_u. destruct (Z.ltb_spec (Z.of_nat n) 256); [reflexivity|lia]. Qed.

(** One parameter after a buffer of length 3 modulo 4. *)
Lemma put_aligned s buf b loc : put_string s buf = (b, loc) -> length s < 256 -> length buf mod 4 = 3 ->
  (exists t, b = buf ++ t) /\ loc mod 4 = 0 /\ length b = loc + length s + 1 /\ string_at b loc 1 s.
Proof.
  intros E L M. destruct (put_string_spec s buf b loc E) as (A & B & C & D).
  { change (2 ^ 64)%Z with 18446744073709551616%Z. lia. }
  rewrite width_small in B, D by exact L. rewrite padding_1 in B. specialize (D []). rewrite app_nil_r in D.
  split; [exact A|]. split; [|split; [exact C|exact D]]. rewrite B. replace (length buf + 0 + 1) with (1 + length buf) by lia.
  rewrite Nat.add_mod by lia. rewrite M. reflexivity.
Qed.

Definition param_ok (limit : nat) (s : list Z) : Prop := length s mod 4 = 0 /\ length s < limit.

Lemma put_kernel_params_spec : forall ps buf b locs, put_kernel_params ps buf = (b, locs) ->
  (forall p, In p ps -> param_ok 254 p) -> length buf mod 4 = 3 ->
  (exists t, b = buf ++ t) /\ length locs = length ps /\
  forall i p loc, nth_error ps i = Some p -> nth_error locs i = Some loc -> loc mod 4 = 0 /\ string_at b loc 1 (p ++ dummy).
Proof.
  induction ps as [|p ps IH]; intros buf b locs E OK M; cbn [put_kernel_params] in E.
  - injection E as <- <-. split; [exists []; rewrite app_nil_r; reflexivity|]. split; [reflexivity|]. intros [|i]; discriminate.
  - destruct (put_string (p ++ dummy) buf) as [b1 l1] eqn:E1. destruct (put_kernel_params ps b1) as [b2 ls] eqn:E2. injection E as <- <-.
    destruct (OK p (or_introl eq_refl)) as [PM PL].
    destruct (put_aligned _ _ _ _ E1) as ([t1 A1] & A2 & A3 & A4); [rewrite app_length; cbn [dummy length]; lia|exact M|].
    destruct (IH b1 b2 ls E2) as ([t2 B1] & B2 & B3).
    { intros q Hq. apply OK. right. exact Hq. }
    { rewrite A3, app_length. cbn [dummy length]. replace (l1 + (length p + 2) + 1) with ((3 + length p) + l1) by lia.
      rewrite Nat.add_mod by lia. rewrite A2. rewrite (Nat.add_mod 3 (length p)) by lia. rewrite PM. reflexivity. }
    split; [exists (t1 ++ t2); rewrite B1, A1, app_assoc; reflexivity|]. split; [cbn [length]; lia|].
    intros [|i] q loc Hq Hl; cbn [nth_error] in Hq, Hl.
    + injection Hq as <-. injection Hl as <-. split; [exact A2|]. rewrite B1. apply string_at_app. exact A4.
    + exact (B3 i q loc Hq Hl).
Qed.

(** C63: every parameter of every thread starts at a multiple of four bytes and is read back verbatim from the finished buffer,
    whatever is appended to it by the rest of the serialisation. *)
Theorem C63_parameters_aligned_partial : forall mp a o ps buf locs tail,
  param_ok 256 mp -> param_ok 256 a -> param_ok 256 o -> (forall p, In p ps -> param_ok 254 p) ->
  conv_options mp a o ps = (buf, locs) ->
  length locs = 3 + length ps /\
  forall i s loc, nth_error (mp :: a :: o :: map (fun p => p ++ [48; 48]%Z) ps) i = Some s -> nth_error locs i = Some loc ->
    loc mod 4 = 0 /\ string_at (buf ++ tail) loc 1 s.
Proof.
  intros mp a o ps buf locs tail [M1 L1] [M2 L2] [M3 L3] OK E. unfold conv_options in E.
  destruct (put_string mp (put_key key_mp [])) as [b1 l1] eqn:E1.
  destruct (put_string a (put_key key_a b1)) as [b2 l2] eqn:E2.
  destruct (put_string o (put_key key_o b2)) as [b3 l3] eqn:E3.
  destruct (put_kernel_params ps (put_key key_p b3)) as [b4 ls] eqn:E4. injection E as <- <-.
  assert (K : forall x b l (s : list Z), length s mod 4 = 0 -> l mod 4 = 0 -> length b = l + length s + 1 -> length (put_key [x] b) mod 4 = 3).
  { intros x b l s H1 H2 H3. unfold put_key. repeat rewrite app_length. cbn [length]. rewrite H3.
    replace (l + length s + 1 + (1 + 1)) with (l + (length s + 3)) by lia. rewrite Nat.add_mod by lia. rewrite H2.
    rewrite (Nat.add_mod (length s)) by lia. rewrite H1. reflexivity. }
  destruct (put_aligned _ _ _ _ E1 L1 eq_refl) as ([t1 A1] & A2 & A3 & A4).
  destruct (put_aligned _ _ _ _ E2 L2 (K _ _ _ _ M1 A2 A3)) as ([t2 B1] & B2 & B3 & B4).
  destruct (put_aligned _ _ _ _ E3 L3 (K _ _ _ _ M2 B2 B3)) as ([t3 C1] & C2 & C3 & C4).
  destruct (put_kernel_params_spec _ _ _ _ E4 OK (K _ _ _ _ M3 C2 C3)) as ([t4 D1] & D2 & D3).
  split; [cbn [length]; rewrite D2; reflexivity|].
  assert (X3 : exists t, b4 = b3 ++ t) by (rewrite D1; unfold put_key; repeat rewrite <- app_assoc; eauto).
  assert (X2 : exists t, b4 = b2 ++ t).
  { destruct X3 as [t ->]. rewrite C1. unfold put_key. repeat rewrite <- app_assoc. eauto. }
  assert (X1 : exists t, b4 = b1 ++ t).
  { destruct X2 as [t ->]. rewrite B1. unfold put_key. repeat rewrite <- app_assoc. eauto. }
  intros [|[|[|i]]] s loc Hs Hl; cbn [nth_error] in Hs, Hl.
  - injection Hs as <-. injection Hl as <-. split; [exact A2|]. apply string_at_app. destruct X1 as [t ->]. apply string_at_app. exact A4.
  - injection Hs as <-. injection Hl as <-. split; [exact B2|]. apply string_at_app. destruct X2 as [t ->]. apply string_at_app. exact B4.
  - injection Hs as <-. injection Hl as <-. split; [exact C2|]. apply string_at_app. destruct X3 as [t ->]. apply string_at_app. exact C4.
  - rewrite nth_error_map in Hs. destruct (nth_error ps i) as [p|] eqn:Hp; [|discriminate]. injection Hs as <-.
    destruct (D3 i p loc Hp Hl) as [H1 H2]. split; [exact H1|]. apply string_at_app. exact H2.
Qed.
Example C63_example : exists buf locs,
  conv_options (repeat 1%Z 28) (repeat 2%Z 12) (repeat 3%Z 32) [repeat 4%Z 36; repeat 5%Z 36] = (buf, locs) /\ locs = [4; 36; 52; 88; 128].
Proof. eexists. eexists. split; vm_compute; reflexivity. Qed.

(** *** Exactly when.  A parameter after [gap] bytes counted from a multiple of four starts at a multiple of four itself: the length
    of a string takes one byte below 256, two (aligned to two) below 65536, and four or eight (aligned) from there on. *)
Definition lines_up (gap len : nat) : Prop :=
  ((Z.of_nat len < 256)%Z -> gap mod 4 = 3) /\ ((256 <= Z.of_nat len < 65536)%Z -> gap mod 4 = 1 \/ gap mod 4 = 2).
(** The bytes between the start of one parameter and the length of the next: the parameter, its zero byte, and up to the first
    parameter of the threads the next key with its zero byte. *)
Definition gap_before (stored : list (list Z)) (i : nat) : nat :=
  match i with 0 => 3 | S j => length (nth j stored []) + (if j <? 3 then 3 else 1) end.

Fixpoint puts (items : list (bytes * bytes)) (buf : bytes) : bytes * list nat :=
  match items with
  | [] => (buf, [])
  | (k, s) :: tl => let (b1, loc) := put_string s (buf ++ k) in let (b2, locs) := puts tl b1 in (b2, loc :: locs)
  end.
Fixpoint chained (prev : nat) (items : list (bytes * bytes)) : Prop :=
  match items with [] => True | (k, s) :: tl => lines_up (prev + length k) (length s) /\ chained (length s + 1) tl end.

Lemma put_string_lines_up s buf b loc : put_string s buf = (b, loc) -> (loc mod 4 = 0 <-> lines_up (length buf) (length s)) /\ length b = loc + length s + 1.
Proof.
  unfold put_string, lines_up. intros E. injection E as <- <-. split; [|repeat rewrite app_length; cbn [length]; lia].
  repeat rewrite app_length. rewrite repeat_length, le_bytes_length. unfold padding_bytes, width_u.
  set (n := length buf). set (l := Z.of_nat (length s)).
  assert (M : forall a : nat, Z.of_nat (a mod 4) = (Z.of_nat a mod 4)%Z) by (intros; rewrite Nat2Z.inj_mod; reflexivity).
  assert (Q : forall a c : nat, a mod 4 = c <-> (Z.of_nat a mod 4 = Z.of_nat c)%Z) by (intros; rewrite <- M; lia). rewrite !Q.
  destruct (Z.ltb_spec l 256) as [B|B]; [|destruct (Z.ltb_spec l 65536) as [B2|B2]; [|destruct (Z.ltb_spec l 4294967296) as [B3|B3]]];
    rewrite !Nat2Z.inj_add, !Z2Nat.id by (apply Z.mod_pos_bound; reflexivity).
  all: generalize (Z.of_nat n); intros z; change (Z.of_nat 1) with 1%Z; change (Z.of_nat 2) with 2%Z; change (Z.of_nat 4) with 4%Z; change (Z.of_nat 8) with 8%Z; change (Z.of_nat 0) with 0%Z; change (Z.of_nat 3) with 3%Z.
  all: clear M Q; Z.to_euclidean_division_equations; lia.
Qed.
Lemma lines_up_mod a b len : a mod 4 = b mod 4 -> lines_up a len <-> lines_up b len.
Proof. unfold lines_up. intros ->. tauto. Qed.

Lemma puts_aligned : forall items buf b locs, puts items buf = (b, locs) -> ((forall loc, In loc locs -> loc mod 4 = 0) <-> chained (length buf) items).
Proof.
  assert (C : forall items a b, a mod 4 = b mod 4 -> chained a items <-> chained b items).
  { intros [|[k s] tl] a b E; cbn [chained]; [tauto|]. rewrite (lines_up_mod (a + length k) (b + length k)); [tauto|]. rewrite Nat.add_mod, E, <- Nat.add_mod by lia. reflexivity. }
  induction items as [|[k s] tl IH]; intros buf b locs E; cbn [puts chained] in *.
  - injection E as <- <-. cbn [In]. tauto.
  - destruct (put_string s (buf ++ k)) as [b1 l1] eqn:E1. destruct (puts tl b1) as [b2 ls] eqn:E2. injection E as <- <-.
    destruct (put_string_lines_up _ _ _ _ E1) as [A L]. rewrite app_length in A. specialize (IH _ _ _ E2). rewrite L in IH.
    assert (K : l1 mod 4 = 0 -> chained (l1 + length s + 1) tl <-> chained (length s + 1) tl).
    { intros Z0. apply C. replace (l1 + length s + 1) with (l1 + (length s + 1)) by lia. rewrite Nat.add_mod, Z0 by lia. cbn [Nat.add]. apply Nat.mod_mod. lia. }
    split.
    + intros H. assert (Z0 : l1 mod 4 = 0) by (apply H; left; reflexivity). split; [apply A; exact Z0|]. apply K; [exact Z0|]. apply IH. intros loc Hl. apply H. right. exact Hl.
    + intros [H1 H2]. apply A in H1. intros loc [<-|Hl]; [exact H1|]. apply IH; [apply K; assumption|exact Hl].
Qed.
Lemma puts_read : forall items buf b locs, puts items buf = (b, locs) -> (forall k s, In (k, s) items -> (Z.of_nat (length s) < 2 ^ 64)%Z) ->
  (exists t, b = buf ++ t) /\ length locs = length items /\
  forall i k s loc tail, nth_error items i = Some (k, s) -> nth_error locs i = Some loc -> string_at (b ++ tail) loc (width_u (Z.of_nat (length s))) s.
Proof.
  induction items as [|[k s] tl IH]; intros buf b locs E B; cbn [puts] in E.
  - injection E as <- <-. split; [exists []; rewrite app_nil_r; reflexivity|]. split; [reflexivity|]. intros [|i]; discriminate.
  - destruct (put_string s (buf ++ k)) as [b1 l1] eqn:E1. destruct (puts tl b1) as [b2 ls] eqn:E2. injection E as <- <-.
    destruct (put_string_spec _ _ _ _ E1 (B k s (or_introl eq_refl))) as ([t1 A1] & _ & _ & A4).
    destruct (IH _ _ _ E2) as ([t2 B1] & B2 & B3). { intros k' s' H. apply (B k'). right. exact H. }
    split; [exists (k ++ t1 ++ t2); rewrite B1, A1; repeat rewrite <- app_assoc; reflexivity|]. split; [cbn [length]; lia|].
    intros [|i] k' s' loc tail Hi Hl; cbn [nth_error] in Hi, Hl.
    + injection Hi as <- <-. injection Hl as <-. rewrite B1, <- app_assoc. apply A4.
    + eapply B3; eassumption.
Qed.
Definition items_of (mp a o : bytes) (ps : list bytes) : list (bytes * bytes) :=
  (key_mp ++ [0%Z], mp) :: (key_a ++ [0%Z], a) :: (key_o ++ [0%Z], o) ::
  match ps with [] => [] | p :: tl => (key_p ++ [0%Z], p ++ dummy) :: map (fun q => ([], q ++ dummy)) tl end.
Lemma puts_params : forall ps buf, puts (map (fun q => ([], q ++ dummy)) ps) buf = put_kernel_params ps buf.
Proof.
  induction ps as [|p ps IH]; intros buf; [reflexivity|]. cbn [map puts put_kernel_params]. rewrite app_nil_r. destruct (put_string (p ++ dummy) buf) as [b1 l1]. rewrite IH. reflexivity.
Qed.
Lemma conv_options_puts mp a o ps buf locs : conv_options mp a o ps = (buf, locs) ->
  exists b t, puts (items_of mp a o ps) [] = (b, locs) /\ buf = b ++ t.
Proof.
  unfold conv_options, items_of, put_key. cbn [puts app]. intros E.
  destruct (put_string mp _) as [b1 l1]. destruct (put_string a _) as [b2 l2]. destruct (put_string o _) as [b3 l3].
  destruct ps as [|p ps].
  - cbn [put_kernel_params puts] in *. injection E as <- <-. eauto.
  - cbn [put_kernel_params puts] in *. destruct (put_string (p ++ dummy) _) as [b4 l4]. rewrite puts_params. destruct (put_kernel_params ps b4) as [b5 ls].
    injection E as <- <-. exists b5, []. split; [reflexivity|]. rewrite app_nil_r. reflexivity.
Qed.
Lemma chained_params : forall ps prev, chained prev (map (fun q => ([], q ++ dummy)) ps) <->
  forall i s, nth_error (map (fun q => q ++ dummy) ps) i = Some s ->
    lines_up (match i with 0 => prev | S j => length (nth j (map (fun q => q ++ dummy) ps) []) + 1 end) (length s).
Proof.
  induction ps as [|p ps IH]; intros prev; cbn [map chained].
  - split; [intros _ [|i]; discriminate|tauto].
  - rewrite IH. cbn [length]. rewrite Nat.add_0_r. split.
    + intros [H1 H2] [|i] s E; cbn [nth_error] in E; [injection E as <-; exact H1|]. specialize (H2 i s E). destruct i; exact H2.
    + intros H. split; [exact (H 0 _ eq_refl)|]. intros i s E. specialize (H (S i) s E). destruct i; exact H.
Qed.
Theorem C63_exactly_when : forall mp a o ps buf locs tail,
  let stored := mp :: a :: o :: map (fun p => p ++ [48; 48]%Z) ps in
  (forall s, In s stored -> (Z.of_nat (length s) < 2 ^ 64)%Z) ->
  conv_options mp a o ps = (buf, locs) ->
  length locs = length stored /\
  (forall i s loc, nth_error stored i = Some s -> nth_error locs i = Some loc -> string_at (buf ++ tail) loc (width_u (Z.of_nat (length s))) s) /\
  ((forall loc, In loc locs -> loc mod 4 = 0) <-> (forall i s, nth_error stored i = Some s -> lines_up (gap_before stored i) (length s))).
Proof.
  intros mp a o ps buf locs tail stored B E. destruct (conv_options_puts _ _ _ _ _ _ E) as (b & t & P & ->).
  assert (Sn : map snd (items_of mp a o ps) = stored).
  { unfold items_of, stored. cbn [map snd]. do 3 f_equal. destruct ps as [|p ps]; [reflexivity|]. cbn [map snd]. f_equal. rewrite map_map. reflexivity. }
  destruct (puts_read _ _ _ _ P) as (_ & L & R). { intros k s H. apply B. rewrite <- Sn. apply (in_map snd) in H. exact H. }
  split; [rewrite L, <- Sn, map_length; reflexivity|]. split.
  - intros i s loc Hs Hl. rewrite <- Sn, nth_error_map in Hs. destruct (nth_error (items_of mp a o ps) i) as [[k s']|] eqn:Hi; [|discriminate]. injection Hs as <-.
    rewrite <- app_assoc. eapply R; eassumption.
  - rewrite (puts_aligned _ _ _ _ P). unfold items_of. cbn [chained length app key_mp key_a key_o Nat.add]. 
    assert (G : forall i s, nth_error stored (S (S (S i))) = Some s <-> nth_error (map (fun q => q ++ dummy) ps) i = Some s) by (intros; reflexivity).
    assert (T : chained (length o + 1) match ps with [] => [] | p :: tl => (key_p ++ [0%Z], p ++ dummy) :: map (fun q => ([], q ++ dummy)) tl end <->
                forall i s, nth_error stored (S (S (S i))) = Some s -> lines_up (gap_before stored (S (S (S i)))) (length s)).
    { destruct ps as [|p ps'].
      - cbn [chained]. split; [intros _ [|i] s X; discriminate X|tauto].
      - cbn [chained]. rewrite chained_params. split.
        + intros [H1 H2] [|i] s X.
          * injection X as <-. replace (gap_before stored 3) with (length o + 1 + length (key_p ++ [0%Z])); [exact H1|]. unfold gap_before, stored. cbn. lia.
          * specialize (H2 i s X). replace (gap_before stored (S (S (S (S i))))) with (match i with 0 => length (p ++ dummy) + 1 | S j => length (nth j (map (fun q => q ++ dummy) ps') []) + 1 end); [exact H2|]. unfold stored. destruct i; reflexivity.
        + intros H. split.
          * specialize (H 0 _ eq_refl). replace (gap_before stored 3) with (length o + 1 + length (key_p ++ [0%Z])) in H; [exact H|]. unfold gap_before, stored. cbn. lia.
          * intros i s X. specialize (H (S i) s X). replace (gap_before stored (S (S (S (S i))))) with (match i with 0 => length (p ++ dummy) + 1 | S j => length (nth j (map (fun q => q ++ dummy) ps') []) + 1 end) in H; [exact H|]. unfold stored. destruct i; reflexivity. }
    assert (Q1 : length mp + 1 + 2 = gap_before stored 1) by (unfold gap_before, stored; cbn; lia).
    assert (Q2 : length a + 1 + 2 = gap_before stored 2) by (unfold gap_before, stored; cbn; lia).
    change (length ([109%Z; 112%Z; 0%Z])) with 3. rewrite T. clear T.
    split.
    + intros (H0 & H1 & H2 & H3) [|[|[|i]]] s X.
      * injection X as <-. exact H0.
      * injection X as <-. rewrite <- Q1. exact H1.
      * injection X as <-. rewrite <- Q2. exact H2.
      * exact (H3 i s X).
    + intros H. split; [exact (H 0 _ eq_refl)|]. split; [rewrite Q1; exact (H 1 _ eq_refl)|]. split; [rewrite Q2; exact (H 2 _ eq_refl)|]. intros i s X. exact (H _ s X).
Qed.
(** For parameters of less than 256 bytes: every parameter is aligned exactly when the length of each but the last is a multiple of
    four (for the last one of the threads there is nothing after it). *)
Corollary C63_exactly_when_short : forall mp a o ps buf locs,
  let stored := mp :: a :: o :: map (fun p => p ++ [48; 48]%Z) ps in
  (forall s, In s stored -> length s < 256) -> conv_options mp a o ps = (buf, locs) ->
  ((forall loc, In loc locs -> loc mod 4 = 0) <->
   length mp mod 4 = 0 /\ length a mod 4 = 0 /\ (ps <> [] -> length o mod 4 = 0) /\ (forall p, In p (removelast ps) -> length p mod 4 = 0)).
Proof.
  intros mp a o ps buf locs stored B E.
  destruct (C63_exactly_when mp a o ps buf locs [] (fun s H => ltac:(specialize (B s H); change (2 ^ 64)%Z with 18446744073709551616%Z; lia)) E) as (_ & _ & ->). fold stored.
  assert (W : forall g s, In s stored -> lines_up g (length s) <-> g mod 4 = 3).
  { intros g s H. specialize (B s H). unfold lines_up. split; [intros [H1 _]; apply H1; lia|intros ->; split; [reflexivity|lia]]. }
  assert (M3 : forall n, (n + 3) mod 4 = 3 <-> n mod 4 = 0) by (intros n; pose proof (Nat.div_mod n 4); pose proof (Nat.div_mod (n + 3) 4); pose proof (Nat.mod_upper_bound n 4); pose proof (Nat.mod_upper_bound (n + 3) 4); lia).
  assert (P : forall p : list Z, length (p ++ [48; 48]%Z) + 1 = length p + 3) by (intros; rewrite app_length; cbn [length]; lia).
  assert (RL : forall (l : list (list Z)) p, In p (removelast l) <-> exists i, nth_error l i = Some p /\ nth_error l (S i) <> None).
  { clear. induction l as [|x l IH]; intros p.
    - split; [contradiction|intros ([|i] & H & _); discriminate].
    - destruct l as [|y l].
      + split; [contradiction|]. intros ([|i] & H & N); [exact (N eq_refl)|destruct i; discriminate].
      + change (removelast (x :: y :: l)) with (x :: removelast (y :: l)). cbn [In]. rewrite IH. split.
        * intros [<-|(i & H & N)]; [exists 0; split; [reflexivity|discriminate]|exists (S i); split; assumption].
        * intros ([|i] & H & N); [left; injection H as ->; reflexivity|right; exists i; split; assumption]. }
  split.
  - intros H. assert (G : forall i s, nth_error stored i = Some s -> gap_before stored i mod 4 = 3) by (intros i s X; exact (proj1 (W _ s (nth_error_In _ _ X)) (H i s X))).
    split; [apply M3; exact (G 1 _ eq_refl)|]. split; [apply M3; exact (G 2 _ eq_refl)|]. split.
    + intros N. destruct ps as [|p ps']; [congruence|]. apply M3. exact (G 3 _ eq_refl).
    + intros p Hp. apply RL in Hp. destruct Hp as (i & Hi & N). destruct (nth_error ps (S i)) as [q|] eqn:Hq; [|congruence].
      assert (X : nth_error stored (S (S (S (S i)))) = Some (q ++ [48; 48]%Z)) by (change (nth_error (map (fun p => p ++ [48; 48]%Z) ps) (S i) = Some (q ++ [48; 48]%Z)); rewrite nth_error_map, Hq; reflexivity).
      specialize (G _ _ X). change (gap_before stored (S (S (S (S i))))) with (length (nth i (map (fun p => p ++ [48; 48]%Z) ps) []) + 1) in G.
      erewrite nth_error_nth in G by (rewrite nth_error_map, Hi; reflexivity). rewrite P in G. apply M3. exact G.
  - intros (H1 & H2 & H3 & H4) i s X. refine (proj2 (W _ s (nth_error_In _ _ X)) _). destruct i as [|[|[|[|i]]]].
    + reflexivity.
    + apply M3 in H1. exact H1.
    + apply M3 in H2. exact H2.
    + destruct ps as [|p ps']; [discriminate X|]. apply M3. apply H3. discriminate.
    + change (nth_error (map (fun p => p ++ [48; 48]%Z) ps) (S i) = Some s) in X. rewrite nth_error_map in X. destruct (nth_error ps (S i)) as [q|] eqn:Hq; [|discriminate].
      change (gap_before stored (S (S (S (S i))))) with (length (nth i (map (fun p => p ++ [48; 48]%Z) ps) []) + 1).
      destruct (nth_error ps i) as [p|] eqn:Hi. 2:{ apply nth_error_None in Hi. assert (S i < length ps) by (apply nth_error_Some; congruence). lia. }
      erewrite nth_error_nth by (rewrite nth_error_map, Hi; reflexivity). rewrite P. apply M3. apply H4. apply RL. exists i. split; [exact Hi|congruence].
Qed.
(** Long parameters can be aligned too: 302 and 300 bytes after 14. *)
Example C63_exactly_concrete :
  snd (conv_options (repeat 1%Z 14) (repeat 2%Z 302) (repeat 3%Z 300) []) = [4; 24; 332] /\
  snd (conv_options (repeat 1%Z 14) (repeat 2%Z 301) (repeat 3%Z 300) []) = [4; 24; 330] /\
  lines_up (14 + 3) 302 /\ lines_up (302 + 3) 300 /\ ~ lines_up (301 + 3) 300.
Proof.
  split; [vm_compute; reflexivity|]. split; [vm_compute; reflexivity|]. unfold lines_up. split; [|split].
  - split; [lia|intros _; left; reflexivity].
  - split; [lia|intros _; left; reflexivity].
  - intros [_ H]. destruct H as [H|H]; [lia|discriminate H|discriminate H].
Qed.

(** The keys and values of the map, in order: whatever the parameters, the buffer consists of the key "mp", the string mp, the key
    "a", the string a, the key "o", the string o, the key "p" and the strings of the threads, each followed by "00". *)
Inductive item := AKey (name : list Z) | AString (s : list Z).
Fixpoint written (items : list item) (buf : list Z) : list Z :=
  match items with
  | [] => buf
  | AKey k :: tl => written tl (buf ++ k ++ [0%Z])
  | AString s :: tl => written tl (fst (put_string s buf))
  end.
Lemma written_params : forall ps buf, fst (put_kernel_params ps buf) = written (map (fun p => AString (p ++ codes "00")) ps) buf.
Proof.
  induction ps as [|p ps IH]; intros buf; [reflexivity|]. cbn [put_kernel_params map written].
  change (p ++ codes "00") with (p ++ dummy). destruct (put_string (p ++ dummy) buf) as [b1 l1]. cbn [fst]. rewrite <- IH.
  destruct (put_kernel_params ps b1). reflexivity.
Qed.
Theorem C63_keys : forall mp a o ps,
  fst (conv_options mp a o ps) =
    written ([AKey (codes "mp"); AString mp; AKey (codes "a"); AString a; AKey (codes "o"); AString o; AKey (codes "p")] ++
             map (fun p => AString (p ++ codes "00")) ps) [].
Proof.
  intros mp a o ps. cbn [app written]. rewrite <- written_params. unfold conv_options. cbn [app].
  change (put_key key_mp []) with (codes "mp" ++ [0%Z]). destruct (put_string mp (codes "mp" ++ [0%Z])) as [b1 l1]. cbn [fst].
  change (put_key key_a b1) with (b1 ++ codes "a" ++ [0%Z]). destruct (put_string a (b1 ++ codes "a" ++ [0%Z])) as [b2 l2]. cbn [fst].
  change (put_key key_o b2) with (b2 ++ codes "o" ++ [0%Z]). destruct (put_string o (b2 ++ codes "o" ++ [0%Z])) as [b3 l3]. cbn [fst].
  change (put_key key_p b3) with (b3 ++ codes "p" ++ [0%Z]). destruct (put_kernel_params ps (b3 ++ codes "p" ++ [0%Z])). reflexivity.
Qed.

(** Without a bound of 256 the length takes two bytes and its own alignment: the parameter is not aligned any more; nor are the
    parameters after one whose length is not a multiple of four. *)
Theorem C63_refuted_long : exists buf locs, conv_options (repeat 1%Z 256) [] [] [] = (buf, locs) /\ nth 0 locs 0 mod 4 = 2.
Proof. eexists. eexists. split; [vm_compute; reflexivity|]. reflexivity. Qed.
Theorem C63_refuted_odd : exists buf locs, conv_options [1%Z] [2%Z] [] [] = (buf, locs) /\ nth 1 locs 0 mod 4 = 1.
Proof. eexists. eexists. split; [vm_compute; reflexivity|]. reflexivity. Qed.

(** ** C64 *)
Lemma int32_mul a b : int32 (int32 a * b) = int32 (a * b).
Proof.
  unfold int32. f_equal.
  rewrite (Z.add_mod (((a + 2147483648) mod 4294967296 - 2147483648) * b)) by lia.
  rewrite (Z.add_mod (a * b)) by lia. f_equal. f_equal.
  rewrite Z.mul_mod, Zminus_mod, Z.mod_mod by lia. rewrite <- Zminus_mod. rewrite <- Z.mul_mod by lia. f_equal. f_equal. lia.
Qed.
Lemma int32_small v : (0 <= v < 2147483648)%Z -> int32 v = v.
Proof. intros. unfold int32. rewrite Z.mod_small; lia. Qed.

(** Dynamic dimensions count as 1 (the batch dimension, see C43). *)
Definition static_dim (d : option Z) : Z := match d with Some n => n | None => 1%Z end.
(** The computed size is the size of the tensor modulo 2^32, for elements of whole bytes. *)
Theorem C64_size_modulo : forall e shape, (element_bits e mod 8 = 0)%Z ->
  shaped_type_size e shape = int32 (tensor_bytes (element_bits e) (map static_dim shape)).
Proof.
  intros e shape E. unfold shaped_type_size, tensor_bytes.
  assert (T : type_size e = bytes_of_element (element_bits e)).
  { unfold type_size, bytes_of_element. generalize (element_bits e) E. intros b Eb. Z.to_euclidean_division_equations. lia. }
  rewrite T. generalize (bytes_of_element (element_bits e)) as n. clear E T.
  induction shape as [|d shape IH]; intros n; cbn [fold_left map fold_right].
  - f_equal. lia.
  - rewrite int32_mul, IH. f_equal. unfold static_dim. destruct d; lia.
Qed.
Theorem C64_size_exact : forall e shape, (element_bits e mod 8 = 0)%Z ->
  (0 <= tensor_bytes (element_bits e) (map static_dim shape) < 2147483648)%Z ->
  shaped_type_size e shape = tensor_bytes (element_bits e) (map static_dim shape).
Proof. intros e shape E H. rewrite C64_size_modulo by exact E. apply int32_small. exact H. Qed.
Example C64_example : shaped_type_size (Quantized 16) [None; Some 3; Some 5]%Z = 30%Z /\ shaped_type_size (Float 32) [Some 2; Some 0]%Z = 0%Z.
Proof. split; reflexivity. Qed.
(** Elements smaller than a byte (booleans, 4-bit weights) get no bytes at all; large tensors wrap around to negative sizes. *)
Theorem C64_refuted_bool : forall shape, shaped_type_size (Integer 1) shape = 0%Z.
Proof.
  intros shape. unfold shaped_type_size. change (int32 (type_size (Integer 1))) with 0%Z.
  induction shape as [|d shape IH]; [reflexivity|]. cbn [fold_left]. rewrite Z.mul_0_l. exact IH.
Qed.
Theorem C64_refuted_large : shaped_type_size (Float 32) [Some 32768; Some 16384]%Z = (-2147483648)%Z.
Proof. reflexivity. Qed.

Print Assumptions C63_parameters_aligned_partial.
Print Assumptions C64_size_modulo.
Print Assumptions C64_size_exact.
Print Assumptions C63_keys.
Print Assumptions C63_exactly_when.
Print Assumptions C63_exactly_when_short.
