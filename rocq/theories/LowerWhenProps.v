(** Properties C13-C15, second part: exactly when a slice, pad or broadcast becomes
    a copy operator.  Model: SlicePadModel.  Vocabulary: NdSpec, LowerWhenSpec. *)
From Verif Require Import Base NdSpec NdBase SlicePadModel SlicePadProofs SlicePadProofs2 PadProofs BroadcastProofs
  LowerSpec LowerModel LowerWhenSpec LowerWhenProofs LowerProps.
Local Open Scope nat_scope.

(** ** C13: a slice of tensors without empty axes is forwarded exactly when it keeps
    everything; it becomes a copy exactly when its operand is not a constant and it
    cuts one axis, or cuts two axes with only unit axes before the first. *)
Theorem C13_exactly_when is_const dtype begin outs ins sizes :
  slice_fits begin outs ins -> length sizes = length ins -> Forall (fun d => 0 < d) outs ->
  let r := replace_slice is_const (Z.of_nat dtype) (zn ins) (zn outs) (zn begin) sizes in
  (r = Forward <-> ins = outs) /\
  ((exists op, r = Lowered op) <-> is_const = false /\ (changes_one ins outs \/ changes_two ins outs)).
Proof.
  intros Hf Hl Hp. destruct (slice_fits_length _ _ _ Hf) as [L1 L2].
  assert (L : length ins = length outs) by lia.
  assert (Pi : Forall (fun d => 0 < d) ins).
  { clear - Hf Hp. induction Hf; auto. inversion Hp; subst. constructor; auto. lia. }
  cbn zeta. unfold replace_slice.
  pose proof (same_dims_nat ins outs) as SD. fold (zn ins) in SD. fold (zn outs) in SD.
  destruct (same_dims (zn ins) (zn outs)) eqn:Es.
  - apply proj1 in SD. specialize (SD eq_refl). subst outs. split; [split; auto|].
    split; [intros (op & E); discriminate|]. intros [_ [H|H]].
    + apply nch_1 in H; auto. rewrite nch_same in H. discriminate.
    + apply nch_2 in H; auto. destruct H as [H _]. rewrite nch_same in H. discriminate.
  - assert (Hne : ins <> outs) by (intros X; apply SD in X; discriminate).
    destruct is_const.
    { split; [split; [discriminate|congruence]|]. split; [intros (op & E); discriminate|intros [E _]; discriminate]. }
    assert (Hnn : ins <> []) by (intros ->; destruct outs; [congruence|discriminate]).
    destruct (merged_len (zn begin) sizes ins outs Hnn) as (m & Em & Lm); try (unfold zn; rewrite ?map_length; lia); auto.
    fold (zn ins) in Em. fold (zn outs) in Em. rewrite Em.
    rewrite <- nch_1, <- nch_2 by auto. 
    assert (N0 : nch ins outs <> 0).
    { intros X. rewrite (nch_0 ins outs L) in X. apply Hne. apply nth_ext with 1 1; auto. intros i _.
      destruct (Nat.eq_dec (nth i ins 1) (nth i outs 1)); auto. destruct (X i); auto. }
    assert (Q : length m = 1 \/ length m = 2 <-> nch ins outs = 1 \/ nch ins outs = 2 /\ quiet ins outs = true).
    { rewrite Lm. destruct (quiet ins outs); [|split; [|intros [?|[_ ?]]; [|discriminate]]]; try lia. }
    destruct m as [|a0 [|a1 [|a2 m]]]; cbn [length] in Q, Lm.
    + destruct (quiet ins outs); lia.
    + split; [split; [discriminate|congruence]|]. split; [intros _; split; auto; apply Q; auto|eauto].
    + split; [split; [discriminate|congruence]|]. split; [intros _; split; auto; apply Q; auto|eauto].
    + split; [split; [discriminate|congruence]|]. split; [intros (op & E); discriminate|]. intros [_ X]. apply Q in X. lia.
Qed.

(** ** C14: a pad becomes a copy under the same condition, except that rows of three
    bytes that grow to four are left for the pad_3_to_4 operator. *)
Theorem C14_exactly_when is_const dtype zp before after outs ins :
  pad_fits before after outs ins -> Forall (fun d => 0 < d) ins ->
  let r := replace_pad is_const (Z.of_nat dtype) zp (zn ins) (zn outs) (zn before) (zn after) in
  (r = Forward <-> ins = outs) /\
  ((exists op, r = Lowered op) <->
     is_const = false /\ (changes_one ins outs \/ changes_two ins outs) /\
     ~ ((repeats ins outs \/ changes_two ins outs) /\
        exists k, last_changed ins outs k /\ nelem (skipn k ins) * dtype = 3 /\ nelem (skipn k outs) * dtype = 4)).
Proof.
  intros Hf Pi. destruct (pad_fits_length _ _ _ _ Hf) as (L1 & L2 & L3).
  assert (L : length ins = length outs) by lia.
  assert (Po : Forall (fun d => 0 < d) outs).
  { clear - Hf Pi. induction Hf; auto. inversion Pi; subst. constructor; auto. lia. }
  cbn zeta. unfold replace_pad.
  pose proof (same_dims_nat ins outs) as SD. fold (zn ins) in SD. fold (zn outs) in SD.
  destruct (same_dims (zn ins) (zn outs)) eqn:Es.
  - apply proj1 in SD. specialize (SD eq_refl). subst outs. split; [split; auto|].
    split; [intros (op & E); discriminate|]. intros [_ [[H|H] _]].
    + apply nch_1 in H; auto. rewrite nch_same in H. discriminate.
    + apply nch_2 in H; auto. destruct H as [H _]. rewrite nch_same in H. discriminate.
  - assert (Hne : ins <> outs) by (intros X; apply SD in X; discriminate).
    destruct is_const.
    { split; [split; [discriminate|congruence]|]. split; [intros (op & E); discriminate|intros [E _]; discriminate]. }
    assert (Hnn : ins <> []) by (intros ->; destruct outs; [congruence|discriminate]).
    destruct (merged_len (zn before) (zn after) ins outs Hnn) as (m & Em & Lm); try (unfold zn; rewrite ?map_length; lia); auto.
    fold (zn ins) in Em. fold (zn outs) in Em. rewrite Em.
    rewrite <- nch_1, <- nch_2, <- quiet_repeats by auto.
    assert (N0 : nch ins outs <> 0).
    { intros X. rewrite (nch_0 ins outs L) in X. apply Hne. apply nth_ext with 1 1; auto. intros i _.
      destruct (Nat.eq_dec (nth i ins 1) (nth i outs 1)); auto. destruct (X i); auto. }
    assert (Q : length m = 1 \/ length m = 2 <-> nch ins outs = 1 \/ nch ins outs = 2 /\ quiet ins outs = true).
    { rewrite Lm. destruct (quiet ins outs); [|split; [|intros [?|[_ ?]]; [|discriminate]]]; try lia. }
    destruct m as [|a0 [|a1 [|a2 m]]]; cbn [length] in Q, Lm.
    + destruct (quiet ins outs); lia.
    + split; [split; [discriminate|congruence]|]. split; [|eauto]. intros _. split; auto. split; [apply Q; auto|].
      intros [[X|[X _]] _]; [rewrite X in Lm|]; destruct (quiet ins outs); lia.
    + destruct (merged_inner (zn before) (zn after) ins outs [a0] a1) as (k & K1 & K2 & K3); try (unfold zn; rewrite ?map_length; lia); auto.
      rewrite K2, K3. fold (nelem (skipn k ins)). fold (nelem (skipn k outs)).
      assert (B : ((Z.of_nat (nelem (skipn k ins)) * Z.of_nat dtype =? 3) && (Z.of_nat (nelem (skipn k outs)) * Z.of_nat dtype =? 4))%Z = true
                  <-> nelem (skipn k ins) * dtype = 3 /\ nelem (skipn k outs) * dtype = 4).
      { rewrite andb_true_iff, !Z.eqb_eq. lia. }
      assert (G : quiet ins outs = false \/ nch ins outs = 2 /\ quiet ins outs = true) by (destruct (quiet ins outs); lia).
      destruct (_ && _)%bool.
      * split; [split; [discriminate|congruence]|]. split; [intros (op & E); discriminate|]. intros (_ & _ & X). destruct X. split; auto.
        exists k. split; auto. apply B; auto.
      * split; [split; [discriminate|congruence]|]. split; [|eauto]. intros _. split; auto. split; [apply Q; auto|].
        intros [_ (k' & X1 & X2)]. rewrite (last_changed_unique _ _ _ _ X1 K1) in X2. apply B in X2. discriminate.
    + split; [split; [discriminate|congruence]|]. split; [intros (op & E); discriminate|]. intros (_ & X & _). apply Q in X. lia.
Qed.

(** ** C15: a broadcast of tensors without empty axes becomes a copy exactly when
    the operand is not a constant, the changed axes of the operand (leading unit axes
    added) have size one, and no axis wider than one lies between changed axes. *)
Theorem C15_exactly_when is_const dtype ins outs :
  length ins <= length outs -> Forall (fun d => 0 < d) outs ->
  let r := replace_broadcast is_const (Z.of_nat dtype) (zn ins) (zn outs) in
  let full := repeat 1 (length outs - length ins) ++ ins in
  (r = Forward <-> ins = outs) /\
  ((exists op, r = Lowered op) <->
     is_const = false /\ ins <> outs /\
     (forall i, changed full outs i -> nth i full 1 = 1) /\
     (forall i j k, i < j < k -> changed full outs i -> changed full outs k -> ~ changed full outs j -> nth j outs 1 = 1)).
Proof.
  intros Hl Po. cbn zeta. unfold replace_broadcast.
  pose proof (same_dims_nat ins outs) as SD. fold (zn ins) in SD. fold (zn outs) in SD.
  destruct (same_dims (zn ins) (zn outs)) eqn:Es.
  - apply proj1 in SD. specialize (SD eq_refl). subst outs. split; [split; auto|].
    split; [intros (op & E); discriminate|]. intros (_ & H & _). congruence.
  - assert (Hne : ins <> outs) by (intros X; apply SD in X; discriminate).
    destruct is_const.
    { split; [split; [discriminate|congruence]|]. split; [intros (op & E); discriminate|intros [E _]; discriminate]. }
    set (full := repeat 1 (length outs - length ins) ++ ins).
    assert (Ef : lead_ones (zn ins) (zn outs) = map Z.of_nat full).
    { unfold lead_ones, full, zn. rewrite map_app, !map_length. f_equal. clear. induction (length outs - length ins); cbn; auto. rewrite IHn. auto. }
    assert (Lf : length full = length outs) by (unfold full; rewrite app_length, repeat_length; lia).
    rewrite Ef. pose proof (compatible_iff full outs Lf) as CI. fold (zn outs) in CI.
    destruct (compatible (map Z.of_nat full) (zn outs)) eqn:Ec; cbn [negb].
    + assert (C : forall i, changed full outs i -> nth i full 1 = 1) by (apply CI; auto).
      pose proof (loop_start full outs (Z.of_nat dtype) 1 Lf Po C) as LS. fold (zn outs) in LS.
      assert (G : (forall i j k, i < j -> changed full outs i -> ~ gap full outs j k) <->
                  (forall i j k, i < j < k -> changed full outs i -> changed full outs k -> ~ changed full outs j -> nth j outs 1 = 1)).
      { split.
        - intros H i j k Hij X1 X2 X3. destruct (Nat.eq_dec (nth j outs 1) 1); auto. destruct (H i j k); [lia|auto|]. repeat split; auto; lia.
        - intros H i j k Hij X (G1 & G2 & G3 & G4). apply G3. apply (H i j k); auto; lia. }
      rewrite G in LS. destruct (broadcast_loop _ _ _ _ _ _) as [[[sz co] br]|].
      * split; [split; [discriminate|congruence]|]. split; [|eauto]. intros _. repeat split; auto. apply LS. discriminate.
      * split; [split; [discriminate|congruence]|]. split; [intros (op & E); discriminate|]. intros (_ & _ & _ & X). apply LS in X. congruence.
    + split; [split; [discriminate|congruence]|]. split; [intros (op & E); discriminate|]. intros (_ & _ & X & _). apply CI in X. discriminate.
Qed.

(** ** C19: for a non-empty result, the slice (and reshape) put in place of a unit-stride
    strided_slice is legal and holds what numpy selects exactly when the bounds are in
    range and every shrunk axis has end = begin + 1 ([regular_axes], LowerSpec). *)
Lemma strided_regular bm em sm ins : forall i begin stop b s q,
  length begin = length ins -> length stop = length ins ->
  strided_axes i bm em sm (zn ins) begin stop = Some q ->
  map (fun p => fst (fst p)) q = zn b -> map (fun p => snd (fst p)) q = zn s -> slice_fits b s ins ->
  exists k, nelem s = k * nelem (np_shape (np_axes i bm em sm ins begin stop)) /\
    (k = 1 -> regular_axes i bm em sm ins begin stop).
Proof.
  induction ins as [|d ins IH]; intros i begin stop b s q L1 L2 E Eb Es F.
  - destruct begin, stop; try discriminate. cbn in E. injection E as <-. inversion F; subst. exists 1. split; [reflexivity|intros _; exact I].
  - destruct begin as [|b0 begin]; try discriminate. destruct stop as [|e0 stop]; try discriminate. injection L1 as L1. injection L2 as L2.
    cbn [zn map strided_axes] in E. fold (zn ins) in E.
    destruct (strided_axes (i + 1) bm em sm (zn ins) begin stop) as [q'|] eqn:E'; [|discriminate]. injection E as <-.
    inversion F as [|b1 s1 d1 bs ss ins1 Hle F' X1 X2 X3]; subst. cbn [zn map fst snd] in Eb, Es. injection Eb as Eb0 Eb. injection Es as Es0 Es.
    destruct (IH _ _ _ _ _ _ L1 L2 E' Eb Es F') as (k & K1 & K2). cbn [np_axes np_shape regular_axes]. unfold regular_axis. cbn zeta.
    unfold np_start, np_stop, clamp, wrap.
    set (st := if Z.testbit bm i then 0%Z else if (b0 <? 0)%Z then (b0 + Z.of_nat d)%Z else b0) in *.
    set (en := if Z.testbit em i then Z.of_nat d else if (e0 <? 0)%Z then (e0 + Z.of_nat d)%Z else e0) in *.
    assert (S0 : st = Z.of_nat b1) by (unfold st; rewrite <- Eb0; destruct (Z.testbit bm i), (b0 <? 0)%Z; lia).
    assert (S1 : en = Z.of_nat (b1 + s1)).
    { unfold en. rewrite Nat2Z.inj_add, <- Es0, <- Eb0. destruct (Z.testbit em i), (e0 <? 0)%Z; lia. }
    unfold np_shape. cbn [filter np_keep]. destruct (Z.testbit sm i) eqn:Sm; cbn [negb].
    + exists (s1 * k).
      split; [change (nelem (s1 :: ss)) with (s1 * nelem ss); rewrite K1; unfold np_shape; cbn [map]; apply Nat.mul_assoc|]. intros X. apply Nat.eq_mul_1 in X; destruct X as [-> ->].
      split; auto. fold st en. rewrite S0, S1. repeat split; lia.
    + exists k. cbn [map np_size]. split.
      * assert (Z1 : Z.to_nat ((if Z.testbit em i then Z.of_nat d else Z.max 0 (Z.min (Z.of_nat d) (if (e0 <? 0)%Z then (e0 + Z.of_nat d)%Z else e0))) -
            (if Z.testbit bm i then 0%Z else Z.max 0 (Z.min (Z.of_nat d) (if (b0 <? 0)%Z then (b0 + Z.of_nat d)%Z else b0)))) = s1).
        { revert S0 S1. unfold st, en. destruct (Z.testbit em i), (Z.testbit bm i); intros; lia. }
        rewrite Z1. assert (NC : forall x r, nelem (x :: r) = x * nelem r) by reflexivity. rewrite !NC, K1. unfold np_shape. lia.
      * intros X. split; auto. fold st en. rewrite S0, S1. repeat split; try lia.
Qed.

Theorem C19_exactly_when begin_mask end_mask shrink_mask ins begin stop strides :
  Forall (fun s => s = 1%Z) strides -> length begin = length ins -> length stop = length ins ->
  let l := np_axes 0 begin_mask end_mask shrink_mask ins begin stop in
  0 < nelem (np_shape l) ->
  ((exists r b s, replace_strided_slice 0 0 begin_mask end_mask shrink_mask (zn ins) begin stop strides = Lowered r /\
      ss_begin r = zn b /\ ss_size r = zn s /\ slice_fits b s ins /\
      forall t : tensor Z, flatten s (slice_t b t) = flatten (np_shape l) (strided_slice_t l t)) <->
   regular_axes 0 begin_mask end_mask shrink_mask ins begin stop).
Proof.
  intros Hs L1 L2 l Hn. split.
  - intros (r & b & s & E & Eb & Es & F & C). unfold replace_strided_slice in E.
    destruct (negb _) in E; [discriminate|]. destruct (_ || _)%bool in E; [discriminate|].
    destruct (strided_axes _ _ _ _ _ _ _) as [q|] eqn:Q in E; [|discriminate]. injection E as <-. cbn [ss_begin ss_size] in Eb, Es.
    destruct (strided_regular _ _ _ _ _ _ _ _ _ _ L1 L2 Q Eb Es F) as (k & K1 & K2). apply K2. fold l in K1.
    specialize (C (fun _ => 0%Z)). apply (f_equal (@length Z)) in C. rewrite !flatten_length in C. nia.
  - intros R. destruct (C19_strided_slice_partial Z _ _ _ _ _ _ strides (fun _ => 0%Z) R Hs) as (r & E & b & s & Eb & Es & F & _).
    exists r, b, s. repeat split; auto. intros t.
    destruct (C19_strided_slice_partial Z _ _ _ _ _ _ strides t R Hs) as (r' & E' & b' & s' & Eb' & Es' & F' & C & _).
    rewrite E in E'. injection E' as <-. rewrite Eb in Eb'. rewrite Es in Es'.
    assert (Inj : forall x y, zn x = zn y -> x = y).
    { clear. induction x as [|u x IH]; intros [|v y] H; try discriminate; auto. injection H as H1 H2. apply Nat2Z.inj in H1. subst. f_equal. auto. }
    apply Inj in Eb', Es'. subst. exact C.
Qed.

(** Concrete cases of each side. *)
Example C13_exactly_when_meets :
  slice_fits [0; 1; 2; 0] [1; 2; 3; 4] [1; 5; 6; 4] /\ changes_two [1; 5; 6; 4] [1; 2; 3; 4] /\
  slice_fits [0; 1; 2] [4; 2; 3] [4; 5; 6] /\ ~ changes_one [4; 5; 6] [4; 2; 3] /\ ~ changes_two [4; 5; 6] [4; 2; 3].
Proof.
  split; [repeat constructor|]. split; [apply nch_2; [auto|split; auto]|]. split; [repeat constructor|].
  split; [rewrite <- nch_1 by auto; discriminate|]. rewrite <- nch_2 by auto. intros [_ H]. discriminate.
Qed.

Example C14_exactly_when_meets :
  replace_pad false 1 (Some 0%Z) (zn [1; 5; 5; 3]) (zn [1; 5; 5; 4]) (zn [0; 0; 0; 0]) (zn [0; 0; 0; 1]) = NotApplied /\
  repeats [1; 5; 5; 3] [1; 5; 5; 4] /\ last_changed [1; 5; 5; 3] [1; 5; 5; 4] 3.
Proof.
  split; [vm_compute; reflexivity|]. split; [apply quiet_repeats; auto|]. split; [vm_compute; discriminate|].
  intros [|[|[|[|j]]]] H X; try lia. destruct X. destruct j; auto.
Qed.

Example C15_exactly_when_meets :
  (exists op, replace_broadcast false 2 (zn [2; 1; 1; 3]) (zn [2; 4; 7; 3]) = Lowered op) /\
  replace_broadcast false 2 (zn [1; 2; 1; 3]) (zn [4; 2; 7; 3]) = NotApplied.
Proof. split; [eexists|]; vm_compute; reflexivity. Qed.

Print Assumptions C13_exactly_when.
Print Assumptions C14_exactly_when.
Print Assumptions C15_exactly_when.

(** x[1, 1:3] of a 4x5 tensor; x[-1] of a vector of 4 has a non-empty result but irregular bounds. *)
Example C19_exactly_when_meets :
  regular_axes 0 0 0 1 [4; 5] [1; 1]%Z [2; 3]%Z /\ np_shape (np_axes 0 0 0 1 [4; 5] [1; 1]%Z [2; 3]%Z) = [2] /\
  ~ regular_axes 0 0 0 1 [4] [-1]%Z [0]%Z /\ nelem (np_shape (np_axes 0 0 0 1 [4] [-1]%Z [0]%Z)) = 1.
Proof.
  split; [cbn; unfold regular_axis, wrap; cbn; repeat split; try lia; discriminate|].
  split; [reflexivity|]. split; [|reflexivity]. cbn. unfold regular_axis, wrap. vm_compute. intros [[[_ H1] _] _]. apply H1; reflexivity.
Qed.

Print Assumptions C19_exactly_when.
