(** C74: the convolution optimisation pass on a whole network. *)
From Coq Require Import QArith.
From Verif Require Import Base ConvSpec ConvOptModel ConvOptSpec ConvOptProofs ConvOptProps ConvGeomModel ConvNetModel ConvNetSpec ConvNetProofs.
Local Open Scope Z_scope.

Definition tuple : Type := attrs * conv_consts * nat * nat.

(** ** measures *)
Section Measure.
Variable add mult : tuple -> nat.
Hypothesis mult_pos : forall t, (1 <= mult t)%nat.
Fixpoint mu (e : net) : nat :=
  match e with
  | Src _ _ => 0
  | Conv a c n e => let t := (a, c, n, s_c (size_of e)) in add t + mult t * mu e
  | Pad _ _ _ _ _ e | PadC _ _ e | SliceC _ e => mu e
  | ConcatC l => fold_right Nat.add 0 (map mu l)
  | Any _ _ l => fold_right Nat.add 0 (map mu l)
  end%nat.

Lemma sum_app (l1 l2 : list nat) : fold_right Nat.add 0%nat (l1 ++ l2) = (fold_right Nat.add 0 l1 + fold_right Nat.add 0 l2)%nat.
Proof. induction l1; cbn; lia. Qed.

Lemma lift_mu (R : net -> net -> Prop) (Qp : tuple -> Prop) :
  (forall e e', R e e' -> well_typed e -> Forall Qp (convs e) -> good e e' /\ Forall Qp (convs e')) ->
  (forall e e', R e e' -> well_typed e -> Forall Qp (convs e) -> (mu e' < mu e)%nat) ->
  forall e e', anywhere R e e' -> well_typed e -> Forall Qp (convs e) -> (mu e' < mu e)%nat.
Proof.
  intros HG HR e e' H. induction H as [e e' H|a c n e e' H IH|t b l r z e e' H IH|p z e e' H IH|n e e' H IH|l1 e e' l2 H IH|s f l1 e e' l2 H IH]; intros WT FQ.
  - auto.
  - cbn [convs] in FQ. inversion FQ as [|? ? Q1 Q2]; subst. assert (W : well_typed e) by (cbn [well_typed] in WT; tauto).
    specialize (IH W Q2). destruct (lift R Qp HG e e' H W Q2) as [(_ & D & _) _]. cbn [mu]. rewrite D.
    pose proof (mult_pos (a, c, n, s_c (size_of e))). apply Nat.add_lt_mono_l. apply Nat.mul_lt_mono_pos_l; lia.
  - apply IH; auto. cbn [well_typed] in WT; tauto.
  - apply IH; auto.
  - apply IH; auto. cbn [well_typed] in WT; tauto.
  - cbn [convs] in FQ. rewrite flat_map_app in FQ. cbn [flat_map] in *. apply Forall_app in FQ. destruct FQ as [F1 F2].
    apply Forall_app in F2. destruct F2 as [F2 F3]. cbn [mu]. rewrite !map_app, !sum_app. cbn [map fold_right].
    assert (W : well_typed e).
    { cbn [well_typed] in WT. destruct WT as (_ & _ & A). apply fold_and_forall in A. rewrite Forall_forall in A. apply A, in_elt. }
    specialize (IH W F2). lia.
  - cbn [convs] in FQ. rewrite flat_map_app in FQ. cbn [flat_map] in *. apply Forall_app in FQ. destruct FQ as [F1 F2].
    apply Forall_app in F2. destruct F2 as [F2 F3]. cbn [mu]. rewrite !map_app, !sum_app. cbn [map fold_right].
    assert (W : well_typed e).
    { cbn [well_typed] in WT. destruct WT as (_ & _ & A & _). apply fold_and_forall in A. rewrite Forall_forall in A. apply A, in_elt. }
    specialize (IH W F2). lia.
Qed.

Lemma sum_pos_in (l : list nat) : (0 < fold_right Nat.add 0 l)%nat -> exists x, In x l /\ (0 < x)%nat.
Proof.
  induction l as [|a l IH]; cbn; [lia|]. intros H. destruct a; [|exists (S a); split; [auto|lia]].
  destruct IH as (x & I & P); [exact H|]. exists x; auto.
Qed.

Lemma mu_step (R : net -> net -> Prop) (Qp : tuple -> Prop) :
  (forall a c n e, well_typed (Conv a c n e) -> Qp (a, c, n, s_c (size_of e)) -> (0 < add (a, c, n, s_c (size_of e)))%nat -> exists e', R (Conv a c n e) e') ->
  forall e, well_typed e -> Forall Qp (convs e) -> (0 < mu e)%nat -> exists e', anywhere R e e'.
Proof.
  intros HR.
  assert (FM : forall l (e : net), Forall Qp (flat_map convs l) -> In e l -> Forall Qp (convs e)).
  { intros l e F I. rewrite Forall_forall in *. intros t It. apply F. apply in_flat_map. eauto. }
  induction e using net_ind2; intros WT FQ P; cbn [mu convs] in P, FQ.
  - lia.
  - inversion FQ as [|? ? Q1 Q2]; subst. destruct (add (a, c, n, s_c (size_of e))) eqn:A.
    + destruct (IHe ltac:(cbn [well_typed] in WT; tauto) Q2) as [e' H]; [nia|]. exists (Conv a c n e'). apply InConv; auto.
    + destruct (HR a c n e WT Q1) as [e' H]; [lia|]. exists e'. apply AtRoot; auto.
  - destruct (IHe ltac:(cbn [well_typed] in WT; tauto) FQ P) as [e' H]. eexists. apply InPad; eauto.
  - destruct (IHe WT FQ P) as [e' H]. eexists. apply InPadC; eauto.
  - destruct (IHe ltac:(cbn [well_typed] in WT; tauto) FQ P) as [e' H]. eexists. apply InSliceC; eauto.
  - apply sum_pos_in in P. destruct P as (x & I & Px). apply in_map_iff in I. destruct I as (e0 & <- & I).
    cbn [well_typed] in WT. destruct WT as (_ & _ & A). apply fold_and_forall in A. rewrite Forall_forall in A, H.
    destruct (H e0 I (A e0 I) (FM _ _ FQ I) Px) as [e' St]. apply in_split in I. destruct I as (l1 & l2 & ->). eexists. apply InConcatC; eauto.
  - apply sum_pos_in in P. destruct P as (x & I & Px). apply in_map_iff in I. destruct I as (e0 & <- & I).
    cbn [well_typed] in WT. destruct WT as (_ & _ & A & _). apply fold_and_forall in A. rewrite Forall_forall in A, H.
    destruct (H e0 I (A e0 I) (FM _ _ FQ I) Px) as [e' St]. apply in_split in I. destruct I as (l1 & l2 & ->). eexists. apply InAny; eauto.
Qed.

Lemma mu_zero e : mu e = 0%nat -> Forall (fun t => add t = 0%nat) (convs e).
Proof.
  assert (SZ : forall l x, fold_right Nat.add 0%nat l = 0%nat -> In x l -> x = 0%nat).
  { induction l; cbn; intros x P I; [tauto|]. destruct I; [lia|]. apply IHl; auto; lia. }
  assert (FL : forall l, Forall (fun e => mu e = 0%nat -> Forall (fun t => add t = 0%nat) (convs e)) l ->
    fold_right Nat.add 0%nat (map mu l) = 0%nat -> Forall (fun t => add t = 0%nat) (flat_map convs l)).
  { intros l F P. rewrite Forall_forall in *. intros t I. apply in_flat_map in I. destruct I as (e0 & I & It).
    assert (M : mu e0 = 0%nat) by (eapply SZ; [exact P|apply in_map; auto]).
    specialize (F e0 I M). rewrite Forall_forall in F. auto. }
  induction e using net_ind2; intros P; cbn [mu convs] in *; auto.
  pose proof (mult_pos (a, c, n, s_c (size_of e))). constructor; [lia|]. apply IHe. nia.
Qed.

(** A terminating phase: it always ends, keeps the result and leaves no convolution to rewrite. *)
Section Phase.
Variable R : net -> net -> Prop.
Variable Qp : tuple -> Prop.
Hypothesis HG : forall e e', R e e' -> well_typed e -> Forall Qp (convs e) -> good e e' /\ Forall Qp (convs e').
Hypothesis HM : forall e e', R e e' -> well_typed e -> Forall Qp (convs e) -> (mu e' < mu e)%nat.
Hypothesis HS : forall a c n e, well_typed (Conv a c n e) -> Qp (a, c, n, s_c (size_of e)) -> (0 < add (a, c, n, s_c (size_of e)))%nat -> exists e', R (Conv a c n e) e'.

Lemma run_good e e' : run R e e' -> well_typed e -> Forall Qp (convs e) ->
  good e e' /\ Forall Qp (convs e') /\ Forall (fun t => add t = 0%nat) (convs e').
Proof.
  induction 1 as [e N|e e1 e' St Rn IH]; intros WT F.
  - split; [apply good_refl; auto|]. split; auto. apply mu_zero. destruct (mu e) eqn:M; auto.
    destruct (mu_step R Qp HS e WT F) as [e' St]; [lia|]. exfalso. exact (N e' St).
  - destruct (lift R Qp HG e e1 St WT F) as [G1 F1]. destruct (IH (proj1 G1) F1) as (G2 & F2 & F3).
    split; [eapply good_trans; eauto|auto].
Qed.
Lemma phase_acc e : well_typed e -> Forall Qp (convs e) -> Acc (fun b a => anywhere R a b) e.
Proof.
  remember (mu e) as k eqn:K. revert e K. induction k as [k IH] using lt_wf_ind. intros e -> WT F. constructor. intros e' St.
  pose proof (lift_mu R Qp HG HM e e' St WT F) as L. destruct (lift R Qp HG e e' St WT F) as [[W' _] F']. eapply IH; eauto.
Qed.
Lemma run_exists e : well_typed e -> Forall Qp (convs e) -> exists e', run R e e'.
Proof.
  remember (mu e) as k eqn:K. revert e K. induction k as [k IH] using lt_wf_ind. intros e -> WT F.
  destruct (Nat.eq_dec (mu e) 0) as [M|M].
  - exists e. apply Done. intros e' St. pose proof (lift_mu R Qp HG HM e e' St WT F). lia.
  - destruct (mu_step R Qp HS e WT F) as [e1 St]; [lia|].
    pose proof (lift_mu R Qp HG HM e e1 St WT F) as L. destruct (lift R Qp HG e e1 St WT F) as [[W' _] F'].
    destruct (IH (mu e1) L e1 eq_refl W' F') as [e' Rn]. exists e'. eapply More; eauto.
Qed.
End Phase.
End Measure.

(** ** the three kinds of phases *)
Definition one (t : tuple) : nat := 1.
Definition nothing (t : tuple) : Prop := True.
Definition add_same (t : tuple) : nat := let '(a, _, _, _) := t in if same_eligible a && a_same a then 1%nat else 0%nat.
Definition is_some {A} (o : option A) : bool := match o with Some _ => true | None => false end.
Definition b2n (b : bool) : nat := if b then 1%nat else 0%nat.
Definition add_pad (t : tuple) : nat := let '(a, c, n, d) := t in
  (b2n (pad_eligible a && is_some (pad_conv_input (i16_conv a) d c)) +
   b2n (pad_eligible a && is_some (pad_conv_output (i16_conv a) n (taps a * d) c)) +
   b2n (pad_dw_eligible a && is_some (pad_depthwise d n c)))%nat.
Definition add_split (S : Z) (t : tuple) : nat := let '(a, c, n, d) := t in
  b2n (split_eligible a && is_some (num_splits (Z.of_nat (length (c_filter c))) S (Z.of_nat n))).
Definition mult_split (S : Z) (t : tuple) : nat := let '(a, c, n, d) := t in
  match num_splits (Z.of_nat (length (c_filter c))) S (Z.of_nat n) with Some ns => Nat.max 1 (Z.to_nat ns) | None => 1%nat end.

(** Invariants: SAME padding is gone where the splitting pattern could apply; 4 divides the channels it splits. *)
Definition no_same (t : tuple) : Prop := let '(a, _, _, _) := t in same_eligible a = true -> a_same a = false.
Definition splittable_ok (t : tuple) : Prop := let '(a, _, n, _) := t in split_eligible a = true -> a_same a = false /\ (n mod 4 = 0)%nat.

Lemma split_same_eligible a : split_eligible a = true -> same_eligible a = true.
Proof.
  unfold split_eligible, same_eligible, in_ok, bias_ok. destruct (a_depthwise a), (a_in a), (a_filter_qi8 a), (a_bias a); cbn; auto; discriminate.
Qed.

Lemma all_nothing e : Forall nothing (convs e).
Proof. apply Forall_forall. intros; exact I. Qed.

Lemma same_step_props :
  (forall e e', same_root e e' -> well_typed e -> Forall nothing (convs e) -> good e e' /\ Forall nothing (convs e')) /\
  (forall e e', same_root e e' -> well_typed e -> Forall nothing (convs e) -> (mu add_same one e' < mu add_same one e)%nat) /\
  (forall a c n e, well_typed (Conv a c n e) -> nothing (a, c, n, s_c (size_of e)) -> (0 < add_same (a, c, n, s_c (size_of e)))%nat -> exists e', same_root (Conv a c n e) e').
Proof.
  split; [|split].
  - intros e e' R WT _. split; [apply same_good; auto|apply all_nothing].
  - intros e e' R WT _. destruct R as [a c n e top bottom lft rgt newH newW EL SM CP]. cbn [mu add_same one]. rewrite EL, SM.
    change (a_same (valid a)) with false. rewrite andb_false_r. cbn. lia.
  - intros a c n e WT _ P. cbn [add_same] in P. destruct (same_eligible a && a_same a) eqn:E; [|lia]. apply andb_true_iff in E. destruct E.
    destruct (conv_padding_values (s_h (size_of e)) (s_w (size_of e)) (Z.of_nat (a_fh a)) (Z.of_nat (a_fw a)) (a_dh a) (a_dw a) (a_sh a) (a_sw a))
      as [[[t b] [l r]] [h w]] eqn:CP. eexists. eapply SameToValid; eauto.
Qed.

Lemma pad_zero d a : (1 <= a)%Z -> Z.rem (Z.of_nat d) a = 0 -> pad_size (Z.of_nat d) a = 0.
Proof.
  intros Ha Hr. destruct (pad_size_ok (Z.of_nat d) a Ha ltac:(lia)) as [P1 P2].
  rewrite Z.rem_mod_nonneg in Hr, P2 by lia.
  assert (E : (pad_size (Z.of_nat d) a) mod a = 0).
  { replace (pad_size (Z.of_nat d) a) with (Z.of_nat d + pad_size (Z.of_nat d) a - Z.of_nat d) by lia.
    rewrite Zminus_mod, P2, Hr. reflexivity. }
  rewrite Z.mod_small in E; lia.
Qed.
Lemma in_none a d c : is_some (pad_conv_input (i16_conv a) d c) = negb (pad_size (Z.of_nat d) (alignment (i16_conv a)) =? 0).
Proof. unfold pad_conv_input. destruct (_ =? 0); reflexivity. Qed.
Lemma out_none a n k c : is_some (pad_conv_output (i16_conv a) n k c) = negb (pad_size (Z.of_nat n) (alignment (i16_conv a)) =? 0).
Proof. unfold pad_conv_output. destruct (_ =? 0); reflexivity. Qed.
Lemma align_pos b : 1 <= alignment b. Proof. destruct b; cbn; lia. Qed.
Lemma padded_none d a : (1 <= a) -> pad_size (Z.of_nat d + pad_size (Z.of_nat d) a) a = 0.
Proof.
  intros Ha. destruct (pad_size_ok (Z.of_nat d) a Ha ltac:(lia)) as [P1 P2].
  pose proof (pad_zero (d + Z.to_nat (pad_size (Z.of_nat d) a)) a Ha) as K. rewrite Nat2Z.inj_add, Z2Nat.id in K by lia. auto.
Qed.

Lemma pad_step_props (Qp : attrs -> Prop) :
  let Q := fun t : tuple => let '(a, _, _, _) := t in Qp a in
  (forall e e', pad_root e e' -> well_typed e -> Forall Q (convs e) -> good e e' /\ Forall Q (convs e')) /\
  (forall e e', pad_root e e' -> well_typed e -> Forall Q (convs e) -> (mu add_pad one e' < mu add_pad one e)%nat) /\
  (forall a c n e, well_typed (Conv a c n e) -> Q (a, c, n, s_c (size_of e)) -> (0 < add_pad (a, c, n, s_c (size_of e)))%nat -> exists e', pad_root (Conv a c n e) e').
Proof.
  intros Q. split; [|split].
  - intros e e' R WT F. split; [apply pad_good; auto|].
    destruct R; cbn [convs size_of] in *; inversion F; subst; constructor; auto.
  - intros e e' R WT _. destruct R as [a c n e p c' EL E|a c n e p c' EL E|a c n e p c' EL E]; cbn [mu size_of s_c]; unfold one; cbn [add_pad].
    + assert (ND : pad_dw_eligible a = false) by (unfold pad_eligible, pad_dw_eligible in *; destruct (a_depthwise a); [discriminate|reflexivity]).
      rewrite EL, ND, E, !in_none, !out_none. unfold pad_conv_input in E.
      destruct (Z.eqb_spec (pad_size (Z.of_nat (s_c (size_of e))) (alignment (i16_conv a))) 0); [discriminate|]. injection E as <- <-.
      rewrite Nat2Z.inj_add, Z2Nat.id, padded_none by (try apply align_pos; pose proof (pad_size_ok (Z.of_nat (s_c (size_of e))) (alignment (i16_conv a)) (align_pos _)); lia).
      rewrite Z.eqb_refl. cbn [negb b2n is_some andb]. lia.
    + assert (ND : pad_dw_eligible a = false) by (unfold pad_eligible, pad_dw_eligible in *; destruct (a_depthwise a); [discriminate|reflexivity]).
      rewrite EL, ND, !in_none, E, !out_none. unfold pad_conv_output in E.
      destruct (Z.eqb_spec (pad_size (Z.of_nat n) (alignment (i16_conv a))) 0); [discriminate|]. injection E as <- <-.
      rewrite Nat2Z.inj_add, Z2Nat.id, padded_none by (try apply align_pos; pose proof (pad_size_ok (Z.of_nat n) (alignment (i16_conv a)) (align_pos _)); lia).
      rewrite Z.eqb_refl. cbn [negb b2n is_some andb]. lia.
    + assert (ND : pad_eligible a = false) by (unfold pad_eligible, pad_dw_eligible in *; destruct (a_depthwise a); [reflexivity|discriminate]).
      rewrite EL, ND, E. unfold pad_depthwise in E. destruct (Nat.eqb_spec (s_c (size_of e)) n) as [<-|]; [|discriminate].
      destruct (Z.eqb_spec (pad_size (Z.of_nat (s_c (size_of e))) 4) 0); [discriminate|]. injection E as <- <-.
      unfold pad_depthwise. rewrite Nat.eqb_refl.
      rewrite Nat2Z.inj_add, Z2Nat.id, padded_none by (pose proof (pad_size_ok (Z.of_nat (s_c (size_of e))) 4 ltac:(lia)); lia).
      rewrite Z.eqb_refl. cbn [negb b2n is_some andb]. lia.
  - intros a c n e WT _ P. cbn [add_pad] in P.
    destruct (pad_eligible a) eqn:E1; cbn [andb b2n] in P.
    + destruct (pad_conv_input (i16_conv a) (s_c (size_of e)) c) as [[p c']|] eqn:I1; [eexists; eapply PadInput; eauto|].
      destruct (pad_conv_output (i16_conv a) n (taps a * s_c (size_of e)) c) as [[p c']|] eqn:I2; [eexists; eapply PadOutput; eauto|].
      cbn [is_some b2n] in P. assert (ND : pad_dw_eligible a = false) by (unfold pad_eligible, pad_dw_eligible in *; destruct (a_depthwise a); [discriminate|reflexivity]).
      rewrite ND in P. cbn in P. lia.
    + destruct (pad_dw_eligible a) eqn:E2; cbn [andb b2n] in P; [|cbn in P; lia].
      destruct (pad_depthwise (s_c (size_of e)) n c) as [[p c']|] eqn:I3; [eexists; eapply PadDepthwise; eauto|]. cbn in P. lia.
Qed.

(** A group is never split again. *)
Lemma loop_members m : forall d r s, 0 <= r -> In s (split_sizes_loop m d r) -> s = d * 4 \/ (s = (d + 1) * 4 /\ 1 <= r).
Proof.
  induction m as [|m IH]; intros d r s Hr I; cbn [split_sizes_loop] in I; [destruct I|].
  destruct (Z.gtb_spec r 0).
  - destruct I as [<-|I]; [right; lia|]. destruct (IH d (r - 1) s ltac:(lia) I) as [|[-> _]]; auto. right; lia.
  - destruct I as [<-|I]; [auto|]. apply IH; auto.
Qed.
Lemma group_not_split n k S ns s :
  1 <= S -> num_splits (Z.of_nat (n * k)) S (Z.of_nat n) = Some ns -> In s (split_sizes (Z.of_nat n) ns) ->
  num_splits (Z.of_nat (Z.to_nat s * k)) S (Z.of_nat (Z.to_nat s)) = None.
Proof.
  intros HS NS I. unfold num_splits in NS.
  set (q := Z.quot (Z.of_nat (n * k)) S) in *. destruct (Z.ltb_spec q 2) as [|Q2]; [discriminate|].
  destruct (Z.ltb_spec (Z.quot (Z.of_nat n) 4) 2) as [|T2]; [discriminate|]. injection NS as <-.
  unfold split_sizes in I. rewrite Z.quot_div_nonneg in T2, I by lia. set (t := Z.of_nat n / 4) in *.
  rewrite Z.quot_div_nonneg, Z.rem_mod_nonneg in I by lia.
  pose proof (Z.div_mod t q ltac:(lia)) as DM. pose proof (Z.mod_pos_bound t q ltac:(lia)) as MB.
  set (d := t / q) in *. set (r := t mod q) in *.
  assert (D0 : 0 <= d) by (apply Z.div_pos; lia).
  assert (T4 : 4 * t <= Z.of_nat n) by (apply Z.mul_div_le; lia).
  assert (QS : Z.of_nat n * Z.of_nat k < (q + 1) * S).
  { unfold q. rewrite Z.quot_div_nonneg by lia. rewrite Nat2Z.inj_mul. pose proof (Z.mul_succ_div_gt (Z.of_nat n * Z.of_nat k) S ltac:(lia)). lia. }
  assert (LT : forall x, 0 <= x -> (x <= 1 \/ x * (q + 1) <= 2 * t) -> s = x * 4 ->
    num_splits (Z.of_nat (Z.to_nat s * k)) S (Z.of_nat (Z.to_nat s)) = None).
  { intros x Hx C E. unfold num_splits. assert (SX : Z.of_nat (Z.to_nat s) = x * 4) by lia. rewrite SX.
    destruct C as [C|C].
    - replace (Z.quot (x * 4) 4) with x by (rewrite Z.quot_mul; lia). replace (x <? 2) with true by lia. rewrite orb_true_r. reflexivity.
    - assert (L : Z.of_nat (Z.to_nat s * k) < 2 * S).
      { rewrite Nat2Z.inj_mul, SX. assert (x * 4 * Z.of_nat k * (q + 1) < 2 * S * (q + 1)); [|nia].
        assert (x * (q + 1) * (4 * Z.of_nat k) <= 2 * t * (4 * Z.of_nat k)) by (apply Z.mul_le_mono_nonneg_r; lia).
        assert (4 * t * Z.of_nat k <= Z.of_nat n * Z.of_nat k) by (apply Z.mul_le_mono_nonneg_r; lia). nia. }
      rewrite Z.quot_div_nonneg by lia.
      assert (Z.of_nat (Z.to_nat s * k) / S < 2) by (apply Z.div_lt_upper_bound; lia).
      replace (Z.of_nat (Z.to_nat s * k) / S <? 2) with true by lia. reflexivity. }
  assert (R0 : 0 <= r) by lia. destruct (loop_members _ _ _ _ R0 I) as [E|[E R1]].
  - apply (LT d); auto. destruct (Z.eq_dec d 0); [lia|]. right. nia.
  - apply (LT (d + 1)); [lia| |exact E]. destruct (Z.eq_dec d 0); [lia|]. right.
    assert (0 <= (q - 1) * (d - 1)) by (apply Z.mul_nonneg_nonneg; lia). nia.
Qed.

Lemma split_step_props S : 1 <= S ->
  (forall e e', split_root S e e' -> well_typed e -> Forall splittable_ok (convs e) -> good e e' /\ Forall splittable_ok (convs e')) /\
  (forall e e', split_root S e e' -> well_typed e -> Forall splittable_ok (convs e) ->
     (mu (add_split S) (mult_split S) e' < mu (add_split S) (mult_split S) e)%nat) /\
  (forall a c n e, well_typed (Conv a c n e) -> splittable_ok (a, c, n, s_c (size_of e)) -> (0 < add_split S (a, c, n, s_c (size_of e)))%nat -> exists e', split_root S (Conv a c n e) e').
Proof.
  intros HS. split; [|split].
  - intros e e' R WT F. destruct R as [a c n e ns groups EL NS SG]. cbn [convs] in F. inversion F as [|? ? F1 F2]; subst.
    destruct (F1 EL) as [SM N4]. destruct (split_good S a c n e ns groups HS EL SM N4 NS SG WT) as [G FG]. split; [exact G|].
    cbn [convs]. rewrite flat_map_concat_map, map_map. apply Forall_concat. apply Forall_map. eapply Forall_impl; [|exact FG].
    intros g Hg. cbn [convs]. constructor; auto. cbn. intros _. auto.
  - intros e e' R WT F. destruct R as [a c n e ns groups EL NS SG]. cbn [convs] in F. inversion F as [|? ? F1 F2]; subst.
    destruct (F1 EL) as [SM N4].
    assert (ND : a_depthwise a = false) by (unfold split_eligible in EL; destruct (a_depthwise a); [discriminate|reflexivity]).
    assert (HC : consts_ok (taps a * s_c (size_of e)) n c).
    { cbn [well_typed] in WT. destruct WT as (_ & _ & _ & _ & _ & _ & _ & A8 & _). unfold consts_fit in A8. rewrite ND in A8. exact A8. }
    assert (N2 : 2 <= ns).
    { unfold num_splits in NS. destruct (Z.ltb_spec (Z.quot (Z.of_nat (length (c_filter c))) S) 2); cbn [orb] in NS; [discriminate|].
      destruct (_ <? 2); [discriminate|]. injection NS as <-. lia. }
    assert (NS' := NS). rewrite (proj1 HC) in NS'.
    destruct (C29_channelwise_split_partial unit unit (fun _ _ _ _ _ => tt) _ n c S ns HC N4 HS NS') as (gs & E & LG & _ & FG & _ & _).
    rewrite SG in E. injection E as <-.
    destruct (split_sizes_sum ns (Z.of_nat n) ltac:(lia) ltac:(lia)) as (S1 & _ & _).
    destruct (split_groups_ok (fun (_ : unit) _ _ _ _ => tt) _ n c tt HC (split_sizes (Z.of_nat n) ns) 0) as (gs & E & MF & _).
    { assert (Z.of_nat n = 4 * (Z.of_nat n / 4)); [|lia]. pose proof (Nat.div_mod n 4). assert (n = 4 * (n / 4))%nat by lia.
      rewrite H0 at 2. rewrite Nat2Z.inj_mul. replace (Z.of_nat 4 * Z.of_nat (n / 4)) with (Z.of_nat (n / 4) * 4) by lia. rewrite Z.div_mul by lia. lia. }
    rewrite SG in E. injection E as <-.
    assert (GZ : forall g, In g groups -> mu (add_split S) (mult_split S) (Conv (valid a) (snd g) (fst g) e) = mu (add_split S) (mult_split S) e).
    { intros g Ig. cbn [mu add_split mult_split]. assert (I2 : In (fst g) (map Z.to_nat (split_sizes (Z.of_nat n) ns))) by (rewrite <- MF; apply in_map; auto).
      apply in_map_iff in I2. destruct I2 as (s & Es & Is). rewrite Forall_forall in FG. destruct (FG g Ig) as [Cg _].
      pose proof (group_not_split n (taps a * s_c (size_of e)) S ns s HS NS' Is) as K. rewrite Es in K. rewrite (proj1 Cg), K.
      cbn [is_some]. rewrite andb_false_r. cbn [b2n]. lia. }
    cbn [mu]. rewrite map_map.
    assert (SUM : fold_right Nat.add 0%nat (map (fun g => mu (add_split S) (mult_split S) (Conv (valid a) (snd g) (fst g) e)) groups) =
      (length groups * mu (add_split S) (mult_split S) e)%nat).
    { clear - GZ. induction groups as [|g gs IH]; cbn [map fold_right length]; [reflexivity|].
      rewrite GZ by (left; auto). rewrite IH by (intros; apply GZ; right; auto). lia. }
    rewrite SUM, LG. cbn [add_split mult_split]. rewrite EL, NS. cbn [is_some andb b2n]. nia.
  - intros a c n e WT OK P. cbn [add_split] in P. destruct (split_eligible a) eqn:EL; [|cbn in P; lia].
    destruct (num_splits (Z.of_nat (length (c_filter c))) S (Z.of_nat n)) as [ns|] eqn:NS; [|cbn in P; lia].
    assert (ND : a_depthwise a = false) by (unfold split_eligible in EL; destruct (a_depthwise a); [discriminate|reflexivity]).
    assert (HC : consts_ok (taps a * s_c (size_of e)) n c).
    { cbn [well_typed] in WT. destruct WT as (_ & _ & _ & _ & _ & _ & _ & A8 & _). unfold consts_fit in A8. rewrite ND in A8. exact A8. }
    destruct (OK EL) as [SM N4]. assert (NS' := NS). rewrite (proj1 HC) in NS'.
    destruct (C29_channelwise_split_partial unit unit (fun _ _ _ _ _ => tt) _ n c S ns HC N4 HS NS') as (gs & E & _).
    eexists. eapply Split; eauto.
Qed.

Lemma one_pos t : (1 <= one t)%nat. Proof. unfold one; lia. Qed.
Lemma mult_split_pos S t : (1 <= mult_split S t)%nat.
Proof. destruct t as [[[a c] n] d]. cbn [mult_split]. destruct (num_splits _ _ _); lia. Qed.

(** What the four phases establish, one after the other. *)
Lemma after_same e e1 : run same_root e e1 -> well_typed e ->
  good e e1 /\ Forall no_same (convs e1).
Proof.
  intros R WT. destruct same_step_props as (P1 & P2 & P3).
  destruct (run_good add_same one one_pos same_root nothing P1 P2 P3 e e1 R WT (all_nothing e)) as (G & _ & F). split; auto.
  eapply Forall_impl; [|exact F]. intros [[[a c] n] d] H. cbn in *. intros E. rewrite E in H. destruct (a_same a); [discriminate|reflexivity].
Qed.

(** Channels aligned: nothing left to pad. *)
Definition aligned (t : tuple) : Prop := let '(a, _, n, d) := t in
  (pad_eligible a = true -> (Z.of_nat d mod alignment (i16_conv a) = 0 /\ Z.of_nat n mod alignment (i16_conv a) = 0)) /\
  (pad_dw_eligible a = true -> d = n -> Z.of_nat n mod 4 = 0).
Lemma pad_zero_inv d al : 1 <= al -> pad_size (Z.of_nat d) al = 0 -> Z.of_nat d mod al = 0.
Proof.
  intros Ha E. destruct (pad_size_ok (Z.of_nat d) al Ha ltac:(lia)) as [_ P]. rewrite E, Z.add_0_r, Z.rem_mod_nonneg in P by lia. exact P.
Qed.
Lemma add_pad_zero t : add_pad t = 0%nat -> aligned t.
Proof.
  destruct t as [[[a c] n] d]. cbn [add_pad aligned]. rewrite in_none, out_none. intros H. split.
  - intros E. rewrite E in H. cbn [andb] in H.
    destruct (Z.eqb_spec (pad_size (Z.of_nat d) (alignment (i16_conv a))) 0); [|cbn in H; lia].
    destruct (Z.eqb_spec (pad_size (Z.of_nat n) (alignment (i16_conv a))) 0); [|cbn in H; lia].
    split; apply pad_zero_inv; auto using align_pos.
  - intros E ->. rewrite E in H. unfold pad_depthwise in H. rewrite Nat.eqb_refl in H.
    destruct (Z.eqb_spec (pad_size (Z.of_nat n) 4) 0); [|cbn in H; lia]. apply pad_zero_inv; auto; lia.
Qed.
Lemma after_pad Qp e e1 : run pad_root e e1 -> well_typed e -> Forall (fun t : tuple => let '(a, _, _, _) := t in Qp a) (convs e) ->
  good e e1 /\ Forall (fun t : tuple => let '(a, _, _, _) := t in Qp a) (convs e1) /\ Forall aligned (convs e1).
Proof.
  intros R WT F0. destruct (pad_step_props Qp) as (P1 & P2 & P3).
  destruct (run_good add_pad one one_pos pad_root _ P1 P2 P3 e e1 R WT F0) as (G & F1 & F). split; auto. split; auto.
  eapply Forall_impl; [|exact F]. apply add_pad_zero.
Qed.

Definition quantised_out (t : tuple) : Prop := let '(a, _, _, _) := t in in_ok a = true -> out_ok a = true.
Lemma convs_out e : well_typed e -> Forall quantised_out (convs e).
Proof.
  assert (FL : forall l, Forall (fun e => well_typed e -> Forall quantised_out (convs e)) l -> Forall well_typed l ->
    Forall quantised_out (flat_map convs l)).
  { intros l F W. rewrite Forall_forall in *. intros t I. apply in_flat_map in I. destruct I as (e0 & I & It).
    specialize (F e0 I (W e0 I)). rewrite Forall_forall in F. auto. }
  induction e using net_ind2; intros WT; cbn [well_typed convs] in *; auto.
  - destruct WT as (_ & _ & _ & _ & _ & _ & _ & _ & A9 & _ & A11). constructor; auto.
  - apply IHe. tauto.
  - apply IHe. tauto.
  - apply FL; auto. destruct WT as (_ & _ & A). apply fold_and_forall in A. exact A.
  - apply FL; auto. destruct WT as (_ & _ & A & _). apply fold_and_forall in A. exact A.
Qed.

Lemma ready e : well_typed e -> Forall no_same (convs e) -> Forall aligned (convs e) -> Forall splittable_ok (convs e).
Proof.
  intros WT F1 F2. pose proof (convs_out e WT) as F3. rewrite Forall_forall in *. intros t I. specialize (F1 t I). specialize (F2 t I). specialize (F3 t I).
  destruct t as [[[a c] n] d]. cbn [no_same aligned splittable_ok quantised_out] in *. intros E. split; [apply F1, split_same_eligible, E|].
  assert (PE : pad_eligible a = true).
  { unfold split_eligible in E. unfold pad_eligible. rewrite E. cbn. apply F3. destruct (in_ok a); auto. rewrite andb_false_r in E. discriminate. }
  destruct F2 as [F2 _]. destruct (F2 PE) as [_ N]. apply Nat2Z.inj. rewrite Nat2Z.inj_mod. destruct (i16_conv a); cbn [alignment] in N; [|exact N].
  change (Z.of_nat 4) with 4. change (Z.of_nat 0) with 0. apply Z.mod_divide in N; [|lia]. apply Z.mod_divide; [lia|]. destruct N as [q N]. exists (4 * q). lia.
Qed.

(** The whole pass keeps the network's result. *)
Theorem C74_optimise_preserves : forall splitSize e e', 1 <= splitSize -> well_typed e -> optimise splitSize e e' ->
  well_typed e' /\ same_result e e'.
Proof.
  intros S e e4 HS WT (e1 & e2 & e3 & R1 & R2 & R3 & R4).
  destruct (after_same e e1 R1 WT) as [G1 F1].
  destruct (after_pad (fun a => same_eligible a = true -> a_same a = false) e1 e2 R2 (proj1 G1) F1) as (G2 & F2 & A2).
  pose proof (ready e2 (proj1 G2) F2 A2) as OK.
  destruct (split_step_props S HS) as (P1 & P2 & P3).
  destruct (run_good _ _ (mult_split_pos S) (split_root S) _ P1 P2 P3 e2 e3 R3 (proj1 G2) OK) as (G3 & _ & _).
  destruct (after_pad (fun _ => True) e3 e4 R4 (proj1 G3)) as (G4 & _ & _).
  { apply Forall_forall. intros [[[a c] n] d] _. exact I. }
  change (good e e4). eapply good_trans; [exact G1|]. eapply good_trans; [exact G2|]. eapply good_trans; [exact G3|exact G4].
Qed.
Print Assumptions C74_optimise_preserves.

(** It always ends: no phase can run forever, and there is a result. *)
Theorem C74_optimise_terminates : forall splitSize e, 1 <= splitSize -> well_typed e ->
  Acc (fun b a => anywhere same_root a b) e /\
  (forall e1, run same_root e e1 -> Acc (fun b a => anywhere pad_root a b) e1 /\
   forall e2, run pad_root e1 e2 -> Acc (fun b a => anywhere (split_root splitSize) a b) e2 /\
   forall e3, run (split_root splitSize) e2 e3 -> Acc (fun b a => anywhere pad_root a b) e3) /\
  exists e', optimise splitSize e e'.
Proof.
  intros S e HS WT. destruct same_step_props as (S1 & S2 & S3). destruct (split_step_props S HS) as (P1 & P2 & P3).
  destruct (pad_step_props (fun a => same_eligible a = true -> a_same a = false)) as (B1 & B2 & B3).
  assert (TT : forall e, Forall (fun t : tuple => let '(_, _, _, _) := t in True) (convs e)).
  { intros e0. apply Forall_forall. intros [[[a c] n] d] _. exact I. }
  destruct (pad_step_props (fun _ => True)) as (D1 & D2 & D3).
  assert (ST1 : forall e1, run same_root e e1 -> well_typed e1 /\ Forall no_same (convs e1)).
  { intros e1 R. destruct (after_same e e1 R WT) as [[W _] F]. auto. }
  assert (ST2 : forall e1 e2, run same_root e e1 -> run pad_root e1 e2 -> well_typed e2 /\ Forall splittable_ok (convs e2)).
  { intros e1 e2 R1 R2. destruct (ST1 e1 R1) as [W1 F1].
    destruct (after_pad (fun a => same_eligible a = true -> a_same a = false) e1 e2 R2 W1 F1) as ([W2 _] & F2 & A2). split; auto. apply ready; auto. }
  assert (ST3 : forall e1 e2 e3, run same_root e e1 -> run pad_root e1 e2 -> run (split_root S) e2 e3 -> well_typed e3).
  { intros e1 e2 e3 R1 R2 R3. destruct (ST2 e1 e2 R1 R2) as [W2 F2].
    destruct (run_good _ _ (mult_split_pos S) (split_root S) _ P1 P2 P3 e2 e3 R3 W2 F2) as ((W3 & _) & _ & _). exact W3. }
  split; [|split].
  - eapply (phase_acc add_same one one_pos same_root nothing); auto using all_nothing.
  - intros e1 R1. destruct (ST1 e1 R1) as [W1 F1]. split.
    + eapply (phase_acc add_pad one one_pos pad_root); [apply B1|apply B2|exact W1|exact F1].
    + intros e2 R2. destruct (ST2 e1 e2 R1 R2) as [W2 F2]. split.
      * eapply (phase_acc _ _ (mult_split_pos S) (split_root S)); [apply P1|apply P2|exact W2|exact F2].
      * intros e3 R3. eapply (phase_acc add_pad one one_pos pad_root); [apply D1|apply D2|eapply ST3; eauto|apply TT].
  - destruct (run_exists add_same one one_pos same_root nothing S1 S2 S3 e WT (all_nothing e)) as [e1 R1]. destruct (ST1 e1 R1) as [W1 F1].
    destruct (run_exists add_pad one one_pos pad_root _ B1 B2 B3 e1 W1 F1) as [e2 R2]. destruct (ST2 e1 e2 R1 R2) as [W2 F2].
    destruct (run_exists _ _ (mult_split_pos S) (split_root S) _ P1 P2 P3 e2 W2 F2) as [e3 R3].
    destruct (run_exists add_pad one one_pos pad_root _ D1 D2 D3 e3 (ST3 e1 e2 e3 R1 R2 R3) (TT e3)) as [e4 R4].
    exists e4, e1, e2, e3. auto.
Qed.
Print Assumptions C74_optimise_terminates.

(** Afterwards the channels of every quantised convolution are multiples of 4 (of 16 between 16-bit tensors). *)
Theorem C74_optimise_aligns : forall splitSize e e', 1 <= splitSize -> well_typed e -> optimise splitSize e e' ->
  forall a c n d, In (a, c, n, d) (convs e') -> a_filter_qi8 a = true -> a_bias a <> I32 -> a_bias a <> OtherBias ->
  (a_depthwise a = false -> a_in a <> OtherElt ->
     let al := if i16_conv a then 16 else 4 in Z.of_nat d mod al = 0 /\ Z.of_nat n mod al = 0) /\
  (a_depthwise a = true -> a_in a = QI8 -> d = n -> Z.of_nat n mod 4 = 0).
Proof.
  intros S e e4 HS WT (e1 & e2 & e3 & R1 & R2 & R3 & R4) a c n d I FQ B1 B2.
  destruct (C74_optimise_terminates S e HS WT) as (_ & _ & _).
  destruct (after_same e e1 R1 WT) as [G1 F1].
  destruct (after_pad (fun a => same_eligible a = true -> a_same a = false) e1 e2 R2 (proj1 G1) F1) as (G2 & F2 & A2).
  pose proof (ready e2 (proj1 G2) F2 A2) as OK.
  destruct (split_step_props S HS) as (P1 & P2 & P3).
  destruct (run_good _ _ (mult_split_pos S) (split_root S) _ P1 P2 P3 e2 e3 R3 (proj1 G2) OK) as (G3 & _ & _).
  destruct (after_pad (fun _ => True) e3 e4 R4 (proj1 G3)) as (G4 & _ & A4).
  { apply Forall_forall. intros [[[a0 c0] n0] d0] _. exact Logic.I. }
  rewrite Forall_forall in A4. specialize (A4 _ I). pose proof (convs_out e4 (proj1 G4)) as F3. rewrite Forall_forall in F3. specialize (F3 _ I).
  cbn [aligned quantised_out] in *. destruct A4 as [A B].
  assert (BO : bias_ok a = true) by (unfold bias_ok; destruct (a_bias a); congruence).
  split.
  - intros ND NE. assert (IO : in_ok a = true) by (unfold in_ok; rewrite ND; destruct (a_in a); cbn; congruence).
    apply A. unfold pad_eligible. rewrite ND, IO, FQ, BO, (F3 IO). reflexivity.
  - intros DW IN. apply B. assert (IO : in_ok a = true) by (unfold in_ok; rewrite IN; reflexivity).
    unfold pad_dw_eligible. rewrite DW, IO, FQ, BO. reflexivity.
Qed.
Print Assumptions C74_optimise_aligns.

(** The order of the passes matters: the splitting pattern writes VALID for every padding, so on a SAME convolution (2x1
    filter, 4 to 8 channels, 2x2 image) it changes the size of the result. *)
Definition attrs21 (same : bool) : attrs := Attrs false same 2 1 1 1 1 1 QI8 QI8 true NoBias 5 0 (fun acc _ _ _ => acc).
Definition consts64 : conv_consts := Consts (repeat 1 64) None None None.
Theorem C74_refuted_split_before_same : forall img, (forall y x, length (img y x) = 4%nat) ->
  let e := Conv (attrs21 true) consts64 8 (Src (Size 2 2 4) img) in
  exists e', well_typed e /\ anywhere (split_root 32) e e' /\ size_of e = Size 2 2 8 /\ size_of e' = Size 1 2 8.
Proof.
  intros img L e.
  assert (NS : num_splits (Z.of_nat (length (c_filter consts64))) 32 (Z.of_nat 8) = Some 2) by reflexivity.
  destruct (split_groups (taps (attrs21 true) * s_c (size_of (Src (Size 2 2 4) img))) consts64 0 (split_sizes (Z.of_nat 8) 2)) as [groups|] eqn:SG; [|discriminate SG].
  eexists. split; [|split; [apply AtRoot; eapply Split; [reflexivity|exact NS|exact SG]|split; [reflexivity|]]].
  - cbn. repeat split; intros; try lia; auto; discriminate.
  - cbn in SG. injection SG as <-. reflexivity.
Qed.
Print Assumptions C74_refuted_split_before_same.

(** A SAME convolution with 3 input and 6 output channels: padded to 2x2 -> 3x2, 4 and 8 channels, and split in two. *)
Definition src3 (img : image pixel) : net := Src (Size 2 2 3) img.
Definition consts_in : conv_consts := Consts (map Z.of_nat (seq 1 36)) None None None.
Definition padded (n : nat) (c : conv_consts) (img : image pixel) : net :=
  Conv (attrs21 false) c n (PadC 1 5 (Pad 0 1 0 0 [5; 5; 5] (src3 img))).
Definition consts_padded : conv_consts := Consts (pad_batch 8 2 (pad_depth 3 1 (map Z.of_nat (seq 1 36)))) None None None.
Definition final (img : image pixel) : net :=
  SliceC 6 (ConcatC [padded 4 (Consts (firstn 32 (c_filter consts_padded)) None None None) img;
                     padded 4 (Consts (skipn 32 (c_filter consts_padded)) None None None) img]).

Lemma no_step add mult (HP : forall t, (1 <= mult t)%nat) (R : net -> net -> Prop) Qp :
  (forall e e', R e e' -> well_typed e -> Forall Qp (convs e) -> good e e' /\ Forall Qp (convs e')) ->
  (forall e e', R e e' -> well_typed e -> Forall Qp (convs e) -> (mu add mult e' < mu add mult e)%nat) ->
  forall e, well_typed e -> Forall Qp (convs e) -> mu add mult e = 0%nat -> run R e e.
Proof. intros HG HM e WT F M. apply Done. intros e' St. pose proof (lift_mu add mult HP R Qp HG HM e e' St WT F). lia. Qed.

Example C74_concrete : forall img, (forall y x, length (img y x) = 3%nat) ->
  well_typed (Conv (attrs21 true) consts_in 6 (src3 img)) /\ optimise 32 (Conv (attrs21 true) consts_in 6 (src3 img)) (final img).
Proof.
  intros img L.
  assert (W0 : well_typed (Conv (attrs21 true) consts_in 6 (src3 img))) by (cbn; repeat split; intros; try lia; auto; discriminate).
  split; [exact W0|].
  set (e1 := Conv (attrs21 false) consts_in 6 (Pad 0 1 0 0 [5; 5; 5] (src3 img))).
  set (e2 := SliceC 6 (padded 8 consts_padded img)).
  assert (R1 : anywhere same_root (Conv (attrs21 true) consts_in 6 (src3 img)) e1).
  { apply AtRoot. eapply (SameToValid (attrs21 true) consts_in 6 (src3 img)); reflexivity. }
  assert (W1 : well_typed e1) by (cbn; repeat split; intros; try lia; auto; discriminate).
  assert (R2 : anywhere pad_root e1 (padded 6 (Consts (pad_depth 3 1 (map Z.of_nat (seq 1 36))) None None None) img)).
  { apply AtRoot. eapply (PadInput (attrs21 false) consts_in 6); reflexivity. }
  assert (R3 : anywhere pad_root (padded 6 (Consts (pad_depth 3 1 (map Z.of_nat (seq 1 36))) None None None) img) e2).
  { apply AtRoot. apply (PadOutput (attrs21 false) _ 6 _ 2); reflexivity. }
  assert (W2 : well_typed e2) by (cbn; repeat split; intros; try lia; auto; discriminate).
  assert (R4 : anywhere (split_root 32) e2 (final img)).
  { apply InSliceC, AtRoot.
    apply (Split 32 (attrs21 false) consts_padded 8 _ 2
      [(4%nat, Consts (firstn 32 (c_filter consts_padded)) None None None); (4%nat, Consts (skipn 32 (c_filter consts_padded)) None None None)]);
      reflexivity. }
  assert (W3 : well_typed (final img)).
  { cbn. repeat split; intros; try lia; auto; try discriminate. exists 2, 2. cbn. repeat split; auto. }
  exists e1, e2, (final img). split; [|split; [|split]].
  - eapply More; [exact R1|]. destruct same_step_props as (P1 & P2 & _). apply (no_step add_same one one_pos same_root nothing P1 P2); auto using all_nothing.
  - eapply More; [exact R2|]. eapply More; [exact R3|]. destruct (pad_step_props (fun _ => True)) as (P1 & P2 & _).
    eapply (no_step add_pad one one_pos pad_root _ P1 P2); auto. repeat constructor.
  - eapply More; [exact R4|]. destruct (split_step_props 32 ltac:(lia)) as (P1 & P2 & _).
    eapply (no_step (add_split 32) (mult_split 32) (mult_split_pos 32) _ _ P1 P2); auto. repeat constructor.
  - destruct (pad_step_props (fun _ => True)) as (P1 & P2 & _).
    eapply (no_step add_pad one one_pos pad_root _ P1 P2); auto. repeat constructor.
Qed.
