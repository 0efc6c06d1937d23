(** Property C72, further part: which slices, pads and broadcasts remain when no
    pattern applies any more.  Model: FunModel.  Vocabulary: NdSpec, LowerWhenSpec. *)
From Coq Require Import Relations.
From Verif Require Import Base NdSpec NdBase SlicePadModel SlicePadProofs SlicePadProofs2 PadProofs BroadcastProofs LowerWhenSpec LowerWhenProofs LowerProps LowerWhenProps
  FunModel FunSpec FunProofs FunProofs2 FunProps.
Local Open Scope nat_scope.

(** What remains of slices, pads and broadcasts, given the operand types: those that do
    not fit one strided copy.  (Tensors with an empty axis are excluded.) *)
Definition left_copy (tys : list ty) (i : instr) : Prop :=
  match i_op i, tys with
  | TSlice _ _, [a] => Forall (fun d => 0 < d) (t_shape (i_ty i)) ->
      t_shape a <> t_shape (i_ty i) /\ ~ changes_one (t_shape a) (t_shape (i_ty i)) /\ ~ changes_two (t_shape a) (t_shape (i_ty i))
  | TPad _ _, [a] =>
      let ins := t_shape a in let outs := t_shape (i_ty i) in
      ins <> outs /\
      ((~ changes_one ins outs /\ ~ changes_two ins outs) \/
       (repeats ins outs \/ changes_two ins outs) /\
       exists k, last_changed ins outs k /\ nelem (skipn k ins) * t_elem a = 3 /\ nelem (skipn k outs) * t_elem a = 4)
  | TBroadcast, [a] => Forall (fun d => 0 < d) (t_shape (i_ty i)) ->
      let ins := t_shape a in let outs := t_shape (i_ty i) in
      let full := repeat 1 (length outs - length ins) ++ ins in
      ins <> outs /\
      ~ ((forall j, changed full outs j -> nth j full 1 = 1) /\
         (forall j1 j2 j3, j1 < j2 < j3 -> changed full outs j1 -> changed full outs j3 -> ~ changed full outs j2 -> nth j2 outs 1 = 1))
  | _, _ => True
  end.

Lemma last_exists ins : forall outs, length ins = length outs -> nch ins outs <> 0 -> exists k, last_changed ins outs k.
Proof.
  induction ins as [|d ins IH]; intros [|o outs] L N; try discriminate; [destruct N; auto|]. injection L as L. cbn [nch] in N.
  destruct (Nat.eq_dec (nch ins outs) 0) as [E|E].
  - exists 0. split; [intros X; cbn in X; subst; rewrite Nat.eqb_refl, E in N; destruct N; auto|].
    intros [|j] Hj X; [lia|]. apply (proj1 (nch_0 ins outs L) E j X).
  - destruct (IH outs L E) as (k & K1 & K2). exists (S k). split; [exact K1|]. intros [|j] Hj X; [lia|]. apply (K2 j); [lia|exact X].
Qed.

Theorem C72_normal_form_copies : forall f f', verified f -> clos_refl_trans _ lower_step f f' ->
  (forall g, ~ lower_step f' g) ->
  forall pre i post tys, f_body f' = pre ++ i :: post -> lookups (scope (f_params f') pre) (i_args i) = Some tys ->
  left_copy tys i.
Proof.
  intros f f' V St NS pre i post tys Eb T. destruct (zeros_sized (f_params f)) as (inputs & Sz). destruct (verified_runs f inputs V Sz) as (r & R & _).
  destruct (steps_preserve f f' St) as [Ep Pr]. specialize (Pr inputs r Sz R). rewrite <- Ep in Sz. clear R St V Ep f.
  destruct f' as [ps body rets]. cbn [f_params f_body f_rets] in *. subst body.
  destruct (run_instr ps pre i post rets inputs r Sz Pr) as (vs & T' & K & F & Lv).
  rewrite T in T'. injection T' as Et.
  destruct (fresh_exists (Func ps (pre ++ i :: post) rets)) as (fresh & FI & Fr).
  assert (NP : forall news, ~ pattern fresh tys i news) by (intros news P; eapply NS; eapply Replace; eauto).
  assert (NF : ~ forwards tys i).
  { intros P. assert (L1 : length tys = 1) by (destruct P; auto). rewrite Et, map_length, Lv in L1.
    destruct (i_args i) as [|x [|? ?]] eqn:Ea; try discriminate. eapply NS. eapply ForwardTo; rewrite ?Ea; eauto. }
  rewrite <- Et in K. clear Et Lv F NS Fr FI Pr Sz.
  destruct i as [d o args t]. cbn [i_op i_args i_ty] in *. unfold left_copy; cbn [i_op i_args i_ty].
  destruct o; auto; destruct K as [K|K]; try discriminate; cbn [op_ok] in K; destruct tys as [|a [|? ?]]; auto; try contradiction.
  - (* slice *)
    intros Po. destruct K as (K1 & K2 & _).
    assert (Ls : length sizes = length (t_shape a)).
    { destruct (slice_fits_length _ _ _ K1). transitivity (length (t_shape t)); [|lia]. clear - K2. induction K2; cbn; auto. }
    destruct (C13_exactly_when false (t_elem a) begin (t_shape t) (t_shape a) sizes K1 Ls Po) as [W1 W2].
    split; [|split].
    + intros E. apply W1 in E. apply NF. eapply FSlice. exact E.
    + intros E. destruct (proj2 W2 (conj eq_refl (or_introl E))) as (o & X). eapply NP. eapply PSlice. exact X.
    + intros E. destruct (proj2 W2 (conj eq_refl (or_intror E))) as (o & X). eapply NP. eapply PSlice. exact X.
  - (* pad *)
    destruct K as (K1 & K2 & _).
    destruct (C14_exactly_when false (t_elem a) (t_zero a) before after (t_shape t) (t_shape a) K1 K2) as [W1 W2].
    cbn zeta. split.
    + intros E. apply W1 in E. apply NF. eapply FPad. exact E.
    + assert (L : length (t_shape a) = length (t_shape t)) by (destruct (pad_fits_length _ _ _ _ K1) as (? & ? & ?); lia).
      set (ins := t_shape a) in *. set (outs := t_shape t) in *.
      assert (D : (changes_one ins outs \/ changes_two ins outs) \/ ~ changes_one ins outs /\ ~ changes_two ins outs).
      { rewrite <- nch_1, <- nch_2 by auto. destruct (quiet ins outs); destruct (Nat.eq_dec (nch ins outs) 1); destruct (Nat.eq_dec (nch ins outs) 2); auto; right; split; auto; intros [? ?]; auto; discriminate. }
      destruct D as [D|D]; auto. right.
      assert (N0 : nch ins outs <> 0) by (destruct D as [D|D]; [apply nch_1 in D|apply nch_2 in D]; auto; lia).
      destruct (last_exists ins outs L N0) as (k & Hk).
      assert (D3 : {repeats ins outs \/ changes_two ins outs} + {~ (repeats ins outs \/ changes_two ins outs)}).
      { destruct (quiet ins outs) eqn:Q; [|left; left; apply quiet_repeats; auto]. destruct (Nat.eq_dec (nch ins outs) 2) as [E|E]; [left; right; apply nch_2; auto|right].
        intros [X|X]; [apply quiet_repeats in X; auto; congruence|apply nch_2 in X; auto; tauto]. }
      assert (C : ~ ~ ((repeats ins outs \/ changes_two ins outs) /\
        exists k, last_changed ins outs k /\ nelem (skipn k ins) * t_elem a = 3 /\ nelem (skipn k outs) * t_elem a = 4)).
      { intros C. destruct (proj2 W2 (conj eq_refl (conj D C))) as (o & X). eapply NP. eapply PPad. exact X. }
      destruct D3 as [D3|D3]; [|destruct C; tauto]. split; auto. exists k. split; auto.
      destruct (Nat.eq_dec (nelem (skipn k ins) * t_elem a) 3) as [E3|E3]; destruct (Nat.eq_dec (nelem (skipn k outs) * t_elem a) 4) as [E4|E4]; auto.
      all: exfalso; apply C; intros [_ (k' & X1 & X2 & X3)]; rewrite (last_changed_unique _ _ _ _ X1 Hk) in X2, X3; contradiction.
  - (* broadcast *)
    intros Po. destruct K as (K1 & _).
    destruct (C15_exactly_when false (t_elem a) (t_shape a) (t_shape t) K1 Po) as [W1 W2]. cbn zeta in *.
    assert (Hne : t_shape a <> t_shape t) by (intros E; apply W1 in E; apply NF; eapply FBroadcast; exact E).
    split; auto. intros [E1 E2]. destruct (proj2 W2 (conj eq_refl (conj Hne (conj E1 E2)))) as (o & X). eapply NP. eapply PBroadcast. exact X.
Qed.

(** A concrete normal form: the slice of a 4x5x6 tensor that cuts its two last axes stays as it is. *)
Definition ex_stuck : func :=
  Func [(0, Ty [4; 5; 6] 1 (Some 0%Z))] [Instr 1 (TSlice [0; 1; 2] [4; 2; 3]%Z) [0] (Ty [4; 2; 3] 1 (Some 0%Z))] [1].
Example C72_normal_form_copies_meets :
  verified ex_stuck /\ (forall g, ~ lower_step ex_stuck g) /\
  ~ changes_one [4; 5; 6] [4; 2; 3] /\ ~ changes_two [4; 5; 6] [4; 2; 3].
Proof.
  split; [|split].
  - unfold ex_stuck, verified. cbn. split; [repeat constructor; auto|]. split; [|intros x [<-|[]]; eexists; reflexivity].
    split; [reflexivity|]. split; [|exact I]. eexists; split; [reflexivity|]. cbn. repeat split; auto; repeat constructor; auto.
  - intros g St. remember ex_stuck as h eqn:Eh. unfold ex_stuck in Eh.
    destruct St as [ps pre i post rets tys fresh news T P FI Fr|ps pre i post rets tys a T P Ea|ps pre i post rets Nm Nr].
    all: injection Eh as -> Eb ->; destruct pre as [|p0 [|p1 pre]]; try discriminate; injection Eb as -> ->; cbn in *.
    + injection T as <-. inversion P; subst. match goal with H : replace_slice ?b _ _ _ _ _ = _ |- _ => destruct b; vm_compute in H; discriminate end.
    + injection T as <-. inversion P; subst. match goal with H : replace_slice ?b _ _ _ _ _ = _ |- _ => destruct b; vm_compute in H; discriminate end.
    + apply Nr. auto.
  - split; [rewrite <- nch_1 by auto; discriminate|]. rewrite <- nch_2 by auto. intros [_ H]. discriminate.
Qed.

Print Assumptions C72_normal_form_copies.
