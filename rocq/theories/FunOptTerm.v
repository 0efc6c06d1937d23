(** Termination of OptimizeTranspose and of the combination of reshapes; the pad swap that does not terminate (C88). *)
From Coq Require Import Relations Wellfounded Permutation.
From Verif Require Import Base NdSpec NdBase LowerSpec TransposeSpec FunOpsSpec FunOpsProofs FunModel FunSpec FunProofs FunProofs2 FunProps.
From Verif Require Import FunOptModel FunOptSpec FunOptProofs FunOptProofs2 FunOptProps.
From Verif Require PatternModel TransposeModel.
Local Open Scope nat_scope.

(** ** Chains of operators *)
Section Chains.
Variables link counted : fop -> bool.
Definition chain (g : nat -> nat) (i : instr) : nat := if link (i_op i) then match i_args i with [x] => S (g x) | _ => 0 end else 0.
Definition cost (g : nat -> nat) (i : instr) : nat := if counted (i_op i) then match i_args i with [x] => g x | _ => 0 end else 0.
Definition upd (g : nat -> nat) (d n : nat) (x : nat) : nat := if Nat.eqb x d then n else g x.
Fixpoint csum (g : nat -> nat) (body : list instr) : nat := match body with [] => 0 | i :: tl => cost g i + csum (upd g (i_dst i) (chain g i)) tl end.
Fixpoint cenv (g : nat -> nat) (body : list instr) : nat -> nat := match body with [] => g | i :: tl => cenv (upd g (i_dst i) (chain g i)) tl end.
Lemma csum_app a : forall g b, csum g (a ++ b) = csum g a + csum (cenv g a) b.
Proof. induction a as [|i a IH]; intros g b; cbn [app csum cenv]; auto. rewrite IH. lia. Qed.
Lemma cenv_app a : forall g b, cenv g (a ++ b) = cenv (cenv g a) b.
Proof. induction a as [|i a IH]; intros g b; cbn [app cenv]; auto. Qed.
Lemma cenv_other body : forall g x, ~ In x (map i_dst body) -> cenv g body x = g x.
Proof.
  induction body as [|i body IH]; intros g x H; cbn [cenv]; auto. cbn [map In] in H. rewrite IH by tauto. unfold upd. destruct (Nat.eqb_spec x (i_dst i)); [exfalso; apply H; auto|auto].
Qed.
Lemma csum_mono body : forall g g', (forall x, (exists i, In i body /\ In x (i_args i)) -> g x <= g' x) -> csum g body <= csum g' body.
Proof.
  induction body as [|i body IH]; intros g g' H; cbn [csum]; auto.
  assert (Ha : forall x, In x (i_args i) -> g x <= g' x) by (intros x Hx; apply H; exists i; split; [left; auto|auto]).
  apply Nat.add_le_mono.
  - unfold cost. destruct (counted (i_op i)); auto. destruct (i_args i) as [|x [|? ?]]; auto. apply Ha. left; auto.
  - apply IH. intros x (j & Hj & Hx). unfold upd. destruct (Nat.eqb x (i_dst i)).
    + unfold chain. destruct (link (i_op i)); auto. destruct (i_args i) as [|y [|? ?]]; auto. apply le_n_S. apply Ha. left; auto.
    + apply H. exists j. split; [right; auto|auto].
Qed.
End Chains.

Lemma exec_new_dsts {okp} body e e' x v : exec_with okp body e e' -> lookup e x = Some v -> ~ In x (map i_dst body).
Proof.
  intros E. revert v. induction E as [e|i tl e vs b e' L K Sm Zl N E IH]; intros v H; cbn [map In]; [tauto|]. intros [D|D]; [congruence|].
  apply (IH v); auto. cbn [lookup]. destruct (Nat.eqb_spec x (i_dst i)) as [->|]; [congruence|auto].
Qed.
(** In a well-formed function, neither the operands of [j] nor its result are defined again. *)
Lemma ssa_facts ps pre j mid i post rets : verified_before (Func ps (pre ++ j :: mid ++ i :: post) rets) ->
  ~ In (i_dst j) (map i_dst mid) /\ forall x, In x (i_args j) -> x <> i_dst j /\ ~ In x (map i_dst mid).
Proof.
  intros V. destruct (zeros_sized ps) as (inputs & Sz). destruct (before_runs _ inputs V Sz) as (r & e & E & _). cbn [f_body f_params] in E.
  apply exec_app in E. destruct E as (e1 & E1 & E2). inversion E2 as [|j' tl e0 vj bj e'' Lj Kj Sj Zj Nj E3]; subst. apply exec_app in E3. destruct E3 as (e2 & Em & E3). split.
  - apply (exec_new_dsts _ _ _ _ (i_ty j, bj) Em). cbn [lookup]. rewrite Nat.eqb_refl. auto.
  - intros x Hx. pose proof (lookups_none _ _ _ _ Lj Hx) as NN. destruct (lookup e1 x) as [v|] eqn:Lx; [|congruence].
    assert (Ne : x <> i_dst j) by congruence. split; [exact Ne|]. apply (exec_new_dsts _ _ _ _ v Em). cbn [lookup]. destruct (Nat.eqb_spec x (i_dst j)); [congruence|auto].
Qed.
Lemma step_verified p f f' : verified_before f -> opt_step p f f' -> verified_before f'.
Proof.
  intros V St. destruct (zeros_sized (f_params f)) as (inputs & Sz). apply (C88_passes_preserve f f' inputs V); [apply rt_step; exists p; exact St|exact Sz].
Qed.

(** ** OptimizeTranspose *)
Definition is_transpose (o : fop) : bool := match o with TTranspose _ => true | _ => false end.
Definition last_two (o : fop) : bool := match o with TPad b a => TransposeModel.pads_last_two (combine (zshape b) (zshape a)) | _ => false end.
Definition transposes (body : list instr) : nat := length (filter (fun i => is_transpose (i_op i)) body).
Definition pad_height (body : list instr) : nat := 2 * csum last_two is_transpose (fun _ => 0) body + length body.
Lemma transposes_app a b : transposes (a ++ b) = transposes a + transposes b.
Proof. unfold transposes. rewrite filter_app, app_length. auto. Qed.
Lemma transposes_rename s body : transposes (map (rename_instr s) body) = transposes body.
Proof. unfold transposes. induction body as [|i body IH]; cbn [map filter]; auto. unfold rename_instr at 1. cbn [i_op]. destruct (is_transpose (i_op i)); cbn [length]; auto. Qed.
Lemma transposes_cons i body : transposes (i :: body) = (if is_transpose (i_op i) then 1 else 0) + transposes body.
Proof. unfold transposes. cbn [filter]. destruct (is_transpose (i_op i)); auto. Qed.

Lemma transpose_step_decreases f f' : verified_before f -> opt_step Transposes f f' ->
  transposes (f_body f') < transposes (f_body f) \/ transposes (f_body f') = transposes (f_body f) /\ pad_height (f_body f') < pad_height (f_body f).
Proof.
  intros V St. destruct St as [ps pre j mid i post rets tys fresh news T P Fr | ps pre i post rets tys fresh news T P Fr | ps pre j mid i post rets x P A | ps pre i post rets M Mr];
    cbn [f_body] in *.
  - inversion P as [a q before after x pr d perm r s0 s1 s2 s3 Hp Hl Hs | | | | | ]; subst. right. split.
    + rewrite !transposes_app, !transposes_cons, !transposes_app, !transposes_cons. cbn. lia.
    + destruct (ssa_facts _ _ _ _ _ _ _ V) as [N1 N2]. cbn [i_dst i_args] in N1, N2. destruct (N2 x (or_introl eq_refl)) as [N3 N4].
      unfold pad_height. rewrite !csum_app. cbn [csum]. rewrite !csum_app. cbn [csum app]. rewrite !app_length. cbn [length]. rewrite !app_length. cbn [length].
      set (g1 := cenv _ _ pre). cbn [i_op i_dst i_args cost chain is_transpose last_two].
      set (g2 := cenv _ (upd g1 q _) mid).
      assert (G2 : g2 q = S (g2 x)).
      { unfold g2. rewrite !cenv_other by auto. unfold upd. rewrite Nat.eqb_refl. destruct (Nat.eqb_spec x q); [congruence|]. unfold chain. cbn [i_op i_args last_two]. rewrite Hl. reflexivity. }
      unfold cost, chain. cbn [i_op i_dst i_args is_transpose last_two].
      change (TransposeModel.pads_last_two (combine (zshape [0; 1; 1; 0]) (zshape [0; 1; 1; 0]))) with false. cbn iota.
      rewrite G2.
      assert (CM : csum last_two is_transpose (upd (upd g2 (fresh 0) 0) d 0) post <= csum last_two is_transpose (upd g2 d 0) post).
      { apply csum_mono. intros y _. unfold upd. destruct (Nat.eqb y d); auto. destruct (Nat.eqb y (fresh 0)); lia. }
      assert (X1 : (if is_transpose (TTranspose perm) then upd g2 (fresh 0) 0 (fresh 0) else 0) = 0) by (unfold upd; rewrite Nat.eqb_refl; reflexivity).
      change (cenv last_two g2 [_; _]) with (upd (upd g2 (fresh 0) 0) d 0). lia.
  - exfalso. inversion P.
  - inversion P as [q perm1 y pr d perm0 r C]; subst. left. rewrite !transposes_app, !transposes_cons, !transposes_app, transposes_rename, !transposes_cons. cbn. lia.
  - rewrite !transposes_app, transposes_cons. destruct (is_transpose (i_op i)) eqn:Et; [left; lia|right]. split; [lia|].
    unfold pad_height. rewrite !csum_app. cbn [csum]. rewrite !app_length. cbn [length]. set (g1 := cenv _ _ pre).
    assert (CM : csum last_two is_transpose g1 post <= csum last_two is_transpose (upd g1 (i_dst i) (chain last_two g1 i)) post).
    { apply csum_mono. intros y (k & Hk & Hy). unfold upd. destruct (Nat.eqb_spec y (i_dst i)) as [->|]; auto. exfalso. apply (M k Hk). right; auto. }
    lia.
Qed.

(** Induction on the number of transposes, then on [pad_height]. *)
Lemma lex_acc (R : func -> func -> Prop) (Q : func -> Prop) (m1 m2 : func -> nat) :
  (forall f f', Q f -> R f f' -> Q f' /\ (m1 f' < m1 f \/ m1 f' = m1 f /\ m2 f' < m2 f)) -> forall f, Q f -> Acc (fun f' f => R f f') f.
Proof.
  intros H. assert (G : forall n k f, m1 f = n -> m2 f = k -> Q f -> Acc (fun f' f => R f f') f).
  { induction n as [n IHn] using lt_wf_ind. induction k as [k IHk] using lt_wf_ind. intros f E1 E2 HQ. constructor. intros f' HR.
    destruct (H f f' HQ HR) as [HQ' [L|[E L]]]; [eapply IHn; eauto; lia|]. eapply IHk; eauto; lia. }
  intros f HQ. eapply G; eauto.
Qed.
(** OptimizeTranspose terminates on every function. *)
Theorem C88_transposes_terminate : forall f, verified_before f -> Acc (fun f' f => opt_step Transposes f f') f.
Proof.
  apply (lex_acc (opt_step Transposes) verified_before (fun f => transposes (f_body f)) (fun f => pad_height (f_body f))).
  intros f f' V St. split; [apply (step_verified Transposes f f' V St)|]. apply transpose_step_decreases; auto.
Qed.

(** ** Reshapes of reshapes *)
Definition is_reshape (o : fop) : bool := match o with TReshape => true | _ => false end.
Definition reshape_height (body : list instr) : nat := csum is_reshape is_reshape (fun _ => 0) body + length body.
Lemma reshape_step_decreases f f' : verified_before f -> opt_step Canonicalise f f' -> reshape_height (f_body f') < reshape_height (f_body f).
Proof.
  intros V St. destruct St as [ps pre j mid i post rets tys fresh news T P Fr | ps pre i post rets tys fresh news T P Fr | ps pre j mid i post rets x P A | ps pre i post rets M Mr];
    cbn [f_body] in *.
  - inversion P as [ | | | | | a q x pr d r]; subst.
    destruct (ssa_facts _ _ _ _ _ _ _ V) as [N1 N2]. cbn [i_dst i_args] in N1, N2. destruct (N2 x (or_introl eq_refl)) as [N3 N4].
    unfold reshape_height. rewrite !csum_app. cbn [csum]. rewrite !csum_app. cbn [csum app]. rewrite !app_length. cbn [length]. rewrite !app_length. cbn [length].
    set (g1 := cenv _ _ pre). cbn [i_op i_dst i_args]. set (g2 := cenv _ (upd g1 q _) mid).
    assert (G2 : g2 q = S (g2 x)).
    { unfold g2. rewrite !cenv_other by auto. unfold upd. rewrite Nat.eqb_refl. destruct (Nat.eqb_spec x q); [congruence|]. reflexivity. }
    unfold cost, chain. cbn [i_op i_dst i_args is_reshape]. rewrite G2.
    change (cenv is_reshape g2 [Instr d TReshape [x] r]) with (upd g2 d (S (g2 x))).
    assert (CM : csum is_reshape is_reshape (upd g2 d (S (g2 x))) post <= csum is_reshape is_reshape (upd g2 d (S (S (g2 x)))) post).
    { apply csum_mono. intros y _. unfold upd. destruct (Nat.eqb y d); auto. }
    lia.
  - exfalso. inversion P.
  - exfalso. inversion P.
  - unfold reshape_height. rewrite !csum_app. cbn [csum]. rewrite !app_length. cbn [length]. set (g1 := cenv _ _ pre).
    assert (CM : csum is_reshape is_reshape g1 post <= csum is_reshape is_reshape (upd g1 (i_dst i) (chain is_reshape g1 i)) post).
    { apply csum_mono. intros y (k & Hk & Hy). unfold upd. destruct (Nat.eqb_spec y (i_dst i)) as [->|]; auto. exfalso. apply (M k Hk). right; auto. }
    lia.
Qed.
Theorem C88_reshapes_terminate : forall f, verified_before f -> Acc (fun f' f => opt_step Canonicalise f f') f.
Proof.
  apply (lex_acc (opt_step Canonicalise) verified_before (fun f => reshape_height (f_body f)) (fun _ => 0)).
  intros f f' V St. split; [apply (step_verified Canonicalise f f' V St)|]. left. apply reshape_step_decreases; auto.
Qed.

(** ** Pads of nothing swap for ever *)
Definition pad0 : fop := TPad [0; 0; 0; 0] [0; 0; 0; 0].
Definition zero_pads (n : nat) : func := Func [(0, Ty [1; 2; 2; 4] 1 (Some 0%Z))] [Instr (2 + n) pad0 [0] (Ty [1; 2; 2; 4] 1 (Some 0%Z)); Instr 1 pad0 [2 + n] (Ty [1; 2; 2; 4] 1 (Some 0%Z))] [1].
Lemma zero_pads_verified n : verified_before (zero_pads n).
Proof.
  split; [repeat constructor; intros []|]. cbn [zero_pads f_params f_body f_rets]. split.
  - cbn [verified_body_before i_dst i_args i_op i_ty lookup]. split; [reflexivity|]. split.
    + exists [Ty [1; 2; 2; 4] 1 (Some 0%Z)]. split; [reflexivity|]. cbn. repeat (split || constructor || auto || lia).
    + split; [reflexivity|]. split; [|exact I]. exists [Ty [1; 2; 2; 4] 1 (Some 0%Z)]. split; [cbn [lookups lookup]; rewrite Nat.eqb_refl; reflexivity|].
      cbn. repeat (split || constructor || auto || lia).
  - intros x [<-|[]]. eexists. cbn. reflexivity.
Qed.
Lemma zero_pads_loop n : clos_trans _ (opt_step TflPatterns) (zero_pads n) (zero_pads (S n)).
Proof.
  eapply t_trans; apply t_step.
  - pose proof (Fused TflPatterns [(0, Ty [1; 2; 2; 4] 1 (Some 0%Z))] [] (Instr (2 + n) pad0 [0] (Ty [1; 2; 2; 4] 1 (Some 0%Z))) []
      (Instr 1 pad0 [2 + n] (Ty [1; 2; 2; 4] 1 (Some 0%Z))) [] [1] [Ty [1; 2; 2; 4] 1 (Some 0%Z)] (fun k => k + (3 + n))) as H.
    cbn [app] in H. apply H.
    + reflexivity.
    + eapply USwap. reflexivity.
    + split; [intros; lia|]. intros k [K|[K|K]].
      * cbn in K. lia.
      * cbn [f_body] in K. rewrite Exists_cons, Exists_cons, Exists_nil in K. unfold mentions in K. cbn [i_dst i_args In] in K. lia.
      * cbn in K. lia.
  - apply (Unused TflPatterns [(0, Ty [1; 2; 2; 4] 1 (Some 0%Z))] [] (Instr (2 + n) pad0 [0] (Ty [1; 2; 2; 4] 1 (Some 0%Z)))
      [Instr (2 + S n) pad0 [0] (Ty [1; 2; 2; 4] 1 (Some 0%Z)); Instr 1 pad0 [2 + S n] (Ty [1; 2; 2; 4] 1 (Some 0%Z))] [1]).
    + unfold mentions. cbn [i_dst i_args In]. intros j [<-|[<-|[]]]; cbn [i_dst i_args In]; lia.
    + cbn. lia.
Qed.
(** Two pads by nothing, one after the other, are swapped again and again: a well-formed function on which TFLPatterns never stops. *)
Theorem C88_zero_pads_refuted : verified_before (zero_pads 0) /\ ~ Acc (fun f' f => opt_step TflPatterns f f') (zero_pads 0).
Proof.
  split; [apply zero_pads_verified|]. intros A.
  assert (A' : Acc (clos_trans _ (fun f' f => opt_step TflPatterns f f')) (zero_pads 0)) by (apply Acc_clos_trans; exact A). clear A.
  assert (G : forall f, Acc (clos_trans _ (fun f' f => opt_step TflPatterns f f')) f -> forall n, f <> zero_pads n).
  { induction 1 as [f _ IH]. intros n ->. apply (IH (zero_pads (S n))) with (n := S n); [|reflexivity].
    pose proof (zero_pads_loop n) as L. clear IH. induction L as [x y H|x y z _ IH1 _ IH2]; [apply t_step; exact H|eapply t_trans; eauto]. }
  apply (G _ A' 0 eq_refl).
Qed.
