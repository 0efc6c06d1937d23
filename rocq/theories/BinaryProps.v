(** C76: from TFLite's quantised Add, Sub and Mul to the xcore operators. *)
From Coq Require Import List ZArith Bool Arith QArith Qround Qminmax Qabs Lia Lqa.
Import ListNotations.
From Verif Require Import Base NdSpec LutModel LutSpec LutProofs AddModel AddProps PatternModel PatternProps BinaryModel BinarySpec.
Local Open Scope Z_scope.

(** ** Activations *)
Lemma act_int8 tanh a q w v : activated tanh a q w v -> int8 v.
Proof. intros (r & _ & H). unfold int8. lia. Qed.
Lemma quantised_fun s z y v : quantised s z y v -> v = Z.min 127 (Z.max (-128) (c_round (y / s) + z)).
Proof. intros (r & R & H). rewrite (c_round_unique _ _ R). lia. Qed.
Lemma div_level s x w z : (0 < s)%Q -> x = dequantised s z w -> c_round (x / s) = w - z.
Proof. intros Hs ->. unfold dequantised. rewrite (c_round_comp _ (inject_Z (w - z))); [apply c_round_int|field; lra]. Qed.
Lemma round_max s a b : (0 < s)%Q -> c_round (Qmax a b / s) = Z.max (c_round (a / s)) (c_round (b / s)).
Proof.
  intros Hs. assert (Hi : (0 < / s)%Q) by (apply Qinv_lt_0_compat; auto).
  destruct (Q.max_spec a b) as [[L E]|[L E]].
  - rewrite (c_round_comp _ (b / s)) by (rewrite E; reflexivity). rewrite Z.max_r; auto. apply c_round_mono. apply Qmult_le_compat_r; lra.
  - rewrite (c_round_comp _ (a / s)) by (rewrite E; reflexivity). rewrite Z.max_l; auto. apply c_round_mono. apply Qmult_le_compat_r; lra.
Qed.
Lemma round_min s a b : (0 < s)%Q -> c_round (Qmin a b / s) = Z.min (c_round (a / s)) (c_round (b / s)).
Proof.
  intros Hs. assert (Hi : (0 < / s)%Q) by (apply Qinv_lt_0_compat; auto).
  destruct (Q.min_spec a b) as [[L E]|[L E]].
  - rewrite (c_round_comp _ (a / s)) by (rewrite E; reflexivity). rewrite Z.min_l; auto. apply c_round_mono. apply Qmult_le_compat_r; lra.
  - rewrite (c_round_comp _ (b / s)) by (rewrite E; reflexivity). rewrite Z.min_r; auto. apply c_round_mono. apply Qmult_le_compat_r; lra.
Qed.
Lemma round_nonneg s x : (0 < s)%Q -> (0 <= x)%Q -> 0 <= c_round (x / s).
Proof.
  intros Hs Hx. assert (Hi : (0 < / s)%Q) by (apply Qinv_lt_0_compat; auto). rewrite <- (c_round_int 0). apply c_round_mono.
  apply Qle_shift_div_l; auto. rewrite Qmult_0_l. auto.
Qed.
Lemma round_zero s : (0 < s)%Q -> c_round (0 / s) = 0.
Proof. intros Hs. rewrite (c_round_comp _ (inject_Z 0)); [apply c_round_int|field; lra]. Qed.
Lemma round_nonpos s x : (0 < s)%Q -> (x <= 0)%Q -> c_round (x / s) <= 0.
Proof.
  intros Hs Hx. assert (Hi : (0 < / s)%Q) by (apply Qinv_lt_0_compat; auto). rewrite <- (c_round_int 0). apply c_round_mono.
  apply Qle_shift_div_r; auto. rewrite Qmult_0_l. auto.
Qed.

Lemma fused_int8 tanh a q w v : int8 w -> sound q -> fused tanh a q w v -> int8 v.
Proof.
  intros W [Hs Hz] F. destruct a; cbn [fused] in F; try exact (act_int8 _ _ _ _ _ F).
  - subst v. exact W.
  - subst v. unfold clamp_to, level, int8 in *. rewrite round_zero by auto. lia.
  - subst v. pose proof (round_nonneg _ 1 Hs ltac:(lra)). pose proof (round_nonpos _ (-1) Hs ltac:(lra)). unfold clamp_to, level, int8 in *. lia.
  - subst v. pose proof (round_nonneg _ 6 Hs ltac:(lra)). unfold clamp_to, level, int8 in *. rewrite round_zero by auto. lia.
Qed.

(** Taking an activation out of an operator does not change the stored values. *)
Lemma activated_fused tanh a q w v : a <> ANone -> int8 w -> sound q -> activated tanh a q w v -> fused tanh a q w v.
Proof.
  intros NA W [Hs Hz] F. destruct a; [congruence| | | |exact F|exact F]; apply quantised_fun in F; cbn [fused act_on_reals] in *; subst v;
    unfold level, clamp_to, int8 in *; rewrite ?round_max, ?round_min, ?round_zero by auto; rewrite (div_level _ _ w (q_zero q) Hs eq_refl).
  - lia.
  - pose proof (round_nonneg _ 1 Hs ltac:(lra)). pose proof (round_nonpos _ (-1) Hs ltac:(lra)). lia.
  - pose proof (round_nonneg _ 6 Hs ltac:(lra)). lia.
Qed.

(** ** Induction over networks *)
Fixpoint net_rect' (P : net -> Prop)
  (HIn : forall i t, P (In i t)) (HB : forall e t, P e -> P (BroadcastTo e t))
  (HBin : forall k a e1 e2 t, P e1 -> P e2 -> P (Binary k a e1 e2 t)) (HA : forall a e t, P e -> P (Activation a e t))
  (HX : forall op e1 e2 t, P e1 -> P e2 -> P (XAdd op e1 e2 t)) (HM : forall m e1 e2 t, P e1 -> P e2 -> P (XMul m e1 e2 t))
  (HO : forall f l t, Forall P l -> P (Other f l t)) (e : net) : P e :=
  let rec := net_rect' P HIn HB HBin HA HX HM HO in
  match e with
  | In i t => HIn i t
  | BroadcastTo e t => HB e t (rec e)
  | Binary k a e1 e2 t => HBin k a e1 e2 t (rec e1) (rec e2)
  | Activation a e t => HA a e t (rec e)
  | XAdd op e1 e2 t => HX op e1 e2 t (rec e1) (rec e2)
  | XMul m e1 e2 t => HM m e1 e2 t (rec e1) (rec e2)
  | Other f l t => HO f l t ((fix go l : Forall P l := match l with [] => Forall_nil P | e :: l' => Forall_cons e (rec e) (go l') end) l)
  end.

(** Networks reached while compiling; [strict]: after the TFL patterns. *)
Fixpoint wf (strict : bool) (e : net) : Prop :=
  (b_int8 (type_of e) = true -> sound (b_q (type_of e))) /\
  match e with
  | In _ _ => True
  | BroadcastTo e t => wf strict e /\ b_int8 (type_of e) = b_int8 t /\ broadcastable (b_shape (type_of e)) (b_shape t)
  | Binary k a e1 e2 t => wf strict e1 /\ wf strict e2 /\ b_int8 (type_of e1) = b_int8 t /\ b_int8 (type_of e2) = b_int8 t /\
      broadcastable (b_shape (type_of e1)) (b_shape t) /\ broadcastable (b_shape (type_of e2)) (b_shape t) /\
      (b_int8 t = true -> k <> KMul -> scales_fit (b_q (type_of e1)) (b_q (type_of e2)) (b_q t)) /\
      (strict = true -> b_int8 t = true -> a = ANone /\ b_shape (type_of e1) = b_shape t /\ b_shape (type_of e2) = b_shape t)
  | Activation _ e t => wf strict e /\ type_of e = t /\ b_int8 t = true
  | XAdd _ e1 e2 t => wf strict e1 /\ wf strict e2 /\ b_shape (type_of e1) = b_shape t /\ b_shape (type_of e2) = b_shape t
  | XMul m e1 e2 t => wf strict e1 /\ wf strict e2 /\ b_shape (type_of e1) = b_shape t /\ b_shape (type_of e2) = b_shape t /\
      b_int8 (type_of e1) = true /\ b_int8 (type_of e2) = true /\ b_int8 t = true /\
      m = MulArgs (q_scale (b_q (type_of e1))) (q_scale (b_q (type_of e2))) (q_scale (b_q t)) (q_zero (b_q (type_of e1))) (q_zero (b_q (type_of e2))) (q_zero (b_q t))
  | Other f l t => (fix all l := match l with [] => True | e :: l' => wf strict e /\ all l' end) l /\ forall us, holds t (f us)
  end.
Lemma wf_other strict f l t : wf strict (Other f l t) <-> (b_int8 t = true -> sound (b_q t)) /\ Forall (wf strict) l /\ forall us, holds t (f us).
Proof.
  cbn [wf type_of]. assert (H : (fix all l := match l with [] => True | e :: l' => wf strict e /\ all l' end) l <-> Forall (wf strict) l).
  { induction l as [|e l IH]; [split; auto|]. rewrite IH. split; [intros [A B]; constructor; auto|intros A; inversion A; auto]. }
  rewrite H. tauto.
Qed.
Lemma typed_wf e : typed e -> wf false e.
Proof.
  induction e as [i t|e t IH|k a e1 e2 t IH1 IH2|a e t IH|op e1 e2 t IH1 IH2|m e1 e2 t IH1 IH2|f l t IH] using net_rect'.
  - auto.
  - cbn. tauto.
  - cbn. intros (A & B & C & D & E & F & G & H). repeat (split; auto); try discriminate.
  - cbn. tauto.
  - cbn. tauto.
  - cbn. tauto.
  - rewrite wf_other. cbn [typed type_of]. intros (A & B & C). split; auto. split; auto.
    clear A C. induction IH as [|e l He Hl IHl]; constructor; destruct B; auto.
Qed.

Lemma wf_sound strict e : wf strict e -> b_int8 (type_of e) = true -> sound (b_q (type_of e)).
Proof. intros W. destruct e; destruct W as [S1 _]; exact S1. Qed.

Section Meaning.
  Variable tanh : Q -> Q.
  Variable mul_kernel : mul_args -> Z -> Z -> Z.
  Variable wide : kind -> act -> bty -> bty -> bty -> Z -> Z -> Z.
  Variable inputs : nat -> tensor Z.
  Notation admits := (admits tanh mul_kernel wide inputs).

  Lemma admits_other f l t v : admits (Other f l t) v <->
    holds t v /\ exists us, Forall2 admits l us /\ forall idx, in_shape (b_shape t) idx -> v idx = f us idx.
  Proof.
    cbn [BinarySpec.admits type_of].
    assert (H : forall us, (fix all l us := match l, us with [], [] => True | e :: l', u :: us' => admits e u /\ all l' us' | _, _ => False end) l us
                <-> Forall2 admits l us).
    { induction l as [|e l IH]; intros [|u us]; split; intros X; try (inversion X; fail); auto; try tauto.
      - destruct X. constructor; auto. apply IH; auto.
      - inversion X; subst. split; auto. apply IH; auto. }
    split; intros (A & us & B & C); (split; [auto|]); exists us; split; auto; apply H; auto.
  Qed.
  Lemma admits_holds e v : admits e v -> holds (type_of e) v.
  Proof. destruct e; cbn [BinarySpec.admits]; intros [H _]; exact H. Qed.

  (** A step anywhere is sound when it is sound at the root. *)
  Definition good (R : net -> net -> Prop) (I : net -> Prop) : Prop := forall e e', R e e' -> I e ->
    type_of e' = type_of e /\ I e' /\ forall v, admits e' v -> admits e v.

  Lemma lift R strict : good R (wf strict) -> forall e e', anywhere R e e' -> wf strict e ->
    type_of e' = type_of e /\ wf strict e' /\ forall v, admits e' v -> admits e v.
  Proof.
    intros G e e' A. induction A as [e e' H|e e' t A IH|k a e1 e1' e2 t A IH|k a e1 e2 e2' t A IH|a e e' t A IH|op e1 e1' e2 t A IH|op e1 e2 e2' t A IH|m e1 e1' e2 t A IH|m e1 e2 e2' t A IH|f l1 e e' l2 t A IH]; intros W.
    - apply G; auto.
    - destruct W as (S1 & W1 & E). destruct (IH W1) as (T & W' & V). split; [reflexivity|]. split.
      + cbn [wf type_of]. rewrite T. auto.
      + intros v (H & u & U & P). split; auto. exists u. rewrite T in P. auto.
    - destruct W as (S1 & W1 & W2 & E). destruct (IH W1) as (T & W' & V). split; [reflexivity|]. split.
      + cbn [wf type_of]. rewrite T. auto.
      + intros v (H & u1 & u2 & U1 & U2 & P). split; auto. exists u1, u2. rewrite T in P. auto.
    - destruct W as (S1 & W1 & W2 & E). destruct (IH W2) as (T & W' & V). split; [reflexivity|]. split.
      + cbn [wf type_of]. rewrite T. auto.
      + intros v (H & u1 & u2 & U1 & U2 & P). split; auto. exists u1, u2. rewrite T in P. auto.
    - destruct W as (S1 & W1 & E). destruct (IH W1) as (T & W' & V). split; [reflexivity|]. split.
      + cbn [wf type_of]. rewrite T. auto.
      + intros v (H & u & U & P). split; auto. exists u. auto.
    - destruct W as (S1 & W1 & W2 & E). destruct (IH W1) as (T & W' & V). split; [reflexivity|]. split.
      + cbn [wf type_of]. rewrite T. auto.
      + intros v (H & u1 & u2 & U1 & U2 & P). split; auto. exists u1, u2. auto.
    - destruct W as (S1 & W1 & W2 & E). destruct (IH W2) as (T & W' & V). split; [reflexivity|]. split.
      + cbn [wf type_of]. rewrite T. auto.
      + intros v (H & u1 & u2 & U1 & U2 & P). split; auto. exists u1, u2. auto.
    - destruct W as (S1 & W1 & W2 & E). destruct (IH W1) as (T & W' & V). split; [reflexivity|]. split.
      + cbn [wf type_of]. rewrite T. auto.
      + intros v (H & u1 & u2 & U1 & U2 & P). split; auto. exists u1, u2. auto.
    - destruct W as (S1 & W1 & W2 & E). destruct (IH W2) as (T & W' & V). split; [reflexivity|]. split.
      + cbn [wf type_of]. rewrite T. auto.
      + intros v (H & u1 & u2 & U1 & U2 & P). split; auto. exists u1, u2. auto.
    - apply wf_other in W. destruct W as (S1 & W & F). apply Forall_app in W. destruct W as [Wa Wb]. inversion Wb as [|? ? We Wb']; subst.
      destruct (IH We) as (T & W' & V). split; [reflexivity|]. split.
      + apply wf_other. split; auto. split; auto. apply Forall_app. split; auto.
      + intros v H. apply admits_other in H. apply admits_other. destruct H as (H & us & U & P). split; auto. exists us. split; auto.
        apply Forall2_app_inv_l in U. destruct U as (u1 & u2 & U1 & U2 & ->). inversion U2; subst. apply Forall2_app; auto.
  Qed.

  Lemma has_same_eq a b : same_shape a b = true <-> b_shape a = b_shape b.
  Proof.
    split; [apply same_shape_eq|]. intros E. unfold same_shape, has_same_shape. rewrite E, Nat.eqb_refl. cbn [andb].
    apply forallb_forall. intros [x y] I. revert I. generalize (map Some (b_shape b)). clear. intros l. induction l as [|z l IH]; intros I; [destruct I|].
    destruct I as [I|I]; [injection I as <- <-; apply Nat.eqb_refl|auto].
  Qed.
  Lemma broadcastable_refl s : broadcastable s s.
  Proof.
    split; [lia|]. rewrite Nat.sub_diag. cbn [skipn]. induction s; constructor; auto.
  Qed.

  Lemma tfl_good : good tfl_root (wf false).
  Proof.
    intros e e' [k a e1 e2 t I1 I2 NA|k a e1 e2 t I1 I2 NS|k a e1 e2 t I1 I2 NS] W;
      destruct W as (S1 & W1 & W2 & T1 & T2 & B1 & B2 & SF & _).
    - split; [reflexivity|]. split.
      + cbn [wf type_of]. repeat (split; auto); try discriminate; congruence.
      + intros v (H & u & (Hu & u1 & u2 & U1 & U2 & P) & A). cbn [type_of] in *. split; auto. exists u1, u2. split; auto. split; auto.
        intros idx X. specialize (P idx X). specialize (A idx X). cbv zeta in *. assert (Et : b_int8 t = true) by congruence. rewrite Et in *.
        destruct P as (w & N & F). cbn [fused] in F. exists w. split; auto. rewrite <- F in N |- *. destruct N as [N8 _]. apply activated_fused; auto.
    - split; [reflexivity|]. split.
      + cbn [wf type_of b_shape b_int8 b_q]. repeat (split; auto); try discriminate; try apply broadcastable_refl; auto; apply (wf_sound _ _ W1 I1).
      + intros v (H & ub & u2 & (Hb & u1 & U1 & Q1) & U2 & P). cbn [type_of b_shape b_q] in *. split; auto. exists u1, u2. split; auto. split; auto.
        intros idx X. specialize (P idx X). rewrite broadcast_id in P by exact X. rewrite (Q1 idx X) in P.
        assert (Et : b_int8 t = true) by congruence. cbv zeta in *. rewrite Et in *. exact P.
    - split; [reflexivity|]. split.
      + cbn [wf type_of b_shape b_int8 b_q]. repeat (split; auto); try discriminate; try apply broadcastable_refl; auto; apply (wf_sound _ _ W2 I2).
      + intros v (H & u1 & ub & U1 & (Hb & u2 & U2 & Q2) & P). cbn [type_of b_shape b_q] in *. split; auto. exists u1, u2. split; auto. split; auto.
        intros idx X. specialize (P idx X). rewrite (broadcast_id (b_shape t) ub) in P by exact X. rewrite (Q2 idx X) in P.
        assert (Et : b_int8 t = true) by congruence. cbv zeta in *. rewrite Et in *. exact P.
  Qed.

  Lemma near_add lhs rhs out (sub : bool) k op x1 x2 : (k = if sub then KSub else KAdd) ->
    sound lhs -> sound rhs -> sound out -> int8 x1 -> int8 x2 -> scales_fit lhs rhs out ->
    replace_add_sub lhs rhs out sub = Some op -> near out (exact k lhs rhs x1 x2) (add_kernel op x1 x2).
  Proof.
    intros -> Sl Sr So X1 X2 [_ F] E. split; [unfold add_kernel, int8; lia|].
    exists (c_round (exact_output lhs rhs out sub x1 x2)). split.
    - replace (exact (if sub then KSub else KAdd) lhs rhs x1 x2 / q_scale out + inject_Z (q_zero out))%Q with (exact_output lhs rhs out sub x1 x2) by (destruct sub; reflexivity).
      apply c_round_ok.
    - exact (C44_output lhs rhs out sub op x1 x2 Sl Sr So X1 X2 F E).
  Qed.

  Hypothesis MUL : mul_contract mul_kernel.

  Lemma lower_good : good lower_root (wf true).
  Proof.
    intros e e' [k a e1 e2 t op C NK E|a e1 e2 t C] W; destruct W as (S1 & W1 & W2 & T1 & T2 & B1 & B2 & SF & ST);
      unfold compatible in C; apply andb_prop in C; destruct C as [C Et]; apply andb_prop in C; destruct C as [C I2]; apply andb_prop in C; destruct C as [_ I1];
      destruct (ST eq_refl Et) as (-> & E1 & E2); pose proof (wf_sound _ _ W1 I1) as Q1; pose proof (wf_sound _ _ W2 I2) as Q2; pose proof (S1 Et) as Q; cbn [type_of] in Q.
    - split; [reflexivity|]. split; [cbn [wf type_of]; auto|].
      intros v (H & u1 & u2 & U1 & U2 & P). split; auto. exists u1, u2. split; auto. split; auto. intros idx X. cbv zeta. rewrite Et.
      exists (v idx). split; [|reflexivity]. rewrite E1, E2, !broadcast_id by exact X. rewrite (P idx X).
      apply (near_add _ _ _ (match k with KSub => true | _ => false end)); auto; [destruct k; congruence| |].
      + apply (admits_holds _ _ U1 I1). rewrite E1. exact X.
      + apply (admits_holds _ _ U2 I2). rewrite E2. exact X.
    - split; [reflexivity|]. split; [cbn [wf type_of]; repeat (split; auto)|].
      intros v (H & u1 & u2 & U1 & U2 & P). split; auto. exists u1, u2. split; auto. split; auto. intros idx X. cbv zeta. rewrite Et.
      exists (v idx). split; [|reflexivity]. rewrite E1, E2, !broadcast_id by exact X. rewrite (P idx X). apply MUL; auto.
      + apply (admits_holds _ _ U1 I1). rewrite E1. exact X.
      + apply (admits_holds _ _ U2 I2). rewrite E2. exact X.
  Qed.

  Lemma run_good R strict : good R (wf strict) -> forall e e', run R e e' -> wf strict e ->
    type_of e' = type_of e /\ wf strict e' /\ (forall v, admits e' v -> admits e v) /\ forall e'', ~ anywhere R e' e''.
  Proof.
    intros G e e' H. induction H as [e N|e e1 e' A H IH]; intros W; [auto|].
    destruct (lift R strict G e e1 A W) as (T1 & W1 & V1). destruct (IH W1) as (T & W' & V & N). repeat split; auto; congruence.
  Qed.
End Meaning.

(** ** Measures: a weight for every binary operator *)
Definition weight := kind -> act -> bty -> bty -> bty -> nat.
Fixpoint mu (f : weight) (e : net) : nat :=
  match e with
  | In _ _ => 0
  | BroadcastTo e _ | Activation _ e _ => mu f e
  | Binary k a e1 e2 t => f k a (type_of e1) (type_of e2) t + mu f e1 + mu f e2
  | XAdd _ e1 e2 _ | XMul _ e1 e2 _ => mu f e1 + mu f e2
  | Other _ l _ => fold_right Nat.add 0%nat (map (mu f) l)
  end.
Lemma mu_sum f l1 l2 : (fold_right Nat.add 0 (map (mu f) (l1 ++ l2)) = fold_right Nat.add 0 (map (mu f) l1) + fold_right Nat.add 0 (map (mu f) l2))%nat.
Proof. induction l1 as [|e l1 IH]; cbn [map app fold_right]; [reflexivity|]. rewrite IH. lia. Qed.
Definition keeps_type (R : net -> net -> Prop) : Prop := forall e e', R e e' -> type_of e' = type_of e.
Lemma any_type R : keeps_type R -> keeps_type (anywhere R).
Proof. intros H e e' A. induction A; cbn [type_of]; auto. Qed.
Lemma mu_decreases R f : keeps_type R -> (forall e e', R e e' -> (mu f e' < mu f e)%nat) ->
  forall e e', anywhere R e e' -> (mu f e' < mu f e)%nat.
Proof.
  intros T D e e' A. pose proof (any_type R T) as T'. induction A as [e e' H|e e' t A IH|k a e1 e1' e2 t A IH|k a e1 e2 e2' t A IH|a e e' t A IH|op e1 e1' e2 t A IH|op e1 e2 e2' t A IH|m e1 e1' e2 t A IH|m e1 e2 e2' t A IH|g l1 e e' l2 t A IH];
    cbn [mu]; auto; try (rewrite (T' _ _ A)); try lia.
  rewrite !mu_sum. cbn [map fold_right]. lia.
Qed.
(** When every operator of positive weight can be rewritten, a positive measure means that a step exists. *)
Lemma mu_step R f strict : (forall k a e1 e2 t, wf strict (Binary k a e1 e2 t) -> (0 < f k a (type_of e1) (type_of e2) t)%nat -> exists e', R (Binary k a e1 e2 t) e') ->
  forall e, wf strict e -> (0 < mu f e)%nat -> exists e', anywhere R e e'.
Proof.
  intros H e. induction e as [i t|e t IH|k a e1 e2 t IH1 IH2|a e t IH|op e1 e2 t IH1 IH2|m e1 e2 t IH1 IH2|g l t IH] using net_rect'; intros W M; cbn [mu] in M.
  - lia.
  - destruct (IH (proj1 (proj2 W)) M) as [e' A]. exists (BroadcastTo e' t). apply InBroadcast; auto.
  - destruct (Nat.eq_dec (f k a (type_of e1) (type_of e2) t) 0) as [Z0|NZ].
    + destruct W as (S1 & W1 & W2 & _). destruct (Nat.eq_dec (mu f e1) 0) as [Z1|N1].
      * destruct (IH2 W2) as [e' A]; [lia|]. exists (Binary k a e1 e' t). apply InBinary2; auto.
      * destruct (IH1 W1) as [e' A]; [lia|]. exists (Binary k a e' e2 t). apply InBinary1; auto.
    + destruct (H k a e1 e2 t W) as [e' A]; [lia|]. exists e'. apply AtRoot; auto.
  - destruct (IH (proj1 (proj2 W)) M) as [e' A]. exists (Activation a e' t). apply InActivation; auto.
  - destruct W as (S1 & W1 & W2 & _). destruct (Nat.eq_dec (mu f e1) 0) as [Z1|N1].
    + destruct (IH2 W2) as [e' A]; [lia|]. exists (XAdd op e1 e' t). apply InXAdd2; auto.
    + destruct (IH1 W1) as [e' A]; [lia|]. exists (XAdd op e' e2 t). apply InXAdd1; auto.
  - destruct W as (S1 & W1 & W2 & _). destruct (Nat.eq_dec (mu f e1) 0) as [Z1|N1].
    + destruct (IH2 W2) as [e' A]; [lia|]. exists (XMul m e1 e' t). apply InXMul2; auto.
    + destruct (IH1 W1) as [e' A]; [lia|]. exists (XMul m e' e2 t). apply InXMul1; auto.
  - apply wf_other in W. destruct W as (_ & W & _).
    assert (X : exists l1 e e' l2, l = l1 ++ e :: l2 /\ anywhere R e e').
    { clear - IH W M. induction IH as [|e l He Hl IHl]; cbn [map fold_right] in M; [lia|]. inversion W as [|? ? We Wl]; subst.
      destruct (Nat.eq_dec (mu f e) 0) as [Z1|N1].
      - destruct (IHl Wl) as (l1 & x & x' & l2 & -> & A); [lia|]. exists (e :: l1), x, x', l2. auto.
      - destruct (He We) as [e' A]; [lia|]. exists [], e, e', l. auto. }
    destruct X as (l1 & e & e' & l2 & -> & A). exists (Other g (l1 ++ e' :: l2) t). apply InOther; auto.
Qed.

Definition tfl_weight : weight := fun k a t1 t2 t =>
  if b_int8 t1 && b_int8 t2 then
    ((match a with ANone => 0 | _ => 1 end) + (if same_shape t1 t then 0 else 1) + (if same_shape t2 t then 0 else 1))%nat
  else 0%nat.
Definition lower_weight : weight := fun k a t1 t2 t => if b_int8 t then 1%nat else 0%nat.
Lemma mu_binaries e : mu lower_weight e = binaries e.
Proof.
  induction e as [i t|e t IH|k a e1 e2 t IH1 IH2|a e t IH|op e1 e2 t IH1 IH2|m e1 e2 t IH1 IH2|g l t IH] using net_rect'; cbn [mu binaries]; try (rewrite IH1, IH2); auto.
  - induction IH as [|e l He Hl IHl]; cbn [map fold_right]; auto.
Qed.
Lemma tfl_type : keeps_type tfl_root.
Proof. intros e e' []; reflexivity. Qed.
Lemma lower_type : keeps_type lower_root.
Proof. intros e e' []; reflexivity. Qed.
Lemma tfl_decreases e e' : tfl_root e e' -> (mu tfl_weight e' < mu tfl_weight e)%nat.
Proof.
  intros [k a e1 e2 t I1 I2 NA|k a e1 e2 t I1 I2 NS|k a e1 e2 t I1 I2 NS]; cbn [mu type_of]; unfold tfl_weight; cbn [b_int8]; rewrite I1, I2; cbn [andb].
  - destruct a; try congruence; lia.
  - rewrite NS. replace (same_shape _ t) with true; [lia|]. symmetry. apply has_same_eq. reflexivity.
  - rewrite NS. replace (same_shape {| b_shape := b_shape t; b_int8 := true; b_q := b_q (type_of e2) |} t) with true; [lia|]. symmetry. apply has_same_eq. reflexivity.
Qed.
Lemma lower_decreases e e' : lower_root e e' -> (mu lower_weight e' < mu lower_weight e)%nat.
Proof.
  intros [k a e1 e2 t op C NK E|a e1 e2 t C]; cbn [mu type_of]; unfold lower_weight at 3; unfold compatible in C; apply andb_prop in C; destruct C as [_ ->]; lia.
Qed.
Lemma tfl_applies k a e1 e2 t : wf false (Binary k a e1 e2 t) -> (0 < tfl_weight k a (type_of e1) (type_of e2) t)%nat -> exists e', tfl_root (Binary k a e1 e2 t) e'.
Proof.
  intros _ W. unfold tfl_weight in W. destruct (b_int8 (type_of e1)) eqn:I1; destruct (b_int8 (type_of e2)) eqn:I2; cbn [andb] in W; try lia.
  destruct (same_shape (type_of e1) t) eqn:S1; [|eexists; apply BroadcastLhs; auto].
  destruct (same_shape (type_of e2) t) eqn:S2; [|eexists; apply BroadcastRhs; auto].
  eexists. apply Unfuse; auto. intros ->. lia.
Qed.
Lemma lower_applies k a e1 e2 t : wf true (Binary k a e1 e2 t) -> (0 < lower_weight k a (type_of e1) (type_of e2) t)%nat -> exists e', lower_root (Binary k a e1 e2 t) e'.
Proof.
  intros (S1 & W1 & W2 & T1 & T2 & B1 & B2 & SF & ST) W. unfold lower_weight in W. destruct (b_int8 t) eqn:I; [|lia].
  destruct (ST eq_refl eq_refl) as (-> & E1 & E2).
  assert (C : compatible (type_of e1) (type_of e2) t = true).
  { unfold compatible. rewrite (proj2 (has_same_eq (type_of e1) t) E1), T1, T2, I. rewrite orb_true_r. reflexivity. }
  assert (D : k = KMul \/ k <> KMul) by (destruct k; auto; right; discriminate).
  destruct D as [->|NK]; [eexists; apply LowerMul; auto|].
  destruct (C44_fields_fit (b_q (type_of e1)) (b_q (type_of e2)) (b_q t) (match k with KSub => true | _ => false end)) as (op & E & _).
  - apply (wf_sound _ _ W1); congruence.
  - apply (wf_sound _ _ W2); congruence.
  - apply S1. exact I.
  - apply SF; auto.
  - eexists. eapply LowerAddSub; eauto.
Qed.

(** A network to which no TFL pattern applies. *)
Lemma normal_strict e : wf false e -> mu tfl_weight e = 0%nat -> wf true e.
Proof.
  induction e as [i t|e t IH|k a e1 e2 t IH1 IH2|a e t IH|op e1 e2 t IH1 IH2|m e1 e2 t IH1 IH2|g l t IH] using net_rect'; intros W M; cbn [mu] in M.
  - exact W.
  - destruct W as (S1 & W1 & R). cbn [wf]. auto.
  - destruct W as (S1 & W1 & W2 & T1 & T2 & B1 & B2 & SF & _). cbn [wf]. repeat (split; [solve [auto; apply IH1; auto; lia | apply IH2; auto; lia]|]).
    intros _ I. unfold tfl_weight in M. rewrite T1, T2, I in M. cbn [andb] in M.
    destruct (same_shape (type_of e1) t) eqn:X1; [|lia]. destruct (same_shape (type_of e2) t) eqn:X2; [|lia].
    split; [destruct a; auto; lia|]. split; apply has_same_eq; auto.
  - destruct W as (S1 & W1 & R). cbn [wf]. auto.
  - destruct W as (S1 & W1 & W2 & R). cbn [wf]. repeat (split; auto); [apply IH1|apply IH2]; auto; lia.
  - destruct W as (S1 & W1 & W2 & R). cbn [wf]. split; auto. split; [apply IH1; auto; lia|]. split; [apply IH2; auto; lia|]. exact R.
  - apply wf_other in W. apply wf_other. destruct W as (S1 & W & F). split; auto. split; auto.
    clear F S1. induction IH as [|e l He Hl IHl]; auto. cbn [map fold_right] in M. inversion W; subst. constructor; [apply He|apply IHl]; auto; lia.
Qed.

Lemma run_exists R f strict : keeps_type R -> (forall e e', R e e' -> (mu f e' < mu f e)%nat) ->
  (forall k a e1 e2 t, wf strict (Binary k a e1 e2 t) -> (0 < f k a (type_of e1) (type_of e2) t)%nat -> exists e', R (Binary k a e1 e2 t) e') ->
  (forall e e', anywhere R e e' -> wf strict e -> wf strict e') ->
  forall e, wf strict e -> exists e', run R e e'.
Proof.
  intros T D A K e. remember (mu f e) as n eqn:E. revert e E. induction n as [n IH] using lt_wf_ind. intros e -> W.
  destruct (Nat.eq_dec (mu f e) 0) as [Z0|N0].
  - exists e. apply Done. intros e' S1. pose proof (mu_decreases R f T D e e' S1). lia.
  - destruct (mu_step R f strict A e W ltac:(lia)) as [e1 S1]. pose proof (mu_decreases R f T D e e1 S1) as L.
    destruct (IH (mu f e1) L e1 eq_refl (K _ _ S1 W)) as [e' R']. exists e'. eapply More; eauto.
Qed.
Lemma run_normal R f strict e : keeps_type R ->
  (forall k a e1 e2 t, wf strict (Binary k a e1 e2 t) -> (0 < f k a (type_of e1) (type_of e2) t)%nat -> exists e', R (Binary k a e1 e2 t) e') ->
  wf strict e -> (forall e', ~ anywhere R e e') -> mu f e = 0%nat.
Proof.
  intros T A W N. destruct (Nat.eq_dec (mu f e) 0) as [|NZ]; auto. destruct (mu_step R f strict A e W ltac:(lia)) as [e' S1]. destruct (N e' S1).
Qed.

(** ** Every well-formed network computes something *)
Lemma broadcast_inside s outs idx : broadcastable s outs -> in_shape outs idx ->
  in_shape s (map2 (fun d i => if Nat.eqb d 1 then 0%nat else i) s (skipn (length outs - length s) idx)).
Proof.
  intros [L B] X. remember (length outs - length s)%nat as n eqn:En. clear L.
  assert (X' : in_shape (skipn n outs) (skipn n idx)).
  { clear B En. revert outs idx X. induction n as [|n IH]; intros outs idx X; [exact X|]. destruct X; cbn [skipn]; [constructor|]. apply IH; auto. }
  revert X' B. generalize (skipn n outs) (skipn n idx). clear. intros o i X B. revert i X.
  induction B as [|d x s o D B IH]; intros i X; inversion X; subst; cbn [map2]; [constructor|]. constructor; [|apply IH; auto].
  destruct (Nat.eqb_spec d 1); [lia|]. destruct D; [congruence|]. subst. auto.
Qed.
Section Total.
  Variable tanh : Q -> Q.
  Variable mul_kernel : mul_args -> Z -> Z -> Z.
  Variable wide : kind -> act -> bty -> bty -> bty -> Z -> Z -> Z.
  Variable inputs : nat -> tensor Z.
  Hypothesis MUL : mul_contract mul_kernel.
  Hypothesis INP : forall i idx, int8 (inputs i idx).
  Lemma activated_total a q w : exists v, activated tanh a q w v.
  Proof. eexists. apply clamp_quantised. Qed.
  Definition the_activation a q w : Z := Z.max (Z.min (c_round (act_on_reals tanh a (dequantised (q_scale q) (q_zero q) w) / q_scale q) + q_zero q) 127) (-128).
  Lemma the_activation_ok a q w : activated tanh a q w (the_activation a q w).
  Proof. apply clamp_quantised. Qed.
  Lemma total strict e : wf strict e -> exists v, admits tanh mul_kernel wide inputs e v.
  Proof.
    induction e as [i t|e t IH|k a e1 e2 t IH1 IH2|a e t IH|op e1 e2 t IH1 IH2|m e1 e2 t IH1 IH2|g l t IH] using net_rect'; intros W.
    - exists (inputs i). split; [intros _ idx _; apply INP|]. auto.
    - destruct W as (S1 & W1 & T & B). destruct (IH W1) as [u U].
      exists (broadcast_to (b_shape (type_of e)) (b_shape t) u). split; [|exists u; auto]. intros I idx X. cbn [type_of] in *.
      apply (admits_holds _ _ _ _ _ _ U); [congruence|]. apply broadcast_inside; auto.
    - destruct W as (S1 & W1 & W2 & T1 & T2 & B1 & B2 & SF & ST). destruct (IH1 W1) as [u1 U1], (IH2 W2) as [u2 U2].
      set (x1 := fun idx => broadcast_to (b_shape (type_of e1)) (b_shape t) u1 idx).
      set (x2 := fun idx => broadcast_to (b_shape (type_of e2)) (b_shape t) u2 idx).
      set (w := fun idx => Z.min 127 (Z.max (-128) (c_round (exact k (b_q (type_of e1)) (b_q (type_of e2)) (x1 idx) (x2 idx) / q_scale (b_q t) + inject_Z (q_zero (b_q t)))))).
      assert (Hw : forall idx, near (b_q t) (exact k (b_q (type_of e1)) (b_q (type_of e2)) (x1 idx) (x2 idx)) (w idx)).
      { intros idx. split; [unfold w, int8; lia|]. eexists. split; [apply c_round_ok|]. unfold w. lia. }
      set (v := fun idx => if b_int8 t then match a with ANone => w idx | _ => the_activation a (b_q t) (w idx) end
                            else wide k a (type_of e1) (type_of e2) t (x1 idx) (x2 idx)).
      assert (Hv : b_int8 t = true -> forall idx, fused tanh a (b_q t) (w idx) (v idx)).
      { intros I idx. unfold v. rewrite I. destruct (Hw idx) as [W8 _]. pose proof (S1 I) as Sq. cbn [type_of] in Sq.
        destruct a; [reflexivity|..]; apply activated_fused; auto; try discriminate; apply the_activation_ok. }
      exists v. split.
      + intros I idx X. cbn [type_of] in *. destruct (Hw idx) as [W8 _]. exact (fused_int8 _ _ _ _ _ W8 (S1 I) (Hv I idx)).
      + exists u1, u2. split; auto. split; auto. intros idx X. cbv zeta. destruct (b_int8 t) eqn:I.
        * exists (w idx). split; [apply Hw|apply Hv; auto].
        * unfold v. reflexivity.
    - destruct W as (S1 & W1 & T & I). destruct (IH W1) as [u U]. exists (fun idx => the_activation a (b_q t) (u idx)). split.
      + intros _ idx X. eapply act_int8, the_activation_ok.
      + exists u. split; auto. intros idx X. apply the_activation_ok.
    - destruct W as (S1 & W1 & W2 & _). destruct (IH1 W1) as [u1 U1], (IH2 W2) as [u2 U2]. exists (fun idx => add_kernel op (u1 idx) (u2 idx)). split.
      + intros _ idx X. unfold add_kernel, int8. lia.
      + exists u1, u2. auto.
    - destruct W as (S1 & W1 & W2 & E1 & E2 & I1 & I2 & I & ->). destruct (IH1 W1) as [u1 U1], (IH2 W2) as [u2 U2]. eexists. split; [|exists u1, u2; split; [exact U1|]; split; [exact U2|]; intros idx X; reflexivity].
      intros _ idx X. cbn [type_of] in *. apply (MUL (b_q (type_of e1)) (b_q (type_of e2)) (b_q t)); auto.
      + apply (wf_sound _ _ W1 I1).
      + apply (wf_sound _ _ W2 I2).
      + apply (admits_holds _ _ _ _ _ _ U1 I1). rewrite E1. exact X.
      + apply (admits_holds _ _ _ _ _ _ U2 I2). rewrite E2. exact X.
    - apply wf_other in W. destruct W as (S1 & W & F).
      assert (X : exists us, Forall2 (admits tanh mul_kernel wide inputs) l us).
      { clear F S1. induction IH as [|e l He Hl IHl]; [exists []; constructor|]. inversion W; subst. destruct IHl as [us U]; auto. destruct He as [u V]; auto. exists (u :: us). constructor; auto. }
      destruct X as [us U]. exists (g us). apply admits_other. split; [apply F|]. exists us. auto.
  Qed.
End Total.

(** Compiling a network keeps its type; whatever the compiled network computes from 8-bit inputs is a result of the original
    network in which every 8-bit Add, Sub and Mul is at most one unit away from the rounded exact value, before its activation;
    the compiled network does compute something, and contains no 8-bit Add, Sub or Mul any more. *)
Theorem C76_compiled : forall tanh mul_kernel wide inputs e e',
  typed e -> mul_contract mul_kernel -> (forall i idx, int8 (inputs i idx)) -> compile e e' ->
  type_of e' = type_of e /\ binaries e' = 0%nat /\
  (exists v, admits tanh mul_kernel wide inputs e' v) /\
  (forall v, admits tanh mul_kernel wide inputs e' v -> admits tanh mul_kernel wide inputs e v).
Proof.
  intros tanh mk wide inputs e e' T MUL INP (e1 & R1 & R2). pose proof (typed_wf e T) as W.
  destruct (run_good tanh mk wide inputs tfl_root false (tfl_good _ _ _ _) e e1 R1 W) as (T1 & W1 & V1 & N1).
  pose proof (normal_strict e1 W1 (run_normal tfl_root tfl_weight false e1 tfl_type tfl_applies W1 N1)) as WS.
  destruct (run_good tanh mk wide inputs lower_root true (lower_good _ _ _ _ MUL) e1 e' R2 WS) as (T2 & W2 & V2 & N2).
  split; [congruence|]. split; [|split].
  - rewrite <- mu_binaries. exact (run_normal lower_root lower_weight true e' lower_type lower_applies W2 N2).
  - exact (total tanh mk wide inputs MUL INP true e' W2).
  - intros v V. apply V1, V2, V.
Qed.
Print Assumptions C76_compiled.

Lemma no_chain (R : net -> net -> Prop) f : keeps_type R -> (forall e e', R e e' -> (mu f e' < mu f e)%nat) ->
  ~ (exists s : nat -> net, forall n, anywhere R (s n) (s (S n))).
Proof.
  intros T D [s H]. assert (B : forall n, (mu f (s n) + n <= mu f (s 0))%nat).
  { induction n as [|n IH]; [lia|]. pose proof (mu_decreases R f T D _ _ (H n)). lia. }
  specialize (B (S (mu f (s 0%nat)))). lia.
Qed.
(** Rewriting ends: every sequence of pattern applications is finite, and a compiled network exists. *)
Theorem C76_terminates : forall e, typed e ->
  (exists e', compile e e') /\
  ~ (exists s : nat -> net, forall n, anywhere tfl_root (s n) (s (S n))) /\
  ~ (exists s : nat -> net, forall n, anywhere lower_root (s n) (s (S n))).
Proof.
  intros e T. pose proof (typed_wf e T) as W. split; [|split].
  - assert (K1 : forall e e', anywhere tfl_root e e' -> wf false e -> wf false e').
    { intros x y A X. exact (proj1 (proj2 (lift (fun q => q) (fun _ _ _ => 0) (fun _ _ _ _ _ _ _ => 0) (fun _ _ => 0) tfl_root false (tfl_good _ _ _ _) x y A X))). }
    destruct (run_exists tfl_root tfl_weight false tfl_type tfl_decreases tfl_applies K1 e W) as [e1 R1].
    destruct (run_good (fun q => q) (fun _ _ _ => 0) (fun _ _ _ _ _ _ _ => 0) (fun _ _ => 0) tfl_root false (tfl_good _ _ _ _) e e1 R1 W) as (T1 & W1 & V1 & N1).
    pose proof (normal_strict e1 W1 (run_normal tfl_root tfl_weight false e1 tfl_type tfl_applies W1 N1)) as WS.
    assert (K2 : forall e e', anywhere lower_root e e' -> wf true e -> wf true e').
    { intros x y A X.
      pose (mk := fun (m : mul_args) x1 x2 => Z.min 127 (Z.max (-128) (c_round (exact KMul (QType (m_lhs m) (m_lhs_zero m)) (QType (m_rhs m) (m_rhs_zero m)) x1 x2 / m_out m + inject_Z (m_out_zero m))))).
      assert (M : mul_contract mk).
      { intros q1 q2 q x1 x2 _ _ _ _ _. split; [unfold mk, int8; lia|]. eexists. split; [apply c_round_ok|]. unfold mk. cbn [m_lhs m_rhs m_out m_lhs_zero m_rhs_zero m_out_zero].
        destruct q1 as [s1 z1], q2 as [s2 z2]. cbn [q_scale q_zero]. lia. }
      exact (proj1 (proj2 (lift (fun q => q) mk (fun _ _ _ _ _ _ _ => 0) (fun _ _ => 0) lower_root true (lower_good _ _ _ _ M) x y A X))). }
    destruct (run_exists lower_root lower_weight true lower_type lower_decreases lower_applies K2 e1 WS) as [e2 R2].
    exists e2, e1. auto.
  - exact (no_chain tfl_root tfl_weight tfl_type tfl_decreases).
  - exact (no_chain lower_root lower_weight lower_type lower_decreases).
Qed.
Print Assumptions C76_terminates.

(** A concrete network: Relu (broadcast (x : 4) + (y : 2 x 4)), with different quantisations. *)
Definition ex_q (s : Q) (z : Z) (sh : list nat) : bty := BTy sh true (QType s z).
Definition ex_x : net := In 0 (ex_q (1 # 2) 3 [4]%nat).
Definition ex_y : net := In 1 (ex_q (1 # 4) (-5) [2; 4]%nat).
Definition ex_t : bty := ex_q (1 # 2) (-10) [2; 4]%nat.
Definition ex_net : net := Binary KAdd ARelu ex_x ex_y ex_t.
Definition ex_op : add_op := AddOp 16384 8192 (-172032) 14.
Definition ex_out : net := Activation ARelu (XAdd ex_op (BroadcastTo ex_x (ex_q (1 # 2) 3 [2; 4]%nat)) ex_y ex_t) ex_t.
Example C76_concrete : typed ex_net /\ compile ex_net ex_out /\ binaries ex_net = 1%nat.
Proof.
  split; [|split; [|reflexivity]].
  - unfold ex_net, ex_x, ex_y, ex_t, ex_q. cbn [typed type_of b_shape b_int8 b_q].
    assert (S1 : sound (QType (1 # 2) 3)) by (split; [reflexivity|unfold int8; cbn; lia]).
    assert (S2 : sound (QType (1 # 4) (-5))) by (split; [reflexivity|unfold int8; cbn; lia]).
    assert (S3 : sound (QType (1 # 2) (-10))) by (split; [reflexivity|unfold int8; cbn; lia]).
    repeat split; auto; try discriminate; try (cbn; lia); try (cbn; repeat constructor; auto; fail).
  - exists (Activation ARelu (Binary KAdd ANone (BroadcastTo ex_x (ex_q (1 # 2) 3 [2; 4]%nat)) ex_y ex_t) ex_t). split.
    + eapply More; [apply AtRoot, Unfuse; [reflexivity|reflexivity|discriminate]|].
      eapply More; [apply InActivation, AtRoot, BroadcastLhs; reflexivity|].
      apply Done. intros e' A. apply (mu_decreases tfl_root tfl_weight tfl_type tfl_decreases) in A. change (mu tfl_weight e' < 0)%nat in A. lia.
    + eapply More; [apply InActivation, AtRoot; apply (LowerAddSub KAdd ANone _ _ _ ex_op); [reflexivity|discriminate|vm_compute; reflexivity]|].
      apply Done. intros e' A. apply (mu_decreases lower_root lower_weight lower_type lower_decreases) in A. change (mu lower_weight e' < 0)%nat in A. lia.
Qed.

(** The order of the passes matters: without the TFL patterns, the lowering alone forgets the fused activation. *)
Theorem C76_refuted_lowering_alone : exists e e' inputs, typed e /\ run lower_root e e' /\ (forall i idx, int8 (inputs i idx)) /\
  forall tanh mul_kernel wide, mul_contract mul_kernel ->
    exists v, admits tanh mul_kernel wide inputs e' v /\ ~ admits tanh mul_kernel wide inputs e v.
Proof.
  set (t := BTy [1%nat] true (QType 1 0)).
  assert (S1 : sound (QType 1 0)) by (split; [reflexivity|unfold int8; cbn; lia]).
  exists (Binary KAdd ARelu (In 0 t) (In 1 t) t), (XAdd (AddOp 16384 16384 0 14) (In 0 t) (In 1 t) t), (fun _ _ => -5).
  split; [|split; [|split; [intros; unfold int8; lia|]]].
  - cbn [typed type_of b_shape b_int8 b_q t]. repeat split; auto; try discriminate; try (cbn; lia); try (cbn; repeat constructor; auto; fail).
  - eapply More; [apply AtRoot; apply (LowerAddSub KAdd ARelu (In 0 t) (In 1 t) t (AddOp 16384 16384 0 14)); [reflexivity|discriminate|vm_compute; reflexivity]|].
    apply Done. intros e' A. apply (mu_decreases lower_root lower_weight lower_type lower_decreases) in A. change (mu lower_weight e' < 0)%nat in A. lia.
  - intros tanh mk wide MUL. exists (fun _ => -10). split.
    + split; [intros _ idx _; unfold int8; lia|]. exists (fun _ => -5), (fun _ => -5).
      repeat (split; [split; [intros _ idx _; unfold int8; lia|reflexivity]|]). intros idx _. reflexivity.
    + intros (_ & u1 & u2 & _ & _ & P). specialize (P [0%nat] ltac:(repeat constructor)). cbn [b_int8 t] in P. destruct P as (w & _ & F).
      unfold fused, clamp_to in F. vm_compute (level _ _) in F. lia.
Qed.
Print Assumptions C76_refuted_lowering_alone.
