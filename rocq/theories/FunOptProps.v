(** C88: the passes before the lowering keep the results of a whole function; what they leave; compilation from end to end. *)
From Coq Require Import Relations Wellfounded Permutation.
From Verif Require Import Base NdSpec NdBase LowerSpec TransposeSpec FunOpsSpec FunOpsProofs FunModel FunSpec FunProofs FunProofs2 FunProps.
From Verif Require Import FunOptModel FunOptSpec FunOptProofs FunOptProofs2.
From Verif Require PatternModel TransposeModel ConvLowerSpec ConvLowerModel ConvLowerProps.
Local Open Scope nat_scope.

Definition run_before (f : func) (inputs : list bytes) (r : list (ty * bytes)) : Prop :=
  exists e, exec_with okB (f_body f) (start (f_params f) inputs) e /\ lookups e (f_rets f) = Some r.
Lemma run_before_evaluate f inputs r : run_before f inputs r -> evaluate f inputs = Some r.
Proof. intros (e & E & L). unfold evaluate. rewrite (exec_eval _ _ _ E). auto. Qed.

Lemma env_types ps pre inputs e1 xs vs : sized ps inputs -> exec_with okB pre (start ps inputs) e1 -> lookups e1 xs = Some vs ->
  forall tys, lookups (scope ps pre) xs = Some tys -> map fst vs = tys.
Proof.
  intros Sz E L tys T. pose proof (exec_scope _ _ _ E) as X. rewrite (start_types _ _ Sz) in X. fold (scope ps pre) in X.
  pose proof (lookups_types e1 xs) as Y. rewrite X, T, L in Y. cbn in Y. congruence.
Qed.
Lemma new_not_bound ps pre inputs e1 fresh f : sized ps inputs -> exec_with okB pre (start ps inputs) e1 -> new_name fresh f -> f_params f = ps ->
  (forall i, In i pre -> In i (f_body f)) -> forall k, lookup e1 (fresh k) = None.
Proof.
  intros Sz E [_ Fr] Ep Hb k. apply lookup_none. intros Hx. apply (exec_names _ _ _ E) in Hx. rewrite (start_names _ _ Sz) in Hx. apply (Fr k).
  destruct Hx as [Hx|Hx]; [left; rewrite Ep; auto|]. right; left. apply in_map_iff in Hx. destruct Hx as (i & Ei & Hi). apply Exists_exists. exists i. split; [auto|left; auto].
Qed.

Lemma opt_step_preserves p f f' : opt_step p f f' -> f_params f' = f_params f /\
  forall inputs r, sized (f_params f) inputs -> run_before f inputs r -> run_before f' inputs r.
Proof.
  intros St. destruct St as [ps pre j mid i post rets tys fresh news T P Fr | ps pre i post rets tys fresh news T P Fr | ps pre j mid i post rets x P A | ps pre i post rets M Mr];
    cbn [f_params f_body f_rets]; (split; [reflexivity|]); intros inputs r Sz (e' & E & L); cbn [f_params f_body f_rets] in *;
    apply exec_app in E; destruct E as (e1 & E1 & E2).
  - (* Fused *)
    inversion E2 as [|j' tl e vj bj e'' Lj Kj Sj Zj Nj E3]; subst. apply exec_app in E3. destruct E3 as (e2 & Em & E3).
    inversion E3 as [|i' tl e vi b e'' Li Ki Si Zi Ni E4]; subst.
    pose proof (exec_sized _ _ _ E1 (start_sized _ _ Sz)) as Sz1. pose proof (lookups_sized _ _ _ Sz1 Lj) as Fj.
    pose proof (env_types ps pre inputs e1 (i_args j) vj Sz E1 Lj tys T) as Tv.
    assert (Ej : exec_with okB (pre ++ j :: mid) (start ps inputs) e2).
    { apply exec_app. exists e1. split; auto. eapply exec_cons; eauto. }
    rewrite (fuse_args _ _ _ _ _ _ P) in Li. cbn [lookups] in Li.
    assert (Lp : lookup e2 (i_dst j) = Some (i_ty j, bj)) by (eapply exec_keeps; [exact Em|cbn [lookup]; rewrite Nat.eqb_refl; auto]).
    rewrite Lp in Li. injection Li as <-. cbn [map fst] in Ki.
    assert (Lj2 : lookups e2 (i_args j) = Some vj).
    { eapply exec_keeps_all; [exact Em|]. rewrite lookups_cons_other; auto. intros y Hy ->. apply (lookups_none _ _ _ _ Lj Hy). auto. }
    assert (NF : forall k, lookup e2 (fresh k) = None).
    { apply (new_not_bound ps (pre ++ j :: mid) inputs e2 fresh _ Sz Ej Fr eq_refl). cbn [f_body]. intros y Hy. rewrite in_app_iff in *. cbn [In] in *. rewrite in_app_iff. tauto. }
    destruct Fr as [FI Fr].
    assert (Nd : forall k, fresh k <> i_dst i).
    { intros k Ek. apply (Fr k). right; left. cbn [f_body]. apply Exists_app. right. apply Exists_cons_tl, Exists_app. right. constructor. left; auto. }
    rewrite Tv in Kj.
    destruct (fuse_sound fresh p tys j i news e2 vj bj b P Lj2 Tv Kj Sj Zj Fj Ki Si Zi Ni NF Nd FI) as (en & En & An).
    destruct (sim (fun x => exists k, fresh k = x) (fun x => x) _ _ _ E4 en) as (e2' & X & Y).
    + intros x Hx. symmetry. apply An. intros k Ek. apply Hx. exists k. auto.
    + intros y _ _ x. tauto.
    + intros i0 x Hj Hm (k & <-). apply (Fr k). right; left. cbn [f_body]. apply Exists_app. right. apply Exists_cons_tl, Exists_app. right. apply Exists_cons_tl, Exists_exists. exists i0. auto.
    + rewrite rename_id in X. exists e2'. cbn [f_body f_params f_rets]. split.
      * replace (pre ++ j :: mid ++ news ++ post) with ((pre ++ j :: mid) ++ news ++ post) by (rewrite <- app_assoc; reflexivity).
        apply exec_app. exists e2. split; auto. apply exec_app. exists en. auto.
      * rewrite <- (map_id rets). rewrite (agree_lookups (fun x => exists k, fresh k = x) (fun x => x) e' e2' Y); auto.
        intros x Hx (k & <-). apply (Fr k). right; right. auto.
  - (* Expanded *)
    inversion E2 as [|i' tl e vs b e'' Lv K Sm Zl N E3]; subst.
    pose proof (exec_sized _ _ _ E1 (start_sized _ _ Sz)) as Sz1. pose proof (lookups_sized _ _ _ Sz1 Lv) as Fv.
    pose proof (env_types ps pre inputs e1 (i_args i) vs Sz E1 Lv tys T) as Tv. rewrite Tv in K.
    assert (NF : forall k, lookup e1 (fresh k) = None).
    { apply (new_not_bound ps pre inputs e1 fresh _ Sz E1 Fr eq_refl). cbn [f_body]. intros y Hy. apply in_or_app. auto. }
    destruct Fr as [FI Fr].
    assert (Nd : forall k, fresh k <> i_dst i).
    { intros k Ek. apply (Fr k). right; left. cbn [f_body]. apply Exists_app. right. constructor. left; auto. }
    destruct (expand_sound fresh p tys i news e1 vs b P Lv Tv K Sm Zl Fv N NF Nd) as (en & En & An).
    destruct (sim (fun x => exists k, fresh k = x) (fun x => x) _ _ _ E3 en) as (e2' & X & Y).
    + intros x Hx. symmetry. apply An. intros k Ek. apply Hx. exists k. auto.
    + intros y _ _ x. tauto.
    + intros i0 x Hj Hm (k & <-). apply (Fr k). right; left. cbn [f_body]. apply Exists_app. right. apply Exists_cons_tl, Exists_exists. exists i0. auto.
    + rewrite rename_id in X. exists e2'. cbn [f_body f_params f_rets]. split.
      * apply exec_app. exists e1. split; auto. apply exec_app. exists en. auto.
      * rewrite <- (map_id rets). rewrite (agree_lookups (fun x => exists k, fresh k = x) (fun x => x) e' e2' Y); auto.
        intros x Hx (k & <-). apply (Fr k). right; right. auto.
  - (* Cancelled *)
    inversion E2 as [|j' tl e vj bj e'' Lj Kj Sj Zj Nj E3]; subst. apply exec_app in E3. destruct E3 as (e2 & Em & E3).
    inversion E3 as [|i' tl e vi b e'' Li Ki Si Zi Ni E4]; subst.
    pose proof (exec_sized _ _ _ E1 (start_sized _ _ Sz)) as Sz1. pose proof (lookups_sized _ _ _ Sz1 Lj) as Fj.
    rewrite A in Lj. cbn [lookups] in Lj. destruct (lookup e1 x) as [(a & ab)|] eqn:Lx; [|discriminate]. injection Lj as <-. cbn [map fst] in *.
    inversion Fj as [|? ? F1 _]; subst. cbn [fst snd] in F1.
    assert (Lp : lookup e2 (i_dst j) = Some (i_ty j, bj)) by (eapply exec_keeps; [exact Em|cbn [lookup]; rewrite Nat.eqb_refl; auto]).
    assert (Ai : i_args i = [i_dst j]) by (destruct P; reflexivity).
    rewrite Ai in Li. cbn [lookups] in Li. rewrite Lp in Li. injection Li as <-. cbn [map fst] in Ki.
    destruct (cancels_sound p j i _ bj b a ab P eq_refl F1 Kj Sj Ki Si) as (Et & -> & _).
    assert (Lx2 : lookup e2 x = Some (a, ab)).
    { eapply exec_keeps; [exact Em|]. cbn [lookup]. destruct (Nat.eqb_spec x (i_dst j)) as [->|]; [congruence|auto]. }
    set (d := i_dst i) in *.
    destruct (sim (fun _ => False) (rename d x) _ _ _ E4 e2) as (e2' & X & Y).
    + intros y _. cbn [lookup]. unfold rename. destruct (Nat.eqb_spec y d) as [->|Ne]; [rewrite Lx2; congruence|auto].
    + intros y Hy _ z. cbn [lookup] in Hy. destruct (Nat.eqb_spec y d) as [|Ny]; [discriminate|]. unfold rename.
      destruct (Nat.eqb_spec z d) as [->|]; [|tauto]. split; intros; subst; congruence.
    + auto.
    + exists e2'. cbn [f_body f_params f_rets]. split.
      * replace (pre ++ j :: mid ++ map (rename_instr (rename d x)) post) with ((pre ++ j :: mid) ++ map (rename_instr (rename d x)) post) by (rewrite <- app_assoc; reflexivity).
        apply exec_app. exists e2. split; auto. apply exec_app. exists e1. split; auto. eapply exec_cons with (vs := [(a, ab)]) (b := bj); eauto.
        rewrite A. cbn [lookups]. rewrite Lx. reflexivity.
      * rewrite (agree_lookups _ _ _ _ Y); auto.
  - (* Unused *)
    inversion E2 as [|i' tl e vs b e'' Lv K Sm Zl N E3]; subst. set (d := i_dst i) in *.
    destruct (sim (eq d) (fun x => x) _ _ _ E3 e1) as (e2' & X & Y).
    + intros x Hx. cbn [lookup]. destruct (Nat.eqb_spec x d); [congruence|auto].
    + intros y _ _ x. tauto.
    + intros j x Hj Hm <-. apply (M j); auto.
    + rewrite rename_id in X. exists e2'. cbn [f_body f_params f_rets]. split; [apply exec_app; exists e1; auto|].
      rewrite <- (map_id rets). rewrite (agree_lookups (eq d) (fun x => x) e' e2' Y); auto. intros x Hx <-. auto.
Qed.

(** Any sequence of steps of the passes, in any order. *)
Definition any_step (f f' : func) : Prop := exists p, opt_step p f f'.
Lemma any_steps_preserve f f' : clos_refl_trans _ any_step f f' -> f_params f' = f_params f /\
  forall inputs r, sized (f_params f) inputs -> run_before f inputs r -> run_before f' inputs r.
Proof.
  induction 1 as [f f' (p & H)|f|f f1 f2 H1 IH1 H2 IH2]; [apply (opt_step_preserves p); auto|auto|].
  destruct IH1 as [P1 R1], IH2 as [P2 R2]. split; [congruence|]. intros inputs r Sz R. apply R2; [rewrite P1; auto|auto].
Qed.

Lemma before_exec body : forall e, env_sized e -> verified_body_before (map (fun p => (fst p, fst (snd p))) e) body -> exists e', exec_with okB body e e'.
Proof.
  induction body as [|i body IH]; intros e Sz V; [exists e; constructor|].
  cbn [verified_body_before] in V. destruct V as (N & (tys & T & K) & V).
  rewrite lookups_types in T. destruct (lookups e (i_args i)) as [vs|] eqn:L; [|discriminate]. cbn in T. injection T as T.
  rewrite lookup_types in N. destruct (lookup e (i_dst i)) eqn:N'; [discriminate|].
  rewrite <- T in K. destruct (before_total _ _ _ K (lookups_sized _ _ _ Sz L)) as (b & Sm & Zl).
  destruct (IH ((i_dst i, (i_ty i, b)) :: e)) as (e' & E); [constructor; auto|exact V|].
  exists e'. econstructor; eauto.
Qed.
Lemma before_runs f inputs : verified_before f -> sized (f_params f) inputs -> exists r, run_before f inputs r.
Proof.
  intros (_ & V & R) Sz.
  destruct (before_exec (f_body f) (start (f_params f) inputs) (start_sized _ _ Sz)) as (e & E); [rewrite start_types; auto|].
  assert (Lr : exists r, lookups e (f_rets f) = Some r).
  { revert R. induction (f_rets f) as [|x xs IH]; intros R; [exists []; auto|]. destruct (R x (or_introl eq_refl)) as (t & Ht).
    destruct IH as (r & Hr); [intros y Hy; apply R; right; auto|]. cbn [lookups]. rewrite Hr.
    unfold scope in Ht. pose proof (exec_scope _ _ _ E) as X. rewrite (start_types _ _ Sz) in X. rewrite <- X, lookup_types in Ht.
    destruct (lookup e x); [eauto|discriminate]. }
  destruct Lr as (r & Lr). exists r, e. auto.
Qed.
Lemma exec_verified body e e' : exec_with okB body e e' -> verified_body_before (map (fun p => (fst p, fst (snd p))) e) body.
Proof.
  induction 1 as [e|i tl e vs b e' L K Sm Zl N E IH]; cbn [verified_body_before]; [exact I|].
  rewrite lookup_types, N. split; [reflexivity|]. split; [|exact IH]. exists (map fst vs). rewrite lookups_types, L. auto.
Qed.
Lemma run_verified f inputs r : NoDup (map fst (f_params f)) -> sized (f_params f) inputs -> run_before f inputs r -> verified_before f.
Proof.
  intros ND Sz (e & E & L). split; [exact ND|]. split.
  - pose proof (exec_verified _ _ _ E) as V. rewrite start_types in V; auto.
  - intros x Hx. pose proof (exec_scope _ _ _ E) as X. rewrite (start_types _ _ Sz) in X. fold (scope (f_params f) (f_body f)) in X. rewrite <- X, lookup_types.
    pose proof (lookups_none _ _ _ _ L Hx) as NN. destruct (lookup e x) as [v|]; [|congruence]. exists (fst v). reflexivity.
Qed.

(** Every step of these passes keeps the function well-formed, and the results, byte for byte, of every input. *)
Theorem C88_passes_preserve : forall f f' inputs, verified_before f -> clos_refl_trans _ any_step f f' -> sized (f_params f) inputs ->
  verified_before f' /\ f_params f' = f_params f /\ exists r, evaluate f inputs = Some r /\ evaluate f' inputs = Some r.
Proof.
  intros f f' inputs V St Sz. destruct (before_runs f inputs V Sz) as (r & R). destruct (any_steps_preserve f f' St) as [Ep Pr].
  pose proof (Pr inputs r Sz R) as R'. split; [|split; [exact Ep|]].
  - apply (run_verified f' inputs r); auto; [rewrite Ep; apply V|rewrite Ep; exact Sz].
  - exists r. split; apply run_before_evaluate; auto.
Qed.

(** Without SAME convolutions the function is one the lowering accepts. *)
Lemma valid_conv_ok dw cv t q a : conv_fits dw cv t q a -> is_same (ConvLowerModel.c_padding cv) = false -> conv_ok dw cv t q.
Proof.
  unfold conv_fits, conv_ok. destruct (ConvLowerModel.c_in cv) as [[h w] d], (ConvLowerModel.c_out cv) as [[oh ow] od], (ConvLowerModel.c_filter cv) as [[fh fw] fd].
  destruct (ConvLowerModel.c_stride cv) as [sh sw], (ConvLowerModel.c_dilation cv) as [dh dw']. intros (H1 & H2 & H3 & H4 & H5 & H6 & H7 & H8 & H9 & H10 & H11 & H12) IS.
  repeat (split; [assumption|]). split; [|split; [|auto]].
  - intros E. split; [auto|]. unfold ConvLowerProps.no_padding. destruct (ConvLowerModel.c_padding cv); try discriminate; [|congruence]. cbn. auto.
  - intros E. destruct (H8 E) as (? & ? & _). auto.
Qed.
Lemma explicit_op_ok o tys r : op_ok_before o tys r -> is_same_conv o = false -> op_ok o tys r.
Proof.
  intros H N. destruct o; auto. destruct c; auto; cbn [is_same_conv] in N.
  - destruct tys as [|a [|? ?]]; auto. apply H.
  - destruct tys as [|a [|? ?]]; auto. cbn [op_ok_before] in H. destruct H as (CF & H). cbn [op_ok compute_ok]. split; [|exact H]. apply valid_conv_ok with (a := a); auto.
  - destruct tys as [|a [|? ?]]; auto. cbn [op_ok_before] in H. destruct H as (CF & H). cbn [op_ok compute_ok]. split; [|exact H]. apply valid_conv_ok with (a := a); auto.
Qed.
Theorem C88_ready_for_lowering : forall f, verified_before f -> explicit_padding f -> verified f.
Proof.
  intros f (ND & V & R) EP. split; [exact ND|]. split; [|exact R]. unfold explicit_padding in EP. clear R ND. revert V EP. generalize (f_params f).
  induction (f_body f) as [|i body IH]; intros sc V EP; cbn [verified_body verified_body_before] in *; [exact I|].
  destruct V as (N & (tys & T & K) & V). split; [exact N|]. split.
  - exists tys. split; [exact T|]. apply explicit_op_ok; auto. apply EP. left; auto.
  - apply IH; auto. intros k Hk. apply EP. right; auto.
Qed.

(** ** What the passes leave *)
Lemma verified_app a : forall sc b, verified_body_before sc (a ++ b) -> verified_body_before (rev (map (fun i => (i_dst i, i_ty i)) a) ++ sc) b.
Proof.
  induction a as [|i a IH]; intros sc b V; cbn [app map rev] in *; [exact V|]. cbn [verified_body_before] in V. destruct V as (_ & _ & V).
  rewrite <- app_assoc. cbn [app]. apply IH. exact V.
Qed.
Lemma instr_facts ps pre i post rets : verified_before (Func ps (pre ++ i :: post) rets) ->
  lookup (scope ps pre) (i_dst i) = None /\ exists tys, lookups (scope ps pre) (i_args i) = Some tys /\ op_ok_before (i_op i) tys (i_ty i).
Proof. intros (_ & V & _). cbn [f_params f_body] in V. apply verified_app in V. cbn [verified_body_before] in V. destruct V as (N & T & _). auto. Qed.
Lemma keeps_types mid : forall sc x t, lookup sc x = Some t -> verified_body_before sc mid -> lookup (rev (map (fun i => (i_dst i, i_ty i)) mid) ++ sc) x = Some t.
Proof.
  induction mid as [|i mid IH]; intros sc x t L V; cbn [map rev app]; [exact L|]. cbn [verified_body_before] in V. destruct V as (N & _ & V).
  rewrite <- app_assoc. cbn [app]. apply IH; [|exact V]. cbn [lookup]. destruct (Nat.eqb_spec x (i_dst i)) as [->|]; [congruence|exact L].
Qed.
Lemma verified_front a : forall sc b, verified_body_before sc (a ++ b) -> verified_body_before sc a.
Proof. induction a as [|i a IH]; intros sc b V; cbn [app verified_body_before] in *; [exact I|]. destruct V as (N & T & V). eauto. Qed.
Lemma use_facts ps pre j mid i post rets : verified_before (Func ps (pre ++ j :: mid ++ i :: post) rets) -> i_args i = [i_dst j] ->
  (exists tys, lookups (scope ps pre) (i_args j) = Some tys /\ op_ok_before (i_op j) tys (i_ty j)) /\ op_ok_before (i_op i) [i_ty j] (i_ty i).
Proof.
  intros V A. destruct (instr_facts ps pre j (mid ++ i :: post) rets V) as (_ & Tj). split; [exact Tj|].
  pose proof V as (_ & VB & _). cbn [f_params f_body] in VB. apply verified_app in VB. cbn [verified_body_before] in VB. destruct VB as (_ & _ & VB).
  assert (L : lookup ((i_dst j, i_ty j) :: rev (map (fun k => (i_dst k, i_ty k)) pre) ++ ps) (i_dst j) = Some (i_ty j)) by (cbn [lookup]; rewrite Nat.eqb_refl; reflexivity).
  pose proof (keeps_types mid _ _ _ L (verified_front _ _ _ VB)) as L2. apply verified_app in VB. cbn [verified_body_before] in VB. destruct VB as (_ & (tys & T & K) & _).
  rewrite A in T. cbn [lookups] in T. rewrite L2 in T. injection T as <-. exact K.
Qed.

(** [j] computes the operand of [i]. *)
Definition feeds (f : func) (j i : instr) : Prop := exists pre mid post, f_body f = pre ++ j :: mid ++ i :: post /\ i_args i = [i_dst j].
Definition finished (p : pass) (f : func) : Prop := forall f', ~ opt_step p f f'.

Lemma new_name_exists f : exists fresh, new_name fresh f.
Proof. destruct (fresh_exists f) as (fresh & H). exists fresh. exact H. Qed.
Lemma no_fuse p f j i : verified_before f -> finished p f -> feeds f j i -> (forall tys fresh, op_ok_before (i_op j) tys (i_ty j) -> op_ok_before (i_op i) [i_ty j] (i_ty i) ->
  length tys = length (i_args j) -> i_args i = [i_dst j] -> exists news, fuse fresh p tys j i news) -> False.
Proof.
  intros V F (pre & mid & post & E & A) H. destruct f as [ps body rets]. cbn [f_body] in E. subst body.
  destruct (use_facts ps pre j mid i post rets V A) as ((tys & T & Kj) & Ki).
  destruct (new_name_exists (Func ps (pre ++ j :: mid ++ i :: post) rets)) as (fresh & Fr).
  destruct (H tys fresh Kj Ki (lookups_length _ _ _ T) A) as (news & U). apply (F (Func ps (pre ++ j :: mid ++ news ++ post) rets)). eapply Fused; eauto.
Qed.

(** TFLPatterns: no convolution keeps SAME padding, no channel padding follows a spatial one, no quantised concatenation is quantised again,
    no Add, Sub, Mul has a fused activation or an operand of another shape than its result, no Relu follows a minimum with 127 or a
    convolution without activation whose result is quantised alike. *)
Theorem C88_tfl_normal_form : forall f, verified_before f -> finished TflPatterns f ->
  explicit_padding f /\
  (forall j i b1 a1 b2 a2, feeds f j i -> i_op j = TPad b1 a1 -> i_op i = TPad b2 a2 -> PatternModel.swap_pads (pad_attr b1 a1) (pad_attr b2 a2) = None) /\
  (forall j i axis q, feeds f j i -> i_op j = TConcat axis -> i_op i = TQuantize q -> t_zero (i_ty j) = None) /\
  (forall pre i post g faf s z, f_body f = pre ++ i :: post -> i_op i = TBinary g faf s z ->
     faf = None /\ forall x, In x (i_args i) -> exists t, lookup (scope (f_params f) pre) x = Some t /\ t_shape t = t_shape (i_ty i)) /\
  (forall j i cs c m si zi so zo, feeds f j i -> i_op j = TMinimum cs c -> c <> [] -> i_op i = TCompute (CAct m LutModel.Relu si zi so zo) -> exists v, In v c /\ v <> 127%Z) /\
  (forall j i c t q g b m, feeds f j i -> i_op j = TCompute (CConv c t q g b) -> i_op i = TCompute (CAct m LutModel.Relu (q_step q) (q_zp q) (q_step q) (q_zp q)) ->
     ConvLowerModel.at_faf t <> ConvLowerSpec.NONE).
Proof.
  intros f V F. split; [|split; [|split; [|split; [|split]]]].
  - intros i Hi. destruct (is_same_conv (i_op i)) eqn:E; [exfalso|reflexivity].
    apply in_split in Hi. destruct Hi as (pre & post & Eb). destruct f as [ps body rets]. cbn [f_body] in Eb. subst body.
    destruct (instr_facts ps pre i post rets V) as (_ & tys & T & K). destruct (new_name_exists (Func ps (pre ++ i :: post) rets)) as (fresh & Fr).
    destruct i as [d o args r]. cbn [i_op i_dst i_args i_ty] in *. destruct o; try discriminate. destruct c; try discriminate; cbn [is_same_conv] in E.
    + destruct tys as [|a [|? ?]]; try destruct K. eapply F. eapply Expanded; eauto. apply ESame. exact E.
    + destruct tys as [|a [|? ?]]; try (destruct K; fail). eapply F. eapply Expanded; eauto. apply ESameDepthwise; [exact E|].
      cbn [op_ok_before] in K. destruct K as (CF & _). unfold conv_fits in CF. destruct (ConvLowerModel.c_in c) as [[h w] dd], (ConvLowerModel.c_out c) as [[oh ow] od], (ConvLowerModel.c_filter c) as [[fh fw] fd].
      destruct (ConvLowerModel.c_stride c) as [sh sw], (ConvLowerModel.c_dilation c) as [dh dw']. destruct CF as (_ & _ & _ & _ & _ & C6 & _). apply C6. reflexivity.
  - intros j i b1 a1 b2 a2 Fe Ej Ei. destruct (PatternModel.swap_pads _ _) as [[inner outer]|] eqn:E; [exfalso|reflexivity].
    apply (no_fuse TflPatterns f j i V F Fe). intros tys fresh Kj _ Lt A. destruct j as [p oj xs pr], i as [d oi ys r]. cbn [i_op i_dst i_args i_ty] in *. subst.
    cbn [op_ok_before op_ok] in Kj. destruct tys as [|a [|? ?]]; try (destruct Kj; fail). destruct xs as [|x [|? ?]]; try discriminate Lt. eexists. apply USwap. exact E.
  - intros j i axis q Fe Ej Ei. destruct (t_zero (i_ty j)) as [z|] eqn:E; [exfalso|reflexivity].
    apply (no_fuse TflPatterns f j i V F Fe). intros tys fresh Kj _ Lt A. destruct j as [p oj xs pr], i as [d oi ys r]. cbn [i_op i_dst i_args i_ty] in *. subst.
    eexists. apply UQuantise. congruence.
  - intros pre i post g faf s z Eb Eo. destruct f as [ps body rets]. cbn [f_body f_params] in *. subst body.
    destruct (instr_facts ps pre i post rets V) as (_ & tys & T & K). destruct (new_name_exists (Func ps (pre ++ i :: post) rets)) as (fresh & Fr).
    destruct i as [d o args r]. cbn [i_op i_dst i_args i_ty] in *. subst o. cbn [op_ok_before op_ok] in K. destruct tys as [|a1 [|a2 [|? ?]]]; try (destruct K; fail).
    assert (Fn : faf = None).
    { destruct faf as [ac|]; [exfalso|reflexivity]. eapply F. eapply Expanded; [exact T| |exact Fr]. apply EUnfuse with (m := LutModel.Libm (fun v => v) (fun v => v)). }
    split; [exact Fn|]. destruct args as [|x1 [|x2 [|? ?]]]; try (apply lookups_length in T; discriminate T).
    assert (E1 : unequal_shape a1 r = false) by (destruct (unequal_shape a1 r) eqn:U; [exfalso; eapply F; eapply Expanded; [exact T|apply EBroadcastLhs; exact U|exact Fr]|reflexivity]).
    assert (E2 : unequal_shape a2 r = false) by (destruct (unequal_shape a2 r) eqn:U; [exfalso; eapply F; eapply Expanded; [exact T|apply EBroadcastRhs; exact U|exact Fr]|reflexivity]).
    unfold unequal_shape in E1, E2. apply negb_false_iff, PatternProps.same_shape_eq in E1. apply negb_false_iff, PatternProps.same_shape_eq in E2.
    cbn [lookups] in T. destruct (lookup (scope ps pre) x1) as [t1|] eqn:L1; [|discriminate]. destruct (lookup (scope ps pre) x2) as [t2|] eqn:L2; [|discriminate]. injection T as -> ->.
    intros x [<-|[<-|[]]]; eauto.
  - intros j i cs c m si zi so zo Fe Ej Nc Ei.
    destruct (forallb (fun v => Z.eqb v 127) c) eqn:E.
    + exfalso. apply (no_fuse TflPatterns f j i V F Fe). intros tys fresh Kj _ Lt A. destruct j as [p oj xs pr], i as [d oi ys r]. cbn [i_op i_dst i_args i_ty] in *. subst.
      cbn [op_ok_before op_ok] in Kj. destruct tys as [|a [|? ?]]; try (destruct Kj; fail). destruct xs as [|x [|? ?]]; try discriminate Lt. eexists. apply UMinimum. unfold splat_127. rewrite E.
      destruct c; [contradiction|reflexivity].
    + clear - E. induction c as [|v c IH]; [discriminate|]. cbn [forallb] in E. destruct (Z.eqb_spec v 127) as [->|Ne]; [|exists v; split; [left; auto|exact Ne]].
      destruct (IH E) as (w & Hw & N). exists w. split; [right; auto|exact N].
  - intros j i c t q g b m Fe Ej Ei Fa.
    apply (no_fuse TflPatterns f j i V F Fe). intros tys fresh Kj _ Lt A. destruct j as [p oj xs pr], i as [d oi ys r]. cbn [i_op i_dst i_args i_ty] in *. subst.
    cbn [op_ok_before op_ok] in Kj. destruct tys as [|a [|? ?]]; try (destruct Kj; fail). destruct xs as [|x [|? ?]]; try discriminate Lt. eexists. apply URelu. exact Fa.
Qed.
(** OptimizeTranspose: no transpose to channels-last remains after a padding of the last two dimensions by 1, no pair of transposes that cancel. *)
Theorem C88_transpose_normal_form : forall f, verified_before f -> finished Transposes f ->
  (forall j i b a perm, feeds f j i -> i_op j = TPad b a -> i_op i = TTranspose perm -> perm = [0; 2; 3; 1] -> ~ (b = [0; 0; 1; 1] /\ a = [0; 0; 1; 1])) /\
  (forall j i perm1 perm0, feeds f j i -> i_op j = TTranspose perm1 -> i_op i = TTranspose perm0 -> perm0 <> [] -> exists k, k < length perm0 /\ nth (nth k perm1 0) perm0 0 <> k).
Proof.
  intros f V F. split.
  - intros j i b a perm Fe Ej Ei -> [-> ->].
    apply (no_fuse Transposes f j i V F Fe). intros tys fresh Kj _ Lt A. destruct j as [p oj xs pr], i as [d oi ys r]. cbn [i_op i_dst i_args i_ty] in *. subst.
    cbn [op_ok_before op_ok] in Kj. destruct tys as [|a [|? ?]]; try (destruct Kj; fail). destruct xs as [|x [|? ?]]; try discriminate Lt.
    destruct Kj as (PF & _). destruct (fits_lengths _ _ _ _ PF) as (L4 & _). destruct (t_shape a) as [|s0 [|s1 [|s2 [|s3 [|? ?]]]]] eqn:Sa; try discriminate L4.
    eexists. eapply UHoist; [reflexivity|reflexivity|exact Sa].
  - intros j i perm1 perm0 Fe Ej Ei NE. destruct Fe as (pre & mid & post & E & A). destruct f as [ps body rets]. cbn [f_body] in E. subst body.
    destruct (use_facts ps pre j mid i post rets V A) as ((tys & T & Kj) & Ki). rewrite Ej in Kj. rewrite Ei in Ki.
    cbn [op_ok_before op_ok] in Kj, Ki. destruct tys as [|a [|? ?]]; try (destruct Kj; fail). destruct Kj as (P1 & S1 & _). destruct Ki as (P0 & S0 & _).
    pose proof (Permutation_length P1) as L1. pose proof (Permutation_length P0) as L0. rewrite seq_length in L1, L0.
    assert (L : length perm0 = length perm1) by (rewrite L0, S1; unfold permute; apply map_length).
    destruct (TransposeModel.are_cancellable (zshape perm0) (zshape perm1)) eqn:C.
    + exfalso. pose proof (lookups_length _ _ _ T) as Lt. destruct (i_args j) as [|x [|? ?]] eqn:Aj; try discriminate Lt.
      eapply F. eapply Cancelled; [|exact Aj]. destruct j as [p oj xs pr], i as [d oi ys r]. cbn [i_op i_dst i_args i_ty] in *. subst. apply Cancels. exact C.
    + assert (D : forall n, n <= length perm0 -> (forall k, k < n -> nth (nth k perm1 0) perm0 0 = k) \/ exists k, k < length perm0 /\ nth (nth k perm1 0) perm0 0 <> k).
      { induction n as [|n IH]; intros Hn; [left; intros; lia|]. destruct IH as [IH|IH]; [lia| |auto]. destruct (Nat.eq_dec (nth (nth n perm1 0) perm0 0) n); [|right; exists n; auto].
        left. intros k Hk. destruct (Nat.eq_dec k n) as [->|]; [auto|apply IH; lia]. }
      destruct (D (length perm0) (le_n _)) as [D'|D']; [exfalso|exact D'].
      unfold TransposeModel.are_cancellable in C. unfold zshape in C. rewrite !map_length in C. rewrite L, Nat.eqb_refl in C.
      destruct (Nat.eqb_spec (length perm1) 0) as [Z0|_]; [destruct perm0; [congruence|rewrite <- L in Z0; discriminate]|]. cbn [negb andb] in C.
      assert (T' : forallb (fun k => (nth (Z.to_nat (nth k (map Z.of_nat perm1) (-1)%Z)) (map Z.of_nat perm0) (-1)%Z =? Z.of_nat k)%Z) (seq 0 (length perm1)) = true); [|congruence].
      apply forallb_forall. intros k Hk. apply in_seq in Hk. apply Z.eqb_eq.
      rewrite (nth_indep (map Z.of_nat perm1) (-1)%Z (Z.of_nat 0)) by (rewrite map_length; lia). rewrite map_nth, Nat2Z.id.
      assert (B : nth k perm1 0 < length perm0).
      { rewrite L, L1. assert (In (nth k perm1 0) (seq 0 (length (t_shape a)))) as I by (apply (Permutation_in _ P1); apply nth_In; lia). apply in_seq in I. lia. }
      rewrite (nth_indep (map Z.of_nat perm0) (-1)%Z (Z.of_nat 0)) by (rewrite map_length; lia). rewrite map_nth, D' by lia. reflexivity.
Qed.

(** Explicit padding is always reached: some sequence of steps of TFLPatterns leaves no SAME convolution. *)
Definition same_count (body : list instr) : nat := length (filter (fun i => is_same_conv (i_op i)) body).
Theorem C88_explicit_padding_reached : forall f, verified_before f -> exists f', clos_refl_trans _ (opt_step TflPatterns) f f' /\ explicit_padding f'.
Proof.
  assert (H : forall n f, same_count (f_body f) = n -> verified_before f -> exists f', clos_refl_trans _ (opt_step TflPatterns) f f' /\ explicit_padding f').
  { induction n as [|n IH]; intros f Hn V.
    - exists f. split; [apply rt_refl|]. intros i Hi. destruct (is_same_conv (i_op i)) eqn:E; [exfalso|reflexivity].
      unfold same_count in Hn. assert (In i (filter (fun i => is_same_conv (i_op i)) (f_body f))) as I by (apply filter_In; auto). destruct (filter _ (f_body f)); [destruct I|discriminate].
    - assert (EX : exists pre i post, f_body f = pre ++ i :: post /\ is_same_conv (i_op i) = true).
      { unfold same_count in Hn. destruct (filter (fun i => is_same_conv (i_op i)) (f_body f)) as [|i l] eqn:E; [discriminate|].
        assert (In i (filter (fun i => is_same_conv (i_op i)) (f_body f))) as I by (rewrite E; left; auto). apply filter_In in I. destruct I as [I1 I2].
        apply in_split in I1. destruct I1 as (pre & post & Eb). exists pre, i, post. auto. }
      destruct EX as (pre & i & post & Eb & E). destruct f as [ps body rets]. cbn [f_body] in Eb, Hn. subst body.
      destruct (instr_facts ps pre i post rets V) as (_ & tys & T & K). destruct (new_name_exists (Func ps (pre ++ i :: post) rets)) as (fresh & Fr).
      assert (ST : exists news, expand fresh TflPatterns tys i news /\ same_count news = 0).
      { destruct i as [d o args r]. cbn [i_op i_dst i_args i_ty] in *. destruct o; try discriminate. destruct c; try discriminate; cbn [is_same_conv] in E.
        + destruct tys as [|a [|? ?]]; try (destruct K; fail). eexists. split; [apply ESame; exact E|].
          unfold same_count, same_pad_op, valid_conv. destruct (ConvLowerModel.c_in c) as [[h w] dd], (same_pads c) as [[[tp bt] [lf rg]] [nh nw]]. reflexivity.
        + destruct tys as [|a [|? ?]]; try (destruct K; fail). eexists. split.
          * apply ESameDepthwise; [exact E|].
            cbn [op_ok_before] in K. destruct K as (CF & _). unfold conv_fits in CF. destruct (ConvLowerModel.c_in c) as [[h w] dd], (ConvLowerModel.c_out c) as [[oh ow] od], (ConvLowerModel.c_filter c) as [[fh fw] fd].
            destruct (ConvLowerModel.c_stride c) as [sh sw], (ConvLowerModel.c_dilation c) as [dh dw']. destruct CF as (_ & _ & _ & _ & _ & C6 & _). apply C6. reflexivity.
          * unfold same_count, same_pad_op, valid_conv. destruct (ConvLowerModel.c_in c) as [[h w] dd], (same_pads c) as [[[tp bt] [lf rg]] [nh nw]]. reflexivity. }
      destruct ST as (news & X & N0).
      assert (Step : opt_step TflPatterns (Func ps (pre ++ i :: post) rets) (Func ps (pre ++ news ++ post) rets)) by (eapply Expanded; eauto).
      destruct (zeros_sized ps) as (inputs & Sz).
      destruct (C88_passes_preserve _ (Func ps (pre ++ news ++ post) rets) inputs V) as (V' & _); [apply rt_step; exists TflPatterns; exact Step|exact Sz|].
      destruct (IH (Func ps (pre ++ news ++ post) rets)) as (f' & St & EP).
      + cbn [f_body]. unfold same_count in *. rewrite filter_app, app_length in *. cbn [filter] in Hn. rewrite E in Hn. cbn [length] in Hn. rewrite filter_app, app_length. lia.
      + exact V'.
      + exists f'. split; [eapply rt_trans; [apply rt_step; exact Step|exact St]|exact EP]. }
  intros f V. apply (H (same_count (f_body f)) f eq_refl V).
Qed.

(** ** Compilation: the passes, then the lowering *)
Theorem C88_compilation : forall f f1 f' inputs,
  verified_before f -> clos_refl_trans _ any_step f f1 -> explicit_padding f1 -> clos_refl_trans _ lower_step f1 f' -> sized (f_params f) inputs ->
  exists r, evaluate f inputs = Some r /\ evaluate f' inputs = Some r.
Proof.
  intros f f1 f' inputs V S1 EP S2 Sz. destruct (C88_passes_preserve f f1 inputs V S1 Sz) as (V1 & Ep & r & R & R1).
  destruct (C72_lowering_preserves f1 f' inputs (C88_ready_for_lowering f1 V1 EP) S2) as (r' & R2 & R3); [rewrite Ep; exact Sz|].
  exists r. split; [exact R|]. congruence.
Qed.
