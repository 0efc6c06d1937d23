(** C72: lowering a whole function keeps its results, terminates, and leaves no strided slice or concatenation. *)
From Coq Require Import Relations Wellfounded.
From Verif Require Import Base NdSpec NdBase LowerSpec SlicePadModel LowerModel CopyKernels BroadcastProofs ConcatProofs StridedProofs LowerProps FunOpsSpec FunOpsProofs FunModel FunSpec FunProofs FunProofs2.
Local Open Scope nat_scope.

Definition run (f : func) (inputs : list bytes) (r : list (ty * bytes)) : Prop :=
  exists e, exec (f_body f) (start (f_params f) inputs) e /\ lookups e (f_rets f) = Some r.

Lemma run_evaluate f inputs r : run f inputs r -> evaluate f inputs = Some r.
Proof. intros (e & E & L). unfold evaluate. rewrite (exec_eval _ _ _ E). auto. Qed.

Lemma lookup_in {V} (e : list (nat * V)) x v : lookup e x = Some v -> In x (map fst e).
Proof. induction e as [|(y & w) e IH]; cbn; [discriminate|]. destruct (Nat.eqb_spec x y); auto. Qed.
Lemma lookup_none {V} (e : list (nat * V)) x : ~ In x (map fst e) -> lookup e x = None.
Proof. intros H. destruct (lookup e x) eqn:E; auto. apply lookup_in in E. contradiction. Qed.
Lemma fst_types (e : env) : map fst (map (fun p => (fst p, fst (snd p))) e) = map fst e.
Proof. rewrite map_map. auto. Qed.

Lemma exec_names {okp} body e e' : exec_with okp body e e' -> forall x, In x (map fst e') -> In x (map fst e) \/ In x (map i_dst body).
Proof.
  intros E x Hx. rewrite <- fst_types, (exec_scope _ _ _ E), map_app, map_rev, map_map, fst_types in Hx. cbn [fst] in Hx.
  apply in_app_or in Hx. destruct Hx as [Hx|Hx]; auto. right. apply in_rev; auto.
Qed.
Lemma start_names ps inputs : sized ps inputs -> map fst (start ps inputs) = map fst ps.
Proof. intros H. rewrite <- fst_types, start_types; auto. Qed.

Lemma pattern_not_x fresh tys i news : pattern fresh tys i news -> is_x (i_op i) = false.
Proof. intros []; reflexivity. Qed.
Lemma forwards_not_x tys i : forwards tys i -> is_x (i_op i) = false.
Proof. intros []; reflexivity. Qed.

Lemma forwards_sound tys i vs b a ab : forwards tys i -> vs = [(a, ab)] -> tys = [a] -> op_ok (i_op i) tys (i_ty i) ->
  sem (i_op i) vs (i_ty i) = Some b -> length ab = tsize a -> i_ty i = a /\ b = ab.
Proof.
  intros P -> T K S F. destruct P as [is_const a' d begin sizes args r R | is_const a' d before after args r R | is_const a' d args r R];
    cbn [i_op i_ty] in *; injection T as ->.
  - destruct K as (K1 & K2 & K3). cbn [sem] in S. injection S as <-.
    pose proof (C13_slice_lowering Z is_const (t_elem a) begin (t_shape r) (t_shape a) sizes (stored a ab) K1 (sizes_length _ _ _ _ K1 K2) (stored_elem a ab)) as C.
    change zshape with zn in R. rewrite R in C. rewrite (bytes_stored a ab F) in C. split; [|auto].
    apply same_ty; auto. apply same_dims_eq. change zshape with zn. unfold replace_slice in R. destruct (same_dims _ _); auto.
    destruct is_const; [discriminate|]. repeat (match type of R with context [match ?x with _ => _ end] => destruct x end; try discriminate).
  - destruct K as (K1 & K2 & K3 & K4). cbn [sem] in S. injection S as <-.
    pose proof (C14_pad_lowering is_const (t_elem a) (t_zero a) before after (t_shape r) (t_shape a) (stored a ab) K1 (stored_elem a ab) K2 K4) as C.
    cbv zeta in C. change zshape with zn in R. rewrite R in C. rewrite (bytes_stored a ab F) in C. split; [|auto].
    apply same_ty; auto. apply same_dims_eq. change zshape with zn. unfold replace_pad in R. destruct (same_dims _ _); auto.
    destruct is_const; [discriminate|]. repeat (match type of R with context [match ?x with _ => _ end] => destruct x end; try discriminate).
  - destruct K as (K1 & K2). cbn [sem] in S. injection S as <-.
    pose proof (C15_broadcast_lowering Z is_const (t_elem a) (t_shape a) (t_shape r) (stored a ab) K1 (stored_elem a ab)) as C.
    change zshape with zn in R. rewrite R in C. rewrite (bytes_stored a ab F) in C. split; [|auto].
    apply same_ty; auto. apply same_dims_eq. change zshape with zn. unfold replace_broadcast in R. destruct (same_dims _ _); auto.
    destruct is_const; [discriminate|]. repeat (match type of R with context [match ?x with _ => _ end] => destruct x end; try discriminate).
Qed.

Lemma step_preserves f f' : lower_step f f' -> f_params f' = f_params f /\
  forall inputs r, sized (f_params f) inputs -> run f inputs r -> run f' inputs r.
Proof.
  intros St. destruct St as [ps pre i post rets tys fresh news T P FI Fr | ps pre i post rets tys a T P A | ps pre i post rets M Mr];
    cbn [f_params f_body f_rets]; (split; [reflexivity|]); intros inputs r Sz (e' & E & L); cbn [f_params f_body f_rets] in *;
    apply exec_app in E; destruct E as (e1 & E1 & E2); inversion E2 as [|i' tl e vs b e'' Lv K S Zl N E3]; subst;
    pose proof (exec_sized _ _ _ E1 (start_sized _ _ Sz)) as Sz1;
    pose proof (lookups_sized _ _ _ Sz1 Lv) as Fv.
  - (* Replace *)
    assert (Tv : map fst vs = tys).
    { pose proof (exec_scope _ _ _ E1) as X. rewrite (start_types _ _ Sz) in X. fold (scope ps pre) in X.
      pose proof (lookups_types e1 (i_args i)) as Y. rewrite X, T, Lv in Y. cbn in Y. congruence. }
    destruct K as [K|K]; [rewrite (pattern_not_x _ _ _ _ P) in K; discriminate|].
    assert (NF : forall k, lookup e1 (fresh k) = None).
    { intros k. apply lookup_none. intros Hx. apply (exec_names _ _ _ E1) in Hx. rewrite (start_names _ _ Sz) in Hx. apply (Fr k). destruct Hx as [Hx|Hx]; [left; auto|].
      right; left. cbn [f_body]. apply Exists_app. left. apply in_map_iff in Hx. destruct Hx as (j & Ej & Hj). apply Exists_exists. exists j. split; auto. left; auto. }
    assert (Nd : forall k, fresh k <> i_dst i).
    { intros k Ek. apply (Fr k). right; left. cbn [f_body]. apply Exists_app. right. constructor. left; auto. }
    rewrite Tv in K.
    destruct (pattern_sound fresh tys i news e1 vs b P Lv Tv K S Zl N NF Nd FI Fv) as (en & En & An).
    destruct (sim (fun x => exists k, fresh k = x) (fun x => x) _ _ _ E3 en) as (e2' & X & Y).
    + intros x Hx. symmetry. apply An. intros k Ek. apply Hx. exists k. auto.
    + intros y _ _ x. tauto.
    + intros j x Hj Hm (k & <-). apply (Fr k). right; left. cbn [f_body]. apply Exists_app. right. apply Exists_cons_tl, Exists_exists. exists j. auto.
    + rewrite rename_id in X. exists e2'. cbn [f_body f_params f_rets]. split.
      * apply exec_app. exists e1. split; auto. apply exec_app. exists en. auto.
      * rewrite <- (map_id rets). rewrite (agree_lookups (fun x => exists k, fresh k = x) (fun x => x) e' e2' Y); auto.
        intros x Hx (k & <-). apply (Fr k). right; right. auto.
  - (* Forward *)
    assert (Tv : map fst vs = tys).
    { pose proof (exec_scope _ _ _ E1) as X. rewrite (start_types _ _ Sz) in X. fold (scope ps pre) in X.
      pose proof (lookups_types e1 (i_args i)) as Y. rewrite X, T, Lv in Y. cbn in Y. congruence. }
    destruct K as [K|K]; [rewrite (forwards_not_x _ _ P) in K; discriminate|].
    rewrite A in Lv. cbn [lookups] in Lv. destruct (lookup e1 a) as [(at' & ab)|] eqn:La; [|discriminate]. injection Lv as <-. cbn [map fst] in *.
    inversion Fv as [|? ? F1 _]; subst. cbn [fst snd] in F1.
    destruct (forwards_sound _ _ _ _ _ _ P eq_refl eq_refl K S F1) as [Et Eb]. subst b.
    set (d := i_dst i) in *.
    destruct (sim (fun _ => False) (rename d a) _ _ _ E3 e1) as (e2' & X & Y).
    + intros x _. cbn [lookup]. unfold rename. destruct (Nat.eqb_spec x d) as [->|Ne]; [rewrite La; congruence|auto].
    + intros y Hy _ x. cbn [lookup] in Hy. destruct (Nat.eqb_spec y d) as [|Ny]; [discriminate|]. unfold rename.
      destruct (Nat.eqb_spec x d) as [->|]; [|tauto]. split; intros; subst; congruence.
    + auto.
    + exists e2'. cbn [f_body f_params f_rets]. split; [apply exec_app; exists e1; auto|].
      rewrite (agree_lookups _ _ _ _ Y); auto.
  - (* Dead *)
    set (d := i_dst i) in *.
    destruct (sim (eq d) (fun x => x) _ _ _ E3 e1) as (e2' & X & Y).
    + intros x Hx. cbn [lookup]. destruct (Nat.eqb_spec x d); [congruence|auto].
    + intros y _ _ x. tauto.
    + intros j x Hj Hm <-. apply (M j); auto.
    + rewrite rename_id in X. exists e2'. cbn [f_body f_params f_rets]. split; [apply exec_app; exists e1; auto|].
      rewrite <- (map_id rets). rewrite (agree_lookups (eq d) (fun x => x) e' e2' Y); auto. intros x Hx <-. auto.
Qed.

Lemma steps_preserve f f' : clos_refl_trans _ lower_step f f' -> f_params f' = f_params f /\
  forall inputs r, sized (f_params f) inputs -> run f inputs r -> run f' inputs r.
Proof.
  induction 1 as [f f' H|f|f f1 f2 H1 IH1 H2 IH2]; [apply step_preserves; auto|auto|].
  destruct IH1 as [P1 R1], IH2 as [P2 R2]. split; [congruence|]. intros inputs r S R. apply R2; [rewrite P1; auto|auto].
Qed.

Lemma verified_exec body : forall e, env_sized e -> verified_body (map (fun p => (fst p, fst (snd p))) e) body -> exists e', exec body e e'.
Proof.
  induction body as [|i body IH]; intros e Sz V; [exists e; constructor|].
  cbn [verified_body] in V. destruct V as (N & (tys & T & K) & V).
  rewrite lookups_types in T. destruct (lookups e (i_args i)) as [vs|] eqn:L; [|discriminate]. cbn in T. injection T as T.
  rewrite lookup_types in N. destruct (lookup e (i_dst i)) eqn:N'; [discriminate|].
  rewrite <- T in K. destruct (op_total _ _ _ K (lookups_sized _ _ _ Sz L)) as (b & S & Z).
  destruct (IH ((i_dst i, (i_ty i, b)) :: e)) as (e' & E); [constructor; auto|exact V|].
  exists e'. econstructor; eauto. right; auto.
Qed.

Lemma verified_runs f inputs : verified f -> sized (f_params f) inputs -> exists r, run f inputs r /\ Forall (fun v => length (snd v) = tsize (fst v)) r.
Proof.
  intros (_ & V & R) Sz.
  destruct (verified_exec (f_body f) (start (f_params f) inputs) (start_sized _ _ Sz)) as (e & E); [rewrite start_types; auto|].
  assert (Lr : exists r, lookups e (f_rets f) = Some r).
  { revert R. induction (f_rets f) as [|x xs IH]; intros R; [exists []; auto|]. destruct (R x (or_introl eq_refl)) as (t & Ht).
    destruct IH as (r & Hr); [intros y Hy; apply R; right; auto|]. cbn [lookups]. rewrite Hr.
    unfold scope in Ht. pose proof (exec_scope _ _ _ E) as X. rewrite (start_types _ _ Sz) in X. rewrite <- X, lookup_types in Ht.
    destruct (lookup e x); [eauto|discriminate]. }
  destruct Lr as (r & Lr). exists r. split; [exists e; auto|]. eapply lookups_sized; eauto. eapply exec_sized; eauto. apply start_sized; auto.
Qed.

(** The lowered function computes, from every input, the very bytes the original computes, of the same types; neither fails. *)
Theorem C72_lowering_preserves : forall f f' inputs,
  verified f -> clos_refl_trans _ lower_step f f' -> sized (f_params f) inputs ->
  exists r, evaluate f inputs = Some r /\ evaluate f' inputs = Some r.
Proof.
  intros f f' inputs V St Sz. destruct (verified_runs f inputs V Sz) as (r & R & _). exists r.
  split; apply run_evaluate; auto. apply (steps_preserve f f' St); auto.
Qed.

(** ** Termination *)
Definition weight (i : instr) : nat :=
  match i_op i with
  | TConcat _ => length (i_args i) * length (i_args i) + 2
  | TStridedSlice _ _ _ _ _ _ => 10
  | TSlice _ _ | TPad _ _ | TBroadcast | TMean _ _ => 2
  | TCompute (CConv _ t _ _ _) => if ConvLowerModel.is_relu (ConvLowerModel.at_faf t) then 8 else 4
  | TCompute (CDepthwise _ _ _ _ _) => 4
  | TCompute (CFull _ _ _ _ _) => 11
  | TCompute (CAct _ _ _ _ _ _) => 3
  | TCompute _ => 2
  | _ => 1
  end.
Definition total (f : func) : nat := fold_right (fun i n => weight i + n) 0 (f_body f).
Lemma total_app a b : fold_right (fun i n => weight i + n) 0 (a ++ b) = fold_right (fun i n => weight i + n) 0 a + fold_right (fun i n => weight i + n) 0 b.
Proof. induction a; cbn; auto. lia. Qed.
Lemma weight_pos i : 1 <= weight i.
Proof. unfold weight. destruct (i_op i); try lia. destruct c; try lia. destruct (ConvLowerModel.is_relu _); lia. Qed.
Lemma weight_rename s body : fold_right (fun i n => weight i + n) 0 (map (rename_instr s) body) = fold_right (fun i n => weight i + n) 0 body.
Proof. induction body as [|i body IH]; cbn [map fold_right]; auto. rewrite IH. f_equal. unfold weight, rename_instr; cbn. rewrite map_length. auto. Qed.

Lemma lookups_len {V} (e : list (nat * V)) xs vs : lookups e xs = Some vs -> length vs = length xs.
Proof. apply lookups_length. Qed.

Lemma compute_weight outside fresh a d c args r : match replace_compute outside c with
  | ByKernel x ts => fold_right (fun i n => weight i + n) 0 (const_instrs fresh ts ++ [Instr d (XCompute x) (args ++ map fresh (seq 0 (length ts))) r])
      < weight (Instr d (TCompute c) args r)
  | ByRelu c1 c2 => fold_right (fun i n => weight i + n) 0 [Instr (fresh 0) (TCompute c1) args r; Instr d (TCompute c2) [fresh 0] r] < weight (Instr d (TCompute c) args r)
  | ByConv s1 c' s2 s3 => fold_right (fun i n => weight i + n) 0 [Instr (fresh 0) TReshape args (Ty s1 (t_elem a) (t_zero a)); Instr (fresh 1) (TCompute c') [fresh 0] (Ty s2 (t_elem r) (t_zero r));
       Instr d TReshape [fresh 1] (Ty s3 (t_elem r) (t_zero r))] < weight (Instr d (TCompute c) args r)
  | Kept => True
  end.
Proof.
  destruct c as [fc t q f bi|cv t q f bi|cv t q f bi|p|m ac si zi so zo]; cbn [replace_compute].
  - cbn [fold_right]. unfold weight; cbn [i_op ConvLowerModel.at_faf]. destruct (ConvLowerModel.is_relu _); lia.
  - destruct (_ && _) eqn:NR.
    + cbn [fold_right]. unfold weight; cbn [i_op ConvLowerModel.with_faf ConvLowerModel.at_faf ConvLowerModel.is_relu].
      apply andb_prop in NR. destruct NR as [NR _]. apply andb_prop in NR. destruct NR as [_ ->]. lia.
    + destruct (ConvLowerModel.replace_conv2d _ _ _ _); auto. cbn. destruct (ConvLowerModel.is_relu _); lia.
  - destruct (ConvLowerModel.replace_conv2d _ _ _ _); auto.
  - cbn. lia.
  - destruct (LutModel.lookup_table _ _ _ _ _ _); auto.
Qed.
Lemma step_decreases f f' : lower_step f f' -> total f' < total f.
Proof.
  intros [ps pre i post rets tys fresh news T P FI Fr | ps pre i post rets tys a T P A | ps pre i post rets M Mr]; unfold total; cbn [f_body].
  - rewrite !total_app. cbn [fold_right]. enough (fold_right (fun i n => weight i + n) 0 news < weight i) by lia.
    destruct P; try (match goal with R : replace_compute ?o ?c = _ |- _ < weight (Instr ?d _ ?g ?t) => pose proof (fun a => compute_weight o fresh a d c g t) as W; rewrite R in W; first [exact (W t) | apply W] end);
      cbn [fold_right weight i_op i_args]; try lia.
    unfold split_concat_step in H. rewrite map_length, combine_length in H. apply lookups_len in T. cbn [i_args] in T. rewrite T, Nat.min_id in H.
    destruct (Nat.leb_spec (length args) CONCAT_OP_MAX_INPUTS) as [|Big]; [discriminate|].
    match type of H with (if ?c then _ else _) = _ => destruct c; [discriminate|] end.
    rewrite firstn_map, skipn_map, firstn_combine, skipn_combine in H by auto.
    match type of H with match ?c with _ => _ end = _ => destruct c; [|discriminate] end.
    remember CONCAT_OP_MAX_INPUTS as M eqn:HM. injection H as _ <- <-.
    rewrite !input_names_inputs by (repeat (rewrite firstn_length || rewrite skipn_length); lia).
    cbn [length]. rewrite firstn_length, skipn_length. change CONCAT_OP_MAX_INPUTS with 13 in HM. subst M. unfold weight; cbn [i_op i_args].
    rewrite (Nat.min_l 13) by lia. cbn [length]. rewrite ?firstn_length, ?skipn_length, ?(Nat.min_l 13) by lia.
    generalize dependent (length args). intros n _ Hn. replace n with (14 + (n - 14)) by lia. generalize (n - 14). intros m. cbn [Nat.add Nat.sub Nat.mul]. nia.
  - rewrite !total_app. cbn [fold_right]. rewrite weight_rename. pose proof (weight_pos i). lia.
  - rewrite !total_app. cbn [fold_right]. pose proof (weight_pos i). lia.
Qed.

(** No infinite sequence of pattern applications. *)
Theorem C72_lowering_terminates : well_founded (fun f' f => lower_step f f').
Proof. apply (well_founded_lt_compat _ total). intros f' f. apply step_decreases. Qed.

(** ** Normal form *)
Lemma run_instr ps pre i post rets inputs r : sized ps inputs -> run (Func ps (pre ++ i :: post) rets) inputs r ->
  exists vs, lookups (scope ps pre) (i_args i) = Some (map fst vs) /\ ok (i_op i) (map fst vs) (i_ty i) /\
    Forall (fun v => length (snd v) = tsize (fst v)) (vs : list (ty * bytes)) /\ length vs = length (i_args i).
Proof.
  intros Sz (e & E & _). cbn [f_body f_params] in E. apply exec_app in E. destruct E as (e1 & E1 & E2). inversion E2; subst.
  exists vs. split; [|split; [auto|split]].
  - pose proof (exec_scope _ _ _ E1) as X. rewrite (start_types _ _ Sz) in X. fold (scope ps pre) in X. rewrite <- X, lookups_types.
    match goal with H : lookups e1 _ = _ |- _ => rewrite H end. auto.
  - eapply lookups_sized; eauto. eapply exec_sized; eauto. apply start_sized; auto.
  - eapply lookups_length; eauto.
Qed.

Lemma fresh_exists f : exists fresh : nat -> nat, (forall j k, fresh j = fresh k -> j = k) /\ forall k, ~ mentioned f (fresh k).
Proof.
  set (names := map fst (f_params f) ++ flat_map (fun i => i_dst i :: i_args i) (f_body f) ++ f_rets f).
  assert (B : forall l : list nat, exists n, forall x, In x l -> x < n).
  { induction l as [|y l (n & IH)]; [exists 0; intros x []|]. exists (S (y + n)). intros x [<-|Hx]; [lia|]. specialize (IH x Hx). lia. }
  destruct (B names) as (n & Hn). exists (fun k => n + k). split; [intros; lia|]. intros k M. enough (In (n + k) names) by (specialize (Hn (n + k) H); lia).
  unfold names. rewrite !in_app_iff. destruct M as [M|[M|M]]; auto. right; left. apply Exists_exists in M. destruct M as (i & Hi & [E|E]); apply in_flat_map; exists i; split; auto; [left|right]; auto.
Qed.

Lemma zeros_sized ps : exists inputs, sized ps inputs.
Proof. exists (map (fun p => repeat 0%Z (tsize (snd p))) ps). induction ps; cbn; constructor; auto. apply repeat_length. Qed.

(** What may remain when no pattern applies: concatenations of more than 13 tensors along an axis below -1, reductions of
    axes with a gap; convolutions with odd channel numbers or too large errors; no strided slice, pooling or activation. *)
Definition left_over (i : instr) : Prop :=
  match i_op i with
  | TStridedSlice _ _ _ _ _ _ => False
  | TConcat axis => (axis < -1)%Z /\ 13 < length (i_args i)
  | TMean axes _ => exists x y z, In x axes /\ In z axes /\ x < y < z /\ ~ In y axes
  | TCompute c => not_lowered c
  | _ => True
  end.

Theorem C72_normal_form : forall f f', verified f -> clos_refl_trans _ lower_step f f' ->
  (forall g, ~ lower_step f' g) -> Forall left_over (f_body f').
Proof.
  intros f f' V St NS. destruct (zeros_sized (f_params f)) as (inputs & Sz). destruct (verified_runs f inputs V Sz) as (r & R & _).
  destruct (steps_preserve f f' St) as [Ep Pr]. specialize (Pr inputs r Sz R). rewrite <- Ep in Sz. clear R St V Ep f.
  apply Forall_forall. intros i Hi. apply in_split in Hi. destruct Hi as (pre & post & Eb).
  destruct f' as [ps body rets]. cbn [f_params f_body f_rets] in *. subst body.
  destruct (run_instr ps pre i post rets inputs r Sz Pr) as (vs & T & K & F & Lv).
  destruct (fresh_exists (Func ps (pre ++ i :: post) rets)) as (fresh & FI & Fr).
  assert (NP : forall news, ~ pattern fresh (map fst vs) i news) by (intros news P; eapply NS; eapply Replace; eauto).
  destruct i as [d o args t]. cbn [i_op i_args i_ty left_over] in *. unfold left_over; cbn [i_op i_args].
  destruct o; auto; destruct K as [K|K]; try discriminate; cbn [op_ok] in K.
  - (* concat *)
    destruct K as (pr & po & ds & K1 & K2 & K3 & K4).
    destruct (Nat.leb_spec (length args) 13) as [Small|Big].
    + exfalso. destruct (parts_shapes pr po vs ds K2) as [E1 E2].
      pose proof (C16_concat_lowering Z (t_elem t) axis pr po (repeat 0%Z (t_elem t)) (parts_of (length pr) vs)) as C.
      rewrite E2 in C.
      replace (map (fun p => zn (pr ++ fst p :: po)) (parts_of (length pr) vs)) with (map (fun t => zshape (t_shape t)) (map fst vs)) in C.
      2:{ rewrite map_map. rewrite <- (map_map (fun v => t_shape (fst v)) zshape vs), E1, map_map. auto. }
      unfold parts_of in C. rewrite map_length in C.
      destruct (replace_concat _ _ _ _) eqn:R in C.
      * specialize (C). enough (13 < length vs) by lia. apply C; auto. intros p Hp. apply in_map_iff in Hp. destruct Hp as (v & <- & Hv). cbn [snd]. intros idx. rewrite stored_elem.
        rewrite Forall_forall in K4. apply K4. apply in_map; auto.
      * apply C; auto. intros p Hp. apply in_map_iff in Hp. destruct Hp as (v & <- & Hv). cbn [snd]. intros idx. rewrite stored_elem.
        rewrite Forall_forall in K4. apply K4. apply in_map; auto.
      * apply (NP [Instr d (XConcat a) args t]). apply PConcat. rewrite K3. exact R.
      * apply C; auto. intros p Hp. apply in_map_iff in Hp. destruct Hp as (v & <- & Hv). cbn [snd]. intros idx. rewrite stored_elem.
        rewrite Forall_forall in K4. apply K4. apply in_map; auto.
    + split; auto. destruct (Z.lt_ge_cases axis (-1)) as [|Ge]; auto. exfalso.
      assert (E : exists s first rest, split_concat_step axis (zshape (t_shape t)) (map (fun p => CInput (zshape (t_shape (fst p))) (snd p)) (combine (map fst vs) args)) = Lowered (CConcat s first :: rest)).
      { unfold split_concat_step. rewrite map_length, combine_length, map_length, Lv, Nat.min_id.
        destruct (Nat.leb_spec (length args) CONCAT_OP_MAX_INPUTS) as [X|_]; [unfold CONCAT_OP_MAX_INPUTS in X; lia|].
        set (ax := if (axis =? -1)%Z then (Z.of_nat (length (zshape (t_shape t))) - 1)%Z else axis) in *.
        assert (A : (0 <= ax)%Z /\ Z.to_nat ax = length pr).
        { unfold ax. unfold zshape. rewrite map_length, K3, app_length in *. cbn [length] in *. destruct (Z.eqb_spec axis (-1)); destruct K1 as [K1|K1]; lia. }
        destruct A as [A0 A]. destruct (Z.ltb_spec ax 0); [lia|]. rewrite A, firstn_map, firstn_combine.
        remember CONCAT_OP_MAX_INPUTS as M. rewrite (sum_types pr po _ (firstn M ds)).
        - eauto.
        - rewrite <- !firstn_map, K2, firstn_map; auto.
        - repeat (rewrite firstn_length || rewrite map_length). lia. }
      destruct E as (s & first & rest & E). eapply NP. eapply PSplit; eauto.
  - (* strided slice *)
    destruct (map fst vs) as [|a [|? ?]]; try contradiction. destruct K as (K1 & K2 & K3 & K4).
    destruct (C19_strided_slice_partial Z begin_mask end_mask shrink_mask (t_shape a) begin stop strides (fun _ => 0%Z) K1 K2) as (q & Q & _).
    destruct q as [b s [n|]]; eapply NP; [eapply PStridedShrink|eapply PStrided]; exact Q.
  - (* mean *)
    destruct (map fst vs) as [|a [|? ?]]; try contradiction. destruct K as (K1 & K2 & K3 & _).
    pose proof (C18_mean_reduces_axes Z Z f (t_shape a) axes (fun _ => 0%Z) K1 K2 K3) as C.
    destruct (replace_mean true (zn (t_shape a)) (zn axes)) eqn:R; auto; try contradiction.
    exfalso. eapply NP. eapply PMean. exact R.
  - (* convolution, pooling, activation *)
    destruct vs as [|(a & b) [|v vs]]; cbn [map fst] in K; [destruct c; destruct K| |destruct c; destruct K]. cbn [map fst] in NP.
    destruct (replace_compute (fun _ => 0%Z) c) as [x ts|c1 c2|s1 c' s2 s3|] eqn:R.
    + exfalso. eapply NP. eapply PKernel. exact R.
    + exfalso. eapply NP. eapply PRelu. exact R.
    + exfalso. eapply NP. eapply PConv1x1. exact R.
    + eapply kept_only; eassumption.
Qed.

(** A function with a strided slice (shrinking), a pad, a no-op slice and a concatenation: x : 4x3 int8 with zero point 5;
    x[1, :] ; padded by one on each side; concatenated with itself. *)
Definition ex_fun : func :=
  let q s := Ty s 1 (Some 5%Z) in
  Func [(0, q [4; 3])]
    [Instr 1 (TStridedSlice 2 2 1 [1; 0] [2; 0] [1; 1])%Z [0] (q [3]);
     Instr 2 (TPad [1] [1]) [1] (q [5]);
     Instr 3 (TSlice [0] [5%Z]) [2] (q [5]);
     Instr 4 (TConcat (-1)) [3; 2] (q [10])] [4].
Definition ex_lowered : func :=
  let q s := Ty s 1 (Some 5%Z) in
  Func [(0, q [4; 3])]
    [Instr 7 (XSlice (SliceOp 3 12 3 1 false)%Z) [0] (q [1; 3]);
     Instr 1 TReshape [7] (q [3]);
     Instr 2 (XPad (PadOp 1 0 3 0 84215045 1 false)%Z) [1] (q [5]);
     Instr 4 (XConcat (ConcatOp 1 [5; 5] 2 false)%Z) [2; 2] (q [10])] [4].
Lemma ex_verified : verified ex_fun.
Proof.
  unfold ex_fun, verified. cbn. split; [repeat constructor; auto|]. split; [|intros x [<-|[]]; eexists; reflexivity].
  split; [reflexivity|]. split; [eexists; split; [reflexivity|]|].
  { cbn. unfold regular_axis, same_elem; cbn. repeat split; try reflexivity; try (unfold wrap; cbn; lia); try discriminate. repeat constructor. }
  split; [reflexivity|]. split; [eexists; split; [reflexivity|]|].
  { cbn. split; [repeat constructor|]. split; [repeat constructor; lia|]. split; [split; reflexivity|auto]. }
  split; [reflexivity|]. split; [eexists; split; [reflexivity|]|].
  { cbn. split; [repeat constructor|]. split; [repeat (constructor; [left; reflexivity|]); constructor|split; reflexivity]. }
  split; [reflexivity|]. split; [eexists; split; [reflexivity|]|exact I].
  cbn. exists [], [], [5; 5]. split; [right; reflexivity|]. split; [reflexivity|]. split; [reflexivity|]. repeat constructor.
Qed.
Example C72_concrete : verified ex_fun /\ clos_refl_trans _ lower_step ex_fun ex_lowered /\
  (forall x, length x = 12 -> sized (f_params ex_fun) [x]) /\
  option_map (map snd) (evaluate ex_lowered [[1; 2; 3; 4; 6; 7; 8; 9; 10; 11; 12; 13]%Z]) = Some [[5; 4; 6; 7; 5; 5; 4; 6; 7; 5]%Z].
Proof.
  split; [exact ex_verified|]. split; [|split; [intros x H; constructor; [exact H|constructor]|vm_compute; reflexivity]].
  assert (NM : forall f x, mentioned f x -> In x (map fst (f_params f) ++ flat_map (fun i => i_dst i :: i_args i) (f_body f) ++ f_rets f)).
  { intros f x M. rewrite !in_app_iff. destruct M as [M|[M|M]]; auto. right; left. apply Exists_exists in M. destruct M as (i & Hi & [E|E]); apply in_flat_map; exists i; split; auto; [left|right]; auto. }
  assert (FR : forall f n, forallb (fun x => x <? n) (map fst (f_params f) ++ flat_map (fun i => i_dst i :: i_args i) (f_body f) ++ f_rets f) = true -> forall k, ~ mentioned f (n + k)).
  { intros f n H k M. apply NM in M. rewrite forallb_forall in H. specialize (H _ M). apply Nat.ltb_lt in H. lia. }
  set (q := fun s => Ty s 1 (Some 5%Z)). set (ps := [(0, q [4; 3])]).
  set (i2 := Instr 2 (TPad [1] [1]) [1] (q [5])). set (i3 := Instr 3 (TSlice [0] [5%Z]) [2] (q [5])). set (i4 := Instr 4 (TConcat (-1)) [3; 2] (q [10])).
  set (j1 := Instr 7 (XSlice (SliceOp 3 12 3 1 false)%Z) [0] (q [1; 3])). set (j2 := Instr 1 TReshape [7] (q [3])).
  set (j3 := Instr 2 (XPad (PadOp 1 0 3 0 84215045 1 false)%Z) [1] (q [5])).
  set (s1 := Instr 7 (TSlice [1; 0] [1; 3]%Z) [0] (q [1; 3])).
  apply rt_trans with (Func ps [s1; j2; i2; i3; i4] [4]).
  { apply rt_step. apply (Replace ps [] (Instr 1 (TStridedSlice 2 2 1 [1; 0] [2; 0] [1; 1])%Z [0] (q [3])) [i2; i3; i4] [4] [q [4; 3]] (Nat.add 7) [s1; j2]);
      [reflexivity| |intros; lia|apply FR; reflexivity]. apply (PStridedShrink (Nat.add 7) (q [4; 3]) 1 2%Z 2%Z 1%Z [1; 0]%Z [2; 0]%Z [1; 1]%Z [0] (q [3]) [1; 0]%Z [1; 3]%Z [3]%Z). reflexivity. }
  apply rt_trans with (Func ps [j1; j2; i2; i3; i4] [4]).
  { apply rt_step. apply (Replace ps [] s1 [j2; i2; i3; i4] [4] [q [4; 3]] (Nat.add 8) [j1]);
      [reflexivity| |intros; lia|apply FR; reflexivity]. apply (PSlice (Nat.add 8) false). reflexivity. }
  apply rt_trans with (Func ps [j1; j2; j3; i3; i4] [4]).
  { apply rt_step. apply (Replace ps [j1; j2] i2 [i3; i4] [4] [q [3]] (Nat.add 8) [j3]);
      [reflexivity| |intros; lia|apply FR; reflexivity]. apply (PPad (Nat.add 8) false). reflexivity. }
  apply rt_trans with (Func ps [j1; j2; j3; Instr 4 (TConcat (-1)) [2; 2] (q [10])] [4]).
  { apply rt_step. apply (ForwardTo ps [j1; j2; j3] i3 [i4] [4] [q [5]] 2); [reflexivity| |reflexivity]. apply (FSlice false). reflexivity. }
  apply rt_step. apply (Replace ps [j1; j2; j3] (Instr 4 (TConcat (-1)) [2; 2] (q [10])) [] [4] [q [5]; q [5]] (Nat.add 8) [Instr 4 (XConcat (ConcatOp 1 [5; 5] 2 false)%Z) [2; 2] (q [10])]);
    [reflexivity| |intros; lia|apply FR; reflexivity]. apply PConcat. reflexivity.
Qed.

Print Assumptions C72_lowering_preserves.
Print Assumptions C72_lowering_terminates.
Print Assumptions C72_normal_form.
