(** Lemmas about build(): ids, sizes and lifetimes recorded for every value. *)
From Verif Require Import Base MemPlanModel MemPlanSpec MemPlanGreedy.
Local Open Scope Z_scope.

Lemma align8_spec s : round_up8 s (align8 s).
Proof.
  unfold round_up8, align8. split.
  - pose proof (Z.div_mod (s + 7) 8 ltac:(lia)). pose proof (Z.mod_pos_bound (s + 7) 8 ltac:(lia)). lia.
  - apply Z.divide_factor_r.
Qed.

(* ---- values vs. the specification's list of tensors ---- *)
Lemma res_defs_names c rs :
  map vd_name (res_defs c rs) =
  flat_map (fun r => match snd r with Some _ => [fst r] | None => [] end) rs.
Proof. induction rs as [|[n [s|]] rs IH]; simpl; congruence. Qed.

Lemma ops_defs_names os :
  (forall o, In o os -> o_kind o <> KStats) ->
  map vd_name (ops_defs os) = flat_map tensor_res os.
Proof.
  induction os as [|o os IH]; intros H; auto.
  assert (Hk : o_kind o <> KStats) by (apply H; left; auto).
  assert (IH' := IH (fun o' Ho => H o' (or_intror Ho))).
  cbn [ops_defs flat_map]. destruct (o_kind o) eqn:E; try congruence;
    rewrite map_app, res_defs_names, IH'; reflexivity.
Qed.

Lemma wf_in_ops g o : In o (g_ops g) -> exists p, op_at g p o.
Proof. intros H. apply In_nth_error in H. exact H. Qed.

Lemma values_names g : wf_graph g -> map vd_name (values g) = tensors g.
Proof.
  intros W. unfold values, tensors. rewrite map_app, map_map. f_equal.
  apply ops_defs_names. intros o Ho. destruct (wf_in_ops g o Ho) as [p Hp].
  eapply wf_no_stats; eauto.
Qed.

Lemma in_res_defs c rs d :
  In d (res_defs c rs) <-> vd_const d = c /\ In (vd_name d, Some (vd_usize d)) rs.
Proof.
  induction rs as [|[n [s|]] rs IH]; simpl.
  - tauto.
  - rewrite IH. split.
    + intros [<-|[H1 H2]]; simpl; auto.
    + intros [H1 [H2|H2]]; auto. left. destruct d; simpl in *. congruence.
  - rewrite IH. split.
    + intros [H1 H2]; auto.
    + intros [H1 [H2|H2]]; auto. discriminate.
Qed.

Lemma in_ops_defs os d :
  In d (ops_defs os) <->
  exists o, In o os /\ o_kind o <> KStats /\ vd_const d = is_constant_op (o_kind o) /\
            In (vd_name d, Some (vd_usize d)) (o_res o).
Proof.
  induction os as [|o os IH]; cbn [ops_defs].
  - split; [intros []|intros (o & [] & _)].
  - assert (E : (match o_kind o with KStats => ops_defs os
       | k => res_defs (is_constant_op k) (o_res o) ++ ops_defs os end) =
       if match o_kind o with KStats => true | _ => false end then ops_defs os
       else res_defs (is_constant_op (o_kind o)) (o_res o) ++ ops_defs os)
      by (destruct (o_kind o); reflexivity).
    rewrite E; clear E.
    destruct (match o_kind o with KStats => true | _ => false end) eqn:Hk.
    + rewrite IH. split.
      * intros (o' & H & R). exists o'. split; [right; auto|auto].
      * intros (o' & [->|H] & R).
        -- destruct R as (R & _). destruct (o_kind o'); congruence.
        -- exists o'; auto.
    + rewrite in_app_iff, in_res_defs, IH. split.
      * intros [(H1 & H2)|(o' & H & R)].
        -- exists o. split; [left; auto|]. split; [|auto]. destruct (o_kind o); congruence.
        -- exists o'. split; [right; auto|auto].
      * intros (o' & [->|H] & R); [left; tauto|right; exists o'; auto].
Qed.

Lemma in_values_arena g v s :
  wf_graph g ->
  (arena_tensor g v s <-> In (VD v s false) (values g)).
Proof.
  intros W. unfold values, arena_tensor. rewrite in_app_iff, in_map_iff, in_ops_defs. split.
  - intros [H|(p & o & Hp & (K1 & K2 & K3) & Hr)].
    + left. exists (v, s); auto.
    + right. exists o. split; [eapply nth_error_In; eauto|]. split; [auto|]. split; [|auto].
      destruct (o_kind o); cbn; congruence.
  - intros [([v' s'] & E & H)|(o & Ho & K & C & Hr)].
    + inv E. auto.
    + right. destruct (wf_in_ops g o Ho) as [p Hp]. exists p, o. split; [auto|]. split; [|auto].
      cbn in C. unfold computing. destruct (o_kind o); cbn in C; try discriminate; repeat split; congruence.
Qed.

Lemma in_values_const g v :
  wf_graph g -> (constant_tensor g v <-> exists s, In (VD v s true) (values g)).
Proof.
  intros W. unfold values, constant_tensor. split.
  - intros (p & o & s & Hp & K & Hr). exists s. apply in_or_app. right. apply in_ops_defs.
    exists o. split; [eapply nth_error_In; eauto|]. cbn.
    destruct K as [->| ->]; cbn; repeat split; auto; congruence.
  - intros (s & H). apply in_app_or in H. destruct H as [H|H].
    + apply in_map_iff in H. destruct H as (? & H & _). inv H.
    + apply in_ops_defs in H. destruct H as (o & Ho & K & C & Hr). cbn in C.
      destruct (wf_in_ops g o Ho) as [p Hp]. exists p, o, s. split; [auto|]. split; [|auto].
      destruct (o_kind o); cbn in C; try discriminate; auto.
Qed.

Lemma nodup_flat_sub {A B} (f h : A -> list B) :
  (forall a, NoDup (f a) -> NoDup (h a)) -> (forall a x, In x (h a) -> In x (f a)) ->
  forall l, NoDup (flat_map f l) -> NoDup (flat_map h l).
Proof.
  intros H1 H2. induction l as [|a l IH]; simpl; intros N; auto.
  apply nodup_app_inv in N. destruct N as (N1 & N2 & N3).
  apply nodup_app; auto.
  intros x Hx Hy. apply (N3 x); auto.
  apply in_flat_map in Hy. destruct Hy as (b & Hb & Hy). apply in_flat_map. exists b; auto.
Qed.

Lemma tensor_res_in o x : In x (tensor_res o) -> In x (res_names o).
Proof.
  unfold tensor_res, res_names. intros H. apply in_flat_map in H. destruct H as ([n s] & Hr & Hx).
  apply in_map_iff. exists (n, s). split; auto. cbn in *. destruct s; [|destruct Hx].
  destruct Hx as [->|[]]; reflexivity.
Qed.

Lemma tensor_res_nodup o : NoDup (res_names o) -> NoDup (tensor_res o).
Proof.
  unfold tensor_res, res_names. induction (o_res o) as [|[n s] rs IH]; simpl; intros N; auto.
  inv N. apply nodup_app; auto.
  - destruct s; repeat constructor; auto.
  - intros x Hx Hy. destruct s; [|destruct Hx]. destruct Hx as [->|[]]. apply H1.
    apply in_flat_map in Hy. destruct Hy as ([n' s'] & Hr & Hx). apply in_map_iff.
    exists (n', s'). split; auto. cbn in *. destruct s'; [|destruct Hx]. destruct Hx as [->|[]]; auto.
Qed.

Lemma tensors_nodup g : wf_graph g -> NoDup (tensors g).
Proof.
  intros W. pose proof (wf_nodup g W) as N. unfold all_names in N. unfold tensors.
  apply nodup_app_inv in N. destruct N as (N1 & N2 & N3). apply nodup_app; auto.
  - eapply nodup_flat_sub; [| |exact N2]; [apply tensor_res_nodup|apply tensor_res_in].
  - intros x Hx Hy. apply (N3 x Hx). apply in_flat_map in Hy. destruct Hy as (o & Ho & Hy).
    apply in_flat_map. exists o. split; auto. apply tensor_res_in; auto.
Qed.

(* ---- build_info ---- *)
Lemma build_info_nth os vs : forall id i d,
  NoDup (map vd_name vs) -> nth_error vs i = Some d ->
  build_info os vs id (vd_name d) =
  VI (id + i) (align8 (vd_usize d)) (vd_const d)
     (op_id os (start_pos os (vd_name d))) (op_id os (end_pos os (vd_name d))).
Proof.
  induction vs as [|e vs IH]; intros id i d N H; [destruct i; discriminate|].
  cbn [map] in N. inv N. destruct i as [|i]; cbn in H.
  - inv H. cbn. rewrite Nat.eqb_refl. f_equal. lia.
  - cbn [build_info]. destruct (Nat.eqb_spec (vd_name d) (vd_name e)) as [E|E].
    + exfalso. apply H2. rewrite <- E. apply in_map. eapply nth_error_In; eauto.
    + rewrite (IH (S id) i d); auto. f_equal. lia.
Qed.

Lemma build_nth g i d :
  wf_graph g -> nth_error (values g) i = Some d ->
  build g (vd_name d) =
  VI i (align8 (vd_usize d)) (vd_const d)
     (op_id (g_ops g) (start_pos (g_ops g) (vd_name d)))
     (op_id (g_ops g) (end_pos (g_ops g) (vd_name d))).
Proof.
  intros W H. unfold build. rewrite (build_info_nth _ _ 0 i d); auto.
  rewrite values_names; auto. apply tensors_nodup; auto.
Qed.

Lemma usize_of_in vs d :
  NoDup (map vd_name vs) -> In d vs -> usize_of vs (vd_name d) = vd_usize d.
Proof.
  induction vs as [|e vs IH]; intros N H; [destruct H|]. cbn [map] in N. inv N.
  cbn. destruct H as [->|H].
  - rewrite Nat.eqb_refl; auto.
  - destruct (Nat.eqb_spec (vd_name d) (vd_name e)) as [E|E]; auto.
    exfalso. apply H2. rewrite <- E. apply in_map; auto.
Qed.

Lemma values_size_nonneg g d : wf_graph g -> In d (values g) -> 0 <= vd_usize d.
Proof.
  intros W H. unfold values in H. apply in_app_or in H. destruct H as [H|H].
  - apply in_map_iff in H. destruct H as ([v s] & <- & H). cbn. eapply wf_arg_sizes; eauto.
  - apply in_ops_defs in H. destruct H as (o & Ho & _ & _ & Hr).
    destruct (wf_in_ops g o Ho) as [p Hp]. eapply wf_res_sizes; eauto.
Qed.

Lemma build_size_nonneg g v : wf_graph g -> In v (tensors g) -> 0 <= vi_size (build g v).
Proof.
  intros W H. rewrite <- values_names in H by auto. apply in_map_iff in H.
  destruct H as (d & <- & Hd). pose proof (values_size_nonneg g d W Hd).
  apply In_nth_error in Hd. destruct Hd as [i Hi]. rewrite (build_nth g i d W Hi). cbn.
  pose proof (align8_spec (vd_usize d)) as [H0 _]. lia.
Qed.

(* ---- positions ---- *)
Lemma find_pos_some {A} (f : A -> bool) l : forall p q,
  find_pos f l p = Some q ->
  exists x, (p <= q)%nat /\ nth_error l (q - p) = Some x /\ f x = true /\
            forall r y, (p <= r < q)%nat -> nth_error l (r - p) = Some y -> f y = false.
Proof.
  induction l as [|x l IH]; intros p q H; cbn in H; [discriminate|].
  destruct (f x) eqn:E.
  - inv H. exists x. rewrite Nat.sub_diag. repeat split; auto. intros r y Hr. lia.
  - destruct (IH _ _ H) as (y & Hle & Hn & Hf & Hb). exists y.
    replace (q - p)%nat with (S (q - S p)) by lia. repeat split; auto; try lia.
    intros r z Hr Hz. destruct (Nat.eq_dec r p) as [->|Hne].
    + rewrite Nat.sub_diag in Hz. cbn in Hz. congruence.
    + apply (Hb r z); [lia|]. replace (r - p)%nat with (S (r - S p)) in Hz by lia. exact Hz.
Qed.

Lemma find_pos_none {A} (f : A -> bool) l : forall p,
  find_pos f l p = None -> forall x, In x l -> f x = false.
Proof.
  induction l as [|x l IH]; intros p H y Hy; [destruct Hy|]. cbn in H.
  destruct (f x) eqn:E; [discriminate|]. destruct Hy as [->|Hy]; eauto.
Qed.

Lemma defines_spec o v : defines o v = true <-> In v (res_names o).
Proof.
  unfold defines, res_names. rewrite existsb_exists, in_map_iff. split.
  - intros (r & Hr & E). apply Nat.eqb_eq in E. eauto.
  - intros (r & E & Hr). exists r. split; auto. apply Nat.eqb_eq; auto.
Qed.

Lemma uses_spec o v : uses o v = true <-> In v (o_args o).
Proof.
  unfold uses. rewrite existsb_exists. split.
  - intros (r & Hr & E). apply Nat.eqb_eq in E. subst; auto.
  - intros H. exists v. split; auto. apply Nat.eqb_refl.
Qed.

Lemma nodup_flat_map_pos {A B} (f : A -> list B) l : forall p q a b x,
  NoDup (flat_map f l) ->
  nth_error l p = Some a -> nth_error l q = Some b -> In x (f a) -> In x (f b) -> p = q.
Proof.
  induction l as [|c l IH]; intros p q a b x N Hp Hq Ha Hb; [destruct p; discriminate|].
  cbn in N. apply nodup_app_inv in N. destruct N as (N1 & N2 & N3).
  destruct p as [|p], q as [|q]; cbn in Hp, Hq; auto.
  - inv Hp. exfalso. apply (N3 x Ha). apply in_flat_map. exists b. split; auto. eapply nth_error_In; eauto.
  - inv Hq. exfalso. apply (N3 x Hb). apply in_flat_map. exists a. split; auto. eapply nth_error_In; eauto.
  - f_equal. eapply IH; eauto.
Qed.

Lemma produced_unique g v p q :
  wf_graph g -> produced_at g v p -> produced_at g v q -> p = q.
Proof.
  intros W (o & Ho & Hv) (o' & Ho' & Hv'). pose proof (wf_nodup g W) as N.
  apply nodup_app_inv in N. destruct N as (_ & N & _).
  eapply nodup_flat_map_pos; eauto.
Qed.

Lemma arg_not_produced g v p : wf_graph g -> In v (arg_names g) -> ~ produced_at g v p.
Proof.
  intros W Ha (o & Ho & Hv). pose proof (wf_nodup g W) as N.
  apply nodup_app_inv in N. destruct N as (_ & _ & N). apply (N v Ha).
  apply in_flat_map. exists o. split; auto. eapply nth_error_In; eauto.
Qed.

Lemma start_pos_produced g v p :
  wf_graph g -> produced_at g v p -> start_pos (g_ops g) v = p.
Proof.
  intros W HP. unfold start_pos. destruct (find_pos _ _ _) as [q|] eqn:E.
  - apply find_pos_some in E. destruct E as (o & _ & Hn & Hd & _).
    apply (produced_unique g v q p W); auto. exists o. rewrite Nat.sub_0_r in Hn.
    split; auto. apply defines_spec; auto.
  - destruct HP as (o & Ho & Hv). exfalso. pose proof (find_pos_none _ _ _ E o) as H.
    cbv beta in H. rewrite (proj2 (defines_spec o v) Hv) in H.
    discriminate H. eapply nth_error_In; eauto.
Qed.

Lemma start_pos_arg g v :
  wf_graph g -> In v (arg_names g) -> start_pos (g_ops g) v = 0%nat.
Proof.
  intros W Ha. unfold start_pos. destruct (find_pos _ _ _) as [q|] eqn:E; auto.
  apply find_pos_some in E. destruct E as (o & _ & Hn & Hd & _). rewrite Nat.sub_0_r in Hn.
  exfalso. apply (arg_not_produced g v q W Ha). exists o. split; auto. apply defines_spec; auto.
Qed.

Lemma last_use_spec os v : forall p acc,
  (acc <= last_use os v p acc)%nat /\
  (forall i o, nth_error os i = Some o -> uses o v = true -> (p + i <= last_use os v p acc)%nat) /\
  (last_use os v p acc = acc \/
   exists i o, last_use os v p acc = (p + i)%nat /\ nth_error os i = Some o /\ uses o v = true).
Proof.
  induction os as [|o os IH]; intros p acc; cbn [last_use].
  - repeat split; auto. intros [|i] o H; discriminate.
  - destruct (IH (S p) (if uses o v then Nat.max acc p else acc)) as (I1 & I2 & I3).
    repeat split.
    + destruct (uses o v); lia.
    + intros [|i] o' Hn Hu; cbn in Hn.
      * inv Hn. rewrite Hu in *. lia.
      * specialize (I2 i o' Hn Hu). lia.
    + destruct I3 as [I3|(i & o' & I3 & Hn & Hu)].
      * rewrite I3. destruct (uses o v) eqn:E; auto.
        destruct (Nat.max_spec acc p) as [[Hl ->]|[Hl ->]]; auto.
        right. exists 0%nat, o. repeat split; auto; lia.
      * right. exists (S i), o'. repeat split; auto. lia.
Qed.

Lemma end_pos_ge_start os v : (start_pos os v <= end_pos os v)%nat.
Proof. apply last_use_spec. Qed.

Lemma end_pos_ge_use g v p : used_at g v p -> (p <= end_pos (g_ops g) v)%nat.
Proof.
  intros (o & Ho & Hv). unfold end_pos.
  destruct (last_use_spec (g_ops g) v 0 (start_pos (g_ops g) v)) as (_ & H & _).
  specialize (H p o Ho (proj2 (uses_spec o v) Hv)). lia.
Qed.

Lemma end_pos_cases g v :
  end_pos (g_ops g) v = start_pos (g_ops g) v \/ used_at g v (end_pos (g_ops g) v).
Proof.
  unfold end_pos.
  destruct (last_use_spec (g_ops g) v 0 (start_pos (g_ops g) v)) as (_ & _ & [H|(i & o & H & Hn & Hu)]); auto.
  right. rewrite H. exists o. split; auto. apply uses_spec; auto.
Qed.

(* ---- operation ids ---- *)
Lemma firstn_le_app {A} (l : list A) p q : (p <= q)%nat -> exists r, firstn q l = firstn p l ++ r.
Proof.
  intros H. exists (skipn p (firstn q l)).
  rewrite <- (firstn_skipn p (firstn q l)) at 1. rewrite firstn_firstn.
  replace (Init.Nat.min p q) with p by lia. reflexivity.
Qed.

Lemma count_ids_mono os p q : (p <= q)%nat -> count_ids (firstn p os) <= count_ids (firstn q os).
Proof.
  intros H. destruct (firstn_le_app os p q H) as [r ->]. unfold count_ids.
  rewrite filter_app, app_length. lia.
Qed.

Lemma op_id_le os p : op_id os p <= count_ids (firstn p os).
Proof.
  unfold op_id. destruct (nth_error os p); [|unfold count_ids; lia].
  destruct (has_op_id _); unfold count_ids; lia.
Qed.

Lemma op_id_nonneg os p : 0 <= op_id os p.
Proof.
  unfold op_id. destruct (nth_error os p); [|lia].
  destruct (has_op_id _); unfold count_ids; lia.
Qed.

Lemma op_id_exec g p : executes g p -> op_id (g_ops g) p = count_ids (firstn p (g_ops g)).
Proof.
  intros (o & Ho & K1 & K2). unfold op_id. rewrite Ho.
  destruct (o_kind o); cbn; congruence.
Qed.

Lemma op_id_mono g p q : executes g q -> (p <= q)%nat -> op_id (g_ops g) p <= op_id (g_ops g) q.
Proof.
  intros E H. rewrite (op_id_exec g q E). pose proof (op_id_le (g_ops g) p).
  pose proof (count_ids_mono (g_ops g) p q H). lia.
Qed.

Lemma count_ids_firstn_S os p o :
  nth_error os p = Some o -> has_op_id (o_kind o) = true ->
  count_ids (firstn (S p) os) = count_ids (firstn p os) + 1.
Proof.
  revert p; induction os as [|x os IH]; intros [|p] H K; try discriminate; cbn in H.
  - inv H. unfold count_ids. cbn. rewrite K. cbn. reflexivity.
  - specialize (IH p H K). unfold count_ids in *. cbn [firstn filter] in *.
    destruct (has_op_id (o_kind x)); cbn [length]; lia.
Qed.

(** strict monotonicity *)
Lemma op_id_lt g p q : executes g p -> executes g q -> (p < q)%nat ->
  op_id (g_ops g) p < op_id (g_ops g) q.
Proof.
  intros Ep Eq H. rewrite (op_id_exec g p Ep), (op_id_exec g q Eq).
  pose proof (count_ids_mono (g_ops g) (S p) q H).
  destruct Ep as (o & Ho & K1 & K2). rewrite (count_ids_firstn_S _ p o) in H0; auto; [lia|].
  destruct (o_kind o); cbn; congruence.
Qed.

Lemma used_executes g v p : wf_graph g -> used_at g v p -> executes g p.
Proof.
  intros W (o & Ho & Hv). exists o. repeat split; auto.
  - intros K. rewrite (wf_const_args g W p o Ho K) in Hv. destruct Hv.
  - eapply wf_no_stats; eauto.
Qed.

(* ---- lifetimes ---- *)
Definition vfirst (g : graph) (v : vname) : Z := op_id (g_ops g) (start_pos (g_ops g) v).
Definition vlast (g : graph) (v : vname) : Z := op_id (g_ops g) (end_pos (g_ops g) v).

Lemma live_first g v p :
  wf_graph g -> executes g p -> live_at g v p -> vfirst g v <= op_id (g_ops g) p.
Proof.
  intros W E [[Ha|(q & Hq & HP)] _]; unfold vfirst.
  - rewrite start_pos_arg by auto. apply op_id_mono; auto; lia.
  - rewrite (start_pos_produced g v q) by auto. apply op_id_mono; auto.
Qed.

Lemma use_after_start g v q :
  wf_graph g -> used_at g v q ->
  (In v (arg_names g) /\ start_pos (g_ops g) v = 0%nat) \/ (start_pos (g_ops g) v < q)%nat.
Proof.
  intros W U. destruct (wf_dominance g W q v U) as [Ha|(r & Hr & HP)].
  - left. split; auto. apply start_pos_arg; auto.
  - right. rewrite (start_pos_produced g v r); auto.
Qed.

Lemma end_pos_used g v q :
  wf_graph g -> used_at g v q -> used_at g v (end_pos (g_ops g) v).
Proof.
  intros W U. destruct (end_pos_cases g v) as [E|E]; auto.
  pose proof (end_pos_ge_use g v q U). destruct (use_after_start g v q W U) as [[_ S]|S]; [|lia].
  replace (end_pos (g_ops g) v) with q by lia. auto.
Qed.

Lemma live_last g v p :
  wf_graph g -> executes g p -> live_at g v p -> op_id (g_ops g) p <= vlast g v.
Proof.
  intros W E [_ L]; unfold vlast.
  destruct L as [HP|(q & Hq & U)].
  - pose proof (start_pos_produced g v p W HP) as S.
    destruct (end_pos_cases g v) as [C|C].
    + rewrite C, S. lia.
    + apply op_id_mono; [eapply used_executes; eauto|]. pose proof (end_pos_ge_start (g_ops g) v). lia.
  - pose proof (end_pos_used g v q W U) as U'. pose proof (end_pos_ge_use g v q U).
    apply op_id_mono; [eapply used_executes; eauto|lia].
Qed.

Lemma live_together_interf g v w :
  wf_graph g -> live_together g v w ->
  vfirst g v <= vlast g w /\ vfirst g w <= vlast g v.
Proof.
  intros W [(p & E & L1 & L2)|[A1 A2]].
  - pose proof (live_first g v p W E L1). pose proof (live_first g w p W E L2).
    pose proof (live_last g v p W E L1). pose proof (live_last g w p W E L2). lia.
  - unfold vfirst. rewrite !start_pos_arg by auto.
    assert (Z0 : op_id (g_ops g) 0 <= 0).
    { pose proof (op_id_le (g_ops g) 0). cbn in H. exact H. }
    unfold vlast. pose proof (op_id_nonneg (g_ops g) (end_pos (g_ops g) v)).
    pose proof (op_id_nonneg (g_ops g) (end_pos (g_ops g) w)). lia.
Qed.
