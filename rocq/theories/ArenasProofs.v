(** Networks in one memory: proofs.  An invocation touches its own arena only, reads nothing but its inputs, and leaves its outputs. *)
From Verif Require Import Base MemPlanModel MemPlanSpec MemExecSpec MemPlanBuild MemExecProofs MemPlanMain MemPlanProps ExampleProofs ArenasModel ArenasSpec.
From Coq Require Import Permutation.
Local Open Scope Z_scope.

Lemma tensor_res_in o v : In v (tensor_res o) -> exists s, In (v, Some s) (o_res o).
Proof.
  unfold tensor_res. rewrite in_flat_map. intros ([w [s|]] & Hr & Hv); cbn in Hv; [|tauto].
  destruct Hv as [<-|[]]. eauto.
Qed.

Lemma locs_offset' g offs v z s : plan_locs g offs v = Some (z, s) -> offset_of g offs v z /\ s = assoc_size (size_table g) v /\ z <> -1.
Proof.
  unfold plan_locs, offset_of. destruct (assoc_offset (combine (tensors g) offs) v) as [y|] eqn:E; [|discriminate].
  intros H. destruct (Z.eqb_spec y (-1)); [discriminate|]. injection H as -> <-. split; [|auto].
  revert offs E. generalize (tensors g). intros l. induction l as [|w l IH]; intros [|o offs] E; cbn in E; try discriminate.
  destruct (Nat.eqb_spec v w) as [->|].
  - injection E as ->. exists 0%nat. auto.
  - destruct (IH offs E) as (i & Hi). exists (S i). exact Hi.
Qed.

Lemma offset_locs g offs v s z : wf_graph g -> complete_plan g offs -> arena_tensor g v s -> offset_of g offs v z ->
  NoDup (tensors g) -> plan_locs g offs v = Some (z, s).
Proof.
  intros W C A (i & H1 & H2) ND. pose proof C as (_ & _ & _ & C4). destruct (C4 v s z A (ex_intro _ i (conj H1 H2))) as [Hz _].
  unfold plan_locs. assert (E : assoc_offset (combine (tensors g) offs) v = Some z).
  { revert H1 H2 ND. clear. revert i offs. generalize (tensors g). intros l. induction l as [|w l IH]; intros [|i] [|o offs] H1 H2 ND; cbn in *; try discriminate.
    - injection H1 as ->. injection H2 as ->. rewrite Nat.eqb_refl. auto.
    - inv ND. destruct (Nat.eqb_spec v w) as [->|]; [|eauto]. exfalso. apply nth_error_In in H1. tauto. }
  rewrite E. destruct (Z.eqb_spec z (-1)); [lia|]. rewrite (size_table_arena g W v s A). auto.
Qed.

Lemma nodup_split {A} (l r : list A) : NoDup (l ++ r) -> NoDup l /\ NoDup r /\ forall x, In x l -> ~ In x r.
Proof.
  induction l as [|a l IH]; cbn; intros N; [repeat split; auto; constructor|].
  inv N. destruct (IH H2) as (N1 & N2 & N3). repeat split; auto.
  - constructor; auto. intros K. apply H1. apply in_or_app; auto.
  - intros x [->|Hx] Hr; [apply H1; apply in_or_app; auto|eapply N3; eauto].
Qed.

Lemma tensors_nodup g : wf_graph g -> NoDup (tensors g).
Proof.
  intros W. pose proof (wf_nodup g W) as N. unfold all_names, tensors in *. apply nodup_split in N. destruct N as (N1 & N2 & N3).
  assert (Sub : forall l v, In v (flat_map tensor_res l) -> In v (flat_map res_names l)).
  { intros l v. rewrite !in_flat_map. intros (o & Ho & Hv). exists o. split; auto.
    destruct (tensor_res_in _ _ Hv) as [s Hs]. apply in_map_iff. exists (v, Some s). auto. }
  assert (One : forall o, NoDup (res_names o) -> NoDup (tensor_res o)).
  { intros o. unfold res_names, tensor_res. induction (o_res o) as [|[v [s|]] l IH]; cbn; intros ND; [constructor| |]; inv ND.
    - constructor; auto. intros K. apply H1. rewrite in_flat_map in K. destruct K as ([w [t|]] & Hw & Kv); cbn in Kv; [|tauto].
      destruct Kv as [<-|[]]. apply in_map_iff. exists (w, Some t). auto.
    - auto. }
  assert (G : forall l, NoDup (flat_map res_names l) -> NoDup (flat_map tensor_res l)).
  { induction l as [|o l IH]; cbn; intros ND; [constructor|]. apply nodup_split in ND. destruct ND as (M1 & M2 & M3).
    specialize (IH M2). specialize (One o M1). revert One M3. generalize (tensor_res_in o). generalize (tensor_res o). intros t.
    induction t as [|x t IHt]; cbn; intros T ND M3; auto. inv ND. constructor.
    - intros K. apply in_app_or in K. destruct K as [K|K]; [tauto|].
      destruct (T x (or_introl eq_refl)) as [s Hs]. apply (M3 x).
      + apply in_map_iff. exists (x, Some s). auto.
      + apply Sub; auto.
    - apply IHt; auto. }
  specialize (G _ N2). revert N1 N3. generalize (arg_names g). intros l.
  induction l as [|a l IH]; cbn; intros N1 N3; auto. inv N1. constructor.
  - intros K. apply in_app_or in K. destruct K as [K|K]; [tauto|]. apply (N3 a); auto.
  - apply IH; auto.
Qed.

Lemma locs_tensor g offs v z s : wf_graph g -> complete_plan g offs -> plan_locs g offs v = Some (z, s) ->
  arena_tensor g v s /\ offset_of g offs v z.
Proof.
  intros W (_ & C2 & _ & _) H. destruct (locs_offset' _ _ _ _ _ H) as (Ho & -> & Nz). split; auto.
  assert (T : In v (tensors g)) by (destruct Ho as (i & Hi & _); eapply nth_error_In; eauto).
  assert (exists s, arena_tensor g v s) as [s A].
  { unfold tensors in T. apply in_app_or in T. destruct T as [T|T].
    - apply in_map_iff in T. destruct T as ([w s] & <- & T). exists s. left. auto.
    - apply in_flat_map in T. destruct T as (o & Hop & T). destruct (tensor_res_in _ _ T) as [s Hs].
      apply In_nth_error in Hop. destruct Hop as [p Hp].
      assert (D : o_kind o = KConst \/ o_kind o = KTerm \/ computing (o_kind o)).
      { unfold computing. pose proof (wf_no_stats g W p o Hp). destruct (o_kind o); auto; try tauto; right; right; repeat split; congruence. }
      destruct D as [D|[D|D]].
      + exfalso. apply Nz. apply (C2 v); auto. exists p, o, s. auto.
      + exfalso. apply Nz. apply (C2 v); auto. exists p, o, s. auto.
      + exists s. right. exists p, o. auto. }
  rewrite (size_table_arena g W v s A). auto.
Qed.

Lemma locs_type g offs v z s r p o : wf_graph g -> complete_plan g offs -> plan_locs g offs v = Some (z, s) ->
  op_at g p o -> In (v, r) (o_res o) -> match r with Some t => t | None => 0 end = s.
Proof.
  intros W C H Ho Hr. destruct (locs_offset' _ _ _ _ _ H) as (_ & -> & _).
  rewrite (assoc_size_spec (size_table g) v r); auto; [apply size_table_nodup; auto|].
  unfold size_table. apply in_or_app. right. apply in_flat_map. exists o. split; auto. eapply nth_error_In; eauto.
Qed.
Lemma locs_type_arg g offs v z s t : wf_graph g -> complete_plan g offs -> plan_locs g offs v = Some (z, s) ->
  In (v, t) (g_args g) -> t = s.
Proof.
  intros W C H Hr. destruct (locs_offset' _ _ _ _ _ H) as (_ & -> & _).
  rewrite (assoc_size_spec (size_table g) v (Some t)); auto; [apply size_table_nodup; auto|].
  unfold size_table, arg_rs. apply in_or_app. left. apply in_map_iff. exists (v, t). auto.
Qed.

(* ------------------------------------------------------------------ *)
(** ** Writes stay inside the arena *)
Definition size_of (r : vname * option Z) : Z := match snd r with Some s => s | None => 0 end.
Definition inside (loc : locs) (lo hi : Z) : Prop := forall v z s, loc v = Some (z, s) -> lo <= z /\ z + s <= hi.

Lemma store_frame loc lo hi rs : inside loc lo hi -> forall bs a x,
  Forall2 (fun b r => Z.of_nat (length b) = size_of r) bs rs ->
  (forall v r z s, In (v, r) rs -> loc v = Some (z, s) -> size_of (v, r) = s) ->
  ~ (lo <= x < hi) -> a_mem (store_all loc a rs bs) x = a_mem a x.
Proof.
  intros B. induction rs as [|[v r] rs IH]; intros bs a x F T Hx; inv F; cbn [store_all]; auto.
  rewrite IH; auto; [|intros; eapply T; eauto; right; eauto].
  destruct (loc v) as [[z s]|] eqn:E; cbn [a_mem]; auto. destruct (B v z s E) as [B1 B2].
  pose proof (T v r z s (or_introl eq_refl) E) as Es. unfold write.
  destruct ((z <=? x) && (x <? z + Z.of_nat (length x0))) eqn:D; auto. exfalso. lia.
Qed.

Lemma leave_frame g sem loc lo hi : inside loc lo hi -> sem_sized g sem ->
  (forall p o v r z s, op_at g p o -> In (v, r) (o_res o) -> loc v = Some (z, s) -> size_of (v, r) = s) ->
  forall os pre a x, g_ops g = pre ++ os -> ~ (lo <= x < hi) ->
    a_mem (leave sem loc os (length pre) a) x = a_mem a x.
Proof.
  intros B HS T. induction os as [|o os IH]; intros pre a x E Hx; cbn [leave]; auto.
  assert (Ho : op_at g (length pre) o).
  { unfold op_at. rewrite E, nth_error_app2, Nat.sub_diag by lia. auto. }
  replace (S (length pre)) with (length (pre ++ [o])) by (rewrite app_length; cbn; lia).
  rewrite IH; auto; [|rewrite <- app_assoc; auto].
  eapply store_frame; eauto.
Qed.

(** What a store leaves at an address is either what was there, or does not depend on it. *)
Lemma store_point loc x rs : forall bs,
  (forall a, a_mem (store_all loc a rs bs) x = a_mem a x) \/
  (exists c, forall a, a_mem (store_all loc a rs bs) x = c).
Proof.
  induction rs as [|[v r] rs IH]; intros bs; cbn [store_all]; auto. destruct bs as [|b bs]; auto.
  destruct (IH bs) as [K|[c K]].
  - destruct (loc v) as [[z s]|].
    + destruct ((z <=? x) && (x <? z + Z.of_nat (length b))) eqn:D.
      * right. exists (nth (Z.to_nat (x - z)) b 0). intros a. rewrite K. cbn [a_mem]. unfold write. rewrite D. auto.
      * left. intros a. rewrite K. cbn [a_mem]. unfold write. rewrite D. auto.
    + left. intros a. rewrite K. auto.
  - right. exists c. intros a. apply K.
Qed.
Lemma store_const loc rs : (forall v r, In (v, r) rs -> loc v <> None) -> forall bs a,
  a_const (store_all loc a rs bs) = a_const a.
Proof.
  intros H. induction rs as [|[v r] rs IH]; intros bs a; cbn [store_all]; auto. destruct bs as [|b bs]; auto.
  rewrite IH by (intros w t Hw; apply (H w t); right; auto).
  destruct (loc v) as [[z s]|] eqn:E; auto. exfalso. apply (H v r); auto. left; auto.
Qed.

(* ------------------------------------------------------------------ *)
(** ** A shifted arena *)
Definition shifted (b : Z) (loc : locs) : locs :=
  fun v => match loc v with Some (z, s) => Some (b + z, s) | None => None end.
Definition view (b : Z) (a : arena) : arena := Arena (fun x => a_mem a (b + x)) (a_const a).

Lemma fetch_shifted b loc a v : fetch (shifted b loc) a v = fetch loc (view b a) v.
Proof.
  unfold fetch, shifted. destruct (loc v) as [[z s]|]; auto. unfold read. apply map_ext. intros i. cbn [view a_mem]. f_equal. lia.
Qed.
Lemma store_shifted b loc rs : forall bs a,
  (forall x, a_mem (view b (store_all (shifted b loc) a rs bs)) x = a_mem (store_all loc (view b a) rs bs) x) /\
  (forall v, a_const (store_all (shifted b loc) a rs bs) v = a_const (store_all loc (view b a) rs bs) v).
Proof.
  induction rs as [|[v r] rs IH]; intros bs a; cbn [store_all]; auto. destruct bs as [|y bs]; auto.
  set (a1 := match shifted b loc v with Some (off, _) => _ | None => _ end).
  set (a2 := match loc v with Some (off, _) => _ | None => _ end).
  destruct (IH bs a1) as [I1 I2].
  assert (E1 : forall x, a_mem (view b a1) x = a_mem a2 x).
  { intros x. unfold a1, a2, shifted. destruct (loc v) as [[z s]|]; cbn [view a_mem]; auto. unfold write.
    destruct (Z.leb_spec (b + z) (b + x)), (Z.leb_spec z x), (Z.ltb_spec (b + x) (b + z + Z.of_nat (length y))), (Z.ltb_spec x (z + Z.of_nat (length y))); cbn; try lia; auto.
    f_equal. lia. }
  assert (E2 : forall w, a_const (view b a1) w = a_const a2 w).
  { intros w. unfold a1, a2, shifted. destruct (loc v) as [[z s]|]; cbn [view a_const]; auto. }
  destruct (store_ext loc rs bs _ _ E1 E2) as [S1 S2].
  split; intros; [rewrite I1|rewrite I2]; auto.
Qed.
Lemma run_shifted b sem loc os : forall p a, run_arena sem (shifted b loc) os p a = run_arena sem loc os p (view b a).
Proof.
  induction os as [|o os IH]; intros p a; cbn [run_arena]; auto.
  assert (E : map (fetch (shifted b loc) a) (o_args o) = map (fetch loc (view b a)) (o_args o)).
  { apply map_ext. intros v. apply fetch_shifted. }
  rewrite E. f_equal. rewrite IH. apply run_arena_ext.
  - apply store_shifted.
  - apply store_shifted.
Qed.

(* ------------------------------------------------------------------ *)
(** ** The last operator *)
Lemma leave_app sem loc os os' : forall p a, leave sem loc (os ++ os') p a = leave sem loc os' (p + length os) (leave sem loc os p a).
Proof.
  induction os as [|o os IH]; intros p a; cbn [app leave length]; [rewrite Nat.add_0_r; auto|].
  rewrite IH. f_equal. lia.
Qed.
Lemma run_last sem loc os k outs : forall p a,
  last (run_arena sem loc (os ++ [Op k outs []]) p a) [] = map (fetch loc (leave sem loc os p a)) outs.
Proof.
  induction os as [|o os IH]; intros p a; cbn [app run_arena leave]; auto.
  rewrite <- IH. destruct (os ++ [Op k outs []]) eqn:E; [destruct os; discriminate|]. reflexivity.
Qed.

(* ------------------------------------------------------------------ *)
(** ** A compiled model *)
Lemma net_locs_shifted N : net_locs N = shifted (n_base N) (plan_locs (n_graph N) (n_offs N)).
Proof. reflexivity. Qed.

Record placed (N : net) : Prop := {
  pl_wf : wf_graph (n_graph N);
  pl_complete : complete_plan (n_graph N) (n_offs N);
  pl_inside : inside (net_locs N) (n_base N) (n_base N + n_size N);
  pl_type : forall p o v r z s, op_at (n_graph N) p o -> In (v, r) (o_res o) -> net_locs N v = Some (z, s) -> size_of (v, r) = s;
  pl_type_arg : forall v r z s, In (v, r) (arg_rs (n_graph N)) -> net_locs N v = Some (z, s) -> size_of (v, r) = s;
  pl_args : forall v r, In (v, r) (arg_rs (n_graph N)) -> net_locs N v <> None;
  pl_sized : sem_sized (n_graph N) (n_sem N);
  pl_exec : forall mem inputs, fits N inputs ->
    arena_trace (n_graph N) (n_sem N) (plan_locs (n_graph N) (n_offs N)) mem inputs = private_trace (n_graph N) (n_sem N) inputs
}.

Lemma compiled_placed N : compiled N -> placed N.
Proof.
  intros (W & WO & CG & (iter & garbage & ma & I & H & E & Hs) & HS).
  destruct (C08_chosen_plan iter _ garbage ma I W WO CG H) as (_ & C & Pk). rewrite <- E in C, Pk.
  assert (Inv : forall v z s, net_locs N v = Some (z, s) -> exists z', plan_locs (n_graph N) (n_offs N) v = Some (z', s) /\ z = n_base N + z').
  { intros v z s. unfold net_locs. destruct (plan_locs _ _ v) as [[z' s']|]; [|discriminate]. intros K. injection K as <- <-. eauto. }
  constructor; auto.
  - intros v z s K. destruct (Inv v z s K) as (z' & L & ->). destruct (locs_tensor _ _ _ _ _ W C L) as [A Ho].
    specialize (Pk v s z' A Ho). destruct C as (_ & _ & _ & C4). destruct (C4 v s z' A Ho) as [Nz _].
    assert (s <= up8 s) by (unfold up8; pose proof (Z.mod_pos_bound (- s) 8 ltac:(lia)); lia). lia.
  - intros p o v r z s Ho Hr K. destruct (Inv v z s K) as (z' & L & ->). unfold size_of. cbn [snd]. eapply locs_type; eauto.
  - intros v r z s Hr K. destruct (Inv v z s K) as (z' & L & ->). unfold arg_rs in Hr. apply in_map_iff in Hr.
    destruct Hr as ([w t] & Ew & Hw). cbn in Ew. injection Ew as <- <-. unfold size_of. cbn [snd]. eapply locs_type_arg; eauto.
  - intros v r Hr K. unfold arg_rs in Hr. apply in_map_iff in Hr. destruct Hr as ([w t] & Ew & Hw). cbn in Ew. injection Ew as <- <-.
    assert (A : arena_tensor (n_graph N) w t) by (left; auto). pose proof C as (_ & _ & C3 & _). destruct (C3 w t A) as [z Hz].
    unfold net_locs in K. rewrite (offset_locs _ _ _ _ _ W C A Hz (tensors_nodup _ W)) in K. discriminate.
  - intros mem inputs F. rewrite E. eapply C08_chosen_plan_execution; eauto.
Qed.

Lemma fits_forall2 N inputs : fits N inputs -> Forall2 (fun b r => Z.of_nat (length b) = size_of r) inputs (arg_rs (n_graph N)).
Proof. unfold fits, arg_rs. intros F. induction F; cbn; constructor; auto. Qed.

(** An event touches the arena of its own model only. *)
Lemma step_frame nets m e x : compiled (nets (about e)) -> legal nets e ->
  ~ (n_base (nets (about e)) <= x < n_base (nets (about e)) + n_size (nets (about e))) -> step nets m e x = m x.
Proof.
  intros C L Hx. apply compiled_placed in C. destruct e as [i junk|i inputs|i]; cbn [about legal step] in *.
  - destruct (Z.leb_spec (n_base (nets i)) x), (Z.ltb_spec x (n_base (nets i) + n_size (nets i))); cbn; auto. lia.
  - apply (store_frame _ _ _ _ (pl_inside _ C)); auto; [apply fits_forall2; auto|apply (pl_type_arg _ C)].
  - apply (leave_frame (n_graph (nets i)) _ _ _ _ (pl_inside _ C)) with (pre := []); auto; [apply (pl_sized _ C)|apply (pl_type _ C)].
Qed.

Lemma play_frame nets i es : forall m, Forall (elsewhere nets i) es ->
  forall x, n_base (nets i) <= x < n_base (nets i) + n_size (nets i) -> play nets es m x = m x.
Proof.
  unfold play. induction es as [|e es IH]; intros m F x Hx; cbn [fold_left]; auto. inv F. destruct H1 as (C & L & D).
  rewrite IH; auto. apply step_frame; auto. intros K. apply (D x). auto.
Qed.

Lemma outputs_last N os k outs m : g_ops (n_graph N) = os ++ [Op k outs []] ->
  outputs N m = map (fetch (net_locs N) (Arena m (fun _ => []))) outs.
Proof.
  intros E. unfold outputs. rewrite E, app_length, skipn_app. cbn [length].
  replace (length os + 1 - 1)%nat with (length os) by lia.
  rewrite skipn_all, Nat.sub_diag. cbn. rewrite app_nil_r. auto.
Qed.
Lemma returns_placed N outs v : placed N -> returns N outs -> In v outs ->
  exists z s, net_locs N v = Some (z, s) /\ n_base N <= z /\ z + s <= n_base N + n_size N.
Proof.
  intros P (_ & R) Hv. destruct (R v Hv) as [s A]. pose proof (pl_complete _ P) as C. pose proof C as (_ & _ & C3 & _).
  destruct (C3 v s A) as [z Hz].
  assert (E : net_locs N v = Some (n_base N + z, s)).
  { unfold net_locs. rewrite (offset_locs _ _ _ _ _ (pl_wf _ P) C A Hz (tensors_nodup _ (pl_wf _ P))). auto. }
  exists (n_base N + z), s. split; auto. apply (pl_inside _ P _ _ _ E).
Qed.

Lemma outputs_ext N outs m m' : placed N -> returns N outs ->
  (forall x, n_base N <= x < n_base N + n_size N -> m x = m' x) -> outputs N m = outputs N m'.
Proof.
  intros P R H. pose proof R as ((os & k & E) & _). rewrite !(outputs_last N os k outs) by auto.
  apply map_ext_in. intros v Hv. destruct (returns_placed N outs v P R Hv) as (z & s & El & B1 & B2).
  unfold fetch. rewrite El. unfold read. cbn [a_mem]. apply map_ext_in. intros i Hi. apply in_seq in Hi. apply H. lia.
Qed.

(** After storing the inputs somewhere in the past and nothing else in the arena, an invocation leaves the outputs. *)
Lemma invoke_outputs nets i outs inputs m0 m : compiled (nets i) -> returns (nets i) outs -> fits (nets i) inputs ->
  (forall x, n_base (nets i) <= x < n_base (nets i) + n_size (nets i) -> m x = step nets m0 (Put i inputs) x) ->
  outputs (nets i) (step nets m (Invoke i)) = private_outputs (nets i) inputs.
Proof.
  intros C R F H. apply compiled_placed in C. set (N := nets i) in *. pose proof R as ((os & k & E) & _).
  pose proof (compiled_placed) as _.
  assert (St : forall x, a_mem (store_all (net_locs N) (Arena m (fun _ => [])) (arg_rs (n_graph N)) inputs) x = m x).
  { intros x. destruct (Z_lt_dec x (n_base N)) as [Lo|Lo];
      [apply (store_frame _ _ _ _ (pl_inside _ C)); [apply fits_forall2; auto|apply (pl_type_arg _ C)|lia]|].
    destruct (Z_lt_dec x (n_base N + n_size N)) as [Hi|Hi];
      [|apply (store_frame _ _ _ _ (pl_inside _ C)); [apply fits_forall2; auto|apply (pl_type_arg _ C)|lia]].
    destruct (store_point (net_locs N) x (arg_rs (n_graph N)) inputs) as [K|[c K]].
    - apply K.
    - rewrite K. rewrite H by lia. cbn [step]. fold N. rewrite K. auto. }
  unfold private_outputs. rewrite <- (pl_exec _ C (fun x => m (n_base N + x)) inputs F).
  unfold arena_trace.
  assert (T : run_arena (n_sem N) (net_locs N) (g_ops (n_graph N)) 0 (Arena m (fun _ => []))
    = run_arena (n_sem N) (plan_locs (n_graph N) (n_offs N)) (g_ops (n_graph N)) 0
        (store_all (plan_locs (n_graph N) (n_offs N)) (Arena (fun x => m (n_base N + x)) (fun _ => [])) (arg_rs (n_graph N)) inputs)).
  { transitivity (run_arena (n_sem N) (net_locs N) (g_ops (n_graph N)) 0 (store_all (net_locs N) (Arena m (fun _ => [])) (arg_rs (n_graph N)) inputs)).
    - apply run_arena_ext; intros x; cbn [a_mem a_const]; [rewrite St; auto|].
      rewrite store_const; auto. apply (pl_args _ C).
    - rewrite net_locs_shifted, run_shifted. apply run_arena_ext; apply store_shifted. }
  rewrite <- T. clear T. rewrite (outputs_last N os k outs) by auto. rewrite E, run_last.
  cbn [step]. fold N. rewrite E, leave_app. cbn [leave o_res o_args store_all].
  apply map_ext_in. intros v Hv. destruct (returns_placed N outs v C R Hv) as (z & s & El & _). unfold fetch. rewrite El. cbn [a_mem]. auto.
Qed.

(* ------------------------------------------------------------------ *)
(** ** The size of a shared arena *)
Lemma headers_spec needs : forall macro, exists l, fold_left include_header needs (Some macro) = Some l /\
  macro <= l /\ (forall n, In n needs -> n <= l) /\ (l = macro \/ In l needs).
Proof.
  induction needs as [|n needs IH]; intros macro; cbn [fold_left include_header].
  - exists macro. repeat split; auto; try lia. intros n [].
  - destruct (Z.ltb_spec macro n).
    + destruct (IH n) as (l & E & L1 & L2 & L3). exists l. rewrite E. repeat split; auto; try lia.
      * intros x [<-|Hx]; auto.
      * right. destruct L3 as [->|]; [left|right]; auto.
    + destruct (IH macro) as (l & E & L1 & L2 & L3). exists l. rewrite E. repeat split; auto; try lia.
      * intros x [<-|Hx]; [lia|auto].
      * destruct L3 as [->|]; auto. right. right. auto.
Qed.
