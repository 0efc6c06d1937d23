(** From the greedy placement to the returned vector: patching of overlapped
    buffers, constants, re-sorting by id, peak. *)
From Verif Require Import Base MemPlanModel MemPlanSpec MemPlanGreedy MemPlanBuild.
From Coq Require Import Sorting.Sorted.
Local Open Scope Z_scope.

(** What the overlap phase guarantees about its result. *)
Record ov_ok (g : graph) (s : ostate) : Prop := {
  oo_id : forall v, vi_id (os_info s v) = vi_id (build g v);
  oo_const : forall v, vi_const (os_info s v) = vi_const (build g v);
  oo_last : forall v, vi_last (os_info s v) = vi_last (build g v);
  oo_first : forall v, In v (tensors g) -> vi_first (os_info s v) <= vi_first (build g v);
  oo_size : forall v, In v (tensors g) -> vi_size (build g v) <= vi_size (os_info s v);
  oo_div : forall v, In v (tensors g) -> (8 | vi_size (os_info s v));
  oo_nodup : NoDup (map fst (os_map s));
  oo_entry : forall k out rel, In (k, (out, rel)) (os_map s) ->
      In k (tensors g) /\ vi_const (build g k) = false /\
      In out (tensors g) /\ vi_const (build g out) = false /\
      ~ In out (map fst (os_map s)) /\
      0 <= rel /\ (8 | rel) /\
      rel + vi_size (os_info s k) <= vi_size (os_info s out) /\
      vi_first (os_info s out) <= vi_first (build g k) /\
      vi_last (build g k) <= vi_last (build g out);
  oo_exact : forall v, In v (tensors g) -> vi_size (os_info s v) = vi_size (build g v) \/
      exists k rel, In (k, (v, rel)) (os_map s) /\ rel + vi_size (build g k) = vi_size (os_info s v)
}.

Lemma io_mem_spec m v : io_mem m v = true <-> In v (map fst m).
Proof.
  unfold io_mem. rewrite existsb_exists, in_map_iff. split.
  - intros (e & He & E). apply Nat.eqb_eq in E. eauto.
  - intros (e & E & He). exists e. split; auto. apply Nat.eqb_eq; auto.
Qed.

(* ---- sorting by id ---- *)
Lemma id_insert_perm info x l : Permutation (id_insert info x l) (x :: l).
Proof.
  induction l as [|y l IH]; simpl; auto.
  destruct (Nat.ltb _ _); auto. rewrite IH. constructor.
Qed.

Definition by_id (info : vmap) (x y : vname * Z) : Prop :=
  (vi_id (info (fst x)) <= vi_id (info (fst y)))%nat.

Lemma id_insert_sorted info x l :
  StronglySorted (by_id info) l -> StronglySorted (by_id info) (id_insert info x l).
Proof.
  induction l as [|y l IH]; simpl; intros H.
  - repeat constructor.
  - inv H. rewrite Forall_forall in H3. destruct (Nat.ltb_spec (vi_id (info (fst x))) (vi_id (info (fst y)))).
    + constructor.
      * constructor; auto. rewrite Forall_forall; auto.
      * constructor; [unfold by_id; lia|]. rewrite Forall_forall. intros z Hz.
        specialize (H3 _ Hz). unfold by_id in *; lia.
    + constructor; auto. rewrite Forall_forall. intros z Hz.
      apply (Permutation_in _ (id_insert_perm _ _ _)) in Hz.
      destruct Hz as [<-|Hz]; [unfold by_id; lia|auto].
Qed.

Lemma sort_by_id_aux info al : forall acc,
  StronglySorted (by_id info) acc ->
  StronglySorted (by_id info) (fold_left (fun acc x => id_insert info x acc) al acc) /\
  Permutation (fold_left (fun acc x => id_insert info x acc) al acc) (al ++ acc).
Proof.
  induction al as [|x al IH]; intros acc H; simpl; [auto|].
  destruct (IH (id_insert info x acc)) as [I1 I2]; [apply id_insert_sorted; auto|].
  split; auto. rewrite I2. rewrite id_insert_perm. apply Permutation_sym, Permutation_middle.
Qed.

Lemma sort_by_id_spec info al :
  StronglySorted (by_id info) (sort_by_id info al) /\ Permutation (sort_by_id info al) al.
Proof.
  destruct (sort_by_id_aux info al []) as [H1 H2]; [constructor|].
  rewrite app_nil_r in H2. auto.
Qed.

Lemma sorted_perm_unique {A} (f : A -> nat) (l1 : list A) : forall l2,
  (forall x y, In x l1 -> In y l1 -> f x = f y -> x = y) ->
  StronglySorted (fun x y => (f x <= f y)%nat) l1 ->
  StronglySorted (fun x y => (f x <= f y)%nat) l2 ->
  Permutation l1 l2 -> l1 = l2.
Proof.
  induction l1 as [|x l1 IH]; intros l2 Inj S1 S2 P.
  - apply Permutation_nil in P. auto.
  - destruct l2 as [|y l2]; [apply Permutation_sym, Permutation_nil in P; discriminate|].
    inv S1. inv S2. rewrite Forall_forall in *.
    assert (E : x = y).
    { assert (Hy : In y (x :: l1)) by (eapply Permutation_in; [apply Permutation_sym; eauto|left; auto]).
      assert (Hx : In x (y :: l2)) by (eapply Permutation_in; [eauto|left; auto]).
      destruct Hy as [E|Hy]; auto. destruct Hx as [E|Hx]; auto.
      apply Inj; simpl; auto. specialize (H2 y Hy). specialize (H4 x Hx). lia. }
    subst y. f_equal. apply IH; auto.
    + intros a b Ha Hb. apply Inj; right; auto.
    + eapply Permutation_cons_inv; eauto.
Qed.

Lemma StronglySorted_map {A B} (f : A -> B) (R : B -> B -> Prop) l :
  StronglySorted (fun x y => R (f x) (f y)) l -> StronglySorted R (map f l).
Proof.
  induction 1; simpl; constructor; auto. rewrite Forall_forall in *.
  intros y Hy. apply in_map_iff in Hy. destruct Hy as (z & <- & Hz). auto.
Qed.

Lemma tensors_nth_id g i v :
  wf_graph g -> nth_error (tensors g) i = Some v -> vi_id (build g v) = i.
Proof.
  intros W H. rewrite <- values_names in H by auto.
  apply map_nth_error_inv in H. destruct H as (d & Hd & <-).
  rewrite (build_nth g i d W Hd). reflexivity.
Qed.

Lemma tensors_sorted g : wf_graph g ->
  StronglySorted (fun x y => (vi_id (build g x) <= vi_id (build g y))%nat) (tensors g).
Proof.
  intros W. 
  assert (H : forall i v, nth_error (tensors g) i = Some v -> vi_id (build g v) = (0 + i)%nat)
    by (intros; apply tensors_nth_id; auto).
  revert H. generalize 0%nat as k. induction (tensors g) as [|x l IH]; intros k H; constructor.
  - apply (IH (S k)). intros i v Hv. rewrite (H (S i) v Hv). lia.
  - rewrite Forall_forall. intros y Hy. apply In_nth_error in Hy. destruct Hy as [i Hi].
    rewrite (H 0%nat x eq_refl), (H (S i) y Hi). lia.
Qed.

(* ---- patch ---- *)
Lemma patch_perm es : forall al al',
  patch es al = Some al' -> Permutation (map fst al') (map fst es ++ map fst al).
Proof.
  induction es as [|[k [out rel]] es IH]; intros al al' H; simpl in H.
  - inv H. reflexivity.
  - destruct (find_alloc al out) as [cur|]; [|discriminate].
    rewrite (IH _ _ H). rewrite (Permutation_map fst (ms_insert_perm _ al)). cbn.
    apply Permutation_sym, Permutation_middle.
Qed.

Lemma find_alloc_some al v z : find_alloc al v = Some z -> In (v, z) al.
Proof.
  unfold find_alloc. intros H.
  match type of H with context[find ?f ?l] => destruct (find f l) as [[w y]|] eqn:E end; [|discriminate].
  apply find_some in E. destruct E as [E1 E2]. cbn in E2, H. apply Nat.eqb_eq in E2.
  injection H as H. subst. auto.
Qed.

Lemma find_alloc_in al v z : NoDup (map fst al) -> In (v, z) al -> find_alloc al v = Some z.
Proof.
  unfold find_alloc. induction al as [|[w y] al IH]; simpl; intros N H; [tauto|].
  inv N. destruct H as [H|H].
  - inv H. rewrite Nat.eqb_refl. auto.
  - destruct (Nat.eqb_spec w v) as [->|E]; auto.
    exfalso. apply H2. apply in_map_iff. exists (v, z); auto.
Qed.

(** patching only adds, and adds root offset + relative offset *)
Lemma patch_spec es : forall al al0 al',
  (forall x, In x al0 -> In x al) ->
  NoDup (map fst es ++ map fst al) ->
  (forall k out rel, In (k, (out, rel)) es -> ~ In out (map fst es)) ->
  (forall v z, In (v, z) al -> In (v, z) al0 \/ forall k out rel, In (k, (out, rel)) es -> out <> v) ->
  patch es al = Some al' ->
  (forall x, In x al -> In x al') /\
  (forall x, In x al' -> In x al \/
     exists out rel o, In (fst x, (out, rel)) es /\ In (out, o) al0 /\ snd x = o + rel).
Proof.
  induction es as [|[k [out rel]] es IH]; intros al al0 al' Hsub N Hout Hroot H; simpl in H.
  - inv H. split; auto.
  - destruct (find_alloc al out) as [cur|] eqn:Ef; [|discriminate].
    apply find_alloc_some in Ef.
    assert (Hcur : In (out, cur) al0).
    { destruct (Hroot out cur Ef) as [?|C]; auto. exfalso. eapply C; [left; reflexivity|auto]. }
    cbn in N. inv N.
    destruct (IH (ms_insert (k, cur + rel) al) al0 al') as [I1 I2]; auto.
    + intros x Hx. apply ms_insert_in; auto.
    + assert (P : Permutation (map fst es ++ map fst (ms_insert (k, cur + rel) al))
                              (k :: map fst es ++ map fst al)).
      { rewrite (Permutation_map fst (ms_insert_perm _ al)). cbn.
        apply Permutation_sym, Permutation_middle. }
      eapply Permutation_NoDup; [apply Permutation_sym; exact P|]. constructor; auto.
    + intros k' out' rel' Hin C. eapply Hout; [right; exact Hin|right; exact C].
    + intros v z Hv. apply ms_insert_in in Hv. destruct Hv as [E|Hv].
      * inv E. right. intros k' out' rel' Hin ->. eapply Hout; [right; exact Hin|left; reflexivity].
      * destruct (Hroot v z Hv) as [?|C]; auto. right. intros k' out' rel' Hin. eapply C. right; exact Hin.
    + split.
      * intros x Hx. apply I1. apply ms_insert_in; auto.
      * intros x Hx. destruct (I2 x Hx) as [Hx'|(o' & r' & z' & Hx' & Hz & E)].
        -- apply ms_insert_in in Hx'. destruct Hx' as [->|Hx']; auto.
           right. exists out, rel, cur. repeat split; auto. left; auto.
        -- right. exists o', r', z'. repeat split; auto. right; auto.
Qed.

Lemma patch_succeeds es : forall al,
  (forall k out rel, In (k, (out, rel)) es -> In out (map fst al)) ->
  exists al', patch es al = Some al'.
Proof.
  induction es as [|[k [out rel]] es IH]; intros al H; simpl; eauto.
  assert (Hin : In out (map fst al)) by (eapply H; left; reflexivity).
  unfold find_alloc. destruct (find (fun e : vname * Z => Nat.eqb (fst e) out) al) as [e|] eqn:E.
  - apply IH. intros k' out' rel' Hin'. 
    eapply Permutation_in; [apply Permutation_sym; apply (Permutation_map fst (ms_insert_perm _ al))|].
    right. eapply H. right; eauto.
  - exfalso. apply in_map_iff in Hin. destruct Hin as (x & Ex & Hx).
    pose proof (find_none _ _ E x Hx) as F. cbv beta in F. apply Nat.eqb_neq in F. auto.
Qed.

(* ---- constants ---- *)
Lemma add_constants_spec info vs : forall al,
  add_constants info vs al =
  al ++ map (fun d => (vd_name d, -1)) (filter (fun d => vi_const (info (vd_name d))) vs).
Proof.
  unfold add_constants. induction vs as [|d vs IH]; intros al; simpl.
  - rewrite app_nil_r; auto.
  - destruct (vi_const (info (vd_name d))); rewrite IH; auto.
    rewrite <- app_assoc. reflexivity.
Qed.

(* ---- peak ---- *)
Lemma peak_loop_spec info l : forall mid pk po,
  let r := peak_loop info l mid pk po in
  pk <= fst r /\
  (forall x, In x l -> vi_const (info (fst x)) = false -> vend info x <= fst r) /\
  (fst r = pk \/ exists x, In x l /\ vi_const (info (fst x)) = false /\ vend info x = fst r).
Proof.
  induction l as [|[v off] l IH]; intros mid pk po; cbn [peak_loop].
  - cbn. split; [lia|split; [intros x []|auto]].
  - destruct (vi_const (info v)) eqn:Ec.
    + destruct (IH mid pk po) as (I1 & I2 & I3). split; [exact I1|split].
      * intros x [<-|Hx] Hc; [cbn in Hc; congruence|auto].
      * destruct I3 as [I3|(x & Hx & R)]; auto. right; exists x; simpl; auto.
    + destruct (_ >=? pk) eqn:Eg.
      * destruct (IH (mid + 1) (vi_size (info v) + off) (mid + 1)) as (I1 & I2 & I3).
        cbv zeta. split; [lia|split].
        -- intros x [<-|Hx] Hc; [unfold vend; cbn; lia|auto].
        -- right. destruct I3 as [I3|(x & Hx & R)].
           ++ exists (v, off). simpl. rewrite I3. unfold vend; cbn. repeat split; auto. lia.
           ++ exists x; simpl; auto.
      * destruct (IH (mid + 1) pk po) as (I1 & I2 & I3). cbv zeta. split; [exact I1|split].
        -- intros x [<-|Hx] Hc; [unfold vend; cbn; lia|auto].
        -- destruct I3 as [I3|(x & Hx & R)]; auto. right; exists x; simpl; auto.
Qed.

(* ---- the whole plan ---- *)
Definition is_perm (iter : iomap -> iomap) : Prop := forall m, Permutation (iter m) m.

(** Everything later theorems need about a plan. *)
Record plan_ok (g : graph) (s : ostate) (al0 : alloc) (pl : plan) : Prop := {
  po_names : map fst (p_alloc pl) = tensors g;
  po_offsets : p_offsets pl = map snd (p_alloc pl);
  po_info : p_info pl = os_info s;
  po_map : p_map pl = os_map s;
  po_q : Permutation (map fst al0) (map fst (queue_items (os_info s) (os_map s) (values g)));
  po_inv : greedy_inv (os_info s) al0;
  po_alloc : allocate (os_info s)
     (q_sort (os_info s) (queue_items (os_info s) (os_map s) (values g))) = Some al0;
  po_entry : forall v z, In (v, z) (p_alloc pl) ->
     (vi_const (build g v) = true /\ z = -1) \/
     (vi_const (build g v) = false /\ ~ In v (map fst (os_map s)) /\ In (v, z) al0) \/
     (vi_const (build g v) = false /\ exists out rel o,
        In (v, (out, rel)) (os_map s) /\ In (out, o) al0 /\ z = o + rel);
  po_roots : forall x, In x al0 -> In x (p_alloc pl);
  po_peak : exists po0, (p_peak pl, p_peak_op pl) = peak_loop (os_info s) (p_alloc pl) 0 0 po0
}.

Lemma in_queue_items g s v z :
  wf_graph g ->
  In (v, z) (queue_items (os_info s) (os_map s) (values g)) <->
  In v (tensors g) /\ ~ In v (map fst (os_map s)) /\ vi_const (os_info s v) = false /\
  z = vi_size (os_info s v).
Proof.
  intros W. unfold queue_items. rewrite in_map_iff, <- values_names by auto. split.
  - intros (d & E & H). apply filter_In in H. destruct H as [H1 H2]. inv E.
    rewrite <- io_mem_spec. repeat split; [apply in_map; auto|lia|lia].
  - intros (H1 & H2 & H3 & ->). apply in_map_iff in H1. destruct H1 as (d & <- & Hd).
    exists d. split; auto. apply filter_In. split; auto.
    rewrite <- io_mem_spec in H2. destruct (io_mem _ _); [congruence|]. rewrite H3. auto.
Qed.

Lemma queue_names_nodup g s : wf_graph g ->
  NoDup (map fst (queue_items (os_info s) (os_map s) (values g))).
Proof.
  intros W. unfold queue_items. rewrite map_map. cbn [fst].
  pose proof (tensors_nodup g W) as N. rewrite <- values_names in N by auto.
  revert N. generalize (values g). induction l as [|d l IH]; simpl; intros N; [constructor|].
  inv N. destruct (_ && _); simpl; auto. constructor; auto.
  intros C. apply H1. apply in_map_iff in C. destruct C as (e & E & He). apply filter_In in He.
  apply in_map_iff. exists e; tauto.
Qed.

Lemma q_ok_queue g s : wf_graph g -> ov_ok g s ->
  q_ok (os_info s) (q_sort (os_info s) (queue_items (os_info s) (os_map s) (values g))).
Proof.
  intros W O [v z] H. apply (Permutation_in _ (q_sort_perm _ _)) in H.
  apply in_queue_items in H; auto. destruct H as (H1 & _ & _ & ->). cbn. split; auto.
  pose proof (build_size_nonneg g v W H1). pose proof (oo_size g s O v H1). lia.
Qed.

Lemma plan_spec iter g b po0 pl s :
  wf_graph g -> is_perm iter ->
  overlap_phase g b = Some s -> ov_ok g s ->
  get_allocated_offsets iter g b po0 = Some pl ->
  exists al0, plan_ok g s al0 pl.
Proof.
  intros W Hiter Hs O H. unfold get_allocated_offsets in H. rewrite Hs in H.
  set (info := os_info s) in *. set (m := os_map s) in *.
  destruct (allocate info _) as [al0|] eqn:Ea; [|discriminate].
  destruct (patch (iter m) al0) as [al1|] eqn:Ep; [|discriminate].
  destruct (peak_loop _ _ _ _ _) as [pk po] eqn:Epk. inv H.
  set (al2 := sort_by_id info (add_constants info (values g) al1)) in *.
  exists al0.
  pose proof (allocate_perm _ _ _ Ea) as P0.
  rewrite (Permutation_map fst (q_sort_perm info _)) in P0.
  assert (Nq := queue_names_nodup g s W). fold info m in Nq.
  assert (N0 : NoDup (map fst al0)) by (eapply Permutation_NoDup; [apply Permutation_sym; exact P0|exact Nq]).
  assert (Pm : Permutation (map fst (iter m)) (map fst m)) by (apply Permutation_map; apply Hiter).
  assert (Hal0 : forall v, In v (map fst al0) <->
     In v (tensors g) /\ ~ In v (map fst m) /\ vi_const (info v) = false).
  { intros v. split.
    - intros Hv. apply (Permutation_in _ P0) in Hv. apply in_map_iff in Hv.
      destruct Hv as ([w z] & <- & Hv). apply in_queue_items in Hv; auto. cbn; tauto.
    - intros Hv. apply (Permutation_in _ (Permutation_sym P0)). apply in_map_iff.
      exists (v, vi_size (info v)). split; auto. apply in_queue_items; auto. fold info m. tauto. }
  assert (Ninit : NoDup (map fst (iter m) ++ map fst al0)).
  { apply nodup_app; auto.
    - eapply Permutation_NoDup; [apply Permutation_sym; exact Pm|apply (oo_nodup g s O)].
    - intros x Hx Hy. apply (Permutation_in _ Pm) in Hx. apply Hal0 in Hy. tauto. }
  assert (Hent : forall k out rel, In (k, (out, rel)) (iter m) -> In (k, (out, rel)) m).
  { intros k out rel Hin. eapply Permutation_in; [apply Hiter|auto]. }
  assert (PS := patch_spec (iter m) al0 al0 al1 (fun x H => H) Ninit).
  destruct PS as [PS1 PS2]; auto.
  { intros k out rel Hin C. apply (Permutation_in _ Pm) in C.
    destruct (oo_entry g s O k out rel (Hent _ _ _ Hin)) as (_ & _ & _ & _ & Hno & _). auto. }
  pose proof (patch_perm _ _ _ Ep) as P1.
  assert (Hc : forall d, vi_const (info (vd_name d)) = vi_const (build g (vd_name d)))
    by (intros; apply (oo_const g s O)).
  assert (Pnames : Permutation (map fst (add_constants info (values g) al1)) (tensors g)).
  { rewrite add_constants_spec, map_app, map_map. cbn [fst].
    apply NoDup_Permutation.
    - apply nodup_app.
      + eapply Permutation_NoDup; [apply Permutation_sym; exact P1|exact Ninit].
      + pose proof (tensors_nodup g W) as N. rewrite <- values_names in N by auto.
        revert N. generalize (values g). induction l as [|d l IH]; simpl; intros N; [constructor|].
        inv N. destruct (vi_const _); simpl; auto. constructor; auto.
        intros C. apply H1. apply in_map_iff in C. destruct C as (e & E & He).
        apply filter_In in He. apply in_map_iff. exists e; tauto.
      + intros x Hx Hy. apply in_map_iff in Hy. destruct Hy as (d & <- & Hd).
        apply filter_In in Hd. destruct Hd as [Hd1 Hd2].
        apply (Permutation_in _ P1) in Hx. apply in_app_or in Hx. destruct Hx as [Hx|Hx].
        * apply (Permutation_in _ Pm) in Hx. apply in_map_iff in Hx.
          destruct Hx as ([k [out rel]] & E & Hin). cbn in E. subst k.
          destruct (oo_entry g s O _ _ _ Hin) as (_ & Hk & _). rewrite Hc in Hd2. congruence.
        * apply Hal0 in Hx. destruct Hx as (_ & _ & Hx). congruence.
    - apply tensors_nodup; auto.
    - intros x. rewrite in_app_iff. split.
      + intros [Hx|Hx].
        * apply (Permutation_in _ P1) in Hx. apply in_app_or in Hx. destruct Hx as [Hx|Hx].
          -- apply (Permutation_in _ Pm) in Hx. apply in_map_iff in Hx.
             destruct Hx as ([k [out rel]] & E & Hin). cbn in E. subst k.
             destruct (oo_entry g s O _ _ _ Hin) as (Hk & _). auto.
          -- apply Hal0 in Hx. tauto.
        * apply in_map_iff in Hx. destruct Hx as (d & <- & Hd). apply filter_In in Hd.
          rewrite <- values_names by auto. apply in_map. tauto.
      + intros Hx. destruct (vi_const (info x)) eqn:Ex.
        * right. rewrite <- values_names in Hx by auto. apply in_map_iff in Hx.
          destruct Hx as (d & <- & Hd). apply in_map_iff. exists d. split; auto. apply filter_In; auto.
        * left. apply (Permutation_in _ (Permutation_sym P1)). apply in_or_app.
          destruct (in_dec Nat.eq_dec x (map fst m)) as [Hk|Hk].
          -- left. apply (Permutation_in _ (Permutation_sym Pm)); auto.
          -- right. apply Hal0; auto. }
  destruct (sort_by_id_spec info (add_constants info (values g) al1)) as [SS SP]. fold al2 in SS, SP.
  assert (Names : map fst al2 = tensors g).
  { symmetry. apply sorted_perm_unique with (f := fun v => vi_id (build g v)).
    - intros x y Hx Hy E. apply In_nth_error in Hx, Hy. destruct Hx as [i Hi], Hy as [j Hj].
      rewrite (tensors_nth_id g i x W Hi), (tensors_nth_id g j y W Hj) in E. subst. congruence.
    - apply tensors_sorted; auto.
    - apply StronglySorted_map with (R := fun x y => (vi_id (build g x) <= vi_id (build g y))%nat).
      assert (Eid : forall v, vi_id (info v) = vi_id (build g v)) by (apply (oo_id g s O)).
      clear -SS Eid. induction SS; constructor; auto. rewrite Forall_forall in *. intros y Hy.
      specialize (H y Hy). unfold by_id in H. rewrite !Eid in H. auto.
    - apply Permutation_sym. rewrite (Permutation_map fst SP). auto. }
  assert (Hin2 : forall x, In x al2 <-> In x al1 \/
      In x (map (fun d => (vd_name d, -1)) (filter (fun d => vi_const (info (vd_name d))) (values g)))).
  { intros x. rewrite <- in_app_iff, <- add_constants_spec. split; intros Hx.
    - eapply Permutation_in; eauto.
    - eapply Permutation_in; [apply Permutation_sym; eauto|auto]. }
  assert (Hinv : greedy_inv info al0) by (eapply allocate_inv; [exact (q_ok_queue g s W O)|exact Ea]).
  constructor; cbn [p_alloc p_offsets p_info p_map p_peak p_peak_op]; auto.
  - intros v z Hv. apply Hin2 in Hv. destruct Hv as [Hv|Hv].
    + destruct (PS2 _ Hv) as [Hv'|(out & rel & o & H1 & H2 & H3)].
      * right; left. assert (Hx : In v (map fst al0)) by (apply in_map_iff; exists (v, z); auto).
        apply Hal0 in Hx. rewrite <- (oo_const g s O). tauto.
      * right; right. cbn in H1, H3. apply Hent in H1. split; [apply (oo_entry g s O _ _ _ H1)|].
        exists out, rel, o. auto.
    + left. apply in_map_iff in Hv. destruct Hv as (d & E & Hd). inv E. apply filter_In in Hd.
      rewrite <- (oo_const g s O). tauto.
  - intros x Hx. apply Hin2. left. apply PS1; auto.
  - exists po0. auto.
Qed.

Lemma plan_exists iter g b po0 s :
  wf_graph g -> is_perm iter ->
  overlap_phase g b = Some s -> ov_ok g s ->
  (exists v sz, arena_tensor g v sz) ->
  exists pl, get_allocated_offsets iter g b po0 = Some pl.
Proof.
  intros W Hiter Hs O (v & sz & Hv). unfold get_allocated_offsets. rewrite Hs.
  apply in_values_arena in Hv; auto.
  assert (Hvt : In v (tensors g)) by (rewrite <- values_names by auto; apply (in_map vd_name _ _ Hv)).
  assert (Hvc : vi_const (build g v) = false).
  { apply In_nth_error in Hv. destruct Hv as [i Hi]. 
    change v with (vd_name (VD v sz false)). rewrite (build_nth g i _ W Hi). reflexivity. }
  (* some root is in the queue *)
  assert (Hr : exists r, In (r, vi_size (os_info s r)) (queue_items (os_info s) (os_map s) (values g))).
  { destruct (in_dec Nat.eq_dec v (map fst (os_map s))) as [Hk|Hk].
    - apply in_map_iff in Hk. destruct Hk as ([k [out rel]] & E & Hin). cbn in E. subst k.
      destruct (oo_entry g s O _ _ _ Hin) as (_ & _ & H3 & H4 & H5 & _).
      exists out. apply in_queue_items; auto. rewrite (oo_const g s O). auto.
    - exists v. apply in_queue_items; auto. rewrite (oo_const g s O). auto. }
  destruct Hr as [r Hr].
  set (q := q_sort _ _).
  assert (Hq : In (r, vi_size (os_info s r)) q)
    by (apply (Permutation_in _ (Permutation_sym (q_sort_perm _ _))); auto).
  destruct q as [|[v0 s0] q'] eqn:Eq; [destruct Hq|]. cbn [allocate].
  assert (Ea : allocate (os_info s) q = Some (place (os_info s) q' [(v0, 0)])) by (rewrite Eq; reflexivity).
  apply allocate_perm in Ea. unfold q in Ea.
  rewrite (Permutation_map fst (q_sort_perm _ _)) in Ea.
  destruct (patch_succeeds (iter (os_map s)) (place (os_info s) q' [(v0, 0)])) as [al1 ->].
  { intros k out rel Hin. apply (Permutation_in _ (Hiter _)) in Hin.
    destruct (oo_entry g s O _ _ _ Hin) as (_ & _ & H3 & H4 & H5 & _).
    apply (Permutation_in _ (Permutation_sym Ea)). apply in_map_iff.
    exists (out, vi_size (os_info s out)). split; auto. apply in_queue_items; auto.
    rewrite (oo_const g s O). auto. }
  destruct (peak_loop _ _ _ _ _) as [pk po]. eauto.
Qed.
