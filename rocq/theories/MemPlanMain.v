(** Main lemmas about complete plans. *)
From Verif Require Import Base MemPlanModel MemPlanSpec MemPlanGreedy MemPlanBuild
     MemPlanAssemble MemPlanOverlap MemExecSpec MemExecProofs.
From Coq Require Import Sorting.Sorted.
Local Open Scope Z_scope.

Lemma arena_facts g v sz : wf_graph g -> arena_tensor g v sz ->
  In v (tensors g) /\ vi_const (build g v) = false /\ vi_size (build g v) = align8 sz /\
  vi_first (build g v) = vfirst g v /\ vi_last (build g v) = vlast g v /\ 0 <= sz.
Proof.
  intros W H. apply in_values_arena in H; auto.
  assert (Hsz := values_size_nonneg g _ W H). cbn in Hsz.
  split; [rewrite <- values_names by auto; apply (in_map vd_name _ _ H)|].
  apply In_nth_error in H. destruct H as [i Hi].
  pose proof (build_nth g i _ W Hi) as B. cbn [vd_name vd_usize vd_const] in B. rewrite B. cbn. auto.
Qed.

Lemma arena_of_nonconst g v : wf_graph g -> In v (tensors g) -> vi_const (build g v) = false ->
  exists sz, arena_tensor g v sz.
Proof.
  intros W H C. rewrite <- values_names in H by auto. apply in_map_iff in H.
  destruct H as ([n sz c] & E & Hd). cbn in E. subst n.
  pose proof Hd as Hd'. apply In_nth_error in Hd'. destruct Hd' as [i Hi].
  pose proof (build_nth g i _ W Hi) as B. cbn in B. rewrite B in C. cbn in C. subst c.
  exists sz. apply in_values_arena; auto.
Qed.

Lemma constant_facts g v : wf_graph g -> constant_tensor g v ->
  In v (tensors g) /\ vi_const (build g v) = true.
Proof.
  intros W H. apply in_values_const in H; auto. destruct H as [s H].
  split; [rewrite <- values_names by auto; apply (in_map vd_name _ _ H)|].
  apply In_nth_error in H. destruct H as [i Hi].
  pose proof (build_nth g i _ W Hi) as B. cbn [vd_name] in B. rewrite B. reflexivity.
Qed.

Lemma nth_error_combine_map {A B} (l : list (A * B)) i x :
  nth_error l i = Some x <-> nth_error (map fst l) i = Some (fst x) /\ nth_error (map snd l) i = Some (snd x).
Proof.
  revert i; induction l as [|[a b] l IH]; intros [|i]; cbn.
  - split; [discriminate|intros [H _]; discriminate].
  - split; [discriminate|intros [H _]; discriminate].
  - destruct x as [a' b']; cbn. split; [intros H; inv H; auto|intros [H1 H2]; congruence].
  - apply IH.
Qed.

Section Plan.
Variables (g : graph) (s : ostate) (al0 : alloc) (pl : plan).
Hypothesis W : wf_graph g.
Hypothesis O : ov_ok g s.
Hypothesis P : plan_ok g s al0 pl.

Lemma offset_of_alloc v z : offset_of g (p_offsets pl) v z <-> In (v, z) (p_alloc pl).
Proof.
  unfold offset_of. rewrite (po_offsets g s al0 pl P), <- (po_names g s al0 pl P). split.
  - intros (i & H1 & H2). eapply nth_error_In. apply (nth_error_combine_map _ i (v, z)). auto.
  - intros H. apply In_nth_error in H. destruct H as [i Hi]. exists i.
    apply nth_error_combine_map in Hi. auto.
Qed.

(** every non-constant tensor sits inside its root buffer, in space and time *)
Definition is_root (v r : vname) : Prop :=
  (r = v /\ ~ In v (map fst (os_map s))) \/ exists rel, In (v, (r, rel)) (os_map s).

Lemma in_root v z : In (v, z) (p_alloc pl) -> vi_const (build g v) = false ->
  exists r o, is_root v r /\ In (r, o) al0 /\
    o <= z /\ z + vi_size (build g v) <= vend (os_info s) (r, o) /\ (8 | z - o) /\
    vi_first (os_info s r) <= vi_first (build g v) /\ vi_last (build g v) <= vi_last (os_info s r).
Proof.
  intros Hin Hc.
  assert (Ht : In v (tensors g)).
  { rewrite <- (po_names g s al0 pl P). apply in_map_iff. exists (v, z); auto. }
  destruct (po_entry g s al0 pl P v z Hin) as [[C _]|[(_ & Hk & Ha)|(_ & out & rel & o & H1 & H2 & H3)]].
  - congruence.
  - exists v, z. split; [left; auto|]. split; auto. unfold vend. cbn.
    pose proof (oo_size g s O v Ht). pose proof (oo_first g s O v Ht). rewrite (oo_last g s O).
    repeat split; try lia. replace (z - z) with 0 by lia. apply Z.divide_0_r.
  - exists out, o. split; [right; eauto|]. split; auto.
    destruct (oo_entry g s O v out rel H1) as (E1 & E2 & E3 & E4 & E5 & E6 & E7 & E8 & E9 & E10).
    unfold vend. cbn. rewrite (oo_last g s O).
    pose proof (oo_size g s O v Ht).
    repeat split; try lia. replace (z - o) with rel by lia. auto.
Qed.

Lemma root_unique v r r' : is_root v r -> is_root v r' -> r = r'.
Proof.
  intros [[-> H]|[rel H]] [[-> H']|[rel' H']]; auto.
  - exfalso. apply H. apply in_map_iff. eexists; split; [|exact H']. reflexivity.
  - exfalso. apply H'. apply in_map_iff. eexists; split; [|exact H]. reflexivity.
  - pose proof (oo_nodup g s O) as N. clear -N H H'.
    induction (os_map s) as [|[k x] m IH]; [destruct H|]. cbn in N. inv N.
    destruct H as [H|H], H' as [H'|H'].
    + congruence.
    + inv H. exfalso. apply H2. apply in_map_iff. eexists; split; [|exact H']. reflexivity.
    + inv H'. exfalso. apply H2. apply in_map_iff. eexists; split; [|exact H]. reflexivity.
    + auto.
Qed.

Lemma al0_nodup : NoDup (map fst al0).
Proof.
  eapply Permutation_NoDup; [apply Permutation_sym; apply (po_q g s al0 pl P)|].
  apply queue_names_nodup; auto.
Qed.

Lemma al0_disjoint r1 o1 r2 o2 :
  In (r1, o1) al0 -> In (r2, o2) al0 -> r1 <> r2 -> interf (os_info s) r1 r2 ->
  vend (os_info s) (r1, o1) <= o2 \/ vend (os_info s) (r2, o2) <= o1.
Proof.
  intros H1 H2 Hne Hi.
  pose proof (gi_ok _ _ (po_inv g s al0 pl P)) as OK.
  destruct (ForallOrdPairs_In OK _ _ H1 H2) as [E|[E|E]].
  - congruence.
  - apply E; auto.
  - cbn in E. destruct (E (interf_sym _ _ _ Hi)); auto.
Qed.

Lemma different_roots_disjoint v1 v2 r1 r2 z1 z2 :
  In (v1, z1) (p_alloc pl) -> In (v2, z2) (p_alloc pl) ->
  vi_const (build g v1) = false -> vi_const (build g v2) = false ->
  is_root v1 r1 -> is_root v2 r2 -> r1 <> r2 ->
  vi_first (build g v1) <= vi_last (build g v2) -> vi_first (build g v2) <= vi_last (build g v1) ->
  z1 + vi_size (build g v1) <= z2 \/ z2 + vi_size (build g v2) <= z1.
Proof.
  intros H1 H2 C1 C2 R1 R2 Hne L1 L2.
  destruct (in_root v1 z1 H1 C1) as (a1 & o1 & A1 & A2 & A3 & A4 & _ & A5 & A6).
  destruct (in_root v2 z2 H2 C2) as (a2 & o2 & B1 & B2 & B3 & B4 & _ & B5 & B6).
  assert (a1 = r1) by (eapply root_unique; eauto).
  assert (a2 = r2) by (eapply root_unique; eauto). subst.
  destruct (al0_disjoint r1 o1 r2 o2 A2 B2 Hne); [unfold interf; lia| |]; lia.
Qed.

Lemma plan_nonneg_div v z : In (v, z) (p_alloc pl) -> vi_const (build g v) = false ->
  0 <= z /\ (8 | z).
Proof.
  intros H C. destruct (in_root v z H C) as (r & o & _ & A & B & _ & D & _).
  pose proof (gi_nonneg _ _ (po_inv g s al0 pl P) _ A) as N. cbn in N.
  split; [lia|]. replace z with (o + (z - o)) by lia. apply Z.divide_add_r; auto.
  eapply (allocate_divides _ 8 _ _ _ (po_alloc g s al0 pl P) _ A).
  Unshelve. intros [w y] Hx. apply (Permutation_in _ (q_sort_perm _ _)) in Hx.
  apply in_queue_items in Hx; auto. cbn. apply (oo_div g s O). tauto.
Qed.

Lemma alloc_tensor v z : In (v, z) (p_alloc pl) -> In v (tensors g).
Proof.
  intros H. rewrite <- (po_names g s al0 pl P). apply in_map_iff. exists (v, z); auto.
Qed.

Lemma alloc_exists v : In v (tensors g) -> exists z, In (v, z) (p_alloc pl).
Proof.
  intros H. rewrite <- (po_names g s al0 pl P) in H. apply in_map_iff in H.
  destruct H as ([w z] & E & H). cbn in E. subst. eauto.
Qed.

Lemma peak_ge v z : In (v, z) (p_alloc pl) -> vi_const (build g v) = false ->
  z + vi_size (build g v) <= p_peak pl.
Proof.
  intros H C. destruct (po_peak g s al0 pl P) as [po0 E].
  destruct (peak_loop_spec (os_info s) (p_alloc pl) 0 0 po0) as (_ & K & _).
  rewrite <- E in K. cbn [fst] in K.
  specialize (K (v, z) H). rewrite (oo_const g s O) in K. specialize (K C). unfold vend in K. cbn in K.
  pose proof (oo_size g s O v (alloc_tensor v z H)). lia.
Qed.

Lemma alloc_functional v z z' : In (v, z) (p_alloc pl) -> In (v, z') (p_alloc pl) -> z = z'.
Proof.
  intros H H'. assert (N : NoDup (map fst (p_alloc pl))).
  { rewrite (po_names g s al0 pl P). apply tensors_nodup; auto. }
  pose proof (find_alloc_in _ _ _ N H). pose proof (find_alloc_in _ _ _ N H'). congruence.
Qed.

Lemma key_offset k out rel o : In (k, (out, rel)) (os_map s) -> In (out, o) al0 ->
  In (k, o + rel) (p_alloc pl).
Proof.
  intros Hin Ho.
  destruct (oo_entry g s O k out rel Hin) as (E1 & E2 & _).
  destruct (alloc_exists k E1) as [z Hz].
  destruct (po_entry g s al0 pl P k z Hz) as [[C _]|[(_ & Hk & Ha)|(_ & out' & rel' & o' & H1 & H2 & H3)]].
  - congruence.
  - exfalso. apply Hk. apply in_map_iff. exists (k, (out, rel)). auto.
  - assert (out' = out) by (eapply root_unique; right; eauto). subst out'.
    assert (rel' = rel).
    { pose proof (oo_nodup g s O) as N. clear -N Hin H1.
      induction (os_map s) as [|[a x] m IH]; [destruct Hin|]. cbn in N. inv N.
      destruct Hin as [H|H], H1 as [H'|H'].
      - congruence.
      - inv H. exfalso. apply H2. apply in_map_iff. eexists; split; [|exact H']. reflexivity.
      - inv H'. exfalso. apply H2. apply in_map_iff. eexists; split; [|exact H]. reflexivity.
      - auto. }
    pose proof al0_nodup as N.
    pose proof (find_alloc_in _ _ _ N Ho). pose proof (find_alloc_in _ _ _ N H2).
    assert (o = o') by congruence. subst. auto.
Qed.

Lemma peak_attained : (exists v, In v (tensors g) /\ vi_const (build g v) = false) ->
  exists v z, In (v, z) (p_alloc pl) /\ vi_const (build g v) = false /\
              z + vi_size (build g v) = p_peak pl.
Proof.
  intros (v0 & Hv0 & Hc0). destruct (po_peak g s al0 pl P) as [po0 E].
  destruct (peak_loop_spec (os_info s) (p_alloc pl) 0 0 po0) as (K0 & _ & K).
  rewrite <- E in K0, K. cbn [fst] in K0, K.
  destruct K as [K|([r o] & Hx & Hc & K)].
  - destruct (alloc_exists v0 Hv0) as [z0 Hz0]. exists v0, z0. repeat split; auto.
    pose proof (peak_ge v0 z0 Hz0 Hc0). destruct (plan_nonneg_div v0 z0 Hz0 Hc0).
    pose proof (build_size_nonneg g v0 W Hv0). lia.
  - cbn [fst] in Hc. rewrite (oo_const g s O) in Hc. unfold vend in K. cbn [fst snd] in K.
    assert (Ht := alloc_tensor r o Hx).
    destruct (oo_exact g s O r Ht) as [Ex|(k & rel & Hin & Ex)].
    + exists r, o. repeat split; auto. lia.
    + destruct (oo_entry g s O k r rel Hin) as (E1 & E2 & E3 & E4 & E5 & _).
      assert (Ho : In (r, o) al0).
      { destruct (po_entry g s al0 pl P r o Hx) as [[C _]|[(_ & _ & Ha)|(_ & out & rel' & o' & H1 & _)]]; auto.
        - congruence.
        - exfalso. apply E5. apply in_map_iff. exists (r, (out, rel')). auto. }
      exists k, (o + rel). split; [eapply key_offset; eauto|]. split; auto. lia.
Qed.

(* ---- executing in the arena ---- *)
Lemma assoc_offset_spec v z : In (v, z) (p_alloc pl) ->
  assoc_offset (combine (tensors g) (p_offsets pl)) v = Some z.
Proof.
  intros H. rewrite (po_offsets g s al0 pl P), <- (po_names g s al0 pl P).
  assert (N : NoDup (map fst (p_alloc pl))).
  { rewrite (po_names g s al0 pl P). apply tensors_nodup; auto. }
  induction (p_alloc pl) as [|[w y] l IH]; [destruct H|]. cbn in *. inv N.
  destruct H as [H|H].
  - inv H. rewrite Nat.eqb_refl. auto.
  - destruct (Nat.eqb_spec v w) as [->|]; auto. exfalso. apply H2. apply in_map_iff. exists (w, z); auto.
Qed.

Lemma assoc_size_spec l v t : NoDup (map fst l) -> In (v, t) l ->
  assoc_size l v = match t with Some x => x | None => 0 end.
Proof.
  induction l as [|[w y] l IH]; intros N H; [destruct H|]. cbn in *. inv N.
  destruct H as [H|H].
  - inv H. rewrite Nat.eqb_refl. auto.
  - destruct (Nat.eqb_spec v w) as [->|]; auto. exfalso. apply H2. apply in_map_iff. exists (w, t); auto.
Qed.

Lemma size_table_nodup : NoDup (map fst (size_table g)).
Proof.
  pose proof (wf_nodup g W) as N. unfold size_table, all_names, arg_names, arg_rs in *.
  rewrite map_app, map_map. cbn [fst].
  replace (map fst (flat_map o_res (g_ops g))) with (flat_map res_names (g_ops g)); auto.
  clear N. induction (g_ops g) as [|o l IH]; cbn; auto. rewrite map_app, IH. reflexivity.
Qed.

Lemma size_table_arena v sz : arena_tensor g v sz -> assoc_size (size_table g) v = sz.
Proof.
  intros H. apply (assoc_size_spec _ _ (Some sz)); [apply size_table_nodup|].
  unfold size_table, arg_rs. apply in_or_app. destruct H as [H|(p & o & Ho & _ & Hr)].
  - left. apply in_map_iff. exists (v, sz). auto.
  - right. apply in_flat_map. exists o. split; auto. eapply nth_error_In; eauto.
Qed.

Lemma locs_arena v off sz : plan_locs g (p_offsets pl) v = Some (off, sz) ->
  In (v, off) (p_alloc pl) /\ arena_tensor g v sz.
Proof.
  unfold plan_locs. intros H.
  destruct (assoc_offset _ v) as [z|] eqn:E; [|discriminate].
  assert (Hin : In (v, z) (p_alloc pl)).
  { rewrite (po_offsets g s al0 pl P), <- (po_names g s al0 pl P) in E.
    clear -E. induction (p_alloc pl) as [|[w y] l IH]; cbn in E; [discriminate|].
    destruct (Nat.eqb_spec v w) as [->|]; [inv E; left; auto|right; auto]. }
  destruct (z =? -1) eqn:Ez; [discriminate|]. inv H. split; auto.
  assert (Hc : vi_const (build g v) = false).
  { destruct (po_entry g s al0 pl P v off Hin) as [[_ ->]|[[? _]|[? _]]]; auto. discriminate. }
  destruct (arena_of_nonconst g v W (alloc_tensor v off Hin) Hc) as [sz Ha].
  rewrite (size_table_arena v sz Ha). auto.
Qed.

Lemma clobber_exec sem garbage inputs :
  sem_sized g sem ->
  (forall p v w z1 z2 s1 s2, v <> w ->
     arena_tensor g v s1 -> arena_tensor g w s2 ->
     In (v, z1) (p_alloc pl) -> In (w, z2) (p_alloc pl) ->
     produced_at g v p ->
     (produced_at g w p \/
      ((In w (arg_names g) \/ exists q, (q < p)%nat /\ produced_at g w q) /\
       exists q, (p < q)%nat /\ used_at g w q)) ->
     disjoint_ranges z1 s1 z2 s2) ->
  (forall v w z1 z2 s1 s2, v <> w ->
     arena_tensor g v s1 -> arena_tensor g w s2 ->
     In (v, z1) (p_alloc pl) -> In (w, z2) (p_alloc pl) ->
     In v (arg_names g) -> In w (arg_names g) -> disjoint_ranges z1 s1 z2 s2) ->
  Forall2 (fun b a => Z.of_nat (length b) = snd a) inputs (g_args g) ->
  arena_trace g sem (plan_locs g (p_offsets pl)) garbage inputs = private_trace g sem inputs.
Proof.
  intros Hsem HC HA HF. apply exec_correct; auto.
  - intros v off sz Hl. apply locs_arena in Hl. destruct Hl as [Hin Ha].
    destruct (arena_facts g v sz W Ha) as (_ & _ & _ & _ & _ & Hnn). split; auto.
    pose proof (size_table_arena v sz Ha) as Es. split.
    + intros s' Hs'. rewrite (size_table_arena v s') in Es; auto. left; auto.
    + intros p o r Ho Hr.
      rewrite (assoc_size_spec (size_table g) v r) in Es.
      * destruct Ha as [Ha|(p' & o' & Ho' & _ & Hr')].
        -- exfalso. apply (arg_not_produced g v p W).
           ++ apply in_map_iff. exists (v, sz); auto.
           ++ exists o. split; auto. apply in_map_iff. exists (v, r); auto.
        -- assert (p = p').
           { apply (produced_unique g v p p' W).
             - exists o. split; auto. apply in_map_iff. exists (v, r); auto.
             - exists o'. split; auto. apply in_map_iff. exists (v, Some sz); auto. }
           subst p'. unfold op_at in *. assert (o = o') by congruence. subst o'.
           pose proof (res_nodup g W p o Ho) as N.
           clear -N Hr Hr'. induction (o_res o) as [|[a b] l IH]; [destruct Hr|]. cbn in N. inversion N as [|? ? HN1 HN2]; subst.
           destruct Hr as [H|H], Hr' as [H'|H'].
           ++ congruence.
           ++ injection H as -> ->. exfalso. apply HN1. apply in_map_iff. eexists; split; [|exact H']. reflexivity.
           ++ injection H' as -> ->. exfalso. apply HN1. apply in_map_iff. eexists; split; [|exact H]. reflexivity.
           ++ auto.
      * apply size_table_nodup.
      * unfold size_table. apply in_or_app. right. apply in_flat_map. exists o. split; auto.
        eapply nth_error_In; eauto.
  - intros p r w o1 s1 o2 s2 Hp Hne Hl1 Hl2 Hw.
    apply locs_arena in Hl1, Hl2. destruct Hl1 as [A1 A2], Hl2 as [B1 B2]. eapply (HC p r w); eauto.
  - intros r w o1 s1 o2 s2 Hr Hw Hne Hl1 Hl2.
    apply locs_arena in Hl1, Hl2. destruct Hl1 as [A1 A2], Hl2 as [B1 B2].
    eapply (HA r w); eauto.
Qed.

End Plan.

(* ------------------------------------------------------------------ *)
(** * Plan without overlap *)

Lemma plan_plain iter g po0 pl :
  wf_graph g -> is_perm iter -> get_allocated_offsets iter g false po0 = Some pl ->
  exists al0, plan_ok g (OS [] (build g) []) al0 pl.
Proof.
  intros W I H. apply (plan_spec iter g false po0 pl); auto.
  apply ov_ok_init; auto.
Qed.

Lemma align8_ge s : s <= align8 s.
Proof. pose proof (align8_spec s) as [H _]. lia. Qed.

Lemma plain_disjoint iter g po0 pl :
  wf_graph g -> is_perm iter -> get_allocated_offsets iter g false po0 = Some pl ->
  forall v1 s1 z1 v2 s2 z2, v1 <> v2 ->
    arena_tensor g v1 s1 -> arena_tensor g v2 s2 ->
    In (v1, z1) (p_alloc pl) -> In (v2, z2) (p_alloc pl) ->
    live_together g v1 v2 ->
    z1 + align8 s1 <= z2 \/ z2 + align8 s2 <= z1.
Proof.
  intros W I H v1 s1 z1 v2 s2 z2 Hne A1 A2 I1 I2 L.
  destruct (plan_plain iter g po0 pl W I H) as [al0 P].
  destruct (arena_facts g v1 s1 W A1) as (T1 & C1 & S1 & F1 & L1 & _).
  destruct (arena_facts g v2 s2 W A2) as (T2 & C2 & S2 & F2 & L2 & _).
  destruct (live_together_interf g v1 v2 W L) as [X Y].
  rewrite <- S1, <- S2.
  apply (different_roots_disjoint g _ al0 pl (ov_ok_init g W) P v1 v2 v1 v2); auto.
  - left; auto.
  - left; auto.
  - rewrite F1, L2; auto.
  - rewrite F2, L1; auto.
Qed.

Lemma disjoint_of_ends z1 s1 z2 s2 :
  z1 + align8 s1 <= z2 \/ z2 + align8 s2 <= z1 -> disjoint_ranges z1 s1 z2 s2.
Proof.
  intros H b [B1 B2]. pose proof (align8_ge s1). pose proof (align8_ge s2). lia.
Qed.

Lemma executes_produced g v p sz : wf_graph g -> arena_tensor g v sz -> produced_at g v p -> executes g p.
Proof.
  intros W A HP. destruct A as [A|(q & o & Ho & (K1 & K2 & K3) & Hr)].
  - exfalso. apply (arg_not_produced g v p W); auto. apply in_map_iff. exists (v, sz); auto.
  - assert (q = p).
    { apply (produced_unique g v q p W); auto. exists o. split; auto. apply in_map_iff. exists (v, Some sz); auto. }
    subst q. exists o. auto.
Qed.

(** tensors related as in the clobber condition are live together *)
Lemma clobber_live g p v w : wf_graph g -> executes g p ->
  produced_at g v p ->
  (produced_at g w p \/
      ((In w (arg_names g) \/ exists q, (q < p)%nat /\ produced_at g w q) /\
       exists q, (p < q)%nat /\ used_at g w q)) ->
  live_at g v p /\ live_at g w p.
Proof.
  intros W E Hv Hw. split.
  - split; [right; exists p; auto|left; auto].
  - destruct Hw as [Hw|[Hd (q & Hq & Hu)]].
    + split; [right; exists p; auto|left; auto].
    + split; [|right; exists q; split; auto; lia].
      destruct Hd as [Hd|(q' & Hq' & Hp')]; auto. right. exists q'. split; auto; lia.
Qed.

(* ------------------------------------------------------------------ *)
(** * Plan with overlap *)

Lemma overlap_disjoint iter g po0 pl :
  wf_graph g -> wf_overlap g -> chain_grows g -> is_perm iter ->
  get_allocated_offsets iter g true po0 = Some pl ->
  forall v1 s1 z1 v2 s2 z2, v1 <> v2 ->
    arena_tensor g v1 s1 -> arena_tensor g v2 s2 ->
    In (v1, z1) (p_alloc pl) -> In (v2, z2) (p_alloc pl) ->
    (forall p, executes g p -> live_at g v1 p -> live_at g v2 p ->
       (z1 + align8 s1 <= z2 \/ z2 + align8 s2 <= z1) \/
       consumed_in_place g p v1 v2 \/ consumed_in_place g p v2 v1) /\
    (In v1 (arg_names g) -> In v2 (arg_names g) -> z1 + align8 s1 <= z2 \/ z2 + align8 s2 <= z1).
Proof.
  intros W WO CG I H v1 s1 z1 v2 s2 z2 Hne A1 A2 I1 I2.
  assert (Hs : exists s, overlap_phase g true = Some s).
  { unfold get_allocated_offsets in H. destruct (overlap_phase g true); [eauto|discriminate]. }
  destruct Hs as [s Hs].
  destruct (overlap_phase_ok g W WO CG s Hs) as [O LI].
  destruct (plan_spec iter g true po0 pl s W I Hs O H) as [al0 P].
  destruct (arena_facts g v1 s1 W A1) as (T1 & C1 & S1 & F1 & L1 & _).
  destruct (arena_facts g v2 s2 W A2) as (T2 & C2 & S2 & F2 & L2 & _).
  destruct (in_root g s al0 pl O P v1 z1 I1 C1) as (r1 & o1 & R1 & _).
  destruct (in_root g s al0 pl O P v2 z2 I2 C2) as (r2 & o2 & R2 & _).
  rewrite <- S1, <- S2.
  assert (Diff : r1 <> r2 -> vfirst g v1 <= vlast g v2 -> vfirst g v2 <= vlast g v1 ->
      z1 + vi_size (build g v1) <= z2 \/ z2 + vi_size (build g v2) <= z1).
  { intros Hr X Y. apply (different_roots_disjoint g s al0 pl O P v1 v2 r1 r2); auto.
    - rewrite F1, L2; auto.
    - rewrite F2, L1; auto. }
  (* members of one chain are ordered *)
  assert (Same : r1 = r2 -> before g v1 v2 \/ before g v2 v1).
  { intros E. subst r2. destruct R1 as [[E1 K1]|[rel1 K1]], R2 as [[E2 K2]|[rel2 K2]].
    - congruence.
    - subst r1. right. destruct (li_key g _ s LI v2 v1 rel2 K2) as (_ & _ & _ & B & _). auto.
    - subst r1. left. destruct (li_key g _ s LI v1 v2 rel1 K1) as (_ & _ & _ & B & _). auto.
    - destruct (li_key g _ s LI v1 r1 rel1 K1) as (_ & _ & _ & _ & B). eapply B; eauto. }
  assert (Bef : forall a b p, before g a b -> executes g p -> live_at g a p -> live_at g b p ->
                              consumed_in_place g p a b).
  { intros a b p (B1 & u & q & B2 & B2' & B3 & B4) E La Lb.
    pose proof (live_last g a p W E La) as X1. rewrite (one_use_last g W a u B1 B2) in X1.
    pose proof (live_first g b p W E Lb) as X2. rewrite (ov_first g W q b B3) in X2.
    assert (Eu : executes g u) by (eapply used_executes; eauto).
    assert (Eq : executes g q).
    { destruct B3 as (o & sz & Ho & Hk & _). exists o. split; auto.
      destruct (o_kind o); cbn in Hk; try discriminate; split; congruence. }
    assert (p = u /\ q = u).
    { destruct (Nat.lt_trichotomy p u) as [Hl|[->|Hl]].
      - pose proof (op_id_lt g p u E Eu Hl).
        pose proof (op_id_mono g u q Eq B4). lia.
      - split; auto. destruct (Nat.eq_dec q u); auto.
        pose proof (op_id_lt g u q Eu Eq ltac:(lia)). lia.
      - pose proof (op_id_lt g u p Eu E Hl). lia. }
    destruct H0 as [-> ->].
    destruct B3 as (o & sz & Ho & Hk & Hr). exists o. repeat split; auto.
    - destruct B2 as (o' & Ho' & Hin). unfold op_at in *. assert (o = o') by congruence. subst; auto.
    - intros q' Hq'. eapply one_use_unique; eauto.
    - exists o. split; auto. unfold res_names. rewrite Hr. left; auto. }
  split.
  - intros p E La Lb. destruct (Nat.eq_dec r1 r2) as [Er|Er].
    + right. destruct (Same Er) as [B|B]; [left|right]; eapply Bef; eauto.
    + left. pose proof (live_first g v1 p W E La). pose proof (live_first g v2 p W E Lb).
      pose proof (live_last g v1 p W E La). pose proof (live_last g v2 p W E Lb).
      apply Diff; auto; lia.
  - intros Ha Hb. destruct (live_together_interf g v1 v2 W) as [X Y]; [right; auto|].
    destruct (Nat.eq_dec r1 r2) as [Er|Er]; [|apply Diff; auto].
    exfalso. destruct (Same Er) as [B|B]; destruct B as (_ & u & q & _ & _ & B & _).
    + apply (arg_not_produced g v2 q W Hb). apply ov_res_produced; auto.
    + apply (arg_not_produced g v1 q W Ha). apply ov_res_produced; auto.
Qed.

Lemma plain_exec iter g po0 pl sem garbage inputs :
  wf_graph g -> is_perm iter -> get_allocated_offsets iter g false po0 = Some pl ->
  sem_sized g sem ->
  Forall2 (fun b a => Z.of_nat (length b) = snd a) inputs (g_args g) ->
  arena_trace g sem (plan_locs g (p_offsets pl)) garbage inputs = private_trace g sem inputs.
Proof.
  intros W I H HS HF. destruct (plan_plain iter g po0 pl W I H) as [al0 P].
  apply (clobber_exec g _ al0 pl W P); auto.
  - intros p v w z1 z2 s1 s2 Hne A1 A2 I1 I2 Hp Hw. apply disjoint_of_ends.
    assert (E : executes g p) by exact (executes_produced g v p s1 W A1 Hp).
    apply (plain_disjoint iter g po0 pl W I H v s1 z1 w s2 z2); auto.
    left. exists p. split; auto. eapply clobber_live; eauto.
  - intros v w z1 z2 s1 s2 Hne A1 A2 I1 I2 Ha Hb. apply disjoint_of_ends.
    apply (plain_disjoint iter g po0 pl W I H v s1 z1 w s2 z2); auto. right; auto.
Qed.

Lemma overlap_exec iter g po0 pl sem garbage inputs :
  wf_graph g -> wf_overlap g -> chain_grows g -> is_perm iter ->
  get_allocated_offsets iter g true po0 = Some pl ->
  sem_sized g sem ->
  Forall2 (fun b a => Z.of_nat (length b) = snd a) inputs (g_args g) ->
  arena_trace g sem (plan_locs g (p_offsets pl)) garbage inputs = private_trace g sem inputs.
Proof.
  intros W WO CG I H HS HF.
  assert (Hs : exists s, overlap_phase g true = Some s).
  { unfold get_allocated_offsets in H. destruct (overlap_phase g true); [eauto|discriminate]. }
  destruct Hs as [s Hs].
  destruct (overlap_phase_ok g W WO CG s Hs) as [O LI].
  destruct (plan_spec iter g true po0 pl s W I Hs O H) as [al0 P].
  apply (clobber_exec g s al0 pl W P); auto.
  - intros p v w z1 z2 s1 s2 Hne A1 A2 I1 I2 Hp Hw. apply disjoint_of_ends.
    assert (E : executes g p) by exact (executes_produced g v p s1 W A1 Hp).
    destruct (overlap_disjoint iter g po0 pl W WO CG I H v s1 z1 w s2 z2 Hne A1 A2 I1 I2) as [D _].
    destruct (clobber_live g p v w W E Hp Hw) as [Lv Lw].
    destruct (D p E Lv Lw) as [?|[X|X]]; auto; exfalso.
    + (* v both used and produced at p *)
      destruct X as (o & Ho & _ & Hin & _ & _).
      pose proof (produced_before_use g W v p p Hp). assert (used_at g v p) by (exists o; auto).
      specialize (H0 H1). lia.
    + destruct X as (o & Ho & _ & Hin & Hu & _).
      assert (U : used_at g w p) by (exists o; auto).
      destruct Hw as [Hw|[_ (q & Hq & Hu')]].
      * pose proof (produced_before_use g W w p p Hw U). lia.
      * specialize (Hu q Hu'). lia.
  - intros v w z1 z2 s1 s2 Hne A1 A2 I1 I2 Ha Hb. apply disjoint_of_ends.
    destruct (overlap_disjoint iter g po0 pl W WO CG I H v s1 z1 w s2 z2 Hne A1 A2 I1 I2) as [_ D]. auto.
Qed.
