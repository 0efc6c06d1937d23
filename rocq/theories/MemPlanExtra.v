(** Further lemmas: bounds on the peak, first fit, choice of the plan, in-place
    distances. *)
From Verif Require Import Base MemPlanModel MemPlanSpec MemPlanGreedy MemPlanBuild
     MemPlanAssemble MemPlanOverlap MemExecSpec MemExecProofs MemPlanMain.
From Coq Require Import Sorting.Sorted.
Local Open Scope Z_scope.

Lemma Forall2_in_r {A B} (R : A -> B -> Prop) l l' : Forall2 R l l' ->
  forall y, In y l' -> exists x, In x l /\ R x y.
Proof.
  induction 1 as [|x y l l' Hxy F IH]; intros z Hz; [destruct Hz|]. destruct Hz as [<-|Hz].
  - exists x. split; [left; auto|auto].
  - destruct (IH z Hz) as (w & Hw & R1). exists w. split; [right; auto|auto].
Qed.

Lemma up8_align8 s : up8 s = align8 s.
Proof. unfold up8, align8. Z.to_euclidean_division_equations; lia. Qed.

(* ---- arena_list ---- *)
Lemma in_sized_res o v s : In (v, s) (sized_res o) <-> In (v, Some s) (o_res o).
Proof.
  unfold sized_res. rewrite in_flat_map. split.
  - intros ([w [t|]] & H & E); cbn in E; [|destruct E]. destruct E as [E|[]]. injection E as -> ->. auto.
  - intros H. exists (v, Some s). split; auto. left; auto.
Qed.

Lemma computing_op_spec o : computing_op o = true <-> computing (o_kind o).
Proof.
  unfold computing_op, computing. destruct (o_kind o);
  split; intros H; try discriminate; try (repeat split; congruence); destruct H as (?&?&?); congruence.
Qed.

Lemma in_arena_list g v s : In (v, s) (arena_list g) <-> arena_tensor g v s.
Proof.
  unfold arena_list, arena_tensor. rewrite in_app_iff, in_flat_map. split; (intros [H|H]; [auto|right]).
  - destruct H as (o & Ho & Hr). apply filter_In in Ho. destruct Ho as [Ho Hc].
    apply In_nth_error in Ho. destruct Ho as [p Hp]. exists p, o.
    rewrite computing_op_spec in Hc. rewrite in_sized_res in Hr. auto.
  - destruct H as (p & o & Ho & Hc & Hr). exists o. rewrite filter_In, computing_op_spec, in_sized_res.
    repeat split; auto; try apply Hc. eapply nth_error_In; eauto.
Qed.

Lemma arena_list_nodup g : wf_graph g -> NoDup (map fst (arena_list g)).
Proof.
  intros W. pose proof (wf_nodup g W) as N. unfold arena_list, all_names in *.
  rewrite map_app. apply nodup_app_inv in N. destruct N as (N1 & N2 & N3).
  assert (S : forall o x, In x (map fst (sized_res o)) -> In x (res_names o)).
  { intros o x Hx. apply in_map_iff in Hx. destruct Hx as ([v s] & <- & Hx). apply in_sized_res in Hx.
    apply in_map_iff. exists (v, Some s). auto. }
  apply nodup_app; auto.
  - clear N1 N3. induction (g_ops g) as [|o l IH]; cbn [filter flat_map] in *; [constructor|].
    apply nodup_app_inv in N2. destruct N2 as (M1 & M2 & M3).
    destruct (computing_op o); auto. cbn [flat_map]. rewrite map_app. apply nodup_app; auto.
    + clear -M1. unfold sized_res, res_names in *. induction (o_res o) as [|[v [s|]] r IH]; cbn in *; try constructor.
      * inversion M1 as [|? ? A B]; subst. intros C. apply A.
        apply in_map_iff in C. destruct C as ([w t] & <- & C). apply in_flat_map in C.
        destruct C as ([w' [t'|]] & C1 & C2); [|destruct C2]. destruct C2 as [C2|[]]. injection C2 as -> ->.
        apply in_map_iff. exists (w, Some t). auto.
      * inversion M1; auto.
      * inversion M1; auto.
    + intros x Hx Hy. apply (M3 x); [apply S; auto|].
      apply in_map_iff in Hy. destruct Hy as ([v s] & <- & Hy). apply in_flat_map in Hy.
      destruct Hy as (o' & Ho' & Hy). apply filter_In in Ho'. apply in_flat_map. exists o'.
      split; [tauto|]. apply S. apply in_map. auto.
  - intros x Hx Hy. apply (N3 x); auto.
    apply in_map_iff in Hy. destruct Hy as ([v s] & <- & Hy). apply in_flat_map in Hy.
    destruct Hy as (o' & Ho' & Hy). apply filter_In in Ho'. apply in_flat_map. exists o'.
    split; [tauto|]. apply S. apply in_map. auto.
Qed.

Lemma sum_sizes_arena g l : wf_graph g -> (forall v s, In (v, s) l -> arena_tensor g v s) ->
  sum_sizes (build g) (map fst l) = sum_up8 l.
Proof.
  intros W. induction l as [|[v s] l IH]; intros H; [reflexivity|].
  cbn [map fst]. rewrite sum_sizes_cons. unfold sum_up8 in *. cbn [fold_right snd].
  rewrite IH by (intros; apply H; right; auto).
  destruct (arena_facts g v s W (H v s (or_introl eq_refl))) as (_ & _ & E & _). rewrite E, up8_align8. lia.
Qed.

(* ---- upper bound ---- *)
Lemma plain_peak_le_total iter g po0 pl :
  wf_graph g -> is_perm iter -> get_allocated_offsets iter g false po0 = Some pl ->
  p_peak pl <= sum_up8 (arena_list g).
Proof.
  intros W I H. destruct (plan_plain iter g po0 pl W I H) as [al0 P].
  set (s := OS [] (build g) []) in *.
  pose proof (ov_ok_init g W) as O. fold s in O.
  rewrite <- (sum_sizes_arena g _ W (fun v s H => proj1 (in_arena_list g v s) H)).
  assert (PM : Permutation (map fst (q_sort (os_info s) (queue_items (os_info s) (os_map s) (values g))))
                           (map fst (arena_list g))).
  { rewrite (Permutation_map fst (q_sort_perm (os_info s) _)).
    apply NoDup_Permutation; [apply queue_names_nodup; auto|apply arena_list_nodup; auto|].
    intros v. split; intros Hv; apply in_map_iff in Hv; destruct Hv as ([w z] & <- & Hv); cbn [fst].
    - apply in_queue_items in Hv; auto. destruct Hv as (A & _ & B & _).
      destruct (arena_of_nonconst g w W A B) as [sz Ha]. apply in_map_iff. exists (w, sz).
      split; auto. apply in_arena_list; auto.
    - apply in_arena_list in Hv. destruct (arena_facts g w z W Hv) as (A & B & C & _).
      apply in_map_iff. exists (w, align8 z). split; auto. apply in_queue_items; auto. }
  rewrite <- (sum_sizes_perm (build g) _ _ PM).
  destruct (arena_list g) as [|[v0 s0] l] eqn:El.
  - (* no arena tensor: allocate fails *)
    cbn [map] in PM. apply Permutation_sym, Permutation_nil in PM.
    pose proof (po_alloc g s al0 pl P) as A.
    destruct (q_sort _ _) in *; [cbn in A; discriminate|cbn in PM; discriminate].
  - assert (Ha : arena_tensor g v0 s0) by (apply in_arena_list; rewrite El; left; auto).
    destruct (arena_facts g v0 s0 W Ha) as (A & B & _).
    destruct (peak_attained g s al0 pl W O P) as (v & z & Hin & Hc & E); [eauto|].
    destruct (in_root g s al0 pl O P v z Hin Hc) as (r & o & _ & Hr & _ & Hend & _).
    rewrite <- E.
    pose proof (allocate_bound _ _ _ (q_ok_queue g s W O) (po_alloc g s al0 pl P) _ Hr) as Bd.
    cbn [os_info s] in *. lia.
Qed.

(* ---- lower bound: live tensors are packed disjointly below the peak ---- *)
Definition range_bytes (x : Z * Z) : list Z :=
  map (fun i => fst x + Z.of_nat i) (seq 0 (Z.to_nat (snd x))).

Lemma in_range_bytes x b : In b (range_bytes x) <-> fst x <= b < fst x + snd x.
Proof.
  unfold range_bytes. rewrite in_map_iff. split.
  - intros (i & <- & Hi). apply in_seq in Hi. lia.
  - intros H. exists (Z.to_nat (b - fst x)). split; [lia|]. apply in_seq. lia.
Qed.

Lemma disjoint_ranges_sum l P :
  (forall x, In x l -> 0 <= snd x /\ 0 <= fst x /\ fst x + snd x <= P) ->
  ForallOrdPairs (fun x y => fst x + snd x <= fst y \/ fst y + snd y <= fst x) l ->
  0 <= P ->
  fold_right (fun x n => snd x + n) 0 l <= P.
Proof.
  intros H F HP.
  assert (N : NoDup (flat_map range_bytes l)).
  { induction F as [|x l Hx F IH]; cbn [flat_map]; [constructor|].
    apply nodup_app.
    - unfold range_bytes. apply FinFun.Injective_map_NoDup; [|apply seq_NoDup]. intros a b E. lia.
    - apply IH. intros; apply H; right; auto.
    - intros b Hb Hc. apply in_flat_map in Hc. destruct Hc as (y & Hy & Hc).
      apply in_range_bytes in Hb, Hc. rewrite Forall_forall in Hx. specialize (Hx y Hy). lia. }
  assert (Inc : incl (flat_map range_bytes l) (range_bytes (0, P))).
  { intros b Hb. apply in_flat_map in Hb. destruct Hb as (x & Hx & Hb). apply in_range_bytes in Hb.
    apply in_range_bytes. cbn [fst snd]. specialize (H x Hx). lia. }
  pose proof (NoDup_incl_length N Inc) as L.
  assert (L2 : length (range_bytes (0, P)) = Z.to_nat P)
    by (unfold range_bytes; rewrite map_length, seq_length; auto).
  assert (L1 : fold_right (fun x n => snd x + n) 0 l = Z.of_nat (length (flat_map range_bytes l))).
  { clear -H. induction l as [|x l IH]; cbn [fold_right flat_map]; auto.
    rewrite app_length, IH by (intros; apply H; right; auto).
    unfold range_bytes at 2. rewrite map_length, seq_length.
    destruct (H x (or_introl eq_refl)). lia. }
  lia.
Qed.

Lemma plain_peak_ge_live iter g po0 pl p live :
  wf_graph g -> is_perm iter -> get_allocated_offsets iter g false po0 = Some pl ->
  executes g p -> NoDup (map fst live) ->
  (forall v s, In (v, s) live -> arena_tensor g v s /\ live_at g v p) ->
  sum_up8 live <= p_peak pl.
Proof.
  intros W I H E N HL.
  destruct (plan_plain iter g po0 pl W I H) as [al0 P].
  set (st := OS [] (build g) []) in *. pose proof (ov_ok_init g W) as O. fold st in O.
  assert (HP : 0 <= p_peak pl).
  { destruct (po_peak g st al0 pl P) as [q Eq].
    destruct (peak_loop_spec (os_info st) (p_alloc pl) 0 0 q) as (K0 & _ & _).
    rewrite <- Eq in K0. cbn in K0. lia. }
  assert (X : exists l, map (fun x => snd x) l = map (fun x => up8 (snd x)) live /\
    Forall2 (fun x y => In (fst x, fst y) (p_alloc pl) /\ arena_tensor g (fst x) (snd x) /\
                        snd y = up8 (snd x) /\ live_at g (fst x) p) live l).
  { clear N. induction live as [|[v s] live IH].
    - exists []. split; [auto|constructor].
    - destruct IH as (l & E1 & F); [intros; apply HL; right; auto|].
      destruct (HL v s (or_introl eq_refl)) as [Ha Hl].
      destruct (arena_facts g v s W Ha) as (T & _).
      destruct (alloc_exists g st al0 pl P v T) as [z Hz].
      exists ((z, up8 s) :: l). split; [cbn; congruence|]. constructor; auto. }
  destruct X as (l & E1 & F).
  replace (sum_up8 live) with (fold_right (fun x n => snd x + n) 0 l).
  2: { clear -E1. revert l E1. induction live as [|x live IH]; intros [|y l] E1; cbn in *; try discriminate; auto.
       injection E1 as E0 E1. unfold sum_up8 in *. cbn [fold_right]. rewrite (IH l E1), E0. auto. }
  apply disjoint_ranges_sum; auto.
  - intros y Hy. destruct (Forall2_in_r _ _ _ F y Hy) as (x & Hx & Hin & Ha & Es & _).
    destruct (arena_facts g _ _ W Ha) as (T & C & Sz & _ & _ & Hn).
    rewrite Es, up8_align8. pose proof (align8_ge (snd x)).
    pose proof (peak_ge g st al0 pl O P _ _ Hin C) as Pk. rewrite Sz in Pk.
    destruct (plan_nonneg_div g st al0 pl W O P _ _ Hin C). lia.
  - clear E1. revert N. induction F as [|x y live l Hxy F IH]; intros N; [constructor|].
    cbn [map] in N. inversion N as [|? ? N1 N2]; subst.
    constructor; [|apply IH; auto; intros; apply HL; right; auto].
    apply Forall_forall. intros y' Hy'.
    destruct (Forall2_in_r _ _ _ F y' Hy') as (x' & Hx' & Hin' & Ha' & Es' & Hl').
    destruct Hxy as (Hin & Ha & Es & Hl). rewrite Es, Es', !up8_align8.
    apply (plain_disjoint iter g po0 pl W I H (fst x) (snd x) (fst y) (fst x') (snd x') (fst y')); auto.
    + intros C. apply N1. rewrite C. apply in_map. auto.
    + left. exists p. auto.
Qed.

(* ---- first fit ---- *)
Lemma vfirst_cases g v s : wf_graph g -> arena_tensor g v s ->
  (In v (arg_names g) /\ vfirst g v = 0) \/
  (exists p, produced_at g v p /\ executes g p /\ vfirst g v = op_id (g_ops g) p).
Proof.
  intros W H. unfold vfirst. destruct H as [H|(p & o & Ho & (K1 & K2 & K3) & Hr)].
  - left. assert (Hv : In v (arg_names g)) by (apply in_map_iff; exists (v, s); auto). split; auto.
    rewrite start_pos_arg by auto.
    pose proof (op_id_le (g_ops g) 0). pose proof (op_id_nonneg (g_ops g) 0). cbn in H0. unfold count_ids in H0.
    cbn in H0. lia.
  - right. assert (HP : produced_at g v p) by (exists o; split; auto; apply in_map_iff; exists (v, Some s); auto).
    exists p. split; auto. split; [exists o; auto|]. rewrite (start_pos_produced g v p); auto.
Qed.

Lemma live_at_of_ids g v s p : wf_graph g -> args_used g -> arena_tensor g v s -> executes g p ->
  vfirst g v <= op_id (g_ops g) p -> op_id (g_ops g) p <= vlast g v -> live_at g v p.
Proof.
  intros W AU Ha E F L.
  destruct (vfirst_cases g v s W Ha) as [[Hv F0]|(q & HP & Eq & F0)].
  - split; [left; auto|]. right. destruct (AU v Hv) as [q Hq].
    pose proof (end_pos_used g v q W Hq) as U. exists (end_pos (g_ops g) v). split; auto.
    destruct (Nat.le_gt_cases p (end_pos (g_ops g) v)); auto. exfalso.
    pose proof (op_id_lt g _ p (used_executes g v _ W U) E H). unfold vlast in L. lia.
  - assert (Hqp : (q <= p)%nat).
    { destruct (Nat.le_gt_cases q p); auto. pose proof (op_id_lt g p q E Eq H). lia. }
    split; [right; exists q; auto|].
    destruct (end_pos_cases g v) as [C|C].
    + left. assert (q = p); [|subst; auto]. unfold vlast in L.
      rewrite C, (start_pos_produced g v q W HP) in L.
      destruct (Nat.eq_dec q p); auto. pose proof (op_id_lt g q p Eq E ltac:(lia)). lia.
    + right. exists (end_pos (g_ops g) v). split; auto.
      destruct (Nat.le_gt_cases p (end_pos (g_ops g) v)); auto. exfalso.
      pose proof (op_id_lt g _ p (used_executes g v _ W C) E H). unfold vlast in L. lia.
Qed.

Lemma vfirst_le_vlast g v s : wf_graph g -> args_used g -> arena_tensor g v s -> vfirst g v <= vlast g v.
Proof.
  intros W AU Ha. destruct (vfirst_cases g v s W Ha) as [[Hv F0]|(q & HP & Eq & F0)].
  - rewrite F0. apply op_id_nonneg.
  - rewrite F0. apply live_last; auto. split; [right; exists q; auto|left; auto].
Qed.

Lemma interf_live_together g v w s t :
  wf_graph g -> args_used g -> arena_tensor g v s -> arena_tensor g w t ->
  vfirst g v <= vlast g w -> vfirst g w <= vlast g v -> live_together g v w.
Proof.
  intros W AU Hv Hw L1 L2.
  pose proof (vfirst_le_vlast g v s W AU Hv). pose proof (vfirst_le_vlast g w t W AU Hw).
  destruct (vfirst_cases g v s W Hv) as [[Av Fv]|(p & Pv & Ev & Fv)],
           (vfirst_cases g w t W Hw) as [[Aw Fw]|(q & Pw & Ew & Fw)].
  - right; auto.
  - left. exists q. split; auto. pose proof (op_id_nonneg (g_ops g) q).
    split; eapply live_at_of_ids; eauto; lia.
  - left. exists p. split; auto. pose proof (op_id_nonneg (g_ops g) p).
    split; eapply live_at_of_ids; eauto; lia.
  - left. destruct (Z.le_ge_cases (op_id (g_ops g) p) (op_id (g_ops g) q)).
    + exists q. split; auto. split; eapply live_at_of_ids; eauto; lia.
    + exists p. split; auto. split; eapply live_at_of_ids; eauto; lia.
Qed.

Lemma plain_first_fit iter g po0 pl :
  wf_graph g -> args_used g -> is_perm iter -> get_allocated_offsets iter g false po0 = Some pl ->
  forall v s z, arena_tensor g v s -> In (v, z) (p_alloc pl) ->
  forall z', 0 <= z' < z ->
  exists w t y, w <> v /\ arena_tensor g w t /\ In (w, y) (p_alloc pl) /\
    live_together g v w /\ up8 s <= up8 t /\ y < z' + up8 s /\ z' < y + up8 t.
Proof.
  intros W AU I H v s z Ha Hin z' Hz'.
  destruct (plan_plain iter g po0 pl W I H) as [al0 P].
  set (st := OS [] (build g) []) in *. pose proof (ov_ok_init g W) as O. fold st in O.
  destruct (arena_facts g v s W Ha) as (T & C & Sz & F & L & _).
  assert (Hal : In (v, z) al0).
  { destruct (po_entry g st al0 pl P v z Hin) as [[C' _]|[(_ & _ & A)|(_ & out & rel & o & [] & _)]]; auto.
    congruence. }
  assert (ND : NoDup (map fst (q_sort (os_info st) (queue_items (os_info st) (os_map st) (values g))))).
  { eapply Permutation_NoDup; [apply Permutation_sym; apply Permutation_map; apply q_sort_perm|].
    apply queue_names_nodup; auto. }
  destruct (allocate_first_fit (os_info st) _ _ (q_ok_queue g st W O) (q_sort_sorted _ _) ND
             (po_alloc g st al0 pl P) (v, z) Hal z') as ([w y] & Hy & Hne & Hi & Hs & H1 & H2); [cbn; lia|].
  cbn [fst snd os_info st] in *. unfold vend in H2. cbn [fst snd] in H2.
  pose proof (po_roots g st al0 pl P (w, y) Hy) as Hin'.
  assert (Tw := alloc_tensor g st al0 pl P w y Hin').
  assert (Cw : vi_const (build g w) = false).
  { assert (Hq : In w (map fst al0)) by (apply in_map_iff; exists (w, y); auto).
    apply (Permutation_in _ (po_q g st al0 pl P)) in Hq. apply in_map_iff in Hq.
    destruct Hq as ([w' q] & E & Hq). cbn in E. subst w'. apply in_queue_items in Hq; auto. tauto. }
  destruct (arena_of_nonconst g w W Tw Cw) as [t Hw].
  destruct (arena_facts g w t W Hw) as (_ & _ & Szw & Fw & Lw & _).
  exists w, t, y. rewrite !up8_align8. rewrite Sz, Szw in *. unfold interf in Hi. rewrite Fw, Lw, F, L in Hi.
  repeat split; auto; try lia.
  eapply interf_live_together; eauto; tauto.
Qed.

(* ---- the chosen plan (PlanMemory.cpp) ---- *)
Lemma plan_memory_spec iter g garbage ma :
  plan_memory iter true false g garbage = Some (Some ma) ->
  exists pw pn, get_allocated_offsets iter g true garbage = Some pw /\
    get_allocated_offsets iter g false (p_peak_op pw) = Some pn /\
    ma_peakusage ma = p_peak pn /\ ma_peakopid ma = p_peak_op pn /\
    ((ma_offsets ma = p_offsets pw /\ p_peak pw <= p_peak pn) \/
     (ma_offsets ma = p_offsets pn /\ p_peak pn < p_peak pw)).
Proof.
  unfold plan_memory. cbn [negb orb]. intros H.
  destruct (get_allocated_offsets iter g true garbage) as [pw|] eqn:E1; [|discriminate].
  destruct (get_allocated_offsets iter g false (p_peak_op pw)) as [pn|] eqn:E2; [|discriminate].
  injection H as <-. exists pw, pn. cbn [ma_peakusage ma_peakopid ma_offsets]. repeat split; auto.
  destruct (p_peak pw <=? p_peak pn) eqn:E; [left|right]; split; auto; lia.
Qed.

(* ---- in-place distance ---- *)
Lemma usize_arena g v s : wf_graph g -> arena_tensor g v s -> usize_of (values g) v = s.
Proof.
  intros W H. apply in_values_arena in H; auto.
  apply (usize_of_in (values g) (VD v s false)); auto.
  rewrite values_names by auto. apply tensors_nodup; auto.
Qed.

Lemma rel_offset_ge us out x : us out - us x <= rel_offset us out x.
Proof. unfold rel_offset. Z.to_euclidean_division_equations; lia. Qed.

Lemma rel_offset_exact us out x : us x <= us out -> (8 | us out - us x) -> rel_offset us out x = us out - us x.
Proof. intros H [k E]. unfold rel_offset. rewrite E. Z.to_euclidean_division_equations; lia. Qed.

Lemma in_place_distance iter g po0 pl :
  wf_graph g -> wf_overlap g -> chain_grows g -> is_perm iter ->
  get_allocated_offsets iter g true po0 = Some pl ->
  forall p v sv zv w sw zw,
    consumed_in_place g p v w -> arena_tensor g v sv -> arena_tensor g w sw ->
    In (v, zv) (p_alloc pl) -> In (w, zw) (p_alloc pl) ->
    ((forall q o, op_at g q o -> overlappable (o_kind o) = true -> ~ In w (o_args o)) \/
     (forall x s, arena_tensor g x s -> (8 | s))) ->
    (zv + align8 sv <= zw \/ zw + align8 sw <= zv) \/ sw - sv <= zv - zw.
Proof.
  intros W WO CG I H p v sv zv w sw zw CP Av Aw Iv Iw Side.
  assert (Hs : exists s, overlap_phase g true = Some s).
  { unfold get_allocated_offsets in H. destruct (overlap_phase g true); [eauto|discriminate]. }
  destruct Hs as [s Hs].
  destruct (overlap_phase_ok g W WO CG s Hs) as [O LI].
  destruct (plan_spec iter g true po0 pl s W I Hs O H) as [al0 P].
  destruct (arena_facts g v sv W Av) as (Tv & Cv & Sv & Fv & Lv & _).
  destruct (arena_facts g w sw W Aw) as (Tw & Cw & Sw & Fw & Lw & _).
  destruct CP as (o & Ho & Hk & Hin & Huse & HP).
  assert (U : used_at g v p) by (exists o; auto).
  assert (E : executes g p) by (eapply used_executes; eauto).
  assert (Ld : live_at g v p /\ live_at g w p).
  { split; [|split; [right; exists p; auto|left; auto]].
    split; [|right; exists p; auto].
    destruct (wf_dominance g W p v U) as [?|(q & Hq & Hq')]; auto. right. exists q. split; auto. lia. }
  destruct Ld as [Ldv Ldw].
  pose proof (usize_arena g v sv W Av) as Uv. pose proof (usize_arena g w sw W Aw) as Uw.
  destruct (in_root g s al0 pl O P v zv Iv Cv) as (r1 & o1 & R1 & A1 & _).
  destruct (in_root g s al0 pl O P w zw Iw Cw) as (r2 & o2 & R2 & A2 & _).
  destruct (Nat.eq_dec r1 r2) as [->|Hr].
  2: { left. rewrite <- Sv, <- Sw. apply (different_roots_disjoint g s al0 pl O P v w r1 r2); auto.
       - rewrite Fv, Lw. pose proof (live_first g v p W E Ldv). pose proof (live_last g w p W E Ldw). lia.
       - rewrite Fw, Lv. pose proof (live_first g w p W E Ldw). pose proof (live_last g v p W E Ldv). lia. }
  right.
  assert (NB : forall x, before g w x -> exists q o', op_at g q o' /\ overlappable (o_kind o') = true /\ In w (o_args o')).
  { intros x (_ & u & q & (o' & Ho' & Hin') & Ku & _). exists u, o'. unfold kind_at in Ku. unfold op_at in Ho'.
    rewrite Ho' in Ku. auto. }
  destruct R1 as [[E1 K1]|[rel1 K1]], R2 as [[E2 K2]|[rel2 K2]].
  - exfalso. assert (Evw : v = w) by congruence. rewrite <- Evw in HP.
    pose proof (produced_before_use g W v p p HP U). lia.
  - subst r2. exfalso. destruct (li_key g _ s LI w v rel2 K2) as (_ & _ & _ & B & _).
    destruct B as (_ & u & q & B1 & _ & B3 & B4).
    pose proof (produced_before_use g W w p u HP B1).
    pose proof (produced_before_use g W v q p (ov_res_produced g q v B3) U). lia.
  - rewrite E2 in *. pose proof (key_offset g s al0 pl W O P v w rel1 o2 K1 A2) as Kv.
    rewrite (alloc_functional g s al0 pl W P v _ _ Iv Kv).
    assert (zw = o2).
    { apply (alloc_functional g s al0 pl W P w); auto. apply (po_roots g s al0 pl P); auto. }
    subst o2. destruct (li_rel g _ s LI v w rel1 K1) as [-> _].
    pose proof (rel_offset_ge (usize_of (values g)) w v). lia.
  - destruct Side as [Side|Side].
    + exfalso. destruct (li_key g _ s LI w r2 rel2 K2) as (_ & _ & _ & B & _).
      destruct (NB r2 B) as (q & o' & X1 & X2 & X3). eapply Side; eauto.
    + pose proof (key_offset g s al0 pl W O P v r2 rel1 o2 K1 A2) as Kv.
      pose proof (key_offset g s al0 pl W O P w r2 rel2 o2 K2 A2) as Kw.
      rewrite (alloc_functional g s al0 pl W P v _ _ Iv Kv), (alloc_functional g s al0 pl W P w _ _ Iw Kw).
      destruct (li_rel g _ s LI v r2 rel1 K1) as [-> Le1].
      destruct (li_rel g _ s LI w r2 rel2 K2) as [-> Le2].
      destruct (li_entry g _ s LI v r2 _ K1) as (_ & _ & Tr & Cr & _).
      destruct (arena_of_nonconst g r2 W Tr Cr) as [sr Ar].
      pose proof (usize_arena g r2 sr W Ar) as Ur.
      rewrite !rel_offset_exact; auto.
      * lia.
      * rewrite Ur, Uw. apply Z.divide_sub_r; eauto.
      * rewrite Ur, Uv. apply Z.divide_sub_r; eauto.
Qed.

(** The distance between an operand and the result computed over it, exactly. *)
Lemma in_place_formula iter g po0 pl :
  wf_graph g -> wf_overlap g -> chain_grows g -> is_perm iter ->
  get_allocated_offsets iter g true po0 = Some pl ->
  forall p v sv zv w sw zw,
    consumed_in_place g p v w -> arena_tensor g v sv -> arena_tensor g w sw ->
    In (v, zv) (p_alloc pl) -> In (w, zw) (p_alloc pl) ->
    (zv + align8 sv <= zw \/ zw + align8 sw <= zv) \/
    exists u T, arena_tensor g u T /\ sv <= T /\ sw <= T /\ zv - zw = up8 (T - sv) - up8 (T - sw).
Proof.
  intros W WO CG I H p v sv zv w sw zw CP Av Aw Iv Iw.
  assert (Hs : exists s, overlap_phase g true = Some s).
  { unfold get_allocated_offsets in H. destruct (overlap_phase g true); [eauto|discriminate]. }
  destruct Hs as [s Hs].
  destruct (overlap_phase_ok g W WO CG s Hs) as [O LI].
  destruct (plan_spec iter g true po0 pl s W I Hs O H) as [al0 P].
  destruct (arena_facts g v sv W Av) as (Tv & Cv & Sv & Fv & Lv & _).
  destruct (arena_facts g w sw W Aw) as (Tw & Cw & Sw & Fw & Lw & _).
  destruct CP as (o & Ho & Hk & Hin & Huse & HP).
  assert (U : used_at g v p) by (exists o; auto).
  assert (E : executes g p) by (eapply used_executes; eauto).
  assert (Ld : live_at g v p /\ live_at g w p).
  { split; [|split; [right; exists p; auto|left; auto]].
    split; [|right; exists p; auto].
    destruct (wf_dominance g W p v U) as [?|(q & Hq & Hq')]; auto. right. exists q. split; auto. lia. }
  destruct Ld as [Ldv Ldw].
  pose proof (usize_arena g v sv W Av) as Uv. pose proof (usize_arena g w sw W Aw) as Uw.
  assert (RU : forall us a b, us b <= us a -> rel_offset us a b = up8 (us a - us b)).
  { intros us a b L. unfold rel_offset, up8. Z.to_euclidean_division_equations; lia. }
  destruct (in_root g s al0 pl O P v zv Iv Cv) as (r1 & o1 & R1 & A1 & _).
  destruct (in_root g s al0 pl O P w zw Iw Cw) as (r2 & o2 & R2 & A2 & _).
  destruct (Nat.eq_dec r1 r2) as [->|Hr].
  2: { left. rewrite <- Sv, <- Sw. apply (different_roots_disjoint g s al0 pl O P v w r1 r2); auto.
       - rewrite Fv, Lw. pose proof (live_first g v p W E Ldv). pose proof (live_last g w p W E Ldw). lia.
       - rewrite Fw, Lv. pose proof (live_first g w p W E Ldw). pose proof (live_last g v p W E Ldv). lia. }
  right.
  destruct R1 as [[E1 K1]|[rel1 K1]], R2 as [[E2 K2]|[rel2 K2]].
  - exfalso. assert (Evw : v = w) by congruence. rewrite <- Evw in HP.
    pose proof (produced_before_use g W v p p HP U). lia.
  - subst r2. exfalso. destruct (li_key g _ s LI w v rel2 K2) as (_ & _ & _ & B & _).
    destruct B as (_ & u & q & B1 & _ & B3 & B4).
    pose proof (produced_before_use g W w p u HP B1).
    pose proof (produced_before_use g W v q p (ov_res_produced g q v B3) U). lia.
  - rewrite E2 in *. pose proof (key_offset g s al0 pl W O P v w rel1 o2 K1 A2) as Kv.
    rewrite (alloc_functional g s al0 pl W P v _ _ Iv Kv).
    assert (zw = o2).
    { apply (alloc_functional g s al0 pl W P w); auto. apply (po_roots g s al0 pl P); auto. }
    subst o2. destruct (li_rel g _ s LI v w rel1 K1) as [-> Le1]. rewrite RU by exact Le1.
    exists w, sw. rewrite Uv, Uw in *. split; [exact Aw|]. split; [exact Le1|]. split; [lia|].
    replace (sw - sw) with 0 by lia. change (up8 0) with 0. lia.
  - pose proof (key_offset g s al0 pl W O P v r2 rel1 o2 K1 A2) as Kv.
    pose proof (key_offset g s al0 pl W O P w r2 rel2 o2 K2 A2) as Kw.
    rewrite (alloc_functional g s al0 pl W P v _ _ Iv Kv), (alloc_functional g s al0 pl W P w _ _ Iw Kw).
    destruct (li_rel g _ s LI v r2 rel1 K1) as [-> Le1].
    destruct (li_rel g _ s LI w r2 rel2 K2) as [-> Le2].
    destruct (li_entry g _ s LI v r2 _ K1) as (_ & _ & Tr & Cr & _).
    destruct (arena_of_nonconst g r2 W Tr Cr) as [sr Ar].
    pose proof (usize_arena g r2 sr W Ar) as Ur. rewrite !RU by assumption. rewrite Uv, Uw, Ur in *.
    exists r2, sr. split; [exact Ar|]. split; [exact Le1|]. split; [exact Le2|]. lia.
Qed.
