(** Properties C01-C08: the offline memory plan.

    Vocabulary: MemPlanSpec (graphs, liveness, byte ranges), MemExecSpec
    (execution with private buffers and in one arena), InPlaceSpec (kernels that
    run in place).  Model: MemPlanModel.  [iter] is the unspecified iteration
    order of a hash map: any permutation. *)
From Verif Require Import Base MemPlanModel MemPlanSpec MemPlanGreedy MemPlanBuild
     MemPlanAssemble MemPlanOverlap MemExecSpec MemExecProofs MemPlanMain MemPlanExtra
     MemPlanShare InPlaceSpec InPlaceProofs.
Local Open Scope Z_scope.

Lemma plain_ctx iter g po0 pl : wf_graph g -> (forall m, Permutation (iter m) m) ->
  get_allocated_offsets iter g false po0 = Some pl ->
  exists s al0, ov_ok g s /\ plan_ok g s al0 pl.
Proof.
  intros W I H. destruct (plan_plain iter g po0 pl W I H) as [al0 P].
  exists (OS [] (build g) []), al0. split; auto. apply ov_ok_init; auto.
Qed.

Lemma overlap_ctx iter g po0 pl : wf_graph g -> wf_overlap g -> chain_grows g ->
  (forall m, Permutation (iter m) m) ->
  get_allocated_offsets iter g true po0 = Some pl ->
  exists s al0, ov_ok g s /\ plan_ok g s al0 pl.
Proof.
  intros W WO CG I H.
  assert (Hs : exists s, overlap_phase g true = Some s).
  { unfold get_allocated_offsets in H. destruct (overlap_phase g true); [eauto|discriminate]. }
  destruct Hs as [s Hs].
  destruct (overlap_phase_ok g W WO CG s Hs) as [O LI].
  destruct (plan_spec iter g true po0 pl s W I Hs O H) as [al0 P]. eauto.
Qed.

(* ------------------------------------------------------------------ *)
(** ** C01 *)
Theorem C01_live_tensors_disjoint iter g po0 pl :
  (forall m, Permutation (iter m) m) -> wf_graph g ->
  get_allocated_offsets iter g false po0 = Some pl ->
  forall v s y w t z,
    v <> w -> arena_tensor g v s -> arena_tensor g w t ->
    offset_of g (p_offsets pl) v y -> offset_of g (p_offsets pl) w z ->
    live_together g v w ->
    disjoint_ranges y s z t.
Proof.
  intros I W H v s y w t z Hne Hv Hw Oy Oz L.
  destruct (plain_ctx iter g po0 pl W I H) as (st & al0 & O & P).
  apply (offset_of_alloc g st al0 pl P) in Oy, Oz.
  apply disjoint_of_ends. eapply (plain_disjoint iter g po0 pl); eauto.
Qed.

(* ------------------------------------------------------------------ *)
(** ** C02 *)
Theorem C02_arena_execution iter g po0 pl sem garbage inputs :
  (forall m, Permutation (iter m) m) -> wf_graph g ->
  get_allocated_offsets iter g false po0 = Some pl ->
  sem_sized g sem ->
  Forall2 (fun b a => Z.of_nat (length b) = snd a) inputs (g_args g) ->
  arena_trace g sem (plan_locs g (p_offsets pl)) garbage inputs = private_trace g sem inputs.
Proof. intros I W H. apply (plain_exec iter g po0 pl); auto. Qed.

(* ------------------------------------------------------------------ *)
(** ** C03 *)
Definition complete_plan (g : graph) (offs : list Z) : Prop :=
  length offs = length (tensors g) /\
  (forall v, constant_tensor g v -> forall z, offset_of g offs v z -> z = -1) /\
  (forall v s, arena_tensor g v s -> exists z, offset_of g offs v z) /\
  (forall v s z, arena_tensor g v s -> offset_of g offs v z -> 0 <= z /\ (8 | z)).

Lemma complete_plan_ok g s al0 pl : wf_graph g -> ov_ok g s -> plan_ok g s al0 pl ->
  complete_plan g (p_offsets pl).
Proof.
  intros W O P. repeat split.
  - rewrite (po_offsets g s al0 pl P), <- (po_names g s al0 pl P), !map_length. auto.
  - intros v Hv z Hz. apply (offset_of_alloc g s al0 pl P) in Hz.
    destruct (constant_facts g v W Hv) as [_ C].
    destruct (po_entry g s al0 pl P v z Hz) as [[_ ?]|[[? _]|[? _]]]; auto; congruence.
  - intros v sz Hv. destruct (arena_facts g v sz W Hv) as (T & _).
    destruct (alloc_exists g s al0 pl P v T) as [z Hz]. exists z. apply (offset_of_alloc g s al0 pl P); auto.
  - apply (offset_of_alloc g s al0 pl P) in H0.
    destruct (arena_facts g v s0 W H) as (_ & C & _). apply (plan_nonneg_div g s al0 pl W O P v z); auto.
  - apply (offset_of_alloc g s al0 pl P) in H0.
    destruct (arena_facts g v s0 W H) as (_ & C & _). apply (plan_nonneg_div g s al0 pl W O P v z); auto.
Qed.

Theorem C03_plan_complete iter g po0 :
  (forall m, Permutation (iter m) m) -> wf_graph g ->
  (exists v s, arena_tensor g v s) ->
  exists pl, get_allocated_offsets iter g false po0 = Some pl /\ complete_plan g (p_offsets pl).
Proof.
  intros I W E.
  destruct (plan_exists iter g false po0 (OS [] (build g) []) W I eq_refl (ov_ok_init g W) E) as [pl H].
  exists pl. split; auto.
  destruct (plain_ctx iter g po0 pl W I H) as (st & al0 & O & P). eapply complete_plan_ok; eauto.
Qed.

(** With overlapping, when chains do not shrink and no overlappable result is dead. *)
Theorem C03_overlap_plan_complete iter g po0 :
  (forall m, Permutation (iter m) m) -> wf_graph g -> wf_overlap g -> chain_grows g -> results_used g ->
  (exists v s, arena_tensor g v s) ->
  exists pl, get_allocated_offsets iter g true po0 = Some pl /\ complete_plan g (p_offsets pl).
Proof.
  intros I W WO CG RU E.
  destruct (overlap_phase_total g WO RU) as [s Hs].
  destruct (overlap_phase_ok g W WO CG s Hs) as [O _].
  destruct (plan_exists iter g true po0 s W I Hs O E) as [pl H].
  exists pl. split; auto.
  destruct (overlap_ctx iter g po0 pl W WO CG I H) as (st & al0 & O' & P). eapply complete_plan_ok; eauto.
Qed.

(* ------------------------------------------------------------------ *)
(** ** C04 *)
Definition exact_peak (g : graph) (offs : list Z) (peak : Z) : Prop :=
  (forall v s z, arena_tensor g v s -> offset_of g offs v z -> z + up8 s <= peak) /\
  (exists v s z, arena_tensor g v s /\ offset_of g offs v z /\ z + up8 s = peak).

Lemma exact_peak_ok g s al0 pl : wf_graph g -> ov_ok g s -> plan_ok g s al0 pl ->
  exact_peak g (p_offsets pl) (p_peak pl).
Proof.
  intros W O P. split.
  - intros v sz z Hv Hz. apply (offset_of_alloc g s al0 pl P) in Hz.
    destruct (arena_facts g v sz W Hv) as (_ & C & Sz & _). rewrite up8_align8, <- Sz.
    apply (peak_ge g s al0 pl O P); auto.
  - destruct (peak_attained g s al0 pl W O P) as (v & z & Hin & C & E).
    + assert (Ne : exists r o, In (r, o) al0).
      { pose proof (po_alloc g s al0 pl P) as A.
        pose proof (allocate_perm _ _ _ A) as PM.
        destruct (q_sort _ _) as [|[r x] q]; [discriminate|].
        assert (In r (map fst al0)) by (eapply Permutation_in; [apply Permutation_sym; exact PM|left; auto]).
        apply in_map_iff in H. destruct H as ([r' o] & _ & H). eauto. }
      destruct Ne as (r & o & Hr). exists r.
      pose proof (alloc_tensor g s al0 pl P r o (po_roots g s al0 pl P _ Hr)). split; auto.
      assert (Hq : In r (map fst al0)) by (apply in_map_iff; exists (r, o); auto).
      apply (Permutation_in _ (po_q g s al0 pl P)) in Hq. apply in_map_iff in Hq.
      destruct Hq as ([w' q] & E & Hq). cbn in E. subst w'. apply in_queue_items in Hq; auto.
      rewrite <- (oo_const g s O). tauto.
    + destruct (arena_of_nonconst g v W (alloc_tensor g s al0 pl P v z Hin) C) as [sz Ha].
      exists v, sz, z. split; auto. split; [apply (offset_of_alloc g s al0 pl P); auto|].
      destruct (arena_facts g v sz W Ha) as (_ & _ & Sz & _). rewrite up8_align8, <- Sz. auto.
Qed.

Theorem C04_peak_exact iter g po0 pl :
  (forall m, Permutation (iter m) m) -> wf_graph g ->
  get_allocated_offsets iter g false po0 = Some pl ->
  exact_peak g (p_offsets pl) (p_peak pl).
Proof.
  intros I W H. destruct (plain_ctx iter g po0 pl W I H) as (st & al0 & O & P). eapply exact_peak_ok; eauto.
Qed.

Theorem C04_overlap_peak_exact iter g po0 pl :
  (forall m, Permutation (iter m) m) -> wf_graph g -> wf_overlap g -> chain_grows g ->
  get_allocated_offsets iter g true po0 = Some pl ->
  exact_peak g (p_offsets pl) (p_peak pl).
Proof.
  intros I W WO CG H. destruct (overlap_ctx iter g po0 pl W WO CG I H) as (st & al0 & O & P).
  eapply exact_peak_ok; eauto.
Qed.

(* ------------------------------------------------------------------ *)
(** ** C05 *)
Theorem C05_first_fit iter g po0 pl :
  (forall m, Permutation (iter m) m) -> wf_graph g -> args_used g ->
  get_allocated_offsets iter g false po0 = Some pl ->
  forall v s z, arena_tensor g v s -> offset_of g (p_offsets pl) v z ->
  (* at every lower address it would collide with a tensor at least as big,
     needed at the same time *)
  forall z', 0 <= z' < z ->
  exists w t y, w <> v /\ arena_tensor g w t /\ offset_of g (p_offsets pl) w y /\
    live_together g v w /\ up8 s <= up8 t /\ y < z' + up8 s /\ z' < y + up8 t.
Proof.
  intros I W AU H v s z Ha Hz z' Hz'.
  destruct (plain_ctx iter g po0 pl W I H) as (st & al0 & O & P).
  apply (offset_of_alloc g st al0 pl P) in Hz.
  destruct (plain_first_fit iter g po0 pl W AU I H v s z Ha Hz z' Hz') as (w & t & y & H1 & H2 & H3 & H4).
  exists w, t, y. repeat split; try tauto. apply (offset_of_alloc g st al0 pl P); auto.
Qed.

Theorem C05_peak_at_most_total iter g po0 pl :
  (forall m, Permutation (iter m) m) -> wf_graph g ->
  get_allocated_offsets iter g false po0 = Some pl ->
  p_peak pl <= sum_up8 (arena_list g).
Proof. intros I W H. eapply plain_peak_le_total; eauto. Qed.

Theorem C05_peak_at_least_live iter g po0 pl p live :
  (forall m, Permutation (iter m) m) -> wf_graph g ->
  get_allocated_offsets iter g false po0 = Some pl ->
  executes g p -> NoDup (map fst live) ->
  (forall v s, In (v, s) live -> arena_tensor g v s /\ live_at g v p) ->
  sum_up8 live <= p_peak pl.
Proof. intros I W H. eapply plain_peak_ge_live; eauto. Qed.

(* ------------------------------------------------------------------ *)
(** ** C06 *)
Theorem C06_overlap_keeps_apart iter g po0 pl :
  (forall m, Permutation (iter m) m) -> wf_graph g -> wf_overlap g -> chain_grows g ->
  get_allocated_offsets iter g true po0 = Some pl ->
  forall v s y w t z,
    v <> w -> arena_tensor g v s -> arena_tensor g w t ->
    offset_of g (p_offsets pl) v y -> offset_of g (p_offsets pl) w z ->
    (forall p, executes g p -> live_at g v p -> live_at g w p ->
       disjoint_ranges y s z t \/ consumed_in_place g p v w \/ consumed_in_place g p w v) /\
    (In v (arg_names g) -> In w (arg_names g) -> disjoint_ranges y s z t).
Proof.
  intros I W WO CG H v s y w t z Hne Hv Hw Oy Oz.
  destruct (overlap_ctx iter g po0 pl W WO CG I H) as (st & al0 & O & P).
  apply (offset_of_alloc g st al0 pl P) in Oy, Oz.
  destruct (overlap_disjoint iter g po0 pl W WO CG I H v s y w t z Hne Hv Hw Oy Oz) as [D1 D2].
  split.
  - intros p E L1 L2. destruct (D1 p E L1 L2) as [D|D]; auto. left. apply disjoint_of_ends; auto.
  - intros A1 A2. apply disjoint_of_ends; auto.
Qed.

(** Consequently, when every operator reads its operands before it writes its
    result, the overlapped plan computes the same values. *)
Theorem C06_overlap_arena_execution iter g po0 pl sem garbage inputs :
  (forall m, Permutation (iter m) m) -> wf_graph g -> wf_overlap g -> chain_grows g ->
  get_allocated_offsets iter g true po0 = Some pl ->
  sem_sized g sem ->
  Forall2 (fun b a => Z.of_nat (length b) = snd a) inputs (g_args g) ->
  arena_trace g sem (plan_locs g (p_offsets pl)) garbage inputs = private_trace g sem inputs.
Proof. intros I W WO CG H. apply (overlap_exec iter g po0 pl); auto. Qed.

(* ------------------------------------------------------------------ *)
(** ** C07 *)

(** A front-to-back kernel whose operand and result overlap with the operand far
    enough behind computes the right result. *)
Theorem C07_front_to_back_in_place K inOff outOff m :
  front_to_back K ->
  Z.of_nat (k_out K) - Z.of_nat (k_in K) <= inOff - outOff ->
  k_in_place K inOff outOff m = k_result K (read m inOff (k_in K)).
Proof. intros. apply k_in_place_correct; auto. Qed.

(** Full property: whenever an operator's operand shares bytes with its result,
    any front-to-back kernel is safe.  Proved when the result is not itself
    consumed by another overlappable operator, or all sizes are multiples of 8;
    refuted otherwise (C07_chain_refuted) because the distance to the end of the
    chain is rounded up for each member separately. *)
Theorem C07_in_place_safe_partial iter g po0 pl :
  (forall m, Permutation (iter m) m) -> wf_graph g -> wf_overlap g -> chain_grows g ->
  get_allocated_offsets iter g true po0 = Some pl ->
  forall p v s y w t z,
    consumed_in_place g p v w ->
    arena_tensor g v s -> arena_tensor g w t ->
    offset_of g (p_offsets pl) v y -> offset_of g (p_offsets pl) w z ->
    ((forall q o, op_at g q o -> overlappable (o_kind o) = true -> ~ In w (o_args o)) \/
     (forall x n, arena_tensor g x n -> (8 | n))) ->
    disjoint_ranges y s z t \/
    (forall K m, front_to_back K -> Z.of_nat (k_in K) = s -> Z.of_nat (k_out K) = t ->
       k_in_place K y z m = k_result K (read m y (k_in K))).
Proof.
  intros I W WO CG H p v s y w t z CP Hv Hw Oy Oz Side.
  destruct (overlap_ctx iter g po0 pl W WO CG I H) as (st & al0 & O & P).
  apply (offset_of_alloc g st al0 pl P) in Oy, Oz.
  destruct (in_place_distance iter g po0 pl W WO CG I H p v s y w t z CP Hv Hw Oy Oz Side) as [D|D].
  - left. apply disjoint_of_ends; auto.
  - right. intros K m F E1 E2. apply k_in_place_correct; auto. lia.
Qed.

(** Exactly when: the operand lies behind the result by up8 (T - s) - up8 (T - t) bytes, T
    the size of the last tensor of the chain, and every front-to-back kernel is right iff
    that is at least what the result is longer. *)
Theorem C07_exactly_when iter g po0 pl :
  (forall m, Permutation (iter m) m) -> wf_graph g -> wf_overlap g -> chain_grows g ->
  get_allocated_offsets iter g true po0 = Some pl ->
  forall p v s y w t z b,
    consumed_in_place g p v w ->
    arena_tensor g v s -> arena_tensor g w t -> s <= t ->
    offset_of g (p_offsets pl) v y -> offset_of g (p_offsets pl) w z ->
    (* the two share a byte *)
    y <= b < y + s -> z <= b < z + t ->
    (exists u T, arena_tensor g u T /\ t <= T /\ y - z = up8 (T - s) - up8 (T - t)) /\
    ((forall K m, front_to_back K -> Z.of_nat (k_in K) = s -> Z.of_nat (k_out K) = t ->
        k_in_place K y z m = k_result K (read m y (k_in K))) <-> t - s <= y - z).
Proof.
  intros I W WO CG H p v s y w t z b CP Hv Hw Hst Oy Oz By Bz.
  destruct (overlap_ctx iter g po0 pl W WO CG I H) as (st & al0 & O & P).
  apply (offset_of_alloc g st al0 pl P) in Oy, Oz.
  destruct (in_place_formula iter g po0 pl W WO CG I H p v s y w t z CP Hv Hw Oy Oz) as [D|(u & T & Au & L1 & L2 & F)].
  { exfalso. apply (disjoint_of_ends y s z t D b). split; assumption. }
  split; [exists u, T; auto|]. split.
  - intros A. destruct (Z_le_dec (t - s) (y - z)) as [L|L]; [exact L|exfalso].
    assert (Zy : z <= y). { assert (up8 (T - t) <= up8 (T - s)) by (unfold up8; Z.to_euclidean_division_equations; lia). lia. }
    pose proof (pad_in_place_wrong (Z.to_nat s) (Z.to_nat t) y z ltac:(lia) Zy ltac:(lia)) as X. cbv zeta in X. apply X.
    apply (A (pad_kernel (Z.to_nat s) (Z.to_nat t - Z.to_nat s) (Z.to_nat t) 0)); [apply pad_kernel_front_to_back; lia|cbn; lia|cbn; lia].
  - intros L K m F1 E1 E2. apply k_in_place_correct; auto. lia.
Qed.

(** The overlap really happens: an operator that may run in place, one of whose (at most
    two) operands lives in the arena and is used only by it, once, and none of whose
    only-here operands is larger than the result, has an operand [v] stored over the
    result.  [v] begins at most [t - s + 7] bytes behind the result, exactly on it if it is
    as long, and shares bytes with it if it has at least 8. *)
Theorem C07_happens iter g po0 pl :
  (forall m, Permutation (iter m) m) -> wf_graph g -> wf_overlap g -> chain_grows g ->
  get_allocated_offsets iter g true po0 = Some pl ->
  forall p o w t z,
    op_at g p o -> overlappable (o_kind o) = true -> (length (o_args o) <= 2)%nat ->
    o_res o = [(w, Some t)] -> arena_tensor g w t -> offset_of g (p_offsets pl) w z ->
    (exists v s, arena_tensor g v s /\ count_occ Nat.eq_dec (o_args o) v = 1%nat /\
       forall q, used_at g v q -> q = p) ->
    (forall v s, arena_tensor g v s -> In v (o_args o) -> (forall q, used_at g v q -> q = p) -> s <= t) ->
    exists v s y, consumed_in_place g p v w /\ arena_tensor g v s /\ s <= t /\
      offset_of g (p_offsets pl) v y /\
      (exists u T, arena_tensor g u T /\ t <= T /\ y - z = up8 (T - s) - up8 (T - t)) /\
      z <= y <= z + (t - s) + 7 /\ (s = t -> y = z) /\ (8 <= s -> y < z + t).
Proof.
  intros I W WO CG H p o w t z Ho Hk Hl Hr Aw Oz E Hs.
  destruct (overlap_ctx iter g po0 pl W WO CG I H) as (st & al0 & O & P).
  apply (offset_of_alloc g st al0 pl P) in Oz.
  destruct (in_place_happens iter g po0 pl W WO CG I H p o w t z Ho Hk Hl Hr Aw Oz E Hs)
    as (v & s & y & u & T & Iv & Av & Uv & Ay & Au & L1 & L2 & F).
  exists v, s, y. split.
  { exists o. split; [exact Ho|]. split; [exact Hk|]. split; [exact Iv|]. split; [exact Uv|].
    exists o. split; [exact Ho|]. unfold res_names. rewrite Hr. cbn. auto. }
  assert (Hst : s <= t) by (eapply Hs; eauto).
  split; [exact Av|]. split; [exact Hst|]. split.
  { apply (offset_of_alloc g st al0 pl P). exact Ay. }
  split; [exists u, T; auto|].
  assert (B : z <= y <= z + (t - s) + 7) by (unfold up8 in F; Z.to_euclidean_division_equations; lia).
  split; [exact B|]. split; [intros ->; lia|]. intros; lia.
Qed.

(* ------------------------------------------------------------------ *)
(** ** C08 *)
Theorem C08_chosen_plan iter g garbage ma :
  (forall m, Permutation (iter m) m) -> wf_graph g -> wf_overlap g -> chain_grows g ->
  plan_memory iter true false g garbage = Some (Some ma) ->
  (exists pn po, get_allocated_offsets iter g false po = Some pn /\
     ma_peakusage ma = p_peak pn /\ exact_peak g (p_offsets pn) (ma_peakusage ma)) /\
  complete_plan g (ma_offsets ma) /\
  (forall v s z, arena_tensor g v s -> offset_of g (ma_offsets ma) v z -> z + up8 s <= ma_peakusage ma).
Proof.
  intros I W WO CG H. destruct (plan_memory_spec iter g garbage ma H) as (pw & pn & H1 & H2 & E1 & E2 & C).
  destruct (plain_ctx iter g _ pn W I H2) as (st & al0 & O & P).
  destruct (overlap_ctx iter g _ pw W WO CG I H1) as (st' & al0' & O' & P').
  pose proof (exact_peak_ok g st al0 pn W O P) as X.
  pose proof (exact_peak_ok g st' al0' pw W O' P') as X'.
  split; [exists pn, (p_peak_op pw); rewrite E1; auto|].
  destruct C as [[-> Le]|[-> Lt]].
  - split; [apply (complete_plan_ok g st' al0' pw W O' P')|]. intros v s z Hv Hz. destruct X' as [X' _].
    specialize (X' v s z Hv Hz). lia.
  - split; [apply (complete_plan_ok g st al0 pn W O P)|]. intros v s z Hv Hz. destruct X as [X _].
    specialize (X v s z Hv Hz). lia.
Qed.

(** The plan written in the model executes correctly (operands read before the
    result is written). *)
Theorem C08_chosen_plan_execution iter g garbage ma sem mem inputs :
  (forall m, Permutation (iter m) m) -> wf_graph g -> wf_overlap g -> chain_grows g ->
  plan_memory iter true false g garbage = Some (Some ma) ->
  sem_sized g sem ->
  Forall2 (fun b a => Z.of_nat (length b) = snd a) inputs (g_args g) ->
  arena_trace g sem (plan_locs g (ma_offsets ma)) mem inputs = private_trace g sem inputs.
Proof.
  intros I W WO CG H HS HF. destruct (plan_memory_spec iter g garbage ma H) as (pw & pn & H1 & H2 & _ & _ & C).
  destruct C as [[-> _]|[-> _]].
  - eapply overlap_exec; eauto.
  - eapply plain_exec; eauto.
Qed.

(** Nothing is written when planning is disabled or the model has control flow. *)
Theorem C08_no_plan_when_disabled iter off uns g garbage :
  off = false \/ uns = true -> plan_memory iter off uns g garbage = Some None.
Proof. intros [-> | ->]; unfold plan_memory; cbn; auto. rewrite orb_true_r. auto. Qed.

(* ------------------------------------------------------------------ *)
(** ** A concrete graph meeting all hypotheses *)

(** input(24) ; const(10) ; conv(input, const) -> 2 (30) ; pad(2) -> 3 (45);
    pad_3_to_4(3) -> 4 (61); other(4, input) -> 5 (16); return 5 *)
Definition ex_g : graph :=
  Graph [(0%nat, 24)]
    [ Op KConst [] [(1%nat, Some 10)];
      Op KOther [0%nat; 1%nat] [(2%nat, Some 30)];
      Op KPad [2%nat] [(3%nat, Some 45)];
      Op KPad3To4 [3%nat] [(4%nat, Some 61)];
      Op KOther [4%nat; 0%nat] [(5%nat, Some 16)];
      Op KTerm [5%nat] [] ].

Lemma some_inj {A} (x y : A) : Some x = Some y -> x = y.
Proof. congruence. Qed.

Ltac ops p H := unfold op_at in H;
  do 8 (try (destruct p as [|p]; [first [discriminate H | apply some_inj in H; subst]|]));
  try (destruct p; discriminate H).

Lemma ex_wf : wf_graph ex_g.
Proof.
  constructor.
  - cbn. repeat constructor; cbn; intuition discriminate.
  - cbn. intros v s [E|[]]. injection E as <- <-. lia.
  - intros p o v s H Hr. ops p H; cbn in Hr; intuition;
      match goal with E : (_, _) = (_, _) |- _ => injection E as <- <- end; lia.
  - intros p v (o & H & Hv). ops p H; cbn in Hv; intuition; subst; cbn; auto; right.
    + exists 0%nat. split; [lia|]. eexists. split; [reflexivity|cbn; auto].
    + exists 1%nat. split; [lia|]. eexists. split; [reflexivity|cbn; auto].
    + exists 2%nat. split; [lia|]. eexists. split; [reflexivity|cbn; auto].
    + exists 3%nat. split; [lia|]. eexists. split; [reflexivity|cbn; auto].
    + exists 4%nat. split; [lia|]. eexists. split; [reflexivity|cbn; auto].
  - intros p o H K. ops p H; cbn in K; try discriminate; auto.
  - intros p o H K. ops p H; cbn in K; discriminate.
Qed.

Lemma ex_wo : wf_overlap ex_g.
Proof.
  constructor.
  - intros p o H K. ops p H; cbn in K; try discriminate; cbn; eauto.
  - intros p o v H K Hv. ops p H; cbn in K; try discriminate; cbn in Hv; intuition; subst; cbn; auto 10.
  - intros p o H K. ops p H; cbn in K; try discriminate; cbn; congruence.
Qed.

Lemma ex_cg : chain_grows ex_g.
Proof.
  intros p o r s q o' r' s' H K R H' K' R' Hin.
  ops p H; cbn in K; try discriminate; cbn in R; injection R as <- <-;
  ops q H'; cbn in K'; try discriminate; cbn in R'; injection R' as <- <-; cbn in Hin; try lia; intuition discriminate.
Qed.

Lemma ex_ru : results_used ex_g.
Proof.
  intros p o r s H K R. ops p H; cbn in K; try discriminate; cbn in R; injection R as <- <-.
  - exists 3%nat. eexists; split; [reflexivity|cbn; auto].
  - exists 4%nat. eexists; split; [reflexivity|cbn; auto].
Qed.

Lemma ex_au : args_used ex_g.
Proof. intros v [<-|[]]. exists 1%nat. eexists; split; [reflexivity|cbn; auto]. Qed.

(** The two plans: offsets per tensor (input, const, conv, pad, pad_3_to_4, other). *)
Example ex_plain :
  match get_allocated_offsets (fun m => m) ex_g false 0 with
  | Some pl => p_offsets pl = [112; -1; 0; 64; 0; 64] /\ p_peak pl = 136
  | None => False end.
Proof. vm_compute. auto. Qed.

Example ex_overlap :
  match get_allocated_offsets (fun m => m) ex_g true 0 with
  | Some pl => p_offsets pl = [64; -1; 32; 16; 0; 88] /\ p_peak pl = 104
  | None => False end.
Proof. vm_compute. auto. Qed.

Example ex_live_together : live_together ex_g 0 2 /\ arena_tensor ex_g 0 24 /\ arena_tensor ex_g 2 30.
Proof.
  split; [left; exists 2%nat; split|split].
  - eexists; split; [reflexivity|split; discriminate].
  - split.
    + split; [left; cbn; auto|right; exists 4%nat; split; [lia|eexists; split; [reflexivity|cbn; auto]]].
    + split; [right; exists 1%nat; split; [lia|eexists; split; [reflexivity|cbn; auto]]|].
      right; exists 2%nat; split; [lia|eexists; split; [reflexivity|cbn; auto]].
  - left; cbn; auto.
  - right. exists 1%nat. eexists. split; [reflexivity|]. split; [repeat split; discriminate|cbn; auto].
Qed.

Example ex_consumed : consumed_in_place ex_g 3 3 4.
Proof.
  eexists; split; [reflexivity|]. split; [reflexivity|]. split; [cbn; auto|]. split.
  - intros q (o & H & Hin). ops q H; cbn in Hin; intuition discriminate.
  - eexists; split; [reflexivity|cbn; auto].
Qed.

(** The operator at 3 of the example meets the hypotheses of C07_happens; its operand lies
    16 bytes behind its result, 16 = 61 - 45. *)
Example ex_happens :
  (exists v s, arena_tensor ex_g v s /\ count_occ Nat.eq_dec [3%nat] v = 1%nat /\
     forall q, used_at ex_g v q -> q = 3%nat) /\
  (forall v s, arena_tensor ex_g v s -> In v [3%nat] -> (forall q, used_at ex_g v q -> q = 3%nat) -> s <= 61).
Proof.
  split.
  - exists 3%nat, 45. split; [|split; [reflexivity|]].
    + right. exists 2%nat. eexists. split; [reflexivity|]. split; [repeat split; discriminate|cbn; auto].
    + intros q (o & H & Hin). ops q H; cbn in Hin; intuition discriminate.
  - intros v s [A|(p & o & H & K & R)] [<-|[]] _.
    + cbn in A. destruct A as [A|[]]. discriminate.
    + ops p H; cbn in R; intuition; match goal with E : (_, _) = (_, _) |- _ => injection E; intros; subst end; try discriminate; lia.
Qed.

(* ------------------------------------------------------------------ *)
(** ** Refutations: the side conditions above are necessary *)

(** C07 in general is false of the code: two pads in a row, sizes 8 -> 15 -> 16.
    The middle tensor and the input get the same offset, so a pad that writes 7
    leading bytes destroys 7 input bytes before they are read. *)
Definition bad_chain : graph :=
  Graph [(0%nat, 8)]
    [ Op KPad [0%nat] [(1%nat, Some 15)];
      Op KPad [1%nat] [(2%nat, Some 16)];
      Op KOther [2%nat] [(3%nat, Some 4)];
      Op KTerm [3%nat] [] ].

Ltac wf_tac :=
  constructor;
  [ cbn; repeat constructor; cbn; intuition discriminate
  | cbn; intros v s [E|[]]; injection E as <- <-; lia
  | intros p o v s H Hr; ops p H; cbn in Hr; intuition;
      match goal with E : (_, _) = (_, _) |- _ => injection E as <- <- end; lia
  | intros p v (o & H & Hv); ops p H; cbn in Hv; intuition; subst; cbn; auto; right;
    first [ exists 0%nat; split; [lia|]; eexists; split; [reflexivity|cbn; solve [auto]]
          | exists 1%nat; split; [lia|]; eexists; split; [reflexivity|cbn; solve [auto]]
          | exists 2%nat; split; [lia|]; eexists; split; [reflexivity|cbn; solve [auto]]
          | exists 3%nat; split; [lia|]; eexists; split; [reflexivity|cbn; solve [auto]] ]
  | intros p o H K; ops p H; cbn in K; try discriminate; auto
  | intros p o H K; ops p H; cbn in K; discriminate ].

Ltac wo_tac :=
  constructor;
  [ intros p o H K; ops p H; cbn in K; try discriminate; cbn; eauto
  | intros p o v H K Hv; ops p H; cbn in K; try discriminate; cbn in Hv; intuition; subst; cbn; auto 10
  | intros p o H K; ops p H; cbn in K; try discriminate; cbn; congruence ].

Ltac cg_tac :=
  intros p o r s q o' r' s' H K R H' K' R' Hin;
  ops p H; cbn in K; try discriminate; cbn in R; injection R as <- <-;
  ops q H'; cbn in K'; try discriminate; cbn in R'; injection R' as <- <-; cbn in Hin; try lia; intuition discriminate.

(** These graphs satisfy every general hypothesis of the theorems above. *)
Lemma bad_chain_ok : wf_graph bad_chain /\ wf_overlap bad_chain /\ chain_grows bad_chain.
Proof. split; [wf_tac|split; [wo_tac|cg_tac]]. Qed.

Theorem C07_chain_refuted :
  exists pl, get_allocated_offsets (fun m => m) bad_chain true 0 = Some pl /\
    p_offsets pl = [8; 8; 0; 24] /\
    let K := pad_kernel 8 7 15 0 in
    let m := fun a => 100 + a in
    front_to_back K /\ Z.of_nat (k_in K) = 8 /\ Z.of_nat (k_out K) = 15 /\
    k_in_place K 8 8 m <> k_result K (read m 8 8).
Proof.
  eexists. split; [vm_compute; reflexivity|]. split; [reflexivity|]. cbv zeta.
  split; [apply pad_kernel_front_to_back; lia|]. split; [reflexivity|]. split; [reflexivity|].
  vm_compute. discriminate.
Qed.

(** A lookup whose data input has another user and whose table is an op result
    (loaded from external memory) is overlapped with its *table*: the 256 table
    bytes lie inside the output range although the kernel keeps reading them. *)
Definition lut_graph : graph :=
  Graph [(0%nat, 512)]
    [ Op KOther [] [(1%nat, Some 256)];
      Op KLookup [0%nat; 1%nat] [(2%nat, Some 512)];
      Op KOther [2%nat; 0%nat] [(3%nat, Some 16)];
      Op KTerm [3%nat] [] ].

Lemma lut_graph_ok : wf_graph lut_graph /\ wf_overlap lut_graph /\ chain_grows lut_graph.
Proof. split; [wf_tac|split; [wo_tac|cg_tac]]. Qed.

Theorem C07_lookup_table_refuted :
  exists pl yt yo, get_allocated_offsets (fun m => m) lut_graph true 0 = Some pl /\
    offset_of lut_graph (p_offsets pl) 1 yt /\ offset_of lut_graph (p_offsets pl) 2 yo /\
    yo <= yt /\ yt + 256 <= yo + 512.
Proof.
  do 3 eexists. split; [vm_compute; reflexivity|].
  split; [exists 1%nat; split; reflexivity|]. split; [exists 2%nat; split; reflexivity|]. lia.
Qed.

(** Without [chain_grows]: pad to 100 bytes, then a lookup-like op with a 9-byte
    result.  The input's offset is negative or collides: the planned range of the
    first tensor starts below the arena. *)
Definition shrink_graph : graph :=
  Graph [(0%nat, 80)]
    [ Op KPad [0%nat] [(1%nat, Some 100)];
      Op KPad [1%nat] [(2%nat, Some 9)];
      Op KOther [2%nat] [(3%nat, Some 8)];
      Op KTerm [3%nat] [] ].

Lemma shrink_graph_ok : wf_graph shrink_graph /\ wf_overlap shrink_graph.
Proof. split; [wf_tac|wo_tac]. Qed.

Theorem C03_shrinking_chain_refuted :
  exists pl z, get_allocated_offsets (fun m => m) shrink_graph true 0 = Some pl /\
    arena_tensor shrink_graph 1 100 /\ offset_of shrink_graph (p_offsets pl) 1 z /\ z < 0.
Proof.
  eexists. eexists. split; [vm_compute; reflexivity|].
  split; [right; exists 0%nat; eexists; split; [reflexivity|split; [repeat split; discriminate|cbn; auto]]|].
  split; [exists 1%nat; split; reflexivity|]. lia.
Qed.

(** Without arena tensors the queue is empty (undefined behaviour). *)
Theorem C03_no_tensor_refuted :
  get_allocated_offsets (fun m => m) (Graph [] [Op KConst [] [(0%nat, Some 4)]; Op KTerm [0%nat] []]) false 0 = None.
Proof. reflexivity. Qed.

Print Assumptions C01_live_tensors_disjoint.
Print Assumptions C02_arena_execution.
Print Assumptions C03_plan_complete.
Print Assumptions C03_overlap_plan_complete.
Print Assumptions C04_peak_exact.
Print Assumptions C04_overlap_peak_exact.
Print Assumptions C05_first_fit.
Print Assumptions C05_peak_at_most_total.
Print Assumptions C05_peak_at_least_live.
Print Assumptions C06_overlap_keeps_apart.
Print Assumptions C06_overlap_arena_execution.
Print Assumptions C07_front_to_back_in_place.
Print Assumptions C07_in_place_safe_partial.
Print Assumptions C08_chosen_plan.
Print Assumptions C08_chosen_plan_execution.
Print Assumptions C07_exactly_when.
Print Assumptions C07_happens.
