(** C81: the memory plan report is faithful to the plan.
    Model: ReportModel.  Specification: ReportSpec. *)
From Coq Require Import Ascii String.
From Verif Require Import Base MemPlanModel MemPlanSpec MemPlanBuild MemPlanAssemble MemPlanOverlap MemPlanMain
     MemPlanExtra MemPlanProps ReportModel ReportSpec ReportProofs.
Local Open Scope list_scope.
Local Open Scope Z_scope.

Section Report.
Variables (iter : iomap -> iomap) (g : graph) (po0 : Z) (pl : plan).
Hypothesis I : forall m, Permutation (iter m) m.
Hypothesis W : wf_graph g.
Hypothesis AU : args_used g.
Hypothesis HP : get_allocated_offsets iter g false po0 = Some pl.
Hypothesis Small : 60 * p_peak pl <= 2147483647.

Lemma rp_ctx : exists al0, plan_ok g (OS [] (build g) []) al0 pl.
Proof using I W HP. apply (plan_plain iter g po0 pl); auto. Qed.

Lemma rp_entry i v z : nth_error (non_constant pl) i = Some (v, z) ->
  exists s, nth_error (arena_list g) i = Some (v, s) /\ arena_tensor g v s /\ In (v, z) (p_alloc pl) /\
    offset_of g (p_offsets pl) v z /\ vi_size (build g v) = up8 s.
Proof using I W HP.
  clear Small AU. intros H. destruct rp_ctx as [al0 P].
  pose proof (nc_names g _ al0 pl W P eq_refl) as N.
  assert (Hn : nth_error (map fst (arena_list g)) i = Some v).
  { rewrite <- N. rewrite (map_nth_error fst _ _ H). auto. }
  apply map_nth_error_inv in Hn. destruct Hn as ([v' s] & Hn & E). cbn in E. subst v'.
  exists s. split; auto.
  assert (Ha : arena_tensor g v s) by (apply in_arena_list; eapply nth_error_In; eauto).
  apply nth_error_In in H. unfold non_constant in H. apply filter_In in H. destruct H as [H _].
  split; auto. split; auto. split; [apply (offset_of_alloc g _ al0 pl P); auto|].
  destruct (arena_facts g v s W Ha) as (_ & _ & Sz & _). rewrite up8_align8. auto.
Qed.

Lemma rp_index v s z : arena_tensor g v s -> offset_of g (p_offsets pl) v z ->
  exists i, nth_error (non_constant pl) i = Some (v, z).
Proof using I W HP.
  clear Small AU. intros Ha Hz. destruct rp_ctx as [al0 P].
  apply (offset_of_alloc g _ al0 pl P) in Hz. apply In_nth_error.
  unfold non_constant. apply filter_In. split; auto. rewrite (po_info g _ al0 pl P). cbn [os_info fst].
  destruct (arena_facts g v s W Ha) as (_ & C & _). rewrite C. auto.
Qed.

Lemma rp_nonneg v s z : arena_tensor g v s -> In (v, z) (p_alloc pl) -> 0 <= z /\ 0 <= up8 s /\ z + up8 s <= p_peak pl.
Proof using I W HP.
  clear Small AU. intros Ha H. destruct rp_ctx as [al0 P].
  destruct (arena_facts g v s W Ha) as (_ & C & Sz & _ & _ & Hs).
  destruct (plan_nonneg_div g _ al0 pl W (ov_ok_init g W) P v z H C) as [Z0 _].
  pose proof (peak_ge g _ al0 pl (ov_ok_init g W) P v z H C) as Pk.
  rewrite Sz in Pk. rewrite up8_align8. pose proof (align8_ge s). lia.
Qed.

Lemma rp_size_facts v s : arena_tensor g v s ->
  vi_first (build g v) = vfirst g v /\ vi_last (build g v) = vlast g v.
Proof using W. intros Ha. destruct (arena_facts g v s W Ha) as (_ & _ & _ & F & L & _). auto. Qed.

Lemma rp_on p t v s : step_number g p t -> arena_tensor g v s -> on (build g) (Z.of_nat t) v <-> live_at g v p.
Proof using W AU.
  clear HP Small. intros St Ha. pose proof (step_id g p t St) as Id. destruct St as [E _].
  destruct (rp_size_facts v s Ha) as [F L]. unfold on. rewrite F, L, <- Id. split.
  - intros [A B]. eapply live_at_of_ids; eauto.
  - intros H. split; [apply live_first; auto|apply live_last; auto].
Qed.

Lemma rp_sum t (nc : alloc) (ar : list (vname * Z)) :
  map fst nc = map fst ar ->
  (forall i v z, nth_error nc i = Some (v, z) -> exists s, nth_error ar i = Some (v, s) /\ vi_size (build g v) = up8 s) ->
  entry_sum (build g) (live_entries (build g) t nc) =
  sum_up8 (filter (fun x => (vi_first (build g (fst x)) <=? t) && (t <=? vi_last (build g (fst x)))) ar).
Proof using.
  clear. revert ar. induction nc as [|[v z] nc IH]; intros [|[w s] ar] N H; try discriminate; auto.
  cbn [map fst] in N. injection N as -> N.
  unfold live_entries in *. cbn [filter fst].
  assert (IH' := IH ar N (fun i v z' Q => H (S i) v z' Q)).
  destruct (H 0%nat w z eq_refl) as (s' & Q1 & Q2). cbn in Q1. inv Q1.
  destruct (_ && _); auto. unfold entry_sum, sum_up8 in *. cbn [fold_right fst snd]. rewrite IH', Q2. auto.
Qed.

Lemma rp_report : exists lines, print_memory_plan g pl = Some lines /\
  (forall t l, nth_error lines t = Some l ->
     exists p o, step_number g p t /\ op_at g p o /\ rl_op l = o_kind o /\ rl_time l = Z.of_nat t /\
       faithful_line g (p_offsets pl) (Z.max 60 (p_peak pl)) p (rl_cols l) (rl_used l) (rl_top l)) /\
  (forall p t v s, step_number g p t -> arena_tensor g v s -> live_at g v p -> (t < List.length lines)%nat).
Proof.
  destruct rp_ctx as [al0 P].
  destruct (C04_peak_exact iter g po0 pl I W HP) as [PkU (pv & ps & pz & PkA & PkO & PkE)].
  assert (Pnn : 0 <= p_peak pl).
  { apply (offset_of_alloc g _ al0 pl P) in PkO. pose proof (rp_nonneg pv ps pz PkA PkO). lia. }
  unfold print_memory_plan, line_width.
  destruct (extent_spec (build g) (non_constant pl) 60 0) as (M & T & E & M1 & T1 & C & D & F).
  { intros v z Hin. apply In_nth_error in Hin. destruct Hin as [i Hi].
    destruct (rp_entry i v z Hi) as (s & _ & Ha & Hin & _ & Sz). pose proof (rp_nonneg v s z Ha Hin). lia. }
  rewrite E.
  assert (EM : M = Z.max 60 (p_peak pl)).
  { assert (M <= Z.max 60 (p_peak pl)).
    { destruct D as [->|(v & z & Hin & ->)]; [lia|]. apply In_nth_error in Hin. destruct Hin as [i Hi].
      destruct (rp_entry i v z Hi) as (s & _ & Ha & Hin & _ & Sz). pose proof (rp_nonneg v s z Ha Hin). lia. }
    destruct (rp_index pv ps pz PkA PkO) as (i & Hi). destruct (rp_entry i pv pz Hi) as (s' & _ & Ha' & _ & _ & Sz').
    assert (s' = ps).
    { destruct (arena_facts g pv s' W Ha') as (_ & _ & Q1 & _).
      pose proof (arena_list_nodup g W) as ND.
      apply in_arena_list in Ha'. apply in_arena_list in PkA.
      eapply nodup_fst_functional; eauto. }
    subst s'. apply nth_error_In in Hi. pose proof (C pv pz Hi). lia. }
  assert (HE : exists q, executes g q).
  { destruct PkA as [Q|(p & o & Ho & (K1 & K2 & K3) & _)].
    - destruct (AU pv) as [q Hq]; [apply in_map_iff; exists (pv, ps); auto|].
      exists q. eapply used_executes; eauto.
    - exists p, o. auto. }
  assert (HT : T < Z.of_nat (List.length (operations g))).
  { destruct F as [->|(v & z & Hin & ->)].
    - destruct HE as [q Hq]. pose proof (op_id_bound g q (ex_intro _ q Hq)).
      pose proof (op_id_nonneg (g_ops g) q). lia.
    - apply In_nth_error in Hin. destruct Hin as [i Hi].
      destruct (rp_entry i v z Hi) as (s & _ & Ha & _). destruct (rp_size_facts v s Ha) as [_ ->].
      apply op_id_bound; auto. }
  assert (Line : forall t, (t < List.length (operations g))%nat -> exists l p o,
     report_line g (non_constant pl) M (Z.of_nat t) = Some l /\ step_number g p t /\ op_at g p o /\
     rl_op l = o_kind o /\ rl_time l = Z.of_nat t /\
     faithful_line g (p_offsets pl) M p (rl_cols l) (rl_used l) (rl_top l)).
  { intros t Ht. destruct (nth_error (operations g) t) as [o|] eqn:Eo; [|apply nth_error_None in Eo; lia].
    destruct (nth_filter _ _ _ _ Eo) as (p & Hp & Hid & Et).
    assert (St : step_number g p t).
    { split; [apply executes_runs; exists o; split; auto|]. rewrite Et. reflexivity. }
    set (live := filter (fun x => (vi_first (build g (fst x)) <=? Z.of_nat t) && (Z.of_nat t <=? vi_last (build g (fst x)))) (arena_list g)).
    assert (Nd : needed_at g p live).
    { split.
      - unfold live. apply nodup_map_filter. apply arena_list_nodup; auto.
      - intros v s. unfold live. rewrite filter_In, in_arena_list. cbn [fst].
        split; intros [A B]; (split; [auto|]).
        + apply (rp_on p t v s St A). unfold on. lia.
        + apply (rp_on p t v s St A) in B. unfold on in B. lia. }
    assert (Sum : entry_sum (build g) (live_entries (build g) (Z.of_nat t) (non_constant pl)) = sum_up8 live).
    { apply rp_sum; [apply (nc_names g _ al0 pl W P eq_refl)|].
      intros i v z Hi. destruct (rp_entry i v z Hi) as (s & Q & _ & _ & _ & Sz). eauto. }
    assert (Le : sum_up8 live <= p_peak pl).
    { apply (plain_peak_ge_live iter g po0 pl p); auto; [apply St|apply Nd|]. intros v s Hv. apply Nd. auto. }
    assert (Nn : 0 <= sum_up8 live).
    { rewrite <- Sum. apply entry_sum_nonneg. intros v z Hin. apply In_nth_error in Hin. destruct Hin as [i Hi].
      destruct (rp_entry i v z Hi) as (s & _ & Ha & Hin & _ & Sz). pose proof (rp_nonneg v s z Ha Hin). lia. }
    destruct (line_loop_spec (build g) M (Z.of_nat t) (non_constant pl)) with
      (al := non_constant pl) (k := 0%nat) (line := repeat "."%char 60) (use := 0) (pk := 0)
      as (line & e & EL & Dr & Tp); auto; try lia.
    { intros v z Hin. apply In_nth_error in Hin. destruct Hin as [i Hi].
      destruct (rp_entry i v z Hi) as (s & _ & Ha & Hin & _ & Sz). pose proof (rp_nonneg v s z Ha Hin). lia. }
    { intros i j v z w y Hne Hi Hj Hv Hw.
      destruct (rp_entry i v z Hi) as (s & Qi & Ha & Hin & _ & Sz).
      destruct (rp_entry j w y Hj) as (s' & Qj & Ha' & Hin' & _ & Sz').
      rewrite Sz, Sz', !up8_align8. apply (plain_disjoint iter g po0 pl W I HP v s z w s' y); auto.
      - intros ->. apply Hne. apply (nodup_fst_index _ (arena_list_nodup g W) i j w s s'); auto.
      - left. exists p. split; [apply St|]. split; [apply (rp_on p t v s St Ha); auto|apply (rp_on p t w s' St Ha'); auto]. }
    { split; [reflexivity|]. intros n c Hn. right. split; [|lia].
      apply nth_error_In in Hn. apply repeat_spec in Hn. auto. }
    destruct Tp as (Te0 & Te1 & Te2).
    assert (He : e <= M).
    { destruct Te2 as [->|(v & z & Hin & <-)]; [lia|].
      unfold live_entries in Hin. apply filter_In in Hin. apply (C v z). tauto. }
    change (Z.of_nat 0) with 0 in EL. rewrite Sum in EL. rewrite Z.add_0_l in EL.
    exists (RL (o_kind o) (Z.of_nat t) line (Z.quot (sum_up8 live + 1023) 1024) (Z.quot (e + 1023) 1024)), p, o.
    split.
    { unfold report_line, line_width. change (Z.to_nat 60) with 60%nat. rewrite EL.
      rewrite Nat2Z.id, Eo, !int_ok_some by lia. auto. }
    split; auto. split; auto. split; auto. split; auto. cbn [rl_cols rl_used rl_top].
    destruct Dr as [Dr1 Dr2]. split; auto. split.
    - intros n c Hn. destruct (Dr2 n c Hn) as [(j & v & z & Hj & Q & Ho & R & Ec)|[Ec R]].
      + left. destruct (rp_entry j v z Q) as (s & Qs & Ha & _ & Ho' & Sz).
        exists j, v, s, z. split; auto. split; [apply (rp_on p t v s St Ha); auto|]. split; auto.
        rewrite <- Sz. auto.
      + right. split; auto. intros v s z Ha Hl Ho. destruct (rp_index v s z Ha Ho) as (j & Q).
        destruct (rp_entry j v z Q) as (s' & Qs & Ha' & _ & _ & Sz).
        assert (s' = s) by (apply in_arena_list in Ha; apply in_arena_list in Ha'; eapply nodup_fst_functional; [apply (arena_list_nodup g W)|eauto|eauto]).
        subst s'. rewrite <- Sz. apply (R j v z); auto; [apply nth_error_Some; congruence|].
        apply (rp_on p t v s St Ha); auto.
    - exists live. split; auto. split; [apply quot_kilobytes; auto|].
      exists e. split; [apply quot_kilobytes; auto|]. 
      assert (LL : forall v z, In (v, z) (live_entries (build g) (Z.of_nat t) (non_constant pl)) <-> exists s, In (v, s) live /\ offset_of g (p_offsets pl) v z).
      { intros v z. unfold live_entries, live. rewrite filter_In. cbn [fst]. split.
        - intros [A B]. apply In_nth_error in A. destruct A as [i Hi].
          destruct (rp_entry i v z Hi) as (s & Qs & Ha & _ & Ho' & Sz). exists s. split; auto.
          apply filter_In. split; auto. apply in_arena_list; auto.
        - intros (s & A & B). apply filter_In in A. destruct A as [A A']. split; auto.
          apply in_arena_list in A. destruct (rp_index v s z A B) as (i & Hi). eapply nth_error_In; eauto. }
      assert (SZ : forall v s, In (v, s) live -> vi_size (build g v) = up8 s).
      { intros v s Hin. apply Nd in Hin. destruct Hin as [Ha _].
        destruct (arena_facts g v s W Ha) as (_ & _ & Q & _). rewrite up8_align8. auto. }
      split.
      + intros v s z Hin Ho. rewrite <- (SZ v s Hin). apply Te1. apply LL. eauto.
      + destruct Te2 as [->|(v & z & Hin & <-)].
        * destruct live as [|[v s] live'] eqn:El; [left; auto|right].
          destruct (Nd) as [_ Nd2]. assert (Hv : arena_tensor g v s) by (apply Nd2; left; auto).
          destruct (arena_facts g v s W Hv) as (Tn & _).
          destruct (alloc_exists g _ al0 pl P v Tn) as [z Hz].
          assert (Ho : offset_of g (p_offsets pl) v z) by (apply (offset_of_alloc g _ al0 pl P); auto).
          exists v, s, z. split; [left; auto|]. split; auto.
          pose proof (rp_nonneg v s z Hv Hz).
          assert (z + vi_size (build g v) <= 0) by (apply Te1; apply LL; exists s; split; [left; auto|auto]).
          rewrite (SZ v s) in * by (left; auto). lia.
        * right. apply LL in Hin. destruct Hin as (s & A & B). exists v, s, z. rewrite (SZ v s A). auto. }
  destruct (all_some_map (fun t => report_line g (non_constant pl) M (Z.of_nat t)) (seq 0 (Z.to_nat (T + 1)))) as (ys & EY & LY & NY).
  { intros t Hin. apply in_seq in Hin. destruct (Line t) as (l & p & o & El & _); [lia|]. eauto. }
  exists ys. split; auto. rewrite seq_length in LY. split.
  - intros t l Hl.
    assert (Ht : (t < Z.to_nat (T + 1))%nat) by (rewrite <- LY; apply nth_error_Some; congruence).
    destruct (NY t t) as (y & Ey & Ry).
    { rewrite nth_error_nth' with (d := 0%nat) by (rewrite seq_length; auto). rewrite seq_nth by auto. auto. }
    rewrite Hl in Ey. injection Ey as <-.
    destruct (Line t) as (l' & p & o & El & A); [lia|]. rewrite Ry in El. injection El as <-.
    exists p, o. rewrite <- EM. auto.
  - intros p t v s St Ha Hl. pose proof (step_id g p t St) as Id.
    apply (rp_on p t v s St Ha) in Hl. unfold on in Hl.
    destruct (arena_facts g v s W Ha) as (Tn & _). destruct (alloc_exists g _ al0 pl P v Tn) as [z Hz].
    destruct (rp_index v s z Ha) as (i & Hi); [apply (offset_of_alloc g _ al0 pl P); auto|].
    apply nth_error_In in Hi. pose proof (C v z Hi). lia.
Qed.
End Report.

(** For every function and every plan without overlapping of an arena of up to 35 MB, the
    report is printed without undefined behaviour; the t-th line names the t-th operation and
    is faithful: every column shows the tensor, needed by that operation, whose bytes reach
    the end of the column, or a dot; the sizes are the bytes needed and the highest end. *)
Theorem C81_report_faithful iter g po0 pl :
  (forall m, Permutation (iter m) m) -> wf_graph g -> args_used g ->
  get_allocated_offsets iter g false po0 = Some pl ->
  60 * p_peak pl <= 2147483647 ->
  exists lines, print_memory_plan g pl = Some lines /\
    forall t l, nth_error lines t = Some l ->
      exists p o, step_number g p t /\ op_at g p o /\ rl_op l = o_kind o /\ rl_time l = Z.of_nat t /\
        faithful_line g (p_offsets pl) (Z.max 60 (p_peak pl)) p (rl_cols l) (rl_used l) (rl_top l).
Proof.
  intros I W AU HP Small. destruct (rp_report iter g po0 pl I W AU HP Small) as (lines & E & A & _). eauto.
Qed.

(** No operation during which memory is needed is left out. *)
Theorem C81_report_complete iter g po0 pl lines :
  (forall m, Permutation (iter m) m) -> wf_graph g -> args_used g ->
  get_allocated_offsets iter g false po0 = Some pl ->
  60 * p_peak pl <= 2147483647 ->
  print_memory_plan g pl = Some lines ->
  forall p t v s, step_number g p t -> arena_tensor g v s -> live_at g v p ->
  exists l, nth_error lines t = Some l.
Proof.
  intros I W AU HP Small E p t v s St Ha Hl.
  destruct (rp_report iter g po0 pl I W AU HP Small) as (lines' & E' & _ & A).
  rewrite E in E'. injection E' as <-. specialize (A p t v s St Ha Hl).
  destruct (nth_error lines t) eqn:Q; eauto. apply nth_error_None in Q. lia.
Qed.

(** The report never shows a clash. *)
Theorem C81_no_clash_shown iter g po0 pl lines :
  (forall m, Permutation (iter m) m) -> wf_graph g -> args_used g ->
  get_allocated_offsets iter g false po0 = Some pl ->
  60 * p_peak pl <= 2147483647 ->
  print_memory_plan g pl = Some lines ->
  forall l, In l lines -> ~ In "!"%char (rl_cols l).
Proof.
  intros I W AU HP Small E l Hl Hc.
  destruct (rp_report iter g po0 pl I W AU HP Small) as (lines' & E' & A & _).
  rewrite E in E'. injection E' as <-. apply In_nth_error in Hl. destruct Hl as [t Ht].
  destruct (A t l Ht) as (p & o & _ & _ & _ & _ & (_ & F & _)).
  apply In_nth_error in Hc. destruct Hc as [n Hn].
  destruct (F n _ Hn) as [(i & v & s & z & _ & _ & _ & _ & Q)|[Q _]]; [|discriminate].
  apply (proj2 (label_cases i)). auto.
Qed.

(** Up to 62 tensors, two tensors have different characters. *)
Theorem C81_labels_distinct i j : (i < 62)%nat -> (j < 62)%nat -> label i = label j -> i = j.
Proof. apply label_injective. Qed.

(** A function of three operations, planned and printed. *)
Definition c81_graph : graph :=
  Graph [(0%nat, 3000)]
    [Op KConst [] [(9%nat, Some 64)];
     Op KOther [0; 9]%nat [(1%nat, Some 1000)];
     Op KOther [1]%nat [(2%nat, Some 2000)];
     Op KTerm [2]%nat []].
Example C81_concrete :
  wf_graph c81_graph /\ args_used c81_graph /\
  exists pl, get_allocated_offsets (fun m => m) c81_graph false 0 = Some pl /\ p_peak pl = 4000 /\
  option_map (map (fun l => (rl_op l, rl_time l, string_of_list_ascii (rl_cols l), rl_used l, rl_top l)))
     (print_memory_plan c81_graph pl) =
  Some [ (KOther, 0, "000000000000000000000000000000000000000000000111111111111111"%string, 4, 4);
         (KOther, 1, "222222222222222222222222222222...............111111111111111"%string, 3, 4);
         (KTerm, 2,  "222222222222222222222222222222.............................."%string, 2, 2) ].
Proof.
  split; [|split].
  - split.
    + cbn. repeat (constructor; [cbn; lia|]). constructor.
    + cbn. intros v s [E|[]]. inv E. lia.
    + intros p o v s H. unfold op_at in H. cbn in H.
      destruct p as [|[|[|[|[|p]]]]]; cbn in H; try discriminate; injection H as <-; cbn; intros Q;
        try contradiction; (destruct Q as [Q|[]]; injection Q as <- <-; lia).
    + intros p v (o & H & Hv). unfold op_at in H. cbn in H.
      destruct p as [|[|[|[|[|p]]]]]; cbn in H; try discriminate; injection H as <-; cbn in Hv.
      * contradiction.
      * destruct Hv as [<-|[<-|[]]]; [left; cbn; auto|right; exists 0%nat; split; [lia|]; eexists; split; [reflexivity|cbn; auto]].
      * destruct Hv as [<-|[]]. right; exists 1%nat; split; [lia|]; eexists; split; [reflexivity|cbn; auto].
      * destruct Hv as [<-|[]]. right; exists 2%nat; split; [lia|]; eexists; split; [reflexivity|cbn; auto].
    + intros p o H. unfold op_at in H. cbn in H.
      destruct p as [|[|[|[|[|p]]]]]; cbn in H; try discriminate; injection H as <-; cbn; auto; discriminate.
    + intros p o H. unfold op_at in H. cbn in H.
      destruct p as [|[|[|[|[|p]]]]]; cbn in H; try discriminate; injection H as <-; cbn; discriminate.
  - intros v [<-|[]]. exists 1%nat. eexists. split; [reflexivity|]. cbn. auto.
  - eexists. split; [vm_compute; reflexivity|]. split; [reflexivity|]. vm_compute. reflexivity.
Qed.

(** Refuted for larger arenas: the scaled address overflows an int. *)
Theorem C81_large_arena_refuted :
  exists g pl, wf_graph g /\ args_used g /\
    get_allocated_offsets (fun m => m) g false 0 = Some pl /\ print_memory_plan g pl = None.
Proof.
  exists (Graph [(0%nat, 36000000)] [Op KTerm [0]%nat []]).
  eexists. split; [|split; [|split; [vm_compute; reflexivity|vm_compute; reflexivity]]].
  - split.
    + cbn. repeat (constructor; [cbn; lia|]). constructor.
    + cbn. intros v s [E|[]]. inv E. lia.
    + intros p o v s H. unfold op_at in H. cbn in H. destruct p as [|p]; [cbn in H; inv H; cbn; contradiction|]. destruct p; discriminate.
    + intros p v (o & H & Hv). unfold op_at in H. cbn in H. destruct p as [|p]; [|destruct p; discriminate].
      cbn in H; inv H; cbn in Hv. left. cbn. auto.
    + intros p o H. unfold op_at in H. cbn in H. destruct p as [|p]; [cbn in H; inv H; discriminate|destruct p; discriminate].
    + intros p o H. unfold op_at in H. cbn in H. destruct p as [|p]; [cbn in H; inv H; cbn; discriminate|destruct p; discriminate].
  - intros v [<-|[]]. exists 0%nat. eexists. split; [reflexivity|]. cbn. auto.
Qed.

Print Assumptions C81_report_faithful.
Print Assumptions C81_report_complete.
