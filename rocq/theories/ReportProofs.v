(** Lemmas about the memory plan report. *)
From Coq Require Import Ascii String.
From Verif Require Import Base MemPlanModel MemPlanSpec MemPlanBuild MemPlanAssemble MemPlanMain
     MemPlanExtra MemPlanProps ReportModel ReportSpec.
Local Open Scope list_scope.
Local Open Scope Z_scope.

Lemma label_ordinal i : ordinal_character (Z.of_nat i) = label i.
Proof.
  destruct (Nat.lt_ge_cases i 62) as [H|H].
  - do 62 (destruct i as [|i]; [vm_compute; reflexivity|]). lia.
  - unfold ordinal_character, label.
    replace (Z.of_nat i <? 10) with false by lia.
    replace (Z.of_nat i <? 36) with false by lia.
    replace (Z.of_nat i <? 62) with false by lia.
    rewrite nth_overflow; [reflexivity|cbn; lia].
Qed.

Lemma label_cases i : label i <> "."%char /\ label i <> "!"%char.
Proof.
  destruct (Nat.lt_ge_cases i 62) as [H|H].
  - do 62 (destruct i as [|i]; [vm_compute; split; discriminate|]). lia.
  - unfold label. rewrite nth_overflow; [split; discriminate|cbn; lia].
Qed.

Lemma label_injective i j : (i < 62)%nat -> (j < 62)%nat -> label i = label j -> i = j.
Proof.
  intros Hi Hj E.
  assert (E' : nat_of_ascii (label i) = nat_of_ascii (label j)) by congruence.
  rewrite <- !label_ordinal in E'. unfold ordinal_character in E'.
  destruct (Z.of_nat i <? 10) eqn:A1, (Z.of_nat j <? 10) eqn:B1;
  destruct (Z.of_nat i <? 36) eqn:A2, (Z.of_nat j <? 36) eqn:B2;
  destruct (Z.of_nat i <? 62) eqn:A3, (Z.of_nat j <? 62) eqn:B3;
    rewrite ?nat_ascii_embedding in E' by lia; lia.
Qed.

Lemma int_ok_some z : - 2147483648 <= z <= 2147483647 -> int_ok z = Some z.
Proof. intros H. unfold int_ok. replace ((-2147483648 <=? z) && (z <=? 2147483647)) with true by lia. auto. Qed.

Lemma if_gt_max a b : let m := if a >? b then a else b in b <= m /\ a <= m /\ (m = b \/ m = a).
Proof. cbv zeta. destruct (a >? b) eqn:G; lia. Qed.

(** extent *)
Lemma extent_spec info al : forall ms mt,
  (forall v z, In (v, z) al -> - 2147483648 <= z + vi_size (info v) <= 2147483647) ->
  exists M T, extent info al ms mt = Some (M, T) /\
    ms <= M /\ mt <= T /\
    (forall v z, In (v, z) al -> z + vi_size (info v) <= M /\ vi_last (info v) <= T) /\
    (M = ms \/ exists v z, In (v, z) al /\ M = z + vi_size (info v)) /\
    (T = mt \/ exists v z, In (v, z) al /\ T = vi_last (info v)).
Proof.
  induction al as [|[v z] al IH]; intros ms mt H.
  - exists ms, mt. cbn. split; auto. split; [lia|]. split; [lia|]. split; [contradiction|]. auto.
  - cbn [extent]. rewrite int_ok_some by (apply (H v z); left; auto).
    set (ms' := if z + vi_size (info v) >? ms then _ else _).
    set (mt' := if vi_last (info v) >? mt then _ else _).
    destruct (IH ms' mt') as (M & T & E & A & B & C & D & F).
    { intros. apply H. right; auto. }
    exists M, T. split; auto.
    assert (A' : ms <= ms' /\ z + vi_size (info v) <= ms' /\ (ms' = ms \/ ms' = z + vi_size (info v))) by (apply (if_gt_max (z + vi_size (info v)) ms)).
    assert (B' : mt <= mt' /\ vi_last (info v) <= mt' /\ (mt' = mt \/ mt' = vi_last (info v))) by (apply (if_gt_max (vi_last (info v)) mt)).
    clearbody ms' mt'. clear IH.
    split; [lia|]. split; [lia|]. split; [|split].
    + intros w y [Q|Q]; [inv Q; lia|]. apply C; auto.
    + destruct D as [->|(w & y & Q & ->)].
      * destruct A' as (_ & _ & [->| ->]); [auto|right; exists v, z; cbn; auto].
      * right. exists w, y. split; [right|]; auto.
    + destruct F as [->|(w & y & Q & ->)].
      * destruct B' as (_ & _ & [->| ->]); [auto|right; exists v, z; cbn; auto].
      * right. exists w, y. split; [right|]; auto.
Qed.

Lemma mark_spec line n c : 0 <= n < Z.of_nat (List.length line) ->
  exists line', mark line n c = Some line' /\ List.length line' = List.length line /\
    forall m d, nth m line' d = if Z.of_nat m =? n then (if Ascii.eqb (nth m line d) "."%char then c else "!"%char) else nth m line d.
Proof.
  intros H. unfold mark.
  replace ((0 <=? n) && (n <? Z.of_nat (List.length line))) with true by lia.
  eexists. split; [reflexivity|]. remember (Z.to_nat n) as k eqn:Ek.
  assert (Hk : (k < List.length line)%nat) by lia.
  assert (Hf : List.length (firstn k line) = k) by (rewrite firstn_length; lia).
  split.
  - rewrite app_length, Hf. cbn [List.length]. rewrite skipn_length. lia.
  - intros m d. destruct (Nat.lt_trichotomy m k) as [Hm|[Hm|Hm]].
    + rewrite app_nth1 by lia. replace (Z.of_nat m =? n) with false by lia.
      rewrite <- (firstn_skipn k line) at 2. rewrite app_nth1 by lia. auto.
    + subst m. rewrite app_nth2 by lia. rewrite Hf, Nat.sub_diag. cbn [nth].
      replace (Z.of_nat k =? n) with true by lia.
      rewrite (nth_indep line " "%char d) by lia. auto.
    + rewrite app_nth2 by lia. rewrite Hf. replace (Z.of_nat m =? n) with false by lia.
      destruct (m - k)%nat as [|j] eqn:Ej; [lia|]. cbn [nth].
      rewrite <- (firstn_skipn (S k) line) at 2. rewrite app_nth2 by (rewrite firstn_length; lia).
      f_equal. rewrite firstn_length. lia.
Qed.

Lemma mark_range_spec c : c <> "."%char -> forall cnt line n, 0 <= n -> n + Z.of_nat cnt <= Z.of_nat (List.length line) ->
  exists line', mark_range line n cnt c = Some line' /\ List.length line' = List.length line /\
    forall m d, nth m line' d = if (n <=? Z.of_nat m) && (Z.of_nat m <? n + Z.of_nat cnt) then (if Ascii.eqb (nth m line d) "."%char then c else "!"%char) else nth m line d.
Proof.
  intros Hc. induction cnt as [|cnt IH]; intros line n H1 H2.
  - exists line. split; auto. split; auto. intros. replace ((n <=? Z.of_nat m) && (Z.of_nat m <? n + Z.of_nat 0)) with false by lia. auto.
  - cbn [mark_range]. destruct (mark_spec line n c) as (l1 & E1 & L1 & N1); [lia|]. rewrite E1.
    destruct (IH l1 (n + 1)) as (l2 & E2 & L2 & N2); [lia|rewrite L1; lia|].
    exists l2. split; auto. split; [congruence|]. intros m d. rewrite N2, N1.
    destruct (Z.eqb_spec (Z.of_nat m) n) as [Q|Q].
    + replace ((n + 1 <=? Z.of_nat m) && (Z.of_nat m <? n + 1 + Z.of_nat cnt)) with false by lia.
      replace ((n <=? Z.of_nat m) && (Z.of_nat m <? n + Z.of_nat (S cnt))) with true by lia. auto.
    + replace ((n + 1 <=? Z.of_nat m) && (Z.of_nat m <? n + 1 + Z.of_nat cnt))
        with ((n <=? Z.of_nat m) && (Z.of_nat m <? n + Z.of_nat (S cnt))) by lia. auto.
Qed.

Lemma reaches_columns M z s n : 0 < M -> 0 <= z -> 0 <= s ->
  reaches M z s n <-> Z.quot (z * 60) M <= Z.of_nat n < Z.quot ((z + s) * 60) M.
Proof.
  intros HM Hz Hs. unfold reaches. rewrite !Z.quot_div_nonneg by lia.
  Z.to_euclidean_division_equations. nia.
Qed.

Lemma skipn_S_tail {A} : forall k (l : list A) x tl, skipn k l = x :: tl -> skipn (S k) l = tl.
Proof.
  induction k as [|k IH]; intros l x tl H.
  - cbn in H. subst. auto.
  - destruct l as [|y l]; [discriminate|]. cbn [skipn] in H. apply IH in H. exact H.
Qed.

(** the entries of the plan that are live at time t *)
Section Line.
Variables (info : vmap) (M t : Z) (full : alloc).
Definition on (v : vname) : Prop := vi_first (info v) <= t <= vi_last (info v).
Hypothesis HM : 60 <= M.
Hypothesis Hend : forall v z, In (v, z) full -> 0 <= z /\ 0 <= vi_size (info v) /\ z + vi_size (info v) <= M.
Hypothesis HM60 : M * 60 <= 2147483647.
Hypothesis Hdis : forall i j v z w y, i <> j -> nth_error full i = Some (v, z) -> nth_error full j = Some (w, y) ->
  on v -> on w -> z + vi_size (info v) <= y \/ y + vi_size (info w) <= z.

Definition live_entries (al : alloc) : alloc :=
  filter (fun e => (vi_first (info (fst e)) <=? t) && (t <=? vi_last (info (fst e)))) al.
Definition entry_sum (al : alloc) : Z := fold_right (fun e n => vi_size (info (fst e)) + n) 0 al.
Hypothesis Hsum : entry_sum (live_entries full) <= M.

Definition drawn (k : nat) (line : list ascii) : Prop :=
  List.length line = 60%nat /\
  forall n c, nth_error line n = Some c ->
    (exists j v z, (j < k)%nat /\ nth_error full j = Some (v, z) /\ on v /\
        reaches M z (vi_size (info v)) n /\ c = label j) \/
    (c = "."%char /\ forall j v z, (j < k)%nat -> nth_error full j = Some (v, z) -> on v ->
        ~ reaches M z (vi_size (info v)) n).

Definition top_of (al : alloc) (pk e : Z) : Prop :=
  pk <= e /\ (forall v z, In (v, z) (live_entries al) -> z + vi_size (info v) <= e) /\
  (e = pk \/ exists v z, In (v, z) (live_entries al) /\ z + vi_size (info v) = e).

Lemma entry_sum_nonneg al : (forall v z, In (v, z) al -> 0 <= vi_size (info v)) -> 0 <= entry_sum (live_entries al).
Proof using info t.
  clear Hdis Hend Hsum HM60 HM. induction al as [|[v z] al IH]; intros H; [cbn; lia|]. unfold live_entries. cbn [filter].
  assert (0 <= entry_sum (live_entries al)) by (apply IH; intros w y Q; apply (H w y); right; auto).
  assert (0 <= vi_size (info v)) by (apply (H v z); left; auto).
  fold (live_entries al). destruct (_ && _); cbn [entry_sum fold_right fst]; fold (entry_sum (live_entries al)); lia.
Qed.

Lemma line_loop_spec : forall al k line use pk,
  skipn k full = al -> drawn k line -> 0 <= use ->
  use + entry_sum (live_entries al) <= M ->
  exists line' e, line_loop info M t al (Z.of_nat k) line use pk
     = Some (line', use + entry_sum (live_entries al), e) /\
    drawn (List.length full) line' /\ top_of al pk e.
Proof.
  induction al as [|[v z] al IH]; intros k line use pk Hk D Hu Hs.
  - exists line, pk. cbn. split; [f_equal; f_equal; f_equal; lia|]. split.
    + destruct D as [D1 D2]. split; auto. intros n c Hn.
      assert (Hlen : (List.length full <= k)%nat).
      { destruct (Nat.le_gt_cases (List.length full) k); auto.
        pose proof (skipn_length k full) as Q. rewrite Hk in Q. cbn in Q. lia. }
      destruct (D2 n c Hn) as [(j & v & z & Hj & A & B)|[A B]].
      * left. exists j, v, z. split; [apply nth_error_Some; congruence|]. auto.
      * right. split; auto. intros j v z Hj. apply B. lia.
    + split; [lia|]. split; [contradiction|]. auto.
  - assert (Hnk : nth_error full k = Some (v, z)).
    { rewrite <- (firstn_skipn k full), Hk.
      assert (k < List.length full)%nat.
      { destruct (Nat.le_gt_cases (List.length full) k); auto. rewrite skipn_all2 in Hk by auto. discriminate. }
      rewrite nth_error_app2 by (rewrite firstn_length; lia).
      rewrite firstn_length. replace (k - Nat.min k (List.length full))%nat with 0%nat by lia. auto. }
    assert (Hk' : skipn (S k) full = al).
    { apply (skipn_S_tail k full (v, z)). auto. }
    assert (Hin : In (v, z) full) by (eapply nth_error_In; eauto).
    destruct (Hend v z Hin) as (Hz & Hsz & He).
    cbn [line_loop]. replace (Z.of_nat k + 1) with (Z.of_nat (S k)) by lia.
    destruct ((t <? vi_first (info v)) || (t >? vi_last (info v))) eqn:Ev.
    + assert (Hoff : ~ on v) by (unfold on; lia).
      assert (LE : live_entries ((v, z) :: al) = live_entries al).
      { unfold live_entries. cbn [filter fst]. replace (_ && _) with false by (unfold on in Hoff; lia). auto. }
      rewrite LE in *.
      destruct (IH (S k) line use pk Hk') as (l' & e & E & D' & T); auto.
      { destruct D as [D1 D2]. split; auto. intros n c Hn.
        destruct (D2 n c Hn) as [(j & w & y & Hj & A & B)|[A B]].
        - left. exists j, w, y. split; [lia|]. auto.
        - right. split; auto. intros j w y Hj Q1 Q2.
          destruct (Nat.eq_dec j k) as [->|Hne]; [congruence|]. apply B with j; auto. lia. }
      exists l', e. rewrite E. split; auto. split; auto.
      unfold top_of in *. rewrite LE. auto.
    + assert (Hon : on v) by (unfold on; lia).
      assert (LE : live_entries ((v, z) :: al) = (v, z) :: live_entries al).
      { unfold live_entries. cbn [filter fst]. replace (_ && _) with true by (unfold on in Hon; lia). auto. }
      rewrite LE in *. cbn [entry_sum fold_right fst] in *. fold (entry_sum (live_entries al)) in *.
      assert (Hal : 0 <= entry_sum (live_entries al)).
      { apply entry_sum_nonneg. intros w y Q. apply (Hend w y).
        rewrite <- (firstn_skipn (S k) full), Hk'. apply in_or_app; auto. }
      replace (z =? -1) with false by lia. unfold line_width.
      rewrite (int_ok_some (use + vi_size (info v))) by lia.
      rewrite (int_ok_some (z * 60)) by nia.
      rewrite (int_ok_some ((z + vi_size (info v)) * 60)) by nia.
      destruct D as [D1 D2].
      set (a := Z.quot (z * 60) M). set (b := Z.quot ((z + vi_size (info v)) * 60) M).
      assert (Hab : 0 <= a <= b /\ b <= 60).
      { unfold a, b. rewrite !Z.quot_div_nonneg by lia. split; [split|].
        - apply Z.div_pos; lia.
        - apply Z.div_le_mono; lia.
        - apply Z.div_le_upper_bound; nia. }
      rewrite label_ordinal.
      destruct (mark_range_spec (label k) (proj1 (label_cases k)) (Z.to_nat (b - a)) line a) as (l1 & E1 & L1 & N1); [lia|lia|].
      rewrite E1.
      set (pk' := if pk <? z + vi_size (info v) then _ else _).
      destruct (IH (S k) l1 (use + vi_size (info v)) pk' Hk') as (l' & e & E & D' & T); auto; try lia.
      { split; [lia|]. intros n c Hn.
        assert (Hnl : (n < 60)%nat) by (assert (n < List.length l1)%nat by (apply nth_error_Some; congruence); lia).
        assert (Hc : c = nth n l1 " "%char) by (symmetry; apply nth_error_nth; auto).
        rewrite N1 in Hc.
        assert (Ho : nth_error line n = Some (nth n line " "%char)) by (apply nth_error_nth'; lia).
        assert (HR : reaches M z (vi_size (info v)) n <-> a <= Z.of_nat n < b) by (apply reaches_columns; lia).
        destruct ((a <=? Z.of_nat n) && (Z.of_nat n <? a + Z.of_nat (Z.to_nat (b - a)))) eqn:Ein.
        - assert (Rn : reaches M z (vi_size (info v)) n) by (apply HR; lia).
          left. exists k, v, z. split; [lia|]. split; auto. split; auto. split; auto.
          destruct (D2 n _ Ho) as [(j & w & y & Hj & A & B & R & _)|[A _]].
          + exfalso. unfold reaches in *.
            destruct (Hdis j k w y v z) as [Q|Q]; auto; lia.
          + rewrite A in Hc. cbn in Hc. auto.
        - rewrite <- Hc in Ho. destruct (D2 n _ Ho) as [(j & w & y & Hj & A & B)|[A B]].
          + left. exists j, w, y. split; [lia|]. auto.
          + right. split; auto. intros j w y Hj Q1 Q2.
            destruct (Nat.eq_dec j k) as [->|Hne].
            * rewrite Hnk in Q1. inv Q1. rewrite HR. lia.
            * apply B with j; auto. lia. }
      exists l', e. split; [rewrite E; f_equal; f_equal; f_equal; lia|]. split; auto.
      destruct T as (T1 & T2 & T3). unfold top_of. rewrite LE.
      assert (P1 : pk <= pk' /\ z + vi_size (info v) <= pk' /\ (pk' = pk \/ pk' = z + vi_size (info v))).
      { unfold pk'. destruct (pk <? _) eqn:G; lia. }
      split; [lia|]. split.
      * intros w y [Q|Q]; [inv Q; lia|]. apply T2; auto.
      * destruct T3 as [->|(w & y & Q & <-)].
        -- destruct P1 as (_ & _ & [->| ->]); [auto|right; exists v, z; split; [left|]; auto].
        -- right. exists w, y. split; [right|]; auto.
Qed.
End Line.

(* ---- names ---- *)
Lemma filter_map_comm {A B} (f : A -> B) (p : B -> bool) l :
  filter p (map f l) = map f (filter (fun x => p (f x)) l).
Proof. induction l as [|x l IH]; cbn; auto. destruct (p (f x)); cbn; congruence. Qed.

Lemma filter_ext_in' {A} (p q : A -> bool) l : (forall x, In x l -> p x = q x) -> filter p l = filter q l.
Proof.
  induction l as [|x l IH]; intros H; cbn; auto.
  rewrite (H x (or_introl eq_refl)), IH; auto. intros; apply H; right; auto.
Qed.

Lemma res_defs_sized c rs : map (fun d => (vd_name d, vd_usize d)) (res_defs c rs) =
  flat_map (fun r => match snd r with Some s => [(fst r, s)] | None => [] end) rs.
Proof. induction rs as [|[n [s|]] rs IH]; cbn; auto; congruence. Qed.

Lemma filter_res_defs c rs : filter (fun d => negb (vd_const d)) (res_defs c rs) = if c then [] else res_defs c rs.
Proof. induction rs as [|[n [s|]] rs IH]; cbn; destruct c; cbn; auto. f_equal. auto. Qed.

Lemma arena_values g :
  map (fun d => (vd_name d, vd_usize d)) (filter (fun d => negb (vd_const d)) (values g)) = arena_list g.
Proof.
  unfold values, arena_list. rewrite filter_app, map_app. f_equal.
  - induction (g_args g) as [|[v s] l IH]; cbn; congruence.
  - induction (g_ops g) as [|o l IH]; cbn [ops_defs filter flat_map map]; auto.
    unfold computing_op in *.
    destruct (o_kind o) eqn:Ek; cbn [is_constant_op flat_map];
      rewrite ?filter_app, ?map_app, ?filter_res_defs, ?res_defs_sized, ?IH; auto.
Qed.

Lemma nc_names g s al0 pl : wf_graph g -> plan_ok g s al0 pl -> os_info s = build g ->
  map fst (non_constant pl) = map fst (arena_list g).
Proof.
  intros W P E. unfold non_constant. rewrite (po_info g s al0 pl P), E.
  rewrite <- (filter_map_comm fst (fun v => negb (vi_const (build g v)))).
  rewrite (po_names g s al0 pl P), <- values_names by auto.
  rewrite filter_map_comm, <- arena_values, map_map. cbn [fst]. f_equal.
  apply filter_ext_in'. intros d Hd. apply In_nth_error in Hd. destruct Hd as [i Hi].
  rewrite (build_nth g i d W Hi). reflexivity.
Qed.

(* ---- operations ---- *)
Lemma nth_filter {A} (f : A -> bool) : forall l t o, nth_error (filter f l) t = Some o ->
  exists p, nth_error l p = Some o /\ f o = true /\ t = List.length (filter f (firstn p l)).
Proof.
  induction l as [|x l IH]; intros t o H; [destruct t; discriminate|]. cbn [filter] in H.
  destruct (f x) eqn:Fx.
  - destruct t as [|t]; cbn in H.
    + inv H. exists 0%nat. auto.
    + destruct (IH t o H) as (p & A1 & A2 & A3). exists (S p). cbn. rewrite Fx. cbn. auto.
  - destruct (IH t o H) as (p & A1 & A2 & A3). exists (S p). cbn. rewrite Fx. auto.
Qed.

Lemma runs_id o : runs o = has_op_id (o_kind o).
Proof. unfold runs. destruct (o_kind o); auto. Qed.

Lemma step_id g p t : step_number g p t -> op_id (g_ops g) p = Z.of_nat t.
Proof.
  intros [E ->]. rewrite (op_id_exec g p E). reflexivity.
Qed.

Lemma executes_runs g p : executes g p <-> exists o, op_at g p o /\ runs o = true.
Proof.
  unfold executes, runs. split.
  - intros (o & H & A & B). exists o. split; auto. destruct (o_kind o); congruence.
  - intros (o & H & A). exists o. split; auto. destruct (o_kind o); split; congruence.
Qed.

Lemma op_id_bound g p : (exists q, executes g q) -> op_id (g_ops g) p < Z.of_nat (List.length (operations g)).
Proof.
  intros (q & Eq). unfold operations.
  assert (B : forall r o, op_at g r o -> has_op_id (o_kind o) = true ->
     (List.length (filter (fun x => has_op_id (o_kind x)) (firstn r (g_ops g))) < List.length (filter (fun x => has_op_id (o_kind x)) (g_ops g)))%nat).
  { intros r o Ho Hr. rewrite <- (firstn_skipn r (g_ops g)) at 2. rewrite filter_app, app_length.
    assert (In o (filter (fun x => has_op_id (o_kind x)) (skipn r (g_ops g)))).
    { apply filter_In. split; auto. apply nth_error_In with 0%nat.
      unfold op_at in Ho. rewrite <- (firstn_skipn r (g_ops g)) in Ho.
      assert (r < List.length (g_ops g))%nat by (destruct (Nat.lt_ge_cases r (List.length (g_ops g))); auto; rewrite firstn_skipn in Ho; apply nth_error_None in H; congruence).
      rewrite nth_error_app2 in Ho by (rewrite firstn_length; lia).
      rewrite firstn_length in Ho. replace (r - Nat.min r (List.length (g_ops g)))%nat with 0%nat in Ho by lia. auto. }
    destruct (filter _ (skipn r (g_ops g))); [contradiction|cbn; lia]. }
  apply executes_runs in Eq. destruct Eq as (o & Ho & Hr). rewrite runs_id in Hr. pose proof (B q o Ho Hr).
  unfold op_id. destruct (nth_error (g_ops g) p) as [o'|] eqn:Ep; [|lia].
  destruct (has_op_id (o_kind o')) eqn:Eh; [|lia]. unfold count_ids. pose proof (B p o' Ep Eh). lia.
Qed.

Lemma all_some_map {A B} (f : A -> option B) l : (forall x, In x l -> exists y, f x = Some y) ->
  exists ys, all_some (map f l) = Some ys /\ List.length ys = List.length l /\
    forall i x, nth_error l i = Some x -> exists y, nth_error ys i = Some y /\ f x = Some y.
Proof.
  induction l as [|x l IH]; intros H.
  - exists []. cbn. split; auto. split; auto. intros [|i] x; discriminate.
  - destruct IH as (ys & E & L & N); [intros; apply H; right; auto|].
    destruct (H x (or_introl eq_refl)) as (y & Ey). exists (y :: ys). cbn. rewrite Ey, E. split; auto.
    split; [cbn; congruence|]. intros [|i] z Hz; cbn in Hz |- *; [inv Hz; eauto|]. apply N; auto.
Qed.

Lemma quot_kilobytes b : 0 <= b -> kilobytes b (Z.quot (b + 1023) 1024).
Proof. intros H. unfold kilobytes. rewrite Z.quot_div_nonneg by lia. Z.to_euclidean_division_equations. lia. Qed.

Lemma nodup_fst_index {A} (l : list (vname * A)) (N : NoDup (map fst l)) i j v a b :
  nth_error l i = Some (v, a) -> nth_error l j = Some (v, b) -> i = j.
Proof.
  intros Hi Hj. apply (proj1 (NoDup_nth_error (map fst l)) N).
  - rewrite map_length. apply nth_error_Some. congruence.
  - rewrite (map_nth_error fst _ _ Hi), (map_nth_error fst _ _ Hj). auto.
Qed.
Lemma nodup_fst_functional {A} (l : list (vname * A)) v a b :
  NoDup (map fst l) -> In (v, a) l -> In (v, b) l -> a = b.
Proof.
  intros N Ha Hb. apply In_nth_error in Ha. apply In_nth_error in Hb. destruct Ha as [i Hi], Hb as [j Hj].
  pose proof (nodup_fst_index l N i j v a b Hi Hj). subst j. congruence.
Qed.
Lemma nodup_map_filter {A B} (f : A -> B) p l : NoDup (map f l) -> NoDup (map f (filter p l)).
Proof.
  induction l as [|x l IH]; intros N; auto. cbn [map] in N. inversion N as [|? ? N1 N2]; subst. cbn [filter].
  destruct (p x); auto. cbn [map]. constructor; auto. intros H. apply N1.
  apply in_map_iff in H. destruct H as (y & <- & Hy). apply filter_In in Hy. apply in_map. tauto.
Qed.
