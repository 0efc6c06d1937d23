(** In-place overlapping really happens: the overlap phase records every operator whose operand can be overwritten. *)
From Verif Require Import Base MemPlanModel MemPlanSpec MemPlanGreedy MemPlanBuild
     MemPlanAssemble MemPlanOverlap MemExecSpec MemExecProofs MemPlanMain MemPlanExtra.
Local Open Scope Z_scope.

Section Share.
Variable g : graph.
Hypothesis W : wf_graph g.
Hypothesis WO : wf_overlap g.
Hypothesis CG : chain_grows g.

Notation os := (g_ops g).
Notation us := (usize_of (values g)).

Definition cand (v : vname) : Prop := has_one_use os v = true /\ vi_const (build g v) = false.

(** an entry for an operand of [q], with the result in the same chain *)
Definition placed (m : iomap) (o : op) (w : vname) : Prop :=
  exists v u rel, In v (o_args o) /\ In (v, (u, rel)) m /\ (w = u \/ exists rel', In (w, (u, rel')) m).

Definition complete (n : nat) (s : ostate) : Prop :=
  forall q o w, (q < n)%nat \/ In q (os_visited s) -> op_at g q o -> overlappable (o_kind o) = true ->
    (length (o_args o) <= 2)%nat -> (exists v, In v (o_args o) /\ cand v) ->
    (forall v, In v (o_args o) -> cand v -> us v <= us w) -> result0 os q = Some w -> placed (os_map s) o w.

Lemma chain_covers : forall fuel visited inV outV next inputs v' o' i',
  first_user os outV = Some next -> chain fuel os us visited inV outV next inputs = Some (v', o', i') ->
  incl inputs i' /\ (outV = o' \/ In outV i') /\
  (forall q, In q v' -> In q visited \/
     exists x r, In x i' /\ used_at g x q /\ result0 os q = Some r /\ (r = o' \/ In r i')).
Proof.
  induction fuel as [|fuel IH]; intros visited inV outV next inputs v' o' i' Hn H; cbn [chain] in H.
  - destruct (_ && _) in H; [discriminate|]. inv H. split; [apply incl_refl|]. auto.
  - destruct (_ && _) eqn:E in H; [|inv H; split; [apply incl_refl|]; auto].
    destruct (result0 os next) as [out2|] eqn:Er; [|discriminate].
    destruct (first_user os out2) as [next2|] eqn:En; [|discriminate].
    destruct (IH _ _ _ _ _ _ _ _ En H) as (I1 & I2 & I3).
    assert (Ho : In outV i') by (apply I1; apply in_or_app; right; left; auto).
    split; [intros x Hx; apply I1; apply in_or_app; auto|]. split; [auto|].
    intros q Hq. destruct (I3 q Hq) as [[<-|Hv]|R]; auto. right. exists outV, out2. split; auto. split; [|split; auto].
    apply first_user_used; auto.
Qed.

Lemma snd_record info m outV inputs : NoDup inputs -> (forall x, In x inputs -> ~ In x (map fst m)) ->
  snd (record_chain us info m outV inputs) = m ++ map (fun v => (v, (outV, rel_offset us outV v))) inputs.
Proof.
  intros N F. unfold record_chain. destruct inputs as [|i0 tl]; [cbn; rewrite app_nil_r; auto|]. cbn [snd].
  apply (io_set_all (fun v => (outV, rel_offset us outV v)) (i0 :: tl)); auto.
Qed.

Lemma placed_app m m' o w : placed m o w -> placed (m ++ m') o w.
Proof.
  intros (v & u & rel & A & B & C). exists v, u, rel. split; auto. split; [apply in_or_app; auto|].
  destruct C as [C|(rel' & C)]; auto. right. exists rel'. apply in_or_app; auto.
Qed.

Lemma overlap_step_complete p s s' :
  loop_inv g p s -> complete p s -> overlap_step os us s p = Some s' -> complete (S p) s'.
Proof.
  intros L C H. unfold overlap_step in H.
  (* when p itself needs nothing *)
  assert (Same : (forall o w, op_at g p o -> overlappable (o_kind o) = true -> (length (o_args o) <= 2)%nat ->
            (exists v, In v (o_args o) /\ cand v) -> (forall v, In v (o_args o) -> cand v -> us v <= us w) ->
            result0 os p = Some w -> placed (os_map s) o w) -> forall vis, (forall q, In q vis -> q = p \/ In q (os_visited s)) ->
            complete (S p) (OS vis (os_info s) (os_map s))).
  { intros P vis V q o w Hq. cbn [os_visited os_map] in *. intros. destruct (Nat.eq_dec q p) as [->|N]; [apply P; auto|].
    apply (C q o w); auto. destruct Hq as [Hq|Hq]; [left; lia|]. destruct (V q Hq); auto; contradiction. }
  assert (Self : forall vis, (forall q, In q vis -> q = p \/ In q (os_visited s)) ->
     (forall o w, op_at g p o -> overlappable (o_kind o) = true -> (length (o_args o) <= 2)%nat ->
            (exists v, In v (o_args o) /\ cand v) -> (forall v, In v (o_args o) -> cand v -> us v <= us w) ->
            result0 os p = Some w -> placed (os_map s) o w) -> complete (S p) (OS vis (os_info s) (os_map s))) by auto.
  assert (Sid : (forall o w, op_at g p o -> overlappable (o_kind o) = true -> (length (o_args o) <= 2)%nat ->
            (exists v, In v (o_args o) /\ cand v) -> (forall v, In v (o_args o) -> cand v -> us v <= us w) ->
            result0 os p = Some w -> placed (os_map s) o w) -> complete (S p) s).
  { intros P. destruct s as [vis inf mm]. apply (Self vis); auto. }
  destruct (nth_error os p) as [o|] eqn:Eo; [|inv H; apply Sid; intros o' w Ho'; unfold op_at in Ho'; congruence].
  assert (Uo : forall o', op_at g p o' -> o' = o) by (unfold op_at; intros; congruence).
  destruct (negb (has_op_id (o_kind o))) eqn:Eid.
  { inv H. apply Sid. intros o' w Ho' Hk. apply Uo in Ho'. subst o'. destruct (o_kind o); discriminate. }
  destruct (overlappable (o_kind o)) eqn:Hov; cbn [andb] in H.
  2: { inv H. apply Sid. intros o' w Ho' Hk. apply Uo in Ho'. subst o'. congruence. }
  destruct (mem_nat p (os_visited s)) eqn:Em; cbn [negb] in H.
  { inv H. apply Sid. intros o' w Ho' Hk Hl Hc Hs Hr. apply (C p); auto. right. apply mem_nat_spec; auto. }
  destruct (o_args o) as [|a0 rest] eqn:Ea; [discriminate|].
  set (ok := fun v => has_one_use os v && negb (vi_const (os_info s v))) in H.
  assert (Hok : forall v, ok v = true <-> cand v).
  { intros v. unfold ok, cand. rewrite (li_const g p s L v). rewrite andb_true_iff, negb_true_iff. tauto. }
  set (sel := match rest with [] => _ | _ => _ end) in H.
  destruct sel as [inV|] eqn:Es.
  2: { inv H. apply Sid. intros o' w Ho' Hk Hl (v & Hv & Cv) Hs Hr. apply Uo in Ho'. subst o'. exfalso. rewrite Ea in *. apply Hok in Cv.
       unfold sel in Es. destruct rest as [|a1 [|a2 rest]]; [| |cbn in Hl; lia].
       - change (has_one_use os a0 && negb (vi_const (os_info s' a0))) with (ok a0) in Es. destruct Hv as [<-|[]]. rewrite Cv in Es. discriminate.
       - change (has_one_use os a0 && negb (vi_const (os_info s' a0))) with (ok a0) in Es. change (has_one_use os a1 && negb (vi_const (os_info s' a1))) with (ok a1) in Es. destruct (ok a0) eqn:E0; [discriminate|]. destruct (ok a1) eqn:E1; [discriminate|]. destruct Hv as [<-|[<-|[]]]; congruence. }
  assert (Hsel : In inV (o_args o) /\ cand inV).
  { rewrite Ea. unfold sel in Es. destruct rest as [|a1 [|a2 rest]].
    - change (has_one_use os a0 && negb (vi_const (os_info s a0))) with (ok a0) in Es. destruct (ok a0) eqn:E0; inv Es. split; [left; auto|]. apply Hok; auto.
    - change (has_one_use os a0 && negb (vi_const (os_info s a0))) with (ok a0) in Es. change (has_one_use os a1 && negb (vi_const (os_info s a1))) with (ok a1) in Es. destruct (ok a0) eqn:E0; [inv Es; split; [left; auto|apply Hok; auto]|].
      destruct (ok a1) eqn:E1; inv Es. split; [right; left; auto|apply Hok; auto].
    - discriminate. }
  clearbody sel. destruct Hsel as (Hin & Cin). clear Sid Hok ok.
  destruct Cin as [H1 Hc].
  assert (Hkp : overlappable (kind_at os p) = true) by (unfold kind_at; rewrite Eo; auto).
  assert (Hnv : ~ In p (os_visited s)) by (intros X; apply mem_nat_spec in X; congruence).
  destruct (result0 os p) as [outV|] eqn:Er; [|discriminate].
  destruct (us outV >=? us inV) eqn:Esz.
  2: { inv H. apply Self; [intros q [<-|Hq]; auto|]. intros o' w Ho' Hk Hl _ Hs Hr. apply Uo in Ho'. subst o'. exfalso.
       injection Hr as ->. specialize (Hs inV Hin (conj H1 Hc)). lia. }
  destruct (first_user os outV) as [next|] eqn:En; [|discriminate].
  destruct (chain _ _ _ _ _ _ _ _) as [[[visited' outV'] inputs]|] eqn:Ech; [|discriminate].
  destruct (record_chain us (os_info s) (os_map s) outV' inputs) as [info' m'] eqn:Erc. inv H.
  assert (Huse : used_at g inV p) by (exists o; split; auto).
  pose proof (ov_res_intro g WO p outV Hkp Er) as Hres.
  assert (CI0 : chain_inv g p (os_visited s) inV [p] p (p :: os_visited s) outV [inV]).
  { constructor; auto.
    - intros q [<-|[]]. auto.
    - split; [left; auto|auto].
    - intros x [<-|[]]. repeat split; auto; try lia.
      + eapply (wo_args g WO); eauto.
      + exists p. repeat split; auto. left; auto.
    - intros x [<-|[]]. auto.
    - exists []; auto.
    - repeat constructor; auto.
    - split; [repeat constructor|]. intros x [<-|[]]. split; auto. exists p, p. repeat split; auto. }
  assert (Hge : us outV >= us inV) by lia.
  destruct (chain_spec g W WO CG p (os_visited s) inV _ _ _ _ _ _ _ _ _ _ _ CI0 En Hge Ech) as (newops' & cur' & CI & Hend).
  destruct (chain_covers _ _ _ _ _ _ _ _ _ En Ech) as (I1 & I2 & I3).
  destruct CI as [Cv Cn Cc Ci Cp Ch Cd Co].
  assert (Fresh : forall x, In x inputs -> ~ In x (map fst (os_map s))).
  { intros x Hx X. apply in_map_iff in X. destruct X as ([k [o2 rel]] & E & Hin2). cbn in E. subst k.
    destruct (li_key g p s L x o2 rel Hin2) as (K1 & (u & K2 & K3) & _).
    destruct (Ci x Hx) as (_ & _ & _ & _ & _ & u' & U1 & U2 & _).
    assert (u = u') by (eapply (one_use_unique g); eauto). subst u'. destruct (Cn u U2) as (Hn & _). auto. }
  assert (Em' : m' = os_map s ++ map (fun v => (v, (outV', rel_offset us outV' v))) inputs).
  { rewrite <- (snd_record (os_info s)) by auto. rewrite Erc. auto. }
  assert (New : forall x, In x inputs -> In (x, (outV', rel_offset us outV' x)) m').
  { intros x Hx. rewrite Em'. apply in_or_app. right. apply in_map_iff. exists x. auto. }
  assert (Cov : forall q o' w x r, op_at g q o' -> result0 os q = Some w -> In x inputs -> used_at g x q -> result0 os q = Some r ->
            r = outV' \/ In r inputs -> placed m' o' w).
  { intros q o' w x r Ho' Hr Hx (o2 & Ho2 & Hx2) Hr2 D. unfold op_at in *. assert (o2 = o') by congruence. subst o2. assert (r = w) by congruence. subst r.
    exists x, outV', (rel_offset us outV' x). split; auto. split; [auto|]. destruct D as [D|D]; eauto. }
  intros q o' w Hq Ho' Hk' Hl Hcc Hs Hr. cbn [os_visited os_map] in *.
  assert (Old : (q < p)%nat \/ In q (os_visited s) -> placed m' o' w).
  { intros X. rewrite Em'. apply placed_app. apply (C q o' w); auto. }
  assert (Pp : q = p -> placed m' o' w).
  { intros ->. eapply (Cov p o' w inV outV); eauto. apply I1; left; auto. }
  destruct Hq as [Hq|Hq].
  - destruct (Nat.eq_dec q p); auto. apply Old. left. lia.
  - destruct (I3 q Hq) as [[X|X]|(x & r & X1 & X2 & X3 & X4)]; [apply Pp; auto|apply Old; auto|]. eapply Cov; eauto.
Qed.

Lemma overlap_loop_complete : forall n p s s', loop_inv g p s -> complete p s ->
  overlap_loop os us (seq p n) s = Some s' -> complete (p + n) s'.
Proof.
  induction n as [|n IH]; intros p s s' L C H; cbn in H.
  - inv H. rewrite Nat.add_0_r. auto.
  - destruct (overlap_step os us s p) as [s1|] eqn:E; [|discriminate].
    replace (p + S n)%nat with (S p + n)%nat by lia.
    eapply (IH (S p) s1 s'); [eapply (overlap_step_inv g W WO CG); eauto|eapply overlap_step_complete; eauto|auto].
Qed.

Lemma overlap_phase_complete s : overlap_phase g true = Some s -> complete (length os) s.
Proof.
  unfold overlap_phase. intros H. apply (overlap_loop_complete _ 0 _ s (loop_inv_init g W)); auto.
  intros q o w [Hq|[]]. lia.
Qed.
End Share.

(** one occurrence in the operands of [o], none elsewhere *)
Lemma used_once_has_one_use g p o v : op_at g p o -> count_occ Nat.eq_dec (o_args o) v = 1%nat ->
  (forall q, used_at g v q -> q = p) -> has_one_use (g_ops g) v = true.
Proof.
  intros Ho Hc Hu. unfold has_one_use. apply Nat.eqb_eq.
  assert (G : forall os p, nth_error os p = Some o -> (forall q o', nth_error os q = Some o' -> In v (o_args o') -> q = p) -> count_uses os v = 1%nat).
  { clear - Hc. induction os as [|x os IH]; intros [|p] H U; try discriminate; cbn in *.
    - inv H. change (fold_right _ 0%nat os) with (count_uses os v).
      enough (count_uses os v = 0%nat) by lia. clear IH.
      assert (N : forall o', In o' os -> ~ In v (o_args o')).
      { intros o' Ho' Hv. apply In_nth_error in Ho'. destruct Ho' as (q & Hq). specialize (U (S q) o' Hq Hv). discriminate. }
      clear U Hc. induction os as [|y os IH]; auto. cbn. change (fold_right _ 0%nat os) with (count_uses os v).
      rewrite IH by (intros; apply N; right; auto). rewrite (proj1 (count_occ_not_In Nat.eq_dec (o_args y) v)); auto. apply N. left; auto.
    - change (fold_right _ 0%nat os) with (count_uses os v). rewrite (IH p H).
      + rewrite (proj1 (count_occ_not_In Nat.eq_dec (o_args x) v)); auto. intros Hv. specialize (U 0%nat x eq_refl Hv). discriminate.
      + intros q o' Hq Hv. specialize (U (S q) o' Hq Hv). lia. }
  apply (G _ p); auto. intros q o' Hq Hv. apply Hu. exists o'. auto.
Qed.

Lemma in_place_happens iter g po0 pl :
  wf_graph g -> wf_overlap g -> chain_grows g -> is_perm iter ->
  get_allocated_offsets iter g true po0 = Some pl ->
  forall p o w sw zw,
    op_at g p o -> overlappable (o_kind o) = true -> (length (o_args o) <= 2)%nat ->
    o_res o = [(w, Some sw)] -> arena_tensor g w sw -> In (w, zw) (p_alloc pl) ->
    (exists v s, arena_tensor g v s /\ count_occ Nat.eq_dec (o_args o) v = 1%nat /\ forall q, used_at g v q -> q = p) ->
    (forall v s, arena_tensor g v s -> In v (o_args o) -> (forall q, used_at g v q -> q = p) -> s <= sw) ->
    exists v sv zv u T, In v (o_args o) /\ arena_tensor g v sv /\ (forall q, used_at g v q -> q = p) /\ In (v, zv) (p_alloc pl) /\
      arena_tensor g u T /\ sv <= T /\ sw <= T /\ zv - zw = up8 (T - sv) - up8 (T - sw).
Proof.
  intros W WO CG I H p o w sw zw Ho Hk Hl Hr Aw Iw (v0 & s0 & A0 & N0 & U0) Hs.
  assert (Hph : exists s, overlap_phase g true = Some s).
  { unfold get_allocated_offsets in H. destruct (overlap_phase g true); [eauto|discriminate]. }
  destruct Hph as [s Hph].
  destruct (overlap_phase_ok g W WO CG s Hph) as [O LI].
  destruct (plan_spec iter g true po0 pl s W I Hph O H) as [al0 P].
  destruct (arena_facts g w sw W Aw) as (Tw & Cw & Sw & Fw & Lw & _).
  pose proof (usize_arena g w sw W Aw) as Uw.
  assert (R0 : result0 (g_ops g) p = Some w) by (unfold result0; unfold op_at in Ho; rewrite Ho, Hr; auto).
  assert (Hp : (p < length (g_ops g))%nat) by (apply nth_error_Some; unfold op_at in Ho; congruence).
  assert (Only : forall v, has_one_use (g_ops g) v = true -> In v (o_args o) -> forall q, used_at g v q -> q = p).
  { intros v H1 Hv q Hq. eapply (one_use_unique g); eauto. exists o; auto. }
  destruct (overlap_phase_complete g W WO CG s Hph p o w (or_introl Hp) Ho Hk Hl) as (v & u & rel & Hv & K & Wu); auto.
  - exists v0. split; [apply (count_occ_In Nat.eq_dec); lia|]. split; [eapply used_once_has_one_use; eauto|].
    apply (arena_facts g v0 s0 W A0).
  - intros v Hv [C1 C2]. destruct (arena_of_nonconst g v W) as [sv Av]; auto.
    { eapply (wo_args g WO); eauto. }
    rewrite (usize_arena g v sv W Av), Uw. eapply Hs; eauto.
  - destruct (li_entry g _ s LI v u rel K) as (Tv & Cv & Tu & Cu & Nu & _).
    destruct (li_key g _ s LI v u rel K) as (H1 & _).
    destruct (arena_of_nonconst g v W Tv Cv) as [sv Av]. destruct (arena_of_nonconst g u W Tu Cu) as [T Au].
    assert (exists zv, In (v, zv) (p_alloc pl)) as [zv Iv].
    { rewrite <- (po_names g s al0 pl P) in Tv. apply in_map_iff in Tv. destruct Tv as ([v' zv] & E & Hin). cbn in E. subst v'. eauto. }
    exists v, sv, zv, u, T. split; [auto|]. split; [auto|]. split; [apply Only; auto|]. split; [auto|]. split; [auto|].
    pose proof (usize_arena g v sv W Av) as Uv. pose proof (usize_arena g u T W Au) as Ut.
    assert (RU : forall us a b, us b <= us a -> rel_offset us a b = up8 (us a - us b)).
    { intros us a b L. unfold rel_offset, up8. Z.to_euclidean_division_equations; lia. }
    destruct (in_root g s al0 pl O P v zv Iv Cv) as (r1 & o1 & R1 & A1 & _).
    assert (r1 = u) by (eapply (root_unique g s O); [exact R1|right; eauto]). subst r1.
    pose proof (key_offset g s al0 pl W O P v u rel o1 K A1) as Kv.
    rewrite (alloc_functional g s al0 pl W P v _ _ Iv Kv).
    destruct (li_rel g _ s LI v u rel K) as [-> Le1]. rewrite RU by exact Le1. rewrite Uv, Ut in *.
    destruct Wu as [-> |(rel' & K')].
    + assert (zw = o1). { apply (alloc_functional g s al0 pl W P u); auto. apply (po_roots g s al0 pl P); auto. }
      subst o1. rewrite Uw in Ut. subst T. split; [lia|]. split; [lia|].
      replace (sw - sw) with 0 by lia. change (up8 0) with 0. lia.
    + pose proof (key_offset g s al0 pl W O P w u rel' o1 K' A1) as Kw.
      rewrite (alloc_functional g s al0 pl W P w _ _ Iw Kw).
      destruct (li_rel g _ s LI w u rel' K') as [-> Le2]. rewrite RU by exact Le2. rewrite Uw, Ut in *.
      split; [lia|]. split; [lia|]. lia.
Qed.
