(** C73: the lowered function, executed in the arena with the planned offsets, returns the results of the original function. *)
From Coq Require Import Relations.
From Verif Require Import Base NdSpec LowerSpec SlicePadModel LowerModel CopyKernels MemPlanModel MemPlanSpec MemExecSpec MemExecProofs MemPlanProps FunModel FunSpec FunProofs FunProofs2 FunProps FunArenaModel FunArenaSpec.
Local Open Scope nat_scope.

Lemma fit_id n b : length b = n -> fit n b = b.
Proof. intros <-. unfold fit. rewrite firstn_app, firstn_all, Nat.sub_diag, firstn_O, app_nil_r. auto. Qed.
Lemma fit_length n b : length (fit n b) = n.
Proof. unfold fit. rewrite firstn_length, app_length, repeat_length. lia. Qed.

Lemma combine_fst_snd {A B} (l : list (A * B)) : combine (map fst l) (map snd l) = l.
Proof. induction l as [|[a b] l IH]; cbn; auto. f_equal; auto. Qed.

Lemma lookups_private (e : env) (E : MemExecSpec.env) : (forall x v, lookup e x = Some v -> E x = snd v) ->
  forall xs vs, lookups e xs = Some vs -> map E xs = map snd vs.
Proof.
  intros H. induction xs as [|x xs IH]; intros vs L; cbn [lookups] in L; [injection L as <-; auto|].
  destruct (lookup e x) as [v|] eqn:Lx; [|discriminate]. destruct (lookups e xs) as [w|]; [|discriminate]. injection L as <-.
  cbn [map]. rewrite (H _ _ Lx), (IH w); auto.
Qed.

Lemma private_last other f rest : forall pre e e' E r, f_body f = pre ++ rest ->
  map (fun p => (fst p, fst (snd p))) e = scope (f_params f) pre -> exec rest e e' ->
  (forall x v, lookup e x = Some v -> E x = snd v) -> lookups e' (f_rets f) = Some r ->
  last (run_private (kernels f) (map (op_of other) rest ++ [Op KTerm (f_rets f) []]) (length pre) E) [] = map snd r.
Proof.
  induction rest as [|i rest IH]; intros pre e e' E r B T X A L.
  - inversion X; subst. cbn [map app run_private last o_args]. apply (lookups_private e' E); auto.
  - inversion X as [|i' tl e0 vs b e'' Lv K Se Zl N X']; subst. cbn [map app run_private].
    rewrite (lookups_private e E A _ _ Lv) at 1 2.
    set (tr := run_private _ _ _ _). assert (NE : tr <> []) by (unfold tr; destruct (map (op_of other) rest); discriminate).
    destruct tr as [|t0 tr'] eqn:Et; [contradiction|]. change (last (map snd vs :: t0 :: tr') []) with (last (t0 :: tr') []). rewrite <- Et. unfold tr.
    replace (S (length pre)) with (length (pre ++ [i])) by (rewrite app_length; cbn; lia).
    apply (IH (pre ++ [i]) ((i_dst i, (i_ty i, b)) :: e) e'); auto.
    + rewrite B, <- app_assoc. auto.
    + cbn [map fst snd]. unfold scope. rewrite map_app, rev_app_distr. cbn [map rev app]. f_equal. exact T.
    + intros x v Hx. cbn [lookup] in Hx. unfold op_of. cbn [o_res o_args set_all].
      assert (Ek : kernels f (length pre) (map snd vs) = [b]).
      { unfold kernels. rewrite B, nth_error_app2, Nat.sub_diag by lia. cbn [nth_error]. rewrite firstn_app, firstn_all, Nat.sub_diag, firstn_O, app_nil_r.
        rewrite <- T, lookups_types, Lv. cbn [option_map]. rewrite combine_fst_snd, Se, fit_id; auto. }
      rewrite Ek. cbn [set_all]. unfold set_env. destruct (Nat.eqb x (i_dst i)); [injection Hx as <-; auto|auto].
Qed.

Lemma start_private ps inputs : sized ps inputs -> NoDup (map fst ps) -> forall E0 x v, lookup (start ps inputs) x = Some v ->
  set_all E0 (map (fun a => (fst a, Some (snd a))) (map (fun p => (fst p, Z.of_nat (tsize (snd p)))) ps)) inputs x = snd v.
Proof.
  induction 1 as [|(y & t) b ps bs H F IH]; intros ND E0 x v L; cbn in L; [discriminate|].
  inversion ND as [|? ? Ny ND']; subst. cbn [map fst snd set_all]. destruct (Nat.eqb_spec x y) as [->|Ne].
  - injection L as <-. rewrite set_all_other; [unfold set_env; rewrite Nat.eqb_refl; auto|]. rewrite !map_map. exact Ny.
  - apply IH; auto.
Qed.

Lemma exec_nodup body e e' : exec body e e' -> NoDup (map fst e) -> NoDup (map fst e').
Proof.
  induction 1 as [|i tl e vs b e' L K S Z N X IH]; intros H; auto. apply IH. cbn [map fst]. constructor; auto.
  intros Hi. apply in_map_iff in Hi. destruct Hi as ((y & w) & Ey & Hy). cbn in Ey. subst y.
  clear - N Hy. induction e as [|(z & u) e IH]; [destruct Hy|]. cbn [lookup] in N. destruct (Nat.eqb_spec (i_dst i) z); [discriminate|].
  destruct Hy as [Hy|Hy]; [congruence|auto].
Qed.

Section WF.
Variable other : nat -> okind.
Variable f : func.
Variable inputs : list bytes.
Variable r : list (ty * bytes).
Hypothesis Sz : sized (f_params f) inputs.
Hypothesis R : run f inputs r.
Hypothesis ND : NoDup (map fst (f_params f)).
Hypothesis KO : kinds_ok other f.
Notation g := (graph_of other f).

Lemma names_g : all_names g = map fst (f_params f) ++ map i_dst (f_body f).
Proof.
  unfold all_names, arg_names, graph_of; cbn [g_args g_ops]. rewrite map_map. cbn [fst]. f_equal. rewrite flat_map_app. cbn [flat_map res_names o_res map app].
  rewrite app_nil_r. induction (f_body f) as [|i body IH]; cbn; auto. f_equal. auto.
Qed.
Lemma op_at_cases p o : op_at g p o -> (exists pre i post, f_body f = pre ++ i :: post /\ length pre = p /\ o = op_of other i) \/
  (p = length (f_body f) /\ o = Op KTerm (f_rets f) []).
Proof.
  unfold op_at, graph_of; cbn [g_ops]. intros H. destruct (Nat.lt_ge_cases p (length (f_body f))) as [Lt|Ge].
  - left. rewrite nth_error_app1 in H by (rewrite map_length; auto). rewrite nth_error_map in H. destruct (nth_error (f_body f) p) as [i|] eqn:E; [|discriminate].
    injection H as <-. apply nth_error_split in E. destruct E as (pre & post & E1 & E2). eauto 10.
  - right. rewrite nth_error_app2 in H by (rewrite map_length; auto). rewrite map_length in H. destruct (p - length (f_body f)) as [|[|k]] eqn:E; cbn in H; try discriminate.
    injection H as <-. split; auto. lia.
Qed.
Lemma run_prefix pre i post : f_body f = pre ++ i :: post -> exists e1 vs b, exec pre (start (f_params f) inputs) e1 /\
  lookups e1 (i_args i) = Some vs /\ ok (i_op i) (map fst vs) (i_ty i) /\ sem (i_op i) vs (i_ty i) = Some b.
Proof.
  intros B. destruct R as (e & X & _). rewrite B in X. apply exec_app in X. destruct X as (e1 & X1 & X2). inversion X2; subst. eauto 10.
Qed.
Lemma lookups_keys (e : env) xs vs x : lookups e xs = Some vs -> In x xs -> In x (map fst e).
Proof.
  revert vs. induction xs as [|y xs IH]; intros vs L H; [destruct H|]. cbn [lookups] in L. destruct (lookup e y) eqn:Ly; [|discriminate]. destruct (lookups e xs) eqn:Lx; [|discriminate].
  destruct H as [->|H]; [eapply lookup_in; eauto|eauto].
Qed.
Lemma dominated pre post (X : exists e1, exec pre (start (f_params f) inputs) e1 /\ forall x, In x post -> In x (map fst e1)) :
  forall x, In x post -> In x (map fst (f_params f)) \/ In x (map i_dst pre).
Proof. destruct X as (e1 & E1 & H). intros x Hx. apply H in Hx. apply (exec_names _ _ _ E1) in Hx. rewrite (start_names _ _ Sz) in Hx. auto. Qed.

Lemma used_before p v : used_at g v p -> In v (map fst (f_params f)) \/ exists q, q < p /\ produced_at g v q.
Proof.
  intros (o & Ho & Hv). apply op_at_cases in Ho.
  assert (PR : forall pre i post, f_body f = pre ++ post -> In i pre -> exists q, q < length pre /\ produced_at g (i_dst i) q).
  { intros pre i post B Hi. apply in_split in Hi. destruct Hi as (p1 & p2 & ->). exists (length p1). split; [rewrite app_length; cbn; lia|].
    exists (op_of other i). split; [|cbn; auto]. unfold op_at, graph_of; cbn [g_ops]. rewrite B, <- !app_assoc. cbn [app]. rewrite map_app, <- app_assoc.
    rewrite nth_error_app2 by (rewrite map_length; lia). rewrite map_length, Nat.sub_diag. auto. }
  destruct Ho as [(pre & i & post & B & <- & ->)|[-> ->]].
  - destruct (run_prefix pre i post B) as (e1 & vs & b & X & L & _). cbn [o_args op_of] in Hv.
    destruct (dominated pre (i_args i)) with (x := v) as [?|Hd]; auto; [exists e1; split; auto; intros x; eapply lookups_keys; eauto|].
    right. apply in_map_iff in Hd. destruct Hd as (j & <- & Hj). eapply PR; eauto.
  - cbn [o_args] in Hv. destruct R as (e & X & L).
    destruct (dominated (f_body f) (f_rets f)) with (x := v) as [?|Hd]; auto; [exists e; split; auto; intros x; eapply lookups_keys; eauto|].
    right. apply in_map_iff in Hd. destruct Hd as (j & <- & Hj). eapply PR with (post := []); eauto. rewrite app_nil_r. auto.
Qed.

Lemma graph_wf : wf_graph g.
Proof.
  constructor.
  - rewrite names_g. destruct R as (e & X & _). pose proof (exec_nodup _ _ _ X) as H. rewrite (start_names _ _ Sz) in H. specialize (H ND).
    rewrite <- fst_types, (exec_scope _ _ _ X), map_app, map_rev, map_map, fst_types, (start_names _ _ Sz) in H. cbn [fst] in H.
    eapply Permutation_NoDup; [|exact H]. rewrite Permutation_app_comm. apply Permutation_app_head. symmetry. apply Permutation_rev.
  - intros v s H. apply in_map_iff in H. destruct H as (q & E & _). injection E as <- <-. lia.
  - intros p o v s H Hv. apply op_at_cases in H. destruct H as [(pre & i & post & B & <- & ->)|[-> ->]]; cbn in Hv; [|destruct Hv].
    destruct Hv as [Hv|[]]. injection Hv as <- <-. lia.
  - intros p v H. unfold arg_names, graph_of; cbn [g_args]. rewrite map_map. cbn [fst]. apply used_before; auto.
  - intros p o H Hk. apply op_at_cases in H. destruct H as [(pre & i & post & B & <- & ->)|[-> ->]]; [|discriminate]. cbn [op_of o_args o_kind] in *.
    destruct (run_prefix pre i post B) as (e1 & vs & b & X & L & K & S). unfold kind_of in Hk. destruct (i_op i) eqn:O; try discriminate; try (destruct x; discriminate).
    + cbn [sem] in S. destruct vs; [|discriminate]. apply lookups_length in L. destruct (i_args i); auto. discriminate.
    + destruct (KO i f0) as (K1 & _); auto. rewrite B. apply in_or_app. right; left; auto. contradiction.
  - intros p o H. apply op_at_cases in H. destruct H as [(pre & i & post & B & <- & ->)|[-> ->]]; [|discriminate]. cbn [op_of o_kind]. unfold kind_of.
    destruct (i_op i) eqn:O; try discriminate; try (destruct x; discriminate). destruct (KO i f0) as (_ & K2 & _); auto. rewrite B. apply in_or_app. right; left; auto.
Qed.

Lemma graph_overlap : wf_overlap g.
Proof.
  constructor.
  - intros p o H Ov. apply op_at_cases in H. destruct H as [(pre & i & post & B & <- & ->)|[-> ->]]; [|discriminate]. cbn. eauto.
  - intros p o v H Ov Hv. destruct (used_before p v) as [Hp|(q & Hq & (o' & Ho' & Hr))].
    + exists o. auto.
    + unfold tensors. apply in_or_app. left. unfold arg_names, graph_of; cbn [g_args]. rewrite map_map. auto.
    + unfold tensors. apply in_or_app. right. apply in_flat_map. exists o'. split; [eapply nth_error_In; exact Ho'|].
      apply op_at_cases in Ho'. destruct Ho' as [(pre & i & post & B & <- & ->)|[-> ->]]; [|destruct Hr]. cbn in *. auto.
  - intros p o H Ov. apply op_at_cases in H. destruct H as [(pre & i & post & B & <- & ->)|[-> ->]]; [|discriminate]. cbn [op_of o_args o_kind] in *.
    destruct (run_prefix pre i post B) as (e1 & vs & b & X & L & K & S). unfold kind_of in Ov. destruct (i_op i) eqn:O; try discriminate.
    + destruct (KO i f0) as (_ & _ & _ & K4); auto. rewrite B. apply in_or_app. right; left; auto.
    + cbn [sem] in S. apply lookups_length in L. destruct vs as [|v [|? ?]]; try discriminate; [|destruct v; discriminate]. destruct (i_args i); [discriminate|discriminate].
    + destruct x; try discriminate. cbn [sem] in S. apply lookups_length in L. destruct vs as [|[v w] vs]; [discriminate|]. destruct (i_args i); [discriminate|discriminate].
Qed.

Lemma kernels_sized : sem_sized g (kernels f).
Proof.
  intros p o args H. apply op_at_cases in H. destruct H as [(pre & i & post & B & <- & ->)|[-> ->]].
  - unfold kernels. rewrite B, nth_error_app2, Nat.sub_diag by lia. cbn [nth_error op_of o_res]. constructor; [|constructor]. cbn [snd]. rewrite fit_length. auto.
  - unfold kernels. rewrite (proj2 (nth_error_None (f_body f) (length (f_body f)))) by lia. constructor.
Qed.
Lemma inputs_sized : Forall2 (fun b a => Z.of_nat (length b) = snd a) inputs (g_args g).
Proof. unfold graph_of; cbn [g_args]. clear - Sz. unfold sized in Sz. induction Sz; cbn [map]; constructor; auto. cbn. lia. Qed.

Lemma private_outputs : outputs (private_trace g (kernels f) inputs) = map snd r.
Proof.
  destruct R as (e & X & L). unfold outputs, private_trace, arg_rs, graph_of; cbn [g_args g_ops].
  apply (private_last other f (f_body f) [] (start (f_params f) inputs) e); auto.
  - rewrite start_types; auto.
  - intros x v Hx. apply start_private; auto.
Qed.
End WF.

(** From the TFLite function to the bytes in the arena: verified function, any sequence of lowering steps, the plan PlanMemory
    writes for the result, any initial contents of the arena. *)
Theorem C73_end_to_end : forall f f' inputs other iter peak0 ma garbage,
  verified f -> clos_refl_trans _ lower_step f f' -> sized (f_params f) inputs ->
  kinds_ok other f' -> chain_grows (graph_of other f') ->
  (forall m, Permutation (iter m) m) -> plan_memory iter true false (graph_of other f') peak0 = Some (Some ma) ->
  exists r, evaluate f inputs = Some r /\
    outputs (arena_trace (graph_of other f') (kernels f') (plan_locs (graph_of other f') (ma_offsets ma)) garbage inputs) = map snd r.
Proof.
  intros f f' inputs other iter peak0 ma garbage V St Sz KO CG I PM.
  destruct (verified_runs f inputs V Sz) as (r & Rf & _). destruct (steps_preserve f f' St) as [Ep Pr].
  pose proof (Pr inputs r Sz Rf) as R'. assert (Sz' : sized (f_params f') inputs) by (rewrite Ep; auto).
  assert (ND : NoDup (map fst (f_params f'))) by (rewrite Ep; apply V).
  exists r. split; [apply run_evaluate; auto|].
  pose proof (graph_wf other f' inputs r Sz' R' ND KO) as W. pose proof (graph_overlap other f' inputs r Sz' R' KO) as WO.
  rewrite (C08_chosen_plan_execution iter _ peak0 ma (kernels f') garbage inputs I W WO CG PM); [apply (private_outputs other f' inputs r); auto| |].
  - apply kernels_sized.
  - apply inputs_sized; auto.
Qed.

(** The plan exists whenever some tensor lives in the arena and no overlappable result is dead. *)
Theorem C73_plan_exists : forall f f' inputs other iter peak0,
  verified f -> clos_refl_trans _ lower_step f f' -> sized (f_params f) inputs ->
  kinds_ok other f' -> chain_grows (graph_of other f') -> results_used (graph_of other f') ->
  f_params f <> [] -> (forall m, Permutation (iter m) m) ->
  exists ma, plan_memory iter true false (graph_of other f') peak0 = Some (Some ma).
Proof.
  intros f f' inputs other iter peak0 V St Sz KO CG RU NP I.
  destruct (verified_runs f inputs V Sz) as (r & Rf & _). destruct (steps_preserve f f' St) as [Ep Pr].
  pose proof (Pr inputs r Sz Rf) as R'. assert (Sz' : sized (f_params f') inputs) by (rewrite Ep; auto).
  assert (ND : NoDup (map fst (f_params f'))) by (rewrite Ep; apply V).
  pose proof (graph_wf other f' inputs r Sz' R' ND KO) as W. pose proof (graph_overlap other f' inputs r Sz' R' KO) as WO.
  assert (E : exists v s, arena_tensor (graph_of other f') v s).
  { rewrite <- Ep in NP. destruct (f_params f') as [|(x & t) ps] eqn:Eps; [congruence|]. exists x, (Z.of_nat (tsize t)). left. unfold graph_of; cbn [g_args]. rewrite Eps. left; auto. }
  unfold plan_memory. cbn [negb orb].
  destruct (C03_overlap_plan_complete iter (graph_of other f') peak0 I W WO CG RU E) as (pw & -> & _).
  destruct (C03_plan_complete iter (graph_of other f') (p_peak_op pw) I W E) as (pn & -> & _). eauto.
Qed.

(** The function of C72_concrete: 12 input bytes at 0, everything planned, every hypothesis met. *)
Example C73_concrete :
  let g := graph_of (fun _ => KOther) ex_lowered in
  verified ex_fun /\ clos_refl_trans _ lower_step ex_fun ex_lowered /\ kinds_ok (fun _ => KOther) ex_lowered /\ chain_grows g /\ results_used g /\
  exists ma, plan_memory (fun m => m) true false g 0 = Some (Some ma) /\ ma_offsets ma = [0; 16; 0; 16; 0]%Z /\
  outputs (arena_trace g (kernels ex_lowered) (plan_locs g (ma_offsets ma)) (fun _ => 77%Z) [[1; 2; 3; 4; 6; 7; 8; 9; 10; 11; 12; 13]%Z])
    = [[5; 4; 6; 7; 5; 5; 4; 6; 7; 5]%Z].
Proof.
  split; [apply ex_verified|]. split; [apply C72_concrete|]. split; [|split; [|split]].
  - intros i h Hi E. cbn in Hi. repeat (destruct Hi as [<-|Hi]; [discriminate|]). destruct Hi.
  - intros p o r s q o' r' s' Hp Ho Hr Hq Ho' Hr' Hin.
    destruct p as [|[|[|[|[|[|p]]]]]]; cbn in Hp; try discriminate; injection Hp as <-; cbn in Ho; try discriminate.
    destruct q as [|[|[|[|[|[|q]]]]]]; cbn in Hq; try discriminate; injection Hq as <-; cbn in Ho'; try discriminate.
    cbn in Hr, Hr', Hin. injection Hr as <- <-. destruct Hin as [Hin|[]]. discriminate.
  - intros p o r s Hp Ho Hr. destruct p as [|[|[|[|[|[|p]]]]]]; cbn in Hp; try discriminate; injection Hp as <-; cbn in Ho; try discriminate.
    cbn in Hr. injection Hr as <- <-. exists 3. eexists. split; [reflexivity|]. left; auto.
  - eexists. split; [vm_compute; reflexivity|]. split; vm_compute; reflexivity.
Qed.

Print Assumptions C73_end_to_end.
Print Assumptions C73_plan_exists.
