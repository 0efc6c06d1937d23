(** C83: a compiled function that reads its large constants from the weights file returns, executed in the planned arena, the results of the
    original function. *)
From Coq Require Import Relations Permutation QArith Cantor.
From Verif Require Import Base NdSpec CopyKernels MemPlanModel MemPlanSpec MemExecSpec MemExecProofs MemPlanProps.
From Verif Require Import WeightsModel WeightsSpec WeightsProofs SlicePadModel LowerModel FunOpsSpec FunModel FunSpec FunProofs FunProofs2 FunProps FunArenaModel FunArenaSpec FunArenaProps FunLoadModel FunLoadSpec FunLoadProofs.
From Verif Require FunOpsProps.
Local Open Scope nat_scope.

Notation venv := FunSpec.env (only parsing).

Lemma expand_dsts file o : map i_dst (expand file o) = map fst (results o).
Proof.
  destruct o as [i|lw rs]; cbn [expand results map]; auto. rewrite map_map. cbn [i_dst].
  generalize 0. induction rs as [|r rs IH]; intros b; cbn [length seq combine map fst snd]; auto. f_equal. apply IH.
Qed.
Lemma expand_scope file o : map (fun i => (i_dst i, i_ty i)) (expand file o) = results o.
Proof.
  destruct o as [i|lw rs]; cbn [expand results map]; auto. rewrite map_map. cbn [i_dst i_ty].
  generalize 0. induction rs as [|r rs IH]; intros b; cbn [length seq combine map fst snd]; auto. f_equal; [destruct r; reflexivity|apply IH].
Qed.
Lemma expand_scopes file ops : map (fun i => (i_dst i, i_ty i)) (flat_map (expand file) ops) = flat_map results ops.
Proof. induction ops as [|o ops IH]; cbn [flat_map map]; auto. rewrite map_app, IH, expand_scope. auto. Qed.
Lemma lop_names other o : res_names (lop_of other o) = map fst (results o).
Proof. destruct o as [i|lw rs]; cbn [lop_of res_names op_of o_res results map fst]; auto. unfold res_names. cbn [o_res]. rewrite map_map. auto. Qed.

(** Running the expanded operations is running the load operators. *)
Lemma read_results_exec file lw rs : forall k (e e' : venv), (forall i, i < length rs -> WeightsSpec.fetch file lw (k + i) <> None) ->
  exec (map (fun p => Instr (fst (snd p)) (TOther (fun _ => match WeightsSpec.fetch file lw (fst p) with Some b => b | None => [] end)) [] (snd (snd p))) (combine (seq k (length rs)) rs)) e e' ->
  read_results file lw k rs e = Some e'.
Proof.
  induction rs as [|(d & t) rs IH]; intros k e e' F X; cbn [length seq combine map] in X; [inversion X; subst; auto|].
  inversion X as [|i' tl e0 vs b e'' Lv K Sm Zl N X']; subst. cbn [i_op i_args i_dst i_ty fst snd] in *. cbn [read_results].
  specialize (F 0 ltac:(cbn; lia)) as F0. rewrite Nat.add_0_r in F0. destruct (WeightsSpec.fetch file lw k) as [b0|] eqn:Ek; [|congruence].
  cbn [sem] in Sm. injection Sm as <-. apply IH; auto. intros i Hi. replace (S k + i) with (k + S i) by lia. apply F. cbn; lia.
Qed.
Lemma eval_expand file ops : forall (e e' : venv), (forall lw rs, In (Load lw rs) ops -> forall k, k < length rs -> WeightsSpec.fetch file lw k <> None) ->
  exec (flat_map (expand file) ops) e e' -> eval_lops file ops e = Some e'.
Proof.
  induction ops as [|o ops IH]; intros e e' F X; [inversion X; subst; auto|]. cbn [flat_map] in X. apply exec_app in X. destruct X as (e1 & X1 & X2).
  destruct o as [i|lw rs]; cbn [eval_lops expand] in *.
  - inversion X1 as [|i' tl e0 vs b e'' Lv K Sm Zl N X']; subst. inversion X'; subst. rewrite Lv, Sm. apply IH; auto. intros lw rs H. apply F. right; auto.
  - rewrite (read_results_exec file lw rs 0 e e1); auto.
    + apply IH; auto. intros lw' rs' H. apply F. right; auto.
    + intros i Hi. apply (F lw rs); [left; auto|auto].
Qed.

(** ** The graph *)
Lemma set_all_app (E : MemExecSpec.env) a : forall b x y, length a = length x -> set_all E (a ++ b) (x ++ y) = set_all (set_all E a x) b y.
Proof. revert E. induction a as [|(v & z) a IH]; intros E b [|u x] y L; try discriminate; auto. cbn [app set_all]. apply IH. cbn in L; lia. Qed.

Section G.
Variable other : nat -> okind.
Variable lf : lfunc.
Variable file : list Z.
Variable inputs : list (list Z).
Variable r : list (ty * list Z).
Notation flat := (flat_map (expand file) (l_ops lf)).
Hypothesis Sz : sized (l_params lf) inputs.
Hypothesis R : run (Func (l_params lf) flat (l_rets lf)) inputs r.
Hypothesis ND : NoDup (map fst (l_params lf)).
Hypothesis KO : forall i g, In (One i) (l_ops lf) -> i_op i = TOther g ->
    other (i_dst i) <> KConst /\ other (i_dst i) <> KStats /\ other (i_dst i) <> KTerm /\ (overlappable (other (i_dst i)) = true -> i_args i <> []).
Notation g := (lgraph_of other lf).

Lemma lnames : all_names g = map fst (l_params lf) ++ map i_dst flat.
Proof.
  unfold all_names, arg_names, lgraph_of; cbn [g_args g_ops]. rewrite map_map. cbn [fst]. f_equal. rewrite flat_map_app. cbn [flat_map res_names o_res map app].
  rewrite app_nil_r. clear. generalize (l_ops lf). intros ops. induction ops as [|o ops IH]; cbn [map flat_map]; auto. rewrite map_app, <- IH, lop_names, expand_dsts. auto.
Qed.
Lemma lop_at_cases p o : op_at g p o -> (exists pre x post, l_ops lf = pre ++ x :: post /\ length pre = p /\ o = lop_of other x) \/
  (p = length (l_ops lf) /\ o = Op KTerm (l_rets lf) []).
Proof.
  unfold op_at, lgraph_of; cbn [g_ops]. intros H. destruct (Nat.lt_ge_cases p (length (l_ops lf))) as [Lt|Ge].
  - left. rewrite nth_error_app1 in H by (rewrite map_length; auto). rewrite nth_error_map in H. destruct (nth_error (l_ops lf) p) as [i|] eqn:E; [|discriminate].
    injection H as <-. apply nth_error_split in E. destruct E as (pre & post & E1 & E2). eauto 10.
  - right. rewrite nth_error_app2 in H by (rewrite map_length; auto). rewrite map_length in H. destruct (p - length (l_ops lf)) as [|[|k]] eqn:E; cbn in H; try discriminate.
    injection H as <-. split; auto. lia.
Qed.
Lemma lrun_prefix pre i post : l_ops lf = pre ++ One i :: post -> exists e1 vs b, exec (flat_map (expand file) pre) (start (l_params lf) inputs) e1 /\
  lookups e1 (i_args i) = Some vs /\ ok (i_op i) (map fst vs) (i_ty i) /\ sem (i_op i) vs (i_ty i) = Some b.
Proof.
  intros B. destruct R as (e & X & _). cbn [f_body f_params] in X. rewrite B, flat_map_app in X. apply exec_app in X. destruct X as (e1 & X1 & X2).
  cbn [flat_map expand app] in X2. inversion X2; subst. eauto 10.
Qed.
Lemma ldominated pre args (X : exists e1, exec (flat_map (expand file) pre) (start (l_params lf) inputs) e1 /\ forall x, In x args -> In x (map fst e1)) :
  forall x, In x args -> In x (map fst (l_params lf)) \/ exists q, q < length pre /\ exists o, nth_error pre q = Some o /\ In x (map fst (results o)).
Proof.
  destruct X as (e1 & E1 & H). intros x Hx. apply H in Hx. apply (exec_names _ _ _ E1) in Hx. rewrite (start_names _ _ Sz) in Hx. destruct Hx as [Hx|Hx]; auto. right.
  apply in_map_iff in Hx. destruct Hx as (i & <- & Hi). apply in_flat_map in Hi. destruct Hi as (o & Ho & Hi). apply In_nth_error in Ho. destruct Ho as (q & Hq).
  exists q. split; [apply nth_error_Some; congruence|]. exists o. split; auto. rewrite <- (expand_dsts file). apply in_map; auto.
Qed.
Lemma lused_before p v : used_at g v p -> In v (map fst (l_params lf)) \/ exists q, q < p /\ produced_at g v q.
Proof.
  intros (o & Ho & Hv). apply lop_at_cases in Ho.
  assert (PR : forall pre post q x, l_ops lf = pre ++ post -> q < length pre -> (exists o, nth_error pre q = Some o /\ In x (map fst (results o))) -> produced_at g x q).
  { intros pre post q x B Hq (o' & Hn & Hx). exists (lop_of other o'). split; [|rewrite lop_names; auto]. unfold op_at, lgraph_of; cbn [g_ops].
    rewrite B, map_app, <- app_assoc, nth_error_app1 by (rewrite map_length; auto). rewrite nth_error_map, Hn. auto. }
  destruct Ho as [(pre & x & post & B & <- & ->)|[-> ->]].
  - destruct x as [i|lw rs]; cbn [lop_of op_of o_args] in Hv; [|destruct Hv].
    destruct (lrun_prefix pre i post B) as (e1 & vs & b & X & L & _).
    destruct (ldominated pre (i_args i)) with (x := v) as [?|(q & Hq & Hd)]; auto; [exists e1; split; auto; intros x; eapply lookups_keys; eauto|].
    right. exists q. split; auto. eapply PR; eauto.
  - cbn [o_args] in Hv. destruct R as (e & X & L). cbn [f_body f_params f_rets] in X, L.
    destruct (ldominated (l_ops lf) (l_rets lf)) with (x := v) as [?|(q & Hq & Hd)]; auto; [exists e; split; auto; intros x; eapply lookups_keys; eauto|].
    right. exists q. split; auto. eapply PR with (post := []); eauto. rewrite app_nil_r. auto.
Qed.
Lemma op_in pre x post : l_ops lf = pre ++ x :: post -> In x (l_ops lf).
Proof. intros ->. apply in_or_app. right; left; auto. Qed.

Lemma lgraph_wf : wf_graph g.
Proof.
  constructor.
  - rewrite lnames. destruct R as (e & X & _). cbn [f_body f_params] in X. pose proof (exec_nodup _ _ _ X) as H. rewrite (start_names _ _ Sz) in H. specialize (H ND).
    rewrite <- fst_types, (exec_scope _ _ _ X), map_app, map_rev, map_map, fst_types, (start_names _ _ Sz) in H. cbn [fst] in H.
    eapply Permutation_NoDup; [|exact H]. rewrite Permutation_app_comm. apply Permutation_app_head. symmetry. apply Permutation_rev.
  - intros v z H. apply in_map_iff in H. destruct H as (q & E & _). injection E as <- <-. lia.
  - intros p o v z H Hv. apply lop_at_cases in H. destruct H as [(pre & x & post & B & <- & ->)|[-> ->]]; [|destruct Hv].
    destruct x as [i|lw rs]; cbn [lop_of op_of o_res] in Hv.
    + destruct Hv as [Hv|[]]. injection Hv as <- <-. lia.
    + apply in_map_iff in Hv. destruct Hv as (q & E & _). injection E as <- <-. lia.
  - intros p v H. unfold arg_names, lgraph_of; cbn [g_args]. rewrite map_map. cbn [fst]. apply lused_before; auto.
  - intros p o H Hk. apply lop_at_cases in H. destruct H as [(pre & x & post & B & <- & ->)|[-> ->]]; [|discriminate].
    destruct x as [i|lw rs]; [|reflexivity]. cbn [lop_of op_of o_args o_kind] in *.
    destruct (lrun_prefix pre i post B) as (e1 & vs & b & X & L & K & Sm). unfold kind_of in Hk. destruct (i_op i) eqn:O; try discriminate; try (destruct x; discriminate).
    + cbn [sem] in Sm. destruct vs; [|discriminate]. apply lookups_length in L. destruct (i_args i); auto. discriminate.
    + destruct (KO i f) as (K1 & _); auto; [eapply op_in; eauto|]. contradiction.
  - intros p o H. apply lop_at_cases in H. destruct H as [(pre & x & post & B & <- & ->)|[-> ->]]; [|discriminate].
    destruct x as [i|lw rs]; [|discriminate]. cbn [lop_of op_of o_kind]. unfold kind_of.
    destruct (i_op i) eqn:O; try discriminate; try (destruct x; discriminate). destruct (KO i f) as (_ & K2 & _); auto. eapply op_in; eauto.
Qed.
Lemma lgraph_overlap : wf_overlap g.
Proof.
  constructor.
  - intros p o H Ov. apply lop_at_cases in H. destruct H as [(pre & x & post & B & <- & ->)|[-> ->]]; [|discriminate]. destruct x as [i|lw rs]; [|discriminate]. cbn. eauto.
  - intros p o v H Ov Hv. destruct (lused_before p v) as [Hp|(q & Hq & (o' & Ho' & Hr))].
    + exists o. auto.
    + unfold tensors. apply in_or_app. left. unfold arg_names, lgraph_of; cbn [g_args]. rewrite map_map. auto.
    + unfold tensors. apply in_or_app. right. apply in_flat_map. exists o'. split; [eapply nth_error_In; exact Ho'|].
      apply lop_at_cases in Ho'. destruct Ho' as [(pre & x & post & B & <- & ->)|[-> ->]]; [|destruct Hr]. rewrite lop_names in Hr. apply in_map_iff in Hr. destruct Hr as (q & <- & Hq').
      destruct x as [i|lw rs]; cbn [lop_of op_of results o_res] in *.
      * destruct Hq' as [<-|[]]. cbn. auto.
      * unfold tensor_res. cbn [o_res]. apply in_flat_map. exists (fst q, Some (Z.of_nat (tsize (snd q)))). split; [|cbn; auto]. apply in_map_iff. exists q. auto.
  - intros p o H Ov. apply lop_at_cases in H. destruct H as [(pre & x & post & B & <- & ->)|[-> ->]]; [|discriminate]. destruct x as [i|lw rs]; [|discriminate]. cbn [lop_of op_of o_args o_kind] in *.
    destruct (lrun_prefix pre i post B) as (e1 & vs & b & X & L & K & Sm). unfold kind_of in Ov. destruct (i_op i) eqn:O; try discriminate.
    + destruct (KO i f) as (_ & _ & _ & K4); auto. eapply op_in; eauto.
    + cbn [sem] in Sm. apply lookups_length in L. destruct vs as [|v [|? ?]]; try discriminate; [|destruct v; discriminate]. destruct (i_args i); [discriminate|discriminate].
    + destruct x; try discriminate. cbn [sem] in Sm. apply lookups_length in L. destruct vs as [|[v w] vs]; [discriminate|]. destruct (i_args i); [discriminate|discriminate].
Qed.
Lemma lkernels_sized : sem_sized g (lkernels file lf).
Proof.
  intros p o args H. apply lop_at_cases in H. unfold lkernels. destruct H as [(pre & x & post & B & <- & ->)|[-> ->]].
  - rewrite B, nth_error_app2, Nat.sub_diag by lia. cbn [nth_error]. destruct x as [i|lw rs]; cbn [lop_of op_of o_res].
    + constructor; [|constructor]. cbn [snd]. rewrite fit_length. auto.
    + clear B. generalize 0. induction rs as [|q rs IH]; intros b; cbn [length seq combine map]; [constructor|]. constructor; [cbn [fst snd]; rewrite fit_length; auto|apply IH].
  - rewrite (proj2 (nth_error_None (l_ops lf) (length (l_ops lf)))) by lia. constructor.
Qed.
Lemma linputs_sized : Forall2 (fun b a => Z.of_nat (length b) = snd a) inputs (g_args g).
Proof. unfold lgraph_of; cbn [g_args]. clear - Sz. unfold sized in Sz. induction Sz; cbn [map]; constructor; auto. cbn. lia. Qed.

(** The results of a load operator, stored at once, are those of its expansion. *)
Lemma stored_results lw rs : forall k (e e' : venv) (E : MemExecSpec.env),
  exec (map (fun p => Instr (fst (snd p)) (TOther (fun _ => match WeightsSpec.fetch file lw (fst p) with Some b => b | None => [] end)) [] (snd (snd p))) (combine (seq k (length rs)) rs)) e e' ->
  (forall x v, lookup e x = Some v -> E x = snd v) ->
  forall x v, lookup e' x = Some v -> set_all E (map (fun q => (fst q, Some (Z.of_nat (tsize (snd q))))) rs)
    (map (fun p => fit (tsize (snd (snd p))) match WeightsSpec.fetch file lw (fst p) with Some b => b | None => [] end) (combine (seq k (length rs)) rs)) x = snd v.
Proof.
  induction rs as [|(d & t) rs IH]; intros k e e' E X A; cbn [length seq combine map] in X |- *; [inversion X; subst; exact A|].
  inversion X as [|i' tl e0 vs b e'' Lv K Sm Zl N X']; subst. cbn [i_op i_args i_dst i_ty fst snd] in *. cbn [set_all sem] in *. injection Sm as <-.
  apply (IH (S k) _ e' _ X'). intros x v Hx. cbn [lookup] in Hx. unfold set_env. destruct (Nat.eqb x d); [|auto]. injection Hx as <-. cbn [snd]. apply fit_id. exact Zl.
Qed.
Lemma lprivate_last rest : forall pre (e e' : venv) E, l_ops lf = pre ++ rest ->
  map (fun p => (fst p, fst (snd p))) e = lscope (l_params lf) pre -> exec (flat_map (expand file) rest) e e' ->
  (forall x v, lookup e x = Some v -> E x = snd v) -> lookups e' (l_rets lf) = Some r ->
  last (run_private (lkernels file lf) (map (lop_of other) rest ++ [Op KTerm (l_rets lf) []]) (length pre) E) [] = map snd r.
Proof.
  induction rest as [|o rest IH]; intros pre e e' E B T X A L.
  - inversion X; subst. cbn [map app run_private last o_args]. apply (lookups_private e' E); auto.
  - cbn [flat_map] in X. apply exec_app in X. destruct X as (e1 & X1 & X2). cbn [map app run_private].
    set (tr := run_private _ _ _ _). assert (NE : tr <> []) by (unfold tr; destruct (map (lop_of other) rest); discriminate).
    destruct tr as [|t0 tr'] eqn:Et; [contradiction|].
    match goal with |- last (?h :: t0 :: tr') [] = _ => change (last (h :: t0 :: tr') []) with (last (t0 :: tr') []) end. rewrite <- Et. unfold tr.
    replace (Datatypes.S (length pre)) with (length (pre ++ [o])) by (rewrite app_length; cbn; lia).
    apply (IH (pre ++ [o]) e1 e'); auto.
    + rewrite B, <- app_assoc. auto.
    + rewrite (exec_scope _ _ _ X1), expand_scope, T. unfold lscope. rewrite flat_map_app, rev_app_distr. cbn [flat_map]. rewrite app_nil_r, app_assoc. auto.
    + destruct o as [i|lw rs].
      * cbn [expand] in X1. inversion X1 as [|i' tl e0 vs b e'' Lv K Sm Zl N X']; subst. inversion X'; subst. intros x v Hx. cbn [lookup] in Hx. cbn [lop_of op_of o_res o_args].
        rewrite (lookups_private e E A _ _ Lv).
        assert (Ek : lkernels file lf (length pre) (map snd vs) = [b]).
        { unfold lkernels. rewrite B, nth_error_app2, Nat.sub_diag by lia. cbn [nth_error]. rewrite firstn_app, firstn_all, Nat.sub_diag, firstn_O, app_nil_r.
          rewrite <- T, lookups_types, Lv. cbn [option_map]. rewrite combine_fst_snd, Sm, fit_id; auto. }
        rewrite Ek. cbn [set_all]. unfold set_env. destruct (Nat.eqb x (i_dst i)); [injection Hx as <-; auto|auto].
      * cbn [expand] in X1. cbn [lop_of o_res o_args map]. unfold lkernels. rewrite B, nth_error_app2, Nat.sub_diag by lia. cbn [nth_error].
        apply (stored_results lw rs 0 e e1 E X1 A).
Qed.
Lemma lprivate_outputs : outputs (private_trace g (lkernels file lf) inputs) = map snd r.
Proof.
  destruct R as (e & X & L). cbn [f_body f_params f_rets] in X, L. unfold outputs, private_trace, arg_rs, lgraph_of; cbn [g_args g_ops].
  apply (lprivate_last (l_ops lf) [] (start (l_params lf) inputs) e); auto.
  - rewrite start_types; auto.
  - intros x v Hx. apply start_private; auto.
Qed.
End G.

(** ** The theorems.  [f]: the original function; [f']: the lowered one; [lf], [ts]: the function that loads, and its file. *)

(** What is known of the lowered function. *)
Lemma lowered_facts f f' inputs : verified f -> clos_refl_trans _ lower_step f f' -> sized (f_params f) inputs ->
  exists r, evaluate f inputs = Some r /\ run f' inputs r /\ f_params f' = f_params f /\ NoDup (map i_dst (f_body f')) /\
    (forall x, In x (map fst (f_params f')) -> const_of (f_body f') x = None) /\
    (forall x d t, const_of (f_body f') x = Some (d, t) -> length d = tsize t).
Proof.
  intros V St Sz. destruct (verified_runs f inputs V Sz) as (r & Rf & _). destruct (steps_preserve f f' St) as [Ep Pr].
  pose proof (Pr inputs r Sz Rf) as R'. exists r. split; [apply run_evaluate; auto|]. split; [auto|]. split; [auto|].
  assert (Sz' : sized (f_params f') inputs) by (rewrite Ep; auto). assert (ND : NoDup (map fst (f_params f'))) by (rewrite Ep; apply V).
  destruct R' as (e & X & _). pose proof (exec_nodup _ _ _ X) as H. rewrite (start_names _ _ Sz') in H. specialize (H ND).
  rewrite <- fst_types, (exec_scope _ _ _ X), map_app, map_rev, map_map, fst_types, (start_names _ _ Sz') in H. cbn [fst] in H.
  assert (H' : NoDup (map fst (f_params f') ++ map i_dst (f_body f'))).
  { eapply Permutation_NoDup; [|exact H]. rewrite Permutation_app_comm. apply Permutation_app_head. symmetry. apply Permutation_rev. }
  split; [clear - H'; induction (map fst (f_params f')); [exact H'|inversion H'; auto]|]. split.
  - intros x Hx. apply const_of_none. intros K. clear - H' Hx K. induction (map fst (f_params f')) as [|y l IH]; [destruct Hx|]. cbn [app] in H'. inversion H'; subst.
    destruct Hx as [->|Hx]; [|auto]. apply H1. apply in_or_app. auto.
  - intros x d t E. apply const_of_in in E. destruct E as (i & Hi & O & _ & <-). clear - X Hi O. induction X; [destruct Hi|].
    destruct Hi as [->|Hi]; [|auto]. rewrite O in *. destruct H0 as [H0|H0]; [discriminate|]. cbn [op_ok] in H0. destruct vs; [exact H0|contradiction].
Qed.
Lemma externalised_runs f f' inputs name ext chosen schedule lf ts :
  verified f -> clos_refl_trans _ lower_step f f' -> sized (f_params f) inputs -> new_names name f' ->
  (forall x, chosen x = true -> In x schedule) -> externalise name ext chosen schedule f' = (lf, ts) ->
  exists r, evaluate f inputs = Some r /\ run (Func (l_params lf) (flat_map (expand (flash_file ts)) (l_ops lf)) (l_rets lf)) inputs r /\ l_params lf = f_params f /\
    forall lw rs, In (Load lw rs) (l_ops lf) -> forall k, k < length rs -> WeightsSpec.fetch (flash_file ts) lw k <> None.
Proof.
  intros V St Sz NN SC E. destruct (lowered_facts f f' inputs V St Sz) as (r & Er & R' & Ep & ND & PC & CS). exists r. split; [exact Er|].
  assert (Sz' : sized (f_params f') inputs) by (rewrite Ep; auto).
  assert (SC' : forall x, is_loaded chosen (f_body f') x = true -> In x schedule) by (intros x Hx; apply andb_prop in Hx; apply SC; tauto).
  pose proof (sim_function name chosen ext schedule f' NN ND CS SC' inputs r Sz' R') as RS. rewrite E in RS. split; [|split].
  - apply RS. intros x Hx. unfold is_loaded. rewrite (PC x Hx). apply andb_false_r.
  - unfold externalise in E. injection E as <- _. exact Ep.
  - intros lw rs Hl k Hk. pose proof (loads_fetch name chosen ext schedule f' CS SC' lw rs) as G. rewrite E in G. specialize (G Hl k Hk).
    unfold flash_file. unfold externalise in E. injection E as _ <-. exact G.
Qed.

(** The function that loads its constants from the written file returns the results of the original, whatever was moved to the file, wherever the
    driver visited the constants, in flash or external memory. *)
Theorem C83_weights_file : forall f f' inputs name ext chosen schedule lf ts,
  verified f -> clos_refl_trans _ lower_step f f' -> sized (f_params f) inputs -> new_names name f' ->
  (forall x, chosen x = true -> In x schedule) -> externalise name ext chosen schedule f' = (lf, ts) ->
  exists r, evaluate f inputs = Some r /\ evaluate_with (flash_file ts) lf inputs = Some r.
Proof.
  intros f f' inputs name ext chosen schedule lf ts V St Sz NN SC E.
  destruct (externalised_runs f f' inputs name ext chosen schedule lf ts V St Sz NN SC E) as (r & Er & (e & X & L) & _ & F). cbn [f_body f_params f_rets] in X, L.
  exists r. split; auto. unfold evaluate_with. rewrite (eval_expand _ _ _ _ F X). exact L.
Qed.

Lemma kept_kinds f name ext chosen schedule other : kinds_ok other f -> forall i g, In (One i) (l_ops (fst (externalise name ext chosen schedule f))) -> i_op i = TOther g ->
  (forall j o, nth_error (f_body f) j = Some o -> length (nth j (st_ops (run_write ext (const_data (f_body f)) schedule (operands_of chosen f))) []) = length (i_args o)) ->
  other (i_dst i) <> KConst /\ other (i_dst i) <> KStats /\ other (i_dst i) <> KTerm /\ (overlappable (other (i_dst i)) = true -> i_args i <> []).
Proof.
  intros KO i g H O LEN. unfold externalise in H. cbn [fst l_ops] in H. set (s := run_write _ _ _ _) in *.
  assert (NL : forall j, ~ In (One i) (loads_at name (f_body f) (st_loads s) j)).
  { intros j K. unfold loads_at in K. apply in_flat_map in K. destruct K as (p & _ & K). destruct (Nat.eqb _ _); [|destruct K]. destruct K as [K|[]]. discriminate. }
  apply in_app_or in H. destruct H as [H|H]; [|destruct (NL _ H)]. apply in_flat_map in H. destruct H as ((j & i') & Hj & H). cbn [fst snd] in H.
  apply in_app_or in H. destruct H as [H|H]; [destruct (NL _ H)|]. apply in_combine_seq in Hj. destruct Hj as [_ Hj]. rewrite Nat.sub_0_r in Hj.
  assert (G : exists o, i_op i' = o /\ match o with TConst _ => True | _ => i = Instr (i_dst i') o (new_operands name (i_args i') (nth j (st_ops s) [])) (i_ty i') end).
  { exists (i_op i'). split; auto. unfold kept_op in H. destruct (i_op i'); auto; destruct H as [H|[]]; congruence. }
  destruct G as (o & Eo & G). assert (Ei : i = Instr (i_dst i') o (new_operands name (i_args i') (nth j (st_ops s) [])) (i_ty i')).
  { destruct o; auto. unfold kept_op in H. rewrite Eo in H. destruct (chosen _); [destruct H|]. destruct H as [H|[]]. injection H as ->. congruence. }
  rewrite Ei in O. cbn [i_op] in O. subst o. destruct (KO i' g (nth_error_In _ _ Hj) Eo) as (K1 & K2 & K3 & K4). rewrite Ei. cbn [i_dst i_args]. repeat split; auto.
  intros Ov K. apply (K4 Ov). specialize (LEN j i' Hj). unfold new_operands in K. destruct (i_args i') as [|y ys]; auto. exfalso.
  destruct (nth j (st_ops s) []); [discriminate LEN|discriminate K].
Qed.

Lemma loaded_kinds f' name ext chosen schedule lf ts other : kinds_ok other f' -> externalise name ext chosen schedule f' = (lf, ts) ->
  forall i g, In (One i) (l_ops lf) -> i_op i = TOther g ->
    other (i_dst i) <> KConst /\ other (i_dst i) <> KStats /\ other (i_dst i) <> KTerm /\ (overlappable (other (i_dst i)) = true -> i_args i <> []).
Proof.
  intros KO E. intros i g Hi O. apply (kept_kinds f' name ext chosen schedule other KO i g); auto; [rewrite E; exact Hi|].
    intros j o Hj. destruct (inv_run ext (const_data (f_body f')) (operands_of chosen f') schedule) as (_ & I2 & _). specialize (I2 j).
    assert (Row : nth_error (operands_of chosen f') j = Some (map (operand_tag chosen (f_body f')) (i_args o))).
    { unfold operands_of. rewrite nth_error_app1 by (rewrite map_length; apply nth_error_Some; congruence). rewrite nth_error_map, Hj. auto. }
    rewrite Row in I2. cbn [option_map] in I2. rewrite map_length in I2. destruct (nth_error (st_ops _) j) as [row|] eqn:Rw; [|discriminate]. injection I2 as I2.
    rewrite (nth_error_nth _ _ _ Rw). exact I2.
Qed.

(** From the TFLite function to the bytes in the arena, with the constants in the weights file: the whole back end. *)
Theorem C83_end_to_end : forall f f' inputs name ext chosen schedule lf ts other iter peak0 ma garbage,
  verified f -> clos_refl_trans _ lower_step f f' -> sized (f_params f) inputs -> new_names name f' ->
  (forall x, chosen x = true -> In x schedule) -> externalise name ext chosen schedule f' = (lf, ts) ->
  kinds_ok other f' -> chain_grows (lgraph_of other lf) ->
  (forall m, Permutation (iter m) m) -> plan_memory iter true false (lgraph_of other lf) peak0 = Some (Some ma) ->
  exists r, evaluate f inputs = Some r /\
    outputs (arena_trace (lgraph_of other lf) (lkernels (flash_file ts) lf) (plan_locs (lgraph_of other lf) (ma_offsets ma)) garbage inputs) = map snd r.
Proof.
  intros f f' inputs name ext chosen schedule lf ts other iter peak0 ma garbage V St Sz NN SC E KO CG I PM.
  destruct (externalised_runs f f' inputs name ext chosen schedule lf ts V St Sz NN SC E) as (r & Er & RS & Ep & F).
  pose proof (loaded_kinds f' name ext chosen schedule lf ts other KO E) as KL.
  assert (Sz' : sized (l_params lf) inputs) by (rewrite Ep; auto). assert (ND : NoDup (map fst (l_params lf))) by (rewrite Ep; apply V).
  exists r. split; [exact Er|].
  pose proof (lgraph_wf other lf (flash_file ts) inputs r Sz' RS ND KL) as W. pose proof (lgraph_overlap other lf (flash_file ts) inputs r Sz' RS KL) as WO.
  rewrite (C08_chosen_plan_execution iter _ peak0 ma (lkernels (flash_file ts) lf) garbage inputs I W WO CG PM); [apply (lprivate_outputs other lf (flash_file ts) inputs r); auto| |].
  - apply lkernels_sized.
  - apply linputs_sized; auto.
Qed.

(** The plan exists. *)
Theorem C83_plan_exists : forall f f' inputs name ext chosen schedule lf ts other iter peak0,
  verified f -> clos_refl_trans _ lower_step f f' -> sized (f_params f) inputs -> new_names name f' ->
  (forall x, chosen x = true -> In x schedule) -> externalise name ext chosen schedule f' = (lf, ts) ->
  kinds_ok other f' -> chain_grows (lgraph_of other lf) -> results_used (lgraph_of other lf) ->
  f_params f <> [] -> (forall m, Permutation (iter m) m) ->
  exists ma, plan_memory iter true false (lgraph_of other lf) peak0 = Some (Some ma).
Proof.
  intros f f' inputs name ext chosen schedule lf ts other iter peak0 V St Sz NN SC E KO CG RU NP I.
  destruct (externalised_runs f f' inputs name ext chosen schedule lf ts V St Sz NN SC E) as (r & Er & RS & Ep & F).
  pose proof (loaded_kinds f' name ext chosen schedule lf ts other KO E) as KL.
  assert (Sz' : sized (l_params lf) inputs) by (rewrite Ep; auto). assert (ND : NoDup (map fst (l_params lf))) by (rewrite Ep; apply V).
  pose proof (lgraph_wf other lf (flash_file ts) inputs r Sz' RS ND KL) as W. pose proof (lgraph_overlap other lf (flash_file ts) inputs r Sz' RS KL) as WO.
  assert (Et : exists v s, arena_tensor (lgraph_of other lf) v s).
  { rewrite <- Ep in NP. destruct (l_params lf) as [|(x & t) ps] eqn:Eps; [congruence|]. exists x, (Z.of_nat (tsize t)). left. unfold lgraph_of; cbn [g_args]. rewrite Eps. left; auto. }
  unfold plan_memory. cbn [negb orb].
  destruct (C03_overlap_plan_complete iter (lgraph_of other lf) peak0 I W WO CG RU Et) as (pw & -> & _).
  destruct (C03_plan_complete iter (lgraph_of other lf) (p_peak_op pw) I W Et) as (pn & -> & _). eauto.
Qed.

(** The network of C82_concrete: weights, multipliers and one of the two lookup tables go to the file, visited in the order 30, 11, 10.  The
    convolution reads one load operator with two results, the second lookup reads another; every hypothesis is met. *)
Definition ex_junk (i : Z) : Z := (i mod 5)%Z.
Definition ex_name (w k : nat) : nat := 100 + Cantor.to_nat (w, k).
Definition ex_chosen (x : nat) : bool := existsb (Nat.eqb x) [30; 10; 11].
Definition ex_loading : lfunc * list (list Z) := externalise ex_name false ex_chosen [30; 11; 10] (FunOpsProps.net_lowered ex_junk).
Definition ex_lgraph : graph := lgraph_of (fun _ => KOther) (fst ex_loading).
Lemma ex_lgraph_value : ex_lgraph = Graph [(0, 64%Z)]
  [Op KOther [] [(ex_name 1 0, Some 144%Z); (ex_name 1 1, Some 5%Z)]; Op KOther [0; ex_name 1 0; ex_name 1 1] [(4, Some 64%Z)]; Op KConst [] [(20, Some 256%Z)];
   Op KLookup [4; 20] [(1, Some 64%Z)]; Op KOther [1] [(2, Some 16%Z)]; Op KOther [] [(ex_name 0 0, Some 256%Z)];
   Op KLookup [2; ex_name 0 0] [(3, Some 16%Z)]; Op KTerm [3] []].
Proof. vm_compute. reflexivity. Qed.
Example C83_concrete :
  let lf := fst ex_loading in let ts := snd ex_loading in
  verified FunOpsProps.net /\ clos_refl_trans _ lower_step FunOpsProps.net (FunOpsProps.net_lowered ex_junk) /\ new_names ex_name (FunOpsProps.net_lowered ex_junk) /\
  kinds_ok (fun _ => KOther) (FunOpsProps.net_lowered ex_junk) /\ chain_grows ex_lgraph /\ results_used ex_lgraph /\
  map (@length Z) ts = [256; 149] /\
  option_map (map snd) (evaluate_with (flash_file ts) lf [FunOpsProps.net_input]) = Some [[63; 34; 63; 63; 63; 63; 63; 58; 63; 59; 25; 63; 43; 21; 63; 45]%Z] /\
  exists ma, plan_memory (fun m => m) true false ex_lgraph 0 = Some (Some ma) /\
  outputs (arena_trace ex_lgraph (lkernels (flash_file ts) lf) (plan_locs ex_lgraph (ma_offsets ma)) (fun _ => 77%Z) [FunOpsProps.net_input])
    = [[63; 34; 63; 63; 63; 63; 63; 58; 63; 59; 25; 63; 43; 21; 63; 45]%Z].
Proof.
  cbv zeta. pose proof (FunOpsProps.C82_concrete ex_junk) as (A & B & _). split; [exact A|]. split; [exact B|]. split; [|split; [|split; [|split; [|split; [|split]]]]].
  - split.
    + intros w k w' k' H. unfold ex_name in H. apply Nat.add_cancel_l in H. apply (f_equal Cantor.of_nat) in H. rewrite !Cantor.cancel_of_to in H. injection H as -> ->. auto.
    + intros w k M. unfold ex_name in M. set (n := Cantor.to_nat _) in M. clearbody n. unfold mentioned, FunOpsProps.net_lowered in M. cbn [f_params f_body f_rets map fst In] in M.
      destruct M as [M|[M|M]]; [destruct M as [M|[]]; discriminate| |destruct M as [M|[]]; discriminate].
      apply Exists_exists in M. destruct M as (i & Hi & M). repeat (destruct Hi as [<-|Hi]; [cbn [i_dst i_args In] in M; repeat (destruct M as [M|M]; try discriminate); try (destruct M)|]). destruct Hi.
  - intros i h Hi E. cbn [FunOpsProps.net_lowered f_body In] in Hi. repeat (destruct Hi as [<-|Hi]; [discriminate|]). destruct Hi.
  - rewrite ex_lgraph_value. intros p o r s q o' r' s' Hp Ho Hr Hq Ho' Hr' Hin.
    destruct p as [|[|[|[|[|[|[|[|p]]]]]]]]; cbn in Hp; try discriminate; try (destruct p; discriminate Hp); injection Hp as <-; try discriminate Ho;
    (destruct q as [|[|[|[|[|[|[|[|q]]]]]]]]; cbn in Hq; try discriminate; try (destruct q; discriminate Hq); injection Hq as <-; try discriminate Ho');
    cbn [o_res o_args] in Hr, Hr', Hin; injection Hr as <- <-; cbn [In] in Hin; repeat (destruct Hin as [Hin|Hin]; [vm_compute in Hin; discriminate|]); destruct Hin.
  - rewrite ex_lgraph_value. intros p o r s Hp Ho Hr.
    destruct p as [|[|[|[|[|[|[|[|p]]]]]]]]; cbn in Hp; try discriminate; try (destruct p; discriminate Hp); injection Hp as <-; try discriminate Ho; injection Hr as <- <-.
    + exists 4. eexists. split; [reflexivity|]. left; auto.
    + exists 7. eexists. split; [reflexivity|]. left; auto.
  - vm_compute. reflexivity.
  - vm_compute. reflexivity.
  - eexists. split; [vm_compute; reflexivity|]. vm_compute. reflexivity.
Qed.

Print Assumptions C83_weights_file.
Print Assumptions C83_end_to_end.
Print Assumptions C83_plan_exists.
