(** C104: the whole stack, from the TFLite function to what the application reads, with other networks in the same memory. *)
From Coq Require Import Relations Permutation QArith.
From Verif Require Import Base NdSpec MemPlanModel MemPlanSpec MemExecSpec MemExecProofs MemPlanProps WeightsModel WeightsSpec FunOpsModel FunOpsSpec FunModel FunSpec FunProofs FunProofs2 FunProps.
From Verif Require Import FunArenaModel FunArenaSpec FunArenaProps FunLoadModel FunLoadSpec FunLoadProofs FunLoadProps.
From Verif Require Import FunOptModel FunOptSpec FunOptProofs FunOptProofs2 FunOptProps FunOptEnd FunConvModel FunConvSpec FunConvProofs FunConvProofs2 FunConvProps FunConvEnd.
From Verif Require Import CopyKernels SlicePadModel.
From Verif Require Import ArenasModel ArenasSpec ArenasProofs ArenasProps AudioModel RecurModel RecurSpec RecurProps StackSpec.
Local Open Scope nat_scope.

(** Where the weights file is a prefix, a load operator finds the same bytes. *)
Lemma read_prefix (l l' : list Z) pos n b : CopyKernels.read l pos n = Some b -> CopyKernels.read (l ++ l') pos n = Some b.
Proof.
  unfold CopyKernels.read. destruct (_ && _)%bool eqn:C; [|discriminate]. intros E. injection E as <-.
  apply andb_prop in C. destruct C as [C C3]. apply andb_prop in C. destruct C as [C1 C2].
  rewrite app_length. replace (_ && _)%bool with true by lia. f_equal. rewrite skipn_app, firstn_app, skipn_length.
  replace (Z.to_nat n - (length l - Z.to_nat pos)) with 0 by lia. cbn [firstn]. rewrite app_nil_r. reflexivity.
Qed.
Lemma fetch_prefix l l' lw k : fetch l lw k <> None -> fetch (l ++ l') lw k = fetch l lw k.
Proof.
  unfold fetch. destruct (result_at _ _ _) as [(pos & n)|]; [|congruence]. intros H. destruct (CopyKernels.read l pos n) as [b|] eqn:E; [|congruence].
  exact (read_prefix l l' pos n b E).
Qed.
Lemma expand_prefix l l' ops : (forall lw rs, In (Load lw rs) ops -> forall k, k < length rs -> fetch l lw k <> None) ->
  flat_map (FunLoadProofs.expand (l ++ l')) ops = flat_map (FunLoadProofs.expand l) ops.
Proof.
  induction ops as [|o ops IH]; intros F; auto. cbn [flat_map]. rewrite IH by (intros; eapply F; [right; eauto|auto]). f_equal.
  destruct o as [i|lw rs]; auto. cbn [FunLoadProofs.expand]. apply map_ext_in. intros (k & d & t) Hk. cbn [fst snd]. apply in_combine_l in Hk. apply in_seq in Hk.
  rewrite (fetch_prefix l l' lw k); auto. apply (F lw rs); [left; auto|lia].
Qed.

Lemma compiled_reading_facts f N ts rest : compiled_reading f N ts (flash_file ts ++ rest) ->
  compiled N /\
  forall inputs, sized (f_params f) inputs ->
    fits N inputs /\ exists r, evaluate f inputs = Some r /\ ArenasSpec.private_outputs N inputs = map snd r.
Proof.
  intros (size & f0 & f1 & f2 & f3 & f4 & f' & name & ext & chosen & schedule & lf & other & iter & peak0 & ma & (Hsz & V & CF & SF) & (OP & LS) & (NN & SC & E) & (KO & CG & IT & PM) & Eg & Es & Eo & Pk).
  destruct (optimised_facts size f f0 f1 f2 f3 f4 Hsz V CF SF OP) as (V4 & EP4 & E4 & _ & _ & R).
  pose proof (C88_ready_for_lowering f4 V4 EP4) as V4'.
  pose proof (loaded_kinds f' name ext chosen schedule lf ts other KO E) as KL.
  split.
  - destruct (zeros_sized (f_params f4)) as (zs & Sz).
    destruct (externalised_runs f4 f' zs name ext chosen schedule lf ts V4' LS Sz NN SC E) as (r & Er & RS & Ep & F).
    assert (Sz' : sized (l_params lf) zs) by (rewrite Ep; auto).
    assert (ND : NoDup (map fst (l_params lf))) by (rewrite Ep; apply V4').
    unfold compiled. rewrite Eg, Es, Eo. split; [|split; [|split; [|split]]].
    + exact (lgraph_wf other lf (flash_file ts) zs r Sz' RS ND KL).
    + exact (lgraph_overlap other lf (flash_file ts) zs r Sz' RS KL).
    + exact CG.
    + exists iter, peak0, ma. auto.
    + apply lkernels_sized.
  - intros inputs Sz. destruct (R inputs Sz) as (r & Ra & Rb). rewrite <- E4 in Sz.
    destruct (externalised_runs f4 f' inputs name ext chosen schedule lf ts V4' LS Sz NN SC E) as (r' & Er & RS & Ep & F).
    assert (Sz' : sized (l_params lf) inputs) by (rewrite Ep; auto).
    rewrite <- (expand_prefix (flash_file ts) rest (l_ops lf) F) in RS.
    split.
    + unfold fits. rewrite Eg. apply linputs_sized; auto.
    + exists r. split; [exact Ra|]. unfold ArenasSpec.private_outputs. rewrite Eg, Es.
      replace r with r' by congruence. apply (lprivate_outputs other lf (flash_file ts ++ rest) inputs r'); auto; rewrite Ep; apply V4'.
Qed.
Lemma compiled_reading_returns f N ts w : compiled_reading f N ts w -> results_in_arena N -> exists outs, returns N outs.
Proof.
  intros (size & f0 & f1 & f2 & f3 & f4 & f' & name & ext & chosen & schedule & lf & other & iter & peak0 & ma & _ & _ & _ & _ & Eg & _) RA.
  exists (l_rets lf). split.
  - rewrite Eg. exists (map (lop_of other) (l_ops lf)), KTerm. reflexivity.
  - intros v Hv. apply (RA (Op KTerm (l_rets lf) []) v); [|exact Hv]. rewrite Eg. unfold lgraph_of. cbn [g_ops].
    rewrite app_length. cbn [length]. rewrite Nat.add_sub, nth_error_app2, Nat.sub_diag by lia. reflexivity.
Qed.
Lemma compiled_from_facts f N : compiled_from f N ->
  compiled N /\
  forall inputs, sized (f_params f) inputs ->
    fits N inputs /\ exists r, evaluate f inputs = Some r /\ ArenasSpec.private_outputs N inputs = map snd r.
Proof. intros (ts & C). apply (compiled_reading_facts f N ts []). rewrite app_nil_r. exact C. Qed.
Lemma compiled_from_returns f N : compiled_from f N -> results_in_arena N -> exists outs, returns N outs.
Proof. intros (ts & C). exact (compiled_reading_returns f N ts _ C). Qed.

(** What is read after an invocation is what the TFLite function returns, whatever happened before, and whatever other networks do in between. *)
Theorem C104_tflite : forall nets i f inputs hist mid rest m0,
  compiled_from f (nets i) -> results_in_arena (nets i) -> sized (f_params f) inputs ->
  Forall (elsewhere nets i) mid -> Forall (elsewhere nets i) rest ->
  exists r, evaluate f inputs = Some r /\
    ArenasModel.outputs (nets i) (play nets (hist ++ Put i inputs :: mid ++ Invoke i :: rest) m0) = map snd r.
Proof.
  intros nets i f inputs hist mid rest m0 CF RA Sz Hm Hr.
  destruct (compiled_from_facts f (nets i) CF) as (C & K). destruct (compiled_from_returns f (nets i) CF RA) as (outs & Ro).
  destruct (K inputs Sz) as (Fi & r & Er & Ep). exists r. split; [exact Er|]. rewrite <- Ep.
  apply (C102_outputs nets i outs inputs hist mid rest m0); auto.
Qed.

(** Two networks compiled from two functions, initialised both before the first runs: each reads the results of its own function. *)
Theorem C104_two_arenas : forall nets f0 f1 j1 j2 image image2 m,
  compiled_from f0 (nets 0) -> compiled_from f1 (nets 1) -> results_in_arena (nets 0) -> results_in_arena (nets 1) ->
  sized (f_params f0) image -> sized (f_params f1) image2 ->
  exists r0 r1, evaluate f0 image = Some r0 /\ evaluate f1 image2 = Some r1 /\
    nn_thread_two_arenas nets j1 j2 image image2 m = (map snd r0, map snd r1).
Proof.
  intros nets f0 f1 j1 j2 image image2 m C0 C1 R0 R1 S0 S1.
  destruct (C104_tflite nets 0 f0 image [Start 0 j1; Start 1 j2] [] [] m) as (r0 & E0 & P0); auto.
  destruct (C104_tflite nets 1 f1 image2 [Start 0 j1; Start 1 j2; Put 0 image; Invoke 0] [] [] m) as (r1 & E1 & P1); auto.
  exists r0, r1. split; [exact E0|]. split; [exact E1|]. unfold nn_thread_two_arenas. cbn [app] in P0, P1.
  rewrite P0. f_equal. exact P1.
Qed.

(** The same, in one arena. *)
Theorem C104_one_arena : forall nets f0 f1 j1 j2 image image2 m,
  compiled_from f0 (nets 0) -> compiled_from f1 (nets 1) -> results_in_arena (nets 0) -> results_in_arena (nets 1) ->
  sized (f_params f0) image -> sized (f_params f1) image2 ->
  exists r0 r1, evaluate f0 image = Some r0 /\ evaluate f1 image2 = Some r1 /\
    nn_thread_one_arena nets j1 j2 image image2 m = (map snd r0, map snd r1).
Proof.
  intros nets f0 f1 j1 j2 image image2 m C0 C1 R0 R1 S0 S1.
  destruct (C104_tflite nets 0 f0 image [Start 0 j1] [] [] m) as (r0 & E0 & P0); auto.
  destruct (C104_tflite nets 1 f1 image2 [Start 0 j1; Put 0 image; Invoke 0; Start 1 j2] [] [] m) as (r1 & E1 & P1); auto.
  exists r0, r1. split; [exact E0|]. split; [exact E1|]. unfold nn_thread_one_arena. cbn [app] in P0, P1.
  cbv zeta. rewrite P0. f_equal. exact P1.
Qed.

(** The audio example: the masks are those of the TFLite function unrolled over the spectra of the calls. *)
Theorem C104_masks : forall nets i f floats ds m,
  compiled_from f (nets i) -> results_in_arena (nets i) -> recurrent_function f -> Forall (fun fr => length fr = ROW) (frames ds) ->
  exists outs, function_unrolled f zero_state (frames ds) = Some outs /\
    program nets i floats ds m zero_state = map (fun p => map (mask_of (fst p)) (floats (snd p))) (combine (settings ds) outs).
Proof.
  intros nets i f floats ds m CF RA (RP & RR) H.
  assert (L : length zero_state = ROW) by reflexivity. revert L. generalize zero_state. revert m H.
  induction ds as [|[es|junk b fr] ds IH]; intros m H st L; cbn [program frames settings function_unrolled].
  - exists []. auto.
  - cbn [frames] in H. destruct (IH (play nets es m) H st L) as (outs & U & P). exists outs. auto.
  - cbn [frames] in H. apply Forall_cons_iff in H. destruct H as [Lf H].
    destruct RP as (p0 & p1 & Ep & T0 & T1).
    assert (Sz : sized (f_params f) [fr; st]). { rewrite Ep. repeat constructor; congruence. }
    destruct (C104_tflite nets i f [fr; st] [Start i junk] [] [] m CF RA Sz (Forall_nil _) (Forall_nil _)) as (r & Er & Po).
    destruct (RR fr st r Lf L Er) as (t0 & s' & t1 & mk & Hr & Ls). subst r. cbn [app map snd] in Po.
    set (m1 := play nets [Start i junk; Put i [fr; st]; Invoke i] m) in *.
    destruct (IH m1 H s' Ls) as (outs & U & P). exists (mk :: outs). split.
    { match goal with |- context [evaluate f ?x] => change (evaluate f x) with (evaluate f [fr; st]) end. rewrite Er, U. reflexivity. }
    cbv zeta. rewrite Po. cbn [nth combine map fst snd]. f_equal. rewrite firstn_all2 by lia. exact P.
Qed.

(** ** A function that accumulates: the new state is spectrum + state + a constant, the mask is the second half of the state.  The constant is moved
    to the weights file; the slice is lowered. *)
Definition row (n : nat) : ty := Ty [n] 1 (Some 5%Z).
Definition steps : list Z := map (fun i => Z.of_nat (i mod 3)) (seq 0 256).
Definition add3 (args : list (list Z)) : list Z :=
  map (fun i => (nth i (nth 0 args []) 0 + nth i (nth 1 args []) 0 + nth i (nth 2 args []) 0) mod 256)%Z (seq 0 256).
Definition acc : func :=
  Func [(0, row 256); (1, row 256)]
    [Instr 2 (TConst steps) [] (row 256); Instr 3 (TOther add3) [0; 1; 2] (row 256); Instr 4 (TSlice [128] [128]%Z) [3] (row 128)] [3; 4].
Definition acc_lowered : func :=
  Func [(0, row 256); (1, row 256)]
    [Instr 2 (TConst steps) [] (row 256); Instr 3 (TOther add3) [0; 1; 2] (row 256); Instr 4 (XSlice (SliceOp 128 256 128 1 true)%Z) [3] (row 128)] [3; 4].
Definition acc_name (w k : nat) : nat := 100 + Cantor.to_nat (w, k).
Definition acc_loading := externalise acc_name false (Nat.eqb 2) [2] acc_lowered.
Definition acc_reading (weights : list Z) (base size : Z) : net :=
  let lf := fst acc_loading in
  Net (lgraph_of (fun _ => KOther) lf) (lkernels weights lf)
    match plan_memory (fun m => m) true false (lgraph_of (fun _ => KOther) lf) 0 with Some (Some ma) => ma_offsets ma | _ => [] end base size.
Definition acc_net : Z -> Z -> net := acc_reading (flash_file (snd acc_loading)).

Lemma acc_verified : verified_before acc.
Proof.
  unfold acc, verified_before. cbn [f_params f_body f_rets map fst]. split; [repeat constructor; cbn; intuition discriminate|].
  split; [|intros x [<-|[<-|[]]]; eexists; reflexivity].
  cbn [verified_body_before i_dst i_args i_op i_ty]. split; [reflexivity|]. split; [eexists; split; [reflexivity|]; reflexivity|].
  split; [reflexivity|]. split; [eexists; split; [reflexivity|]; cbn [op_ok_before op_ok]; intros bs _; unfold add3; rewrite map_length; reflexivity|].
  split; [reflexivity|]. split; [eexists; split; [reflexivity|]|exact I].
  cbn. split; [repeat constructor|]. split; [constructor; [left; reflexivity|constructor]|split; reflexivity].
Qed.
Lemma acc_steps : clos_refl_trans _ lower_step acc acc_lowered.
Proof.
  apply rt_step. apply (Replace [(0, row 256); (1, row 256)] [Instr 2 (TConst steps) [] (row 256); Instr 3 (TOther add3) [0; 1; 2] (row 256)]
    (Instr 4 (TSlice [128] [128]%Z) [3] (row 128)) [] [3; 4] [row 256] (Nat.add 10) [Instr 4 (XSlice (SliceOp 128 256 128 1 true)%Z) [3] (row 128)]).
  - reflexivity.
  - apply (PSlice (Nat.add 10) false). reflexivity.
  - intros; lia.
  - apply (FunOptEnd.new_from acc 10). reflexivity.
Qed.
Lemma acc_new : new_names acc_name acc_lowered.
Proof.
  split.
  - intros w k w' k' H. unfold acc_name in H. apply Nat.add_cancel_l in H. apply (f_equal Cantor.of_nat) in H. rewrite !Cantor.cancel_of_to in H. injection H as -> ->. auto.
  - intros w k M. destruct (FunOptEnd.new_from acc_lowered 100 eq_refl) as (_ & N). exact (N _ M).
Qed.
Lemma acc_graph : lgraph_of (fun _ => KOther) (fst acc_loading) =
  Graph [(0, 256%Z); (1, 256%Z)] [Op KOther [] [(100, Some 256%Z)]; Op KOther [0; 1; 100] [(3, Some 256%Z)]; Op KOther [3] [(4, Some 128%Z)]; Op KTerm [3; 4] []].
Proof. vm_compute. reflexivity. Qed.
Lemma acc_compiled_reading w base size : (1024 <= size)%Z -> compiled_reading acc (acc_reading w base size) (snd acc_loading) w.
Proof.
  intros Hs. exists 16%Z, acc, acc, acc, acc, acc, acc_lowered, acc_name, false, (Nat.eqb 2), [2], (fst acc_loading), (fun _ => KOther), (fun m => m), 0%Z.
  eexists. split; [|split; [|split; [|split; [|split; [reflexivity|split; [reflexivity|]]]]]].
  - split; [lia|]. split; [exact acc_verified|]. split; intros i Hi; cbn in Hi; repeat (destruct Hi as [<-|Hi]; [exact I|]); destruct Hi.
  - split; [|exact acc_steps]. split; [apply rt_refl|]. split; [intros i Hi; cbn in Hi; repeat (destruct Hi as [<-|Hi]; [reflexivity|]); destruct Hi|].
    split; [apply rt_refl|]. split; [apply padding_finished; [exact acc_verified|reflexivity|reflexivity]|]. split; [apply rt_refl|]. split; apply rt_refl.
  - split; [exact acc_new|]. split; [intros x Hx; apply Nat.eqb_eq in Hx; left; auto|]. apply surjective_pairing.
  - split; [intros i g Hi E; cbn; repeat split; discriminate|]. split; [rewrite acc_graph; cg_tac|]. split; [auto|]. vm_compute. reflexivity.
  - split; [vm_compute; reflexivity|]. cbn [n_size acc_reading ma_peakusage]. lia.
Qed.
Lemma acc_compiled base size : (1024 <= size)%Z -> compiled_from acc (acc_net base size).
Proof. intros Hs. eexists. apply acc_compiled_reading. exact Hs. Qed.
Lemma acc_results w base size : results_in_arena (acc_reading w base size).
Proof.
  intros o v. unfold acc_reading. cbn [n_graph]. rewrite acc_graph. cbn [g_ops length Nat.sub nth_error]. intros E Hv. injection E as <-. cbn [o_args In] in Hv.
  destruct Hv as [<-|[<-|[]]]; eexists; right; [exists 1|exists 2]; eexists; (split; [reflexivity|]); (split; [repeat split; discriminate|left; reflexivity]).
Qed.
Lemma acc_recurrent : recurrent_function acc.
Proof.
  split; [do 2 eexists; split; [reflexivity|split; reflexivity]|]. intros frame state r Lf Ls E.
  revert E. unfold evaluate, acc. cbn [f_params f_body f_rets start map combine fst snd eval_body i_args i_op i_ty i_dst lookups lookup Nat.eqb sem].
  intros E. injection E as <-. do 4 eexists. split; [reflexivity|]. unfold add3. rewrite map_length. reflexivity.
Qed.

(** Three calls with spectra of ones; between them another network uses the same arena. *)
Definition both (k : nat) : net := match k with 0 => acc_net 4096 1024 | _ => acc_net 4224 2048 end.
Definition story : list doing :=
  [Predict (fun _ => 7%Z) 15%Z ones; Other [Start 1 (fun x => (x mod 251)%Z); Put 1 [ones; ones]; Invoke 1]; Predict (fun _ => 8%Z) 15%Z ones; Predict (fun _ => 9%Z) 6%Z ones].
Definition read_halves (l : bytes) : list Q := map (fun i => Qmake (nth i l 0%Z) 16) (seq 0 64).
Example C104_concrete : forall base size, (1024 <= size)%Z ->
  compiled_from acc (acc_net base size) /\ results_in_arena (acc_net base size) /\ recurrent_function acc /\ Forall (fun fr => length fr = ROW) (frames story) /\
  map (@length Z) (snd acc_loading) = [256] /\
  option_map (map (firstn 4)) (function_unrolled acc zero_state (frames story)) = Some [[3; 1; 2; 3]; [6; 2; 4; 6]; [9; 3; 6; 9]]%Z /\
  map (firstn 2) (program both 0 read_halves story (fun _ => 99%Z) zero_state) =
    [[mask_of 15 (3 # 16); mask_of 15 (1 # 16)]; [mask_of 15 (6 # 16); mask_of 15 (2 # 16)]; [mask_of 6 (9 # 16); mask_of 6 (3 # 16)]].
Proof.
  intros base size Hs. split; [apply acc_compiled; auto|]. split; [apply acc_results|]. split; [exact acc_recurrent|].
  split; [repeat constructor|]. split; [vm_compute; reflexivity|]. split; vm_compute; reflexivity.
Qed.

Print Assumptions C104_tflite.
Print Assumptions C104_two_arenas.
Print Assumptions C104_one_arena.
Print Assumptions C104_masks.
Print Assumptions C104_concrete.
