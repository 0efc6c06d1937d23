(** C88: from TFLite function to the result in the arena; concrete functions. *)
From Coq Require Import Relations Permutation QArith.
From Verif Require Import Base NdSpec CopyKernels MemPlanModel MemPlanSpec MemExecSpec MemExecProofs MemPlanProps.
From Verif Require Import WeightsModel WeightsSpec WeightsProofs SlicePadModel LowerModel FunOpsSpec FunModel FunSpec FunProofs FunProofs2 FunProps FunArenaModel FunArenaSpec FunArenaProps FunLoadModel FunLoadSpec FunLoadProofs FunLoadProps.
From Verif Require Import FunOptModel FunOptSpec FunOptProofs FunOptProofs2 FunOptProps FunOptTerm FunOptTfl.
From Verif Require FunOpsProps ConvLowerProps ConvLowerModel ConvLowerSpec.
Local Open Scope nat_scope.

(** The passes, the lowering and the memory plan: the kernels leave the TFLite results in the arena. *)
Theorem C88_end_to_end : forall f f1 f' inputs other iter peak0 ma garbage,
  verified_before f -> clos_refl_trans _ any_step f f1 -> explicit_padding f1 -> clos_refl_trans _ lower_step f1 f' -> sized (f_params f) inputs ->
  kinds_ok other f' -> chain_grows (graph_of other f') ->
  (forall m, Permutation (iter m) m) -> plan_memory iter true false (graph_of other f') peak0 = Some (Some ma) ->
  exists r, evaluate f inputs = Some r /\
    outputs (arena_trace (graph_of other f') (kernels f') (plan_locs (graph_of other f') (ma_offsets ma)) garbage inputs) = map snd r.
Proof.
  intros f f1 f' inputs other iter peak0 ma garbage V S1 EP S2 Sz KO CG I PM. destruct (C88_passes_preserve f f1 inputs V S1 Sz) as (V1 & Ep & r & R & R1).
  destruct (C73_end_to_end f1 f' inputs other iter peak0 ma garbage (C88_ready_for_lowering f1 V1 EP) S2) as (r' & R2 & R3); auto; [rewrite Ep; exact Sz|].
  exists r. split; [exact R|]. congruence.
Qed.
(** The same with constants moved to the weights file. *)
Theorem C88_end_to_end_weights : forall f f1 f' inputs name ext chosen schedule lf ts other iter peak0 ma garbage,
  verified_before f -> clos_refl_trans _ any_step f f1 -> explicit_padding f1 -> clos_refl_trans _ lower_step f1 f' -> sized (f_params f) inputs -> new_names name f' ->
  (forall x, chosen x = true -> In x schedule) -> externalise name ext chosen schedule f' = (lf, ts) ->
  kinds_ok other f' -> chain_grows (lgraph_of other lf) ->
  (forall m, Permutation (iter m) m) -> plan_memory iter true false (lgraph_of other lf) peak0 = Some (Some ma) ->
  exists r, evaluate f inputs = Some r /\
    outputs (arena_trace (lgraph_of other lf) (lkernels (flash_file ts) lf) (plan_locs (lgraph_of other lf) (ma_offsets ma)) garbage inputs) = map snd r.
Proof.
  intros f f1 f' inputs name ext chosen schedule lf ts other iter peak0 ma garbage V S1 EP S2 Sz NN SC E KO CG I PM. destruct (C88_passes_preserve f f1 inputs V S1 Sz) as (V1 & Ep & r & R & R1).
  destruct (C83_end_to_end f1 f' inputs name ext chosen schedule lf ts other iter peak0 ma garbage (C88_ready_for_lowering f1 V1 EP) S2) as (r' & R2 & R3); auto; [rewrite Ep; exact Sz|].
  exists r. split; [exact R|]. congruence.
Qed.

(** ** A channels-first input, padded, transposed, then a SAME convolution *)
Import FunOpsProps.
Definition nchw (n : nat) : ty := Ty [1; 4; n; n] 1 (Some (-5)%Z).
Definition nhwc (n : nat) : ty := Ty [1; n; n; 4] 1 (Some (-5)%Z).
Definition same_op : fop := TCompute (CConv ex_cv (ConvLowerProps.ex_attr ConvLowerSpec.NONE) ex_q ex_filter ex_bias).
Definition valid_op : fop := TCompute (CConv (valid_conv ex_cv) (valid_attr (ConvLowerProps.ex_attr ConvLowerSpec.NONE)) ex_q ex_filter ex_bias).
Definition cnn : func :=
  Func [(0, nchw 2)]
    [Instr 1 (TPad [0; 0; 1; 1] [0; 0; 1; 1]) [0] (nchw 4);
     Instr 2 (TTranspose [0; 2; 3; 1]) [1] (nhwc 4);
     Instr 3 same_op [2] (q_mid 4)] [3].
Definition cnn_ready : func :=
  Func [(0, nchw 2)]
    [Instr 4 (TTranspose [0; 2; 3; 1]) [0] (nhwc 2);
     Instr 2 (TPad [0; 1; 1; 0] [0; 1; 1; 0]) [4] (nhwc 4);
     Instr 10 (TPad [0; 1; 1; 0] [0; 1; 1; 0]) [2] (nhwc 6);
     Instr 3 valid_op [10] (q_mid 4)] [3].
Definition pad_to (n : nat) : pad_op := match replace_pad false 1 (Some (-5)%Z) (zshape [1; n; n; 4]) (zshape [1; n + 2; n + 2; 4]) [0; 1; 1; 0]%Z [0; 1; 1; 0]%Z with Lowered o => o | _ => PadOp 0 0 0 0 0 0 false end.
Definition cnn_lowered (junk : Z -> Z) : func :=
  Func [(0, nchw 2)]
    [Instr 4 (TTranspose [0; 2; 3; 1]) [0] (nhwc 2);
     Instr 2 (XPad (pad_to 2)) [4] (nhwc 4);
     Instr 10 (XPad (pad_to 4)) [2] (nhwc 6);
     Instr 20 (TConst (q_weights ex_q)) [] (Ty [144] 1 None); Instr 21 (TConst (q_muls ex_q)) [] (Ty [5] 1 None);
     Instr 3 (XCompute (XConv ConvLowerModel.ValidIndirect (valid_conv ex_cv) (ConvLowerModel.mk_args false (0, 0)%Z) ConvLowerModel.Group ConvLowerModel.no_chain ex_q junk)) [10; 20; 21] (q_mid 4)] [3].
Definition cnn_input : bytes := map (fun i => Z.of_nat (i * 37) mod 256)%Z (seq 0 16).

Lemma fresh_from f n : forallb (fun x => x <? n) (map fst (f_params f) ++ flat_map (fun i => i_dst i :: i_args i) (f_body f) ++ f_rets f) = true -> forall k, ~ mentioned f (n + k).
Proof.
  intros H k M. rewrite forallb_forall in H. enough (I : In (n + k) (map fst (f_params f) ++ flat_map (fun i => i_dst i :: i_args i) (f_body f) ++ f_rets f)) by (specialize (H _ I); apply Nat.ltb_lt in H; lia).
  rewrite !in_app_iff. destruct M as [M|[M|M]]; auto. right; left. apply Exists_exists in M. destruct M as (i & Hi & [E|E]); apply in_flat_map; exists i; split; auto; [left|right]; auto.
Qed.
Lemma new_from f n : forallb (fun x => x <? n) (map fst (f_params f) ++ flat_map (fun i => i_dst i :: i_args i) (f_body f) ++ f_rets f) = true -> new_name (Nat.add n) f.
Proof. intros H. split; [intros; lia|apply fresh_from; auto]. Qed.
Lemma cnn_verified : verified_before cnn.
Proof.
  unfold cnn, verified_before. cbn [f_params f_body f_rets map fst]. split; [repeat constructor; auto|]. split; [|intros x [<-|[]]; eexists; reflexivity].
  cbn [verified_body_before i_dst i_args i_op i_ty]. split; [reflexivity|]. split; [eexists; split; [reflexivity|]|].
  { cbn [op_ok_before op_ok]. split; [cbn; repeat (split || constructor || auto || lia)|]. split; [repeat constructor; lia|]. split; [split; reflexivity|left; reflexivity]. }
  split; [reflexivity|]. split; [eexists; split; [reflexivity|]|].
  { cbn [op_ok_before op_ok]. split; [|split; [reflexivity|split; reflexivity]]. cbn. apply perm_skip. eapply perm_trans; [|apply perm_swap]. eapply perm_trans; [apply perm_skip, perm_swap|]. apply perm_swap || idtac. all: try reflexivity. }
  split; [reflexivity|]. split; [eexists; split; [reflexivity|]|exact I].
  unfold same_op. cbn [op_ok_before]. split; [|split; [vm_compute; reflexivity|repeat split]]. unfold conv_fits. cbn [ex_cv ConvLowerModel.c_in ConvLowerModel.c_out ConvLowerModel.c_filter ConvLowerModel.c_stride ConvLowerModel.c_dilation ConvLowerModel.c_padding ConvLowerModel.c_padding_values ConvLowerModel.c_i16 ConvLowerModel.c_in_zp].
  split; [cbn; lia|]. split; [cbn; lia|]. split; [discriminate|]. split; [vm_compute; repeat split; discriminate|]. split; [auto|]. split; [discriminate|]. split; [discriminate|].
  split; [intros _; repeat split; cbn; lia|]. split; [vm_compute; repeat split; intros; discriminate|]. split; [left; reflexivity|]. split; reflexivity.
Qed.
(** The passes and the lowering, step by step; the TFLite function and what is left compute the same bytes. *)
Example C88_concrete : forall junk,
  verified_before cnn /\ (forall i, In i (f_body cnn) -> ~ pads_nothing (i_op i)) /\ ~ explicit_padding cnn /\
  clos_refl_trans _ any_step cnn cnn_ready /\ explicit_padding cnn_ready /\ clos_refl_trans _ lower_step cnn_ready (cnn_lowered junk) /\ sized (f_params cnn) [cnn_input] /\
  option_map (map snd) (evaluate cnn [cnn_input]) = option_map (map snd) (evaluate (cnn_lowered (fun i => i mod 5)%Z) [cnn_input]) /\
  option_map (fun l => firstn 8 (concat (map snd l))) (evaluate cnn [cnn_input]) = Some [189; 128; 210; 171; 253; 128; 177; 128]%Z.
Proof.
  intros junk. split; [exact cnn_verified|]. split; [|split; [|split; [|split; [|split; [|split; [constructor; [reflexivity|constructor]|split; vm_compute; reflexivity]]]]]].
  - intros i [<-|[<-|[<-|[]]]] (b & a & E & F & _); try discriminate E. injection E as <- <-. inversion F as [|? ? _ F1]. inversion F1 as [|? ? _ F2]. inversion F2 as [|? ? F3 _]. discriminate F3.
  - intros H. specialize (H (Instr 3 same_op [2] (q_mid 4)) ltac:(right; right; left; reflexivity)). discriminate H.
  - unfold cnn, cnn_ready. set (ps := [(0, nchw 2)]).
    set (i1 := Instr 1 (TPad [0; 0; 1; 1] [0; 0; 1; 1]) [0] (nchw 4)). set (i2 := Instr 2 (TTranspose [0; 2; 3; 1]) [1] (nhwc 4)). set (i3 := Instr 3 same_op [2] (q_mid 4)).
    set (j4 := Instr 4 (TTranspose [0; 2; 3; 1]) [0] (nhwc 2)). set (j2 := Instr 2 (TPad [0; 1; 1; 0] [0; 1; 1; 0]) [4] (nhwc 4)).
    apply rt_trans with (Func ps [i1; j4; j2; i3] [3]).
    { apply rt_step. exists Transposes. apply (Fused Transposes ps [] i1 [] i2 [i3] [3] [nchw 2] (Nat.add 4) [j4; j2]); [reflexivity| |apply new_from; reflexivity]. eapply UHoist; reflexivity. }
    apply rt_trans with (Func ps [j4; j2; i3] [3]).
    { apply rt_step. exists Transposes. apply (Unused Transposes ps [] i1 [j4; j2; i3] [3]); [|cbn; intros [H|[]]; discriminate].
      intros k [<-|[<-|[<-|[]]]] [E|E]; cbn in E; try discriminate; repeat (destruct E as [E|E]; try discriminate); destruct E. }
    apply rt_step. exists TflPatterns. apply (Expanded TflPatterns ps [j4; j2] i3 [] [3] [nhwc 4] (Nat.add 10) [_; _]); [reflexivity| |apply new_from; reflexivity].
    apply (ESame (Nat.add 10) (nhwc 4) 3 ex_cv). reflexivity.
  - intros i [<-|[<-|[<-|[<-|[]]]]]; reflexivity.
  - unfold cnn_ready, cnn_lowered. set (ps := [(0, nchw 2)]).
    set (j4 := Instr 4 (TTranspose [0; 2; 3; 1]) [0] (nhwc 2)). set (j2 := Instr 2 (TPad [0; 1; 1; 0] [0; 1; 1; 0]) [4] (nhwc 4)). set (j10 := Instr 10 (TPad [0; 1; 1; 0] [0; 1; 1; 0]) [2] (nhwc 6)).
    set (j3 := Instr 3 valid_op [10] (q_mid 4)). set (k2 := Instr 2 (XPad (pad_to 2)) [4] (nhwc 4)). set (k10 := Instr 10 (XPad (pad_to 4)) [2] (nhwc 6)).
    apply rt_trans with (Func ps [j4; k2; j10; j3] [3]).
    { apply rt_step. apply (Replace ps [j4] j2 [j10; j3] [3] [nhwc 2] (Nat.add 20) [k2]); [reflexivity| |intros; lia|apply fresh_from; reflexivity]. apply (PPad _ false). reflexivity. }
    apply rt_trans with (Func ps [j4; k2; k10; j3] [3]).
    { apply rt_step. apply (Replace ps [j4; k2] j10 [j3] [3] [nhwc 4] (Nat.add 20) [k10]); [reflexivity| |intros; lia|apply fresh_from; reflexivity]. apply (PPad _ false). reflexivity. }
    apply rt_step. apply (Replace ps [j4; k2; k10] j3 [] [3] [nhwc 6] (Nat.add 20) [_; _; _]); [reflexivity| |intros; lia|apply fresh_from; reflexivity].
    apply (PKernel (Nat.add 20) junk (nhwc 6) 3 _ [10] (q_mid 4) _ [q_weights ex_q; q_muls ex_q]). reflexivity.
Qed.

(** ** A 16-bit SAME convolution, which the lowering cannot take, becomes one that it can *)
Definition cv16 : ConvLowerModel.conv := ConvLowerModel.mk_conv true (2, 2, 1)%Z (2, 2, 1)%Z (3, 3, 1)%Z ConvLowerSpec.SAME [] (1, 1)%Z (1, 1)%Z 0%Z.
Definition q16 : quant := Quant (-32768) 32767 0 100 20 (-20) (1 # 20) (fun _ acc => acc / 4)%Z 0 (0, 0)%Q [] [] (fun _ _ => ([1; 2; 3; 4; 5; 6; 7; 8; 9]%Z, [10]%Z, fun _ acc => acc / 4)%Z).
Definition t16 (n : nat) : ty := Ty [1; n; n; 1] 2 (Some 0%Z).
Definition wide : func := Func [(0, t16 2)] [Instr 1 (TCompute (CConv cv16 (ConvLowerProps.ex_attr ConvLowerSpec.NONE) q16 [1; 2; 3; 4; 5; 6; 7; 8; 9]%Z [10]%Z)) [0] (t16 2)] [1].
Definition wide_ready : func :=
  Func [(0, t16 2)] [Instr 2 (TPad [0; 1; 1; 0] [0; 1; 1; 0]) [0] (t16 4);
    Instr 1 (TCompute (CConv (valid_conv cv16) (valid_attr (ConvLowerProps.ex_attr ConvLowerSpec.NONE)) q16 [1; 2; 3; 4; 5; 6; 7; 8; 9]%Z [10]%Z)) [2] (t16 2)] [1].
Example C88_wide : verified_before wide /\ ~ verified wide /\ clos_refl_trans _ any_step wide wide_ready /\ verified wide_ready /\
  option_map (map snd) (evaluate wide [[4; 0; 8; 0; 12; 0; 16; 0]%Z]) = option_map (map snd) (evaluate wide_ready [[4; 0; 8; 0; 12; 0; 16; 0]%Z]) /\
  option_map (map snd) (evaluate wide [[4; 0; 8; 0; 12; 0; 16; 0]%Z]) = Some [[79; 0; 69; 0; 49; 0; 39; 0]%Z].
Proof.
  assert (V : verified_before wide).
  { unfold wide, verified_before. cbn [f_params f_body f_rets map fst]. split; [repeat constructor; auto|]. split; [|intros x [<-|[]]; eexists; reflexivity].
    cbn [verified_body_before i_dst i_args i_op i_ty]. split; [reflexivity|]. split; [eexists; split; [reflexivity|]|exact I].
    cbn [op_ok_before]. split; [|split; [reflexivity|repeat split]]. unfold conv_fits. cbn [cv16 ConvLowerModel.c_in ConvLowerModel.c_out ConvLowerModel.c_filter ConvLowerModel.c_stride ConvLowerModel.c_dilation ConvLowerModel.c_padding ConvLowerModel.c_padding_values ConvLowerModel.c_i16 ConvLowerModel.c_in_zp].
    split; [cbn; lia|]. split; [cbn; lia|]. split; [discriminate|]. split; [vm_compute; repeat split; discriminate|]. split; [auto|]. split; [discriminate|]. split; [auto|].
    split; [discriminate|]. split; [vm_compute; repeat split; intros; discriminate|]. split; [left; reflexivity|]. split; reflexivity. }
  assert (St : clos_refl_trans _ any_step wide wide_ready).
  { apply rt_step. exists TflPatterns. apply (Expanded TflPatterns [(0, t16 2)] [] _ [] [1] [t16 2] (Nat.add 2) [_; _]); [reflexivity| |apply new_from; reflexivity]. apply (ESame (Nat.add 2) (t16 2) 1 cv16). reflexivity. }
  split; [exact V|]. split; [|split; [exact St|split; [|split; vm_compute; reflexivity]]].
  - intros (_ & (_ & (tys & T & K) & _) & _). cbn in T. injection T as <-. cbn [op_ok i_op compute_ok] in K. destruct K as (K & _). unfold conv_ok in K.
    cbn [cv16 ConvLowerModel.c_in ConvLowerModel.c_out ConvLowerModel.c_filter ConvLowerModel.c_stride ConvLowerModel.c_dilation ConvLowerModel.c_padding ConvLowerModel.c_padding_values ConvLowerModel.c_i16 ConvLowerModel.c_in_zp] in K.
    destruct K as (_ & _ & _ & _ & _ & K & _). destruct (K eq_refl) as (_ & N & _). vm_compute in N. discriminate N.
  - apply C88_ready_for_lowering; [|intros i [<-|[<-|[]]]; reflexivity]. apply (C88_passes_preserve wide wide_ready [[4; 0; 8; 0; 12; 0; 16; 0]%Z] V St). constructor; [reflexivity|constructor].
Qed.
(** ** Element-wise patterns: Add with a fused Relu6 and an operand of another shape, a Relu of a minimum with 127, a Relu of a convolution *)
Definition ex_m : LutModel.libm := LutModel.Libm (fun v => v) (fun v => v).
Definition act_op (ac : LutModel.activation) : fop := TCompute (CAct ex_m ac (1 # 16) (-5) (1 # 16) (-5)).
Definition relu_op : fop := TCompute (CAct ex_m LutModel.Relu (1 # 20) (-100) (1 # 20) (-100)).
Definition relu_conv : fop := TCompute (CConv (valid_conv ex_cv) (valid_attr (ConvLowerProps.ex_attr ConvLowerSpec.RELU)) ex_q ex_filter ex_bias).
Definition per_channel : ty := Ty [4] 1 (Some (-5)%Z).
Definition sums : func :=
  Func [(0, nhwc 4); (1, per_channel)]
    [Instr 2 (TBinary (fun a b => a + b + 5)%Z (Some LutModel.Relu6) (1 # 16) (-5)) [0; 1] (nhwc 4);
     Instr 3 (TMinimum [] [127]%Z) [2] (nhwc 4);
     Instr 4 (act_op LutModel.Relu) [3] (nhwc 4);
     Instr 5 same_op [4] (q_mid 4);
     Instr 6 relu_op [5] (q_mid 4)] [6].
Definition sums_ready : func :=
  Func [(0, nhwc 4); (1, per_channel)]
    [Instr 10 TBroadcast [1] (nhwc 4);
     Instr 20 (TBinary (fun a b => a + b + 5)%Z None (1 # 16) (-5)) [0; 10] (nhwc 4);
     Instr 2 (act_op LutModel.Relu6) [20] (nhwc 4);
     Instr 4 (act_op LutModel.Relu) [2] (nhwc 4);
     Instr 30 (TPad [0; 1; 1; 0] [0; 1; 1; 0]) [4] (nhwc 6);
     Instr 6 relu_conv [30] (q_mid 4)] [6].
Definition sums_inputs : list bytes := [map (fun i => Z.of_nat (i * 37) mod 256)%Z (seq 0 64); [1; 250; 20; 128]%Z].
Example C88_sums : verified_before sums /\ (forall i, In i (f_body sums) -> ~ pads_nothing (i_op i)) /\ clos_refl_trans _ (opt_step TflPatterns) sums sums_ready /\ sized (f_params sums) sums_inputs /\
  option_map (map snd) (evaluate sums sums_inputs) = option_map (map snd) (evaluate sums_ready sums_inputs) /\
  option_map (fun l => firstn 8 (concat (map snd l))) (evaluate sums sums_inputs) = Some [156; 156; 177; 156; 156; 156; 234; 156]%Z.
Proof.
  split; [|split; [|split; [|split; [constructor; [reflexivity|constructor; [reflexivity|constructor]]|split; vm_compute; reflexivity]]]].
  - unfold sums, verified_before. cbn [f_params f_body f_rets map fst]. split; [repeat constructor; cbn; intuition congruence|]. split; [|intros x [<-|[]]; eexists; reflexivity].
    cbn [verified_body_before i_dst i_args i_op i_ty]. split; [reflexivity|]. split; [eexists; split; [reflexivity|]|].
    { cbn [op_ok_before op_ok t_elem t_shape nhwc per_channel length]. split; [left; reflexivity|]. split; [reflexivity|]. split; [reflexivity|]. split; [lia|]. split; [lia|]. split; [reflexivity|].
      split; [intros _; unfold LutSpec.int8; lia|]. intros ac [= <-]. auto. }
    split; [reflexivity|]. split; [eexists; split; [reflexivity|]|].
    { cbn [op_ok_before op_ok t_elem t_shape nhwc length]. split; [reflexivity|]. split; [reflexivity|]. split; [split; reflexivity|]. split; [reflexivity|]. split; [repeat constructor; lia|].
      split; [cbn; lia|]. cbn. constructor. }
    split; [reflexivity|]. split; [eexists; split; [reflexivity|]|].
    { cbn [op_ok_before op_ok act_op compute_ok]. split; [reflexivity|]. split; [unfold LutSpec.int8; lia|]. split; [reflexivity|]. split; [reflexivity|]. split; [reflexivity|].
      apply (act_fused ex_m LutModel.Relu (1 # 16) (-5) 0); auto; try reflexivity. unfold LutSpec.int8; lia. }
    split; [reflexivity|]. split; [eexists; split; [reflexivity|]|].
    { destruct cnn_verified as (_ & VB & _). unfold cnn in VB. cbn [f_params f_body verified_body_before i_dst i_args i_op i_ty] in VB. destruct VB as (_ & _ & _ & _ & _ & (tys & T & K) & _).
      cbn in T. injection T as <-. exact K. }
    split; [reflexivity|]. split; [eexists; split; [reflexivity|]|exact I].
    cbn [op_ok_before op_ok relu_op compute_ok]. split; [reflexivity|]. split; [unfold LutSpec.int8; lia|]. split; [reflexivity|]. split; [reflexivity|]. split; [reflexivity|].
    apply (act_fused ex_m LutModel.Relu (1 # 20) (-100) 0); auto; try reflexivity. unfold LutSpec.int8; lia.
  - intros i [<-|[<-|[<-|[<-|[<-|[]]]]]] (b & a & E & _); discriminate E.
  - unfold sums, sums_ready. set (ps := [(0, nhwc 4); (1, per_channel)]). set (f := fun a b => (a + b + 5)%Z).
    set (i2 := Instr 2 (TBinary f (Some LutModel.Relu6) (1 # 16) (-5)) [0; 1] (nhwc 4)). set (i3 := Instr 3 (TMinimum [] [127]%Z) [2] (nhwc 4)). set (i4 := Instr 4 (act_op LutModel.Relu) [3] (nhwc 4)).
    set (i5 := Instr 5 same_op [4] (q_mid 4)). set (i6 := Instr 6 relu_op [5] (q_mid 4)).
    set (j10 := Instr 10 TBroadcast [1] (nhwc 4)). set (k2 := Instr 2 (TBinary f (Some LutModel.Relu6) (1 # 16) (-5)) [0; 10] (nhwc 4)).
    set (j20 := Instr 20 (TBinary f None (1 # 16) (-5)) [0; 10] (nhwc 4)). set (j2 := Instr 2 (act_op LutModel.Relu6) [20] (nhwc 4)). set (j4 := Instr 4 (act_op LutModel.Relu) [2] (nhwc 4)).
    set (k6 := Instr 6 (TCompute (CConv ex_cv (ConvLowerProps.ex_attr ConvLowerSpec.RELU) ex_q ex_filter ex_bias)) [4] (q_mid 4)).
    apply rt_trans with (Func ps [j10; k2; i3; i4; i5; i6] [6]).
    { apply rt_step. apply (Expanded TflPatterns ps [] i2 [i3; i4; i5; i6] [6] [nhwc 4; per_channel] (Nat.add 10) [j10; k2]); [reflexivity| |apply new_from; reflexivity]. apply EBroadcastRhs. reflexivity. }
    apply rt_trans with (Func ps [j10; j20; j2; i3; i4; i5; i6] [6]).
    { apply rt_step. apply (Expanded TflPatterns ps [j10] k2 [i3; i4; i5; i6] [6] [nhwc 4; nhwc 4] (Nat.add 20) [j20; j2]); [reflexivity| |apply new_from; reflexivity]. apply EUnfuse. }
    apply rt_trans with (Func ps [j10; j20; j2; i3; j4; i5; i6] [6]).
    { apply rt_step. apply (Fused TflPatterns ps [j10; j20; j2] i3 [] i4 [i5; i6] [6] [nhwc 4] (Nat.add 30) [j4]); [reflexivity| |apply new_from; reflexivity]. apply UMinimum. reflexivity. }
    apply rt_trans with (Func ps [j10; j20; j2; j4; i5; i6] [6]).
    { apply rt_step. apply (Unused TflPatterns ps [j10; j20; j2] i3 [j4; i5; i6] [6]); [|cbn; intros [H|[]]; discriminate].
      intros k [<-|[<-|[<-|[]]]] [E|E]; cbn in E; try discriminate; repeat (destruct E as [E|E]; try discriminate); destruct E. }
    apply rt_trans with (Func ps [j10; j20; j2; j4; i5; k6] [6]).
    { apply rt_step. apply (Fused TflPatterns ps [j10; j20; j2; j4] i5 [] i6 [] [6] [nhwc 4] (Nat.add 30) [k6]); [reflexivity| |apply new_from; reflexivity].
      apply (URelu (Nat.add 30) (nhwc 4) 5 ex_cv (ConvLowerProps.ex_attr ConvLowerSpec.NONE) ex_q ex_filter ex_bias 4 (q_mid 4) 6 ex_m (q_mid 4)). reflexivity. }
    apply rt_trans with (Func ps [j10; j20; j2; j4; k6] [6]).
    { apply rt_step. apply (Unused TflPatterns ps [j10; j20; j2; j4] i5 [k6] [6]); [|cbn; intros [H|[]]; discriminate].
      intros k [<-|[]] [E|E]; cbn in E; try discriminate; repeat (destruct E as [E|E]; try discriminate); destruct E. }
    apply rt_step. apply (Expanded TflPatterns ps [j10; j20; j2; j4] k6 [] [6] [nhwc 4] (Nat.add 30) [_; _]); [reflexivity| |apply new_from; reflexivity].
    apply (ESame (Nat.add 30) (nhwc 4) 6 ex_cv). reflexivity.
Qed.
Print Assumptions C88_passes_preserve.
Print Assumptions C88_ready_for_lowering.
Print Assumptions C88_tfl_normal_form.
Print Assumptions C88_transpose_normal_form.
Print Assumptions C88_explicit_padding_reached.
Print Assumptions C88_compilation.
Print Assumptions C88_transposes_terminate.
Print Assumptions C88_reshapes_terminate.
Print Assumptions C88_tfl_patterns_terminate.
Print Assumptions C88_tfl_patterns_finish.
Print Assumptions C88_zero_pads_refuted.
Print Assumptions C88_end_to_end.
Print Assumptions C88_end_to_end_weights.
