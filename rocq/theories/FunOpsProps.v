(** C82: the kernels of a compiled function, run on several threads, compute the operations of the original function. *)
From Coq Require Import QArith Relations Permutation.
From Verif Require Import Base NdSpec NdBase FunOpsModel.
From Verif Require Import ConvSpec ConvLowerSpec ConvRunSpec ConvLowerModel ConvLowerProps ConvRunModel ConvRunProps ThreadSpec.
From Verif Require Import FunOpsSpec FunOpsProofs SlicePadModel LowerModel FunModel FunSpec FunProofs FunProofs2 FunProps.
From Verif Require MemPlanModel MemExecSpec FunArenaModel FunArenaSpec FunArenaProps LutModel LutSpec.
Local Open Scope Z_scope.

(** The run, on [threads] threads with channel groups [ds] and any interleaving, of the operator put in place of a convolution or a pooling;
    [mem]: the memory from the start of the input tensor, one cell per element; [ts]: the bytes of its constant operands. *)
Definition kernel_run (ds : list (Z * Z)) (threads : nat) (x : xcompute) (ts : list bytes) (mem : Z -> Z) (before after : Z -> Z) : Prop :=
  match x, ts with
  | XConv k c a ot ch q _, [w; m] =>
      let '(f, bi, scale) := q_read q w m in
      run_kernel ds threads (c_out c) ch (if c_i16 c then 2 else 1)
        (fun m o y x => value (q_lo q) (q_hi q) (q_zp q) (q_6 q) (q_1 q) (q_m1 q) (XcConv k c a ot ch) (scale o (kernel_accumulator k c a m f bi o y x))) mem before after
  | XMaxPool p _, [] => run_pool ds threads p mem before after
  | _, _ => False
  end.
Definition output_of (c : compute) : Z * Z * Z := match c with CConv cv _ _ _ _ | CDepthwise cv _ _ _ _ => c_out cv | CMaxPool p => p_out p | CFull _ _ _ _ _ => (0, 0, 0) | CAct _ _ _ _ _ _ => (0, 0, 0) end.
Definition element_of (c : compute) : nat := match c with CConv cv _ _ _ _ | CDepthwise cv _ _ _ _ => elems (c_i16 cv) | _ => 1%nat end.

(** Whatever lies beyond the input tensor and whatever the interleaving, the run ends, writes the elements of the original operator's result
    (read back as bytes in element order) and nothing else. *)
Theorem C82_threaded_kernel : forall ds threads c x ts outside a r b,
  compute_ok c [a] r -> replace_compute outside c = ByKernel x ts -> x <> XLookup -> length b = tsize a ->
  (0 < threads)%nat -> consecutive 0 ds (snd (output_of c)) ->
  let run := kernel_run ds threads x ts (memory_of (element_of c) (nelem (t_shape a)) b outside) in
  let '(H, W, D) := output_of c in
  (forall m, exists m', run m m') /\
  (forall m m', run m m' ->
     sem_compute c [b] = Some (result_bytes (element_of c) (H, W, D) (fun y x o => m' ((y * W + x) * D + o))) /\
     (forall i, ~ (0 <= i < H * W * D) -> m' i = m i)).
Proof.
  intros ds threads c x ts outside a r b OK R NL Lb Th Cs run.
  assert (G : exists v size, (size = 1 \/ size = 2) /\ (forall m m', run m m' <-> run_kernel ds threads (output_of c) no_chain size v (memory_of (element_of c) (nelem (t_shape a)) b outside) m m') /\
    positive (output_of c) /\
    let '(H, W, D) := output_of c in
    exists img, sem_compute c [b] = Some (result_bytes (element_of c) (H, W, D) img) /\
    forall y x o, 0 <= y < H -> 0 <= x < W -> 0 <= o < D ->
      v (fun i => memory_of (element_of c) (nelem (t_shape a)) b outside (i + 0 / size)) o y x = img y x o).
  { assert (HS : forall h w d e, 1 <= h -> 1 <= w -> 1 <= d -> t_shape a = image_shape (h, w, d) -> forall size, size = 1 \/ size = 2 ->
      holds_image h w d (fun i => memory_of e (nelem (t_shape a)) b outside (i + 0 / size)) (image e b w d)).
    { intros h w d e Hh Hw Hd Sa size Hs y x0 i Hy Hx Hi. cbv beta. replace (0 / size) with 0 by (destruct Hs as [-> | ->]; reflexivity). rewrite Z.add_0_r, Sa. apply holds_memory; lia. }
    destruct c as [fc t q f bi|cv t q f bi|cv t q f bi|p|m ac si zi so zo]; cbn [replace_compute output_of element_of] in *.
    - discriminate R.
    - destruct OK as (OK & RD & Sa & _). destruct (negb (c_i16 cv) && is_relu (at_faf t) && negb (q_zp q =? -128)) eqn:NR; [discriminate|].
      destruct (replace_conv2d _ _ _ _) as [| | | | |k c' a' ot ch] eqn:E; try discriminate. injection R as <- <-.
      apply replaced_conv in E. destruct E as (-> & -> & L). destruct (conv_positive _ _ _ _ OK) as [P1 P2].
      eexists. exists (if c_i16 cv then 2 else 1). split; [destruct (c_i16 cv); auto|]. split; [|split; [exact P2|]].
      + intros m m'. unfold run. cbn [kernel_run]. rewrite RD. apply iff_refl.
      + pose proof (fun mem => conv_values false cv t q f bi k a' ot b mem OK NR L) as V. cbn [sem_compute].
        destruct (c_in cv) as [[h w] d] eqn:Ei. destruct (c_out cv) as [[H W] D] eqn:Eo. eexists. split; [reflexivity|].
        intros y x o Hy Hx Ho. apply V; auto. destruct P1 as (Ph & Pw & Pd). apply HS; auto. destruct (c_i16 cv); auto.
    - destruct OK as (OK & RD & Sa & _).
      destruct (replace_conv2d _ _ _ _) as [| | | | |k c' a' ot ch] eqn:E; try discriminate. injection R as <- <-.
      apply replaced_depthwise in E. destruct E as (-> & -> & L). destruct (conv_positive _ _ _ _ OK) as [P1 P2].
      eexists. exists (if c_i16 cv then 2 else 1). split; [destruct (c_i16 cv); auto|]. split; [|split; [exact P2|]].
      + intros m m'. unfold run. cbn [kernel_run]. rewrite RD. apply iff_refl.
      + pose proof (fun mem => conv_values true cv t q f bi k a' ot b mem OK I L) as V. cbn [sem_compute].
        destruct (c_in cv) as [[h w] d] eqn:Ei. destruct (c_out cv) as [[H W] D] eqn:Eo. eexists. split; [reflexivity|].
        intros y x o Hy Hx Ho. apply V; auto. destruct P1 as (Ph & Pw & Pd). apply HS; auto. destruct (c_i16 cv); auto.
    - injection R as <- <-. pose proof (fun mem => pool_values p b a r mem OK) as V. destruct (pool_ok_facts p a r OK) as (P1 & P2 & Sa).
      eexists. exists 1. split; [auto|]. split; [|split; [exact P2|]].
      + intros m m'. unfold run. cbn [kernel_run]. unfold run_pool. apply iff_refl.
      + cbn [sem_compute]. destruct (p_in p) as [[h w] d] eqn:Ei. destruct (p_out p) as [[H W] D] eqn:Eo. eexists. split; [reflexivity|].
        intros y x o Hy Hx Ho. cbv beta. apply V; auto. destruct P1 as (Ph & Pw & Pd). apply HS; auto.
    - exfalso. destruct (LutModel.lookup_table _ _ _ _ _ _); [|discriminate]. injection R as <- _. congruence. }
  destruct G as (v & size & Hs & RK & P & G). destruct (output_of c) as [[H W] D]. destruct P as (PH & PW & PD). destruct G as (img & S & V). cbn [snd] in Cs.
  destruct (run_kernel_values ds threads H W D size v (memory_of (element_of c) (nelem (t_shape a)) b outside) Th PH PW ltac:(lia) Cs) as [Ex Vl].
  split.
  - intros m. destruct (Ex m) as [m' X]. exists m'. apply RK. exact X.
  - intros m m' X. apply RK in X. destruct (Vl m m' X) as [V1 V2].
    split; [|exact V2]. rewrite S. f_equal. apply result_ext. intros y x0 o Hy Hx Ho. rewrite (V1 y x0 o Hy Hx Ho). symmetry. apply V; assumption.
Qed.

(** ** A network: 3x3 SAME convolution with a fused Relu (zero point -100), 2x2 maximum pooling, Relu6 *)
Definition ex_cv : conv := mk_conv false (4, 4, 4) (4, 4, 4) (3, 3, 4) SAME [] (1, 1) (1, 1) (-5).
Definition ex_filter : list Z := map (fun i => Z.of_nat i mod 7 - 3) (seq 0 144).
Definition ex_bias : list Z := [10; -20; 30; -40].
(** The layout of this example: the filter's bytes in order; one byte of bias and one of divisor per channel. *)
Definition ex_signed (v : Z) : Z := if v <? 128 then v else v - 256.
Definition ex_read (w m : list Z) : list Z * list Z * (Z -> Z -> Z) :=
  (map ex_signed w, map ex_signed (firstn 4 m), fun o acc => acc / (nth 4 m 0 + o) - 100).
Definition ex_q : quant := Quant (-128) 127 (-100) 20 (-80) (-120) (1 # 20) (fun o acc => acc / (4 + o) - 100) (1 # 4) (1 # 10, 0)%Q
  (map (fun v => v mod 256) ex_filter) [10; 236; 30; 216; 4] ex_read.
Definition ex_pool : maxpool := mk_pool (4, 4, 4) (2, 2, 4) (2, 2) (2, 2) VALID NONE.
Definition ex_m : LutModel.libm := LutModel.Libm (fun x => x) (fun x => x).
Definition q_in : ty := Ty [1; 4; 4; 4]%nat 1 (Some (-5)).
Definition q_mid (n : nat) : ty := Ty [1; n; n; 4]%nat 1 (Some (-100)).
Definition net : func :=
  Func [(0%nat, q_in)]
    [Instr 1 (TCompute (CConv ex_cv (ex_attr RELU) ex_q ex_filter ex_bias)) [0%nat] (q_mid 4);
     Instr 2 (TCompute (CMaxPool ex_pool)) [1%nat] (q_mid 2);
     Instr 3 (TCompute (CAct ex_m LutModel.Relu6 (1 # 20) (-100) (1 # 10) 3)) [2%nat] (Ty [1; 2; 2; 4]%nat 1 (Some 3))] [3%nat].
Definition relu_table : list Z := match LutModel.lookup_table ex_m LutModel.Relu (1 # 20) (-100) (1 # 20) (-100) with Some t => t | None => [] end.
Definition relu6_table : list Z := match LutModel.lookup_table ex_m LutModel.Relu6 (1 # 20) (-100) (1 # 10) 3 with Some t => t | None => [] end.
(** [junk]: arbitrary contents of the memory outside the tensors. *)
Definition net_lowered (junk : Z -> Z) : func :=
  Func [(0%nat, q_in)]
    [Instr 10 (TConst (q_weights ex_q)) [] (Ty [144%nat] 1 None); Instr 11 (TConst (q_muls ex_q)) [] (Ty [5%nat] 1 None);
     Instr 4 (XCompute (XConv PaddedIndirect ex_cv (mk_args true (-1, -1)) Group no_chain ex_q junk)) [0; 10; 11]%nat (q_mid 4);
     Instr 20 (TConst relu_table) [] (Ty [256%nat] 1 None);
     Instr 1 (XCompute XLookup) [4%nat; 20%nat] (q_mid 4);
     Instr 2 (XCompute (XMaxPool ex_pool junk)) [1%nat] (q_mid 2);
     Instr 30 (TConst relu6_table) [] (Ty [256%nat] 1 None);
     Instr 3 (XCompute XLookup) [2%nat; 30%nat] (Ty [1; 2; 2; 4]%nat 1 (Some 3))] [3%nat].
Definition net_input : list Z := map (fun i => Z.of_nat (i * 37) mod 256) (seq 0 64).

Lemma net_verified : verified net.
Proof.
  unfold net, verified. cbn [f_params f_body f_rets map fst]. split; [repeat constructor; auto|]. split; [|intros x [<-|[]]; eexists; reflexivity].
  cbn [verified_body i_dst i_args i_op i_ty]. split; [reflexivity|]. split; [eexists; split; [reflexivity|]|].
  { cbn [op_ok compute_ok]. split; [|split; [vm_compute; reflexivity|repeat split]]. unfold conv_ok. cbn [ex_cv c_in c_out c_filter c_stride c_dilation c_padding c_padding_values c_i16 c_in_zp].
    split; [cbn; lia|]. split; [cbn; lia|]. split; [vm_compute; repeat split; discriminate|]. split; [auto|]. split; [discriminate|]. split; [discriminate|].
    split; [intros _; split; reflexivity|]. split; [vm_compute; repeat split; intros; discriminate|]. split; [|reflexivity].
    right; left. split; [reflexivity|]. right; reflexivity. }
  split; [reflexivity|]. split; [eexists; split; [reflexivity|]|].
  { cbn [op_ok compute_ok ex_pool p_in p_out p_filter p_stride p_padding p_faf]. split; [cbn; lia|]. split; [cbn; lia|]. split; [reflexivity|].
    split; [vm_compute; repeat split; discriminate|]. split; [vm_compute; repeat split|]. repeat split. }
  split; [reflexivity|]. split; [eexists; split; [reflexivity|]|exact I].
  cbn [op_ok compute_ok]. split; [reflexivity|]. split; [vm_compute; split; discriminate|]. repeat (split; [reflexivity|]).
  intros x Hx. rewrite <- LutProofs.apply_activation_real. unfold LutSpec.dequantised. cbn [LutModel.apply_activation].
  set (u := (inject_Z (x - -100) * (1 # 20))%Q).
  assert (B : (0 <= Qminmax.Qmin (Qminmax.Qmax u 0) 6 /\ Qminmax.Qmin (Qminmax.Qmax u 0) 6 <= 6)%Q).
  { split; [apply Qminmax.Q.min_glb; [apply Qminmax.Q.le_max_r|discriminate]|apply Qminmax.Q.le_min_r]. }
  clearbody u. set (z := Qminmax.Qmin _ _) in *. clearbody z. destruct B as [B1 B2].
  rewrite Qabs.Qabs_pos; unfold Qdiv; change (/ (1 # 10))%Q with (10 # 1)%Q.
  - apply Qle_trans with (6 * (10 # 1))%Q; [apply Qmult_le_compat_r; [exact B2|discriminate]|vm_compute; discriminate].
  - apply Qle_trans with (0 * (10 # 1))%Q; [discriminate|]. apply Qmult_le_compat_r; [exact B1|discriminate].
Qed.
Example C82_concrete : forall junk,
  verified net /\ clos_refl_trans _ lower_step net (net_lowered junk) /\ sized (f_params net) [net_input] /\
  consecutive 0 [(0, 4)] (snd (output_of (CMaxPool ex_pool))) /\
  option_map (map snd) (evaluate net [net_input]) = option_map (map snd) (evaluate (net_lowered (fun i => i mod 5)) [net_input]) /\
  option_map (map snd) (evaluate net [net_input]) = Some [[63; 34; 63; 63; 63; 63; 63; 58; 63; 59; 25; 63; 43; 21; 63; 45]].
Proof.
  intros junk. split; [exact net_verified|]. split; [|split; [constructor; [reflexivity|constructor]|split; [cbn; lia|]]].
  2:{ split; vm_compute; reflexivity. }
  assert (FR : forall f n, forallb (fun x => x <? n)%nat (map fst (f_params f) ++ flat_map (fun i => i_dst i :: i_args i) (f_body f) ++ f_rets f) = true -> forall k, ~ mentioned f (n + k)).
  { intros f n H k M. rewrite forallb_forall in H. enough (I : In (n + k)%nat (map fst (f_params f) ++ flat_map (fun i => i_dst i :: i_args i) (f_body f) ++ f_rets f)) by (specialize (H _ I); apply Nat.ltb_lt in H; lia).
    rewrite !in_app_iff. destruct M as [M|[M|M]]; auto. right; left. apply Exists_exists in M. destruct M as (i & Hi & [E|E]); apply in_flat_map; exists i; split; auto; [left|right]; auto. }
  unfold net, net_lowered. set (ps := [(0%nat, q_in)]).
  set (i1 := Instr 1 (TCompute (CConv ex_cv (ex_attr RELU) ex_q ex_filter ex_bias)) [0%nat] (q_mid 4)).
  set (i2 := Instr 2 (TCompute (CMaxPool ex_pool)) [1%nat] (q_mid 2)).
  set (i3 := Instr 3 (TCompute (CAct ex_m LutModel.Relu6 (1 # 20) (-100) (1 # 10) 3)) [2%nat] (Ty [1; 2; 2; 4]%nat 1 (Some 3))).
  set (w1 := Instr 10 (TConst (q_weights ex_q)) [] (Ty [144%nat] 1 None)). set (w2 := Instr 11 (TConst (q_muls ex_q)) [] (Ty [5%nat] 1 None)).
  set (j4 := Instr 4 (XCompute (XConv PaddedIndirect ex_cv (mk_args true (-1, -1)) Group no_chain ex_q junk)) [0; 10; 11]%nat (q_mid 4)).
  set (j5 := Instr 20 (TConst relu_table) [] (Ty [256%nat] 1 None)). set (j1 := Instr 1 (XCompute XLookup) [4%nat; 20%nat] (q_mid 4)).
  set (j2 := Instr 2 (XCompute (XMaxPool ex_pool junk)) [1%nat] (q_mid 2)). set (j6 := Instr 30 (TConst relu6_table) [] (Ty [256%nat] 1 None)).
  set (j3 := Instr 3 (XCompute XLookup) [2%nat; 30%nat] (Ty [1; 2; 2; 4]%nat 1 (Some 3))).
  set (c4 := CConv ex_cv (with_faf NONE (ex_attr RELU)) ex_q ex_filter ex_bias).
  set (k4 := Instr 4 (TCompute c4) [0%nat] (q_mid 4)).
  set (k1 := Instr 1 (TCompute (CAct ex_m LutModel.Relu (1 # 20) (-100) (1 # 20) (-100))) [4%nat] (q_mid 4)).
  apply rt_trans with (Func ps [k4; k1; i2; i3] [3%nat]).
  { apply rt_step. apply (Replace ps [] i1 [i2; i3] [3%nat] [q_in] (Nat.add 4) [k4; k1]); [reflexivity| |intros; lia|apply FR; reflexivity]. apply (PRelu (Nat.add 4) junk). reflexivity. }
  apply rt_trans with (Func ps [w1; w2; j4; k1; i2; i3] [3%nat]).
  { apply rt_step. apply (Replace ps [] k4 [k1; i2; i3] [3%nat] [q_in] (Nat.add 10) [w1; w2; j4]); [reflexivity| |intros; lia|apply FR; reflexivity].
    apply (PKernel (Nat.add 10) junk q_in 4%nat c4 [0%nat] (q_mid 4) _ [q_weights ex_q; q_muls ex_q]). reflexivity. }
  apply rt_trans with (Func ps [w1; w2; j4; j5; j1; i2; i3] [3%nat]).
  { apply rt_step. apply (Replace ps [w1; w2; j4] k1 [i2; i3] [3%nat] [q_mid 4] (Nat.add 20) [j5; j1]); [reflexivity| |intros; lia|apply FR; reflexivity].
    apply (PKernel (Nat.add 20) junk (q_mid 4) 1%nat _ [4%nat] (q_mid 4) XLookup [relu_table]). vm_compute. reflexivity. }
  apply rt_trans with (Func ps [w1; w2; j4; j5; j1; j2; i3] [3%nat]).
  { apply rt_step. apply (Replace ps [w1; w2; j4; j5; j1] i2 [i3] [3%nat] [q_mid 4] (Nat.add 30) [j2]); [reflexivity| |intros; lia|apply FR; reflexivity].
    apply (PKernel (Nat.add 30) junk (q_mid 4) 2%nat (CMaxPool ex_pool) [1%nat] (q_mid 2) _ []). reflexivity. }
  apply rt_step. apply (Replace ps [w1; w2; j4; j5; j1; j2] i3 [] [3%nat] [q_mid 2] (Nat.add 30) [j6; j3]); [reflexivity| |intros; lia|apply FR; reflexivity].
  apply (PKernel (Nat.add 30) junk (q_mid 2) 3%nat _ [2%nat] (Ty [1; 2; 2; 4]%nat 1 (Some 3)) XLookup [relu6_table]). vm_compute. reflexivity.
Qed.
Print Assumptions C82_threaded_kernel.
