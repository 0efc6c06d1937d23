(** Execution of a lowered convolution, depthwise convolution or maximum pooling on several threads.
    Compiler side: ReplaceConv2D.cpp 99-114 (regions of the threads) and 139-146 (one set of parameters per thread),
    ConvPatterns.h 293-311 (parameters of the abstract kernel of every thread), ReplaceMaxPool2D.cpp 38-70.
    The kernels themselves (lib_nn) and the runtime are not in the repository: their contracts are those of
    ConvLowerModel (accumulators) and TconvModel (writes of a thread, any interleaving). *)
From Coq Require Import List ZArith Bool Arith QArith.
Import ListNotations.
From Verif Require Import ConvSpec ConvOptSpec ConvLowerSpec ConvLowerModel ThreadModel TconvModel.
Local Open Scope Z_scope.

(** Offsets, strides and partial output of the fake convolution, as the fields TconvModel reads (ConvPatterns.h 293-311). *)
Definition as_fake (ch : chain) : fake :=
  Fake (ch_partial ch) 0 0 [] (Z.to_nat (ch_sub_h ch)) (Z.to_nat (ch_sub_w ch)) (Z.to_nat (ch_out_sh ch)) (Z.to_nat (ch_out_sw ch)) (ch_offset ch).

(** ReplaceConv2D.cpp 102-114; ReplaceMaxPool2D.cpp 44-45 with the default offsets and strides (0, 0, 1, 1). *)
Definition conv_regions (ds : list (Z * Z)) (threads : nat) (out : Z * Z * Z) (f : fake) : option (list region) :=
  let '(H, W, D) := out in
  get_image_region_thread_splits ds threads H W D
    (Z.of_nat (f_subH f)) (Z.of_nat (f_subW f)) (Z.of_nat (f_strideH f)) (Z.of_nat (f_strideW f)).

(** Which accumulator the kernel computes. *)
Definition kernel_accumulator (k : kernel) (c : conv) (a : conv_args) (mem : Z -> Z) (filter bias : list Z) (o y x : Z) : Z :=
  match k with
  | DepthwisePaddedIndirect | DepthwiseValidDirect => depthwise_accumulator k c a mem filter bias o y x
  | _ => conv_accumulator k c a mem filter bias o y x
  end.

(** One operator, all threads, any interleaving of their writes; [v mem o y x]: value computed from the input. The input offset
    of the abstract kernel is in bytes. *)
Definition run_kernel (ds : list (Z * Z)) (threads : nat) (out : Z * Z * Z) (ch : chain) (size : Z) (v : (Z -> Z) -> Z -> Z -> Z -> Z)
  (mem : Z -> Z) (before after : memory) : Prop :=
  let '(H, W, D) := out in
  exec (H * W * D) (conv_regions ds threads out)
    (fun f r => thread_writes W (Z.to_nat D) f (v (fun a => mem (a + f_offset f / size))) r) before [as_fake ch] after.

(** What the runtime does with the operator left by the pass.  [scale o acc]: requantisation of the accumulator of channel [o];
    [reference o Y X]: accumulator of TFLite's own kernel, used by an operator the pass does not replace.  The tensor of the result is elements
    0 .. size - 1 of the memory.  A separate Relu reads the tensor of the convolution (some other memory) and writes its own. *)
Inductive run_op (ds : list (Z * Z)) (threads : nat) (qlo qhi zp q6 q1 qm1 : Z) (scale : Z -> Z -> Z) (reference : Z -> Z -> Z -> Z)
  (mem : Z -> Z) (filter bias : list Z) : op -> Z * Z * Z -> memory -> memory -> Prop :=
| run_tflite : forall o H W D (before after : memory),
    match o with TflConv _ _ | TflDepthwise _ _ => True | _ => False end ->
    (forall Y X c, 0 <= Y < H -> 0 <= X < W -> 0 <= c < D ->
       after ((Y * W + X) * D + c) = value qlo qhi zp q6 q1 qm1 o (scale c (reference c Y X))) ->
    (forall a, ~ (0 <= a < H * W * D) -> after a = before a) ->
    run_op ds threads qlo qhi zp q6 q1 qm1 scale reference mem filter bias o (H, W, D) before after
| run_xcore : forall k c a ot ch before after,
    run_kernel ds threads (c_out c) ch (if c_i16 c then 2 else 1)
      (fun m o y x => value qlo qhi zp q6 q1 qm1 (XcConv k c a ot ch) (scale o (kernel_accumulator k c a m filter bias o y x))) mem before after ->
    run_op ds threads qlo qhi zp q6 q1 qm1 scale reference mem filter bias (XcConv k c a ot ch) (c_out c) before after
| run_relu : forall o H W D m1 m2 (before after : memory),
    run_op ds threads qlo qhi zp q6 q1 qm1 scale reference mem filter bias o (H, W, D) m1 m2 ->
    (forall a, 0 <= a < H * W * D -> after a = Z.max zp (m2 a)) ->
    (forall a, ~ (0 <= a < H * W * D) -> after a = before a) ->
    run_op ds threads qlo qhi zp q6 q1 qm1 scale reference mem filter bias (TflRelu o) (H, W, D) before after.

(** ReplaceMaxPool2D.cpp 32-110: the abstract kernels have neither offsets nor strides (line 63). *)
Definition run_pool (ds : list (Z * Z)) (threads : nat) (p : maxpool) (mem : Z -> Z) (before after : memory) : Prop :=
  run_kernel ds threads (p_out p) no_chain 1 (fun m o y x => pool_result p m y x o) mem before after.
