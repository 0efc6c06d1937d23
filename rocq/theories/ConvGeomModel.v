(** Model of the geometric rewrites of convolutions: explicit padding
    (Transforms/ApplyTFLPatterns.cpp, TFLPatterns.td), transpose convolutions
    (Transforms/OptimizeConv2D.cpp, ReplaceTransposeConv.cpp), fully connected
    (ReplaceFCWithConv2D.cpp) and average pooling (ReplaceAvgPoolWithConv2D.cpp). *)
From Coq Require Import List ZArith Bool Arith QArith.
Import ListNotations.
Local Open Scope Z_scope.

(** tensorflow::GetWindowedOutputSizeVerbose with SAME padding (tensorflow, not in the
    repository): output size, padding before, padding after. *)
Definition windowed_same_dilated (n f d s : Z) : Z * Z * Z :=
  let effective := (f - 1) * d + 1 in
  let out := Z.quot (n + s - 1) s in
  let needed := Z.max 0 ((out - 1) * s + effective - n) in
  (out, Z.quot needed 2, needed - Z.quot needed 2).

(** ApplyTFLPatterns.cpp 31-88, getConvPaddingValues: (top, bottom), (left, right) and
    the size of the padded tensor.  TFLPatterns.td 42-56: the convolution becomes VALID
    on the padded tensor with the other attributes unchanged. *)
Definition conv_padding_values (inH inW fH fW dH dW sH sW : Z) : (Z * Z) * (Z * Z) * (Z * Z) :=
  let '(_, padTop, padBottom) := windowed_same_dilated inH fH dH sH in
  let '(_, padLeft, padRight) := windowed_same_dilated inW fW dW sW in
  ((padTop, padBottom), (padLeft, padRight), (inH + padTop + padBottom, inW + padLeft + padRight)).

(** OptimizeConv2D.cpp 456-542, SameToValidTransposeConvPattern: size of the VALID
    transpose convolution and begin of the slice (of the size of the original output),
    when there is one. *)
Definition same_to_valid (inH inW kH kW sH sW : Z) : (Z * Z) * option (Z * Z) :=
  let validHeight := (inH - 1) * sH + kH in
  let validWidth := (inW - 1) * sW + kW in
  let sliceHeight := kH - sH in
  let sliceWidth := kW - sW in
  ((validHeight, validWidth),
   if (sliceHeight =? 0) && (sliceWidth =? 0) then None
   else Some (Z.quot sliceHeight 2, Z.quot sliceWidth 2)).

(** transpose_conv_reorder_kernel_weights of lib_nn, which is not in the repository:
    ASSUMED to return, for every offset (h, w) below the strides and inside the kernel,
    the taps h, h + sH, ... and w, w + sW, ... in reverse order. *)
Record sub_kernel := SubKernel {
  subH : nat; subW : nat;
  skH : nat; skW : nat;                      (* kernelShape[1], kernelShape[2] *)
  tap : nat -> nat -> nat * nat }.           (* element (a, b) is this tap of the original *)
Definition sub_count (k h s : nat) : nat := ((k - h + s - 1) / s)%nat.
Definition reorder_kernel (kH kW sH sW : nat) : list sub_kernel :=
  flat_map (fun h => map (fun w =>
      SubKernel h w (sub_count kH h sH) (sub_count kW w sW)
        (fun a b => (h + sH * (sub_count kH h sH - 1 - a), w + sW * (sub_count kW w sW - 1 - b))%nat))
    (filter (fun w => Nat.ltb w kW) (seq 0 sW))) (filter (fun h => Nat.ltb h kH) (seq 0 sH)).

(** ReplaceTransposeConv.cpp 110-117: padding on each side of the input. *)
Definition transpose_padding (cs : list sub_kernel) : Z * Z :=
  fold_left (fun '(v, h) c => (Z.max v (Z.of_nat (skH c) - 1), Z.max h (Z.of_nat (skW c) - 1))) cs (0, 0).

(** ReplaceTransposeConv.cpp 163-176: offset (in bytes) at which a sub-convolution starts
    reading the padded input. *)
Definition input_offset (i16 : bool) (inputDepth inputWidth vp hp : Z) (c : sub_kernel) : Z :=
  let tv := Z.of_nat (skH c) - 1 in
  let th := Z.of_nat (skW c) - 1 in
  let o := inputDepth * (hp - th) + inputDepth * (vp - tv) * (inputWidth + 2 * hp) in
  if i16 then o * 2 else o.

(** ReplaceFCWithConv2D.cpp 56-82, 93-109: shapes of the input and the result of the 1x1
    convolution (static dimensions). *)
Definition fc_conv_shape (s : list Z) : list Z :=
  let r := length s in [1; 1; nth (r - 2) s 0; nth (r - 1) s 0].
(** ReplaceFCWithConv2D.cpp 111-140: shape of the final reshape. *)
Definition fc_squeezed (out : list Z) : list Z :=
  let r := length out in
  if Nat.eqb r 3 then [1; nth (r - 2) out 0; nth (r - 1) out 0]
  else [nth (r - 2) out 0; nth (r - 1) out 0].
(** ReplaceFCWithConv2D.cpp 84-92: the filter [O; I] becomes [O; 1; 1; I], same data. *)
Definition fc_filter_shape (f : list Z) : list Z := [nth 0 f 0; 1; 1; nth 1 f 0].

(** ReplaceAvgPoolWithConv2D.cpp 34-110: the depthwise filter (all ones), its scale (the
    float 1/(h*w) is taken to be exact) and zero point, the bias; padding and strides are
    those of the pooling operator. *)
Definition avgpool_filter (fH fW depth : nat) : list Z := repeat 1 (fH * fW * depth).
Definition avgpool_scale (fH fW : nat) : Q := (1 / inject_Z (Z.of_nat (fH * fW)))%Q.
Definition avgpool_zero_point : Z := 0.
Definition avgpool_bias (depth : nat) : list Z := repeat 0 depth.
