(** Model of the lowering of quantised convolutions to the xcore kernels:
    Transforms/ReplaceConv2D.cpp, ConvPatternsTFL.cpp, ConvPatterns.td, ConvRevertPatterns.td,
    ReplaceMaxPool2D.cpp.  lib_nn, which computes the binary parameters and runs the kernels, is
    not in the repository: the parts marked "contract" state what its kernels are documented to do. *)
From Coq Require Import List ZArith Bool Arith QArith.
From Verif Require Import ConvSpec ConvOptSpec ConvLowerSpec.
Import ListNotations.
Local Open Scope Z_scope.

Inductive kernel := PaddedIndirect | ValidDirect | ValidIndirect | ValidDirectI16 | DepthwisePaddedIndirect | DepthwiseValidDirect.

(** The fields of a (fake) convolution read by the pass (ReplaceConv2D.cpp 62-81 and
    ConvPatternsTFL.cpp 31-40, 127-170).  Shapes are NHWC, the filter O,H,W,I (1,H,W,O for a depthwise
    one).  The batch dimension is never read. *)
Record conv := mk_conv {
  c_i16 : bool;                       (* input and output are signed 16-bit quantised *)
  c_in : Z * Z * Z; c_out : Z * Z * Z; c_filter : Z * Z * Z;   (* height, width, depth *)
  c_padding : padding; c_padding_values : list Z;              (* the 4x2 constant, row major *)
  c_stride : Z * Z; c_dilation : Z * Z;
  c_in_zp : Z }.

(** tensorflow::GetWindowedOutputSizeVerbose (tensorflow, not in the repository): output size,
    padding before and after, or an error. *)
Definition windowed (n f d s : Z) (p : padding) : option (Z * Z * Z) :=
  if s <=? 0 then None else if d <? 1 then None else
  let effective := (f - 1) * d + 1 in
  let r := match p with
           | SAME => let out := Z.quot (n + s - 1) s in
                     let needed := Z.max 0 ((out - 1) * s + effective - n) in
                     (out, Z.quot needed 2, needed - Z.quot needed 2)
           | _ => (Z.quot (n - effective + s) s, 0, 0)
           end in
  if fst (fst r) <? 0 then None else Some r.

(** ConvPatternsTFL.cpp 125-155: top, bottom, left, right. *)
Definition find_padding (c : conv) : option (Z * Z * (Z * Z)) :=
  match c_padding c with
  | EXPLICIT => let v i j := nth (2 * i + j) (c_padding_values c) 0 in
                Some (v 1%nat 0%nat, v 1%nat 1%nat, (v 2%nat 0%nat, v 2%nat 1%nat))
  | p => let '(h, w, _) := c_in c in let '(fh, fw, _) := c_filter c in
         match windowed h fh (fst (c_dilation c)) (fst (c_stride c)) p with
         | None => None
         | Some (_, top, bottom) =>
           match windowed w fw (snd (c_dilation c)) (snd (c_stride c)) p with
           | None => None
           | Some (_, lft, rgt) => Some (top, bottom, (lft, rgt))
           end
         end
  end.

(** static_cast<int16_t> *)
Definition int16 (v : Z) : Z := (v + 32768) mod 65536 - 32768.

(** The geometric part of TFLConvArgs, ConvPatternsTFL.cpp 156-173: toBePadded and the start of the
    window, (-padding.top, -padding.left). *)
Record conv_args := mk_args { a_padded : bool; a_start : Z * Z }.
Definition get_args (c : conv) : option conv_args :=
  match find_padding c with
  | None => None
  | Some (top, bottom, (lft, rgt)) =>
    Some (mk_args (negb (top =? 0) || negb (bottom =? 0) || negb (lft =? 0) || negb (rgt =? 0))
                  (- int16 top, - int16 lft))
  end.

(** ConvPatternsTFL.cpp 198-217, ReplaceConv2DPattern::getKernelType. *)
Definition conv_kernel_type (c : conv) (a : conv_args) : option kernel :=
  let '(_, _, inputDepth) := c_in c in let '(_, _, outputDepth) := c_out c in
  if c_i16 c then
    if (Z.rem inputDepth 16 =? 0) && (Z.rem outputDepth 16 =? 0) then Some ValidDirectI16 else None
  else if a_padded a then Some PaddedIndirect
  else if (Z.rem inputDepth 32 =? 0) && (Z.rem outputDepth 16 =? 0) then Some ValidDirect
  else Some ValidIndirect.

(** ConvPatternsTFL.cpp 530-539, ReplaceDepthwiseConv2DPattern::getKernelType; 16-bit depthwise
    convolutions never match the pattern (ConvPatterns.td 44-50). *)
Definition depthwise_kernel_type (a : conv_args) : option kernel :=
  Some (if a_padded a then DepthwisePaddedIndirect else DepthwiseValidDirect).

(** ConvPatterns.td 10-50, Utils.td 8-11: constraints of the two patterns (types and the constant filter are
    taken as met). *)
Definition conv_pattern (c : conv) : bool :=
  let '(_, _, ic) := c_in c in let '(_, _, oc) := c_out c in let '(_, _, fc) := c_filter c in
  (Z.rem ic 4 =? 0) && (Z.rem oc 4 =? 0) && (ic =? fc).
Definition depthwise_pattern (c : conv) : bool :=
  let '(_, _, ic) := c_in c in let '(_, _, oc) := c_out c in
  negb (c_i16 c) && (Z.rem ic 4 =? 0) && (Z.rem oc 4 =? 0).

(** ReplaceConv2D.cpp 49-90: kernel and arguments, before the output transform is computed. *)
Definition lower_conv (c : conv) : option (kernel * conv_args) :=
  if conv_pattern c then
    match get_args c with
    | None => None
    | Some a => match conv_kernel_type c a with None => None | Some k => Some (k, a) end
    end
  else None.
Definition lower_depthwise (c : conv) : option (kernel * conv_args) :=
  if depthwise_pattern c then
    match get_args c with
    | None => None
    | Some a => match depthwise_kernel_type a with None => None | Some k => Some (k, a) end
    end
  else None.

(** *** Contract of the kernels *)
(** The input element used for image position (y, x), channel ch.  The padded kernels
    (nn::ImToColPadded, ConvPatternsTFL.cpp 383-384 and 712-713) use the input zero point outside
    the image; the other ones (nn::DerefInputFn, nn::ImToColValid, lines 417, 448, 482, 683) read
    the address without any test.  [mem] is the memory starting at the input tensor, one cell per
    element. *)
Definition padded_kernel (k : kernel) : bool :=
  match k with PaddedIndirect | DepthwisePaddedIndirect => true | _ => false end.
Definition fetch (k : kernel) (c : conv) (mem : Z -> Z) (y x ch : Z) : Z :=
  let '(h, w, d) := c_in c in
  if padded_kernel k && negb (in_image h w y x) then c_in_zp c else mem ((y * w + x) * d + ch).

(** Position of tap [ky] of output row [y] (nn::WindowGeometry, lines 166-169). *)
Definition tap_row (c : conv) (a : conv_args) (y : Z) (ky : nat) : Z :=
  y * fst (c_stride c) + fst (a_start a) + Z.of_nat ky * fst (c_dilation c).
Definition tap_col (c : conv) (a : conv_args) (x : Z) (kx : nat) : Z :=
  x * snd (c_stride c) + snd (a_start a) + Z.of_nat kx * snd (c_dilation c).

(** The sum over the window.  The weights are addressed with filterShape = {outputDepth, filterHeight,
    filterWidth, inputDepth} (lines 387-390, 420-423, 451-454, 488-491); OutputTransformFnInt8::canonicalise_mul_and_bias
    (lines 299-302) folds the zero point into the bias: bias - inputZeroPoint * sum of the weights.  The 16-bit
    kernel takes neither zero point (lines 497-501). *)
Definition conv_weight (c : conv) (filter : list Z) (o : Z) (ky kx i : nat) : Z :=
  let '(fh, fw, _) := c_filter c in let '(_, _, inputDepth) := c_in c in
  nth (Z.to_nat (((o * fh + Z.of_nat ky) * fw + Z.of_nat kx) * inputDepth + Z.of_nat i)) filter 0.
Definition window_sum (fh fw d : Z) (f : nat -> nat -> nat -> Z) : Z :=
  zsum (fun ky => zsum (fun kx => zsum (fun i => f ky kx i) (Z.to_nat d)) (Z.to_nat fw)) (Z.to_nat fh).
Definition conv_accumulator (k : kernel) (c : conv) (a : conv_args) (mem : Z -> Z) (filter bias : list Z) (o y x : Z) : Z :=
  let '(fh, fw, _) := c_filter c in let '(_, _, inputDepth) := c_in c in
  let w := conv_weight c filter o in
  let b := nth (Z.to_nat o) bias 0 in
  window_sum fh fw inputDepth (fun ky kx i => fetch k c mem (tap_row c a y ky) (tap_col c a x kx) (Z.of_nat i) * w ky kx i)
  + (if c_i16 c then b else b - c_in_zp c * window_sum fh fw inputDepth w).

(** Depthwise: filterShape = {1, filterHeight, filterWidth, inputDepth} (lines 594-595, 686-687, 716-717), output channel
    o reads input channel o. *)
Definition depthwise_weight (c : conv) (filter : list Z) (o : Z) (ky kx : nat) : Z :=
  let '(fh, fw, _) := c_filter c in let '(_, _, inputDepth) := c_in c in
  nth (Z.to_nat ((Z.of_nat ky * fw + Z.of_nat kx) * inputDepth + o)) filter 0.
Definition depthwise_accumulator (k : kernel) (c : conv) (a : conv_args) (mem : Z -> Z) (filter bias : list Z) (o y x : Z) : Z :=
  let '(fh, fw, _) := c_filter c in
  let w := fun ky kx (_ : nat) => depthwise_weight c filter o ky kx in
  window_sum fh fw 1 (fun ky kx i => fetch k c mem (tap_row c a y ky) (tap_col c a x kx) o * w ky kx i)
  + (nth (Z.to_nat o) bias 0 - c_in_zp c * window_sum fh fw 1 w).

(** *** Effective multipliers, ConvPatternsTFL.cpp 72-123, over the rationals instead of float/double *)
Definition filter_scale (per_channel : option (list Q)) (scale : Q) (i : nat) : Q :=
  match per_channel with Some l => nth i l 0%Q | None => scale end.
Definition effective_scales (per_channel : option (list Q)) (scale in_scale out_scale : Q) (channels : nat) : list Q :=
  map (fun i => (in_scale * filter_scale per_channel scale i / out_scale)%Q) (seq 0 channels).
Definition qmin (a b : Q) : Q := if Qle_bool a b then a else b.
Definition min_element (l : list Q) : Q := match l with [] => 0%Q | x :: r => fold_left qmin r x end.
Definition clamp_multipliers (factor : Q) (l : list Q) : list Q :=
  let minVal := min_element l in map (fun v => qmin v (minVal * factor)%Q) l.

(** *** Choice of the output transform, ConvPatternsTFL.cpp 285-374 (and 590-672): [group] and
    [channelwise] are the errors computed by lib_nn; None is the failure that leaves the operator
    unoptimised. *)
Inductive ot_type := Group | Channelwise.
Definition choose_ot (threshold group channelwise : Q) : option ot_type :=
  if negb (Qle_bool group threshold) then
    if negb (Qle_bool channelwise threshold) then None else Some Channelwise
  else Some Group.

(** *** The three rewriting phases, ReplaceConv2D.cpp 277-299 *)
(** Attributes of TFL.Conv2D/DepthwiseConv2D carried by the operators ($input, $f, $b are kept as they are). *)
Record attributes := mk_attr { at_dh : Z; at_dw : Z; at_faf : activation; at_padding : padding; at_sh : Z; at_sw : Z; at_dm : Z }.
(** Extra operands and attributes of the fake convolution (XCoreOps.td 400-430). *)
Record chain := mk_chain { ch_partial : bool; ch_sub_h : Z; ch_sub_w : Z; ch_out_sh : Z; ch_out_sw : Z; ch_offset : Z }.
Definition no_chain : chain := mk_chain false 0 0 1 1 0.
Inductive op :=
| TflConv (c : conv) (at_ : attributes)
| TflDepthwise (c : conv) (at_ : attributes)
| TflRelu (o : op)
| FakeConv (c : conv) (at_ : attributes) (ch : chain)
| FakeDepthwise (c : conv) (at_ : attributes)
| XcConv (k : kernel) (c : conv) (a : conv_args) (ot : ot_type) (ch : chain).

(** ConvPatterns.td 10-17 (first, higher benefit) and 31-50.  [out_zp] is the zero point of the result; a Relu is
    taken out of an 8-bit Conv2D whose output zero point is not -128. *)
Definition is_relu (f : activation) : bool := match f with RELU => true | _ => false end.
Definition with_faf (f : activation) (t : attributes) : attributes :=
  mk_attr (at_dh t) (at_dw t) f (at_padding t) (at_sh t) (at_sw t) (at_dm t).
Definition to_fake_conv (c : conv) (t : attributes) : op :=
  if conv_pattern c then FakeConv c t no_chain else TflConv c t.
Definition phase1 (out_zp : Z) (o : op) : op :=
  match o with
  | TflConv c t =>
    if negb (c_i16 c) && is_relu (at_faf t) && negb (out_zp =? -128)
    then TflRelu (to_fake_conv c (with_faf NONE t))
    else to_fake_conv c t
  | TflDepthwise c t => if depthwise_pattern c then FakeDepthwise c t else o
  | _ => o
  end.
(** ReplaceConv2D.cpp 49-225: the fused activation is not read anywhere.  [errors]: lib_nn's two quantisation errors; the 16-bit
    path computes none (lines 119-135, ConvPatternsTFL.cpp 263-283). *)
Definition phase2_conv (threshold : Q) (errors : Q * Q) (c : conv) (t : attributes) (ch : chain) : op :=
  match lower_conv c with
  | Some (k, a) =>
    if c_i16 c then XcConv k c a Group ch else
    match choose_ot threshold (fst errors) (snd errors) with
    | Some ot => XcConv k c a ot ch
    | None => FakeConv c t ch
    end
  | None => FakeConv c t ch
  end.
Definition phase2_depthwise (threshold : Q) (errors : Q * Q) (c : conv) (t : attributes) : op :=
  match lower_depthwise c with
  | Some (k, a) =>
    match choose_ot threshold (fst errors) (snd errors) with
    | Some ot => XcConv k c a ot no_chain
    | None => FakeDepthwise c t
    end
  | None => FakeDepthwise c t
  end.
Fixpoint phase2 (threshold : Q) (errors : Q * Q) (o : op) : op :=
  match o with
  | FakeConv c t ch => phase2_conv threshold errors c t ch
  | FakeDepthwise c t => phase2_depthwise threshold errors c t
  | TflRelu o' => TflRelu (phase2 threshold errors o')
  | _ => o
  end.
(** ConvRevertPatterns.td 10-19: the partial output, output offsets, output strides and input offset are
    dropped. *)
Fixpoint phase3 (o : op) : op :=
  match o with
  | FakeConv c t _ => TflConv c t
  | FakeDepthwise c t => TflDepthwise c t
  | TflRelu o' => TflRelu (phase3 o')
  | _ => o
  end.
Definition replace_conv2d (threshold : Q) (errors : Q * Q) (out_zp : Z) (o : op) : op :=
  phase3 (phase2 threshold errors (phase1 out_zp o)).

(** ReplaceConv2D.cpp 194-196, ReplaceMaxPool2D.cpp 91: bytes of scratch, as int32_t, and the scratch
    buffer of all threads; it is only created when positive. *)
Definition scratch_buffer (scratchBytes threads : Z) : option Z :=
  let size := (scratchBytes * threads + 2 ^ 31) mod 2 ^ 32 - 2 ^ 31 in
  if 0 <? size then Some size else None.

(** *** Maximum pooling, ReplaceMaxPool2D.cpp 32-110 *)
Record maxpool := mk_pool { p_in : Z * Z * Z; p_out : Z * Z * Z; p_filter : Z * Z; p_stride : Z * Z; p_padding : padding; p_faf : activation }.
(** Window start (0, 0), nn::DerefInputFn: no test of the position; neither the padding nor the fused
    activation is read.  Contract: the kernel takes the maximum of the fetched elements. *)
Definition list_max (l : list Z) : Z := match l with [] => 0 | x :: r => fold_left Z.max r x end.
Definition pool_result (p : maxpool) (mem : Z -> Z) (y x ch : Z) : Z :=
  let '(_, w, d) := p_in p in
  list_max (concat (map (fun ky => map (fun kx =>
    mem (((y * fst (p_stride p) + Z.of_nat ky) * w + (x * snd (p_stride p) + Z.of_nat kx)) * d + ch))
    (seq 0 (Z.to_nat (snd (p_filter p))))) (seq 0 (Z.to_nat (fst (p_filter p)))))).

(** *** Value of an operator for the accumulator scaled to [v] output units.  The reference operators clamp to the range of
    their activation; contract: the xcore kernels saturate to the output type; a separate Relu with the same quantisation of
    input and output is the maximum with the zero point (C36). *)
Fixpoint value (qlo qhi zp q6 q1 qm1 : Z) (o : op) (v : Z) : Z :=
  match o with
  | TflConv _ t | TflDepthwise _ t | FakeConv _ t _ | FakeDepthwise _ t =>
    let r := activation_range qlo qhi zp q6 q1 qm1 (at_faf t) in clampZ (fst r) (snd r) v
  | TflRelu o' => Z.max zp (value qlo qhi zp q6 q1 qm1 o' v)
  | XcConv _ _ _ _ _ => clampZ qlo qhi v
  end.
