(** Convolutions, maximum pooling and 8-bit activations as operations of a whole function (C82): which operation of FunModel they
    are before and after the passes XCPatterns (ApplyXCPatterns), ReplaceMaxPool2D and ReplaceConv2D (Transforms/Passes.cpp:34-57).
    The lowerings themselves are the functions of LutModel and ConvLowerModel.
    Fully connected layers (C87, pass ReplaceFCWithConv2D): static shapes, quantised types and the default weights format.
    Simplifications: filter and bias (constant operands of TFLite's operators, ConvPatterns.td 31-50) are attributes; the two constants lib_nn computes from
    them (weights; multipliers and biases) are bytes, what the kernel finds in them is [q_read] (XC_Expand8To16Op between the weights
    and a 16-bit convolution is part of [q_read]; the operand for partial results is left out); the quantisation errors are attributes; batch 1 (the batch dimension is never read). *)
From Coq Require Import List ZArith Bool Arith QArith.
Import ListNotations.
From Verif Require ConvSpec ConvLowerSpec LutModel ConvLowerModel ConvGeomModel.
Import ConvLowerSpec ConvLowerModel.

(** A static ranked tensor type: shape, bytes per element, zero point of a quantised element type. *)
Record ty := Ty { t_shape : list nat; t_elem : nat; t_zero : option Z }.

(** Quantisation of a convolution's result: bounds of the type, zero point, quantised 6, 1 and -1, scale; [q_scale o acc]: the accumulator of
    channel o in units of the result; ReplaceConv2D's threshold and lib_nn's two errors (ConvPatternsTFL.cpp 285-374);
    [q_weights], [q_muls]: the bytes of the two constants (ReplaceConv2D.cpp 21-45, 160-179); [q_read]: the filter, bias and scale a kernel reads from them. *)
Record quant := Quant { q_lo : Z; q_hi : Z; q_zp : Z; q_6 : Z; q_1 : Z; q_m1 : Z; q_step : Q; q_scale : Z -> Z -> Z;
  q_threshold : Q; q_errors : Q * Q; q_weights : list Z; q_muls : list Z;
  q_read : list Z -> list Z -> list Z * list Z * (Z -> Z -> Z) }.

(** TFL.FullyConnectedOp: 16-bit or 8-bit values; shapes of input and result; dimensions of the filter; zero point of the input. *)
Record fully := Full { fl_i16 : bool; fl_in : list Z; fl_out : list Z; fl_dims : list Z; fl_in_zp : Z }.

Inductive compute :=
| CFull (c : fully) (t : activation) (q : quant) (filter bias : list Z)        (* TFL.FullyConnectedOp *)
| CConv (c : conv) (t : attributes) (q : quant) (filter bias : list Z)         (* TFL.Conv2DOp *)
| CDepthwise (c : conv) (t : attributes) (q : quant) (filter bias : list Z)    (* TFL.DepthwiseConv2DOp *)
| CMaxPool (p : maxpool)                                                       (* TFL.MaxPool2DOp, 8-bit *)
| CAct (m : LutModel.libm) (a : LutModel.activation) (inScale : Q) (inZero : Z) (outScale : Q) (outZero : Z).  (* 8-bit TFL.Relu, ... *)

(** [outside]: what a kernel that does not test its addresses finds beyond the elements of its input tensor. *)
Inductive xcompute :=
| XConv (k : kernel) (c : conv) (a : conv_args) (ot : ot_type) (ch : chain) (q : quant) (outside : Z -> Z)   (* XC_Conv2DOp: input, weights, multipliers *)
| XMaxPool (p : maxpool) (outside : Z -> Z)                                                                              (* XC_MaxPool2DOp *)
| XLookup.                                                                               (* XC_LookupOp: input, table *)

(** What the passes put in place of an operator: one xcore operator with the same operands and the given constants (weights and multipliers of a
    convolution, table of a lookup); or, ConvPatterns.td 10-17, the convolution without its Relu followed by a TFL.ReluOp. *)
Inductive replacement := ByKernel (x : xcompute) (consts : list (list Z)) | ByRelu (conv_ relu : compute)
(** ReplaceFCWithConv2D.cpp 28-150: a reshape of the operand to [s1], the convolution, of shape [s2], and a reshape of its result to [s3]. *)
| ByConv (s1 : list nat) (conv_ : compute) (s2 s3 : list nat) | Kept.

(** The convolution of ReplaceFCWithConv2D.cpp 56-106: VALID, strides and dilations 1, the same activation, filter data and bias. *)
Definition image_of (s : list Z) : Z * Z * Z := (nth 1 s 0%Z, nth 2 s 0%Z, nth 3 s 0%Z).
Definition conv_of_full (c : fully) : conv :=
  mk_conv (fl_i16 c) (image_of (ConvGeomModel.fc_conv_shape (fl_in c))) (image_of (ConvGeomModel.fc_conv_shape (fl_out c)))
    (image_of (ConvGeomModel.fc_filter_shape (fl_dims c))) VALID [] (1, 1)%Z (1, 1)%Z (fl_in_zp c).

(** The first and third case of ReplaceConv2D: phase1 .. phase3 of ConvLowerModel, as separate applications of patterns.  XCPatterns.td 14-25;
    ReplaceMaxPool2D.cpp 32-110 (matches every TFL.MaxPool2DOp). *)
Definition replace_compute (outside : Z -> Z) (c : compute) : replacement :=
  match c with
  | CFull fc t q f b =>
      ByConv (map Z.to_nat (ConvGeomModel.fc_conv_shape (fl_in fc))) (CConv (conv_of_full fc) (mk_attr 1 1 t VALID 1 1 1) q f b)
        (map Z.to_nat (ConvGeomModel.fc_conv_shape (fl_out fc))) (map Z.to_nat (ConvGeomModel.fc_squeezed (fl_out fc)))
  | CConv cv t q f b =>
      if negb (c_i16 cv) && is_relu (at_faf t) && negb (q_zp q =? -128)%Z
      then ByRelu (CConv cv (with_faf NONE t) q f b) (CAct (LutModel.Libm (fun x => x) (fun x => x)) LutModel.Relu (q_step q) (q_zp q) (q_step q) (q_zp q))
      else match replace_conv2d (q_threshold q) (q_errors q) (q_zp q) (TflConv cv t) with
           | XcConv k c' a ot ch => ByKernel (XConv k c' a ot ch q outside) [q_weights q; q_muls q]
           | _ => Kept
           end
  | CDepthwise cv t q f b =>
      match replace_conv2d (q_threshold q) (q_errors q) (q_zp q) (TflDepthwise cv t) with
      | XcConv k c' a ot ch => ByKernel (XConv k c' a ot ch q outside) [q_weights q; q_muls q]
      | _ => Kept
      end
  | CMaxPool p => ByKernel (XMaxPool p outside) []
  | CAct m a si zi so zo =>
      match LutModel.lookup_table m a si zi so zo with Some t => ByKernel XLookup [t] | None => Kept end
  end.
