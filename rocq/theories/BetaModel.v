(** Float operators with --xcore-enable-beta-float: ConvPatterns.td 52-77 (convolution, transpose convolution, fully connected; in
    ReplaceConv2D), XCPatterns.td 66-81 and 95-96 (activations, concatenation; in ApplyXCPatterns), ApplyXCPatterns.cpp 67-78
    (getActivationType); ReplaceConcat.cpp 36-47 and Passes.cpp 47, 53-54 (a concatenation reaches XCPatterns only if ReplaceConcat left it);
    TranslateToCustomOp.cpp 35-46 (what is exported); XCoreOps.td 261-321.
    getCompressedFloats (ReplaceConv2D.cpp 243-264) is used by no pattern.
    Simplifications: batch 1; the 32-bit floats are rational numbers. *)
From Coq Require Import List ZArith QArith Bool.
Import ListNotations.
Local Open Scope Z_scope.

Inductive elt := F32 | QI8 | OtherElt.
Inductive faf := NONE | RELU | RELU_N1_TO_1 | RELU6 | TANH | SIGN_BIT.
Inductive padding := SAME | VALID.
(** Dimensions of an image, height, width and channels; of a filter, output channels, height, width, input channels. *)
Record image := Image { im_h : Z; im_w : Z; im_c : Z }.
Record filter := Filter { f_o : Z; f_h : Z; f_w : Z; f_i : Z; f_data : Z -> Z -> Z -> Z -> Q }.

Record conv := Conv {
  cv_elts : elt * elt * elt;          (* input, filter, bias *)
  cv_in : image; cv_out : image; cv_filter : filter; cv_bias : Z -> Q;
  cv_dil_h : Z; cv_dil_w : Z; cv_faf : faf; cv_padding : padding; cv_stride_h : Z; cv_stride_w : Z }.
(** [fc_bias]: None, no bias.  Rows of [fc_n] inputs to rows of [fc_m] outputs. *)
Record fc := Fc { fc_elts : elt * elt; fc_n : Z; fc_m : Z; fc_weights : Z -> Z -> Q; fc_bias : option (Z -> Q); fc_faf : faf }.
Inductive act := Elu | Logistic | Tanh | OtherAct.
Record concat := Concat { cc_elt : elt; cc_static : bool; cc_axis : Z; cc_in : list (list Z); cc_out : list Z; cc_faf : faf }.

Inductive tfl :=
| TConv (c : conv) | TTransposeConv (c : conv) (* dilations are 1 *) | TFc (c : fc) | TAct (a : act) (e : elt) | TConcat (c : concat).

(** The exported operators: their operands' types and constants, their results' types, and the activation's number. *)
Inductive beta :=
| BConv (input output : image) (kernels : filter) (bias : Z -> Q)
| BTransposeConv (input output : image) (kernels : filter) (bias : Z -> Q)
| BFc (n m : Z) (kernels : Z -> Z -> Q)
| BAct (type : Z)
| BConcat (inputs : list (list Z)) (output : list Z).
(** [IllTyped]: the created operator does not satisfy the types of its definition (XCoreOps.td 272-280); compilation fails. *)
Inductive result := Replaced (b : beta) | ByReplaceConcat | IllTyped | Kept.

Definition is_f32 (e : elt) : bool := match e with F32 => true | _ => false end.
Definition is_none (f : faf) : bool := match f with NONE => true | _ => false end.
(** ConvPatterns.td 56-59: dimensions 1 and 2 of the filter. *)
Definition has_fw5fh2 (f : filter) : bool := (f_h f =? 3) && (f_w f =? 2).
Definition all_f32 (e : elt * elt * elt) : bool := let '(a, b, c) := e in is_f32 a && is_f32 b && is_f32 c.
Definition activation_type (a : act) : option Z := match a with Elu => Some 0 | Logistic => Some 1 | Tanh => Some 2 | OtherAct => None end.

Definition beta_lower (enabled : bool) (o : tfl) : result :=
  match o with
  | TConv c =>
      if enabled && all_f32 (cv_elts c) && (cv_stride_h c =? 2) && (cv_stride_w c =? 1) && has_fw5fh2 (cv_filter c)
      then Replaced (BConv (cv_in c) (cv_out c) (cv_filter c) (cv_bias c)) else Kept
  | TTransposeConv c =>
      if enabled && all_f32 (cv_elts c) && (cv_stride_h c =? 2) && (cv_stride_w c =? 1) && has_fw5fh2 (cv_filter c)
      then Replaced (BTransposeConv (cv_in c) (cv_out c) (cv_filter c) (cv_bias c)) else Kept
  | TFc c =>
      if enabled && is_f32 (fst (fc_elts c)) && is_f32 (snd (fc_elts c)) then Replaced (BFc (fc_n c) (fc_m c) (fc_weights c)) else Kept
  | TAct a e =>
      match activation_type a with
      | Some t => if enabled && is_f32 e then Replaced (BAct t) else Kept
      | None => Kept
      end
  | TConcat c =>
      if cc_static c && is_none (cc_faf c) then ByReplaceConcat
      else if enabled then (if is_f32 (cc_elt c) then Replaced (BConcat (cc_in c) (cc_out c)) else IllTyped) else Kept
  end.
