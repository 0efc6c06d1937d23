(** Model of the convolution rewrites as rewriting of a whole network: Transforms/TFLPatterns.td 41-55 (SAME padding made
    explicit, run before) and the three phases of Transforms/OptimizeConv2D.cpp 795-838, applied anywhere, any number of
    times, in any order.
    A network is the expression computing a tensor of batch 1: an image whose pixels are lists of channels (a value used
    several times is repeated: the operators are pure).  Transpose convolutions and the folding done by the driver are not
    modelled (C33, C34). *)
From Coq Require Import List ZArith Bool Arith QArith.
Import ListNotations.
From Verif Require Import ConvSpec ConvOptModel ConvGeomModel.
Local Open Scope Z_scope.

(** Element types the patterns distinguish (Utils/Util.h isNBitSignedQType). *)
Inductive elt := QI8 | QI16 | OtherElt.
Inductive bias_kind := NoBias | I32 | QI32 | OtherBias.

(** Attributes and types of a tfl.conv_2d or tfl.depthwise_conv_2d.  [a_zx], [a_zw]: zero points of input and filter (TFLite
    requires symmetric filters; not used).  [a_post]: what the operator computes from the exact accumulator, the bias and the
    channel's quantisation parameters (requantisation and fused activation). *)
Record attrs := Attrs {
  a_depthwise : bool; a_same : bool;
  a_fh : nat; a_fw : nat; a_sh : Z; a_sw : Z; a_dh : Z; a_dw : Z;
  a_in : elt; a_out : elt; a_filter_qi8 : bool; a_bias : bias_kind;
  a_zx : Z; a_zw : Z;
  a_post : Z -> option Z -> option (Q * Z) -> option (Q * Z) -> Z }.
Definition valid (a : attrs) : attrs :=
  Attrs (a_depthwise a) false (a_fh a) (a_fw a) (a_sh a) (a_sw a) (a_dh a) (a_dw a)
        (a_in a) (a_out a) (a_filter_qi8 a) (a_bias a) (a_zx a) (a_zw a) (a_post a).

Definition pixel := list Z.
Record size := Size { s_h : Z; s_w : Z; s_c : nat }.

(** [Conv a c n e]: convolution with constants [c] and [n] output channels.  [Pad]: rows and columns of the pixel [z].
    [PadC p z]: [p] channels of value [z].  [SliceC n]: the first [n] channels.  [ConcatC]: along the channels.
    [Any]: any other operator. *)
Inductive net :=
| Src (s : size) (img : image pixel)
| Conv (a : attrs) (c : conv_consts) (n : nat) (e : net)
| Pad (top bottom left right : Z) (z : pixel) (e : net)
| PadC (p : nat) (z : Z) (e : net)
| SliceC (n : nat) (e : net)
| ConcatC (l : list net)
| Any (s : size) (f : list (image pixel) -> image pixel) (l : list net).

Definition conv_size (same : bool) (n f d s : Z) : Z := if same then same_out n s else valid_out n f d s.
(** The result type. *)
Fixpoint size_of (e : net) : size :=
  match e with
  | Src s _ => s
  | Conv a _ n e => let s := size_of e in
      Size (conv_size (a_same a) (s_h s) (Z.of_nat (a_fh a)) (a_dh a) (a_sh a))
           (conv_size (a_same a) (s_w s) (Z.of_nat (a_fw a)) (a_dw a) (a_sw a)) n
  | Pad t b l r _ e => let s := size_of e in Size (t + s_h s + b) (l + s_w s + r) (s_c s)
  | PadC p _ e => let s := size_of e in Size (s_h s) (s_w s) (s_c s + p)
  | SliceC n e => let s := size_of e in Size (s_h s) (s_w s) n
  | ConcatC l => match l with
                 | [] => Size 0 0 0
                 | e :: _ => Size (s_h (size_of e)) (s_w (size_of e)) (fold_right Nat.add 0%nat (map (fun e => s_c (size_of e)) l))
                 end
  | Any s _ _ => s
  end.

(** TFLPatterns.td 42-46 (Conv2D) and 49-54 (DepthwiseConv2D): type constraints of the SAME patterns. *)
Definition same_eligible (a : attrs) : bool :=
  a_filter_qi8 a &&
  (if a_depthwise a
   then match a_in a with QI8 => true | _ => false end && match a_bias a with I32 | QI32 => true | _ => false end
   else match a_in a with QI8 | QI16 => true | _ => false end && match a_bias a with I32 | QI32 | NoBias => true | _ => false end).
(** OptimizeConv2D.cpp 36-56, 555-587, 640-676, 733-753: type constraints of the other patterns; [a_out] only for padding. *)
Definition in_ok (a : attrs) : bool :=
  match a_in a with QI8 => true | QI16 => negb (a_depthwise a) | OtherElt => false end.
Definition bias_ok (a : attrs) : bool := match a_bias a with NoBias | QI32 => true | _ => false end.
Definition out_ok (a : attrs) : bool := match a_out a with QI8 | QI16 => true | OtherElt => false end.
Definition split_eligible (a : attrs) : bool := negb (a_depthwise a) && in_ok a && a_filter_qi8 a && bias_ok a.
Definition pad_eligible (a : attrs) : bool := negb (a_depthwise a) && in_ok a && a_filter_qi8 a && bias_ok a && out_ok a.
Definition pad_dw_eligible (a : attrs) : bool := a_depthwise a && in_ok a && a_filter_qi8 a && bias_ok a.
(** OptimizeConv2D.cpp 588-595, 677-684. *)
Definition i16_conv (a : attrs) : bool := match a_in a, a_out a with QI16, QI16 => true | _, _ => false end.
(** Filter elements per output channel: fh * fw * depth. *)
Definition taps (a : attrs) : nat := (a_fh a * a_fw a)%nat.

(** TFLPatterns.td 41-55 with ApplyTFLPatterns.cpp 31-88. *)
Inductive same_root : net -> net -> Prop :=
| SameToValid : forall a c n e top bottom lft rgt newH newW,
    same_eligible a = true -> a_same a = true ->
    conv_padding_values (s_h (size_of e)) (s_w (size_of e)) (Z.of_nat (a_fh a)) (Z.of_nat (a_fw a)) (a_dh a) (a_dw a) (a_sh a) (a_sw a)
      = ((top, bottom), (lft, rgt), (newH, newW)) ->
    same_root (Conv a c n e) (Conv (valid a) c n (Pad top bottom lft rgt (repeat (a_zx a) (s_c (size_of e))) e)).

(** OptimizeConv2D.cpp 544-793: first and third phase. *)
Inductive pad_root : net -> net -> Prop :=
| PadInput : forall a c n e p c',
    pad_eligible a = true -> pad_conv_input (i16_conv a) (s_c (size_of e)) c = Some (p, c') ->
    pad_root (Conv a c n e) (Conv a c' n (PadC p (a_zx a) e))
| PadOutput : forall a c n e p c',
    pad_eligible a = true -> pad_conv_output (i16_conv a) n (taps a * s_c (size_of e)) c = Some (p, c') ->
    pad_root (Conv a c n e) (SliceC n (Conv a c' (n + p) e))
| PadDepthwise : forall a c n e p c',
    pad_dw_eligible a = true -> pad_depthwise (s_c (size_of e)) n c = Some (p, c') ->
    pad_root (Conv a c n e) (SliceC n (Conv a c' (n + p) (PadC p (a_zx a) e))).

(** OptimizeConv2D.cpp 28-204: second phase; [splitSize]: convChannelwiseSplitSizeOption.  The padding of the new
    convolutions is the literal "VALID" (line 191). *)
Inductive split_root (splitSize : Z) : net -> net -> Prop :=
| Split : forall a c n e ns groups,
    split_eligible a = true ->
    num_splits (Z.of_nat (length (c_filter c))) splitSize (Z.of_nat n) = Some ns ->
    split_groups (taps a * s_c (size_of e)) c 0 (split_sizes (Z.of_nat n) ns) = Some groups ->
    split_root splitSize (Conv a c n e) (ConcatC (map (fun g => Conv (valid a) (snd g) (fst g) e) groups)).

(** The rewrite driver: a pattern anywhere in the network. *)
Inductive anywhere (R : net -> net -> Prop) : net -> net -> Prop :=
| AtRoot : forall e e', R e e' -> anywhere R e e'
| InConv : forall a c n e e', anywhere R e e' -> anywhere R (Conv a c n e) (Conv a c n e')
| InPad : forall t b l r z e e', anywhere R e e' -> anywhere R (Pad t b l r z e) (Pad t b l r z e')
| InPadC : forall p z e e', anywhere R e e' -> anywhere R (PadC p z e) (PadC p z e')
| InSliceC : forall n e e', anywhere R e e' -> anywhere R (SliceC n e) (SliceC n e')
| InConcatC : forall l1 e e' l2, anywhere R e e' -> anywhere R (ConcatC (l1 ++ e :: l2)) (ConcatC (l1 ++ e' :: l2))
| InAny : forall s f l1 e e' l2, anywhere R e e' -> anywhere R (Any s f (l1 ++ e :: l2)) (Any s f (l1 ++ e' :: l2)).

(** applyPatternsAndFoldGreedily: until no pattern applies. *)
Inductive run (R : net -> net -> Prop) : net -> net -> Prop :=
| Done : forall e, (forall e', ~ anywhere R e e') -> run R e e
| More : forall e e1 e', anywhere R e e1 -> run R e1 e' -> run R e e'.

(** Passes.cpp 31, 33 and OptimizeConv2D.cpp 795-838. *)
Definition optimise (splitSize : Z) (e0 e4 : net) : Prop :=
  exists e1 e2 e3, run same_root e0 e1 /\ run pad_root e1 e2 /\ run (split_root splitSize) e2 e3 /\ run pad_root e3 e4.
