(** What a convolution operator of TFLite leaves in its output tensor (C79). *)
From Coq Require Import List ZArith Bool.
Import ListNotations.
From Verif Require Import ConvSpec ConvLowerSpec.
Local Open Scope Z_scope.

(** The quantised result: [v] is the requantised accumulator. *)
Definition tflite_value (qlo qhi zp q6 q1 qm1 : Z) (f : activation) (v : Z) : Z :=
  let r := activation_range qlo qhi zp q6 q1 qm1 f in clampZ (fst r) (snd r) v.

(** Quantised range and zero point of the result: bounds of the type, quantised values of 6, 1 and -1. *)
Definition quantisation_ok (i16 : bool) (qlo qhi zp q6 q1 qm1 : Z) : Prop :=
  (i16 = false -> qlo = -128) /\ qlo <= zp <= qhi /\ zp <= q6 /\ qm1 <= zp /\ zp <= q1.

(** Activations that the lowering keeps (C58): none; a Relu of an 8-bit Conv2D; a Relu or Relu6 that the quantisation already implies. *)
Definition activation_kept (conv8 : bool) (f : activation) (qlo qhi zp q6 : Z) : Prop :=
  f = NONE \/ (f = RELU /\ (zp = qlo \/ conv8 = true)) \/ (f = RELU6 /\ zp = qlo /\ qhi <= q6).

(** The tensor at 0 .. H * W * D - 1 holds [v], the rest of the memory is as before. *)
Definition holds_result (H W D : Z) (v : Z -> Z -> Z -> Z) (before after : Z -> Z) : Prop :=
  (forall Y X c, 0 <= Y < H -> 0 <= X < W -> 0 <= c < D -> after ((Y * W + X) * D + c) = v Y X c) /\
  (forall a, ~ (0 <= a < H * W * D) -> after a = before a).
