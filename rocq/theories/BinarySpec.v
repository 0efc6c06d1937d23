(** What networks of quantised operators may compute (C76). *)
From Coq Require Import List ZArith Bool Arith QArith Qminmax.
Import ListNotations.
From Verif Require Import LutModel LutSpec AddModel AddProps NdSpec BinaryModel.
Local Open Scope Z_scope.

(** The real value of an operator on two stored values. *)
Definition exact (k : kind) (q1 q2 : qtype) (x1 x2 : Z) : Q :=
  let a := dequantised (q_scale q1) (q_zero q1) x1 in
  let b := dequantised (q_scale q2) (q_zero q2) x2 in
  match k with KAdd => a + b | KSub => a - b | KMul => a * b end%Q.
(** [w] is at most one unit away from the real number [y] expressed in units of the scale, shifted by the zero point, rounded
    and saturated. *)
Definition near (q : qtype) (y : Q) (w : Z) : Prop :=
  int8 w /\ exists r, rounds_to (y / q_scale q + inject_Z (q_zero q)) r /\ Z.abs (w - Z.min 127 (Z.max (-128) r)) <= 1.

(** Activations on real numbers, and on stored values. *)
Definition act_on_reals (tanh : Q -> Q) (a : act) (x : Q) : Q :=
  match a with
  | ANone => x
  | ARelu => Qmax 0 x
  | ARelu1 => Qmax (-1) (Qmin 1 x)
  | ARelu6 => Qmax 0 (Qmin 6 x)
  | ATanh => tanh x
  | ASign => if Qlt_le_dec x 0 then -1 else if Qlt_le_dec 0 x then 1 else 0
  end%Q.
Definition activated (tanh : Q -> Q) (a : act) (q : qtype) (w v : Z) : Prop :=
  quantised (q_scale q) (q_zero q) (act_on_reals tanh a (dequantised (q_scale q) (q_zero q) w)) v.
(** A fused activation: TFLite clamps the stored value to the quantised bounds of the activation
    (CalculateActivationRangeQuantized); Tanh and Sign, which TFLite's quantised kernels do not know, are applied to the value. *)
Definition clamp_to (q : qtype) (lo hi : Z) (w : Z) : Z :=
  Z.min (Z.min 127 hi) (Z.max (Z.max (-128) lo) w).
Definition level (q : qtype) (x : Q) : Z := q_zero q + c_round (x / q_scale q).
Definition fused (tanh : Q -> Q) (a : act) (q : qtype) (w v : Z) : Prop :=
  match a with
  | ANone => v = w
  | ARelu => v = clamp_to q (level q 0) 127 w
  | ARelu1 => v = clamp_to q (level q (-1)) (level q 1) w
  | ARelu6 => v = clamp_to q (level q 0) (level q 6) w
  | ATanh | ASign => activated tanh a q w v
  end.

(** Can [s] be broadcast to [outs]? *)
Definition broadcastable (s outs : shape) : Prop :=
  (length s <= length outs)%nat /\ Forall2 (fun d o => d = 1%nat \/ d = o) s (skipn (length outs - length s) outs).

Section Meaning.
  Variable tanh : Q -> Q.
  (** What the xcore multiplication computes from the parameters (lib_nn). *)
  Variable mul_kernel : mul_args -> Z -> Z -> Z.
  (** Operators on tensors that are not 8-bit: any function. *)
  Variable wide : kind -> act -> bty -> bty -> bty -> Z -> Z -> Z.
  Variable inputs : nat -> tensor Z.

  (** 8-bit tensors hold 8-bit values. *)
  Definition holds (t : bty) (v : tensor Z) : Prop := b_int8 t = true -> forall idx, in_shape (b_shape t) idx -> int8 (v idx).
  (** [v] may be the result of the network: every 8-bit Add, Sub and Mul is allowed an error of one unit before its
      activation; everything else is exact. *)
  Fixpoint admits (e : net) (v : tensor Z) : Prop :=
    holds (type_of e) v /\
    match e with
    | In i t => forall idx, in_shape (b_shape t) idx -> v idx = inputs i idx
    | BroadcastTo e t => exists u, admits e u /\
        forall idx, in_shape (b_shape t) idx -> v idx = broadcast_to (b_shape (type_of e)) (b_shape t) u idx
    | Binary k a e1 e2 t => exists u1 u2, admits e1 u1 /\ admits e2 u2 /\
        forall idx, in_shape (b_shape t) idx ->
          let x1 := broadcast_to (b_shape (type_of e1)) (b_shape t) u1 idx in
          let x2 := broadcast_to (b_shape (type_of e2)) (b_shape t) u2 idx in
          if b_int8 t then exists w, near (b_q t) (exact k (b_q (type_of e1)) (b_q (type_of e2)) x1 x2) w /\ fused tanh a (b_q t) w (v idx)
          else v idx = wide k a (type_of e1) (type_of e2) t x1 x2
    | Activation a e t => exists u, admits e u /\ forall idx, in_shape (b_shape t) idx -> activated tanh a (b_q t) (u idx) (v idx)
    | XAdd op e1 e2 t => exists u1 u2, admits e1 u1 /\ admits e2 u2 /\
        forall idx, in_shape (b_shape t) idx -> v idx = add_kernel op (u1 idx) (u2 idx)
    | XMul m e1 e2 t => exists u1 u2, admits e1 u1 /\ admits e2 u2 /\
        forall idx, in_shape (b_shape t) idx -> v idx = mul_kernel m (u1 idx) (u2 idx)
    | Other f l t => exists us, (fix all l us := match l, us with
                                                 | [], [] => True
                                                 | e :: l', u :: us' => admits e u /\ all l' us'
                                                 | _, _ => False
                                                 end) l us /\
        forall idx, in_shape (b_shape t) idx -> v idx = f us idx
    end.
End Meaning.

(** The contract of the multiplication kernel: with the parameters computed from the scales and zero points of two operands and
    a result, it is at most one unit away from the exact product. *)
Definition mul_contract (mul_kernel : mul_args -> Z -> Z -> Z) : Prop :=
  forall q1 q2 q x1 x2, sound q1 -> sound q2 -> sound q -> int8 x1 -> int8 x2 ->
    near q (exact KMul q1 q2 x1 x2)
      (mul_kernel (MulArgs (q_scale q1) (q_scale q2) (q_scale q) (q_zero q1) (q_zero q2) (q_zero q)) x1 x2).

(** Scales for which the parameters of the addition are representable (C44). *)
Definition scales_fit (q1 q2 q : qtype) : Prop :=
  (1 # 1024 < Qmax (q_scale q1 / q_scale q) (q_scale q2 / q_scale q) <= 32)%Q.
(** A verified TFLite network. *)
Fixpoint typed (e : net) : Prop :=
  (b_int8 (type_of e) = true -> sound (b_q (type_of e))) /\
  match e with
  | In _ _ => True
  | BroadcastTo e t => typed e /\ b_int8 (type_of e) = b_int8 t /\ broadcastable (b_shape (type_of e)) (b_shape t)
  | Binary k _ e1 e2 t => typed e1 /\ typed e2 /\ b_int8 (type_of e1) = b_int8 t /\ b_int8 (type_of e2) = b_int8 t /\
      broadcastable (b_shape (type_of e1)) (b_shape t) /\ broadcastable (b_shape (type_of e2)) (b_shape t) /\
      (b_int8 t = true -> k <> KMul -> scales_fit (b_q (type_of e1)) (b_q (type_of e2)) (b_q t))
  | Activation _ e t => typed e /\ type_of e = t /\ b_int8 t = true
  | XAdd _ _ _ _ | XMul _ _ _ _ => False
  | Other f l t => (fix all l := match l with [] => True | e :: l' => typed e /\ all l' end) l /\
      forall us, holds t (f us)
  end.
(** 8-bit binary operators left in a network. *)
Fixpoint binaries (e : net) : nat :=
  match e with
  | In _ _ => 0
  | BroadcastTo e _ | Activation _ e _ => binaries e
  | Binary _ _ e1 e2 t => (if b_int8 t then 1 else 0) + binaries e1 + binaries e2
  | XAdd _ e1 e2 _ | XMul _ e1 e2 _ => binaries e1 + binaries e2
  | Other _ l _ => fold_right Nat.add 0%nat (map binaries l)
  end.
