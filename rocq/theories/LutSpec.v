(** Specification vocabulary for C36, C37, C50, C51. *)
From Coq Require Import List ZArith Bool QArith Qminmax Qabs.
Import ListNotations.
From Verif Require Import LutModel.
Local Open Scope Z_scope.

(** [r] is [x] rounded to the nearest integer, halves away from zero. *)
Definition rounds_to (x : Q) (r : Z) : Prop :=
  ((0 <= x /\ inject_Z r - (1 # 2) <= x /\ x < inject_Z r + (1 # 2)) \/
   (x < 0 /\ inject_Z r - (1 # 2) < x /\ x <= inject_Z r + (1 # 2)))%Q.

Definition int8 (v : Z) : Prop := -128 <= v <= 127.
(** The stored value [v] of the real number [y] for the given scale and zero point:
    rounded and saturated to 8 bits. *)
Definition quantised (scale : Q) (zero : Z) (y : Q) (v : Z) : Prop :=
  exists r, rounds_to (y / scale)%Q r /\
    ((-128 <= r + zero <= 127 /\ v = r + zero) \/ (127 < r + zero /\ v = 127) \/ (r + zero < -128 /\ v = -128)).
(** The real number a stored value stands for. *)
Definition dequantised (scale : Q) (zero v : Z) : Q := (inject_Z (v - zero) * scale)%Q.
(** ... and no 8-bit value is closer to [y]. *)
Definition closest (scale : Q) (zero : Z) (y : Q) (v : Z) : Prop :=
  int8 v /\ forall w, int8 w -> (Qabs.Qabs (dequantised scale zero v - y) <= Qabs.Qabs (dequantised scale zero w - y))%Q.

(** The activation functions on numbers. *)
Definition hard_swish (x : Q) : Q := (if Qle_bool x (-3) then 0 else if Qle_bool 3 x then x else x * (x + 3) / 6)%Q.
Definition act_real (m : libm) (a : activation) (x : Q) : Q :=
  match a with
  | Relu => if Qle_bool x 0 then 0 else x
  | Relu6 => if Qle_bool x 0 then 0 else if Qle_bool 6 x then 6 else x
  | Tanh => m_tanh m x
  | Logistic => 1 / (1 + m_exp m (- x))
  | HardSwish => hard_swish x
  end%Q.
