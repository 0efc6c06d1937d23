(** What the 16-bit operators compute on real numbers, independent of the model's lowering. *)
From Coq Require Import List ZArith QArith Qabs.
From Verif Require Import Int16Model.
Local Open Scope Z_scope.

Definition int16 (v : Z) : Prop := -32768 <= v <= 32767.

(** The real number a stored value stands for. *)
Definition real (t : elt) (v : Q) : Q := match t with F32 => v | QInt _ s z => (v - inject_Z z) * s end%Q.
(** The operators on real numbers. *)
Definition real_op (op : tfl_op) (a b : Q) : Q :=
  match op with TQuantize | TDequantize => a | TAdd => a + b | TSub => a - b | TMul => a * b end%Q.
(** The stored result, before rounding and saturation, of the real number [y]. *)
Definition unrounded (t : elt) (y : Q) : Q := match t with F32 => y | QInt _ s z => y / s + inject_Z z end%Q.

(** Exponential linear unit: the identity for positive numbers; between -1 and 0, and above the identity, for negative ones. *)
Definition elu_like (f : Q -> Q) : Prop :=
  (forall x, 0 <= x -> f x == x)%Q /\ (forall x, x <= 0 -> x <= f x /\ f x <= 0 /\ -1 <= f x)%Q.
