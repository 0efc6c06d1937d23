(** What a fixed-point logarithm is (C86). *)
From Coq Require Import ZArith.
Local Open Scope Z_scope.

(** v - a <= q log2(x) < v + b, without real numbers. *)
Definition log_within (q a b x v : Z) : Prop := 2 ^ v <= 2 ^ a * x ^ q /\ x ^ q < 2 ^ b * 2 ^ v.
