(** What the user of modelrunner.py relies on (C100), without its code. *)
From Coq Require Import List ZArith Reals.
From Flocq Require Import Core.
Import ListNotations.
Local Open Scope Z_scope.

(** A finite number of type float32 that is not negative. *)
Definition float32_scale (s : R) : Prop := generic_format radix2 (FLT_exp (-149) 24) s /\ (0 <= s < bpow radix2 128)%R.
(** Values and zero point of a type of at most 16 bits. *)
Definition short (v : Z) : Prop := -32768 <= v <= 32767.
(** Number of outputs that are not the same. *)
Definition differing (reference compiled : list (list Z)) (n : Z) : Prop :=
  exists flags : list bool, length flags = length reference /\
    (forall i, (i < length reference)%nat -> (nth i flags false = true <-> nth i reference [] <> nth i compiled [])) /\
    n = Z.of_nat (length (filter (fun b => b) flags)).
(** [k] times the scale is beyond the greatest float32 (half a unit above it already rounds up). *)
Definition overflows (k : Z) (s : R) : Prop := (bpow radix2 128 - bpow radix2 103 <= Rabs (IZR k) * s)%R.

(** No value of at most 16 bits overflows for the scales below. *)
Definition moderate (s : R) : Prop := float32_scale s /\ (65535 * s < bpow radix2 128 - bpow radix2 103)%R.

(** Two outputs of one shape, of a tensor without scale or with one scale and zero point. *)
Definition comparable (scales : list R) (zero_points : list Z) (reference compiled : list Z) : Prop :=
  length reference = length compiled /\
  (scales = [] \/
   exists s zp, scales = [s] /\ zero_points = [zp] /\ moderate s /\ short zp /\ Forall short reference /\ Forall short compiled).

