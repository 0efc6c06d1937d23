(** Model of the acceptance test of the compiler, integration_tests/runner.py, test_model (C101): random inputs until enough outputs have been compared, three thresholds.
    Outputs of one integer type of numpy; the averages are exact rationals (in the code float64); the reference and the compiled network return outputs of the same sizes.
    Setting up the interpreters, the special models and what is logged are not modelled. *)
From Coq Require Import List ZArith QArith Qabs Bool.
Import ListNotations.
Local Open Scope Z_scope.

(** An integer type of numpy: results of operations on it wrap. *)
Record dtype := DType { d_signed : bool; d_bits : Z }.
Definition wrap (d : dtype) (z : Z) : Z :=
  if d_signed d then (z + 2 ^ (d_bits d - 1)) mod 2 ^ d_bits d - 2 ^ (d_bits d - 1) else z mod 2 ^ d_bits d.
(** 307-309: a - b, element by element; 318: np.abs, of the same type. *)
Definition subtract (d : dtype) (a b : Z) : Z := wrap d (a - b).
Definition absolute (d : dtype) (e : Z) : Z := wrap d (Z.abs e).

(** params.yaml or the constants at 22-25 *)
Record limits := Limits { MAX_ABS_ERROR : Z; ABS_AVG_ERROR : Q; AVG_ABS_ERROR : Q; REQUIRED_OUTPUTS : Z }.
Definition default_limits : limits := Limits 1 (1 # 4) (28 # 100) 2048.

(** 299: the variables of the loop; sums are 64 bits wide and taken to be exact. *)
Record state := State { run_out_count : Z; run_out_err : Z; run_out_abs_err : Z; max_abs_err : Z }.
Definition start : state := State 0 0 0 0.
Definition zsum (l : list Z) : Z := fold_right Z.add 0 l.
(** np.max of a list that is not empty *)
Fixpoint zmax (x : Z) (l : list Z) : Z := match l with [] => x | y :: tl => Z.max x (zmax y tl) end.
(** 300-319: one turn of the loop on the outputs of one run (reference, compiled). *)
Definition turn (d : dtype) (pairs : list (Z * Z)) (s : state) : state :=
  match map (fun p => subtract d (fst p) (snd p)) pairs with
  | [] => s
  | e :: tl =>
    let errors := e :: tl in
    State (run_out_count s + Z.of_nat (length errors)) (run_out_err s + zsum errors)
          (run_out_abs_err s + zsum (map (absolute d) errors))
          (Z.max (zmax (absolute d e) (map (absolute d) tl)) (max_abs_err s))
  end.
(** 300: the loop; [runs t] are the outputs of run [t] (inputs are random). *)
Inductive finishes (d : dtype) (l : limits) (runs : nat -> list (Z * Z)) : nat -> state -> nat -> state -> Prop :=
| Enough : forall t s, REQUIRED_OUTPUTS l <= run_out_count s -> finishes d l runs t s t s
| Again : forall t s t' s', run_out_count s < REQUIRED_OUTPUTS l ->
    finishes d l runs (S t) (turn d (runs t) s) t' s' -> finishes d l runs t s t' s'.
(** 321-342: no call of fail. *)
Definition passes (l : limits) (s : state) : bool :=
  let avg_err := (inject_Z (run_out_err s) / inject_Z (run_out_count s))%Q in
  let avg_abs_err := (inject_Z (run_out_abs_err s) / inject_Z (run_out_count s))%Q in
  (max_abs_err s <=? MAX_ABS_ERROR l) && Qle_bool (Qabs avg_err) (ABS_AVG_ERROR l) && Qle_bool avg_abs_err (AVG_ABS_ERROR l).
Definition test_model (d : dtype) (l : limits) (runs : nat -> list (Z * Z)) (verdict : bool) : Prop :=
  exists t s, finishes d l runs 0 start t s /\ verdict = passes l s.
