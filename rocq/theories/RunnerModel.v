(** Model of xformer/modelrunner.py: the script that compiles a model, runs it next to the reference interpreter and counts the outputs that differ (C100).
    Integer inputs of 8, 16 or 32 bits and integer outputs; both interpreters return outputs of the shapes of the model, with at least one element each (numpy's broadcasting and the
    reduction at 235 then raise no exception).  --s and --cifar are not modelled, nor what is printed.  float32: Flocq's format FLT(-149, 24), rounded to nearest even, infinite from 2^128 on. *)
From Coq Require Import List ZArith Reals Bool.
From Flocq Require Import Core.
Import ListNotations.
Local Open Scope Z_scope.

(** 18-22, checksum_calc: np.uint8 wraps. *)
Definition checksum_calc (data : list Z) : Z := fold_left (fun res d => (res - d) mod 256) data 0.

(** np.iinfo of an input type (min, max); None: not an integer type, np.iinfo raises. *)
Definition iinfo := option (Z * Z).
(** 160-166: [n] goes up by [step], back to the minimum when it has reached the maximum. *)
Fixpoint fill (lo hi step : Z) (count : nat) (n : Z) : list Z :=
  match count with
  | O => []
  | S c => let n := if n >=? hi then lo else n in n :: fill lo hi step c (n + step)
  end.
(** 156-172: the input of [size] elements for one type; int(max * 2 / 85) is the quotient for these types. *)
Definition make_input (t : Z * Z) (size : nat) : list Z :=
  let '(lo, hi) := t in fill lo hi (hi * 2 / 85) size lo.
Fixpoint make_inputs (l : list (iinfo * nat)) : option (list (list Z)) :=
  match l with
  | [] => Some []
  | (None, _) :: _ => None
  | (Some t, size) :: tl => match make_inputs tl with Some r => Some (make_input t size :: r) | None => None end
  end.

(** float32 *)
Inductive float32 := Finite (x : R) | Infinite (negative : bool).
Definition round32 (x : R) : float32 :=
  let r := round radix2 (FLT_exp (-149) 24) ZnearestE x in
  if Rle_bool (bpow radix2 128) (Rabs r) then Infinite (Rlt_bool r 0) else Finite r.
Definition times32 (a b : float32) : float32 :=
  match a, b with Finite x, Finite y => round32 (x * y) | Infinite n, _ => Infinite n | _, Infinite n => Infinite n end.
(** np.int32 wraps *)
Definition int32 (z : Z) : Z := (z + 2147483648) mod 4294967296 - 2147483648.
(** 28-29 *)
Definition dequantize (v zero_point : Z) (scale : R) : float32 := times32 (round32 (IZR (int32 (v - zero_point)))) (Finite scale).

(** Equality of numbers, np.testing.assert_equal *)
Definition same32 (a b : float32) : bool :=
  match a, b with Finite x, Finite y => Req_bool x y | Infinite m, Infinite n => Bool.eqb m n | _, _ => false end.
Fixpoint all_same {A} (same : A -> A -> bool) (l m : list A) : bool :=
  match l, m with [], [] => true | x :: l, y :: m => same x y && all_same same l m | _, _ => false end.

(** Scales and zero points of an output (get_output_details). *)
Record quantization := Quantization { q_scales : list R; q_zero_points : list Z }.
(** 220-256: does comparing one output raise an exception?  The truth value of an array of several scales is an exception (247); no scale or a scale of zero: the integers are compared. *)
Definition output_fails (q : quantization) (reference compiled : list Z) : bool :=
  match q_scales q with
  | [] => negb (all_same Z.eqb reference compiled)
  | [s] => if Req_bool s 0 then negb (all_same Z.eqb reference compiled)
           else let zp := nth 0 (q_zero_points q) 0 in
                negb (all_same same32 (map (fun v => dequantize v zp s) reference) (map (fun v => dequantize v zp s) compiled))
  | _ => true
  end.
Fixpoint count_fails (qs : list quantization) (reference compiled : list (list Z)) : Z :=
  match qs, reference, compiled with
  | q :: qs, r :: reference, c :: compiled => (if output_fails q r c then 1 else 0) + count_fails qs reference compiled
  | _, _, _ => 0
  end.

(** 261-278: the command line; --tc has no default value. *)
Record arguments := Arguments { a_threads : option Z; a_input : bool; a_bnn : bool; a_runs : nat }.
Inductive outcome := Exception | TotalFails (fails : Z).
(** 65-258, 280-284.  Without --tc the string concatenation at 47 raises.  --input without --bnn: [s[1]] or [s[2]] (117) is not an integer or does not exist.
    --bnn: [num_of_inputs] is used (155, 210) but only assigned without it (99). [reference], [compiled]: the two interpreters, functions of their inputs. *)
Fixpoint loop (runs : nat) (one : option Z) (fails : Z) : outcome :=
  match runs with
  | O => TotalFails fails
  | S n => match one with None => Exception | Some f => loop n one (fails + f) end
  end.
Definition runner (a : arguments) (inputs : list (iinfo * nat)) (qs : list quantization) (reference compiled : list (list Z) -> list (list Z)) : outcome :=
  match a_threads a with
  | None => Exception
  | Some _ =>
    if a_bnn a then loop (a_runs a) None 0
    else if a_input a then Exception
    else loop (a_runs a) (match make_inputs inputs with None => None | Some l => Some (count_fails qs (reference l) (compiled l)) end) 0
  end.
