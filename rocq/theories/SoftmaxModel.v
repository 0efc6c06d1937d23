(** Model of the softmax lowering: Transforms/XCPatterns.td 41-72 and
    Transforms/ApplyXCPatterns.cpp 80-107 (getExpLookupF32).
    Simplifications: arithmetic on double and float is exact on real numbers, except that a float of 2^128 or more is
    infinite and a positive number below 2^-150 becomes 0; the assertion on the output quantisation is not evaluated
    (release build). *)
From Coq Require Import List ZArith Bool Reals.
Import ListNotations.
Local Open Scope Z_scope.

(** Quantised type of 8-bit values: scale and zero point. *)
Record rqtype := RQType { rq_scale : R; rq_zero : Z }.

(** A non-negative float. *)
Inductive float32 := Finite (x : R) | Infinite.
Definition to_float (x : R) : float32 :=
  if Rle_dec (2 ^ 128) x then Infinite else if Rlt_dec x (/ 2 ^ 150) then Finite 0 else Finite x.

(** ApplyXCPatterns.cpp 98-101: one entry, ((i - 128) - inputZeroPoint) * inputScale. *)
Definition exp_entry (inType : rqtype) (i : Z) : float32 :=
  to_float (exp (IZR (i - 128 - rq_zero inType) * rq_scale inType)).
(** ApplyXCPatterns.cpp 80-107: the table of 256 floats; the output type [outType] only occurs in the assertion. *)
Definition exp_lookup (inType outType : rqtype) : list float32 :=
  map (fun i => exp_entry inType (Z.of_nat i)) (seq 0 256).

(** XCPatterns.td 46-72: the operator a TFL softmax becomes; [shape] is the static shape of the input, [beta_is_one] the
    comparison of the attribute with 1.0, [is_qi8] the type constraint on the input. *)
Inductive lowered := XCSoftmax | XCBatchedSoftmax | NotLowered.
Definition lower_softmax (is_qi8 beta_is_one : bool) (shape : list Z) : lowered :=
  let rank := Z.of_nat (length shape) in
  if negb (is_qi8 && beta_is_one) then NotLowered
  else if (rank =? 2) && (nth 0 shape 0 =? 1) then XCSoftmax
  else if ((rank =? 2) && negb (nth 0 shape 0 =? 1)) || ((rank =? 3) && negb (nth 1 shape 0 =? 1)) then XCBatchedSoftmax
  else NotLowered.

(** The softmax kernels (lib_nn, not in the repository): ASSUMED, for each row of the last dimension, to add up the entries
    of the table for the stored values (index: value + 128), to multiply each entry by 256 / sum, to round to nearest and to
    subtract 128, saturating.  None: a NaN is converted to an integer. *)
Fixpoint collect {A} (l : list (option A)) : option (list A) :=
  match l with
  | [] => Some []
  | Some x :: tl => match collect tl with Some r => Some (x :: r) | None => None end
  | None :: _ => None
  end.
Definition entry (table : list float32) (x : Z) : option R :=
  match nth_error table (Z.to_nat (x + 128)) with Some (Finite v) => Some v | _ => None end.
Definition rsum (l : list R) : R := fold_right Rplus 0%R l.
Definition saturate (v : Z) : Z := Z.max (-128) (Z.min 127 v).
Definition softmax_output (sum v : R) : Z := saturate (Int_part (256 * (v / sum) + / 2)%R - 128).
Definition softmax_row (table : list float32) (row : list Z) : option (list Z) :=
  match collect (map (entry table) row) with
  | None => None
  | Some vs =>
      match to_float (rsum vs) with
      | Infinite => None
      | Finite s => if Req_EM_T s 0 then None else Some (map (softmax_output s) vs)
      end
  end.
(** One row per row of the last dimension. *)
Definition softmax_kernel (table : list float32) (rows : list (list Z)) : option (list (list Z)) :=
  collect (map (softmax_row table) rows).
