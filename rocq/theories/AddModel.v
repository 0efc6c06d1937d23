(** Model of Transforms/ReplaceAddSub.cpp.
    Simplification: arithmetic on double is exact (rational numbers). *)
From Coq Require Import List ZArith Bool QArith Qround Qminmax.
Import ListNotations.
From Verif Require Import LutModel.
Local Open Scope Z_scope.

(** floor(log2(q)) of a positive number. *)
Definition floor_log2 (q : Q) : Z :=
  let k := Z.log2 (Qnum q) - Z.log2 (Zpos (Qden q)) in
  if Qle_bool (Qpower 2 k) q then k else k - 1.

(** A quantised type: scale and zero point. *)
Record qtype := QType { q_scale : Q; q_zero : Z }.
(** The xc.add operator (XCoreOps.td 167-182). *)
Record add_op := AddOp { a_m1 : Z; a_m2 : Z; a_bias : Z; a_shift : Z }.

(** An int from a double: undefined outside the range. *)
Definition as_int (v : Z) : option Z := to_int32 v.

(** ReplaceAddSub.cpp 31-76; None: a conversion to int is undefined. *)
Definition replace_add_sub (lhs rhs out : qtype) (negateForSub : bool) : option add_op :=
  let lhsRatio := (q_scale lhs / q_scale out)%Q in
  let rhsRatio := (q_scale rhs / q_scale out)%Q in
  let maxR := Qmax lhsRatio rhsRatio in
  let shift := floor_log2 (Qpower 2 14 / maxR) in
  let rhsRatio := if negateForSub then (- rhsRatio)%Q else rhsRatio in
  let m1 := c_round (lhsRatio * Qpower 2 shift) in
  let m2 := c_round (rhsRatio * Qpower 2 shift) in
  let bias := c_round ((inject_Z (q_zero out) - inject_Z (q_zero lhs) * lhsRatio - inject_Z (q_zero rhs) * rhsRatio)
                       * Qpower 2 shift) in
  match as_int m1, as_int m2, as_int bias with
  | Some m1, Some m2, Some bias => Some (AddOp m1 m2 bias shift)
  | _, _, _ => None
  end.

(** The add kernel (lib_nn, not in the repository): ASSUMED to accumulate on 32 bits
    (saturation and overflow are not modelled: see the bounds proved), to shift right with
    rounding and to saturate to 8 bits. *)
Definition add_acc (op : add_op) (x1 x2 : Z) : Z := a_m1 op * x1 + a_m2 op * x2 + a_bias op.
Definition add_kernel (op : add_op) (x1 x2 : Z) : Z :=
  let r := (add_acc op x1 x2 + 2 ^ (a_shift op - 1)) / 2 ^ a_shift op in
  Z.min 127 (Z.max (-128) r).
