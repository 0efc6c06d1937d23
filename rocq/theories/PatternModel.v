(** Model of shape-level patterns: Transforms/TFLPatterns.td, XCPatterns.td,
    ApplyTFLPatterns.cpp (HoistQuantizeAboveConcat), Utils/Util.cpp, IR/XCoreOps.cpp. *)
From Coq Require Import List ZArith Bool Arith.
Import ListNotations.
From Verif Require Import LutModel.
Local Open Scope Z_scope.

(** The 8 values of a padding attribute of shape [4; 2], row-major. *)
Definition pv (attr : list Z) (d e : nat) : Z := nth (2 * d + e) attr 0.
(** Util.cpp 74-81. *)
Definition has_only_channel_padding (attr : list Z) : bool :=
  if negb (Nat.eqb (length attr) 8) then false
  else (pv attr 0 0 =? 0) && (pv attr 0 1 =? 0) && (pv attr 1 0 =? 0) && (pv attr 1 1 =? 0) && (pv attr 2 0 =? 0) && (pv attr 2 1 =? 0).
(** Util.cpp 83-89. *)
Definition has_only_spatial_padding (attr : list Z) : bool :=
  if negb (Nat.eqb (length attr) 8) then false
  else (pv attr 0 0 =? 0) && (pv attr 0 1 =? 0) && (pv attr 3 0 =? 0) && (pv attr 3 1 =? 0).

(** TFLPatterns.td 108-153 (three patterns that differ in the kind of constant operator):
    Pad(Pad(x, inner), outer); the new inner and outer paddings.  The type of the new
    intermediate tensor is PadChannelOutputType (Utils.td 109-115). *)
Definition swap_pads (inner outer : list Z) : option (list Z * list Z) :=
  if has_only_spatial_padding inner && has_only_channel_padding outer then Some (outer, inner) else None.
Definition pad_channel_output_type (ins out : list nat) : list nat :=
  [nth 0 ins 0; nth 1 ins 0; nth 2 ins 0; nth 3 out 0]%nat.

(** XCPatterns.td 155-163: the value (one word) of the Pad3To4 operator, when the pattern
    applies; 8-bit quantised input with zero point [zero]. *)
Definition pad_to_pad3to4 (attr : list Z) (ins out : list nat) (zero : Z) : option Z :=
  if has_only_channel_padding attr && Nat.eqb (nth 3 ins 0%nat) 3 && Nat.eqb (nth 3 out 0%nat) 4
  then Some (get_pad_value (Some zero) 8) else None.
(** XCPatterns.td 168-191: concatenation with a constant whose elements are all 0.
    [second]: the values of the second input when it is a constant.  The axis is not
    looked at. *)
Definition concat_to_pad3to4 (inputs : nat) (second : option (list Z)) (front out : list nat) : option Z :=
  match second with
  | Some l => if Nat.eqb inputs 2 && forallb (Z.eqb 0) l && Nat.eqb (nth 3 front 0%nat) 3 && Nat.eqb (nth 3 out 0%nat) 4
              then Some 0 else None
  | None => None
  end.
(** The Pad3To4 kernel (lib_nn, not in the repository): ASSUMED to copy three bytes of every
    pixel and to append the low byte of the pad value. *)
Fixpoint pad_3_to_4 (word : Z) (pixels : nat) (bytes : list Z) : list Z :=
  match pixels with
  | O => []
  | S n => firstn 3 bytes ++ [word mod 256] ++ pad_3_to_4 word n (skipn 3 bytes)
  end.

(** Util.cpp 54-72, hasSameShape; dimensions: [None] is dynamic. *)
Definition dim (d : option nat) : nat := match d with Some n => n | None => 1%nat end.
Definition has_same_shape (s1 s2 : list (option nat)) : bool :=
  Nat.eqb (length s1) (length s2) && forallb (fun p => Nat.eqb (dim (fst p)) (dim (snd p))) (combine s1 s2).

(** TFLPatterns.td 83-106: which of the operands of Add, Sub, Mul get a BroadcastTo the
    shape of the result (static shapes). *)
Definition insert_broadcasts (a b out : list nat) : bool * bool :=
  (negb (has_same_shape (map Some a) (map Some out)), negb (has_same_shape (map Some b) (map Some out))).

(** IR/XCoreOps.cpp 29-35: a Pad whose input and output shapes agree is removed. *)
Definition pad_folds (ins outs : list nat) : bool :=
  Nat.eqb (length ins) (length outs) && forallb (fun p => Nat.eqb (fst p) (snd p)) (combine ins outs).
(** Util.cpp 99-112, checkSliceNoOp (used by the slice lowering and the splitting pass). *)
Definition slice_no_op (ins outs : list nat) : bool :=
  if negb (Nat.eqb (length ins) (length outs)) then false
  else forallb (fun p => Nat.eqb (fst p) (snd p)) (combine ins outs).

(** ApplyTFLPatterns.cpp 107-155: Quantize(Concat(x1, ..., xn)) becomes
    Concat(Quantize(x1), ..., Quantize(xn)); parts are given by their size along the axis
    and their contents. *)
Definition hoist_quantize {A B} (q : A -> B) (parts : list (nat * (list nat -> A))) : list (nat * (list nat -> B)) :=
  map (fun p => (fst p, fun idx => q (snd p idx))) parts.

(** TFLPatterns.td 16-23: the constraints on Quantize(Reshape(x)): the width of the
    element type is 8 and 16. *)
Definition quantize_reshape_applies (bits : Z) : bool := (bits =? 8) && (bits =? 16).
