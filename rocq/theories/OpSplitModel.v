(** Model of xformer/Transforms/OpSplit.cpp. *)
From Coq Require Import List ZArith Bool Arith.
Import ListNotations.
From Verif Require Import SlicePadModel.
Local Open Scope Z_scope.

(** OpSplit.cpp 221-250: begin and size (height dimension) of the slices.  [numSplits]
    zero divides by zero in C ([None]). *)
Fixpoint split_loop (n : nat) (i sliceHeight remainder prevEnd : Z) : list (Z * Z) :=
  match n with
  | O => []
  | S n' =>
      let h := if i <? remainder then sliceHeight + 1 else sliceHeight in
      (prevEnd, h) :: split_loop n' (i + 1) sliceHeight remainder (prevEnd + h)
  end.
Definition op_split (outputHeight : Z) (numSplits : nat) : option (list (Z * Z)) :=
  match numSplits with
  | O => None
  | _ => Some (split_loop numSplits 0 (Z.quot outputHeight (Z.of_nat numSplits))
                 (Z.rem outputHeight (Z.of_nat numSplits)) 0)
  end.

(** Slices of a rank-4 tensor: begin, size attributes and result shape. *)
Record slice4 := Slice4 { sl_begin : list Z; sl_size : list Z; sl_out : list Z }.

(** OpSplit.cpp 34-47, createSliceOp: the result type has 1 in dimension 0. *)
Definition create_slice (begin size : list Z) : slice4 :=
  Slice4 begin size (1 :: tl size).

(** OpSplit.cpp 103-113: every slice of the defining operator has the input's
    dimensions 0, 2 and 3.  (The rank test "!inType.getRank() == 4" is always
    false, so it never rejects anything.) *)
Definition height_only (ins : list Z) (s : slice4) : bool :=
  (nth 0 ins 0 =? nth 0 (sl_out s) 0) && (nth 2 ins 0 =? nth 2 (sl_out s) 0) && (nth 3 ins 0 =? nth 3 (sl_out s) 0).

(** OpSplit.cpp 134-154: first other slice whose height range contains this one. *)
Fixpoint find_candidate (b n : Z) (l : list slice4) : option slice4 :=
  match l with
  | [] => None
  | c :: tl =>
      let cb := nth 1 (sl_begin c) 0 in
      let cn := nth 1 (sl_size c) 0 in
      if (b >=? cb) && (b + n <=? cb + cn) then Some c else find_candidate b n tl
  end.

(** OpSplit.cpp 91-181, combineSliceWithExisting.  [others]: the other slices of the
    same tensor (shape [ins]), in use order. *)
Inductive combined := UseExisting (c : slice4) | SliceOfExisting (c new : slice4).
Definition combine_slice (ins : list Z) (s : slice4) (others : list slice4) : option combined :=
  if forallb (height_only ins) (s :: others) then
    let b := nth 1 (sl_begin s) 0 in
    let n := nth 1 (sl_size s) 0 in
    match find_candidate b n others with
    | None => None
    | Some c =>
        let cb := nth 1 (sl_begin c) 0 in
        if (b =? cb) && (n =? nth 1 (sl_size c) 0) then Some (UseExisting c)
        else Some (SliceOfExisting c (create_slice
          [nth 0 (sl_begin c) 0; b - cb; nth 2 (sl_begin c) 0; nth 3 (sl_begin c) 0]
          [nth 0 (sl_size s) 0; nth 1 (sl_size s) 0; nth 2 (sl_size s) 0; nth 3 (sl_size s) 0]))
    end
  else None.

(** tensorflow::GetWindowedOutputSizeVerbose (tensorflow, not in the repository),
    dilation 1: output size, padding before and after. C division truncates. *)
Definition windowed (same : bool) (n f s : Z) : Z * Z * Z :=
  if same then
    let out := Z.quot (n + s - 1) s in
    let needed := Z.max 0 ((out - 1) * s + f - n) in
    (out, Z.quot needed 2, needed - Z.quot needed 2)
  else (Z.quot (n - f + s) s, 0, 0).

(** The operators that replace a slice of a convolution: slice of the input, pad
    (SAME only), VALID convolution with the given result size. *)
Record raised := Raised {
  r_begin : Z; r_size : Z;              (* height range of the new slice *)
  r_pad : option (Z * Z * Z * Z);       (* top, bottom, left, right *)
  r_padded_h : Z; r_padded_w : Z;       (* size of the convolution's input *)
  r_out_h : Z; r_out_w : Z              (* declared result size *)
}.

(** OpSplit.cpp 506-692, RaiseSlicePattern, for the slice [begin, begin+size) of the
    height.  The dilation factors are taken to be 1 (lines 569-570) whatever the
    operator's are; [sliceOutputHeight] (the type) equals the size attribute. *)
Definition raise_conv (same : bool) (inH inW fH fW sH sW outH begin size : Z) : raised :=
  let stop := begin + size in
  let '(_, padTop, padBottom) := windowed same inH fH sH in
  let '(_, padLeft, padRight) := windowed same inW fW sW in
  let '(newEnd, lost, pt, pb) :=
    if same then
      if begin =? 0 then (stop * sH - sH + fH - padTop, 0, padTop, 0)
      else if stop =? outH then (stop * sH - sH + fH - padTop - padBottom, 0, 0, padBottom)
      else (stop * sH - sH + fH - padTop, 0, 0, 0)
    else
      if stop =? outH then (inH, Z.rem (inH - fH + sH) sH, padTop, padBottom)
      else (stop * sH - sH + fH, 0, padTop, padBottom) in
  let newH := size * sH - sH + fH - pt - pb + lost in
  let ph := newH + pt + pb in
  let pw := inW + padLeft + padRight in
  Raised (newEnd - newH) newH (if same then Some (pt, pb, padLeft, padRight) else None)
    ph pw (Z.quot (ph + sH - fH) sH) (Z.quot (pw + sW - fW) sW).

(** OpSplit.cpp 694-829, RaiseSlicePadPattern: new slice of the pad's input, new
    paddings (dimensions 1..3), declared result.  [pc] is the channel padding, kept;
    the vertical and horizontal paddings are recomputed from the shapes. *)
Record raised_pad := RaisedPad {
  rp_begin : Z; rp_size : Z; rp_top : Z; rp_bottom : Z; rp_left : Z; rp_right : Z; rp_chan : Z * Z;
  rp_out_h : Z; rp_out_w : Z }.
Definition raise_pad (inH inW outH outW : Z) (pc : Z * Z) (begin size : Z) : raised_pad :=
  let stop := begin + size in
  let padVertical := outH - inH in
  let pad := outW - inW in
  let padTop := Z.quot padVertical 2 in
  let padBottom := padVertical - padTop in
  let padLeft := Z.quot pad 2 in
  let padRight := pad - padLeft in
  let '(newEnd, pt, pb) :=
    if begin =? 0 then (stop - padTop, padTop, 0)
    else if stop =? outH then (stop - padTop - padBottom, 0, padBottom)
    else (stop - padTop, 0, 0) in
  let newH := size - pt - pb in
  RaisedPad (newEnd - newH) newH pt pb padLeft padRight pc (newH + pt + pb) (inW + padLeft + padRight).

(** Utils/Util.cpp 54-72, hasSameShape.  A dynamic dimension (negative here) counts
    as 1. *)
Definition static_dim (d : Z) : Z := if d <? 0 then 1 else d.
Fixpoint same_dims (a b : list Z) : bool :=
  match a, b with
  | [], [] => true
  | x :: a', y :: b' => (static_dim x =? static_dim y) && same_dims a' b'
  | _, _ => false
  end.

(** OpSplit.cpp 406-504, RaiseSliceBinaryPattern, lines 447-455: an operand with the
    shape of the result is sliced like the result; any other operand goes through a
    FakeSlice (lines 456-487), which changes nothing and is dropped once it reaches a
    constant (lines 265-296, 298-321): the operand is used as it is. *)
Inductive operand_use := Sliced | Unsliced.
Definition raise_operand (arg out : list Z) : operand_use :=
  if same_dims arg out then Sliced else Unsliced.

(** OpSplit.cpp 323-404, RaiseFakeSliceToSliceMeanPattern: applies only when all
    recorded sizes are equal; one mean per recorded slice, then the mean of these. *)
Definition raise_mean (begins : list Z) (sizes : list Z) : option (list (Z * Z)) :=
  match sizes with
  | [] => None
  | s0 :: tl => if forallb (fun s => s =? s0) tl then Some (combine begins sizes) else None
  end.
