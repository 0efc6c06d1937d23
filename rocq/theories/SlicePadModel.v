(** Model of xformer/Utils/Util.cpp (checkSliceNoOp, mergeAxes),
    Transforms/ReplaceSlice.cpp, ReplacePad.cpp and ReplaceBroadcast.cpp.
    Simplifications: int32 arithmetic is unbounded ([C13_params_bounded] shows the
    values fit whenever the tensors do); the four parallel vectors of mergeAxes are
    one list of axes; dynamic shapes, which the patterns reject, are not modelled. *)
From Coq Require Import List ZArith Bool Arith.
Import ListNotations.
Local Open Scope Z_scope.

(** One position of the vectors begin, size, inShape, outShape. *)
Record axis := Axis { a_begin : Z; a_size : Z; a_in : Z; a_out : Z }.

(** Util.cpp:98-111 checkSliceNoOp. *)
Fixpoint same_dims (s1 s2 : list Z) : bool :=
  match s1, s2 with
  | [], [] => true
  | d1 :: t1, d2 :: t2 => (d1 =? d2) && same_dims t1 t2
  | _, _ => false
  end.

(** Util.cpp:119-131: axis i is folded into axis i-1. *)
Definition fold_axis (prev cur : axis) : axis :=
  Axis (a_begin prev * a_in cur) (a_size prev * a_in cur)
       (a_in prev * a_in cur) (a_out prev * a_in cur).

(** Util.cpp:117-132, the nested loops, from the last axis towards the first;
    [before] holds the axes before the current one, nearest first; the result is
    in the same (reversed) order. *)
Fixpoint merge_loop (cur : axis) (before : list axis) : list axis :=
  match before with
  | [] => [cur]
  | prev :: before' =>
      if a_in cur =? a_out cur
      then merge_loop (fold_axis prev cur) before'
      else cur :: merge_loop prev before'
  end.

(** Util.cpp:113-140 mergeAxes. [None]: access to inShape[0] of an empty vector. *)
Definition merge_axes (axes : list axis) : option (list axis) :=
  match rev axes with
  | [] => None
  | last :: before =>
      match rev (merge_loop last before) with
      | [] => None
      | first :: rest =>
          Some (if (a_in first =? 1) && (a_out first =? 1) then rest else first :: rest)
      end
  end.

(** vectors to axes *)
Fixpoint zip_axes (begin size ins outs : list Z) : list axis :=
  match begin, size, ins, outs with
  | b :: begin', s :: size', i :: ins', o :: outs' => Axis b s i o :: zip_axes begin' size' ins' outs'
  | _, _, _, _ => []
  end.

(** The xc.slice operator (XCoreOps.td:81-97). *)
Record slice_op := SliceOp { s_start : Z; s_offset : Z; s_size : Z; s_copies : Z; s_vpu : bool }.

(** Outcome of a rewrite pattern: not applied, operand forwarded, new operator,
    or undefined behaviour in the compiler. *)
Inductive outcome (A : Type) := NotApplied | Forward | Lowered (a : A) | Undefined.
Arguments NotApplied {A}. Arguments Forward {A}. Arguments Lowered {A}. Arguments Undefined {A}.

Definition mult4 (x : Z) : bool := x mod 4 =? 0.

(** ReplaceSlice.cpp:37-106. [is_const]: the input is a constant or tfl.shape. *)
Definition replace_slice (is_const : bool) (dtype : Z) (ins outs begin size : list Z) : outcome slice_op :=
  if same_dims ins outs then Forward
  else if is_const then NotApplied
  else match merge_axes (zip_axes begin size ins outs) with
  | None | Some [] => Undefined
  | Some [a] =>
      let start := a_begin a * dtype in
      let offset := a_in a * dtype in
      let sz := a_out a * dtype in
      Lowered (SliceOp start offset sz 1 (mult4 start && mult4 sz && mult4 offset))
  | Some [a0; a1] =>
      let in1 := a_in a1 * dtype in
      let start := a_begin a0 * in1 + a_begin a1 * dtype in
      let sz := a_out a1 * dtype in
      Lowered (SliceOp start in1 sz (a_out a0) (mult4 start && mult4 sz && mult4 in1))
  | Some _ => NotApplied
  end.

(** The xc.pad operator (XCoreOps.td:126-146). *)
Record pad_op := PadOp { p_start : Z; p_pad : Z; p_size : Z; p_copies : Z; p_zero : Z; p_end : Z; p_vpu : bool }.

(** BROADCAST_8_TO_32 of lib_nn (vpu_memset_256.h): the low byte in each of the
    four lanes, as a signed 32-bit word. *)
Definition broadcast_8_to_32 (v : Z) : Z :=
  let b := v mod 256 in
  let w := b + b * 2 ^ 8 + b * 2 ^ 16 + b * 2 ^ 24 in
  if w >=? 2 ^ 31 then w - 2 ^ 32 else w.

(** ReplacePad.cpp:38-121. [zp]: the zero point of a quantised element type. *)
Definition replace_pad (is_const : bool) (dtype : Z) (zp : option Z) (ins outs before after : list Z) : outcome pad_op :=
  if same_dims ins outs then Forward
  else if is_const then NotApplied
  else
    let zero := match zp with Some z => broadcast_8_to_32 z | None => 0 end in
    match merge_axes (zip_axes before after ins outs) with
    | None | Some [] => Undefined
    | Some [a] =>
        let start := a_begin a * dtype in
        let size := a_in a * dtype in
        let stop := a_size a * dtype in
        Lowered (PadOp start 0 size 0 zero stop (mult4 start && mult4 0 && mult4 size && mult4 stop))
    | Some [a0; a1] =>
        let out1 := a_out a1 * dtype in
        let size := a_in a1 * dtype in
        if (size =? 3) && (out1 =? 4) then NotApplied
        else
          let start := a_begin a0 * out1 + a_begin a1 * dtype in
          let pad := a_begin a1 * dtype + a_size a1 * dtype in
          let stop := a_size a0 * out1 + a_size a1 * dtype in
          Lowered (PadOp start pad size (a_in a0 - 1) zero stop
                     (mult4 start && mult4 pad && mult4 size && mult4 stop))
    | Some _ => NotApplied
    end.

(** The xc.broadcast operator (XCoreOps.td:109-124). *)
Record broadcast_op := BroadcastOp { b_size : Z; b_copies : Z; b_broadcasts : Z; b_vpu : bool }.

(** ReplaceBroadcast.cpp:63-67: leading ones. *)
Definition lead_ones (ins outs : list Z) : list Z :=
  repeat 1 (length outs - length ins) ++ ins.

(** ReplaceBroadcast.cpp:69-72. *)
Fixpoint compatible (ins outs : list Z) : bool :=
  match ins, outs with
  | i :: ins', o :: outs' => ((i =? o) || (i =? 1)) && compatible ins' outs'
  | _, _ => true
  end.

(** ReplaceBroadcast.cpp:75-95: state (canBroadcast, size, num_copies, num_broadcasts). *)
Fixpoint broadcast_loop (can : bool) (size copies bcasts : Z) (ins outs : list Z) : option (Z * Z * Z) :=
  match ins, outs with
  | i :: ins', o :: outs' =>
      if can then
        if negb (i =? o) then broadcast_loop true size (copies * o) bcasts ins' outs'
        else if negb (copies =? 1) && negb (o =? 1)
             then broadcast_loop false (size * i) copies bcasts ins' outs'
             else broadcast_loop true size copies (bcasts * o) ins' outs'
      else if negb (i =? o) then None
      else broadcast_loop false (size * i) copies bcasts ins' outs'
  | _, _ => Some (size, copies, bcasts)
  end.

(** ReplaceBroadcast.cpp:37-107 (an input of higher rank than the output is
    rejected by the TFL verifier). *)
Definition replace_broadcast (is_const : bool) (dtype : Z) (ins outs : list Z) : outcome broadcast_op :=
  if same_dims ins outs then Forward
  else if is_const then NotApplied
  else
    let ins := lead_ones ins outs in
    if negb (compatible ins outs) then NotApplied
    else match broadcast_loop true dtype 1 1 ins outs with
    | None => NotApplied
    | Some (size, copies, bcasts) => Lowered (BroadcastOp size copies bcasts (mult4 size))
    end.
