(** Model of Transforms/ReplaceConcat.cpp, ReplaceMean.cpp / ReplaceSum.cpp and
    ReplaceStridedSlice.cpp.
    Simplifications: int arithmetic is unbounded; inputs of a concat with dynamic
    shape or fused activation, which both concat patterns reject, are not modelled. *)
From Coq Require Import List ZArith Bool Arith.
Import ListNotations.
From Verif Require Import SlicePadModel.
Local Open Scope Z_scope.

Definition prodz (l : list Z) : Z := fold_left Z.mul l 1.

(** XCoreOps.h:33. *)
Definition CONCAT_OP_MAX_INPUTS : nat := 13.

(** The xc.concat operator (XCoreOps.td:148-163); the unused tail of the sizes
    array, uninitialised in the code, is left out. *)
Record concat_op := ConcatOp { c_copies : Z; c_sizes : list Z; c_num : Z; c_vpu : bool }.

(** ReplaceConcat.cpp:106-158 ReplaceConcatPattern: [shapes] are the input shapes,
    [outs] the output shape. [Undefined]: axis out of range. *)
Definition replace_concat (dtype : Z) (axis : Z) (shapes : list (list Z)) (outs : list Z) : outcome concat_op :=
  if Nat.ltb CONCAT_OP_MAX_INPUTS (length shapes) then NotApplied
  else
    let rank := Z.of_nat (length outs) in
    let axis := if axis <? 0 then rank + axis else axis in
    if (axis <? 0) || (rank <=? axis) then Undefined
    else
      let a := Z.to_nat axis in
      let copies := prodz (firstn a outs) in
      let sizes := map (fun s => fold_left Z.mul (skipn a s) dtype) shapes in
      Lowered (ConcatOp copies sizes (Z.of_nat (length shapes)) (forallb mult4 sizes)).

(** A value: a tensor with its type, or the result of a concatenation. *)
Inductive cvalue (V : Type) :=
| CInput (ty : list Z) (v : V)
| CConcat (ty : list Z) (args : list (cvalue V)).
Arguments CInput {V}. Arguments CConcat {V}.

Definition cvalue_type {V} (c : cvalue V) : list Z :=
  match c with CInput ty _ => ty | CConcat ty _ => ty end.

Fixpoint set_nth (n : nat) (x : Z) (l : list Z) : list Z :=
  match n, l with
  | _, [] => []
  | O, _ :: tl => x :: tl
  | S n', y :: tl => y :: set_nth n' x tl
  end.

Fixpoint sum_opt (l : list (option Z)) : option Z :=
  match l with
  | [] => Some 0
  | Some x :: tl => match sum_opt tl with Some y => Some (x + y) | None => None end
  | None :: _ => None
  end.

(** ReplaceConcat.cpp:48-104 SplitConcatPattern on the operands of one
    concatenation with result type [outs]; only axis = -1 is normalised.
    The result is the new operand list. *)
Definition split_concat_step {V} (axis : Z) (outs : list Z) (args : list (cvalue V)) : outcome (list (cvalue V)) :=
  if Nat.leb (length args) CONCAT_OP_MAX_INPUTS then NotApplied
  else
    let axis := if axis =? -1 then Z.of_nat (length outs) - 1 else axis in
    if axis <? 0 then Undefined
    else
      let a := Z.to_nat axis in
      let first := firstn CONCAT_OP_MAX_INPUTS args in
      match sum_opt (map (fun v => nth_error (cvalue_type v) a) first) with
      | None => Undefined
      | Some axisShape =>
          Lowered (CConcat (set_nth a axisShape outs) first :: skipn CONCAT_OP_MAX_INPUTS args)
      end.

(** The greedy driver applies the pattern to the remaining concatenation until
    it no longer matches ([fuel] bounds the number of applications; the first
    concatenation has 13 operands and is left alone). *)
Fixpoint split_concat {V} (fuel : nat) (axis : Z) (outs : list Z) (args : list (cvalue V)) : outcome (list (cvalue V)) :=
  match fuel with
  | O => NotApplied
  | S fuel' =>
      match split_concat_step axis outs args with
      | NotApplied => Lowered args
      | Lowered args' => split_concat fuel' axis outs args'
      | _ => Undefined
      end
  end.

(** The xc.mean operator (XCoreOps.td:184-201), dimensions only. *)
Record mean_op := MeanOp { m_start : Z; m_mean : Z; m_end : Z }.

Definition zmin_list (l : list Z) : option Z :=
  match l with [] => None | x :: tl => Some (fold_left Z.min tl x) end.
Definition zmax_list (l : list Z) : option Z :=
  match l with [] => None | x :: tl => Some (fold_left Z.max tl x) end.

(** product of shape[i] for lo <= i < hi; [None]: out of bounds access *)
Fixpoint prod_range (s : list Z) (lo : Z) (n : nat) : option Z :=
  match n with
  | O => Some 1
  | S n' =>
      if lo <? 0 then None
      else match nth_error s (Z.to_nat lo), prod_range s (lo + 1) n' with
           | Some d, Some p => Some (d * p)
           | _, _ => None
           end
  end.

(** ReplaceMean.cpp:37-99, ReplaceSum.cpp:37-98. [is_i8]: both element types are
    signed 8-bit quantised. *)
Definition replace_mean (is_i8 : bool) (s : list Z) (axis : list Z) : outcome mean_op :=
  match zmin_list axis, zmax_list axis with
  | Some mn, Some mx =>
      if mx - mn >? Z.of_nat (length axis) - 1 then NotApplied
      else if negb is_i8 then NotApplied
      else
        let rank := Z.of_nat (length s) in
        match prod_range s 0 (Z.to_nat mn), prod_range s (mx + 1) (Z.to_nat (rank - (mx + 1))),
              prod_range s mn (Z.to_nat (mx - mn + 1)) with
        | Some b, Some e, Some m => Lowered (MeanOp b m e)
        | _, _, _ => Undefined
        end
  | _, _ => Undefined
  end.

(** ReplaceStridedSlice.cpp:75-99: begin, size, and whether the axis is kept. *)
Fixpoint strided_axes (i : Z) (begin_mask end_mask shrink_mask : Z) (ins begin stop : list Z)
  : option (list (Z * Z * bool)) :=
  match ins with
  | [] => Some []
  | d :: ins' =>
      match begin, stop with
      | b :: begin', e :: stop' =>
          let nb := if Z.testbit begin_mask i then 0 else if b <? 0 then d + b else b in
          let ns := if Z.testbit end_mask i then d - nb
                    else (if e <? 0 then d + e else e) - nb in
          match strided_axes (i + 1) begin_mask end_mask shrink_mask ins' begin' stop' with
          | Some l => Some ((nb, ns, negb (Z.testbit shrink_mask i)) :: l)
          | None => None
          end
      | _, _ => None  (* begin or end shorter than the rank: out of bounds *)
      end
  end.

(** The tfl.slice (begin, size) and, if the shrink mask is not zero, the shape of
    the tfl.reshape that follow (ReplaceStridedSlice.cpp:101-142). *)
Record strided_slice_result := StridedSliceResult { ss_begin : list Z; ss_size : list Z; ss_reshape : option (list Z) }.

(** ReplaceStridedSlice.cpp:25-46 canReplaceWithSlice (static input) and
    :48-143 the pattern. *)
Definition replace_strided_slice (ellipsis_mask new_axis_mask begin_mask end_mask shrink_mask : Z)
  (ins begin stop strides : list Z) : outcome strided_slice_result :=
  if negb (forallb (fun s => s =? 1) strides) then NotApplied
  else if negb (ellipsis_mask =? 0) || negb (new_axis_mask =? 0) then NotApplied
  else match strided_axes 0 begin_mask end_mask shrink_mask ins begin stop with
  | None => Undefined
  | Some l =>
      Lowered (StridedSliceResult (map (fun p => fst (fst p)) l) (map (fun p => snd (fst p)) l)
        (if shrink_mask =? 0 then None
         else Some (map (fun p => snd (fst p)) (filter (fun p => snd p) l))))
  end.
