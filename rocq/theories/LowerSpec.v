(** Meaning of concatenation, reduction and strided slicing of tensors. *)
From Coq Require Import List ZArith Bool Arith.
Import ListNotations.
From Verif Require Import NdSpec.

(** tf.concat along [axis] of parts of size d1, d2, ... along that axis. *)
Fixpoint concat_t {A} (z : A) (axis : nat) (parts : list (nat * tensor A)) : tensor A :=
  match parts with
  | [] => fun _ => z
  | (d, t) :: rest =>
      fun idx =>
        let i := nth axis idx 0 in
        if i <? d then t idx
        else concat_t z axis rest (firstn axis idx ++ (i - d) :: skipn (S axis) idx)
  end.

Definition sum_n (l : list nat) : nat := fold_right Nat.add 0 l.

(** Reduction: the axes whose flag is true are reduced.  [reduced_elems] lists the
    input elements that contribute to the output element [out]. *)
Fixpoint reduced_elems {A} (mask : list bool) (s : shape) (t : tensor A) (out : index) : list A :=
  match mask, s with
  | true :: mask', d :: s' => flat_map (fun i => reduced_elems mask' s' (fun r => t (i :: r)) out) (seq 0 d)
  | false :: mask', _ :: s' =>
      match out with
      | o :: out' => reduced_elems mask' s' (fun r => t (o :: r)) out'
      | [] => []
      end
  | _, _ => [t []]
  end.

Fixpoint kept_shape (mask : list bool) (s : shape) : shape :=
  match mask, s with
  | m :: mask', d :: s' => if m then kept_shape mask' s' else d :: kept_shape mask' s'
  | _, _ => []
  end.

Definition axis_mask (rank : nat) (axes : list nat) : list bool :=
  map (fun i => existsb (Nat.eqb i) axes) (seq 0 rank).

(** tf.strided_slice with unit strides, per axis: [start, stop) after numpy's
    treatment of negative and out of range values; a shrunk axis selects the single
    element [start]. *)
Definition clamp (d x : Z) : Z := Z.max 0 (Z.min d x).
Definition wrap (d x : Z) : Z := if (x <? 0)%Z then (x + d)%Z else x.
Definition np_start (masked : bool) (d b : Z) : Z := if masked then 0%Z else clamp d (wrap d b).
Definition np_stop (masked shrink : bool) (d b' e : Z) : Z :=
  if shrink then (b' + 1)%Z else if masked then d else clamp d (wrap d e).

Record np_axis := NpAxis { np_begin : nat; np_size : nat; np_keep : bool }.

Fixpoint np_axes (i : Z) (begin_mask end_mask shrink_mask : Z) (ins : shape) (begin stop : list Z) : list np_axis :=
  match ins, begin, stop with
  | d :: ins', b :: begin', e :: stop' =>
      let s := np_start (Z.testbit begin_mask i) (Z.of_nat d) b in
      let f := np_stop (Z.testbit end_mask i) (Z.testbit shrink_mask i) (Z.of_nat d) s e in
      NpAxis (Z.to_nat s) (Z.to_nat (f - s)) (negb (Z.testbit shrink_mask i))
        :: np_axes (i + 1) begin_mask end_mask shrink_mask ins' begin' stop'
  | _, _, _ => []
  end.

(** shape of the result and its elements *)
Definition np_shape (l : list np_axis) : shape := map np_size (filter np_keep l).
Fixpoint np_index (l : list np_axis) (idx : index) : index :=
  match l with
  | [] => []
  | a :: l' =>
      if np_keep a then match idx with i :: r => np_begin a + i :: np_index l' r | [] => [] end
      else np_begin a :: np_index l' idx
  end.
Definition strided_slice_t {A} (l : list np_axis) (t : tensor A) : tensor A := fun idx => t (np_index l idx).

(** In-range bounds: begin in [0, d], end in [begin, d] (negative values counted
    from the end); a shrunk axis has end = begin + 1. *)
Definition regular_axis (bm em sm : bool) (d b e : Z) : Prop :=
  let start := if bm then 0%Z else wrap d b in
  let stop := if em then d else wrap d e in
  (0 <= start <= stop)%Z /\ (stop <= d)%Z /\ (sm = true -> stop = start + 1)%Z.

Fixpoint regular_axes (i : Z) (begin_mask end_mask shrink_mask : Z) (ins : shape) (begin stop : list Z) : Prop :=
  match ins, begin, stop with
  | [], [], [] => True
  | d :: ins', b :: begin', e :: stop' =>
      regular_axis (Z.testbit begin_mask i) (Z.testbit end_mask i) (Z.testbit shrink_mask i) (Z.of_nat d) b e /\
      regular_axes (i + 1) begin_mask end_mask shrink_mask ins' begin' stop'
  | _, _, _ => False
  end.

