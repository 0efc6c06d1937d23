(** N-dimensional tensors and their row-major layout: the vocabulary of the
    lowering properties (C12-C20 and others).  Nothing here comes from the code.

    A tensor with elements in [A] is a function from multi-indices; together with
    a shape (list of dimension sizes) it has a row-major layout. *)
From Coq Require Import List Arith Bool ZArith.
Import ListNotations.

Definition index := list nat.
Definition shape := list nat.
Definition tensor (A : Type) := index -> A.

(** Row-major layout: the last index varies fastest. *)
Fixpoint flatten {A} (s : shape) (t : tensor A) : list A :=
  match s with
  | [] => [t []]
  | d :: s' => flat_map (fun i => flatten s' (fun idx => t (i :: idx))) (seq 0 d)
  end.

Definition nelem (s : shape) : nat := fold_right Nat.mul 1 s.

(** A valid multi-index of a shape. *)
Definition in_shape (s : shape) (idx : index) : Prop := Forall2 (fun i d => i < d) idx s.

(** The bytes of a tensor whose elements are stored on [k] bytes each. *)
Definition bytes_of {B} (s : shape) (t : tensor (list B)) : list B := concat (flatten s t).
Definition elem_bytes {B} (k : nat) (t : tensor (list B)) : Prop := forall idx, length (t idx) = k.

Fixpoint map2 {A B C} (f : A -> B -> C) (l : list A) (m : list B) : list C :=
  match l, m with
  | a :: l', b :: m' => f a b :: map2 f l' m'
  | _, _ => []
  end.

(** tf.slice: element [idx] of the result is element [begin + idx]. *)
Definition slice_t {A} (begin : list nat) (t : tensor A) : tensor A :=
  fun idx => t (map2 Nat.add begin idx).

(** tf.pad: [before] elements of padding before, [t] itself, then padding. *)
Fixpoint inside (before : list nat) (s : shape) (idx : index) : bool :=
  match before, s, idx with
  | b :: before', d :: s', i :: idx' => (b <=? i) && (i <? b + d) && inside before' s' idx'
  | _, _, _ => true
  end.
Definition pad_t {A} (before : list nat) (s : shape) (z : A) (t : tensor A) : tensor A :=
  fun idx => if inside before s idx then t (map2 Nat.sub idx before) else z.

(** tf.broadcast_to: the input shape is aligned with the last dimensions of the
    output; size-1 dimensions (and missing ones) are repeated. *)
Definition broadcast_t {A} (s : shape) (t : tensor A) : tensor A :=
  fun idx => t (map2 (fun d i => if d =? 1 then 0 else i) s idx).
Definition broadcast_to {A} (s outs : shape) (t : tensor A) : tensor A :=
  fun idx => broadcast_t s t (skipn (length outs - length s) idx).

(** The slice [begin, begin + outs) is inside the shape [ins]. *)
Inductive slice_fits : list nat -> list nat -> list nat -> Prop :=
| fits_nil : slice_fits [] [] []
| fits_cons b o d begin outs ins : b + o <= d -> slice_fits begin outs ins -> slice_fits (b :: begin) (o :: outs) (d :: ins).

(** [outs] is [ins] with the paddings [before] and [after]. *)
Inductive pad_fits : list nat -> list nat -> list nat -> list nat -> Prop :=
| pfits_nil : pad_fits [] [] [] []
| pfits_cons b e o d before after outs ins : o = b + d + e -> pad_fits before after outs ins ->
    pad_fits (b :: before) (e :: after) (o :: outs) (d :: ins).


(** Little-endian encoding of an integer on [k] bytes (two's complement). *)
Fixpoint le_bytes (k : nat) (v : Z) : list Z :=
  match k with O => [] | S k' => (v mod 256)%Z :: le_bytes k' (v / 256)%Z end.
