(** What a reader of the serialised parameters relies on, and the number of bytes of a tensor. *)
From Coq Require Import List ZArith Bool Arith.
Import ListNotations.

(** Little-endian number in the [w] bytes that start at [pos]. *)
Fixpoint le_value (l : list Z) : Z := match l with [] => 0%Z | b :: l' => (b + 256 * le_value l')%Z end.

(** A flexbuffers string of length width [w] at position [loc]: its bytes, a zero byte, and its length just before. *)
Definition string_at (buf : list Z) (loc w : nat) (s : list Z) : Prop :=
  w <= loc /\
  firstn (length s) (skipn loc buf) = s /\ nth_error buf (loc + length s) = Some 0%Z /\
  le_value (firstn w (skipn (loc - w) buf)) = Z.of_nat (length s).

(** Bytes of a tensor in memory: TFLite stores one element of [bits] bits in whole bytes. *)
Definition bytes_of_element (bits : Z) : Z := ((bits + 7) / 8)%Z.
Definition tensor_bytes (bits : Z) (shape : list Z) : Z := (bytes_of_element bits * fold_right Z.mul 1 shape)%Z.
