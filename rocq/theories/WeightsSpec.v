(** What the runtime does with a LoadWeights operator, and what a constant's bytes are. *)
From Coq Require Import List ZArith Bool Arith.
Import ListNotations.
From Verif Require Import WeightsModel CopyKernels.
Local Open Scope Z_scope.

(** The bytes of a constant with elements [es] (each a list of bytes), stored either
    as a splat or in full. *)
Definition stores (a : attr) (es : list (list Z)) : Prop :=
  if a_splat a then es = repeat (a_raw a) (a_num a) else concat es = a_raw a.

(** LoadWeights reads its results one after the other, starting at its address. *)
Fixpoint result_at (sizes : list Z) (k : nat) (pos : Z) : option (Z * Z) :=
  match sizes, k with
  | [], _ => None
  | s :: _, O => Some (pos, s)
  | s :: tl, S k' => result_at tl k' (pos + s)
  end.
Definition fetch (params : list Z) (w : load_weights) (k : nat) : option (list Z) :=
  match result_at (w_sizes w) k (w_address w) with
  | Some (pos, size) => read params pos size
  | None => None
  end.

Definition operand_at (ops : list (list operand)) (j i : nat) : option operand :=
  match nth_error ops j with Some l => nth_error l i | None => None end.

(** Little-endian 32-bit read of signed chars. *)
Definition le32 (l : list Z) : Z :=
  fold_right (fun b acc => b mod 256 + 256 * acc) 0 (firstn 4 l).

(** Layout of the file: operators in order, each starting where the range (padded to
    32 bytes in external memory) of the previous one ends. *)
Definition total_size (w : load_weights) : Z := fold_right Z.add 0%Z (w_sizes w).
Definition extent (ext : bool) (w : load_weights) : Z :=
  if ext then (((total_size w + 31) / 32) * 32)%Z else total_size w.
Fixpoint packed (ext : bool) (pos : Z) (l : list load_weights) (stop : Z) : Prop :=
  match l with
  | [] => pos = stop
  | w :: tl => w_address w = pos /\ packed ext (pos + extent ext w)%Z tl stop
  end.

(** Sizes of constants: (elements, bits per element). *)
Definition bytes (dims : nat -> Z * Z) (c : nat) : Z := ((fst (dims c) * snd (dims c)) / 8)%Z.
(** At least zero bytes, whole bits fit in an int. *)
Definition sane (dims : nat -> Z * Z) (c : nat) : Prop := (0 <= fst (dims c) * snd (dims c) < 2 ^ 31)%Z.

(** Sum of the sizes of a list of constants. *)
Definition sumb (dims : nat -> Z * Z) (l : list nat) : Z := fold_right (fun c a => (bytes dims c + a)%Z) 0%Z l.

