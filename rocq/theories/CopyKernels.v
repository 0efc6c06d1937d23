(** Runtime contracts of the copy operators (slice, pad, broadcast, concat).
    Their kernels are in lib_nn / lib_tflite_micro, which are absent from the
    repository (empty submodules): these are the assumed meanings of the operator
    parameters.  Every read is bounds-checked: [None] is an out-of-bounds access
    or a negative count. *)
From Coq Require Import List ZArith Bool Arith.
Import ListNotations.
From Verif Require Import SlicePadModel LowerModel.
Local Open Scope Z_scope.

Section K.
Context {B : Type}.

Definition read (l : list B) (start len : Z) : option (list B) :=
  if (0 <=? start) && (0 <=? len) && (start + len <=? Z.of_nat (length l))
  then Some (firstn (Z.to_nat len) (skipn (Z.to_nat start) l)) else None.

(** Copies of [size] bytes at start, start + offset, start + 2 offset, ... *)
Fixpoint copy_strided (src : list B) (start offset size : Z) (copies : nat) : option (list B) :=
  match copies with
  | O => Some []
  | S k => match read src start size, copy_strided src (start + offset) offset size k with
           | Some a, Some b => Some (a ++ b)
           | _, _ => None
           end
  end.

Definition run_slice (p : slice_op) (src : list B) : option (list B) :=
  if s_copies p <? 0 then None
  else copy_strided src (s_start p) (s_offset p) (s_size p) (Z.to_nat (s_copies p)).

(** Pad: [start] fill bytes, then [copies] times ([size] source bytes, [pad] fill
    bytes), then [size] source bytes, then [end] fill bytes. *)
Definition fill_bytes (fill : B) (n : Z) : option (list B) :=
  if n <? 0 then None else Some (repeat fill (Z.to_nat n)).

Definition app_opt (a b : option (list B)) : option (list B) :=
  match a, b with Some x, Some y => Some (x ++ y) | _, _ => None end.

Fixpoint pad_rows (src : list B) (fill : B) (pos size pad : Z) (copies : nat) (stop : Z) : option (list B) :=
  match copies with
  | O => app_opt (read src pos size) (fill_bytes fill stop)
  | S k => app_opt (read src pos size) (app_opt (fill_bytes fill pad) (pad_rows src fill (pos + size) size pad k stop))
  end.

(** Broadcast: each block of [size] source bytes is written [copies] times. *)
Fixpoint repeat_opt (a : option (list B)) (n : nat) : option (list B) :=
  match n with O => Some [] | S k => app_opt a (repeat_opt a k) end.

Fixpoint bcast_blocks (src : list B) (pos size : Z) (copies : nat) (blocks : nat) : option (list B) :=
  match blocks with
  | O => Some []
  | S k => app_opt (repeat_opt (read src pos size) copies) (bcast_blocks src (pos + size) size copies k)
  end.

Definition run_broadcast (p : broadcast_op) (src : list B) : option (list B) :=
  if (b_copies p <? 0) || (b_broadcasts p <? 0) then None
  else bcast_blocks src 0 (b_size p) (Z.to_nat (b_copies p)) (Z.to_nat (b_broadcasts p)).

(** Concat: for each of [copies] rounds, [sizes[j]] bytes of every input in turn. *)
Fixpoint concat_round (ins : list (list B)) (sizes : list Z) (i : Z) : option (list B) :=
  match ins, sizes with
  | src :: ins', sz :: sizes' => app_opt (read src (i * sz) sz) (concat_round ins' sizes' i)
  | [], _ => Some []
  | _, [] => None
  end.

Fixpoint concat_rounds (ins : list (list B)) (sizes : list Z) (i : Z) (copies : nat) : option (list B) :=
  match copies with
  | O => Some []
  | S k => app_opt (concat_round ins sizes i) (concat_rounds ins sizes (i + 1) k)
  end.

Definition run_concat (op : concat_op) (ins : list (list B)) : option (list B) :=
  if (c_copies op <? 0)%Z || negb (c_num op =? Z.of_nat (length ins))%Z then None
  else concat_rounds ins (c_sizes op) 0 (Z.to_nat (c_copies op)).

End K.

(** The kernel fills with the 32-bit word [zero_point], at byte granularity; its
    meaning is fixed only when the four bytes of the word are equal. *)
Definition fill_byte (w : Z) : option Z :=
  let b := w mod 256 in
  if ((w / 2 ^ 8) mod 256 =? b) && ((w / 2 ^ 16) mod 256 =? b) && ((w / 2 ^ 24) mod 256 =? b)
  then Some b else None.

Definition run_pad (p : pad_op) (src : list Z) : option (list Z) :=
  match fill_byte (p_zero p) with
  | None => None
  | Some fill =>
      if p_copies p <? 0 then None
      else app_opt (fill_bytes fill (p_start p))
             (pad_rows src fill 0 (p_size p) (p_pad p) (Z.to_nat (p_copies p)) (p_end p))
  end.

Fixpoint all_some {X} (l : list (option X)) : option (list X) :=
  match l with
  | [] => Some []
  | Some x :: tl => match all_some tl with Some r => Some (x :: r) | None => None end
  | None :: _ => None
  end.

(** Mean/sum: output (b, e) reduces the inputs (b, 0, e), (b, 1, e), ... of the
    start x mean x end array; [f] is the arithmetic applied to them. *)
Definition run_mean {A R} (f : list A -> R) (op : mean_op) (src : list A) : option (list R) :=
  if (m_start op <? 0) || (m_mean op <? 0) || (m_end op <? 0) then None
  else
    let M := Z.to_nat (m_mean op) in
    let E := Z.to_nat (m_end op) in
    all_some (flat_map (fun b => map (fun e =>
      match all_some (map (fun m => nth_error src ((b * M + m) * E + e)%nat) (seq 0 M)) with
      | Some l => Some (f l) | None => None end) (seq 0 E)) (seq 0 (Z.to_nat (m_start op)))).
