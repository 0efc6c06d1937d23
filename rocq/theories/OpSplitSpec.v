(** Specification vocabulary for splitting an operator by height (C24-C28, C45). *)
From Coq Require Import List ZArith Bool Arith QArith.
Import ListNotations.
From Verif Require Import NdSpec LowerSpec ConvSpec OpSplitModel BroadcastProofs.

(** Bands (begin, size) that follow each other from [pos] to [stop]. *)
Fixpoint consecutive (pos : nat) (bands : list (nat * nat)) (stop : nat) : Prop :=
  match bands with
  | [] => pos = stop
  | (b, n) :: tl => b = pos /\ consecutive (pos + n) tl stop
  end.

(** The slice operator [s] selects [begin, begin + size) of a tensor of shape [ins]. *)
Definition slices (s : slice4) (begin size ins : list nat) : Prop :=
  sl_begin s = zn begin /\ sl_size s = zn size /\ sl_out s = zn size /\ slice_fits begin size ins.

(** The tensor computed by a combined slice. *)
Definition slice_of_slice {A} (inner outer : list nat) (t : tensor A) : tensor A :=
  slice_t outer (slice_t inner t).

(** Output size of a convolution in one dimension. *)
Definition conv_out (same : bool) (n f s : Z) : Z := if same then same_out n s else valid_out n f 1 s.

(** Condition under which a band of output rows is supported: a band other than the
    first needs no padding above, and a band other than the last (or the whole
    output) needs no padding below. *)
Definition band_supported (same : bool) (inH fH sH outH begin size : Z) : Prop :=
  same = true ->
  ((begin = 0 \/ same_before inH fH 1 sH <= begin * sH) /\
   ((begin <> 0 /\ begin + size = outH) \/ (begin + size - 1) * sH + fH - same_before inH fH 1 sH <= inH))%Z.

(** What an operand of the raised operator reads, and with which shape. *)
Definition operand_value {A} (u : operand_use) (begin size s : list nat) (t : tensor A) : list nat * tensor A :=
  match u with
  | Sliced => (size, slice_t begin t)
  | Unsliced => (s, t)
  end.

(** Elementwise binary operator with broadcasting. *)
Definition binary {A B C} (f : A -> B -> C) (outs : shape) (l : list nat * tensor A) (r : list nat * tensor B) : tensor C :=
  fun idx => f (broadcast_to (fst l) outs (snd l) idx) (broadcast_to (fst r) outs (snd r) idx).

(** Mean of the row sums [r] over rows [b, b + n) of width [w] (exact arithmetic). *)
Definition sum_rows (r : nat -> Q) (b n : nat) : Q := fold_right Qplus 0%Q (map r (seq b n)).
Definition mean_rows (r : nat -> Q) (w : Q) (b n : nat) : Q := (sum_rows r b n / (inject_Z (Z.of_nat n) * w))%Q.
Definition mean_of (l : list Q) : Q := (fold_right Qplus 0 l / inject_Z (Z.of_nat (length l)))%Q.

(** The operators that replace a slice of a convolution, executed: slice of the input,
    padding with [z] (the input's zero point) when there is a pad operator, convolution without padding. *)
Definition raised_conv {P Q} (G : list (list P) -> Q) (z : P) (fh fw : nat) (sH sW inW : Z) (r : raised) (img : image P) : image Q :=
  let sl := slice_image (r_begin r) 0 img in
  let inp := match r_pad r with
             | Some (pt, _, pl, _) => pad_image (r_size r) inW z pt pl sl
             | None => sl end in
  conv_at G fh fw sH sW 1 1 (r_padded_h r) (r_padded_w r) z 0 0 inp.

(** The original convolution (dilation 1) with SAME or VALID padding. *)
Definition original_conv {P Q} (G : list (list P) -> Q) (z : P) (same : bool) (fh fw : nat) (sH sW inH inW : Z) (img : image P) : image Q :=
  conv_at G fh fw sH sW 1 1 inH inW z
    (if same then same_before inH (Z.of_nat fh) 1 sH else 0)
    (if same then same_before inW (Z.of_nat fw) 1 sW else 0) img.

(** Height dimension of an operand whose shape is aligned with the last dimensions of
    a rank-4 result. *)
Definition height_dim (s : list nat) : nat := (if length s <? 3 then 1 else nth (length s - 3) s 1)%nat.

(** [s] can be broadcast to [outs]: aligned with the last dimensions, each dimension
    equal or 1. *)
Definition broadcastable (s outs : list nat) : Prop :=
  (length s <= length outs /\ Forall2 (fun d o => d = o \/ d = 1) s (skipn (length outs - length s) outs))%nat.
