(** Images and convolution-like operators: the vocabulary of C26, C27, C29-C35.
    Nothing here comes from the code.

    An image with pixels in [P] (a pixel holds all channels) is a function of the
    row and column; its size is given separately. *)
From Coq Require Import List ZArith Bool.
Import ListNotations.
Local Open Scope Z_scope.

Definition image (P : Type) := Z -> Z -> P.

Definition in_image (H W y x : Z) : bool := (0 <=? y) && (y <? H) && (0 <=? x) && (x <? W).

(** An H x W image surrounded by the padding pixel [z]. *)
Definition zpad {P} (H W : Z) (z : P) (img : image P) : image P :=
  fun y x => if in_image H W y x then img y x else z.

(** tf.pad with [top] rows above and [left] columns to the left. *)
Definition pad_image {P} (H W : Z) (z : P) (top left : Z) (img : image P) : image P :=
  fun y x => zpad H W z img (y - top) (x - left).

(** tf.slice starting at row [y0], column [x0]. *)
Definition slice_image {P} (y0 x0 : Z) (img : image P) : image P := fun y x => img (y0 + y) (x0 + x).

(** The fh x fw window with its top-left corner at (y, x); dh, dw: dilations. *)
Definition window {P} (fh fw : nat) (dh dw : Z) (img : image P) (y x : Z) : list (list P) :=
  map (fun ky => map (fun kx => img (y + Z.of_nat ky * dh) (x + Z.of_nat kx * dw)) (seq 0 fw)) (seq 0 fh).

(** A convolution-like operator: output pixel (y, x) is any function [G] of the
    window at (y * sh - top, x * sw - left) of the padded image.  [G] covers
    convolution, depthwise convolution, average pooling, with any filter, bias,
    requantisation and activation. *)
Definition conv_at {P Q} (G : list (list P) -> Q) (fh fw : nat) (sh sw dh dw : Z)
  (H W : Z) (z : P) (top left : Z) (img : image P) : image Q :=
  fun y x => G (window fh fw dh dw (zpad H W z img) (y * sh - top) (x * sw - left)).

(** TensorFlow's output size and padding in one dimension.  [eff] is the effective
    filter size (f - 1) * dilation + 1. *)
Definition eff (f d : Z) : Z := (f - 1) * d + 1.
Definition valid_out (n f d s : Z) : Z := (n - eff f d + s) / s.
Definition same_out (n s : Z) : Z := (n + s - 1) / s.
Definition same_needed (n f d s : Z) : Z := Z.max 0 ((same_out n s - 1) * s + eff f d - n).
Definition same_before (n f d s : Z) : Z := same_needed n f d s / 2.
Definition same_after (n f d s : Z) : Z := same_needed n f d s - same_before n f d s.
