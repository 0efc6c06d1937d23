(** Specification vocabulary for C78: what a VALID transpose convolution computes. *)
From Coq Require Import List ZArith Bool Arith.
Import ListNotations.
From Verif Require Import ConvOptSpec ConvGeomSpec TconvModel.
Local Open Scope Z_scope.

(** The input image: channel i of pixel (y, x). *)
Definition input_image := nat -> nat -> nat -> Z.

(** TFLite's transpose convolution at output position (Y, X), channel o, before bias and requantisation: the sum over the
    input pixels and taps that fall on (Y, X) of (input - zero point) * weight. *)
Definition tconv_accumulator (t : tconv) (w : list Z) (img : input_image) (o : nat) (Y X : Z) : Z :=
  transpose_at (t_inH t) (t_inW t) (t_kH t) (t_kW t) (Z.of_nat (t_sH t)) (Z.of_nat (t_sW t))
    (fun iy ix ky kx => zsum (fun i => (img iy ix i - t_zx t) * nth (((o * t_kH t + ky) * t_kW t + kx) * t_inD t + i)%nat w 0) (t_inD t))
    Y X.

(** Element address in a row-major H x W x D tensor. *)
Definition address (W : Z) (D : nat) (Y X : Z) (o : nat) : Z := (Y * W + X) * Z.of_nat D + Z.of_nat o.

(** [mem] holds the image surrounded by [vp] rows and [hp] columns of the zero point, elements of the size of the type. *)
Definition holds_padded (t : tconv) (img : input_image) (vp hp : Z) (mem : Z -> Z) : Prop :=
  forall y x i, (i < t_inD t)%nat ->
    - vp <= y < Z.of_nat (t_inH t) + vp -> - hp <= x < Z.of_nat (t_inW t) + hp ->
    mem (element_size (t_in t) * address (Z.of_nat (t_inW t) + 2 * hp) (t_inD t) (y + vp) (x + hp) i) =
    if (0 <=? y) && (y <? Z.of_nat (t_inH t)) && (0 <=? x) && (x <? Z.of_nat (t_inW t))
    then img (Z.to_nat y) (Z.to_nat x) i else t_zx t.

(** The operator is well formed: non-empty, output size of a VALID transpose convolution. *)
Definition well_formed (t : tconv) : Prop :=
  (1 <= t_inH t)%nat /\ (1 <= t_inW t)%nat /\ (1 <= t_inD t)%nat /\ (1 <= t_outD t)%nat /\
  (1 <= t_kH t)%nat /\ (1 <= t_kW t)%nat /\ (1 <= t_sH t)%nat /\ (1 <= t_sW t)%nat /\
  t_outH t = (Z.of_nat (t_inH t) - 1) * Z.of_nat (t_sH t) + Z.of_nat (t_kH t) /\
  t_outW t = (Z.of_nat (t_inW t) - 1) * Z.of_nat (t_sW t) + Z.of_nat (t_kW t).

(** Sizes on which the division of the work among the threads is right (C11). *)
Definition divisible (n : Z) (s : nat) : Prop := (s <= 2)%nat \/ n mod Z.of_nat s = 0 \/ Z.odd n = true.

(** Only the dimension that is divided among the threads matters: the rows when their number is a multiple of the number of
    threads, or when the number of columns is not and is smaller; else the columns. *)
Definition rows_divided (threads : nat) (outH outW : Z) (sH sW : nat) : Prop :=
  let n := Z.of_nat threads in let h := outH / Z.of_nat sH in let w := outW / Z.of_nat sW in (n | h) \/ ~ (n | w) /\ w < h.
Definition work_divisible (threads : nat) (outH outW : Z) (sH sW : nat) : Prop :=
  (rows_divided threads outH outW sH sW -> divisible outH sH) /\ (~ rows_divided threads outH outW sH sW -> divisible outW sW).

(** TFLite's SAME transpose convolution before bias and requantisation. *)
Definition tconv_same_accumulator (t : tconv) (w : list Z) (img : input_image) (o : nat) (Y X : Z) : Z :=
  transpose_same_at (t_inH t) (t_inW t) (t_kH t) (t_kW t) (Z.of_nat (t_sH t)) (Z.of_nat (t_sW t)) (t_outH t) (t_outW t)
    (fun iy ix ky kx => zsum (fun i => (img iy ix i - t_zx t) * nth (((o * t_kH t + ky) * t_kW t + kx) * t_inD t + i)%nat w 0) (t_inD t))
    Y X.
