(** Specification vocabulary for C32-C35 and C48. *)
From Coq Require Import List ZArith Bool Arith QArith.
Import ListNotations.
From Verif Require Import NdSpec ConvSpec ConvOptSpec.
Local Open Scope Z_scope.

(** Transpose convolution: the sum, over the input pixels (iy, ix) and the taps (ky, kx)
    of the kernel, of the products that fall on output position (Y, X), that is
    iy * sH + ky = Y and ix * sW + kx = X. *)
Definition transpose_at (inH inW kH kW : nat) (sH sW : Z) (prod : nat -> nat -> nat -> nat -> Z) (Y X : Z) : Z :=
  zsum (fun iy => zsum (fun ky =>
    if Z.of_nat iy * sH + Z.of_nat ky =? Y then
      zsum (fun ix => zsum (fun kx =>
        if Z.of_nat ix * sW + Z.of_nat kx =? X then prod iy ix ky kx else 0) kW) inW
    else 0) kH) inH.

(** TFLite's SAME transpose convolution: the position is shifted by the padding of the
    forward convolution that has this output as input. *)
Definition transpose_same_at (inH inW kH kW : nat) (sH sW outH outW : Z) prod (Y X : Z) : Z :=
  transpose_at inH inW kH kW sH sW prod
    (Y + same_before outH (Z.of_nat kH) 1 sH) (X + same_before outW (Z.of_nat kW) 1 sW).

(** Position of channel [c] of pixel (y, x) in a row-major image of the given width and depth. *)
Definition pixel_address (width depth y x c : Z) : Z := (y * width + x) * depth + c.

(** A convolution (stride 1, no padding) with a kernel of size h x w whose element (a, b) is
    the tap (ta, tb) of the original kernel, on an image: the accumulator at (y, x). *)
Definition sub_conv_at {P} (h w : nat) (mul : P -> nat * nat -> Z) (tap : nat -> nat -> nat * nat) (img : image P) (y x : Z) : Z :=
  zsum (fun a => zsum (fun b => mul (img (y + Z.of_nat a) (x + Z.of_nat b)) (tap a b)) w) h.

(** Fully connected: row [b] of the input ([C] elements), filter of channel [o]: any
    function [G].  Results in row-major order. *)
Definition fully_connected {R} (G : list Z -> list Z -> nat -> R) (batch C O : nat) (input filter : list Z) : list R :=
  flat_map (fun b => map (fun o => G (chunk C b input) (chunk C o filter) o) (seq 0 O)) (seq 0 batch).
(** 1x1 convolution, stride 1, on an image of H x W pixels of [C] channels. *)
Definition conv_1x1 {R} (G : list Z -> list Z -> nat -> R) (H W C O : nat) (input filter : list Z) : list R :=
  flat_map (fun y => flat_map (fun x => map (fun o => G (chunk C (y * W + x) input) (chunk C o filter) o) (seq 0 O)) (seq 0 W)) (seq 0 H).

(** The types of a fully connected operator on an input of shape [s] with filter [[O; I]]: the
    elements of the input are taken [I] at a time; the result has one row for each of these
    groups, or (keep_num_dims) the shape of the input with its last dimension replaced. *)
Definition elements (s : list Z) : Z := fold_right Z.mul 1 s.
Definition fc_typed (s : list Z) (O I : Z) (r : list Z) : Prop :=
  Forall (fun d => 0 < d) s /\ (2 <= length s)%nat /\ 0 < O /\ 0 < I /\
  ((exists rows, elements s = rows * I /\ r = [rows; O]) \/ (exists lead, s = lead ++ [I] /\ r = lead ++ [O])).
(** The verifiers of a reshape and of a 1x1 convolution with stride 1 (the channels of the
    filter may divide those of the input: a grouped convolution). *)
Definition legal_reshape (a b : list Z) : Prop := elements a = elements b.
Definition legal_conv_1x1 (i f o : list Z) : Prop :=
  exists n h w groups ic oc, i = [n; h; w; groups * ic] /\ f = [oc; 1; 1; ic] /\ o = [n; h; w; oc] /\ 0 < groups.

(** Average of the values of the window's pixels inside the image, as real numbers
    (scale * (v - zero point)). *)
Definition qsum (l : list Q) : Q := fold_right Qplus 0%Q l.
Definition window_positions (fH fW : nat) (y x : Z) : list (Z * Z) :=
  flat_map (fun ky => map (fun kx => (y + Z.of_nat ky, x + Z.of_nat kx)) (seq 0 fW)) (seq 0 fH).
Definition average_at (H W : Z) (fH fW : nat) (sH sW top left : Z) (s : Q) (zp : Z) (img : image Z) (y x : Z) : Q :=
  let ps := filter (fun p => in_image H W (fst p) (snd p)) (window_positions fH fW (y * sH - top) (x * sW - left)) in
  (qsum (map (fun p => s * inject_Z (img (fst p) (snd p) - zp)) ps) / inject_Z (Z.of_nat (length ps)))%Q.
(** Depthwise convolution of one channel with the given filter (row-major, one value per
    position), as a real number; the padding pixels have the zero point as value. *)
Definition depthwise_real (H W : Z) (fH fW : nat) (sH sW top left : Z) (s : Q) (zp : Z) (fs : Q) (fzp : Z)
  (filter : list Z) (bias : Q) (img : image Z) (y x : Z) : Q :=
  (qsum (map (fun pw => s * inject_Z (zpad H W zp img (fst (fst pw)) (snd (fst pw)) - zp) * (fs * inject_Z (snd pw - fzp)))
     (combine (window_positions fH fW (y * sH - top) (x * sW - left)) filter)) + bias)%Q.

(** Number of elements of a tensor of this shape. *)
Definition zprod (s : list Z) : Z := fold_right Z.mul 1 s.
