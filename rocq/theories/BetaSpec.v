(** Meaning of TFLite's float operators (C84), on rational numbers. *)
From Coq Require Import List ZArith QArith Qminmax Bool.
Import ListNotations.
From Verif Require Import BetaModel.
Local Open Scope Q_scope.

Fixpoint qsum (n : nat) (f : Z -> Q) : Q := match n with O => 0 | S k => qsum k f + f (Z.of_nat k) end.
(** Fused activations; hyperbolic tangent and sign are arbitrary functions. *)
Definition activate (tanh sign : Q -> Q) (f : faf) (x : Q) : Q :=
  match f with
  | NONE => x | RELU => Qmax 0 x | RELU_N1_TO_1 => Qmax (-1) (Qmin x 1) | RELU6 => Qmax 0 (Qmin x 6) | TANH => tanh x | SIGN_BIT => sign x
  end.

Section Values.
Variables tanh sign : Q -> Q.
(** An image: row, column, channel. *)
Notation pixels := (Z -> Z -> Z -> Q).
Definition inside (im : image) (y x : Z) : bool := (0 <=? y)%Z && (y <? im_h im)%Z && (0 <=? x)%Z && (x <? im_w im)%Z.

(** TensorFlow's output sizes and padding before the first row or column, for size n, window k, dilation d, stride s. *)
Definition out_size (p : padding) (n k d s : Z) : Z :=
  match p with SAME => ((n + s - 1) / s)%Z | VALID => ((n - (k - 1) * d + s - 1) / s)%Z end.
Definition pad_before (p : padding) (n k d s : Z) : Z :=
  match p with SAME => (Z.max ((out_size SAME n k d s - 1) * s + (k - 1) * d + 1 - n) 0 / 2)%Z | VALID => 0%Z end.

Definition conv_sum (c : conv) (input : pixels) (y x o : Z) : Q :=
  let f := cv_filter c in
  let pt := pad_before (cv_padding c) (im_h (cv_in c)) (f_h f) (cv_dil_h c) (cv_stride_h c) in
  let pl := pad_before (cv_padding c) (im_w (cv_in c)) (f_w f) (cv_dil_w c) (cv_stride_w c) in
  qsum (Z.to_nat (f_h f)) (fun ky => qsum (Z.to_nat (f_w f)) (fun kx =>
    let iy := (y * cv_stride_h c - pt + ky * cv_dil_h c)%Z in let ix := (x * cv_stride_w c - pl + kx * cv_dil_w c)%Z in
    if inside (cv_in c) iy ix then qsum (Z.to_nat (im_c (cv_in c))) (fun i => input iy ix i * f_data f o ky kx i) else 0)).
Definition conv_value (c : conv) (input : pixels) (y x o : Z) : Q :=
  activate tanh sign (cv_faf c) (cv_bias c o + conv_sum c input y x o).

(** Padding of a transpose convolution: that of the convolution from its output to its input. *)
Definition tconv_sum (c : conv) (input : pixels) (y x o : Z) : Q :=
  let f := cv_filter c in
  let pt := pad_before (cv_padding c) (im_h (cv_out c)) (f_h f) 1 (cv_stride_h c) in
  let pl := pad_before (cv_padding c) (im_w (cv_out c)) (f_w f) 1 (cv_stride_w c) in
  qsum (Z.to_nat (f_h f)) (fun ky => qsum (Z.to_nat (f_w f)) (fun kx =>
    let ty := (y + pt - ky)%Z in let tx := (x + pl - kx)%Z in
    if (ty mod cv_stride_h c =? 0)%Z && (tx mod cv_stride_w c =? 0)%Z && inside (cv_in c) (ty / cv_stride_h c) (tx / cv_stride_w c)
    then qsum (Z.to_nat (im_c (cv_in c))) (fun i => input (ty / cv_stride_h c)%Z (tx / cv_stride_w c)%Z i * f_data f o ky kx i) else 0)).
Definition tconv_value (c : conv) (input : pixels) (y x o : Z) : Q :=
  activate tanh sign (cv_faf c) (cv_bias c o + tconv_sum c input y x o).

Definition fc_value (c : fc) (input : Z -> Q) (o : Z) : Q :=
  activate tanh sign (fc_faf c) (match fc_bias c with Some b => b o | None => 0 end + qsum (Z.to_nat (fc_n c)) (fun i => input i * fc_weights c o i)).

(** The element at [i] of the concatenation along the last axis of rows of the given lengths. *)
Fixpoint row_value (lens : list Z) (ins : list (Z -> Q)) (i : Z) : Q :=
  match lens, ins with
  | n :: lens', r :: ins' => if (i <? n)%Z then r i else row_value lens' ins' (i - n)
  | _, _ => 0
  end.
(** One-dimensional concatenation. *)
Definition concat_value (c : concat) (ins : list (Z -> Q)) (i : Z) : Q :=
  activate tanh sign (cc_faf c) (row_value (map (fun s => hd 0%Z s) (cc_in c)) ins i).
End Values.

(** Verified operators: the result has the size TensorFlow computes; dilations of a transpose convolution are 1. *)
Definition legal_conv (c : conv) : Prop :=
  (0 < im_h (cv_in c) /\ 0 < im_w (cv_in c) /\ 0 < cv_dil_h c /\ 0 < cv_dil_w c)%Z /\
  im_h (cv_out c) = out_size (cv_padding c) (im_h (cv_in c)) (f_h (cv_filter c)) (cv_dil_h c) (cv_stride_h c) /\
  im_w (cv_out c) = out_size (cv_padding c) (im_w (cv_in c)) (f_w (cv_filter c)) (cv_dil_w c) (cv_stride_w c).
Definition legal_tconv (c : conv) : Prop :=
  (0 < im_h (cv_in c) /\ 0 < im_w (cv_in c))%Z /\ cv_dil_h c = 1%Z /\ cv_dil_w c = 1%Z /\
  im_h (cv_in c) = out_size (cv_padding c) (im_h (cv_out c)) (f_h (cv_filter c)) 1 (cv_stride_h c) /\
  im_w (cv_in c) = out_size (cv_padding c) (im_w (cv_out c)) (f_w (cv_filter c)) 1 (cv_stride_w c).
Definition legal_concat (c : concat) : Prop :=
  cc_static c = true /\ cc_axis c = 0%Z /\ Forall (fun s => length s = 1%nat) (cc_in c) /\ cc_out c = [fold_right Z.add 0%Z (map (fun s => hd 0%Z s) (cc_in c))].
