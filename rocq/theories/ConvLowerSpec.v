(** What the lowered convolutions and poolings are compared with (C57-C60, C62).  Nothing here comes
    from the code of the compiler: TFLite's reference kernels. *)
From Coq Require Import List ZArith Bool Arith QArith.
From Verif Require Import ConvSpec.
Import ListNotations.
Local Open Scope Z_scope.

Inductive padding := VALID | SAME | EXPLICIT.
Inductive activation := NONE | RELU | RELU6 | RELU_N1_TO_1.

(** Padding before and after one dimension and the output size (TensorFlow; [e], [e1], [e2] are the given paddings of an EXPLICIT one). *)
Definition before (p : padding) (n f d s e : Z) : Z :=
  match p with VALID => 0 | SAME => same_before n f d s | EXPLICIT => e end.
Definition after (p : padding) (n f d s e : Z) : Z :=
  match p with VALID => 0 | SAME => same_after n f d s | EXPLICIT => e end.
Definition out_size (p : padding) (n f d s e1 e2 : Z) : Z :=
  match p with VALID => valid_out n f d s | SAME => same_out n s | EXPLICIT => valid_out (n + e1 + e2) f d s end.

Definition sum_to (n : Z) (f : Z -> Z) : Z := fold_right Z.add 0 (map (fun i => f (Z.of_nat i)) (seq 0 (Z.to_nat n))).

(** Accumulator of a quantised convolution at output pixel (y, x): [img] is the H x W image of quantised
    values with zero point [zp], [w ky kx i] the filter of this output channel. *)
Definition conv2d_acc (H W C fh fw sh sw dh dw top lft zp : Z) (img : Z -> Z -> Z -> Z) (w : Z -> Z -> Z -> Z) (b y x : Z) : Z :=
  b + sum_to fh (fun ky => sum_to fw (fun kx => sum_to C (fun i =>
        let Y := y * sh - top + ky * dh in let X := x * sw - lft + kx * dw in
        if in_image H W Y X then (img Y X i - zp) * w ky kx i else 0))).

(** Depthwise: output channel o of a filter of [M * C] channels reads input channel o / M. *)
Definition depthwise_acc (H W C fh fw sh sw dh dw top lft zp : Z) (img : Z -> Z -> Z -> Z) (w : Z -> Z -> Z) (ch b y x : Z) : Z :=
  b + sum_to fh (fun ky => sum_to fw (fun kx =>
        let Y := y * sh - top + ky * dh in let X := x * sw - lft + kx * dw in
        if in_image H W Y X then (img Y X ch - zp) * w ky kx else 0)).

(** Row-major filter of shape O, fh, fw, C and 1, fh, fw, O. *)
Definition filter_at (fh fw C : Z) (filter : list Z) (o ky kx i : Z) : Z :=
  nth (Z.to_nat (((o * fh + ky) * fw + kx) * C + i)) filter 0.
Definition depthwise_filter_at (fw O : Z) (filter : list Z) (o ky kx : Z) : Z :=
  nth (Z.to_nat ((ky * fw + kx) * O + o)) filter 0.

(** The memory that holds a row-major H x W x C image. *)
Definition holds_image (H W C : Z) (mem : Z -> Z) (img : Z -> Z -> Z -> Z) : Prop :=
  forall y x i, 0 <= y < H -> 0 <= x < W -> 0 <= i < C -> mem ((y * W + x) * C + i) = img y x i.

(** Maximum pooling looks at the positions of the window inside the image only. *)
Definition is_max (v : Z) (P : Z -> Prop) : Prop := P v /\ forall u, P u -> u <= v.
Definition pooled (H W fh fw sh sw top lft : Z) (img : Z -> Z -> Z -> Z) (ch y x : Z) (v : Z) : Prop :=
  exists ky kx, 0 <= ky < fh /\ 0 <= kx < fw /\
    in_image H W (y * sh - top + ky) (x * sw - lft + kx) = true /\ v = img (y * sh - top + ky) (x * sw - lft + kx) ch.

(** Saturation to the output type and fused activations (tflite CalculateActivationRange): [q v] is the quantised
    value of the real number v. *)
Definition clampZ (lo hi v : Z) : Z := Z.max lo (Z.min hi v).
(** Bounds of the result for output bounds [qlo, qhi] and zero point [zp]; [q6], [q1], [qm1] are the quantised values of 6, 1
    and -1. *)
Definition activation_range (qlo qhi zp q6 q1 qm1 : Z) (f : activation) : Z * Z :=
  match f with
  | NONE => (qlo, qhi)
  | RELU => (Z.max qlo zp, qhi)
  | RELU6 => (Z.max qlo zp, Z.min qhi q6)
  | RELU_N1_TO_1 => (Z.max qlo qm1, Z.min qhi q1)
  end.
