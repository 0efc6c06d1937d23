(** What convolutions, maximum pooling and 8-bit activations compute, on tensors stored as bytes (C82). *)
From Coq Require Import List ZArith Bool Arith QArith.
Import ListNotations.
From Verif Require Import NdSpec FunOpsModel.
From Verif Require ConvSpec ConvLowerSpec ConvRunSpec LutModel LutSpec ConvLowerModel ConvRunModel ConvLowerProps.
Import ConvLowerSpec ConvRunSpec ConvLowerModel.
Local Open Scope Z_scope.

(** Element [a] of a tensor of signed little-endian integers of [e] bytes. *)
Fixpoint unsigned_le (l : list Z) : Z := match l with [] => 0 | x :: tl => x mod 256 + 256 * unsigned_le tl end.
Definition int_at (e : nat) (b : list Z) (a : nat) : Z :=
  let u := unsigned_le (map (fun j => nth (a * e + j) b 0) (seq 0 e)) in
  if u <? 2 ^ (8 * Z.of_nat e - 1) then u else u - 2 ^ (8 * Z.of_nat e).
(** The H x W x C image in [b], and the memory a kernel sees from the start of its input tensor of [n] elements. *)
Definition image (e : nat) (b : list Z) (W C : Z) (y x i : Z) : Z := int_at e b (Z.to_nat ((y * W + x) * C + i)).
Definition memory_of (e n : nat) (b : list Z) (outside : Z -> Z) (a : Z) : Z :=
  if (0 <=? a) && (a <? Z.of_nat n) then int_at e b (Z.to_nat a) else outside a.
(** The bytes of the H x W x D result [v y x o]. *)
Definition result_bytes (e : nat) (out : Z * Z * Z) (v : Z -> Z -> Z -> Z) : list Z :=
  let '(H, W, D) := out in
  bytes_of [Z.to_nat H; Z.to_nat W; Z.to_nat D]
    (fun idx => match idx with [y; x; o] => le_bytes e (v (Z.of_nat y) (Z.of_nat x) (Z.of_nat o)) | _ => le_bytes e 0 end).

(** TFLite's operators. *)
Definition conv_result (depthwise : bool) (cv : conv) (t : attributes) (q : quant) (filter bias : list Z) (img : Z -> Z -> Z -> Z) (y x o : Z) : Z :=
  let '(h, w, d) := c_in cv in let '(_, _, od) := c_out cv in let '(fh, fw, fd) := c_filter cv in
  let '(sh, sw) := c_stride cv in let '(dh, dw) := c_dilation cv in
  let pv := c_padding_values cv in
  let top := before (c_padding cv) h fh dh sh (nth 2 pv 0) in let lft := before (c_padding cv) w fw dw sw (nth 4 pv 0) in
  let bias_o := nth (Z.to_nat o) bias 0 in
  let acc := if depthwise then depthwise_acc h w d fh fw sh sw dh dw top lft (c_in_zp cv) img (depthwise_filter_at fw d filter o) o bias_o y x
             else conv2d_acc h w fd fh fw sh sw dh dw top lft (c_in_zp cv) img (filter_at fh fw fd filter o) bias_o y x in
  tflite_value (q_lo q) (q_hi q) (q_zp q) (q_6 q) (q_1 q) (q_m1 q) (at_faf t) (q_scale q o acc).
Definition window (n : Z) : list Z := map Z.of_nat (seq 0 (Z.to_nat n)).
Definition pool_value (p : maxpool) (img : Z -> Z -> Z -> Z) (y x ch : Z) : Z :=
  let '(h, w, _) := p_in p in let '(fh, fw) := p_filter p in let '(sh, sw) := p_stride p in
  let top := before (p_padding p) h fh 1 sh 0 in let lft := before (p_padding p) w fw 1 sw 0 in
  fold_right Z.max (-128)
    (flat_map (fun ky => flat_map (fun kx =>
       let Y := y * sh - top + ky in let X := x * sw - lft + kx in
       if ConvSpec.in_image h w Y X then [img Y X ch] else []) (window fw)) (window fh)).
Definition act_value (m : LutModel.libm) (a : LutModel.activation) (si : Q) (zi : Z) (so : Q) (zo v : Z) : Z :=
  LutModel.requantize so zo (LutSpec.act_real m a (LutSpec.dequantised si zi v)).

(** Fully connected: row [r] of the input (all dimensions but the last make the rows) with row [o] of the filter. *)
Definition full_result (I : Z) (zp : Z) (f : activation) (q : quant) (filter bias : list Z) (row : Z -> Z -> Z) (r o : Z) : Z :=
  tflite_value (q_lo q) (q_hi q) (q_zp q) (q_6 q) (q_1 q) (q_m1 q) f
    (q_scale q o (nth (Z.to_nat o) bias 0 + sum_to I (fun i => (row r i - zp) * nth (Z.to_nat (o * I + i)) filter 0))).

Definition elems (i16 : bool) : nat := if i16 then 2 else 1.
Definition sem_compute (c : compute) (bs : list (list Z)) : option (list Z) :=
  match c, bs with
  | CFull fc t q f bi, [b] =>
      let O := nth 0 (fl_dims fc) 0 in let I := nth 1 (fl_dims fc) 0 in
      let rows := fold_right Z.mul 1 (removelast (fl_in fc)) in
      Some (result_bytes (elems (fl_i16 fc)) (1, rows, O)
              (fun _ r o => full_result I (fl_in_zp fc) t q f bi (fun r i => int_at (elems (fl_i16 fc)) b (Z.to_nat (r * I + i))) r o))
  | CConv cv t q f bi, [b] =>
      let '(_, w, d) := c_in cv in
      Some (result_bytes (elems (c_i16 cv)) (c_out cv) (conv_result false cv t q f bi (image (elems (c_i16 cv)) b w d)))
  | CDepthwise cv t q f bi, [b] =>
      let '(_, w, d) := c_in cv in
      Some (result_bytes (elems (c_i16 cv)) (c_out cv) (conv_result true cv t q f bi (image (elems (c_i16 cv)) b w d)))
  | CMaxPool p, [b] => let '(_, w, d) := p_in p in Some (result_bytes 1 (p_out p) (pool_value p (image 1 b w d)))
  | CAct m a si zi so zo, [b] => Some (map (fun k => act_value m a si zi so zo (int_at 1 b k) mod 256) (seq 0 (length b)))
  | _, _ => None
  end.

(** xcore's operators: the kernels of ConvLowerModel and LutModel; [n]: number of elements of the input tensor. *)
Definition sem_xcompute (x : xcompute) (n : nat) (bs : list (list Z)) : option (list Z) :=
  match x, bs with
  | XConv k c a ot ch q outside, [b; w; m] =>
      let e := elems (c_i16 c) in
      let '(f, bi, scale) := q_read q w m in
      Some (result_bytes e (c_out c) (fun y x o =>
        value (q_lo q) (q_hi q) (q_zp q) (q_6 q) (q_1 q) (q_m1 q) (XcConv k c a ot ch)
          (scale o (ConvRunModel.kernel_accumulator k c a (memory_of e n b outside) f bi o y x))))
  | XMaxPool p outside, [b] => Some (result_bytes 1 (p_out p) (fun y x o => pool_result p (memory_of 1 n b outside) y x o))
  | XLookup, [b; table] => Some (map (fun k => LutModel.lookup_kernel table (int_at 1 b k) mod 256) (seq 0 (length b)))
  | _, _ => None
  end.

(** The verifier's conditions, and the conditions under which C36, C57-C58 and C62 hold of the lowering: batch 1; for a convolution, geometry as
    TensorFlow defines it, an activation the lowering keeps, depth multiplier 1; for 16 bits no padding and zero point 0; pooling without padding and activation;
    the kernel finds the filter, the bias and the requantisation in the bytes of its two constants (lib_nn). *)
Definition image_shape (s : Z * Z * Z) : list nat := let '(h, w, d) := s in [1%nat; Z.to_nat h; Z.to_nat w; Z.to_nat d].
Definition positive (s : Z * Z * Z) : Prop := let '(h, w, d) := s in 1 <= h /\ 1 <= w /\ 1 <= d.
Definition conv_ok (depthwise : bool) (cv : conv) (t : attributes) (q : quant) : Prop :=
  let '(h, w, d) := c_in cv in let '(oh, ow, od) := c_out cv in let '(fh, fw, fd) := c_filter cv in
  let '(sh, sw) := c_stride cv in let '(dh, dw) := c_dilation cv in
  positive (c_in cv) /\ positive (c_out cv) /\
  ConvLowerProps.geometry_ok (c_padding cv) (c_padding_values cv) h w oh ow fh fw sh sw dh dw /\
  (depthwise = false -> fd = d) /\
  (depthwise = true -> c_i16 cv = false /\ od = d /\ fd = d) /\
  (c_i16 cv = true -> c_in_zp cv = 0 /\ ConvLowerProps.no_padding (c_padding cv) (c_padding_values cv) h w fh fw sh sw dh dw) /\
  (c_i16 cv = false -> q_lo q = -128 /\ q_hi q = 127) /\ quantisation_ok (c_i16 cv) (q_lo q) (q_hi q) (q_zp q) (q_6 q) (q_1 q) (q_m1 q) /\
  activation_kept (negb depthwise && negb (c_i16 cv)) (at_faf t) (q_lo q) (q_hi q) (q_zp q) (q_6 q) /\ (0 < q_step q)%Q.
(** Rows of [I] values to rows of [O] values; the dimensions before the last two are 1 and the result has rank 2 or 3 (C35); activation and quantisation as for a convolution. *)
Definition full_ok (fc : fully) (t : activation) (q : quant) : Prop :=
  exists lead rows I O, Forall (eq 1) lead /\ fl_in fc = lead ++ [rows; I] /\ (fl_out fc = [rows; O] \/ fl_out fc = [1; rows; O]) /\ fl_dims fc = [O; I] /\
    1 <= rows /\ 1 <= I /\ 1 <= O /\ (fl_i16 fc = true -> fl_in_zp fc = 0) /\
    (fl_i16 fc = false -> q_lo q = -128 /\ q_hi q = 127) /\ quantisation_ok (fl_i16 fc) (q_lo q) (q_hi q) (q_zp q) (q_6 q) (q_1 q) (q_m1 q) /\
    activation_kept (negb (fl_i16 fc)) t (q_lo q) (q_hi q) (q_zp q) (q_6 q) /\ (0 < q_step q)%Q.
Definition compute_ok (c : compute) (tys : list ty) (r : ty) : Prop :=
  match c, tys with
  | CFull fc t q f bi, [a] =>
      full_ok fc t q /\ q_read q (q_weights q) (q_muls q) = (f, bi, q_scale q) /\ t_shape a = map Z.to_nat (fl_in fc) /\ t_shape r = map Z.to_nat (fl_out fc) /\
      t_elem a = elems (fl_i16 fc) /\ t_elem r = elems (fl_i16 fc)
  | CConv cv t q f bi, [a] =>
      conv_ok false cv t q /\ q_read q (q_weights q) (q_muls q) = (f, bi, q_scale q) /\ t_shape a = image_shape (c_in cv) /\ t_shape r = image_shape (c_out cv) /\ t_elem a = elems (c_i16 cv) /\ t_elem r = elems (c_i16 cv)
  | CDepthwise cv t q f bi, [a] =>
      conv_ok true cv t q /\ q_read q (q_weights q) (q_muls q) = (f, bi, q_scale q) /\ t_shape a = image_shape (c_in cv) /\ t_shape r = image_shape (c_out cv) /\ t_elem a = elems (c_i16 cv) /\ t_elem r = elems (c_i16 cv)
  | CMaxPool p, [a] =>
      let '(h, w, d) := p_in p in let '(oh, ow, od) := p_out p in let '(fh, fw) := p_filter p in let '(sh, sw) := p_stride p in
      positive (p_in p) /\ positive (p_out p) /\ od = d /\
      ConvLowerProps.geometry_ok (p_padding p) [] h w oh ow fh fw sh sw 1 1 /\ ConvLowerProps.no_padding (p_padding p) [] h w fh fw sh sw 1 1 /\
      p_faf p = NONE /\ t_shape a = image_shape (p_in p) /\ t_shape r = image_shape (p_out p) /\ t_elem a = 1%nat /\ t_elem r = 1%nat
  | CAct m ac si zi so zo, [a] =>
      (0 < so)%Q /\ LutSpec.int8 zo /\ t_shape r = t_shape a /\ t_elem a = 1%nat /\ t_elem r = 1%nat /\
      forall x, LutSpec.int8 x -> (Qabs.Qabs (LutSpec.act_real m ac (LutSpec.dequantised si zi x) / so) <= inject_Z (2 ^ 31 - 256))%Q
  | _, _ => False
  end.

(** Convolutions the lowering leaves to TFLite: channels that are no multiple of 4 (16 for 16-bit ones), or both errors above the threshold. *)
Definition not_lowered (c : compute) : Prop :=
  let refused (cv : conv) (q : quant) :=
    let '(_, _, ic) := c_in cv in let '(_, _, oc) := c_out cv in
    Z.rem ic 4 <> 0 \/ Z.rem oc 4 <> 0 \/ (c_i16 cv = true /\ (Z.rem ic 16 <> 0 \/ Z.rem oc 16 <> 0)) \/
    (c_i16 cv = false /\ (q_threshold q < fst (q_errors q))%Q /\ (q_threshold q < snd (q_errors q))%Q) in
  match c with CConv cv _ q _ _ | CDepthwise cv _ q _ _ => refused cv q | CFull _ _ _ _ _ => False | CMaxPool _ => False | CAct _ _ _ _ _ _ => False end.
