(** Well-formedness of a function before the optimisations (C88). *)
From Coq Require Import List ZArith Bool Arith QArith.
Import ListNotations.
From Verif Require Import NdSpec FunOpsModel FunOpsSpec FunModel FunSpec.
From Verif Require ConvSpec ConvLowerSpec ConvRunSpec ConvLowerModel ConvLowerProps.
Import ConvLowerSpec ConvRunSpec ConvLowerModel.
Local Open Scope Z_scope.

(** A convolution as TFLite allows it: SAME or VALID padding (16-bit ones too, unlike [conv_ok], the condition of the lowering);
    the operand's type carries the zero point. *)
Definition conv_fits (depthwise : bool) (cv : conv) (t : attributes) (q : quant) (a : ty) : Prop :=
  let '(h, w, d) := c_in cv in let '(oh, ow, od) := c_out cv in let '(fh, fw, fd) := c_filter cv in
  let '(sh, sw) := c_stride cv in let '(dh, dw) := c_dilation cv in
  positive (c_in cv) /\ positive (c_out cv) /\ c_padding cv <> EXPLICIT /\
  ConvLowerProps.geometry_ok (c_padding cv) (c_padding_values cv) h w oh ow fh fw sh sw dh dw /\
  (depthwise = false -> fd = d) /\ (depthwise = true -> c_i16 cv = false /\ od = d /\ fd = d) /\
  (c_i16 cv = true -> c_in_zp cv = 0) /\ (c_i16 cv = false -> q_lo q = -128 /\ q_hi q = 127 /\ -128 <= c_in_zp cv <= 127) /\
  quantisation_ok (c_i16 cv) (q_lo q) (q_hi q) (q_zp q) (q_6 q) (q_1 q) (q_m1 q) /\
  activation_kept (negb depthwise && negb (c_i16 cv)) (at_faf t) (q_lo q) (q_hi q) (q_zp q) (q_6 q) /\ (0 < q_step q)%Q /\
  t_zero a = Some (c_in_zp cv).


(** The verifier's conditions before the passes: those of [op_ok], with [conv_fits] for convolutions; the operand of a fully connected layer carries its zero point; no xcore operator. *)
Definition op_ok_before (o : fop) (tys : list ty) (r : ty) : Prop :=
  match o, tys with
  | TCompute (CFull fc _ _ _ _), [a] => op_ok o tys r /\ t_zero a = Some (fl_in_zp fc) /\ (fl_i16 fc = false -> -128 <= fl_in_zp fc <= 127)
  | TCompute (CConv cv t q f bi), [a] =>
      conv_fits false cv t q a /\ q_read q (q_weights q) (q_muls q) = (f, bi, q_scale q) /\ t_shape a = image_shape (c_in cv) /\ t_shape r = image_shape (c_out cv) /\ t_elem a = elems (c_i16 cv) /\ t_elem r = elems (c_i16 cv)
  | TCompute (CDepthwise cv t q f bi), [a] =>
      conv_fits true cv t q a /\ q_read q (q_weights q) (q_muls q) = (f, bi, q_scale q) /\ t_shape a = image_shape (c_in cv) /\ t_shape r = image_shape (c_out cv) /\ t_elem a = elems (c_i16 cv) /\ t_elem r = elems (c_i16 cv)
  | _, _ => op_ok o tys r
  end.
Fixpoint verified_body_before (sc : list (nat * ty)) (body : list instr) : Prop :=
  match body with
  | [] => True
  | i :: tl => lookup sc (i_dst i) = None /\
      (exists tys, lookups sc (i_args i) = Some tys /\ op_ok_before (i_op i) tys (i_ty i)) /\
      verified_body_before ((i_dst i, i_ty i) :: sc) tl
  end.
(** A TFLite function as the compiler receives it. *)
Definition verified_before (f : func) : Prop :=
  NoDup (map fst (f_params f)) /\ verified_body_before (f_params f) (f_body f) /\
  forall x, In x (f_rets f) -> exists t, lookup (scope (f_params f) (f_body f)) x = Some t.

(** No convolution with SAME padding. *)
Definition is_same_conv (o : fop) : bool :=
  match o with
  | TCompute (CConv c _ _ _ _) | TCompute (CDepthwise c _ _ _ _) => match c_padding c with SAME => true | _ => false end
  | _ => false
  end.
Definition explicit_padding (f : func) : Prop := forall i, In i (f_body f) -> is_same_conv (i_op i) = false.
