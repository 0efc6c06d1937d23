(** Model of the lowering of Larq binary convolutions (Transforms/ConvPatternsLCE.cpp, TFLPatterns.td 150-173). *)
From Coq Require Import List ZArith Bool QArith.
From Verif Require Import ConvLowerSpec.
Import ListNotations.
Local Open Scope Z_scope.

(** The fields read by the pass.  [b_channels_in] is the attribute; depths are those of the tensors (packed words for binary
    tensors). *)
Inductive elem := I32 | QI8 | OtherType.
Record bconv := mk_bconv { b_filter_type : elem; b_out_type : elem; b_faf : activation; b_padding : padding; b_channels_in : Z;
  b_in_depth : Z; b_out_depth : Z; b_filter_h : Z; b_filter_w : Z }.

(** ConvPatternsLCE.cpp 10-66, checkIfValid: an error makes the compilation fail. *)
Definition is_i32 (e : elem) : bool := match e with I32 => true | _ => false end.
Definition is_qi8 (e : elem) : bool := match e with QI8 => true | _ => false end.
Definition check_if_valid (b : bconv) : bool :=
  is_i32 (b_filter_type b) &&
  (is_qi8 (b_out_type b) || is_i32 (b_out_type b)) &&
  (negb (is_qi8 (b_out_type b)) || match b_faf b with RELU => true | _ => false end) &&
  match b_padding b with VALID => true | _ => false end &&
  (Z.rem (b_channels_in b) 32 =? 0) &&
  (negb (is_qi8 (b_out_type b)) || (Z.rem (b_out_depth b) 4 =? 0)).

(** ConvPatternsLCE.cpp 72-96: depths in channels. *)
Definition binary_output (b : bconv) : bool := negb (is_qi8 (b_out_type b)).
Definition input_channels (b : bconv) : Z := b_in_depth b * 32.
Definition output_channels (b : bconv) : Z := if binary_output b then b_out_depth b * 32 else b_out_depth b.

(** ConvPatternsLCE.cpp 188-204, getKernelType. *)
Inductive bkernel := DirectBinary | DirectInt8 | IndirectBinary | IndirectInt8.
Definition bkernel_type (b : bconv) : bkernel :=
  if (Z.rem (input_channels b) 256 =? 0) && binary_output b then DirectBinary
  else if (Z.rem (input_channels b) 256 =? 0) && (Z.rem (output_channels b) 16 =? 0) then DirectInt8
  else if binary_output b then IndirectBinary else IndirectInt8.

(** ConvPatternsLCE.cpp 124-163: multipliers, biases and clamp values of the int8 output (over the rationals). *)
Definition backtransform_add (b : bconv) : Z := b_filter_h b * b_filter_w b * b_channels_in b.
Definition fused_multiplier (scale postMul : Q) : Q := (- (1) * postMul / scale)%Q.
Definition fused_bias (scale : Q) (zp add : Z) (postMul postBias : Q) : Q :=
  ((postBias + inject_Z add * postMul) / scale + inject_Z zp)%Q.
Definition clamps (add : Z) : Z * Z :=
  let nominalClampMin := Z.max 0 (-1 * add) in
  let nominalClampMax := Z.min 2147483647 add in
  (-1 * nominalClampMax + add, -1 * nominalClampMin + add).

(** Contract (Larq compute engine's output transform, which nn::OT_int8_clamped implements): twice the number of differing bits is
    clamped, multiplied and added; the result is then rounded and saturated. *)
Definition int8_output (b : bconv) (scale : Q) (zp : Z) (postMul postBias : Q) (differing : Z) : Q :=
  let add := backtransform_add b in
  (inject_Z (clampZ (fst (clamps add)) (snd (clamps add)) (2 * differing)) * fused_multiplier scale postMul
   + fused_bias scale zp add postMul postBias)%Q.

(** TFLPatterns.td 160-173: a SAME convolution with pad value one becomes a VALID one on the input padded with zeros; with pad value
    zero it is left SAME, which checkIfValid rejects. *)
Definition bconv_same (pad_value : Z) (b : bconv) : bconv * bool :=
  match b_padding b with
  | SAME => if pad_value =? 1
            then (mk_bconv (b_filter_type b) (b_out_type b) (b_faf b) VALID (b_channels_in b) (b_in_depth b) (b_out_depth b) (b_filter_h b) (b_filter_w b), true)
            else (b, false)
  | _ => (b, false)
  end.
(** The padding pixel of the inserted Pad: zero words. *)
Definition pad_pixel (words : nat) : list Z := repeat 0 words.
(** Bit i of a packed pixel (bit 0 of the first word first). *)
Definition pixel_bit (p : list Z) (i : nat) : bool := Z.testbit (nth (i / 32) p 0) (Z.of_nat (i mod 32)).
