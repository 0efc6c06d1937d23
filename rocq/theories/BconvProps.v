(** C61: binary convolutions. *)
From Coq Require Import QArith Lqa Qfield.
From Verif Require Import Base ConvSpec ConvGeomModel ConvGeomProps ConvLowerSpec ConvLowerProofs BconvModel.
Local Open Scope Z_scope.

(** A bit stands for +1 (bit 0) or -1 (bit 1). *)
Definition sign (b : bool) : Z := if b then -1 else 1.
Definition dot (x w : list bool) : Z := fold_right Z.add 0 (map (fun p => sign (fst p) * sign (snd p)) (combine x w)).
Definition differing (x w : list bool) : Z := fold_right Z.add 0 (map (fun p => if xorb (fst p) (snd p) then 1 else 0) (combine x w)).

Lemma dot_differing x : forall w, length x = length w -> dot x w = Z.of_nat (length x) - 2 * differing x w /\ 0 <= differing x w <= Z.of_nat (length x).
Proof.
  induction x as [|a x IH]; intros [|b w] L; cbn [length] in *; try discriminate; [cbn; lia|].
  destruct (IH w ltac:(lia)) as [E B]. unfold dot, differing in *. cbn [combine map fold_right fst snd].
  destruct a, b; cbn [sign xorb]; lia.
Qed.

(** The int8 output of a lowered binary convolution is, before rounding and saturation, the quantised value of
    bias + multiplier * Relu(dot product of the +-1 values), for every window and filter. *)
Theorem C61_int8_output : forall b scale zp postMul postBias (x w : list bool),
  check_if_valid b = true -> is_qi8 (b_out_type b) = true ->
  length x = length w -> Z.of_nat (length x) = b_filter_h b * b_filter_w b * b_channels_in b ->
  Z.of_nat (length x) <= 2147483647 -> (0 < scale)%Q ->
  b_faf b = RELU /\
  (int8_output b scale zp postMul postBias (differing x w) ==
   (postBias + postMul * inject_Z (Z.max 0 (dot x w))) / scale + inject_Z zp)%Q.
Proof.
  intros b scale zp pm pb x w CV QI L K B S. split.
  - unfold check_if_valid in CV. rewrite QI in CV. cbn [negb orb] in CV.
    apply andb_prop in CV as [CV _]. apply andb_prop in CV as [CV _]. apply andb_prop in CV as [CV _]. apply andb_prop in CV as [_ CV].
    destruct (b_faf b); try discriminate CV; reflexivity.
  - unfold int8_output, backtransform_add. rewrite <- K. destruct (dot_differing x w L) as [-> D].
    set (n := Z.of_nat (length x)) in *. set (d := differing x w) in *. clearbody n d.
    assert (C : clamps n = (0, n)) by (unfold clamps; f_equal; lia). rewrite C. cbn [fst snd].
    assert (E : clampZ 0 n (2 * d) = n - Z.max 0 (n - 2 * d)) by (unfold clampZ; lia). rewrite E.
    set (r := Z.max 0 (n - 2 * d)). unfold fused_multiplier, fused_bias.
    unfold Zminus. rewrite inject_Z_plus, inject_Z_opp. field. intros X. rewrite X in S. discriminate S.
Qed.

(** Which kernels are selected, and for which convolutions. *)
Theorem C61_kernel_selection : forall b, check_if_valid b = true -> input_channels b = b_channels_in b ->
  b_padding b = VALID /\ input_channels b mod 32 = 0 /\
  (bkernel_type b = DirectBinary \/ bkernel_type b = DirectInt8 -> input_channels b mod 256 = 0) /\
  (bkernel_type b = DirectInt8 \/ bkernel_type b = IndirectInt8 <-> b_out_type b = QI8) /\
  (bkernel_type b = DirectInt8 -> output_channels b mod 16 = 0) /\
  (b_out_type b = QI8 -> output_channels b mod 4 = 0).
Proof.
  intros b CV IC.
  assert (R : forall x m, 0 < m -> Z.rem x m =? 0 = (x mod m =? 0)).
  { intros x m Hm. destruct (Z.eqb_spec (Z.rem x m) 0), (Z.eqb_spec (x mod m) 0); try reflexivity; exfalso.
    - apply Z.rem_divide in e; [|lia]. apply Z.mod_divide in e; lia.
    - apply Z.mod_divide in e; [|lia]. apply Z.rem_divide in e; lia. }
  unfold check_if_valid in CV. rewrite !R in CV by lia.
  apply andb_prop in CV as [CV C6]. apply andb_prop in CV as [CV C5]. apply andb_prop in CV as [CV C4]. apply andb_prop in CV as [CV C3].
  apply andb_prop in CV as [C1 C2]. apply Z.eqb_eq in C5.
  unfold bkernel_type. rewrite !R by lia.
  assert (BO : binary_output b = negb (is_qi8 (b_out_type b))) by reflexivity. unfold output_channels.
  split; [destruct (b_padding b); try discriminate C4; reflexivity|]. split; [rewrite IC; exact C5|].
  destruct (Z.eqb_spec (input_channels b mod 256) 0) as [E|E]; destruct (b_out_type b) eqn:T; cbn [is_qi8 is_i32 negb orb andb] in *; rewrite BO in *; cbn [andb] in *; try discriminate C2.
  - split; [intros _; exact E|]. split; [split; [intros [X|X]; discriminate X|discriminate]|]. split; [discriminate|discriminate].
  - destruct (Z.eqb_spec (b_out_depth b mod 16) 0) as [F|F].
    + split; [intros _; exact E|]. split; [split; [reflexivity|left; reflexivity]|]. split; [intros _; exact F|]. intros _. apply Z.eqb_eq. exact C6.
    + split; [intros [X|X]; discriminate X|]. split; [split; [reflexivity|right; reflexivity]|]. split; [discriminate|]. intros _. apply Z.eqb_eq. exact C6.
  - split; [intros [X|X]; discriminate X|]. split; [split; [intros [X|X]; discriminate X|discriminate]|]. split; [discriminate|discriminate].
  - split; [intros [X|X]; discriminate X|]. split; [split; [reflexivity|right; reflexivity]|]. split; [discriminate|]. intros _. apply Z.eqb_eq. exact C6.
Qed.

(** SAME padding with pad value one: the inserted Pad makes the VALID convolution equal to the one whose positions outside the
    image hold +1 in every channel. *)
Theorem C61_same_one_padding : forall Q (G : list (list (list Z)) -> Q) (fH fW words : nat) sH sW dH dW inH inW img,
  1 <= inH -> 1 <= inW -> (1 <= fH)%nat -> (1 <= fW)%nat -> 1 <= sH -> 1 <= sW -> 1 <= dH -> 1 <= dW ->
  let '((top, bottom), (lft, rgt), (newH, newW)) := conv_padding_values inH inW (Z.of_nat fH) (Z.of_nat fW) dH dW sH sW in
  valid_out newH (Z.of_nat fH) dH sH = same_out inH sH /\ valid_out newW (Z.of_nat fW) dW sW = same_out inW sW /\
  (forall i, (i < 32 * words)%nat -> sign (pixel_bit (pad_pixel words) i) = 1) /\
  forall y x, 0 <= y < same_out inH sH -> 0 <= x < same_out inW sW ->
    conv_at G fH fW sH sW dH dW newH newW (pad_pixel words) 0 0 (pad_image inH inW (pad_pixel words) top lft img) y x =
    conv_at G fH fW sH sW dH dW inH inW (pad_pixel words) (same_before inH (Z.of_nat fH) dH sH) (same_before inW (Z.of_nat fW) dW sW) img y x.
Proof.
  intros Q G fH fW words sH sW dH dW inH inW img HH HW H1 H2 H3 H4 H5 H6.
  pose proof (C32_same_conv_equals_pad_and_valid _ _ G fH fW sH sW dH dW inH inW (pad_pixel words) img HH HW H1 H2 H3 H4 H5 H6) as T.
  destruct (conv_padding_values _ _ _ _ _ _ _ _) as [[[top bottom] [lft rgt]] [newH newW]].
  destruct T as (_ & _ & _ & _ & _ & _ & T1 & T2 & T3). split; [exact T1|]. split; [exact T2|]. split; [|exact T3].
  intros i Hi. unfold pixel_bit, pad_pixel.
  assert (E : nth (i / 32) (repeat 0 words) 0 = 0) by (apply nth_repeat). rewrite E, Z.bits_0. reflexivity.
Qed.
(** With pad value zero the operator stays SAME and is rejected. *)
Theorem C61_same_zero_rejected : forall b, b_padding b = SAME ->
  (snd (bconv_same 1 b) = true /\ b_padding (fst (bconv_same 1 b)) = VALID) /\
  forall v, v <> 1 -> check_if_valid (fst (bconv_same v b)) = false.
Proof.
  intros b E. unfold bconv_same. rewrite E. split; [split; reflexivity|]. intros v Hv.
  destruct (Z.eqb_spec v 1); [contradiction|]. cbn [fst]. unfold check_if_valid. rewrite E.
  destruct (is_i32 (b_filter_type b)); [|reflexivity]. cbn [andb]. destruct (_ || _); [|reflexivity]. cbn [andb]. destruct (_ || _); reflexivity.
Qed.

Definition ex_b : bconv := mk_bconv I32 QI8 RELU VALID 32 1 8 2 1.
Definition ex_x : list bool := [true; false; true] ++ repeat false 61.
Definition ex_w : list bool := [false; false; true] ++ repeat true 20 ++ repeat false 41.
Example C61_example : check_if_valid ex_b = true /\ length ex_x = length ex_w /\ Z.of_nat (length ex_x) = 2 * 1 * 32 /\
  dot ex_x ex_w = 22 /\ (int8_output ex_b (1 # 2) (-128) (1 # 4) 3 (differing ex_x ex_w) == -111)%Q /\ bkernel_type ex_b = IndirectInt8.
Proof. repeat split; vm_compute; reflexivity. Qed.
Example C61_padding_example : conv_padding_values 7 7 3 3 1 1 2 2 = ((1, 1), (1, 1), (9, 9)) /\ same_out 7 2 = 4.
Proof. split; reflexivity. Qed.

(** Exactly which binary convolutions are accepted (the others stop the compilation). *)
Theorem C61_exactly_when : forall b,
  check_if_valid b = true <->
  b_filter_type b = I32 /\ b_padding b = VALID /\ Z.rem (b_channels_in b) 32 = 0 /\
  (b_out_type b = I32 \/ b_out_type b = QI8 /\ b_faf b = RELU /\ Z.rem (b_out_depth b) 4 = 0).
Proof.
  intros b. unfold check_if_valid. rewrite !andb_true_iff, !orb_true_iff, !Z.eqb_eq.
  destruct (b_filter_type b), (b_out_type b), (b_padding b), (b_faf b); cbn; intuition congruence.
Qed.

(** A binary output packs 32 channels per element; bit r of word q is channel 32 * q + r. *)
Theorem C61_channels : forall b, check_if_valid b = true ->
  output_channels b = match b_out_type b with QI8 => b_out_depth b | _ => 32 * b_out_depth b end /\ input_channels b = 32 * b_in_depth b.
Proof.
  intros b _. unfold output_channels, binary_output, input_channels. destruct (b_out_type b); cbn [is_qi8 negb]; split; lia.
Qed.
Theorem C61_packed_bits : forall p q r, (r < 32)%nat -> pixel_bit p (32 * q + r) = Z.testbit (nth q p 0) (Z.of_nat r).
Proof.
  intros p q r Hr. unfold pixel_bit. rewrite Nat.mul_comm, Nat.add_comm, Nat.div_add, Nat.mod_add, Nat.div_small, Nat.mod_small by lia. reflexivity.
Qed.

Print Assumptions C61_int8_output.
Print Assumptions C61_kernel_selection.
Print Assumptions C61_same_one_padding.
Print Assumptions C61_same_zero_rejected.
Print Assumptions C61_exactly_when.
