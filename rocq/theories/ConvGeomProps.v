(** C32-C35, C48: geometric rewrites of convolutions. *)
From Coq Require Import QArith Lqa.
From Verif Require Import Base NdSpec ConvSpec ConvOptSpec ConvOptProofs ConvGeomModel ConvGeomSpec OpSplitProofs ConvGeomProofs.
Local Open Scope Z_scope.

(** ** C32 *)
(** The inserted padding makes the VALID convolution equal to the SAME one: same output
    size, and every output pixel is the same function of the same window.  [z] is the
    padding pixel. *)
Theorem C32_same_conv_equals_pad_and_valid : forall P Q (G : list (list P) -> Q) (fH fW : nat) sH sW dH dW inH inW z img,
  1 <= inH -> 1 <= inW -> (1 <= fH)%nat -> (1 <= fW)%nat -> 1 <= sH -> 1 <= sW -> 1 <= dH -> 1 <= dW ->
  let '((top, bottom), (lft, rgt), (newH, newW)) := conv_padding_values inH inW (Z.of_nat fH) (Z.of_nat fW) dH dW sH sW in
  0 <= top /\ 0 <= bottom /\ 0 <= lft /\ 0 <= rgt /\
  newH = inH + top + bottom /\ newW = inW + lft + rgt /\
  valid_out newH (Z.of_nat fH) dH sH = same_out inH sH /\
  valid_out newW (Z.of_nat fW) dW sW = same_out inW sW /\
  forall y x, 0 <= y < same_out inH sH -> 0 <= x < same_out inW sW ->
    conv_at G fH fW sH sW dH dW newH newW z 0 0 (pad_image inH inW z top lft img) y x =
    conv_at G fH fW sH sW dH dW inH inW z (same_before inH (Z.of_nat fH) dH sH) (same_before inW (Z.of_nat fW) dW sW) img y x.
Proof.
  intros P Q G fH fW sH sW dH dW inH inW z img HH HW HfH HfW HsH HsW HdH HdW.
  unfold conv_padding_values. rewrite !windowed_same_d by lia.
  destruct (same_bounds_d inH (Z.of_nat fH) dH sH) as (A1 & A2 & A3 & A4 & A5 & A6 & A7); try lia.
  destruct (same_bounds_d inW (Z.of_nat fW) dW sW) as (B1 & B2 & B3 & B4 & B5 & B6 & B7); try lia.
  repeat (split; [first [assumption | reflexivity | apply valid_of_padded; lia]|]).
  intros y x Hy Hx. unfold conv_at. f_equal. apply window_ext. intros ky kx Hky Hkx.
  set (t := same_before inH (Z.of_nat fH) dH sH) in *. set (l := same_before inW (Z.of_nat fW) dW sW) in *.
  set (b := same_after inH (Z.of_nat fH) dH sH) in *. set (r := same_after inW (Z.of_nat fW) dW sW) in *.
  pose proof (eff_tap (Z.of_nat fH) dH ky HdH Hky) as Ey. pose proof (eff_tap (Z.of_nat fW) dW kx HdW Hkx) as Ex.
  assert (Sy : 0 <= y * sH <= (same_out inH sH - 1) * sH).
  { split; [apply Z.mul_nonneg_nonneg; lia|apply Z.mul_le_mono_nonneg_r; lia]. }
  assert (Sx : 0 <= x * sW <= (same_out inW sW - 1) * sW).
  { split; [apply Z.mul_nonneg_nonneg; lia|apply Z.mul_le_mono_nonneg_r; lia]. }
  set (ys := y * sH) in *. set (xs := x * sW) in *. set (yt := ky * dH) in *. set (xt := kx * dW) in *.
  unfold zpad at 1. unfold in_image at 1.
  replace ((0 <=? ys - 0 + yt) && (ys - 0 + yt <? inH + t + b) && (0 <=? xs - 0 + xt) && (xs - 0 + xt <? inW + l + r)) with true by lia.
  unfold pad_image. f_equal; lia.
Qed.

Example C32_example : conv_padding_values 7 10 3 4 2 1 2 3 = ((2, 2), (1, 2), (11, 13)) /\ same_out 7 2 = 4 /\ same_out 10 3 = 4.
Proof. split; reflexivity || (split; reflexivity). Qed.

(** ** C33 *)
(** The SAME transpose convolution whose output is stride times the input, with a kernel
    at least as large as the stride: the slice lies inside the VALID output and every
    pixel is equal. *)
Theorem C33_same_transpose_conv_partial : forall (inH inW kH kW : nat) sH sW prod,
  (1 <= inH)%nat -> (1 <= inW)%nat -> 1 <= sH <= Z.of_nat kH -> 1 <= sW <= Z.of_nat kW ->
  let outH := Z.of_nat inH * sH in let outW := Z.of_nat inW * sW in
  let '((vH, vW), slice) := same_to_valid (Z.of_nat inH) (Z.of_nat inW) (Z.of_nat kH) (Z.of_nat kW) sH sW in
  let '(bY, bX) := match slice with Some b => b | None => (0, 0) end in
  0 <= bY /\ bY + outH <= vH /\ 0 <= bX /\ bX + outW <= vW /\
  (slice = None -> outH = vH /\ outW = vW) /\
  forall Y X, transpose_at inH inW kH kW sH sW prod (bY + Y) (bX + X) =
              transpose_same_at inH inW kH kW sH sW outH outW prod Y X.
Proof.
  intros inH inW kH kW sH sW prod HH HW HsH HsW outH outW. unfold same_to_valid.
  assert (SB : forall (n k : nat) s, (1 <= n)%nat -> 1 <= s <= Z.of_nat k -> same_before (Z.of_nat n * s) (Z.of_nat k) 1 s = (Z.of_nat k - s) / 2).
  { intros n k s Hn Hs. unfold same_before, same_needed, same_out, eff.
    replace ((Z.of_nat n * s + s - 1) / s) with (Z.of_nat n) by (apply Z.div_unique with (s - 1); lia).
    f_equal. lia. }
  assert (Q : forall k s, 1 <= s <= k -> Z.quot (k - s) 2 = (k - s) / 2) by (intros; apply Z.quot_div_nonneg; lia).
  unfold transpose_same_at. unfold outH, outW. rewrite !SB by lia.
  assert (D1 : 0 <= (Z.of_nat kH - sH) / 2 <= Z.of_nat kH - sH) by (Z.to_euclidean_division_equations; lia).
  assert (D2 : 0 <= (Z.of_nat kW - sW) / 2 <= Z.of_nat kW - sW) by (Z.to_euclidean_division_equations; lia).
  destruct (Z.eqb_spec (Z.of_nat kH - sH) 0) as [E1|E1], (Z.eqb_spec (Z.of_nat kW - sW) 0) as [E2|E2]; cbn [andb].
  1: { rewrite E1, E2. repeat split; try lia. intros Y X. f_equal; cbn; lia. }
  all: rewrite !Q by lia; repeat split; try lia; try discriminate; intros Y X; f_equal; lia.
Qed.

Example C33_example : same_to_valid 5 7 4 3 2 2 = ((12, 15), Some (1, 0)).
Proof. reflexivity. Qed.

(** *** Exactly when.  TFLite's SAME transpose convolution allows every output of [in * s - r] pixels, [0 <= r < s].  With [d] the
    kernel size minus the stride the pass takes the right slice exactly in these cases: *)
Definition slice_right (d r : Z) : Prop := 0 <= d /\ (r = 0 \/ r = 1 /\ Z.even d = true) \/ d = -1 /\ (r = 1 \/ r = 2).
Lemma zsum_single f n k : (k < n)%nat -> (forall i, (i < n)%nat -> i <> k -> f i = 0) -> zsum f n = f k.
Proof.
  intros L Hz. rewrite (zsum_ext f (fun i => if Z.of_nat i =? Z.of_nat k then f i else 0)).
  - rewrite zsum_one. rewrite Nat2Z.id. replace ((0 <=? Z.of_nat k) && (Z.of_nat k <? Z.of_nat n)) with true by lia. reflexivity.
  - intros i Hi. destruct (Z.eqb_spec (Z.of_nat i) (Z.of_nat k)); [reflexivity|]. apply Hz; [exact Hi|lia].
Qed.
Definition one_tap (p q : nat) (iy ix ky kx : nat) : Z := if (iy =? 0)%nat && (ix =? 0)%nat && (ky =? p)%nat && (kx =? q)%nat then 1 else 0.
Lemma transpose_one_tap inH inW kH kW sH sW p q Y X : (1 <= inH)%nat -> (1 <= inW)%nat -> (p < kH)%nat -> (q < kW)%nat ->
  transpose_at inH inW kH kW sH sW (one_tap p q) Y X = if (Y =? Z.of_nat p) && (X =? Z.of_nat q) then 1 else 0.
Proof.
  intros HH HW Hp Hq. unfold transpose_at.
  assert (Z0 : forall iy ky, (iy <> 0 \/ ky <> p)%nat -> zsum (fun ix => zsum (fun kx => if Z.of_nat ix * sW + Z.of_nat kx =? X then one_tap p q iy ix ky kx else 0) kW) inW = 0).
  { intros iy ky N. apply zsum_zero. intros ix _. apply zsum_zero. intros kx _. destruct (_ =? X); [|reflexivity]. unfold one_tap.
    destruct (Nat.eqb_spec iy 0); [|reflexivity]. destruct (Nat.eqb_spec ky p); [lia|]. destruct (ix =? 0)%nat; reflexivity. }
  rewrite (zsum_single _ _ 0%nat) by (try lia; intros i Hi N; apply zsum_zero; intros ky _; rewrite Z0 by (left; exact N); destruct (_ =? Y); reflexivity).
  rewrite (zsum_single _ _ p) by (try lia; intros ky Hk N; rewrite Z0 by (right; exact N); destruct (_ =? Y); reflexivity).
  rewrite Z.mul_0_l, Z.add_0_l. rewrite (Z.eqb_sym Y). destruct (Z.of_nat p =? Y); [|reflexivity]. cbn [andb].
  rewrite (zsum_single _ _ 0%nat); [|lia|].
  2:{ intros ix _ N. apply zsum_zero. intros kx _. destruct (_ =? X); [|reflexivity]. unfold one_tap. destruct (Nat.eqb_spec ix 0); [lia|]. rewrite andb_false_r. reflexivity. }
  rewrite (zsum_single _ _ q); [|lia|].
  2:{ intros kx _ N. destruct (_ =? X); [|reflexivity]. unfold one_tap. destruct (Nat.eqb_spec kx q); [lia|]. rewrite andb_false_r. reflexivity. }
  rewrite Z.mul_0_l, Z.add_0_l, (Z.eqb_sym X). destruct (Z.of_nat q =? X); [|reflexivity]. unfold one_tap. rewrite !Nat.eqb_refl. reflexivity.
Qed.
Theorem C33_exactly_when : forall (inH inW kH kW : nat) sH sW rH rW,
  (1 <= inH)%nat -> (1 <= inW)%nat -> (1 <= kH)%nat -> (1 <= kW)%nat -> 0 <= rH < sH -> 0 <= rW < sW ->
  let outH := Z.of_nat inH * sH - rH in let outW := Z.of_nat inW * sW - rW in
  let '((vH, vW), slice) := same_to_valid (Z.of_nat inH) (Z.of_nat inW) (Z.of_nat kH) (Z.of_nat kW) sH sW in
  let '(bY, bX) := match slice with Some b => b | None => (0, 0) end in
  same_out outH sH = Z.of_nat inH /\ same_out outW sW = Z.of_nat inW /\
  ((0 <= bY /\ bY + outH <= vH /\ 0 <= bX /\ bX + outW <= vW /\ (slice = None -> outH = vH /\ outW = vW) /\
    forall prod Y X, 0 <= Y < outH -> 0 <= X < outW ->
      transpose_at inH inW kH kW sH sW prod (bY + Y) (bX + X) = transpose_same_at inH inW kH kW sH sW outH outW prod Y X) <->
   slice_right (Z.of_nat kH - sH) rH /\ slice_right (Z.of_nat kW - sW) rW /\ (Z.of_nat kH = sH -> Z.of_nat kW = sW -> rH = 0 /\ rW = 0)).
Proof.
  intros inH inW kH kW sH sW rH rW HH HW HkH HkW HrH HrW outH outW.
  assert (SO : forall (n : nat) s r, (1 <= n)%nat -> 0 <= r < s -> same_out (Z.of_nat n * s - r) s = Z.of_nat n).
  { intros n s r Hn Hr. unfold same_out. symmetry. apply Z.div_unique with (s - 1 - r); lia. }
  assert (SB : forall (n k : nat) s r, (1 <= n)%nat -> 0 <= r < s -> same_before (Z.of_nat n * s - r) (Z.of_nat k) 1 s = Z.max 0 (Z.of_nat k - s + r) / 2).
  { intros n k s r Hn Hr. unfold same_before, same_needed. rewrite SO by assumption. unfold eff. f_equal. lia. }
  assert (AR : forall (n k : nat) s r, (1 <= n)%nat -> (1 <= k)%nat -> 0 <= r < s ->
     (slice_right (Z.of_nat k - s) r <->
      0 <= Z.quot (Z.of_nat k - s) 2 /\ Z.quot (Z.of_nat k - s) 2 + (Z.of_nat n * s - r) <= (Z.of_nat n - 1) * s + Z.of_nat k /\
      Z.quot (Z.of_nat k - s) 2 = Z.max 0 (Z.of_nat k - s + r) / 2)).
  { intros n k s r Hn Hk Hr. unfold slice_right. replace ((Z.of_nat n - 1) * s) with (Z.of_nat n * s - s) by lia. set (m := Z.of_nat n * s). clearbody m.
    set (d := Z.of_nat k - s).
    assert (E2 : Z.even d = true <-> d mod 2 = 0). { rewrite Zmod_even. destruct (Z.even d); split; intros; try reflexivity; try discriminate; lia. }
    rewrite E2. assert (K : Z.of_nat k = d + s) by (unfold d; lia). rewrite K. clearbody d. clear E2 K SO SB. Z.to_euclidean_division_equations. lia. }
  assert (PB : forall (k : nat) s r, (1 <= k)%nat -> 0 <= r < s -> 0 <= Z.max 0 (Z.of_nat k - s + r) / 2 < Z.of_nat k) by (intros; Z.to_euclidean_division_equations; lia).
  unfold same_to_valid.
  set (qy := Z.quot (Z.of_nat kH - sH) 2). set (qx := Z.quot (Z.of_nat kW - sW) 2).
  set (none := (Z.of_nat kH - sH =? 0) && (Z.of_nat kW - sW =? 0)).
  assert (NN : none = true <-> Z.of_nat kH = sH /\ Z.of_nat kW = sW) by (unfold none; lia).
  assert (BB : match (if none then None else Some (qy, qx)) with Some b => b | None => (0, 0) end = (qy, qx)).
  { destruct none eqn:En; [|reflexivity]. destruct (proj1 NN eq_refl) as [N1 N2]. unfold qy, qx. rewrite N1, N2, !Z.sub_diag. reflexivity. }
  rewrite BB. split; [apply SO; assumption|]. split; [apply SO; assumption|].
  assert (NS : (if none then None else Some (qy, qx)) = None <-> none = true) by (destruct none; split; congruence).
  unfold transpose_same_at. unfold outH, outW. rewrite !SB by assumption.
  pose proof (AR inH kH sH rH HH HkH HrH) as A1. pose proof (AR inW kW sW rW HW HkW HrW) as A2. fold qy in A1. fold qx in A2. rewrite A1, A2. clear A1 A2 AR.
  pose proof (PB kH sH rH HkH HrH) as P1. pose proof (PB kW sW rW HkW HrW) as P2. clear PB SB SO.
  set (py := Z.max 0 (Z.of_nat kH - sH + rH) / 2) in *. set (px := Z.max 0 (Z.of_nat kW - sW + rW) / 2) in *.
  clearbody qy qx py px. rewrite NS. clear NS BB. 
  assert (OUT : 0 < Z.of_nat inH * sH - rH /\ 0 < Z.of_nat inW * sW - rW) by (split; nia).
  split.
  - intros (B1 & B2 & B3 & B4 & B5 & B6).
    specialize (B6 (one_tap (Z.to_nat py) (Z.to_nat px)) 0 0 ltac:(lia) ltac:(lia)). rewrite !transpose_one_tap in B6 by lia.
    assert (EQ : qy = py /\ qx = px).
    { rewrite !Z.add_0_l, !Z.add_0_r, !Z2Nat.id, !Z.eqb_refl in B6 by lia. cbn [andb] in B6. destruct (Z.eqb_spec qy py), (Z.eqb_spec qx px); cbn [andb] in B6; try discriminate. auto. }
    split; [repeat split; tauto|]. split; [repeat split; tauto|]. intros N1 N2. destruct (B5 (proj2 NN (conj N1 N2))). clearbody none. clear -H H0 N1 N2. rewrite N1, N2 in *. lia.
  - intros ((C1 & C2 & C3) & (D1 & D2 & D3) & N). split; [exact C1|]. split; [exact C2|]. split; [exact D1|]. split; [exact D2|]. split.
    + intros En. apply NN in En. destruct En as [N1 N2]. destruct (N N1 N2). clear - N1 N2 H H0. lia.
    + intros prod Y X _ _. rewrite C3, D3. f_equal; lia.
Qed.
(** Kernel 4, stride 2: outputs of [2 n] and [2 n - 1] pixels are right; kernel 3, stride 2: only [2 n]; kernel 2, stride 3: [3 n - 1] and [3 n - 2]. *)
Example C33_exactly_concrete : slice_right (4 - 2) 0 /\ slice_right (4 - 2) 1 /\ slice_right (3 - 2) 0 /\ ~ slice_right (3 - 2) 1 /\
  slice_right (2 - 3) 1 /\ slice_right (2 - 3) 2 /\ ~ slice_right (2 - 3) 0 /\ ~ slice_right (1 - 3) 2.
Proof. unfold slice_right. cbn. intuition (discriminate || lia). Qed.

(** A kernel smaller than the stride: the slice does not fit in the VALID output. *)
Theorem C33_refuted_small_kernel : forall inH inW kH kW sH sW, 1 <= kH < sH ->
  let '((vH, _), slice) := same_to_valid inH inW kH kW sH sW in
  exists bY bX, slice = Some (bY, bX) /\ ~ (0 <= bY /\ bY + inH * sH <= vH).
Proof.
  intros inH inW kH kW sH sW H. unfold same_to_valid.
  replace (kH - sH =? 0) with false by lia. cbn [andb]. eexists _, _. split; [reflexivity|].
  Z.to_euclidean_division_equations. lia.
Qed.
(** Another output size allowed by SAME padding (an odd output with stride 2): the
    slice begins at another place than TFLite's padding. *)
Theorem C33_refuted_odd_output :
  let '(_, slice) := same_to_valid 3 3 3 3 2 2 in
  same_out 5 2 = 3 /\ slice = Some (0, 0) /\ same_before 5 3 1 2 = 1 /\
  transpose_at 3 3 3 3 2 2 (fun iy ix ky kx => Z.of_nat (iy * 1000 + ix * 100 + ky * 10 + kx)) 0 0 <>
  transpose_same_at 3 3 3 3 2 2 5 5 (fun iy ix ky kx => Z.of_nat (iy * 1000 + ix * 100 + ky * 10 + kx)) 0 0.
Proof. repeat split; discriminate. Qed.

(** ** C34 *)
Lemma reorder_nodup kH kW sH sW : NoDup (map (fun c => (subH c, subW c)) (reorder_kernel kH kW sH sW)).
Proof.
  unfold reorder_kernel. set (lw := filter _ (seq 0 sW)). set (lh := filter _ (seq 0 sH)).
  assert (Nw : NoDup lw) by (apply NoDup_filter, seq_NoDup). assert (Nh : NoDup lh) by (apply NoDup_filter, seq_NoDup).
  clearbody lw lh. induction Nh as [|h lh Hh Nh IH]; cbn [flat_map map]; [constructor|].
  rewrite map_app, map_map. cbn [subH subW]. 
  assert (APP : forall (l1 l2 : list (nat * nat)), NoDup l1 -> NoDup l2 -> (forall p, In p l1 -> ~ In p l2) -> NoDup (l1 ++ l2)).
  { clear. induction l1 as [|p l1 IH]; intros l2 H1 H2 H; cbn; auto. inversion H1; subst. constructor.
    - intros I. apply in_app_or in I. destruct I as [I|I]; [auto|]. apply (H p); [left|]; auto.
    - apply IH; auto. intros q Hq. apply H. right; auto. }
  apply APP.
  - clear -Nw. induction Nw as [|w lw Hw Nw IH]; cbn; constructor; auto.
    intros I. apply in_map_iff in I. destruct I as (w' & E & I). inversion E; subst. auto.
  - exact IH.
  - intros p Hp I. apply in_map_iff in Hp. destruct Hp as (w & <- & Hw).
    apply in_map_iff in I. destruct I as (c & E & I). apply in_flat_map in I. destruct I as (h' & Hh' & I).
    apply in_map_iff in I. destruct I as (w' & <- & _). cbn in E. inversion E; subst. auto.
Qed.

(** Every output position of a VALID transpose convolution belongs to exactly one
    sub-convolution, which computes it from the padded input, reading only inside it.
    [mul p (ky, kx)] is the contribution of pixel [p] with tap (ky, kx); a padding pixel
    contributes nothing.  Strides at most the kernel size. *)
Theorem C34_transpose_conv_partial : forall P (z : P) (mul : P -> nat * nat -> Z) (img : image P) (inH inW kH kW sH sW : nat),
  (forall t, mul z t = 0) -> (1 <= inH)%nat -> (1 <= inW)%nat -> (1 <= sH <= kH)%nat -> (1 <= sW <= kW)%nat ->
  let cs := reorder_kernel kH kW sH sW in
  let '(vp, hp) := transpose_padding cs in
  NoDup (map (fun c => (subH c, subW c)) cs) /\
  forall Y X, 0 <= Y < (Z.of_nat inH - 1) * Z.of_nat sH + Z.of_nat kH -> 0 <= X < (Z.of_nat inW - 1) * Z.of_nat sW + Z.of_nat kW ->
  exists c, In c cs /\ Y mod Z.of_nat sH = Z.of_nat (subH c) /\ X mod Z.of_nat sW = Z.of_nat (subW c) /\
    (forall c', In c' cs -> Y mod Z.of_nat sH = Z.of_nat (subH c') -> X mod Z.of_nat sW = Z.of_nat (subW c') -> c' = c) /\
    let y0 := vp - (Z.of_nat (skH c) - 1) in let x0 := hp - (Z.of_nat (skW c) - 1) in
    (1 <= skH c)%nat /\ (1 <= skW c)%nat /\
    0 <= y0 + Y / Z.of_nat sH /\ y0 + Y / Z.of_nat sH + Z.of_nat (skH c) <= Z.of_nat inH + 2 * vp /\
    0 <= x0 + X / Z.of_nat sW /\ x0 + X / Z.of_nat sW + Z.of_nat (skW c) <= Z.of_nat inW + 2 * hp /\
    (forall i16 depth, input_offset i16 depth (Z.of_nat inW) vp hp c =
       (if i16 then 2 else 1) * pixel_address (Z.of_nat inW + 2 * hp) depth y0 x0 0) /\
    sub_conv_at (skH c) (skW c) mul (tap c) (pad_image (Z.of_nat inH) (Z.of_nat inW) z vp hp img)
      (y0 + Y / Z.of_nat sH) (x0 + X / Z.of_nat sW) =
    transpose_at inH inW kH kW (Z.of_nat sH) (Z.of_nat sW) (fun iy ix ky kx => mul (img (Z.of_nat iy) (Z.of_nat ix)) (ky, kx)) Y X.
Proof.
  intros P z mul img inH inW kH kW sH sW Hz HH HW HsH HsW cs.
  destruct (transpose_padding cs) as [vp hp] eqn:ET.
  pose proof (transpose_padding_max cs 0 0) as TM. cbv zeta in TM. fold (transpose_padding cs) in TM. rewrite ET in TM. cbn [fst snd] in TM.
  destruct TM as (V0 & H0 & TM). rewrite Forall_forall in TM.
  split; [apply reorder_nodup|]. intros Y X HY HX.
  pose proof (Z.div_mod Y (Z.of_nat sH) ltac:(lia)) as DY. pose proof (Z.mod_pos_bound Y (Z.of_nat sH) ltac:(lia)) as MY.
  pose proof (Z.div_mod X (Z.of_nat sW) ltac:(lia)) as DX. pose proof (Z.mod_pos_bound X (Z.of_nat sW) ltac:(lia)) as MX.
  set (y := Y / Z.of_nat sH) in *. set (x := X / Z.of_nat sW) in *. clearbody y x.
  set (h := Z.to_nat (Y mod Z.of_nat sH)). set (w := Z.to_nat (X mod Z.of_nat sW)).
  assert (Eh : Y mod Z.of_nat sH = Z.of_nat h) by lia. assert (Ew : X mod Z.of_nat sW = Z.of_nat w) by lia.
  rewrite Eh in *. rewrite Ew in *. clearbody h w.
  assert (Y0 : 0 <= y) by nia. assert (X0 : 0 <= x) by nia.
  destruct (reorder_in kH kW sH sW h w ltac:(lia) ltac:(lia) ltac:(lia) ltac:(lia)) as (c & Ic & Ch & Cw).
  exists c. split; [exact Ic|]. split; [lia|]. split; [lia|]. split.
  { intros c' Ic' H1 H2. destruct (in_reorder _ _ _ _ _ Ic) as (_ & E1). destruct (in_reorder _ _ _ _ _ Ic') as (_ & E2).
    rewrite E1, E2. rewrite Ch, Cw. replace (subH c') with h by lia. replace (subW c') with w by lia. reflexivity. }
  destruct (in_reorder _ _ _ _ _ Ic) as (_ & Ec). rewrite Ch, Cw in Ec.
  assert (SH : skH c = sub_count kH h sH) by (rewrite Ec; reflexivity).
  assert (SW : skW c = sub_count kW w sW) by (rewrite Ec; reflexivity).
  assert (NH : (1 <= sub_count kH h sH)%nat) by (assert (0 < sub_count kH h sH)%nat by (apply sub_count_spec; lia); lia).
  assert (NW : (1 <= sub_count kW w sW)%nat) by (assert (0 < sub_count kW w sW)%nat by (apply sub_count_spec; lia); lia).
  destruct (TM c Ic) as [T1 T2].
  assert (UB : forall (n k s hh : nat) yy q, (1 <= n)%nat -> (1 <= s)%nat -> (hh < k)%nat ->
            q = Z.of_nat s * yy + Z.of_nat hh -> q < (Z.of_nat n - 1) * Z.of_nat s + Z.of_nat k -> yy < Z.of_nat n + Z.of_nat (sub_count k hh s) - 1).
  { clear. intros n k s hh yy q Hn Hs Hk E L. destruct (Z.lt_ge_cases yy (Z.of_nat n + Z.of_nat (sub_count k hh s) - 1)) as [|G]; [assumption|exfalso].
    set (j := Z.to_nat (yy - (Z.of_nat n - 1))).
    assert (~ (j < sub_count k hh s)%nat) as NJ by lia. apply NJ. apply sub_count_spec; lia. }
  pose proof (UB inH kH sH h y Y ltac:(lia) ltac:(lia) ltac:(lia) ltac:(lia) ltac:(lia)) as UY.
  pose proof (UB inW kW sW w x X ltac:(lia) ltac:(lia) ltac:(lia) ltac:(lia) ltac:(lia)) as UX.
  rewrite <- SH in NH, UY. rewrite <- SW in NW, UX. cbv zeta.
  split; [lia|]. split; [lia|]. split; [lia|]. split; [lia|]. split; [lia|]. split; [lia|]. split.
  { intros i16 depth. unfold input_offset, pixel_address. cbv zeta. destruct i16; ring. }
  unfold transpose_at. set (n := skH c) in *. set (m := skW c) in *.
  assert (Tap : forall a b, tap c a b = (h + sH * (n - 1 - a), w + sW * (m - 1 - b))%nat).
  { intros a b. rewrite SH, SW. rewrite Ec. reflexivity. }
  transitivity (zsum (fun iy => zsum (fun ky => if Z.of_nat iy * Z.of_nat sH + Z.of_nat ky =? y * Z.of_nat sH + Z.of_nat h then
      zsum (fun ix => zsum (fun kx => if Z.of_nat ix * Z.of_nat sW + Z.of_nat kx =? x * Z.of_nat sW + Z.of_nat w then
         mul (img (Z.of_nat iy) (Z.of_nat ix)) (ky, kx) else 0) kW) inW else 0) kH) inH).
  2: { replace (y * Z.of_nat sH + Z.of_nat h) with Y by lia. replace (x * Z.of_nat sW + Z.of_nat w) with X by lia. reflexivity. }
  rewrite (transpose_1d inH kH h sH y (fun iy ky => zsum (fun ix => zsum (fun kx =>
     if Z.of_nat ix * Z.of_nat sW + Z.of_nat kx =? x * Z.of_nat sW + Z.of_nat w then mul (img (Z.of_nat iy) (Z.of_nat ix)) (ky, kx) else 0) kW) inW)) by lia.
  rewrite <- SH. unfold sub_conv_at. apply zsum_ext. intros a Ha. cbv zeta.
  set (i := y - Z.of_nat (n - 1) + Z.of_nat a).
  assert (Ei : vp - (Z.of_nat n - 1) + y + Z.of_nat a - vp = i) by lia.
  destruct ((0 <=? i) && (i <? Z.of_nat inH)) eqn:Bi.
  - rewrite (transpose_1d inW kW w sW x (fun ix kx => mul (img (Z.of_nat (Z.to_nat i)) (Z.of_nat ix)) (h + sH * (n - 1 - a), kx)%nat)) by lia.
    rewrite <- SW. apply zsum_ext. intros b Hb. cbv zeta. set (j := x - Z.of_nat (m - 1) + Z.of_nat b).
    assert (Ej : hp - (Z.of_nat m - 1) + x + Z.of_nat b - hp = j) by lia.
    unfold pad_image. rewrite Ei, Ej, Tap. unfold zpad, in_image. rewrite Bi. cbn [andb].
    apply andb_true_iff in Bi. destruct Bi as [Bi1 Bi2]. apply Z.leb_le in Bi1.
    destruct (Z.leb_spec 0 j) as [J1|J1]; cbn [andb]; [|apply Hz].
    destruct (j <? Z.of_nat inW); [|apply Hz]. rewrite !Z2Nat.id by assumption. reflexivity.
  - apply zsum_zero. intros b Hb. unfold pad_image. rewrite Ei. unfold zpad, in_image. rewrite Bi. cbn [andb]. apply Hz.
Qed.

Example C34_example :
  let cs := reorder_kernel 5 3 2 2 in
  transpose_padding cs = (2, 1) /\ map (fun c => (subH c, subW c, skH c, skW c)) cs = [(0, 0, 3, 2); (0, 1, 3, 1); (1, 0, 2, 2); (1, 1, 2, 1)]%nat /\
  map (fun c => input_offset false 4 6 2 1 c) cs = [0; 4; 32; 36].
Proof. repeat split; reflexivity. Qed.

(** For strides beyond the kernel: every output position belongs to one of the convolutions exactly when, in each direction,
    the stride is at most the kernel size or the input has a single row (column); the other positions are written by none. *)
Theorem C34_covered_exactly_when : forall inH inW kH kW sH sW : nat,
  (1 <= inH)%nat -> (1 <= inW)%nat -> (1 <= sH)%nat -> (1 <= kH)%nat -> (1 <= sW)%nat -> (1 <= kW)%nat ->
  let cs := reorder_kernel kH kW sH sW in
  ((forall Y X, 0 <= Y < (Z.of_nat inH - 1) * Z.of_nat sH + Z.of_nat kH -> 0 <= X < (Z.of_nat inW - 1) * Z.of_nat sW + Z.of_nat kW ->
      exists c, In c cs /\ Y mod Z.of_nat sH = Z.of_nat (subH c) /\ X mod Z.of_nat sW = Z.of_nat (subW c)) <->
   ((sH <= kH)%nat \/ inH = 1%nat) /\ ((sW <= kW)%nat \/ inW = 1%nat)).
Proof.
  intros inH inW kH kW sH sW IH IW SH KH SW KW cs.
  assert (Out : forall n s k : nat, (1 <= n)%nat -> (1 <= k)%nat -> 0 < (Z.of_nat n - 1) * Z.of_nat s + Z.of_nat k) by (intros; nia).
  split.
  - intros Cov. split.
    + destruct (Nat.le_gt_cases sH kH) as [|L]; auto. right. destruct (Nat.eq_dec inH 1) as [|N]; auto. exfalso.
      destruct (Cov (Z.of_nat kH) 0) as (c & Hc & E1 & _); [split; [lia|nia]|split; [lia|apply Out; lia]|].
      apply in_reorder in Hc. destruct Hc as ((_ & B & _) & _). rewrite Z.mod_small in E1 by lia. lia.
    + destruct (Nat.le_gt_cases sW kW) as [|L]; auto. right. destruct (Nat.eq_dec inW 1) as [|N]; auto. exfalso.
      destruct (Cov 0 (Z.of_nat kW)) as (c & Hc & _ & E1); [split; [lia|apply Out; lia]|split; [lia|nia]|].
      apply in_reorder in Hc. destruct Hc as ((_ & _ & _ & B) & _). rewrite Z.mod_small in E1 by lia. lia.
  - intros [CH CW] Y X HY HX.
    assert (G : forall n s k V, (1 <= s)%nat -> (1 <= k)%nat -> (s <= k)%nat \/ n = 1%nat -> 0 <= V < (Z.of_nat n - 1) * Z.of_nat s + Z.of_nat k ->
                (Z.to_nat (V mod Z.of_nat s) < s)%nat /\ (Z.to_nat (V mod Z.of_nat s) < k)%nat /\ Z.of_nat (Z.to_nat (V mod Z.of_nat s)) = V mod Z.of_nat s).
    { intros n s k V Hs Hk C HV. pose proof (Z.mod_pos_bound V (Z.of_nat s)) as B. assert (M : V mod Z.of_nat s <= V) by (apply Z.mod_le; lia).
      rewrite Z2Nat.id by lia. split; [lia|]. split; auto. destruct C as [C| ->]; lia. }
    destruct (G inH sH kH Y SH KH CH HY) as (G1 & G2 & G3). destruct (G inW sW kW X SW KW CW HX) as (G4 & G5 & G6).
    destruct (reorder_in kH kW sH sW _ _ G1 G2 G4 G5) as (c & Hc & E1 & E2). exists c. rewrite E1, E2. auto.
Qed.

(** ** C35 *)
(** Same results, in the same order, as the fully connected operator applied to the rows
    of the input, whenever the reshape in front of the convolution is legal (same number
    of elements), which holds exactly when the dimensions before the last two are 1; the
    reshaped result has the original shape for rank 2, and for rank 3 with leading 1. *)
Theorem C35_fully_connected_partial : forall R (G : list Z -> list Z -> nat -> R) lead S C O input filter,
  0 < S -> 0 < C -> 0 < O -> Forall (fun d => 0 < d) lead ->
  let shape := lead ++ [S; C] in
  (zprod (fc_conv_shape shape) = zprod shape <-> zprod lead = 1) /\
  (zprod lead = 1 ->
     fc_conv_shape shape = [1; 1; S; C] /\ fc_filter_shape [O; C] = [O; 1; 1; C] /\
     conv_1x1 G 1 (Z.to_nat S) (Z.to_nat C) (Z.to_nat O) input filter =
     fully_connected G (Z.to_nat (zprod shape / C)) (Z.to_nat C) (Z.to_nat O) input filter) /\
  fc_squeezed [S; O] = [S; O] /\ fc_squeezed [1; S; O] = [1; S; O].
Proof.
  intros R G lead S C O input filter HS HC HO HL shape.
  assert (P : forall a b, zprod (a ++ b) = zprod a * zprod b).
  { induction a as [|v a IH]; intros b; cbn [zprod fold_right app]; [unfold zprod; cbn; destruct (fold_right _ _ _); reflexivity|].
    unfold zprod in *. cbn [fold_right]. rewrite IH. ring. }
  assert (L : (length shape - 2 = length lead)%nat /\ (length shape - 1 = length lead + 1)%nat) by (unfold shape; rewrite app_length; cbn; lia).
  assert (E : fc_conv_shape shape = [1; 1; S; C]).
  { unfold fc_conv_shape. cbv zeta. destruct L as [-> ->]. unfold shape. rewrite !app_nth2 by lia.
    rewrite Nat.sub_diag. replace (length lead + 1 - length lead)%nat with 1%nat by lia. reflexivity. }
  assert (PS : zprod [S; C] = S * C) by (unfold zprod; cbn [fold_right]; ring).
  assert (PS4 : zprod [1; 1; S; C] = S * C) by (unfold zprod; cbn [fold_right]; ring).
  split; [|split; [|split; reflexivity]].
  - rewrite E, PS4. unfold shape. rewrite P, PS. split; intros H; [|rewrite H; ring].
    assert (0 < S * C) by (apply Z.mul_pos_pos; lia). nia.
  - intros H1. split; [exact E|]. split; [reflexivity|].
    unfold shape. rewrite P, PS, H1, Z.mul_1_l, Z.div_mul by lia.
    unfold conv_1x1, fully_connected. cbn [seq flat_map]. rewrite app_nil_r.
    apply flat_map_ext_in'. intros b _. apply map_ext. intros o. rewrite Nat.mul_0_l, Nat.add_0_l. reflexivity.
Qed.

(** Exactly when: the two reshapes and the convolution put in the place of the operator are
    legal and give back a result of its shape exactly when all dimensions before the last
    two are 1, the last one is the length of a row of the filter and the result has rank 2
    or 3.  The results are then those of the operator. *)
Theorem C35_exactly_when : forall R (G : list Z -> list Z -> nat -> R) s O I r input filter,
  fc_typed s O I r ->
  ((legal_reshape s (fc_conv_shape s) /\
    legal_conv_1x1 (fc_conv_shape s) (fc_filter_shape [O; I]) (fc_conv_shape r) /\
    legal_reshape (fc_conv_shape r) (fc_squeezed r) /\ fc_squeezed r = r) <->
   exists k S, s = repeat 1 k ++ [S; I] /\ (r = [S; O] \/ r = [1; S; O])) /\
  (forall k S, s = repeat 1 k ++ [S; I] ->
     conv_1x1 G 1 (Z.to_nat S) (Z.to_nat I) (Z.to_nat O) input filter =
     fully_connected G (Z.to_nat (elements s / I)) (Z.to_nat I) (Z.to_nat O) input filter).
Proof.
  intros R G s O I r input filter (Hp & Hl & HO & HI & Ht).
  assert (P : forall a b, elements (a ++ b) = elements a * elements b).
  { induction a as [|v a IH]; intros b; cbn [elements fold_right app]; [unfold elements; cbn; destruct (fold_right _ _ _); reflexivity|].
    unfold elements in *. cbn [fold_right]. rewrite IH. ring. }
  assert (P2 : forall a b, elements [a; b] = a * b) by (intros; unfold elements; cbn [fold_right]; ring).
  assert (P4 : forall a b, elements [1; 1; a; b] = a * b) by (intros; unfold elements; cbn [fold_right]; ring).
  assert (P1 : forall k, elements (repeat 1 k) = 1).
  { induction k as [|k IH]; [reflexivity|]. change (elements (repeat 1 (S k))) with (1 * elements (repeat 1 k)). rewrite IH. reflexivity. }
  assert (Sh : forall lead a b, fc_conv_shape (lead ++ [a; b]) = [1; 1; a; b]).
  { intros lead a b. unfold fc_conv_shape. rewrite app_length. cbn [length]. cbv zeta.
    replace (length lead + 2 - 2)%nat with (length lead) by lia. replace (length lead + 2 - 1)%nat with (length lead + 1)%nat by lia.
    rewrite !app_nth2 by lia. rewrite Nat.sub_diag. replace (length lead + 1 - length lead)%nat with 1%nat by lia. reflexivity. }
  assert (Ones : forall l, Forall (fun d => 0 < d) l -> elements l = 1 -> l = repeat 1 (length l) /\ True).
  { induction l as [|v l IH]; intros F E; [split; auto|]. inversion F; subst. unfold elements in *. cbn [fold_right] in E.
    assert (Pos : 0 < fold_right Z.mul 1 l).
    { clear - H2. induction l as [|x l IH]; [cbn; lia|]. inversion H2; subst. cbn [fold_right]. apply Z.mul_pos_pos; auto. }
    assert (v = 1) by nia. subst v. destruct IH as [-> _]; auto; [lia|]. split; [|auto]. cbn [length repeat]. rewrite repeat_length. reflexivity. }
  assert (Dec : exists lead S C, s = lead ++ [S; C]).
  { destruct (exists_last (l := s)) as (l1 & C & ->); [destruct s; cbn in Hl; [lia|discriminate]|].
    rewrite app_length in Hl. cbn in Hl. destruct (exists_last (l := l1)) as (l2 & S & ->); [destruct l1; cbn in Hl; [lia|discriminate]|].
    exists l2, S, C. rewrite <- app_assoc. reflexivity. }
  destruct Dec as (lead & S & C & ->).
  apply Forall_app in Hp. destruct Hp as [Hlead HSC]. inversion HSC as [|? ? HS HC']; subst. inversion HC' as [|? ? HC _]; subst. clear HSC HC'.
  split.
  - rewrite Sh. unfold legal_reshape. rewrite P, P2, P4. split.
    + intros (R1 & (n & h & w & gr & ic & oc & E1 & E2 & E3 & Hg) & _ & Sq).
      assert (Hlead1 : elements lead = 1) by (assert (0 < S * C) by (apply Z.mul_pos_pos; auto); nia).
      destruct (Ones lead Hlead Hlead1) as [Lo _].
      unfold fc_filter_shape in E2. cbn [nth] in E2. injection E2 as <- <-. injection E1 as <- <- <- EC.
      destruct Ht as [(rows & T1 & ->)|(l1 & T1 & ->)].
      * change [rows; O] with ([] ++ [rows; O]) in E3. rewrite Sh in E3. injection E3 as ->.
        rewrite P, P2, Hlead1 in T1. assert (EI : gr * I = I) by (apply (Z.mul_reg_l _ _ S); lia).
        exists (length lead), S. split; [rewrite EC, EI, <- Lo; reflexivity|]. left. reflexivity.
      * assert (l1 = lead ++ [S] /\ C = I) as [-> ->].
        { change (lead ++ [S; C]) with (lead ++ [S] ++ [C]) in T1. rewrite app_assoc in T1. apply app_inj_tail in T1. destruct T1; auto. }
        exists (length lead), S. split; [rewrite <- Lo; congruence|].
        rewrite <- app_assoc in *. cbn [app] in *. unfold fc_squeezed in Sq. cbv zeta in Sq.
        destruct (Nat.eqb (length (lead ++ [S; O])) 3) eqn:E.
        -- right. apply Nat.eqb_eq in E. rewrite app_length in E. cbn in E. rewrite Lo. replace (length lead) with 1%nat by lia. reflexivity.
        -- left. assert (L2 : length (lead ++ [S; O]) = 2%nat) by (rewrite <- Sq; reflexivity). rewrite app_length in L2. cbn in L2.
           destruct lead; [reflexivity|cbn in L2; lia].
    + intros (k & S' & E & Er).
      assert (lead = repeat 1 k /\ S = S' /\ C = I) as (-> & <- & ->).
      { change (lead ++ [S; C]) with (lead ++ [S] ++ [C]) in E. change (repeat 1 k ++ [S'; I]) with (repeat 1 k ++ [S'] ++ [I]) in E.
        rewrite !app_assoc in E. apply app_inj_tail in E. destruct E as [E ->]. apply app_inj_tail in E. destruct E as [-> ->]. auto. }
      rewrite P1. split; [ring|].
      assert (Er' : fc_conv_shape r = [1; 1; S; O]) by (destruct Er as [-> | ->]; reflexivity).
      assert (Es : fc_squeezed r = r) by (destruct Er as [-> | ->]; reflexivity).
      rewrite Er', Es. split; [|split; [|reflexivity]].
      * exists 1, 1, S, 1, I, O. rewrite Z.mul_1_l. repeat split; lia.
      * rewrite P4. destruct Er as [-> | ->]; unfold elements; cbn [fold_right]; ring.
  - intros k S' E.
    assert (lead = repeat 1 k /\ S = S' /\ C = I) as (-> & <- & ->).
    { change (lead ++ [S; C]) with (lead ++ [S] ++ [C]) in E. change (repeat 1 k ++ [S'; I]) with (repeat 1 k ++ [S'] ++ [I]) in E.
      rewrite !app_assoc in E. apply app_inj_tail in E. destruct E as [E ->]. apply app_inj_tail in E. destruct E as [-> ->]. auto. }
    rewrite P, P2, P1, Z.mul_1_l, Z.div_mul by lia.
    unfold conv_1x1, fully_connected. cbn [seq flat_map]. rewrite app_nil_r.
    apply flat_map_ext_in'. intros b _. apply map_ext. intros o. rewrite Nat.mul_0_l, Nat.add_0_l. reflexivity.
Qed.
(** Both kinds of result, and a shape outside: a leading dimension of 2. *)
Example C35_typed : fc_typed [1; 1; 3; 4] 5 4 [3; 5] /\ fc_typed [1; 3; 4] 5 4 [1; 3; 5] /\ fc_typed [2; 3; 4] 5 4 [2; 3; 5] /\ fc_typed [2; 3; 4] 5 12 [2; 5].
Proof.
  assert (F : forall l, forallb (fun d => 0 <? d) l = true -> Forall (fun d => 0 < d) l).
  { intros l H. apply Forall_forall. intros x Hx. eapply forallb_forall in H; eauto. lia. }
  repeat split; try (apply F; reflexivity); cbn; try lia.
  - left. exists 3. split; reflexivity.
  - right. exists [1; 3]. split; reflexivity.
  - right. exists [2; 3]. split; reflexivity.
  - left. exists 2. split; reflexivity.
Qed.

Example C35_example : fc_conv_shape [1; 3; 4] = [1; 1; 3; 4] /\
  conv_1x1 (fun a b o => (zsum (fun i => nth i a 0 * nth i b 0) 2, o)) 1 2 2 2 [1; 2; 3; 4] [1; 0; 0; 1] = [(1, 0%nat); (2, 1%nat); (3, 0%nat); (4, 1%nat)].
Proof. split; reflexivity. Qed.

(** An input with another leading dimension: the reshape changes the number of elements. *)
Theorem C35_refuted_leading_dimension : zprod (fc_conv_shape [2; 3; 4]) = 12 /\ zprod [2; 3; 4] = 24.
Proof. split; reflexivity. Qed.
(** A result of another rank gets another shape than the operator replaced. *)
Theorem C35_refuted_rank_4_result : fc_squeezed [1; 1; 1; 10] = [1; 10].
Proof. reflexivity. Qed.

(** ** C48 *)
Local Open Scope Q_scope.
Lemma window_positions_length fH fW y x : length (window_positions fH fW y x) = (fH * fW)%nat.
Proof.
  unfold window_positions. rewrite <- (seq_length fH 0) at 2. generalize (seq 0 fH) as l. induction l as [|k l IH]; cbn [flat_map length]; auto.
  rewrite app_length, map_length, seq_length, IH. reflexivity.
Qed.
Lemma in_window_positions fH fW y x p : In p (window_positions fH fW y x) ->
  (y <= fst p < y + Z.of_nat fH /\ x <= snd p < x + Z.of_nat fW)%Z.
Proof.
  intros H. apply in_flat_map in H. destruct H as (ky & Hk & H). apply in_map_iff in H. destruct H as (kx & <- & Hx).
  apply in_seq in Hk, Hx. cbn. lia.
Qed.
Lemma filter_true {A} (f : A -> bool) l : (forall x, In x l -> f x = true) -> filter f l = l.
Proof. induction l as [|x l IH]; intros H; cbn; auto. rewrite (H x) by (left; auto). rewrite IH; auto. intros y Hy; apply H; right; auto. Qed.

Lemma avgpool_column fH fW depth ch : (0 < depth)%nat -> (ch < depth)%nat -> column depth ch (avgpool_filter fH fW depth) = repeat 1%Z (fH * fW).
Proof.
  intros Hd Hc. unfold column, avgpool_filter. rewrite repeat_length, Nat.div_mul by lia.
  transitivity (map (fun _ : nat => 1%Z) (seq 0 (fH * fW))).
  - apply map_ext_in. intros t Ht. apply in_seq in Ht. 
    assert (t * depth + ch < fH * fW * depth)%nat by nia.
    set (N := (fH * fW * depth)%nat) in *. set (k := (t * depth + ch)%nat) in *. clearbody N k.
    revert k H. induction N; intros k Hk; [lia|]. destruct k; cbn; auto. apply IHN; lia.
  - generalize 0%nat. induction (fH * fW)%nat as [|n IH]; intros a; cbn; auto. f_equal; auto.
Qed.

Lemma qsum_scale c l : qsum (map (fun v => v * c) l) == qsum l * c.
Proof. unfold qsum. induction l as [|v l IH]; cbn [map fold_right]; [ring|]. rewrite IH. ring. Qed.

(** On a window that lies inside the image, the depthwise convolution with the generated
    constants computes the average, as a real number (any channel, any quantisation of the
    input); with VALID padding every window does. *)
Theorem C48_average_pool_partial : forall H W (fH fW depth ch : nat) sH sW top lft s zp img y x,
  (1 <= fH)%nat -> (1 <= fW)%nat -> (ch < depth)%nat ->
  (0 <= y * sH - top /\ y * sH - top + Z.of_nat fH <= H)%Z -> (0 <= x * sW - lft /\ x * sW - lft + Z.of_nat fW <= W)%Z ->
  depthwise_real H W fH fW sH sW top lft s zp (avgpool_scale fH fW) avgpool_zero_point
    (column depth ch (avgpool_filter fH fW depth)) (inject_Z (nth ch (avgpool_bias depth) 1%Z)) img y x ==
  average_at H W fH fW sH sW top lft s zp img y x.
Proof.
  intros H W fH fW depth ch sH sW top lft s zp img y x HfH HfW Hch HY HX.
  assert (IN : forall p, In p (window_positions fH fW (y * sH - top) (x * sW - lft)) -> in_image H W (fst p) (snd p) = true).
  { intros p Hp. apply in_window_positions in Hp. unfold in_image. lia. }
  unfold average_at. rewrite (filter_true _ _ IN). unfold depthwise_real. rewrite avgpool_column by lia.
  pose proof (window_positions_length fH fW (y * sH - top) (x * sW - lft)) as LW.
  set (ps := window_positions fH fW (y * sH - top) (x * sW - lft)) in *. rewrite LW.
  assert (B : nth ch (avgpool_bias depth) 1%Z = 0%Z).
  { unfold avgpool_bias. clear -Hch. revert ch Hch. induction depth; intros ch Hch; [lia|]. destruct ch; cbn; auto. apply IHdepth; lia. }
  rewrite B. change (inject_Z 0) with 0. rewrite Qplus_0_r.
  transitivity (qsum (map (fun v => v * avgpool_scale fH fW) (map (fun p => s * inject_Z (img (fst p) (snd p) - zp)) ps))).
  - rewrite map_map.
    assert (EQ : forall l n, length l = n -> (forall p, In p l -> in_image H W (fst p) (snd p) = true) ->
      qsum (map (fun pw : Z * Z * Z => s * inject_Z (zpad H W zp img (fst (fst pw)) (snd (fst pw)) - zp) * (avgpool_scale fH fW * inject_Z (snd pw - avgpool_zero_point)))
         (combine l (repeat 1%Z n))) == qsum (map (fun p => s * inject_Z (img (fst p) (snd p) - zp) * avgpool_scale fH fW) l)).
    { clear. induction l as [|p l IH]; intros n Hn HI; subst n; [reflexivity|]. cbn [length repeat combine map qsum fold_right fst snd].
      unfold qsum in IH. unfold qsum. cbn [fold_right]. rewrite (IH (length l) eq_refl) by (intros q Hq; apply HI; right; auto).
      unfold zpad at 1. rewrite (HI p) by (left; auto). unfold avgpool_zero_point. change (inject_Z (1 - 0)) with 1. ring. }
    apply EQ; auto.
  - rewrite qsum_scale. unfold avgpool_scale, Qdiv. rewrite Qmult_1_l. reflexivity.
Qed.

(** With VALID padding the hypotheses on the window hold for every output position. *)
Theorem C48_valid_windows : forall n f s y, (1 <= f)%Z -> (1 <= s)%Z -> (0 <= y < valid_out n f 1 s)%Z ->
  (0 <= y * s - 0 /\ y * s - 0 + f <= n)%Z.
Proof.
  intros n f s y Hf Hs Hy. unfold valid_out, eff in Hy. replace ((f - 1) * 1 + 1)%Z with f in Hy by lia.
  assert (y + 1 <= (n - f + s) / s)%Z by lia. pose proof (Z.mul_div_le (n - f + s) s ltac:(lia)). split; [apply Z.le_sub_le_add_r; nia|nia].
Qed.

Example C48_example : average_at 4 4 2 2 2 2 0 0 (1 # 2) 3 (fun y x => 4 * y + x)%Z 1 1 == (19 # 4).
Proof. reflexivity. Qed.

(** *** Exactly what the generated convolution computes, and exactly when that is the average.  On any window the sum over the pixels
    inside the image is divided by the size of the whole window. *)
Lemma avgpool_computes : forall H W (fH fW depth ch : nat) sH sW top lft s zp img y x,
  (1 <= fH)%nat -> (1 <= fW)%nat -> (ch < depth)%nat ->
  depthwise_real H W fH fW sH sW top lft s zp (avgpool_scale fH fW) avgpool_zero_point
    (column depth ch (avgpool_filter fH fW depth)) (inject_Z (nth ch (avgpool_bias depth) 1%Z)) img y x ==
  qsum (map (fun p => s * inject_Z (img (fst p) (snd p) - zp))
          (filter (fun p => in_image H W (fst p) (snd p)) (window_positions fH fW (y * sH - top) (x * sW - lft)))) / inject_Z (Z.of_nat (fH * fW)).
Proof.
  intros H W fH fW depth ch sH sW top lft s zp img y x HfH HfW Hch. unfold depthwise_real. rewrite avgpool_column by lia.
  pose proof (window_positions_length fH fW (y * sH - top) (x * sW - lft)) as LW.
  set (ps := window_positions fH fW (y * sH - top) (x * sW - lft)) in *.
  assert (B : nth ch (avgpool_bias depth) 1%Z = 0%Z).
  { unfold avgpool_bias. clear -Hch. revert ch Hch. induction depth; intros ch Hch; [lia|]. destruct ch; cbn; auto. apply IHdepth; lia. }
  rewrite B. change (inject_Z 0) with 0. rewrite Qplus_0_r.
  transitivity (qsum (map (fun v => v * avgpool_scale fH fW) (map (fun p => s * inject_Z (img (fst p) (snd p) - zp)) (filter (fun p => in_image H W (fst p) (snd p)) ps)))).
  - rewrite map_map.
    assert (EQ : forall l n, length l = n ->
      qsum (map (fun pw : Z * Z * Z => s * inject_Z (zpad H W zp img (fst (fst pw)) (snd (fst pw)) - zp) * (avgpool_scale fH fW * inject_Z (snd pw - avgpool_zero_point)))
         (combine l (repeat 1%Z n))) == qsum (map (fun p => s * inject_Z (img (fst p) (snd p) - zp) * avgpool_scale fH fW) (filter (fun p => in_image H W (fst p) (snd p)) l))).
    { clear. induction l as [|p l IH]; intros n Hn; subst n; [reflexivity|]. cbn [length repeat combine map qsum fold_right fst snd filter].
      unfold qsum in *. cbn [fold_right]. rewrite (IH (length l) eq_refl).
      unfold zpad at 1. unfold avgpool_zero_point. change (inject_Z (1 - 0)) with 1. destruct (in_image H W (fst p) (snd p)).
      - cbn [map fold_right]. ring.
      - rewrite Z.sub_diag. change (inject_Z 0) with 0. ring. }
    apply EQ; auto.
  - rewrite qsum_scale. unfold avgpool_scale, Qdiv. rewrite Qmult_1_l. reflexivity.
Qed.
Lemma filter_le {A} (f : A -> bool) l : (length (filter f l) <= length l)%nat.
Proof. induction l as [|a l IH]; cbn; [lia|]. destruct (f a); cbn; lia. Qed.
Lemma filter_lt {A} (f : A -> bool) l a : In a l -> f a = false -> (length (filter f l) < length l)%nat.
Proof.
  induction l as [|b l IH]; intros HI Hf; [contradiction|]. cbn. destruct HI as [->|HI].
  - rewrite Hf. pose proof (filter_le f l). lia.
  - specialize (IH HI Hf). destruct (f b); cbn; lia.
Qed.
Lemma in_window fH fW y x a b : (y <= a < y + Z.of_nat fH)%Z -> (x <= b < x + Z.of_nat fW)%Z -> In (a, b) (window_positions fH fW y x).
Proof.
  intros Ha Hb. unfold window_positions. apply in_flat_map. exists (Z.to_nat (a - y)). split; [apply in_seq; lia|]. apply in_map_iff. exists (Z.to_nat (b - x)).
  split; [f_equal; lia|apply in_seq; lia].
Qed.
Lemma qsum_const {A} c (l : list A) : qsum (map (fun _ => c) l) == c * inject_Z (Z.of_nat (length l)).
Proof.
  unfold qsum. induction l as [|a l IH]; [cbn; ring|]. cbn [map fold_right length]. rewrite IH, Nat2Z.inj_succ. unfold Z.succ. rewrite inject_Z_plus. change (inject_Z 1) with 1. ring.
Qed.
(** For a window that meets the image (all windows of SAME and VALID pools do): right for every image exactly when the window lies
    inside the image. *)
Theorem C48_exactly_when : forall H W (fH fW depth ch : nat) sH sW top lft s zp y x,
  (1 <= fH)%nat -> (1 <= fW)%nat -> (ch < depth)%nat -> ~ s == 0 ->
  (y * sH - top < H /\ 0 < y * sH - top + Z.of_nat fH /\ 0 < H)%Z -> (x * sW - lft < W /\ 0 < x * sW - lft + Z.of_nat fW /\ 0 < W)%Z ->
  ((forall img, depthwise_real H W fH fW sH sW top lft s zp (avgpool_scale fH fW) avgpool_zero_point
      (column depth ch (avgpool_filter fH fW depth)) (inject_Z (nth ch (avgpool_bias depth) 1%Z)) img y x ==
    average_at H W fH fW sH sW top lft s zp img y x) <->
   (0 <= y * sH - top /\ y * sH - top + Z.of_nat fH <= H)%Z /\ (0 <= x * sW - lft /\ x * sW - lft + Z.of_nat fW <= W)%Z).
Proof.
  intros H W fH fW depth ch sH sW top lft s zp y x HfH HfW Hch Hs HY HX. split.
  2:{ intros [I1 I2] img. apply C48_average_pool_partial; auto. }
  intros A. specialize (A (fun _ _ => zp + 1)%Z). rewrite avgpool_computes in A by assumption. unfold average_at in A.
  replace (zp + 1 - zp)%Z with 1%Z in A by lia. change (inject_Z 1) with 1 in A. rewrite qsum_const in A.
  pose proof (window_positions_length fH fW (y * sH - top) (x * sW - lft)) as LW.
  set (ps := window_positions fH fW (y * sH - top) (x * sW - lft)) in *. set (inp := fun p : Z * Z => in_image H W (fst p) (snd p)) in *.
  assert (N0 : (0 < length (filter inp ps))%nat).
  { assert (IN : In (Z.max 0 (y * sH - top), Z.max 0 (x * sW - lft))%Z (filter inp ps)).
    { apply filter_In. split; [apply in_window; lia|]. unfold inp, in_image. cbn [fst snd]. lia. }
    destruct (filter inp ps); [contradiction|cbn; lia]. }
  assert (E : length (filter inp ps) = (fH * fW)%nat).
  { set (k := length (filter inp ps)) in *. clearbody k. assert (F0 : (0 < fH * fW)%nat) by (clear - HfH HfW; nia). set (n := (fH * fW)%nat) in *. clearbody n.
    assert (K0 : ~ inject_Z (Z.of_nat k) == 0) by (unfold Qeq; cbn; lia). assert (N1 : ~ inject_Z (Z.of_nat n) == 0) by (unfold Qeq; cbn; lia).
    assert (M : inject_Z (Z.of_nat k) == inject_Z (Z.of_nat n)).
    { assert (P : s * (inject_Z (Z.of_nat k)) == s * inject_Z (Z.of_nat n)).
      { rewrite Qmult_1_r in A. setoid_replace (s * inject_Z (Z.of_nat k) / inject_Z (Z.of_nat k)) with s in A by (field; exact K0).
        rewrite <- A at 2. field. exact N1. }
      apply Qmult_inj_l in P; assumption. }
    unfold Qeq in M. cbn in M. lia. }
  assert (IN : forall p, In p ps -> inp p = true).
  { intros p Hp. destruct (inp p) eqn:F; [reflexivity|]. pose proof (filter_lt inp ps p Hp F). lia. }
  assert (C1 := IN _ (in_window fH fW (y * sH - top) (x * sW - lft) (y * sH - top) (x * sW - lft) ltac:(lia) ltac:(lia))).
  assert (C2 := IN _ (in_window fH fW (y * sH - top) (x * sW - lft) (y * sH - top + Z.of_nat fH - 1) (x * sW - lft + Z.of_nat fW - 1) ltac:(lia) ltac:(lia))).
  unfold inp, in_image in C1, C2. cbn [fst snd] in C1, C2. lia.
Qed.
(** A pool with SAME padding is right at every position, for every image, exactly when it needs no padding. *)
Theorem C48_same_exactly_when : forall H W (fH fW depth ch : nat) sH sW s zp,
  (1 <= fH)%nat -> (1 <= fW)%nat -> (ch < depth)%nat -> ~ s == 0 -> (1 <= sH)%Z -> (1 <= sW)%Z -> (1 <= H)%Z -> (1 <= W)%Z ->
  ((forall img y x, (0 <= y < same_out H sH)%Z -> (0 <= x < same_out W sW)%Z ->
    depthwise_real H W fH fW sH sW (same_before H (Z.of_nat fH) 1 sH) (same_before W (Z.of_nat fW) 1 sW) s zp (avgpool_scale fH fW) avgpool_zero_point
      (column depth ch (avgpool_filter fH fW depth)) (inject_Z (nth ch (avgpool_bias depth) 1%Z)) img y x ==
    average_at H W fH fW sH sW (same_before H (Z.of_nat fH) 1 sH) (same_before W (Z.of_nat fW) 1 sW) s zp img y x) <->
   same_needed H (Z.of_nat fH) 1 sH = 0%Z /\ same_needed W (Z.of_nat fW) 1 sW = 0%Z).
Proof.
  intros H W fH fW depth ch sH sW s zp HfH HfW Hch Hs HsH HsW HH HW.
  assert (G : forall n f s0 y, (1 <= n -> 1 <= s0 -> 1 <= f -> 0 <= y < same_out n s0 -> same_needed n f 1 s0 = 0 -> 0 <= y * s0 - same_before n f 1 s0 /\ y * s0 - same_before n f 1 s0 + f <= n)%Z).
  { intros n f s0 y Hn Hs0 Hf Hy N. unfold same_before. rewrite N. change (0 / 2)%Z with 0%Z. unfold same_needed, eff in N.
    assert (y * s0 <= (same_out n s0 - 1) * s0)%Z by (apply Z.mul_le_mono_nonneg_r; lia). assert (0 <= y * s0)%Z by (apply Z.mul_nonneg_nonneg; lia). lia. }
  assert (L : forall n f s0, (1 <= n -> 1 <= s0 -> 1 <= f -> let y := same_out n s0 - 1 in 0 <= y < same_out n s0 /\ y * s0 - same_before n f 1 s0 < n /\ 0 < y * s0 - same_before n f 1 s0 + f /\ (y * s0 - same_before n f 1 s0 + f <= n -> same_needed n f 1 s0 = 0))%Z).
  { intros n f s0 Hn Hs0 Hf y. assert (Y : (0 <= y /\ y * s0 < n)%Z).
    { unfold y, same_out. pose proof (Z.mul_div_le (n + s0 - 1) s0 ltac:(lia)). assert (1 <= (n + s0 - 1) / s0)%Z by (apply Z.div_le_lower_bound; lia). split; [lia|].
      rewrite Z.mul_sub_distr_r. lia. }
    unfold same_before. unfold same_needed, eff. fold y. set (t := (y * s0)%Z) in *. assert (0 <= t)%Z by (apply Z.mul_nonneg_nonneg; lia). clearbody t.
    split; [unfold y in *; lia|]. replace ((f - 1) * 1 + 1)%Z with f by lia.
    pose proof (Z.div_mod (Z.max 0 (t + f - n)) 2). pose proof (Z.mod_pos_bound (Z.max 0 (t + f - n)) 2). split; [|split]; lia. }
  split.
  - intros A. destruct (L H (Z.of_nat fH) sH HH HsH ltac:(lia)) as (Y1 & Y2 & Y3 & Y4). destruct (L W (Z.of_nat fW) sW HW HsW ltac:(lia)) as (X1 & X2 & X3 & X4).
    destruct (proj1 (C48_exactly_when H W fH fW depth ch sH sW (same_before H (Z.of_nat fH) 1 sH) (same_before W (Z.of_nat fW) 1 sW) s zp (same_out H sH - 1) (same_out W sW - 1) HfH HfW Hch Hs ltac:(lia) ltac:(lia))) as [[_ B1] [_ B2]].
    + intros img. apply A; assumption.
    + split; [apply Y4; exact B1|apply X4; exact B2].
  - intros [N1 N2] img y x Hy Hx. apply C48_average_pool_partial; auto.
    + apply G; auto; lia.
    + apply G; auto; lia.
Qed.
Example C48_same_concrete : same_needed 4 2 1 2 = 0%Z /\ same_needed 5 2 1 2 = 1%Z.
Proof. split; reflexivity. Qed.

(** SAME padding: at the border the average is over the pixels inside the image, but the
    generated convolution divides by the size of the whole window. *)
Theorem C48_refuted_same_border :
  average_at 2 2 2 2 1 1 0 0 1 0 (fun _ _ => 1%Z) 1 1 == 1 /\
  depthwise_real 2 2 2 2 1 1 0 0 1 0 (avgpool_scale 2 2) avgpool_zero_point (column 1 0 (avgpool_filter 2 2 1)) 0 (fun _ _ => 1%Z) 1 1 == 1 # 4 /\
  same_before 2 2 1 1 = 0%Z /\ same_out 2 1 = 2%Z.
Proof. repeat split; reflexivity. Qed.

Print Assumptions C32_same_conv_equals_pad_and_valid.
Print Assumptions C33_same_transpose_conv_partial.
Print Assumptions C34_transpose_conv_partial.
Print Assumptions C35_fully_connected_partial.
Print Assumptions C48_average_pool_partial.
Print Assumptions C48_exactly_when.
Print Assumptions C48_same_exactly_when.
Print Assumptions C33_exactly_when.
Print Assumptions C34_covered_exactly_when.
Print Assumptions C35_exactly_when.
