(** C57-C60, C62: lowering of convolutions and maximum pooling. *)
From Coq Require Import QArith Lqa.
From Verif Require Import Base ConvSpec ConvOptSpec ConvOptProofs ConvGeomModel ConvGeomProofs OpSplitProofs ConvLowerModel ConvLowerSpec ConvLowerProofs.
Local Open Scope Z_scope.

(** A convolution as TFLite accepts it: positive sizes, the output of the size of the formula, non-negative paddings
    that fit 16 bits (as the code stores them). *)
Definition geometry_ok (p : padding) (pv : list Z) (h w oh ow fh fw sh sw dh dw : Z) : Prop :=
  let top := before p h fh dh sh (nth 2 pv 0) in let bottom := after p h fh dh sh (nth 3 pv 0) in
  let lft := before p w fw dw sw (nth 4 pv 0) in let rgt := after p w fw dw sw (nth 5 pv 0) in
  1 <= h /\ 1 <= w /\ 1 <= fh /\ 1 <= fw /\ 1 <= sh /\ 1 <= sw /\ 1 <= dh /\ 1 <= dw /\
  oh = out_size p h fh dh sh (nth 2 pv 0) (nth 3 pv 0) /\ ow = out_size p w fw dw sw (nth 4 pv 0) (nth 5 pv 0) /\
  0 <= top < 32768 /\ 0 <= bottom < 32768 /\ 0 <= lft < 32768 /\ 0 <= rgt < 32768.
Definition no_padding (p : padding) (pv : list Z) (h w fh fw sh sw dh dw : Z) : Prop :=
  before p h fh dh sh (nth 2 pv 0) = 0 /\ after p h fh dh sh (nth 3 pv 0) = 0 /\
  before p w fw dw sw (nth 4 pv 0) = 0 /\ after p w fw dw sw (nth 5 pv 0) = 0.

(** The lowered arguments. *)
Lemma args_spec i16 h w d oh ow od fh fw fd p pv sh sw dh dw zp a :
  geometry_ok p pv h w oh ow fh fw sh sw dh dw ->
  get_args (mk_conv i16 (h, w, d) (oh, ow, od) (fh, fw, fd) p pv (sh, sw) (dh, dw) zp) = Some a ->
  a_start a = (- before p h fh dh sh (nth 2 pv 0), - before p w fw dw sw (nth 4 pv 0)) /\
  (a_padded a = false <-> no_padding p pv h w fh fw sh sw dh dw).
Proof.
  intros (Hh & Hw & Hfh & Hfw & Hsh & Hsw & Hdh & Hdw & Hoh & How & Ht & Hb & Hl & Hr). unfold get_args.
  destruct (find_padding _) as [[[t b] [l r]]|] eqn:F; [|discriminate]. intros E. injection E as <-.
  eapply find_padding_spec in F; [|reflexivity..|assumption|assumption|assumption|assumption|assumption|assumption|assumption|assumption].
  cbn [c_padding c_padding_values] in F. destruct F as (-> & -> & -> & ->). cbn [a_start a_padded]. unfold no_padding.
  set (t := before p h fh dh sh (nth 2 pv 0)) in *. set (b := after p h fh dh sh (nth 3 pv 0)) in *.
  set (l := before p w fw dw sw (nth 4 pv 0)) in *. set (r := after p w fw dw sw (nth 5 pv 0)) in *.
  rewrite !int16_small by lia. split; [reflexivity|].
  rewrite !orb_false_iff, !negb_false_iff, !Z.eqb_eq. tauto.
Qed.

(** What every tap contributes. *)
Lemma fetch_spec k i16 h w d oh ow od fh fw fd p pv sh sw dh dw zp a mem img y x ky kx i :
  geometry_ok p pv h w oh ow fh fw sh sw dh dw -> holds_image h w d mem img ->
  let c := mk_conv i16 (h, w, d) (oh, ow, od) (fh, fw, fd) p pv (sh, sw) (dh, dw) zp in
  get_args c = Some a -> padded_kernel k = true \/ a_padded a = false ->
  0 <= y < oh -> 0 <= x < ow -> (ky < Z.to_nat fh)%nat -> (kx < Z.to_nat fw)%nat -> 0 <= i < d ->
  let Y := y * sh - before p h fh dh sh (nth 2 pv 0) + Z.of_nat ky * dh in
  let X := x * sw - before p w fw dw sw (nth 4 pv 0) + Z.of_nat kx * dw in
  fetch k c mem (tap_row c a y ky) (tap_col c a x kx) i - zp = if in_image h w Y X then img Y X i - zp else 0.
Proof.
  intros G HM c A K Hy Hx Hky Hkx Hi Y X. pose proof (args_spec _ _ _ d _ _ od _ _ fd _ _ _ _ _ _ zp _ G A) as [S P].
  destruct G as (Hh & Hw & Hfh & Hfw & Hsh & Hsw & Hdh & Hdw & Hoh & How & Ht & Hb & Hl & Hr).
  unfold tap_row, tap_col. rewrite S. cbn [c c_stride c_dilation fst snd].
  replace (y * sh + - before p h fh dh sh (nth 2 pv 0) + Z.of_nat ky * dh) with Y by (unfold Y; lia).
  replace (x * sw + - before p w fw dw sw (nth 4 pv 0) + Z.of_nat kx * dw) with X by (unfold X; lia).
  unfold fetch. cbn [c c_in c_in_zp]. destruct (in_image h w Y X) eqn:I.
  - rewrite andb_false_r. apply in_image_inv in I as [I1 I2]. rewrite (HM Y X i I1 I2 Hi). reflexivity.
  - destruct K as [K|K]; [rewrite K; cbn [andb negb]; lia|].
    apply P in K. destruct K as (K1 & K2 & K3 & K4).
    assert (J : in_image h w Y X = true).
    { apply in_image_true; unfold Y, X; [rewrite K1|rewrite K3]; rewrite Z.sub_0_r.
      - apply (inside p h fh dh sh (nth 2 pv 0) (nth 3 pv 0) y (Z.of_nat ky)); try assumption; lia.
      - apply (inside p w fw dw sw (nth 4 pv 0) (nth 5 pv 0) x (Z.of_nat kx)); try assumption; lia. }
    congruence.
Qed.

(** ** C57 *)
(** The 8-bit convolution, any padding, stride and dilation: every output accumulator of the selected kernel is the one of the
    reference convolution; the 16-bit convolution, the same without padding (and with zero point 0, as the quantisation
    specification requires). *)
Theorem C57_conv2d_accumulator_partial : forall i16 h w d oh ow od fh fw fd p pv sh sw dh dw zp k a mem img filter bias o y x,
  geometry_ok p pv h w oh ow fh fw sh sw dh dw -> holds_image h w d mem img ->
  (i16 = true -> zp = 0 /\ no_padding p pv h w fh fw sh sw dh dw) ->
  lower_conv (mk_conv i16 (h, w, d) (oh, ow, od) (fh, fw, fd) p pv (sh, sw) (dh, dw) zp) = Some (k, a) ->
  0 <= y < oh -> 0 <= x < ow ->
  conv_accumulator k (mk_conv i16 (h, w, d) (oh, ow, od) (fh, fw, fd) p pv (sh, sw) (dh, dw) zp) a mem filter bias o y x =
  conv2d_acc h w fd fh fw sh sw dh dw (before p h fh dh sh (nth 2 pv 0)) (before p w fw dw sw (nth 4 pv 0)) zp img
    (filter_at fh fw fd filter o) (nth (Z.to_nat o) bias 0) y x.
Proof.
  intros i16 h w d oh ow od fh fw fd p pv sh sw dh dw zp k a mem img filter bias o y x G HM HI L Hy Hx.
  set (c := mk_conv i16 (h, w, d) (oh, ow, od) (fh, fw, fd) p pv (sh, sw) (dh, dw) zp) in *.
  unfold lower_conv in L. destruct (conv_pattern c) eqn:CP; [|discriminate].
  unfold conv_pattern in CP. cbn [c c_in c_out c_filter] in CP. apply andb_prop in CP as [_ CP]. apply Z.eqb_eq in CP. subst fd.
  destruct (get_args c) as [a'|] eqn:A; [|discriminate].
  destruct (conv_kernel_type c a') as [k'|] eqn:KT; [|discriminate]. injection L as -> ->.
  assert (K : padded_kernel k = true \/ a_padded a = false).
  { pose proof (args_spec _ _ _ d _ _ od _ _ d _ _ _ _ _ _ zp _ G A) as [_ P].
    unfold conv_kernel_type in KT. cbn [c c_in c_out c_i16] in KT. destruct i16.
    - right. apply P. apply HI. reflexivity.
    - destruct (a_padded a); [|right; reflexivity]. injection KT as <-. left; reflexivity. }
  unfold conv_accumulator. cbn [c c_filter c_in c_i16 c_in_zp].
  assert (E : (if i16 then nth (Z.to_nat o) bias 0 else nth (Z.to_nat o) bias 0 - zp * window_sum fh fw d (conv_weight c filter o)) =
              nth (Z.to_nat o) bias 0 - zp * window_sum fh fw d (conv_weight c filter o)).
  { destruct i16; [|reflexivity]. destruct (HI eq_refl) as [-> _]. lia. }
  fold c. rewrite E.
  match goal with |- ?s + (?b - ?z) = _ => replace (s + (b - z)) with (b + (s - z)) by lia end.
  rewrite wsum_fold. unfold conv2d_acc. f_equal. unfold window_sum. rewrite sum_to_zsum.
  apply zsum_ext. intros ky Hky. rewrite sum_to_zsum. apply zsum_ext. intros kx Hkx. rewrite sum_to_zsum.
  apply zsum_ext. intros i Hi.
  pose proof (fetch_spec k i16 h w d oh ow od fh fw d p pv sh sw dh dw zp a mem img y x ky kx (Z.of_nat i) G HM A K Hy Hx Hky Hkx ltac:(lia)) as F.
  cbv zeta in F. fold c in F. rewrite F. unfold conv_weight, filter_at. cbn [c c_filter c_in]. cbv zeta.
  destruct (in_image _ _ _ _); lia.
Qed.

(** The 8-bit depthwise convolution with as many output channels as input channels. *)
Theorem C57_depthwise_accumulator_partial : forall i16 h w d oh ow fh fw p pv sh sw dh dw zp k a mem img filter bias o y x,
  geometry_ok p pv h w oh ow fh fw sh sw dh dw -> holds_image h w d mem img ->
  lower_depthwise (mk_conv i16 (h, w, d) (oh, ow, d) (fh, fw, d) p pv (sh, sw) (dh, dw) zp) = Some (k, a) ->
  0 <= y < oh -> 0 <= x < ow -> 0 <= o < d ->
  depthwise_accumulator k (mk_conv i16 (h, w, d) (oh, ow, d) (fh, fw, d) p pv (sh, sw) (dh, dw) zp) a mem filter bias o y x =
  depthwise_acc h w d fh fw sh sw dh dw (before p h fh dh sh (nth 2 pv 0)) (before p w fw dw sw (nth 4 pv 0)) zp img
    (depthwise_filter_at fw d filter o) (o / (d / d)) (nth (Z.to_nat o) bias 0) y x.
Proof.
  intros i16 h w d oh ow fh fw p pv sh sw dh dw zp k a mem img filter bias o y x G HM L Hy Hx Ho.
  set (c := mk_conv i16 (h, w, d) (oh, ow, d) (fh, fw, d) p pv (sh, sw) (dh, dw) zp) in *.
  unfold lower_depthwise in L. destruct (depthwise_pattern c) eqn:CP; [|discriminate].
  destruct (get_args c) as [a'|] eqn:A; [|discriminate].
  unfold depthwise_kernel_type in L. injection L as <- <-.
  match goal with |- depthwise_accumulator ?k' _ _ _ _ _ _ _ _ = _ => set (k0 := k') end.
  assert (K : padded_kernel k0 = true \/ a_padded a' = false).
  { unfold k0. destruct (a_padded a'); [left|right]; reflexivity. }
  clearbody k0.
  unfold depthwise_accumulator. cbn [c c_filter c_in c_i16 c_in_zp]. fold c.
  match goal with |- ?s + (?b - ?z) = _ => replace (s + (b - z)) with (b + (s - z)) by lia end.
  rewrite wsum_fold. unfold depthwise_acc. f_equal. unfold window_sum. rewrite sum_to_zsum.
  apply zsum_ext. intros ky Hky. rewrite sum_to_zsum. apply zsum_ext. intros kx Hkx.
  rewrite Z.div_same by lia. rewrite Z.div_1_r.
  pose proof (fetch_spec k0 i16 h w d oh ow d fh fw d p pv sh sw dh dw zp a' mem img y x ky kx o G HM A K Hy Hx Hky Hkx Ho) as F.
  cbv zeta in F. fold c in F. change (Z.to_nat 1) with 1%nat. unfold zsum at 1. cbn [seq map fold_right]. rewrite F.
  unfold depthwise_weight, depthwise_filter_at. cbn [c c_filter c_in]. cbv zeta. destruct (in_image _ _ _ _); lia.
Qed.

(** The kernels' requirements: a kernel that reads addresses without testing the position is only selected (for 8 bits)
    when there is no padding; the direct ones only for channel counts that are multiples of 32 and 16. *)
Theorem C57_kernel_selection : forall h w d oh ow od fh fw fd p pv sh sw dh dw zp k a,
  geometry_ok p pv h w oh ow fh fw sh sw dh dw ->
  lower_conv (mk_conv false (h, w, d) (oh, ow, od) (fh, fw, fd) p pv (sh, sw) (dh, dw) zp) = Some (k, a) ->
  d mod 4 = 0 /\ od mod 4 = 0 /\ fd = d /\
  (k = PaddedIndirect <-> ~ no_padding p pv h w fh fw sh sw dh dw) /\
  (k = ValidDirect <-> no_padding p pv h w fh fw sh sw dh dw /\ d mod 32 = 0 /\ od mod 16 = 0) /\
  (k = ValidIndirect <-> no_padding p pv h w fh fw sh sw dh dw /\ ~ (d mod 32 = 0 /\ od mod 16 = 0)).
Proof.
  intros h w d oh ow od fh fw fd p pv sh sw dh dw zp k a G L.
  set (c := mk_conv false (h, w, d) (oh, ow, od) (fh, fw, fd) p pv (sh, sw) (dh, dw) zp) in *.
  assert (R : forall x m, 0 < m -> Z.rem x m =? 0 = (x mod m =? 0)).
  { intros x m Hm. destruct (Z.eqb_spec (Z.rem x m) 0), (Z.eqb_spec (x mod m) 0); try reflexivity; exfalso.
    - apply Z.rem_divide in e; [|lia]. apply Z.mod_divide in e; lia.
    - apply Z.mod_divide in e; [|lia]. apply Z.rem_divide in e; lia. }
  unfold lower_conv in L. destruct (conv_pattern c) eqn:CP; [|discriminate].
  unfold conv_pattern in CP. cbn [c c_in c_out c_filter] in CP. rewrite !R in CP by lia.
  apply andb_prop in CP as [CP C3]. apply andb_prop in CP as [C1 C2]. apply Z.eqb_eq in C1, C2, C3.
  destruct (get_args c) as [a'|] eqn:A; [|discriminate].
  destruct (conv_kernel_type c a') as [k'|] eqn:KT; [|discriminate]. injection L as -> ->.
  destruct (args_spec _ _ _ d _ _ od _ _ fd _ _ _ _ _ _ zp _ G A) as [_ P].
  unfold conv_kernel_type in KT. cbn [c c_in c_out c_i16] in KT. rewrite !R in KT by lia.
  split; [exact C1|]. split; [exact C2|]. split; [congruence|].
  destruct (a_padded a) eqn:AP.
  - injection KT as <-. assert (N : ~ no_padding p pv h w fh fw sh sw dh dw) by (intros X; apply P in X; congruence).
    split; [|split]; split; intros X; try reflexivity; try discriminate; try assumption; exfalso; apply N; apply X.
  - assert (N : no_padding p pv h w fh fw sh sw dh dw) by (apply P; reflexivity).
    destruct ((d mod 32 =? 0) && (od mod 16 =? 0)) eqn:M; injection KT as <-.
    + apply andb_prop in M as [M1 M2]. apply Z.eqb_eq in M1, M2.
      split; [|split]; split; intros X; try discriminate; try reflexivity; try (split; [assumption|]; tauto); exfalso; tauto.
    + assert (M' : ~ (d mod 32 = 0 /\ od mod 16 = 0)).
      { intros [M1 M2]. rewrite M1, M2 in M. discriminate. }
      split; [|split]; split; intros X; try discriminate; try reflexivity; try (split; assumption); exfalso; tauto.
Qed.

(** Concrete instances: a SAME 5x5 convolution with stride 2 is padded by (1, 2), an EXPLICIT one by its constant. *)
Example C57_example :
  geometry_ok SAME [] 8 9 4 5 5 3 2 2 1 1 /\
  lower_conv (mk_conv false (8, 9, 4) (4, 5, 8) (5, 3, 4) SAME [] (2, 2) (1, 1) (-3)) =
    Some (PaddedIndirect, mk_args true (-1, -1)) /\
  lower_conv (mk_conv false (8, 9, 64) (4, 4, 16) (1, 2, 64) VALID [] (2, 2) (1, 1) 0) =
    Some (ValidDirect, mk_args false (0, 0)) /\
  lower_conv (mk_conv false (8, 8, 12) (8, 8, 16) (3, 3, 12) EXPLICIT [0; 0; 2; 0; 0; 2; 0; 0] (1, 1) (1, 1) 0) =
    Some (PaddedIndirect, mk_args true (-2, 0)).
Proof. split; [vm_compute; repeat split; discriminate|]. split; [reflexivity|]. split; reflexivity. Qed.

(** Exactly when a 16-bit convolution is lowered rightly: when every tap of every output position falls inside the image. *)
Lemma zsum_zero_terms f n : (forall i, (i < n)%nat -> 0 <= f i) -> zsum f n = 0 -> forall i, (i < n)%nat -> f i = 0.
Proof.
  induction n as [|n IH]; intros P Z0 i Hi; [lia|]. replace (S n) with (n + 1)%nat in Z0 by lia. rewrite zsum_app in Z0.
  assert (T : zsum (fun j => f (n + j)%nat) 1 = f n) by (unfold zsum; cbn [seq map fold_right]; rewrite Nat.add_0_r; lia). rewrite T in Z0.
  assert (N : 0 <= zsum f n). { clear - P. assert (Q : forall m, (m <= n)%nat -> 0 <= zsum f m). { induction m as [|m IHm]; intros Hm; [cbn; lia|]. replace (S m) with (m + 1)%nat by lia. rewrite zsum_app.
    unfold zsum at 2. cbn [seq map fold_right]. rewrite Nat.add_0_r. specialize (IHm ltac:(lia)). specialize (P m ltac:(lia)). lia. } apply Q. lia. }
  pose proof (P n ltac:(lia)). destruct (Nat.eq_dec i n) as [->|Ne]; [lia|]. apply IH; [intros j Hj; apply P; lia|lia|lia].
Qed.
Lemma zsum_nonneg f n : (forall i, (i < n)%nat -> 0 <= f i) -> 0 <= zsum f n.
Proof.
  induction n as [|n IH]; intros P; [cbn; lia|]. replace (S n) with (n + 1)%nat by lia. rewrite zsum_app. unfold zsum at 2. cbn [seq map fold_right]. rewrite Nat.add_0_r.
  pose proof (P n ltac:(lia)). specialize (IH ltac:(intros; apply P; lia)). lia.
Qed.
Theorem C57_int16_exactly_when : forall h w d oh ow od fh fw fd p pv sh sw dh dw k a,
  geometry_ok p pv h w oh ow fh fw sh sw dh dw -> 1 <= d ->
  let c := mk_conv true (h, w, d) (oh, ow, od) (fh, fw, fd) p pv (sh, sw) (dh, dw) 0 in
  lower_conv c = Some (k, a) ->
  ((forall mem img filter bias o y x, holds_image h w d mem img -> 0 <= o -> 0 <= y < oh -> 0 <= x < ow ->
     conv_accumulator k c a mem filter bias o y x =
     conv2d_acc h w fd fh fw sh sw dh dw (before p h fh dh sh (nth 2 pv 0)) (before p w fw dw sw (nth 4 pv 0)) 0 img
       (filter_at fh fw fd filter o) (nth (Z.to_nat o) bias 0) y x) <->
   (forall y x ky kx, 0 <= y < oh -> 0 <= x < ow -> 0 <= ky < fh -> 0 <= kx < fw ->
     in_image h w (y * sh - before p h fh dh sh (nth 2 pv 0) + ky * dh) (x * sw - before p w fw dw sw (nth 4 pv 0) + kx * dw) = true)).
Proof.
  intros h w d oh ow od fh fw fd p pv sh sw dh dw k a G Hd c L. unfold lower_conv in L. destruct (conv_pattern c) eqn:CP; [|discriminate].
  unfold conv_pattern in CP. cbn [c c_in c_out c_filter] in CP. apply andb_prop in CP as [_ CP]. apply Z.eqb_eq in CP. subst fd.
  destruct (get_args c) as [a'|] eqn:A; [|discriminate].
  destruct (conv_kernel_type c a') as [k'|] eqn:KT; [|discriminate]. injection L as -> ->.
  assert (K : padded_kernel k = false).
  { unfold conv_kernel_type in KT. cbn [c c_in c_out c_i16] in KT. repeat match type of KT with context [if ?b then _ else _] => destruct b end; try discriminate; injection KT as <-; reflexivity. }
  pose proof (args_spec _ _ _ d _ _ od _ _ d _ _ _ _ _ _ 0 _ G A) as [AS _].
  set (top := before p h fh dh sh (nth 2 pv 0)) in *. set (lft := before p w fw dw sw (nth 4 pv 0)) in *.
  assert (ACC : forall mem filter bias o y x, conv_accumulator k c a mem filter bias o y x =
     zsum (fun ky => zsum (fun kx => zsum (fun i => mem (((y * sh - top + Z.of_nat ky * dh) * w + (x * sw - lft + Z.of_nat kx * dw)) * d + Z.of_nat i) * filter_at fh fw d filter o (Z.of_nat ky) (Z.of_nat kx) (Z.of_nat i)) (Z.to_nat d)) (Z.to_nat fw)) (Z.to_nat fh)
     + nth (Z.to_nat o) bias 0).
  { intros. unfold conv_accumulator. cbn [c c_filter c_in c_i16 c_in_zp]. f_equal. unfold window_sum. apply zsum_ext. intros ky _. apply zsum_ext. intros kx _. apply zsum_ext. intros i _.
    unfold fetch, tap_row, tap_col. rewrite K, AS. cbn [c_in andb c_stride c_dilation fst snd]. unfold conv_weight, filter_at. cbn [c_filter c_in]. f_equal. }
  split.
  - intros E y x ky kx Hy Hx Hky Hkx.
    specialize (E (fun _ => 1) (fun _ _ _ => 1) (repeat 1 (Z.to_nat (fh * fw * d))) [] 0 y x ltac:(intros y0 x0 i0 _ _ _; reflexivity) ltac:(lia) Hy Hx).
    rewrite ACC in E. unfold conv2d_acc in E. rewrite Z.add_comm in E. apply Z.add_cancel_l in E.
    set (inp := fun ky kx : nat => in_image h w (y * sh - top + Z.of_nat ky * dh) (x * sw - lft + Z.of_nat kx * dw)).
    assert (F1 : forall ky kx i, (ky < Z.to_nat fh)%nat -> (kx < Z.to_nat fw)%nat -> (i < Z.to_nat d)%nat -> filter_at fh fw d (repeat 1 (Z.to_nat (fh * fw * d))) 0 (Z.of_nat ky) (Z.of_nat kx) (Z.of_nat i) = 1).
    { clear - Hd. intros ky kx i H1 H2 H3. unfold filter_at. rewrite Z.mul_0_l, Z.add_0_l. set (n := Z.to_nat ((Z.of_nat ky * fw + Z.of_nat kx) * d + Z.of_nat i)).
      assert (B : (n < Z.to_nat (fh * fw * d))%nat).
      { unfold n. assert (0 <= Z.of_nat ky * fw + Z.of_nat kx) by nia. assert ((Z.of_nat ky * fw + Z.of_nat kx) <= fh * fw - 1) by nia. nia. }
      clearbody n. revert B. generalize (Z.to_nat (fh * fw * d)). intros m. revert n. induction m as [|m IH]; intros n B; [lia|]. destruct n; [reflexivity|]. apply IH. lia. }
    assert (D0 : zsum (fun ky => zsum (fun kx => zsum (fun i => if inp ky kx then 0 else 1) (Z.to_nat d)) (Z.to_nat fw)) (Z.to_nat fh) = 0).
    { assert (SUB : forall n f g, zsum (fun i => f i - g i) n = zsum f n - zsum g n).
      { clear. intros n f g. induction n as [|n IH]; [reflexivity|]. replace (S n) with (n + 1)%nat by lia. rewrite !zsum_app, IH. assert (T : forall q, zsum q 1 = q 0%nat) by (intros; unfold zsum; cbn [seq map fold_right]; lia). rewrite !T. lia. }
      apply Z.sub_move_0_r in E. etransitivity; [|exact E]. rewrite sum_to_zsum, <- SUB. apply zsum_ext. intros ky' H1. rewrite sum_to_zsum, <- SUB. apply zsum_ext. intros kx' H2. rewrite sum_to_zsum, <- SUB. apply zsum_ext. intros i' H3.
      cbv zeta. fold (inp ky' kx'). rewrite F1 by assumption. destruct (inp ky' kx'); lia. }
    assert (NN : forall ky kx : nat, 0 <= (if inp ky kx then 0 else 1)) by (intros; destruct (inp _ _); lia).
    pose proof (zsum_zero_terms _ _ ltac:(intros; apply zsum_nonneg; intros; apply zsum_nonneg; intros; apply NN) D0 (Z.to_nat ky) ltac:(lia)) as D1. cbv beta in D1.
    pose proof (zsum_zero_terms _ _ ltac:(intros; apply zsum_nonneg; intros; apply NN) D1 (Z.to_nat kx) ltac:(lia)) as D2. cbv beta in D2.
    pose proof (zsum_zero_terms _ _ ltac:(intros; apply NN) D2 0%nat ltac:(lia)) as D3. cbv beta in D3. unfold inp in D3. rewrite !Z2Nat.id in D3 by lia.
    destruct (in_image _ _ _ _); [reflexivity|discriminate].
  - intros IN mem img filter bias o y x HM Ho Hy Hx. rewrite ACC. unfold conv2d_acc. rewrite Z.add_comm. f_equal. rewrite sum_to_zsum. apply zsum_ext. intros ky Hky. rewrite sum_to_zsum. apply zsum_ext. intros kx Hkx. rewrite sum_to_zsum. apply zsum_ext. intros i Hi.
    cbv zeta. specialize (IN y x (Z.of_nat ky) (Z.of_nat kx) Hy Hx ltac:(lia) ltac:(lia)). rewrite IN. apply in_image_inv in IN as [I1 I2]. rewrite HM by (assumption || lia). rewrite Z.sub_0_r. reflexivity.
Qed.
(** No padding is enough (C57_conv2d_accumulator_partial); with SAME it is also needed; explicit padding that no window reaches does no harm. *)
Example C57_int16_exactly_concrete : forall y x ky kx, 0 <= y < 2 -> 0 <= x < 2 -> 0 <= ky < 2 -> 0 <= kx < 2 ->
  in_image 4 4 (y * 2 - before EXPLICIT 4 2 1 2 0 + ky * 1) (x * 2 - before EXPLICIT 4 2 1 2 0 + kx * 1) = true /\
  geometry_ok EXPLICIT [0; 0; 0; 1; 0; 1; 0; 0] 4 4 2 2 2 2 2 2 1 1 /\ ~ no_padding EXPLICIT [0; 0; 0; 1; 0; 1; 0; 0] 4 4 2 2 2 2 1 1.
Proof.
  intros y x ky kx H1 H2 H3 H4. split; [apply in_image_true; cbn [before]; lia|]. split; [vm_compute; repeat split; discriminate|]. intros (_ & H & _). discriminate H.
Qed.

(** A 16-bit SAME convolution is lowered with the kernel that reads addresses without testing positions: the first accumulator
    uses memory before the tensor. *)
Theorem C57_int16_padding_refuted : exists c k a mem img filter bias,
  geometry_ok SAME [] 2 2 2 2 3 3 1 1 1 1 /\ c = mk_conv true (2, 2, 16) (2, 2, 16) (3, 3, 16) SAME [] (1, 1) (1, 1) 0 /\
  lower_conv c = Some (k, a) /\ holds_image 2 2 16 mem img /\
  conv_accumulator k c a mem filter bias 0 0 0 <>
  conv2d_acc 2 2 16 3 3 1 1 1 1 (before SAME 2 3 1 1 0) (before SAME 2 3 1 1 0) 0 img (filter_at 3 3 16 filter 0) 0 0 0.
Proof.
  exists (mk_conv true (2, 2, 16) (2, 2, 16) (3, 3, 16) SAME [] (1, 1) (1, 1) 0), ValidDirectI16, (mk_args true (-1, -1)),
    (fun a => if a <? 0 then 7 else 0), (fun _ _ _ => 0), [1], [].
  split; [vm_compute; repeat split; discriminate|]. split; [reflexivity|]. split; [reflexivity|].
  split; [intros y x i Hy Hx Hi; assert (0 <= (y * 2 + x) * 16 + i) by lia; destruct (Z.ltb_spec ((y * 2 + x) * 16 + i) 0); [lia|reflexivity]|].
  vm_compute. discriminate.
Qed.

(** A depthwise convolution with a depth multiplier is lowered, with the filter of the wrong shape: channel 1 reads input channel 1 and
    other weights. *)
Theorem C57_depth_multiplier_refuted : exists k a filter,
  let c := mk_conv false (1, 1, 4) (1, 1, 8) (1, 1, 8) VALID [] (1, 1) (1, 1) 0 in
  lower_depthwise c = Some (k, a) /\
  depthwise_accumulator k c a (fun i => i) filter [] 1 0 0 <>
  depthwise_acc 1 1 4 1 1 1 1 1 1 0 0 0 (fun _ _ i => i) (depthwise_filter_at 1 8 filter 1) (1 / (8 / 4)) 0 0 0.
Proof.
  exists DepthwiseValidDirect, (mk_args false (0, 0)), [1; 1; 1; 1; 1; 1; 1; 1]. split; [reflexivity|]. vm_compute. discriminate.
Qed.

(** A depth multiplier above 1 is always lowered wrongly: at every position whose window meets the image, for some image and filter. *)
Theorem C57_depth_multiplier_always_wrong : forall h w d oh ow m fh fw p pv sh sw dh dw zp k a y x ky kx,
  geometry_ok p pv h w oh ow fh fw sh sw dh dw -> 2 <= m -> 1 <= d ->
  let c := mk_conv false (h, w, d) (oh, ow, m * d) (fh, fw, m * d) p pv (sh, sw) (dh, dw) zp in
  lower_depthwise c = Some (k, a) -> 0 <= y < oh -> 0 <= x < ow -> 0 <= ky < fh -> 0 <= kx < fw ->
  in_image h w (y * sh - before p h fh dh sh (nth 2 pv 0) + ky * dh) (x * sw - before p w fw dw sw (nth 4 pv 0) + kx * dw) = true ->
  exists mem img filter, holds_image h w d mem img /\
    depthwise_accumulator k c a mem filter [] 1 y x <>
    depthwise_acc h w d fh fw sh sw dh dw (before p h fh dh sh (nth 2 pv 0)) (before p w fw dw sw (nth 4 pv 0)) zp img
      (depthwise_filter_at fw (m * d) filter 1) (1 / (m * d / d)) 0 y x.
Proof.
  intros h w d oh ow m fh fw p pv sh sw dh dw zp k a y x ky kx G Hm Hd c L Hy Hx Hky Hkx IN.
  unfold lower_depthwise in L. destruct (depthwise_pattern c) eqn:CP; [|discriminate].
  assert (D4 : 4 <= d).
  { unfold depthwise_pattern in CP. cbn [c c_in c_out c_i16 negb andb] in CP. apply andb_prop in CP as [CP _]. apply Z.eqb_eq in CP.
    apply Z.rem_divide in CP; [|lia]. destruct CP as [q ->]. lia. }
  destruct (get_args c) as [a'|] eqn:A; [|discriminate].
  unfold depthwise_kernel_type in L. injection L as <- <-.
  match goal with |- context [depthwise_accumulator ?k' _ _ _ _ _ _ _ _] => set (k0 := k') end.
  assert (K : padded_kernel k0 = true \/ a_padded a' = false) by (unfold k0; destruct (a_padded a'); [left|right]; reflexivity). clearbody k0.
  set (img := fun _ _ i : Z => if i =? 1 then zp + 1 else zp). set (mem := fun q => img 0 0 (q mod d)).
  set (filter := repeat 1 (Z.to_nat (fh * fw * d + 2))).
  assert (HM : holds_image h w d mem img).
  { intros y0 x0 i0 _ _ Hi. unfold mem. rewrite Z.add_comm, Z.mod_add, Z.mod_small by lia. reflexivity. }
  exists mem, img, filter. split; [exact HM|].
  assert (R : depthwise_acc h w d fh fw sh sw dh dw (before p h fh dh sh (nth 2 pv 0)) (before p w fw dw sw (nth 4 pv 0)) zp img
      (depthwise_filter_at fw (m * d) filter 1) (1 / (m * d / d)) 0 y x = 0).
  { rewrite Z.div_mul, Z.div_small by lia. unfold depthwise_acc. rewrite Z.add_0_l, sum_to_zsum. apply zsum_zero. intros. rewrite sum_to_zsum. apply zsum_zero. intros.
    cbv zeta. match goal with |- context [in_image ?a1 ?a2 ?a3 ?a4] => destruct (in_image a1 a2 a3 a4) end; [|reflexivity]. unfold img. change (0 =? 1) with false. cbv iota. rewrite Z.sub_diag. reflexivity. }
  rewrite R. clear R. unfold depthwise_accumulator. cbn [c c_filter c_in c_i16 c_in_zp]. fold c. change (nth (Z.to_nat 1) [] 0) with 0.
  match goal with |- ?s + (0 - ?z) <> _ => replace (s + (0 - z)) with (s - z) by lia end. rewrite wsum_fold. unfold window_sum. intros Z0.
  assert (T : forall ky kx : nat, (ky < Z.to_nat fh)%nat -> (kx < Z.to_nat fw)%nat ->
     (fetch k0 c mem (tap_row c a' y ky) (tap_col c a' x kx) 1 - zp) * depthwise_weight c filter 1 ky kx =
     if in_image h w (y * sh - before p h fh dh sh (nth 2 pv 0) + Z.of_nat ky * dh) (x * sw - before p w fw dw sw (nth 4 pv 0) + Z.of_nat kx * dw) then 1 else 0).
  { intros ky' kx' H1 H2. pose proof (fetch_spec k0 false h w d oh ow (m * d) fh fw (m * d) p pv sh sw dh dw zp a' mem img y x ky' kx' 1 G HM A K Hy Hx H1 H2 ltac:(lia)) as F.
    cbv zeta in F. fold c in F. rewrite F. assert (W1 : depthwise_weight c filter 1 ky' kx' = 1).
    { unfold depthwise_weight. cbn [c c_filter c_in]. unfold filter. set (n := Z.to_nat _).
      assert (B : (n < Z.to_nat (fh * fw * d + 2))%nat).
      { unfold n. assert (0 <= Z.of_nat ky' * fw + Z.of_nat kx') by nia. assert ((Z.of_nat ky' * fw + Z.of_nat kx') <= fh * fw - 1) by nia. clear - D4 H H0. nia. }
      clearbody n. revert B. generalize (Z.to_nat (fh * fw * d + 2)). intros q. revert n. clear. induction q as [|q IH]; intros n B; [lia|]. destruct n; [reflexivity|]. apply IH. lia. }
    rewrite W1. match goal with |- context [in_image ?a1 ?a2 ?a3 ?a4] => destruct (in_image a1 a2 a3 a4) end; [|reflexivity]. unfold img. rewrite Z.eqb_refl. lia. }
  assert (NN : forall ky kx : nat, (ky < Z.to_nat fh)%nat -> (kx < Z.to_nat fw)%nat -> 0 <= (fetch k0 c mem (tap_row c a' y ky) (tap_col c a' x kx) 1 - zp) * depthwise_weight c filter 1 ky kx).
  { intros ky' kx' H1 H2. rewrite T by assumption. match goal with |- context [in_image ?a1 ?a2 ?a3 ?a4] => destruct (in_image a1 a2 a3 a4) end; lia. }
  pose proof (fun P => zsum_zero_terms _ _ P Z0) as D1. specialize (D1 ltac:(intros; apply zsum_nonneg; intros; apply zsum_nonneg; intros; apply NN; lia)). specialize (D1 (Z.to_nat ky) ltac:(lia)). cbv beta in D1.
  pose proof (fun P => zsum_zero_terms _ _ P D1) as D2. specialize (D2 ltac:(intros; apply zsum_nonneg; intros; apply NN; lia)). specialize (D2 (Z.to_nat kx) ltac:(lia)). cbv beta in D2.
  pose proof (fun P => zsum_zero_terms _ _ P D2) as D3. specialize (D3 ltac:(intros; apply NN; lia)). specialize (D3 0%nat ltac:(change (Z.to_nat 1) with 1%nat; lia)). cbv beta in D3.
  rewrite T in D3 by lia. rewrite !Z2Nat.id, IN in D3 by lia. discriminate.
Qed.

(** Paddings of 32768 or more do not fit: the window starts on the wrong side. *)
Theorem C57_wide_padding_refuted : exists a,
  get_args (mk_conv false (8, 8, 4) (32769, 8, 4) (8, 1, 4) EXPLICIT [0; 0; 32768; 0; 0; 0; 0; 0] (1, 1) (1, 1) 0) = Some a /\
  a_start a = (32768, 0).
Proof. eexists. split; reflexivity. Qed.


(** The scratch buffer holds one slice per thread. *)
Theorem C57_scratch_of_all_threads : forall bytes threads size i,
  0 < bytes -> 0 <= i < threads -> bytes * threads < 2147483648 ->
  scratch_buffer bytes threads = Some size -> 0 <= i * bytes /\ (i + 1) * bytes <= size.
Proof.
  intros bytes threads size i Hb Hi Ho. unfold scratch_buffer. change (2 ^ 31) with 2147483648. change (2 ^ 32) with 4294967296.
  rewrite Z.mod_small by nia. replace (bytes * threads + 2147483648 - 2147483648) with (bytes * threads) by lia.
  destruct (0 <? bytes * threads); [|discriminate]. intros E. injection E as <-. nia.
Qed.

(** The product is computed in 32 bits: from 2 GiB on, the buffer is missing or too small. *)
Theorem C57_scratch_overflow_refuted : scratch_buffer (2 ^ 30) 2 = None /\ scratch_buffer (2 ^ 30) 4 = None /\ scratch_buffer (2 ^ 30) 5 = Some (2 ^ 30) /\
  scratch_buffer 1000 5 = Some 5000 /\ scratch_buffer 0 5 = None.
Proof. vm_compute. repeat split. Qed.

(** ** C58 *)
(** Operators of the graph before the pass, and whether one ends up as an xcore kernel. *)
Definition is_tfl (o : op) : bool := match o with TflConv _ _ | TflDepthwise _ _ => true | _ => false end.
Fixpoint lowered (o : op) : bool := match o with XcConv _ _ _ _ _ => true | TflRelu o' => lowered o' | _ => false end.
Definition faf_of (o : op) : activation := match o with TflConv _ t | TflDepthwise _ t => at_faf t | _ => NONE end.
Definition relu_handled (o : op) : bool :=
  match o with TflConv c t => negb (c_i16 c) && is_relu (at_faf t) | _ => false end.

Lemma clamp_full qlo qhi lo hi : qlo <= lo -> lo <= hi -> hi <= qhi ->
  ((forall v, clampZ qlo qhi v = clampZ lo hi v) <-> lo = qlo /\ hi = qhi).
Proof.
  intros A B D. split.
  - intros E. pose proof (E qlo) as E1. pose proof (E qhi) as E2. unfold clampZ in E1, E2. lia.
  - intros [-> ->] v. reflexivity.
Qed.
Lemma clamp_relu qlo qhi zp v : qlo <= zp <= qhi -> Z.max zp (clampZ qlo qhi v) = clampZ (Z.max qlo zp) qhi v.
Proof. intros H. unfold clampZ. lia. Qed.

(** The pass keeps the value of an operator for every accumulator exactly in these cases: the operator is not lowered, or it is an
    8-bit Conv2D with a Relu, or its activation never limits the result. *)
Theorem C58_activation_iff : forall threshold errors out_zp qlo qhi q6 q1 qm1 o,
  is_tfl o = true ->
  (match o with TflConv c _ => c_i16 c = false -> qlo = -128 | _ => qlo = -128 end) ->
  qlo <= out_zp <= qhi -> out_zp <= q6 -> qm1 <= out_zp -> out_zp <= q1 ->
  let r := activation_range qlo qhi out_zp q6 q1 qm1 (faf_of o) in
  let o' := replace_conv2d threshold errors out_zp o in
  (forall v, value qlo qhi out_zp q6 q1 qm1 o' v = value qlo qhi out_zp q6 q1 qm1 o v) <->
  lowered o' = false \/ relu_handled o = true \/ r = (qlo, qhi).
Proof.
  intros threshold errors zp qlo qhi q6 q1 qm1 o T Q8 Hzp H6 Hm1 H1 r o'.
  assert (B : qlo <= fst r /\ fst r <= snd r /\ snd r <= qhi).
  { unfold r, activation_range. destruct (faf_of o); cbn [fst snd]; lia. }
  assert (X : lowered o' = true -> (forall v, value qlo qhi zp q6 q1 qm1 o' v = clampZ qlo qhi v) ->
    (forall v, value qlo qhi zp q6 q1 qm1 o v = clampZ (fst r) (snd r) v) -> relu_handled o = false \/ r = (qlo, qhi) ->
    ((forall v, value qlo qhi zp q6 q1 qm1 o' v = value qlo qhi zp q6 q1 qm1 o v) <->
     lowered o' = false \/ relu_handled o = true \/ r = (qlo, qhi))).
  { intros L V1 V2 RH. destruct (clamp_full qlo qhi (fst r) (snd r)) as [F1 F2]; [tauto|tauto|tauto|]. split.
    - intros E. right. right. destruct F1 as [F1a F1b]; [|destruct r; cbn [fst snd] in *; congruence].
      intros v. rewrite <- V1, <- V2. apply E.
    - intros [E|[E|E]].
      + congruence.
      + destruct RH as [RH|RH]; [congruence|]. intros v. rewrite V1, V2, RH. reflexivity.
      + intros v. rewrite V1, V2, E. reflexivity. }
  destruct o as [c t|c t|?|?|?|?]; try discriminate T; cbn [faf_of] in r.
  - assert (V2 : forall v, value qlo qhi zp q6 q1 qm1 (TflConv c t) v = clampZ (fst r) (snd r) v) by (intros v; reflexivity).
    destruct (negb (c_i16 c) && is_relu (at_faf t) && negb (zp =? -128)) eqn:U.
    + (* the Relu is taken out *)
      assert (RH : relu_handled (TflConv c t) = true) by (cbn [relu_handled]; apply andb_prop in U as [U _]; exact U).
      split; [intros _; right; left; exact RH|]. intros _ v.
      assert (R : at_faf t = RELU).
      { cbn [relu_handled] in RH. apply andb_prop in RH as [_ RH]. destruct (at_faf t); try discriminate RH; reflexivity. }
      rewrite V2. unfold r. rewrite R. cbn [activation_range fst snd]. rewrite <- clamp_relu by exact Hzp.
      unfold o', replace_conv2d, phase1. rewrite U. cbn [phase2 phase3 value]. f_equal.
      unfold to_fake_conv. destruct (conv_pattern c); [|reflexivity].
      cbn [phase2]. unfold phase2_conv. destruct (lower_conv c) as [[k a]|]; [|reflexivity].
      destruct (c_i16 c); [reflexivity|]. destruct (choose_ot _ _ _); reflexivity.
    + assert (V : (lowered o' = false /\ o' = TflConv c t) \/ (lowered o' = true /\ forall v, value qlo qhi zp q6 q1 qm1 o' v = clampZ qlo qhi v)).
      { unfold o', replace_conv2d, phase1. rewrite U. unfold to_fake_conv. destruct (conv_pattern c); [|left; split; reflexivity].
        cbn [phase2]. unfold phase2_conv. destruct (lower_conv c) as [[k a]|]; [|left; split; reflexivity].
        destruct (c_i16 c); [right; split; reflexivity|]. destruct (choose_ot _ _ _); [right|left]; split; reflexivity. }
      destruct V as [[L E]|[L V1]].
      * split; [left; exact L|]. intros _ v. rewrite E. reflexivity.
      * apply X; try assumption. cbn [relu_handled]. destruct (negb (c_i16 c) && is_relu (at_faf t)) eqn:RH; [right|left; reflexivity].
        cbn [andb] in U. apply negb_false_iff, Z.eqb_eq in U. apply andb_prop in RH as [R1 R2].
        apply negb_true_iff in R1. specialize (Q8 R1). unfold r. destruct (at_faf t); try discriminate R2. cbn [activation_range].
        f_equal. lia.
  - assert (V2 : forall v, value qlo qhi zp q6 q1 qm1 (TflDepthwise c t) v = clampZ (fst r) (snd r) v) by (intros v; reflexivity).
    assert (V : (lowered o' = false /\ o' = TflDepthwise c t) \/ (lowered o' = true /\ forall v, value qlo qhi zp q6 q1 qm1 o' v = clampZ qlo qhi v)).
    { unfold o', replace_conv2d, phase1. destruct (depthwise_pattern c); [|left; split; reflexivity].
      cbn [phase2]. unfold phase2_depthwise. destruct (lower_depthwise c) as [[k a]|]; [|left; split; reflexivity].
      destruct (choose_ot _ _ _); [right|left]; split; reflexivity. }
    destruct V as [[L E]|[L V1]].
    + split; [left; exact L|]. intros _ v. rewrite E. reflexivity.
    + apply X; try assumption. left. reflexivity.
Qed.

(** In particular operators without activation or with a Relu that the quantisation already implies (zero point the
    smallest value, as TFLite's quantiser produces) keep their value. *)
Theorem C58_activation_preserved_partial : forall threshold errors out_zp qlo qhi q6 q1 qm1 o v,
  is_tfl o = true ->
  (match o with TflConv c _ => c_i16 c = false -> qlo = -128 | _ => qlo = -128 end) ->
  qlo <= out_zp <= qhi -> out_zp <= q6 -> qm1 <= out_zp -> out_zp <= q1 ->
  faf_of o = NONE \/ (faf_of o = RELU /\ (out_zp = qlo \/ relu_handled o = true)) \/ (faf_of o = RELU6 /\ out_zp = qlo /\ qhi <= q6) ->
  value qlo qhi out_zp q6 q1 qm1 (replace_conv2d threshold errors out_zp o) v = value qlo qhi out_zp q6 q1 qm1 o v.
Proof.
  intros threshold errors zp qlo qhi q6 q1 qm1 o v T Q8 Hzp H6 Hm1 H1 F. revert v.
  apply (proj2 (C58_activation_iff threshold errors zp qlo qhi q6 q1 qm1 o T Q8 Hzp H6 Hm1 H1)). right.
  destruct F as [F|[[F [E|E]]|[F [E G]]]]; [right; rewrite F; reflexivity|right; rewrite F; cbn [activation_range]; f_equal; lia|left; exact E|].
  right. rewrite F. cbn [activation_range]. f_equal; lia.
Qed.

Definition ex_attr (f : activation) : attributes := mk_attr 1 1 f VALID 1 1 1.
Definition ex_conv (i16 : bool) (d : Z) : conv := mk_conv i16 (4, 4, d) (4, 4, d) (1, 1, d) VALID [] (1, 1) (1, 1) 0.
Example C58_example :
  replace_conv2d (1 # 4) (1 # 10, 0)%Q (-100) (TflConv (ex_conv false 4) (ex_attr RELU)) =
    TflRelu (XcConv ValidIndirect (ex_conv false 4) (mk_args false (0, 0)) Group no_chain) /\
  replace_conv2d (1 # 4) (1, 1 # 10)%Q (-128) (TflDepthwise (ex_conv false 4) (ex_attr RELU)) =
    XcConv DepthwiseValidDirect (ex_conv false 4) (mk_args false (0, 0)) Channelwise no_chain /\
  value (-128) 127 (-100) 20 0 (-110) (TflConv (ex_conv false 4) (ex_attr RELU)) (-120) = -100.
Proof. split; [reflexivity|]. split; reflexivity. Qed.

(** Lost activations: the Relu of a 16-bit convolution, the Relu of a depthwise convolution whose zero point is not -128, and a Relu6 whose
    bound is below the largest value. *)
Theorem C58_lost_activation_refuted :
  let e := (1 # 10, 1 # 10)%Q in
  value (-32768) 32767 0 600 100 (-100) (replace_conv2d (1 # 4) e 0 (TflConv (ex_conv true 16) (ex_attr RELU))) (-5) = -5 /\
  value (-32768) 32767 0 600 100 (-100) (TflConv (ex_conv true 16) (ex_attr RELU)) (-5) = 0 /\
  value (-128) 127 (-100) 20 0 (-110) (replace_conv2d (1 # 4) e (-100) (TflDepthwise (ex_conv false 4) (ex_attr RELU))) (-120) = -120 /\
  value (-128) 127 (-100) 20 0 (-110) (TflDepthwise (ex_conv false 4) (ex_attr RELU)) (-120) = -100 /\
  value (-128) 127 (-128) 20 0 (-128) (replace_conv2d (1 # 4) e (-128) (TflConv (ex_conv false 4) (ex_attr RELU6))) 100 = 100 /\
  value (-128) 127 (-128) 20 0 (-128) (TflConv (ex_conv false 4) (ex_attr RELU6)) 100 = 20.
Proof. vm_compute. repeat split. Qed.

(** ** C59 *)
(** Every channel keeps its multiplier unless it exceeds [factor] times the smallest one, which it is then lowered to. *)
Theorem C59_clamp_only_large_multipliers : forall factor l i, (i < length l)%nat ->
  let v := nth i l 0%Q in let r := nth i (clamp_multipliers factor l) 0%Q in
  ((v <= min_element l * factor)%Q -> r = v) /\ ((min_element l * factor < v)%Q -> r = (min_element l * factor)%Q) /\
  length (clamp_multipliers factor l) = length l.
Proof.
  intros factor l i Hi v r.
  assert (E : r = qmin v (min_element l * factor)).
  { unfold r, clamp_multipliers. rewrite (nth_indep _ 0%Q (qmin 0 (min_element l * factor)%Q)) by (rewrite map_length; exact Hi).
    rewrite (map_nth (fun v => qmin v (min_element l * factor)%Q)). reflexivity. }
  rewrite E. split; [|split].
  - intros H. unfold qmin. apply Qle_bool_iff in H. rewrite H. reflexivity.
  - intros H. unfold qmin. destruct (Qle_bool v (min_element l * factor)) eqn:B; [|reflexivity].
    apply Qle_bool_iff in B. exfalso. eapply Qlt_not_le; eassumption.
  - unfold clamp_multipliers. apply map_length.
Qed.

(** [min_element] is the smallest multiplier; the ratios of the results are at most the factor (for a factor of at least
    one, and positive multipliers), and the smallest is kept. *)
Theorem C59_ratio_bounded : forall factor l, l <> [] -> (1 <= factor)%Q -> (forall v, In v l -> (0 < v)%Q) ->
  In (min_element l) l /\ (forall v, In v l -> (min_element l <= v)%Q) /\
  In (min_element l) (clamp_multipliers factor l) /\
  forall v, In v (clamp_multipliers factor l) -> (min_element l <= v <= min_element l * factor)%Q.
Proof.
  intros factor l NE F POS. destruct (min_element_spec l NE) as [M1 M2]. set (m := min_element l) in *.
  assert (P : (0 < m)%Q) by (apply POS; exact M1).
  assert (MF : (m <= m * factor)%Q).
  { setoid_replace m with (m * 1)%Q at 1 by (rewrite Qmult_1_r; reflexivity). apply Qmult_le_l; [exact P|exact F]. }
  split; [exact M1|]. split; [exact M2|]. unfold clamp_multipliers. fold m. split.
  - apply in_map_iff. exists m. split; [|exact M1]. unfold qmin. apply Qle_bool_iff in MF. rewrite MF. reflexivity.
  - intros v Hv. apply in_map_iff in Hv as [u [<- Hu]]. destruct (qmin_spec u (m * factor)%Q) as (A & B & D). split; [|exact B].
    destruct D as [D|D]; rewrite D; [apply M2; exact Hu|exact MF].
Qed.

(** With the default factor 2^32 - 1 nothing changes as long as no multiplier is 2^32 - 1 times the smallest. *)
Theorem C59_default_factor_no_change : forall l,
  (forall v, In v l -> (v <= min_element l * (4294967295 # 1))%Q) -> clamp_multipliers (4294967295 # 1) l = l.
Proof.
  intros l H. unfold clamp_multipliers. set (m := min_element l) in *. clearbody m. induction l as [|x l IH]; [reflexivity|].
  cbn [map]. rewrite IH by (intros v Hv; apply H; right; exact Hv).
  unfold qmin. rewrite (proj2 (Qle_bool_iff x (m * (4294967295 # 1))) (H x (or_introl eq_refl))). reflexivity.
Qed.

(** The multiplier of every channel is input scale * filter scale of the channel / output scale. *)
Theorem C59_effective_scale : forall per_channel scale in_scale out_scale n i, (i < n)%nat ->
  nth i (effective_scales per_channel scale in_scale out_scale n) 0%Q =
  (in_scale * match per_channel with Some l => nth i l 0 | None => scale end / out_scale)%Q.
Proof.
  intros pc scale si so n i Hi. unfold effective_scales.
  pose proof (map_nth (fun i => (si * filter_scale pc scale i / so)%Q) (seq 0 n) 0%nat i) as E. cbv beta in E.
  rewrite seq_nth in E by exact Hi. rewrite (nth_indep _ 0%Q (si * filter_scale pc scale 0 / so)%Q) by (rewrite map_length, seq_length; exact Hi).
  rewrite E. reflexivity.
Qed.
Example C59_example : clamp_multipliers 10 [3 # 1; 1 # 2; 7 # 1]%Q = [3 # 1; 1 # 2; 10 # 2]%Q /\ min_element [3 # 1; 1 # 2; 7 # 1]%Q = (1 # 2)%Q.
Proof. split; reflexivity. Qed.
(** A factor of 0 sets every multiplier to zero. *)
Theorem C59_zero_factor_refuted : clamp_multipliers 0 [3 # 1; 1 # 2]%Q = [0 # 2; 0 # 2]%Q.
Proof. reflexivity. Qed.

(** ** C60 *)
Fixpoint has_fake (o : op) : bool :=
  match o with FakeConv _ _ _ | FakeDepthwise _ _ => true | TflRelu o' => has_fake o' | _ => false end.
(** A convolution of the model ends either unchanged (up to a Relu taken out) or as one xcore kernel for the same convolution
    whose quantisation error is at most the threshold; no intermediate operator is left. *)
Theorem C60_lowered_or_unchanged : forall threshold errors out_zp o, is_tfl o = true ->
  let o' := replace_conv2d threshold errors out_zp o in
  has_fake o' = false /\
  (let core := match o' with TflRelu x => x | x => x end in
   (exists f, (f = faf_of o \/ f = NONE /\ o' = TflRelu core /\ faf_of o = RELU) /\
      core = match o with TflConv c t => TflConv c (with_faf f t) | TflDepthwise c t => TflDepthwise c (with_faf f t) | x => x end) \/
   (exists k c a ot, core = XcConv k c a ot no_chain /\
      match o with
      | TflConv c' _ => c' = c /\ lower_conv c = Some (k, a)
      | TflDepthwise c' _ => c' = c /\ lower_depthwise c = Some (k, a)
      | _ => False
      end /\
      (c_i16 c = false -> match ot with Group => (fst errors <= threshold)%Q | Channelwise => (threshold < fst errors /\ snd errors <= threshold)%Q end))).
Proof.
  intros threshold errors zp o T o'.
  assert (OT : forall ot, choose_ot threshold (fst errors) (snd errors) = Some ot ->
    match ot with Group => (fst errors <= threshold)%Q | Channelwise => (threshold < fst errors /\ snd errors <= threshold)%Q end).
  { intros ot. unfold choose_ot. destruct (Qle_bool (fst errors) threshold) eqn:E1; cbn [negb].
    - intros E. injection E as <-. apply Qle_bool_iff. exact E1.
    - destruct (Qle_bool (snd errors) threshold) eqn:E2; cbn [negb]; [|discriminate]. intros E. injection E as <-.
      split; [|apply Qle_bool_iff; exact E2]. apply Qnot_le_lt. intros X. apply Qle_bool_iff in X. congruence. }
  assert (AT : forall t, with_faf (at_faf t) t = t) by (intros []; reflexivity).
  assert (CC : forall c t, let r := phase3 (phase2 threshold errors (to_fake_conv c t)) in
     has_fake r = false /\ (r = TflConv c t \/ exists k a ot, r = XcConv k c a ot no_chain /\ lower_conv c = Some (k, a) /\
       (c_i16 c = false -> choose_ot threshold (fst errors) (snd errors) = Some ot))).
  { intros c t. unfold to_fake_conv. destruct (conv_pattern c); [|split; [reflexivity|left; reflexivity]].
    cbn [phase2]. unfold phase2_conv. destruct (lower_conv c) as [[k a]|] eqn:L; [|split; [reflexivity|left; reflexivity]].
    destruct (c_i16 c) eqn:I.
    - split; [reflexivity|]. right. exists k, a, Group. split; [reflexivity|]. split; [reflexivity|discriminate].
    - destruct (choose_ot threshold (fst errors) (snd errors)) as [ot|]; [|split; [reflexivity|left; reflexivity]].
      split; [reflexivity|]. right. exists k, a, ot. repeat split. }
  destruct o as [c t|c t|?|?|?|?]; try discriminate T.
  - unfold o', replace_conv2d, phase1. cbn [faf_of].
    destruct (negb (c_i16 c) && is_relu (at_faf t) && negb (zp =? -128)) eqn:U.
    + cbn [phase2 phase3 has_fake]. destruct (CC c (with_faf NONE t)) as [F R]. split; [exact F|].
      destruct R as [R|(k & a & ot & R1 & R2 & R3)].
      * left. exists NONE. split; [right; repeat split|exact R].
        apply andb_prop in U as [U _]. apply andb_prop in U as [_ U]. destruct (at_faf t); try discriminate U; reflexivity.
      * right. exists k, c, a, ot. split; [exact R1|]. split; [split; [reflexivity|exact R2]|]. intros I. apply OT. apply R3. exact I.
    + destruct (CC c t) as [F R]. split; [exact F|]. destruct R as [R|(k & a & ot & R1 & R2 & R3)].
      * left. exists (at_faf t). rewrite R, AT. split; [left; reflexivity|reflexivity].
      * right. exists k, c, a, ot. rewrite R1. split; [reflexivity|]. split; [split; [reflexivity|exact R2]|].
        intros I. apply OT. apply R3. exact I.
  - unfold o', replace_conv2d, phase1. cbn [faf_of].
    destruct (depthwise_pattern c); [|split; [reflexivity|]; left; exists (at_faf t); rewrite AT; split; [left|]; reflexivity].
    cbn [phase2]. unfold phase2_depthwise.
    destruct (lower_depthwise c) as [[k a]|] eqn:L; [|split; [reflexivity|]; left; exists (at_faf t); rewrite AT; split; [left|]; reflexivity].
    destruct (choose_ot threshold (fst errors) (snd errors)) as [ot|] eqn:O; [|split; [reflexivity|]; left; exists (at_faf t); rewrite AT; split; [left|]; reflexivity].
    split; [reflexivity|]. right. exists k, c, a, ot. split; [reflexivity|]. split; [split; [reflexivity|exact L]|]. intros _. apply OT. reflexivity.
Qed.

(** Exactly which convolutions become xcore kernels. *)
Theorem C60_exactly_when : forall threshold errors out_zp o, is_tfl o = true ->
  let core := match replace_conv2d threshold errors out_zp o with TflRelu x => x | x => x end in
  (exists k c a ot, core = XcConv k c a ot no_chain) <->
  match o with
  | TflConv c _ =>
      let '(_, _, ic) := c_in c in let '(_, _, oc) := c_out c in let '(_, _, fc) := c_filter c in
      ic = fc /\ find_padding c <> None /\
      (if c_i16 c then Z.rem ic 16 = 0 /\ Z.rem oc 16 = 0
       else Z.rem ic 4 = 0 /\ Z.rem oc 4 = 0 /\ (fst errors <= threshold \/ snd errors <= threshold)%Q)
  | TflDepthwise c _ =>
      let '(_, _, ic) := c_in c in let '(_, _, oc) := c_out c in
      c_i16 c = false /\ find_padding c <> None /\ Z.rem ic 4 = 0 /\ Z.rem oc 4 = 0 /\
      (fst errors <= threshold \/ snd errors <= threshold)%Q
  | _ => False
  end.
Proof.
  intros threshold errors zp o T. cbn zeta.
  assert (OT : choose_ot threshold (fst errors) (snd errors) <> None <-> (fst errors <= threshold \/ snd errors <= threshold)%Q).
  { unfold choose_ot. rewrite <- !Qle_bool_iff. destruct (Qle_bool (fst errors) threshold), (Qle_bool (snd errors) threshold); cbn; intuition congruence. }
  assert (R16 : forall v, Z.rem v 16 = 0 -> Z.rem v 4 = 0).
  { intros v H. apply Z.rem_divide in H; [|lia]. apply Z.rem_divide; [lia|]. destruct H as [q ->]. exists (4 * q). lia. }
  destruct o as [c t|c t|?|?|?|?]; try discriminate T; unfold replace_conv2d.
  - assert (CC : forall t', (exists k c0 a ot, phase3 (phase2 threshold errors (to_fake_conv c t')) = XcConv k c0 a ot no_chain) <->
      let '(_, _, ic) := c_in c in let '(_, _, oc) := c_out c in let '(_, _, fc) := c_filter c in
      ic = fc /\ find_padding c <> None /\
      (if c_i16 c then Z.rem ic 16 = 0 /\ Z.rem oc 16 = 0
       else Z.rem ic 4 = 0 /\ Z.rem oc 4 = 0 /\ (fst errors <= threshold \/ snd errors <= threshold)%Q)).
    { intros t'. unfold to_fake_conv, phase2, phase2_conv, lower_conv, conv_pattern, conv_kernel_type.
      unfold get_args. destruct (c_in c) as [[h w] ic] eqn:Ei, (c_out c) as [[oh ow] oc] eqn:Eo, (c_filter c) as [[fh fw] fc] eqn:Ef.
      destruct (Z.eqb_spec (Z.rem ic 4) 0) as [E1|E1]; cbn [andb]; [|split; [intros (? & ? & ? & ? & X); discriminate X|destruct (c_i16 c); [intros (_ & _ & X & _); apply R16 in X; tauto|tauto]]].
      destruct (Z.eqb_spec (Z.rem oc 4) 0) as [E2|E2]; cbn [andb]; [|split; [intros (? & ? & ? & ? & X); discriminate X|destruct (c_i16 c); [intros (_ & _ & _ & X); apply R16 in X; tauto|tauto]]].
      destruct (Z.eqb_spec ic fc) as [E3|E3]; cbn [andb]; [|split; [intros (? & ? & ? & ? & X); discriminate X|tauto]].
      rewrite Ei, Eo, Ef. rewrite (proj2 (Z.eqb_eq _ _) E1), (proj2 (Z.eqb_eq _ _) E2), (proj2 (Z.eqb_eq _ _) E3). cbn [andb].
      destruct (find_padding c) as [[[top bottom] [lft rgt]]|]; [|split; [intros (? & ? & ? & ? & X); discriminate X|tauto]].
      destruct (c_i16 c).
      - destruct (Z.eqb_spec (Z.rem ic 16) 0) as [G1|G1], (Z.eqb_spec (Z.rem oc 16) 0) as [G2|G2]; cbn [andb phase3];
          (split; [intros (? & ? & ? & ? & X); try discriminate X; repeat split; auto; discriminate|intros (_ & _ & X1 & X2); try tauto; eauto 8]).
      - rewrite <- OT. match goal with |- context [match (if ?b then _ else _) with Some _ => _ | None => None end] => set (kk := b) end.
        destruct kk; [|destruct (_ && _)%bool]; destruct (choose_ot threshold (fst errors) (snd errors)); cbn [phase3];
          (split; [intros (? & ? & ? & ? & X); try discriminate X; repeat split; auto; discriminate|intros (_ & _ & _ & _ & X); try tauto; eauto 8]). }
    unfold phase1. destruct (negb (c_i16 c) && is_relu (at_faf t) && negb (zp =? -128)).
    + cbn [phase2 phase3]. apply CC.
    + rewrite <- (CC t). unfold to_fake_conv. destruct (conv_pattern c); cbn [phase2 phase3]; [|reflexivity].
      unfold phase2_conv. destruct (lower_conv c) as [[k a]|]; [|reflexivity]. destruct (c_i16 c); [reflexivity|]. destruct (choose_ot _ _ _); reflexivity.
  - unfold phase1, depthwise_pattern. destruct (c_in c) as [[h w] ic] eqn:Ei, (c_out c) as [[oh ow] oc] eqn:Eo. rewrite <- OT.
    destruct (c_i16 c) eqn:E0; cbn [negb andb]; [cbn; split; [intros (? & ? & ? & ? & X); discriminate X|intros (X & _); discriminate X]|].
    destruct (Z.eqb_spec (Z.rem ic 4) 0) as [E1|E1]; cbn [andb]; [|cbn; split; [intros (? & ? & ? & ? & X); discriminate X|tauto]].
    destruct (Z.eqb_spec (Z.rem oc 4) 0) as [E2|E2]; cbn [andb]; [|cbn; split; [intros (? & ? & ? & ? & X); discriminate X|tauto]].
    cbn [phase2]. unfold phase2_depthwise, lower_depthwise, depthwise_pattern, get_args, depthwise_kernel_type.
    rewrite Ei, Eo, E0. rewrite (proj2 (Z.eqb_eq _ _) E1), (proj2 (Z.eqb_eq _ _) E2). cbn [andb negb].
    destruct (find_padding c) as [[[top bottom] [lft rgt]]|]; [|cbn; split; [intros (? & ? & ? & ? & X); discriminate X|tauto]].
    destruct (choose_ot threshold (fst errors) (snd errors)); cbn [phase3];
      (split; [intros (? & ? & ? & ? & X); try discriminate X; repeat split; auto; discriminate|intros (_ & _ & _ & _ & X); try tauto; eauto 8]).
Qed.

(** The fake convolutions made for a transpose convolution do not revert: if one cannot be lowered (here: error above the
    threshold) it becomes an ordinary Conv2D without its output stride, offsets and partial output. *)
Theorem C60_transpose_conv_reverts_wrongly_refuted : exists c t ch,
  ch <> no_chain /\ replace_conv2d (1 # 4) (1, 1)%Q 0 (FakeConv c t ch) = TflConv c t.
Proof.
  exists (ex_conv false 4), (ex_attr NONE), (mk_chain true 0 1 2 2 16). split; [discriminate|reflexivity].
Qed.

(** ** C62 *)
Lemma list_max_spec l : l <> [] -> In (list_max l) l /\ forall v, In v l -> v <= list_max l.
Proof.
  destruct l as [|x r]; [congruence|intros _]. cbn [list_max].
  assert (G : forall r x, (fold_left Z.max r x = x \/ In (fold_left Z.max r x) r) /\ x <= fold_left Z.max r x /\ forall v, In v r -> v <= fold_left Z.max r x).
  { clear. induction r as [|y r IH]; intros x; cbn [fold_left].
    - split; [left; reflexivity|]. split; [lia|]. intros v [].
    - destruct (IH (Z.max x y)) as (I1 & I2 & I3). split.
      + destruct I1 as [I1|I1]; [|right; right; exact I1]. rewrite I1. destruct (Z.max_spec x y) as [[_ E]|[_ E]]; rewrite E; [right; left|left]; reflexivity.
      + split; [lia|]. intros v [<-|Hv]; [lia|apply I3; exact Hv]. }
  destruct (G r x) as (A & B & D). split.
  - destruct A as [A|A]; [left; symmetry; exact A|right; exact A].
  - intros v [<-|Hv]; auto.
Qed.

(** Without padding (always for VALID) the kernel's result is the maximum of the window. *)
Theorem C62_maxpool_partial : forall h w d oh ow od fh fw sh sw p faf mem img y x ch,
  geometry_ok p [] h w oh ow fh fw sh sw 1 1 -> no_padding p [] h w fh fw sh sw 1 1 -> holds_image h w d mem img ->
  0 <= y < oh -> 0 <= x < ow -> 0 <= ch < d ->
  is_max (pool_result (mk_pool (h, w, d) (oh, ow, od) (fh, fw) (sh, sw) p faf) mem y x ch)
         (pooled h w fh fw sh sw (before p h fh 1 sh 0) (before p w fw 1 sw 0) img ch y x).
Proof.
  intros h w d oh ow od fh fw sh sw p faf mem img y x ch G NP HM Hy Hx Hc.
  destruct G as (Hh & Hw & Hfh & Hfw & Hsh & Hsw & _ & _ & Hoh & How & _). destruct NP as (N1 & N2 & N3 & N4).
  cbn [nth] in *. rewrite N1, N3. unfold pool_result. cbn [p_in p_stride p_filter fst snd].
  set (l := concat _).
  assert (IN : forall v, In v l <-> pooled h w fh fw sh sw 0 0 img ch y x v).
  { intros v. unfold l, pooled. rewrite in_concat. split.
    - intros [row [Hr Hv]]. apply in_map_iff in Hr as [ky [<- Hky]]. apply in_map_iff in Hv as [kx [<- Hkx]].
      apply in_seq in Hky, Hkx.
      pose proof (inside p h fh 1 sh 0 0 y (Z.of_nat ky) Hh Hfh ltac:(lia) Hsh N1 N2 ltac:(rewrite <- Hoh; lia) ltac:(lia)) as IY.
      pose proof (inside p w fw 1 sw 0 0 x (Z.of_nat kx) Hw Hfw ltac:(lia) Hsw N3 N4 ltac:(rewrite <- How; lia) ltac:(lia)) as IX.
      exists (Z.of_nat ky), (Z.of_nat kx). split; [lia|]. split; [lia|]. rewrite !Z.sub_0_r. rewrite Z.mul_1_r in IY, IX.
      split; [apply in_image_true; assumption|]. apply HM; assumption.
    - intros (ky & kx & Hky & Hkx & I & ->). rewrite !Z.sub_0_r in *.
      exists (map (fun kx => mem (((y * sh + Z.of_nat (Z.to_nat ky)) * w + (x * sw + Z.of_nat kx)) * d + ch)) (seq 0 (Z.to_nat fw))).
      split; [apply in_map_iff; exists (Z.to_nat ky); split; [reflexivity|apply in_seq; lia]|].
      apply in_map_iff. exists (Z.to_nat kx). split; [|apply in_seq; lia].
      rewrite !Z2Nat.id by lia. apply in_image_inv in I as [I1 I2]. apply HM; assumption. }
  assert (NE : l <> []).
  { assert (X : pooled h w fh fw sh sw 0 0 img ch y x (img (y * sh - 0 + 0) (x * sw - 0 + 0) ch)).
    { exists 0, 0. split; [lia|]. split; [lia|]. split; [|reflexivity].
      pose proof (inside p h fh 1 sh 0 0 y 0 Hh Hfh ltac:(lia) Hsh N1 N2 ltac:(rewrite <- Hoh; lia) ltac:(lia)) as IY.
      pose proof (inside p w fw 1 sw 0 0 x 0 Hw Hfw ltac:(lia) Hsw N3 N4 ltac:(rewrite <- How; lia) ltac:(lia)) as IX.
      rewrite Z.mul_1_r in IY, IX. apply in_image_true; lia. }
    apply IN in X. intros Z0. rewrite Z0 in X. destruct X. }
  destruct (list_max_spec l NE) as [A B]. split; [apply IN; exact A|]. intros u Hu. apply B. apply IN. exact Hu.
Qed.
Example C62_example : geometry_ok VALID [] 5 6 2 3 3 2 2 2 1 1 /\ no_padding VALID [] 5 6 3 2 2 2 1 1 /\
  pool_result (mk_pool (5, 6, 1) (2, 3, 1) (3, 2) (2, 2) VALID NONE) (fun i => (i * 7) mod 11) 1 2 0 = 9.
Proof. split; [vm_compute; repeat split; discriminate|]. split; [vm_compute; repeat split|reflexivity]. Qed.

(** Exactly when: a pool is right at every position, whatever the image and the memory around it, exactly when it needs no padding. *)
Theorem C62_exactly_when : forall h w d oh ow od fh fw sh sw p faf,
  geometry_ok p [] h w oh ow fh fw sh sw 1 1 -> 1 <= d ->
  ((forall mem img y x ch, holds_image h w d mem img -> 0 <= y < oh -> 0 <= x < ow -> 0 <= ch < d ->
     is_max (pool_result (mk_pool (h, w, d) (oh, ow, od) (fh, fw) (sh, sw) p faf) mem y x ch)
            (pooled h w fh fw sh sw (before p h fh 1 sh 0) (before p w fw 1 sw 0) img ch y x)) <->
   no_padding p [] h w fh fw sh sw 1 1).
Proof.
  intros h w d oh ow od fh fw sh sw p faf G Hd. split.
  2:{ intros NP mem img y x ch HM Hy Hx Hc. apply C62_maxpool_partial; assumption. }
  intros A. destruct G as (Hh & Hw & Hfh & Hfw & Hsh & Hsw & _ & _ & Hoh & How & _). unfold no_padding. cbn [nth] in *.
  assert (PS : p = SAME \/ p <> SAME) by (destruct p; auto; right; discriminate). destruct PS as [->|PS]; [|destruct p; try congruence; cbn [before after]; repeat split].
  cbn [before after out_size] in *.
  assert (LAST : forall n f s, 1 <= n -> 1 <= f -> 1 <= s -> let y := same_out n s - 1 in 0 <= y /\ same_needed n f 1 s = Z.max 0 (y * s + f - n) /\
     same_before n f 1 s + same_after n f 1 s = same_needed n f 1 s /\ (same_needed n f 1 s = 0 -> same_before n f 1 s = 0 /\ same_after n f 1 s = 0) /\ 0 <= same_before n f 1 s).
  { intros n f s Hn Hf Hs y. unfold y. assert (1 <= same_out n s) by (apply Z.div_le_lower_bound; lia). split; [lia|]. split; [unfold same_needed, eff; f_equal; lia|].
    unfold same_after, same_before. split; [lia|]. split; [intros ->; split; reflexivity|]. apply Z.div_pos; [|lia]. unfold same_needed. lia. }
  pose proof (LAST h fh sh Hh Hfh Hsh) as (Y0 & NY & _ & ZY & BY). pose proof (LAST w fw sw Hw Hfw Hsw) as (X0 & NX & _ & ZX & BX). clear LAST.
  rewrite <- Hoh in Y0, NY. rewrite <- How in X0, NX.
  destruct (Z.eq_dec (same_needed h fh 1 sh) 0) as [EH|EH]; [destruct (Z.eq_dec (same_needed w fw 1 sw) 0) as [EW|EW]|].
  - destruct (ZY EH), (ZX EW). auto.
  - exfalso. specialize (ZY EH). destruct ZY as [TY _].
    set (Ad := (((oh - 1) * sh + (fh - 1)) * w + ((ow - 1) * sw + (fw - 1))) * d + 0).
    specialize (A (fun a => if a =? Ad then 1 else 0) (fun y x i => if (y * w + x) * d + i =? Ad then 1 else 0) (oh - 1) (ow - 1) 0 ltac:(intros y x i _ _ _; reflexivity) ltac:(lia) ltac:(lia) ltac:(lia)).
    destruct A as [(ky & kx & Hky & Hkx & I & V) _]. apply in_image_inv in I as [I1 I2]. rewrite TY in *.
    assert (GE : 1 <= pool_result (mk_pool (h, w, d) (oh, ow, od) (fh, fw) (sh, sw) SAME faf) (fun a => if a =? Ad then 1 else 0) (oh - 1) (ow - 1) 0).
    { unfold pool_result. cbn [p_in p_stride p_filter fst snd]. set (l := concat _). assert (IN : In 1 l).
      { unfold l. apply in_concat. eexists. split; [apply in_map_iff; exists (Z.to_nat (fh - 1)); split; [reflexivity|apply in_seq; lia]|]. apply in_map_iff. exists (Z.to_nat (fw - 1)). split; [|apply in_seq; lia].
        rewrite !Z2Nat.id by lia. fold Ad. rewrite Z.eqb_refl. reflexivity. }
      destruct (list_max_spec l) as [_ B]; [intros Z0; rewrite Z0 in IN; exact IN|]. apply B. exact IN. }
    rewrite V in GE. destruct (Z.eqb_spec ((((oh - 1) * sh - 0 + ky) * w + ((ow - 1) * sw - same_before w fw 1 sw + kx)) * d + 0) Ad) as [E|E]; [|lia].
    unfold Ad in E. assert (E2 : ((oh - 1) * sh - 0 + ky) * w + ((ow - 1) * sw - same_before w fw 1 sw + kx) = ((oh - 1) * sh + (fh - 1)) * w + ((ow - 1) * sw + (fw - 1))) by nia.
    assert (L : ((oh - 1) * sh - 0 + ky) * w <= ((oh - 1) * sh + (fh - 1)) * w) by (apply Z.mul_le_mono_nonneg_r; lia). lia.
  - exfalso. set (Ad := (((oh - 1) * sh + (fh - 1)) * w + ((ow - 1) * sw + (fw - 1))) * d + 0).
    specialize (A (fun a => if a =? Ad then 1 else 0) (fun y x i => if (y * w + x) * d + i =? Ad then 1 else 0) (oh - 1) (ow - 1) 0 ltac:(intros y x i _ _ _; reflexivity) ltac:(lia) ltac:(lia) ltac:(lia)).
    destruct A as [(ky & kx & Hky & Hkx & I & V) _]. apply in_image_inv in I as [I1 I2].
    assert (GE : 1 <= pool_result (mk_pool (h, w, d) (oh, ow, od) (fh, fw) (sh, sw) SAME faf) (fun a => if a =? Ad then 1 else 0) (oh - 1) (ow - 1) 0).
    { unfold pool_result. cbn [p_in p_stride p_filter fst snd]. set (l := concat _). assert (IN : In 1 l).
      { unfold l. apply in_concat. eexists. split; [apply in_map_iff; exists (Z.to_nat (fh - 1)); split; [reflexivity|apply in_seq; lia]|]. apply in_map_iff. exists (Z.to_nat (fw - 1)). split; [|apply in_seq; lia].
        rewrite !Z2Nat.id by lia. fold Ad. rewrite Z.eqb_refl. reflexivity. }
      destruct (list_max_spec l) as [_ B]; [intros Z0; rewrite Z0 in IN; exact IN|]. apply B. exact IN. }
    rewrite V in GE. set (Y := (oh - 1) * sh - same_before h fh 1 sh + ky) in *. set (X := (ow - 1) * sw - same_before w fw 1 sw + kx) in *.
    destruct (Z.eqb_spec ((Y * w + X) * d + 0) Ad) as [E|E]; [|lia].
    unfold Ad in E. assert (E2 : Y * w + X = ((oh - 1) * sh + (fh - 1)) * w + ((ow - 1) * sw + (fw - 1))) by nia.
    assert (0 <= (ow - 1) * sw) by (apply Z.mul_nonneg_nonneg; lia).
    assert (L : h * w <= ((oh - 1) * sh + (fh - 1)) * w) by (apply Z.mul_le_mono_nonneg_r; lia).
    assert (L2 : Y * w <= (h - 1) * w) by (apply Z.mul_le_mono_nonneg_r; lia). lia.
Qed.
Example C62_exactly_concrete : geometry_ok SAME [] 4 6 2 2 2 3 2 3 1 1 /\ no_padding SAME [] 4 6 2 3 2 3 1 1 /\
  geometry_ok SAME [] 5 6 3 2 2 3 2 3 1 1 /\ ~ no_padding SAME [] 5 6 2 3 2 3 1 1.
Proof. split; [vm_compute; repeat split; discriminate|]. split; [vm_compute; repeat split|]. split; [vm_compute; repeat split; discriminate|]. intros (_ & H & _). discriminate H. Qed.

(** The padding is not read: a SAME pooling that needs padding reads other positions (here the last row is taken from beyond the
    image), and the fused activation is ignored. *)
Theorem C62_same_padding_refuted : exists mem img,
  geometry_ok SAME [] 3 1 3 1 3 1 1 1 1 1 /\ holds_image 3 1 1 mem img /\
  ~ is_max (pool_result (mk_pool (3, 1, 1) (3, 1, 1) (3, 1) (1, 1) SAME NONE) mem 2 0 0)
           (pooled 3 1 3 1 1 1 (before SAME 3 3 1 1 0) (before SAME 1 1 1 1 0) img 0 2 0).
Proof.
  exists (fun a => if a <? 3 then a else 99), (fun y _ _ => y).
  split; [vm_compute; repeat split; discriminate|].
  split; [intros y x i Hy Hx Hi; replace ((y * 1 + x) * 1 + i) with y by lia; destruct (Z.ltb_spec y 3); lia|].
  intros [[ky [kx (Hky & Hkx & I & V)]] _]. apply in_image_inv in I as [I _].
  change (pool_result _ _ _ _ _) with 99 in V. lia.
Qed.
Theorem C62_activation_ignored_refuted : forall p faf mem y x ch,
  pool_result (mk_pool (p_in p) (p_out p) (p_filter p) (p_stride p) (p_padding p) faf) mem y x ch = pool_result p mem y x ch.
Proof. intros [] faf mem y x ch. reflexivity. Qed.

Print Assumptions C58_activation_iff.
Print Assumptions C58_activation_preserved_partial.
Print Assumptions C59_clamp_only_large_multipliers.
Print Assumptions C59_ratio_bounded.
Print Assumptions C60_lowered_or_unchanged.
Print Assumptions C62_maxpool_partial.
Print Assumptions C57_conv2d_accumulator_partial.
Print Assumptions C57_depthwise_accumulator_partial.
Print Assumptions C57_kernel_selection.
Print Assumptions C62_exactly_when.
Print Assumptions C57_int16_exactly_when.
Print Assumptions C57_depth_multiplier_always_wrong.
Print Assumptions C60_exactly_when.
