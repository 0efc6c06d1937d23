(** C84: float operators lowered with the beta-float option.  The runtime's kernels (lib_tflite_micro) are not in the repository; a kernel can only use
    what the exported operator carries, so the question is whether that determines the result. *)
From Coq Require Import List ZArith QArith Qminmax Bool Lia.
Import ListNotations.
From Verif Require Import BetaModel BetaSpec.
Local Open Scope Z_scope.

(** The convolution an exported operator stands for: the padding follows from the sizes. *)
Definition read_conv (input output : image) (k : filter) (bias : Z -> Q) : conv :=
  Conv (F32, F32, F32) input output k bias 1 1 NONE (if im_h output =? out_size SAME (im_h input) 3 1 2 then SAME else VALID) 2 1.
Definition read_tconv (input output : image) (k : filter) (bias : Z -> Q) : conv :=
  Conv (F32, F32, F32) input output k bias 1 1 NONE (if im_h input =? out_size SAME (im_h output) 3 1 2 then SAME else VALID) 2 1.

Lemma guard_conv (c : conv) : all_f32 (cv_elts c) && (cv_stride_h c =? 2) && (cv_stride_w c =? 1) && has_fw5fh2 (cv_filter c) = true ->
  cv_elts c = (F32, F32, F32) /\ cv_stride_h c = 2 /\ cv_stride_w c = 1 /\ f_h (cv_filter c) = 3 /\ f_w (cv_filter c) = 2.
Proof.
  unfold has_fw5fh2. rewrite !andb_true_iff, !Z.eqb_eq. intros (((A & B) & C) & D & E). split; [|auto].
  destruct (cv_elts c) as ((a & b) & d). cbn in A. destruct a, b, d; try discriminate. auto.
Qed.

(** One kernel computes every convolution that is lowered, without fused activation and with dilations 1.
    Missing (refuted below): the fused activation and the dilations are lost. *)
Theorem C84_convolution_partial : exists K : beta -> (Z -> Z -> Z -> Q) -> Z -> Z -> Z -> Q,
  forall tanh sign c b, legal_conv c -> cv_faf c = NONE -> cv_dil_h c = 1 -> cv_dil_w c = 1 -> beta_lower true (TConv c) = Replaced b ->
  forall input y x o, K b input y x o = conv_value tanh sign c input y x o.
Proof.
  exists (fun b => match b with BConv i o k bias => conv_value (fun x => x) (fun x => x) (read_conv i o k bias) | _ => fun _ _ _ _ => 0%Q end).
  intros tanh sign c b (_ & Lh & _) F D1 D2 E input y x o. cbn [beta_lower andb] in E. destruct (_ && _ && _ && _) eqn:G; [|discriminate]. injection E as <-.
  apply guard_conv in G. destruct G as (G1 & G2 & G3 & G4 & G5). destruct c as [el i ou k bias dh dw fa p sh sw]. cbn in *. subst.
  assert (P : (if im_h ou =? out_size SAME (im_h i) 3 1 2 then SAME else VALID) = p).
  { rewrite Lh, G4. destruct p; cbn [out_size]; [rewrite Z.eqb_refl; auto|]. destruct (Z.eqb_spec ((im_h i - (3 - 1) * 1 + 2 - 1) / 2) ((im_h i + 2 - 1) / 2)); auto.
    exfalso. Z.to_euclidean_division_equations; lia. }
  unfold read_conv. rewrite P. reflexivity.
Qed.
Theorem C84_transpose_convolution_partial : exists K : beta -> (Z -> Z -> Z -> Q) -> Z -> Z -> Z -> Q,
  forall tanh sign c b, legal_tconv c -> cv_faf c = NONE -> beta_lower true (TTransposeConv c) = Replaced b ->
  forall input y x o, K b input y x o = tconv_value tanh sign c input y x o.
Proof.
  exists (fun b => match b with BTransposeConv i o k bias => tconv_value (fun x => x) (fun x => x) (read_tconv i o k bias) | _ => fun _ _ _ _ => 0%Q end).
  intros tanh sign c b (_ & D1 & D2 & Lh & _) F E input y x o. cbn [beta_lower andb] in E. destruct (_ && _ && _ && _) eqn:G; [|discriminate]. injection E as <-.
  apply guard_conv in G. destruct G as (G1 & G2 & G3 & G4 & G5). destruct c as [el i ou k bias dh dw fa p sh sw]. cbn in *. subst.
  assert (P : (if im_h i =? out_size SAME (im_h ou) 3 1 2 then SAME else VALID) = p).
  { rewrite Lh, G4. destruct p; cbn [out_size]; [rewrite Z.eqb_refl; auto|]. destruct (Z.eqb_spec ((im_h ou - (3 - 1) * 1 + 2 - 1) / 2) ((im_h ou + 2 - 1) / 2)); auto.
    exfalso. Z.to_euclidean_division_equations; lia. }
  unfold read_tconv. rewrite P. reflexivity.
Qed.
(** Fully connected: without bias (or with a zero one) and without fused activation. *)
Theorem C84_fully_connected_partial : exists K : beta -> (Z -> Q) -> Z -> Q,
  forall tanh sign c b, fc_faf c = NONE -> (forall bias o, fc_bias c = Some bias -> bias o == 0)%Q -> beta_lower true (TFc c) = Replaced b ->
  forall input o, (K b input o == fc_value tanh sign c input o)%Q.
Proof.
  exists (fun b input o => match b with BFc n m k => qsum (Z.to_nat n) (fun i => input i * k o i)%Q | _ => 0%Q end).
  intros tanh sign c b F B E input o. cbn [beta_lower andb] in E. destruct (_ && _); [|discriminate]. injection E as <-. unfold fc_value. rewrite F. cbn [activate].
  destruct (fc_bias c) as [bias|]; [rewrite (B bias o eq_refl)|]; rewrite Qplus_0_l; reflexivity.
Qed.
(** The three activations are told apart. *)
Theorem C84_activations : forall elu logistic tanh : Q -> Q, exists K : beta -> Q -> Q,
  forall a b, beta_lower true (TAct a F32) = Replaced b ->
  match a with Elu => K b = elu | Logistic => K b = logistic | Tanh => K b = tanh | OtherAct => False end.
Proof.
  intros elu logistic tanh. exists (fun b => match b with BAct 0 => elu | BAct 1 => logistic | BAct _ => tanh | _ => fun x => x end).
  intros [] b E; cbn in E; try discriminate; injection E as <-; reflexivity.
Qed.
(** Without the option nothing changes; quantised operators other than concatenations never do. *)
Theorem C84_only_floats : forall enabled o,
  (beta_lower false o = Kept \/ beta_lower false o = ByReplaceConcat) /\
  match o with
  | TConv c | TTransposeConv c => cv_elts c <> (F32, F32, F32) -> beta_lower enabled o = Kept
  | TFc c => fc_elts c <> (F32, F32) -> beta_lower enabled o = Kept
  | TAct _ e => e <> F32 -> beta_lower enabled o = Kept
  | TConcat c => cc_static c = true -> cc_faf c = NONE -> beta_lower enabled o = ByReplaceConcat
  end.
Proof.
  intros en o. split.
  - destruct o; cbn; auto; [destruct (activation_type a); auto|destruct (_ && _); auto].
  - destruct o as [c|c|c|a e|c]; cbn [beta_lower].
    + intros N. destruct (cv_elts c) as ((x & y) & z); destruct x, y, z; try congruence; cbn; rewrite ?andb_false_r; auto.
    + intros N. destruct (cv_elts c) as ((x & y) & z); destruct x, y, z; try congruence; cbn; rewrite ?andb_false_r; auto.
    + intros N. destruct (fc_elts c) as (x & y); destruct x, y; try congruence; cbn; rewrite ?andb_false_r; auto.
    + intros N. destruct e; try congruence; cbn; rewrite ?andb_false_r; destruct (activation_type a); auto.
    + intros -> ->. auto.
Qed.

(** ** What is lost: no kernel whatsoever is right for every operator that is lowered *)
Lemma no_kernel {A} (k : Q) (v1 v2 : A) (f : A -> Q) : ~ (f v1 == f v2)%Q -> exists v, (v = v1 \/ v = v2) /\ ~ (k == f v)%Q.
Proof. intros N. destruct (Qeq_dec k (f v1)) as [E|E]; [|exists v1; auto]. exists v2. split; auto. intros E2. apply N. rewrite <- E, <- E2. reflexivity. Qed.

Theorem C84_refuted_bias : forall tanh sign (K : beta -> (Z -> Q) -> Z -> Q),
  exists c b input o, fc_faf c = NONE /\ beta_lower true (TFc c) = Replaced b /\ ~ (K b input o == fc_value tanh sign c input o)%Q.
Proof.
  intros tanh sign K. set (mk := fun v : Q => Fc (F32, F32) 1 1 (fun _ _ => 1%Q) (Some (fun _ => v)) NONE).
  destruct (no_kernel (K (BFc 1 1 (fun _ _ => 1%Q)) (fun _ => 0%Q) 0) 0%Q 1%Q (fun v => fc_value tanh sign (mk v) (fun _ => 0%Q) 0)) as (v & _ & N); [vm_compute; discriminate|].
  exists (mk v), (BFc 1 1 (fun _ _ => 1%Q)), (fun _ => 0%Q), 0. auto.
Qed.
Theorem C84_refuted_fc_activation : forall tanh sign (K : beta -> (Z -> Q) -> Z -> Q),
  exists c b input o, fc_bias c = None /\ beta_lower true (TFc c) = Replaced b /\ ~ (K b input o == fc_value tanh sign c input o)%Q.
Proof.
  intros tanh sign K. set (mk := fun a => Fc (F32, F32) 1 1 (fun _ _ => 1%Q) None a).
  destruct (no_kernel (K (BFc 1 1 (fun _ _ => 1%Q)) (fun _ => -1)%Q 0) NONE RELU (fun v => fc_value tanh sign (mk v) (fun _ => -1)%Q 0)) as (v & _ & N); [vm_compute; discriminate|].
  exists (mk v), (BFc 1 1 (fun _ _ => 1%Q)), (fun _ => -1)%Q, 0. auto.
Qed.
(** An 8x8 image, one channel; the filter picks the last row of its window. *)
Definition ex_f : filter := Filter 1 3 2 1 (fun _ ky kx _ => if (ky =? 2) && (kx =? 0) then 1%Q else 0%Q).
Definition ex_conv (d : Z) (a : faf) : conv := Conv (F32, F32, F32) (Image 8 8 1) (Image 4 8 1) ex_f (fun _ => 0%Q) d d a SAME 2 1.
Lemma ex_legal d a : 0 < d -> legal_conv (ex_conv d a).
Proof. intros D. unfold legal_conv, ex_conv, ex_f. cbn. repeat split; lia. Qed.
Theorem C84_refuted_conv_activation : forall tanh sign (K : beta -> (Z -> Z -> Z -> Q) -> Z -> Z -> Z -> Q),
  exists c b input y x o, legal_conv c /\ cv_dil_h c = 1 /\ cv_dil_w c = 1 /\ beta_lower true (TConv c) = Replaced b /\ ~ (K b input y x o == conv_value tanh sign c input y x o)%Q.
Proof.
  intros tanh sign K. set (b := BConv (Image 8 8 1) (Image 4 8 1) ex_f (fun _ => 0%Q)).
  destruct (no_kernel (K b (fun _ _ _ => -1)%Q 0 0 0) NONE RELU (fun v => conv_value tanh sign (ex_conv 1 v) (fun _ _ _ => -1)%Q 0 0 0)) as (v & _ & N); [vm_compute; discriminate|].
  exists (ex_conv 1 v), b, (fun _ _ _ => -1)%Q, 0, 0, 0. split; [apply ex_legal; lia|]. auto.
Qed.
Theorem C84_refuted_dilation : forall tanh sign (K : beta -> (Z -> Z -> Z -> Q) -> Z -> Z -> Z -> Q),
  exists c b input y x o, legal_conv c /\ cv_faf c = NONE /\ beta_lower true (TConv c) = Replaced b /\ ~ (K b input y x o == conv_value tanh sign c input y x o)%Q.
Proof.
  intros tanh sign K. set (b := BConv (Image 8 8 1) (Image 4 8 1) ex_f (fun _ => 0%Q)).
  destruct (no_kernel (K b (fun y _ _ => inject_Z y) 1 1 0) 1 2 (fun v => conv_value tanh sign (ex_conv v NONE) (fun y _ _ => inject_Z y) 1 1 0)) as (v & Hv & N); [vm_compute; discriminate|].
  exists (ex_conv v NONE), b, (fun y _ _ => inject_Z y), 1, 1, 0. split; [apply ex_legal; lia|]. auto.
Qed.
Theorem C84_refuted_transpose_activation : forall tanh sign (K : beta -> (Z -> Z -> Z -> Q) -> Z -> Z -> Z -> Q),
  exists c b input y x o, legal_tconv c /\ beta_lower true (TTransposeConv c) = Replaced b /\ ~ (K b input y x o == tconv_value tanh sign c input y x o)%Q.
Proof.
  intros tanh sign K. set (b := BTransposeConv (Image 4 8 1) (Image 8 8 1) ex_f (fun _ => 0%Q)).
  set (mk := fun a => Conv (F32, F32, F32) (Image 4 8 1) (Image 8 8 1) ex_f (fun _ => 0%Q) 1 1 a SAME 2 1).
  destruct (no_kernel (K b (fun _ _ _ => -1)%Q 2 2 0) NONE RELU (fun v => tconv_value tanh sign (mk v) (fun _ _ _ => -1)%Q 2 2 0)) as (v & _ & N); [vm_compute; discriminate|].
  exists (mk v), b, (fun _ _ _ => -1)%Q, 2, 2, 0. split; [|auto]. unfold legal_tconv, mk, ex_f. cbn. repeat split; lia.
Qed.
(** A concatenation of static shapes is given to the beta operator only when it has a fused activation, which is then lost; a quantised one
    makes the compilation fail (only with the option). *)
Theorem C84_refuted_concat : 
  (forall c b, cc_static c = true -> beta_lower true (TConcat c) = Replaced b -> cc_faf c <> NONE) /\
  (forall tanh sign (K : beta -> list (Z -> Q) -> Z -> Q), exists c b ins i,
     legal_concat c /\ beta_lower true (TConcat c) = Replaced b /\ ~ (K b ins i == concat_value tanh sign c ins i)%Q) /\
  (exists c, cc_elt c = QI8 /\ legal_concat c /\ beta_lower true (TConcat c) = IllTyped /\ beta_lower false (TConcat c) = Kept).
Proof.
  split; [|split].
  - intros c b S E N. cbn in E. rewrite S, N in E. discriminate.
  - intros tanh sign K. set (mk := fun a => Concat F32 true 0 [[1]; [1]] [2] a).
    destruct (no_kernel (K (BConcat [[1]; [1]] [2]) [fun _ => 7%Q; fun _ => 7%Q] 1) RELU RELU6 (fun v => concat_value tanh sign (mk v) [fun _ => 7%Q; fun _ => 7%Q] 1)) as (v & Hv & N);
      [vm_compute; discriminate|].
    exists (mk v), (BConcat [[1]; [1]] [2]), [fun _ => 7%Q; fun _ => 7%Q], 1. split; [|split; [destruct Hv as [-> | ->]; reflexivity|exact N]].
    unfold legal_concat, mk. cbn. repeat split. repeat constructor.
  - exists (Concat QI8 true 0 [[1]; [1]] [2] RELU). unfold legal_concat. cbn. repeat split. repeat constructor.
Qed.

(** ** Exactly when an operator survives: no fused activation, and no bias of a fully connected *)
Lemma qsum_ext n f g : (forall i, (f i == g i)%Q) -> (qsum n f == qsum n g)%Q.
Proof. intros H. induction n as [|k IH]; cbn [qsum]; [reflexivity|]. rewrite IH, H. reflexivity. Qed.
Lemma qsum_scale n q f : (qsum n (fun i => q * f i) == q * qsum n f)%Q.
Proof. induction n as [|k IH]; cbn [qsum]; [ring|]. rewrite IH. ring. Qed.
Lemma faf_none (f : faf) : {f = NONE} + {f <> NONE}.
Proof. destruct f; [left; reflexivity| | | | |]; right; discriminate. Defined.
(** Every fused activation leaves out a value. *)
Lemma activation_gap tanh sign f : (forall q, tanh q <= 1)%Q -> (forall q, sign q <= 1)%Q -> f <> NONE ->
  exists q, forall x, ~ (activate tanh sign f x == q)%Q.
Proof.
  intros T G N.
  assert (A : forall m x y, (x == y -> y < m -> ~ m <= x)%Q).
  { intros m x y E L E2. rewrite E in E2. apply (Qlt_irrefl y). eapply Qlt_le_trans; eauto. }
  assert (B : forall m x y, (x == y -> m < y -> ~ x <= m)%Q).
  { intros m x y E L E2. rewrite E in E2. apply (Qlt_irrefl m). eapply Qlt_le_trans; eauto. }
  destruct f; [congruence| | | | |]; cbn [activate].
  - exists (-(1))%Q. intros x E. eapply (A 0%Q); [exact E|reflexivity|apply Q.le_max_l].
  - exists (-(2))%Q. intros x E. eapply (A (-(1))%Q); [exact E|reflexivity|apply Q.le_max_l].
  - exists (-(1))%Q. intros x E. eapply (A 0%Q); [exact E|reflexivity|apply Q.le_max_l].
  - exists 2%Q. intros x E. eapply (B 1%Q); [exact E|reflexivity|apply T].
  - exists 2%Q. intros x E. eapply (B 1%Q); [exact E|reflexivity|apply G].
Qed.
(** A kernel that is right for the operators without bias and activation is right for another one exactly when it has none either. *)
Theorem C84_fully_connected_exactly_when : forall tanh sign (K : beta -> (Z -> Q) -> Z -> Q),
  (forall q, tanh q <= 1)%Q -> (forall q, sign q <= 1)%Q ->
  (forall c b, fc_faf c = NONE -> fc_bias c = None -> beta_lower true (TFc c) = Replaced b -> forall input o, (K b input o == fc_value tanh sign c input o)%Q) ->
  forall c b o, beta_lower true (TFc c) = Replaced b -> (exists i, 0 <= i < fc_n c /\ ~ (fc_weights c o i == 0)%Q) ->
  ((forall input, (K b input o == fc_value tanh sign c input o)%Q) <->
   fc_faf c = NONE /\ forall bias, fc_bias c = Some bias -> (bias o == 0)%Q).
Proof.
  intros tanh sign K T G R c b o E (i0 & Hi & W).
  set (c0 := Fc (F32, F32) (fc_n c) (fc_m c) (fc_weights c) None NONE).
  assert (V0 : forall input, (K b input o == qsum (Z.to_nat (fc_n c)) (fun i => input i * fc_weights c o i))%Q).
  { intros input. rewrite (R c0 b); [|reflexivity|reflexivity|].
    - unfold fc_value, c0. cbn [fc_faf fc_bias fc_n fc_weights activate]. apply Qplus_0_l.
    - cbn [beta_lower andb] in *. destruct (_ && _); [|discriminate]. exact E. }
  set (bo := match fc_bias c with Some bb => bb o | None => 0%Q end).
  assert (V : forall input, (fc_value tanh sign c input o = activate tanh sign (fc_faf c) (bo + qsum (Z.to_nat (fc_n c)) (fun i => input i * fc_weights c o i)))%Q) by reflexivity.
  (* the sum takes every value *)
  assert (Any : forall q, exists input, (qsum (Z.to_nat (fc_n c)) (fun i => input i * fc_weights c o i) == q)%Q).
  { intros q. exists (fun i => if i =? i0 then q / fc_weights c o i0 else 0)%Q.
    assert (P : forall n, (qsum n (fun i => (if i =? i0 then q / fc_weights c o i0 else 0) * fc_weights c o i) == if i0 <? Z.of_nat n then q else 0)%Q).
    { induction n as [|n IH]; cbn [qsum].
      - destruct (Z.ltb_spec i0 (Z.of_nat 0)); [lia|reflexivity].
      - rewrite IH. destruct (Z.eqb_spec (Z.of_nat n) i0) as [e|ne].
        + rewrite e. destruct (Z.ltb_spec i0 i0); [lia|]. destruct (Z.ltb_spec i0 (Z.of_nat (S n))); [|lia]. field. exact W.
        + destruct (Z.ltb_spec i0 (Z.of_nat n)), (Z.ltb_spec i0 (Z.of_nat (S n))); try lia; ring. }
    rewrite P. destruct (Z.ltb_spec i0 (Z.of_nat (Z.to_nat (fc_n c)))); [reflexivity|lia]. }
  split.
  - intros H. assert (F : fc_faf c = NONE).
    { destruct (faf_none (fc_faf c)) as [Ef|Ef]; [exact Ef|]. exfalso. destruct (activation_gap tanh sign (fc_faf c) T G Ef) as (q & Hq). destruct (Any q) as (input & Hin).
      apply (Hq (bo + qsum (Z.to_nat (fc_n c)) (fun i => input i * fc_weights c o i))%Q); rewrite <- V, <- (H input), V0; exact Hin. }
    split; auto. intros bias Eb. destruct (Any 0%Q) as (input & Hin). specialize (H input). rewrite V0, V, F in H. cbn [activate] in H. rewrite Hin in H.
    unfold bo in H. rewrite Eb, Qplus_0_r in H. symmetry. exact H.
  - intros [F B] input. rewrite V0, V, F. cbn [activate]. assert (Z0 : (bo == 0)%Q) by (unfold bo; destruct (fc_bias c) as [bb|]; [apply (B bb eq_refl)|reflexivity]).
    rewrite Z0. symmetry. apply Qplus_0_l.
Qed.
Lemma conv_sum_scale c q input y x o : (conv_sum c (fun a b i => q * input a b i) y x o == q * conv_sum c input y x o)%Q.
Proof.
  unfold conv_sum. rewrite <- qsum_scale. apply qsum_ext. intros ky. rewrite <- qsum_scale. apply qsum_ext. intros kx.
  destruct (inside _ _ _); [|ring]. rewrite <- qsum_scale. apply qsum_ext. intros i. ring.
Qed.
Lemma tconv_sum_scale c q input y x o : (tconv_sum c (fun a b i => q * input a b i) y x o == q * tconv_sum c input y x o)%Q.
Proof.
  unfold tconv_sum. rewrite <- qsum_scale. apply qsum_ext. intros ky. rewrite <- qsum_scale. apply qsum_ext. intros kx.
  destruct (_ && _); [|ring]. rewrite <- qsum_scale. apply qsum_ext. intros i. ring.
Qed.
(** The same for the convolutions: of those whose result depends on the input at all, exactly the ones without fused activation survive. *)
Theorem C84_convolution_exactly_when : forall tanh sign (K : beta -> (Z -> Z -> Z -> Q) -> Z -> Z -> Z -> Q),
  (forall q, tanh q <= 1)%Q -> (forall q, sign q <= 1)%Q ->
  (forall c b, legal_conv c -> cv_faf c = NONE -> cv_dil_h c = 1 -> cv_dil_w c = 1 -> beta_lower true (TConv c) = Replaced b ->
     forall input y x o, (K b input y x o == conv_value tanh sign c input y x o)%Q) ->
  forall c b, legal_conv c -> cv_dil_h c = 1 -> cv_dil_w c = 1 -> beta_lower true (TConv c) = Replaced b ->
  (exists input y x o, ~ conv_value tanh sign (Conv (cv_elts c) (cv_in c) (cv_out c) (cv_filter c) (fun _ => 0%Q) (cv_dil_h c) (cv_dil_w c) NONE (cv_padding c) (cv_stride_h c) (cv_stride_w c)) input y x o == 0)%Q ->
  ((forall input y x o, (K b input y x o == conv_value tanh sign c input y x o)%Q) <-> cv_faf c = NONE).
Proof.
  intros tanh sign K T G R c b L D1 D2 E (input & y & x & o & N).
  set (c0 := Conv (cv_elts c) (cv_in c) (cv_out c) (cv_filter c) (cv_bias c) (cv_dil_h c) (cv_dil_w c) NONE (cv_padding c) (cv_stride_h c) (cv_stride_w c)).
  assert (V0 : forall inp, (K b inp y x o == cv_bias c o + conv_sum c inp y x o)%Q) by (intros inp; apply (R c0 b); auto).
  assert (N' : ~ (conv_sum c input y x o == 0)%Q).
  { intros Z0. apply N. unfold conv_value. cbn [cv_faf cv_bias activate]. rewrite Qplus_0_l. exact Z0. }
  split.
  - intros H. destruct (faf_none (cv_faf c)) as [Ef|Ef]; [exact Ef|]. exfalso. destruct (activation_gap tanh sign (cv_faf c) T G Ef) as (q & Hq).
    set (k := ((q - cv_bias c o) / conv_sum c input y x o)%Q);
    apply (Hq (cv_bias c o + conv_sum c (fun a b0 i => k * input a b0 i) y x o)%Q); specialize (H (fun a b0 i => k * input a b0 i)%Q y x o); unfold conv_value in H; rewrite <- H, V0, conv_sum_scale;
    unfold k; field; exact N'.
  - intros F. apply (R c b); auto.
Qed.
Theorem C84_transpose_convolution_exactly_when : forall tanh sign (K : beta -> (Z -> Z -> Z -> Q) -> Z -> Z -> Z -> Q),
  (forall q, tanh q <= 1)%Q -> (forall q, sign q <= 1)%Q ->
  (forall c b, legal_tconv c -> cv_faf c = NONE -> beta_lower true (TTransposeConv c) = Replaced b ->
     forall input y x o, (K b input y x o == tconv_value tanh sign c input y x o)%Q) ->
  forall c b, legal_tconv c -> beta_lower true (TTransposeConv c) = Replaced b ->
  (exists input y x o, ~ tconv_value tanh sign (Conv (cv_elts c) (cv_in c) (cv_out c) (cv_filter c) (fun _ => 0%Q) (cv_dil_h c) (cv_dil_w c) NONE (cv_padding c) (cv_stride_h c) (cv_stride_w c)) input y x o == 0)%Q ->
  ((forall input y x o, (K b input y x o == tconv_value tanh sign c input y x o)%Q) <-> cv_faf c = NONE).
Proof.
  intros tanh sign K T G R c b L E (input & y & x & o & N).
  set (c0 := Conv (cv_elts c) (cv_in c) (cv_out c) (cv_filter c) (cv_bias c) (cv_dil_h c) (cv_dil_w c) NONE (cv_padding c) (cv_stride_h c) (cv_stride_w c)).
  assert (V0 : forall inp, (K b inp y x o == cv_bias c o + tconv_sum c inp y x o)%Q) by (intros inp; apply (R c0 b); auto).
  assert (N' : ~ (tconv_sum c input y x o == 0)%Q).
  { intros Z0. apply N. unfold tconv_value. cbn [cv_faf cv_bias activate]. rewrite Qplus_0_l. exact Z0. }
  split.
  - intros H. destruct (faf_none (cv_faf c)) as [Ef|Ef]; [exact Ef|]. exfalso. destruct (activation_gap tanh sign (cv_faf c) T G Ef) as (q & Hq).
    set (k := ((q - cv_bias c o) / tconv_sum c input y x o)%Q);
    apply (Hq (cv_bias c o + tconv_sum c (fun a b0 i => k * input a b0 i) y x o)%Q); specialize (H (fun a b0 i => k * input a b0 i)%Q y x o); unfold tconv_value in H; rewrite <- H, V0, tconv_sum_scale;
    unfold k; field; exact N'.
  - intros F. apply (R c b); auto.
Qed.
(** The premises are met: a convolution whose result depends on its input, and one with a fused activation. *)
Example C84_exactly_concrete : forall tanh sign,
  legal_conv (ex_conv 1 RELU) /\ beta_lower true (TConv (ex_conv 1 RELU)) = Replaced (BConv (Image 8 8 1) (Image 4 8 1) ex_f (fun _ => 0%Q)) /\
  (conv_value tanh sign (ex_conv 1 NONE) (fun _ _ _ => -1) 0 0 0 == -1)%Q /\ (conv_value tanh sign (ex_conv 1 RELU) (fun _ _ _ => -1) 0 0 0 == 0)%Q.
Proof. intros. split; [apply ex_legal; lia|]. split; [reflexivity|]. split; vm_compute; reflexivity. Qed.

(** A lowered convolution: row 2 of the window, first column. *)
Example C84_concrete : forall tanh sign, legal_conv (ex_conv 1 NONE) /\
  beta_lower true (TConv (ex_conv 1 NONE)) = Replaced (BConv (Image 8 8 1) (Image 4 8 1) ex_f (fun _ => 0%Q)) /\
  (conv_value tanh sign (ex_conv 1 NONE) (fun y x _ => inject_Z (10 * y + x)) 1 1 0 == 41)%Q /\
  (conv_value tanh sign (ex_conv 1 NONE) (fun y x _ => inject_Z (10 * y + x)) 3 1 0 == 0)%Q.
Proof. intros tanh sign. split; [apply ex_legal; lia|]. split; [reflexivity|]. split; vm_compute; reflexivity. Qed.
Print Assumptions C84_convolution_partial.
Print Assumptions C84_refuted_concat.
Print Assumptions C84_refuted_dilation.
Print Assumptions C84_fully_connected_exactly_when.
Print Assumptions C84_convolution_exactly_when.
Print Assumptions C84_transpose_convolution_exactly_when.
