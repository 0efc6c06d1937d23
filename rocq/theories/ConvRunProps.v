(** C79: a lowered convolution, run on any number of threads, computes the convolution. *)
From Coq Require Import List ZArith Bool Arith QArith Permutation Lia.
Import ListNotations.
From Verif Require Import ConvSpec ConvOptSpec ConvLowerSpec ConvLowerModel ConvLowerProofs ConvLowerProps ThreadModel ThreadSpec ThreadProps
  TconvModel TconvProofs ConvRunModel ConvRunSpec.
Local Open Scope Z_scope.

(** ** A kernel with neither output offset nor output stride *)
Lemma exec_one : forall size rg wr m f m', exec size rg wr m [f] m' -> exists rs order garbage,
  rg f = Some rs /\ Permutation (flat_map (wr f) rs) order /\ (forall a, ~ (0 <= a < size) -> garbage a = m a) /\
  m' = fold_left write order (if f_partial f then m else garbage).
Proof.
  intros size rg wr m f m' E. inversion E as [|prev garbage f' tl rs order final G R P E' E1 E2 E3]; subst. inversion E'; subst.
  exists rs, order, garbage. repeat split; auto.
Qed.
Lemma exec_one_intro : forall size rg wr m f rs, rg f = Some rs -> exists m', exec size rg wr m [f] m'.
Proof.
  intros size rg wr m f rs R. eexists.
  apply (exec_cons _ _ _ m m f [] rs (flat_map (wr f) rs) _ (fun a _ => eq_refl) R (Permutation_refl _)). apply exec_nil.
Qed.

Lemma run_kernel_values : forall ds threads H W D size v mem, (0 < threads)%nat -> 1 <= H -> 1 <= W -> 0 <= D -> consecutive 0 ds D ->
  (forall before, exists after, run_kernel ds threads (H, W, D) no_chain size v mem before after) /\
  (forall before after, run_kernel ds threads (H, W, D) no_chain size v mem before after ->
    (forall Y X c, 0 <= Y < H -> 0 <= X < W -> 0 <= c < D -> after ((Y * W + X) * D + c) = v (fun a => mem (a + 0 / size)) c Y X) /\
    (forall a, ~ (0 <= a < H * W * D) -> after a = before a)).
Proof.
  intros ds threads H W D size v mem Th HH HW HD Cs.
  destruct (C09_regions_tile_image ds threads H W D Th HH HW Cs) as (rs & Er & Cov & Ins).
  assert (Er' : conv_regions ds threads (H, W, D) (as_fake no_chain) = Some rs) by exact Er.
  split.
  - intros before. unfold run_kernel. exact (exec_one_intro _ _ _ before _ rs Er').
  - intros before after R. unfold run_kernel in R.
    destruct (exec_one _ _ _ _ _ _ R) as (rs' & order & garbage & R1 & P & G & ->). rewrite Er' in R1. injection R1 as <-.
    cbn [f_partial as_fake no_chain ch_partial].
    rewrite <- (Z2Nat.id D) in Cov, Ins by exact HD.
    set (f := as_fake no_chain) in *. set (u := v (fun a => mem (a + f_offset f / size))) in *.
    assert (C1 : forall Y X c, ThreadSpec.in_image H W (Z.of_nat (Z.to_nat D)) Y X c ->
      on_gridb (f_subH f) (f_strideH f) Y = true -> on_gridb (f_subW f) (f_strideW f) X = true -> exists r, In r rs /\ in_region r Y X c).
    { intros Y X c I _ _. destruct (Cov Y X c I) as (i & r & N & Rr & _). exists r. split; [exact (nth_error_In _ _ N)|exact Rr]. }
    assert (C2 : forall r Y X c, In r rs -> on_gridb (f_subH f) (f_strideH f) Y = true -> on_gridb (f_subW f) (f_strideW f) X = true ->
      in_region r Y X c -> ThreadSpec.in_image H W (Z.of_nat (Z.to_nat D)) Y X c).
    { intros r Y X c Ir _ _ Rr. exact (Ins r Y X c Ir Rr). }
    split.
    + intros Y X c HY HX Hc.
      assert (GY : forall n, 0 <= n -> on_gridb 0 1 n = true).
      { intros n Hn. unfold on_gridb. change (Z.of_nat 0) with 0. change (Z.of_nat 1) with 1. rewrite Z.mod_1_r.
        apply andb_true_iff. split; [apply Z.leb_le; lia|reflexivity]. }
      pose proof (conv_on_grid H W (Z.to_nat D) f u rs C1 C2 order garbage P Y X c
        ltac:(unfold ThreadSpec.in_image; lia) (GY Y ltac:(lia)) (GY X ltac:(lia))) as V.
      rewrite Z2Nat.id in V by exact HD. rewrite V. change (Z.of_nat (f_subH f)) with 0. change (Z.of_nat (f_subW f)) with 0.
      change (Z.of_nat (f_strideH f)) with 1. change (Z.of_nat (f_strideW f)) with 1. rewrite !Z.sub_0_r, !Z.div_1_r. unfold u.
      change (f_offset f) with 0. reflexivity.
    + intros a Ha. rewrite (conv_outside H W (Z.to_nat D) f u rs C2 order garbage P a ltac:(rewrite Z2Nat.id by exact HD; exact Ha)).
      apply G. exact Ha.
Qed.

(** ** The operators left by the pass *)
Section Operators.
  Variables (ds : list (Z * Z)) (threads : nat) (qlo qhi zp q6 q1 qm1 : Z) (scale : Z -> Z -> Z) (reference : Z -> Z -> Z -> Z)
    (mem : Z -> Z) (filter bias : list Z) (H W D : Z).
  Hypotheses (Th : (0 < threads)%nat) (HH : 1 <= H) (HW : 1 <= W) (HD : 0 <= D) (Cs : consecutive 0 ds D).
  Fixpoint agrees (o : op) : Prop :=
    match o with
    | TflConv _ _ | TflDepthwise _ _ => True
    | XcConv k c a ot ch => ch = no_chain /\ c_out c = (H, W, D) /\
        forall o y x, 0 <= o < D -> 0 <= y < H -> 0 <= x < W ->
          kernel_accumulator k c a (fun b => mem (b + 0 / (if c_i16 c then 2 else 1))) filter bias o y x = reference o y x
    | TflRelu o' => agrees o'
    | _ => False
    end.
  Let run := run_op ds threads qlo qhi zp q6 q1 qm1 scale reference mem filter bias.

  Lemma address_inside : forall Y X c, 0 <= Y < H -> 0 <= X < W -> 0 <= c < D -> 0 <= (Y * W + X) * D + c < H * W * D.
  Proof using. clear. intros. assert (0 <= Y * W + X) by nia. assert (Y * W + X < H * W) by nia. nia. Qed.

  Lemma run_exists : forall o, agrees o -> forall before, exists after, run o (H, W, D) before after.
  Proof using Th HH HW HD Cs.
    induction o as [c t|c t|o IH|c t ch|c t|k c a ot ch]; intros A before; try destruct A.
    - set (m := fun a => if (0 <=? a) && (a <? H * W * D)
         then ConvLowerModel.value qlo qhi zp q6 q1 qm1 (TflConv c t) (scale (a mod D) (reference (a mod D) (a / D / W) ((a / D) mod W))) else before a).
      exists m. apply run_tflite; [exact I| |].
      + intros Y X o HY HX Ho. pose proof (address_inside Y X o HY HX Ho) as B. unfold m.
        destruct (Z.leb_spec 0 ((Y * W + X) * D + o)); [|lia]. destruct (Z.ltb_spec ((Y * W + X) * D + o) (H * W * D)); [|lia]. cbn [andb].
        replace (((Y * W + X) * D + o) mod D) with o by (rewrite Z.add_comm, Z.mod_add, Z.mod_small by lia; reflexivity).
        replace (((Y * W + X) * D + o) / D) with (Y * W + X) by (rewrite (Z.add_comm _ o), Z.div_add, Z.div_small by lia; reflexivity).
        replace ((Y * W + X) mod W) with X by (rewrite Z.add_comm, Z.mod_add, Z.mod_small by lia; reflexivity).
        replace ((Y * W + X) / W) with Y by (rewrite (Z.add_comm _ X), Z.div_add, Z.div_small by lia; reflexivity). reflexivity.
      + intros a Ha. unfold m. destruct (Z.leb_spec 0 a); [|reflexivity]. destruct (Z.ltb_spec a (H * W * D)); [|reflexivity]. lia.
    - set (m := fun a => if (0 <=? a) && (a <? H * W * D)
         then ConvLowerModel.value qlo qhi zp q6 q1 qm1 (TflDepthwise c t) (scale (a mod D) (reference (a mod D) (a / D / W) ((a / D) mod W))) else before a).
      exists m. apply run_tflite; [exact I| |].
      + intros Y X o HY HX Ho. pose proof (address_inside Y X o HY HX Ho) as B. unfold m.
        destruct (Z.leb_spec 0 ((Y * W + X) * D + o)); [|lia]. destruct (Z.ltb_spec ((Y * W + X) * D + o) (H * W * D)); [|lia]. cbn [andb].
        replace (((Y * W + X) * D + o) mod D) with o by (rewrite Z.add_comm, Z.mod_add, Z.mod_small by lia; reflexivity).
        replace (((Y * W + X) * D + o) / D) with (Y * W + X) by (rewrite (Z.add_comm _ o), Z.div_add, Z.div_small by lia; reflexivity).
        replace ((Y * W + X) mod W) with X by (rewrite Z.add_comm, Z.mod_add, Z.mod_small by lia; reflexivity).
        replace ((Y * W + X) / W) with Y by (rewrite (Z.add_comm _ X), Z.div_add, Z.div_small by lia; reflexivity). reflexivity.
      + intros a Ha. unfold m. destruct (Z.leb_spec 0 a); [|reflexivity]. destruct (Z.ltb_spec a (H * W * D)); [|reflexivity]. lia.
    - cbn [agrees] in A. destruct (IH A before) as [m2 R].
      exists (fun a => if (0 <=? a) && (a <? H * W * D) then Z.max zp (m2 a) else before a).
      apply (run_relu _ _ _ _ _ _ _ _ _ _ _ _ _ o H W D before m2); [exact R| |].
      + intros a Ha. destruct (Z.leb_spec 0 a); [|lia]. destruct (Z.ltb_spec a (H * W * D)); [reflexivity|lia].
      + intros a Ha. destruct (Z.leb_spec 0 a); [|reflexivity]. destruct (Z.ltb_spec a (H * W * D)); [|reflexivity]. lia.
    - destruct H1 as [E _]. subst ch.
      destruct (run_kernel_values ds threads H W D (if c_i16 c then 2 else 1)
        (fun m o y x => ConvLowerModel.value qlo qhi zp q6 q1 qm1 (XcConv k c a ot no_chain) (scale o (kernel_accumulator k c a m filter bias o y x))) mem Th HH HW HD Cs) as [Ex _].
      destruct (Ex before) as [after R]. exists after. rewrite <- E. apply run_xcore. rewrite E. exact R.
  Qed.

  Lemma run_values : forall o before after, run o (H, W, D) before after -> agrees o ->
    (forall Y X c, 0 <= Y < H -> 0 <= X < W -> 0 <= c < D ->
       after ((Y * W + X) * D + c) = ConvLowerModel.value qlo qhi zp q6 q1 qm1 o (scale c (reference c Y X))) /\
    (forall a, ~ (0 <= a < H * W * D) -> after a = before a).
  Proof using Th HH HW HD Cs.
    intros o before after R. remember (H, W, D) as out eqn:Eo. revert Eo.
    induction R as [o H' W' D' before after T V O|k c a ot ch before after R|o H' W' D' m1 m2 before after R IH V O]; intros Eo A.
    - injection Eo as -> -> ->. split; assumption.
    - cbn [agrees] in A. destruct A as (-> & E & A). rewrite E in R.
      destruct (run_kernel_values ds threads H W D (if c_i16 c then 2 else 1)
        (fun m o y x => ConvLowerModel.value qlo qhi zp q6 q1 qm1 (XcConv k c a ot no_chain) (scale o (kernel_accumulator k c a m filter bias o y x))) mem Th HH HW HD Cs) as [_ K].
      destruct (K before after R) as [K1 K2]. split; [|exact K2].
      intros Y X o HY HX Ho. rewrite (K1 Y X o HY HX Ho). rewrite A by assumption. reflexivity.
    - injection Eo as -> -> ->. cbn [agrees] in A. destruct (IH eq_refl A) as [IH1 IH2]. split; [|exact O].
      intros Y X c HY HX Hc. rewrite V by (apply address_inside; assumption). rewrite (IH1 Y X c HY HX Hc). reflexivity.
  Qed.
End Operators.

(** ** C79 *)
Lemma holds_shift : forall h w d mem img (b : bool), holds_image h w d mem img -> holds_image h w d (fun a => mem (a + 0 / (if b then 2 else 1))) img.
Proof. intros h w d mem img b HM y x i Hy Hx Hi. cbv beta. replace (0 / (if b then 2 else 1)) with 0 by (destruct b; reflexivity). rewrite Z.add_0_r. apply HM; assumption. Qed.

(** Every run of the operator that replaces a Conv2D (or of the operator itself when it is not replaced), on any number of threads and with
    any interleaving, leaves the values of the convolution in the output tensor and changes nothing else; and there is a run.
    16-bit convolutions without padding only (C57). *)
Theorem C79_conv2d_run_partial : forall ds threads threshold errors i16 h w d oh ow od fh fw fd p pv sh sw dh dw zx t
    qlo qhi zp q6 q1 qm1 scale mem img filter bias,
  geometry_ok p pv h w oh ow fh fw sh sw dh dw -> 1 <= oh -> 1 <= ow -> 0 <= od -> holds_image h w d mem img ->
  (i16 = true -> zx = 0 /\ no_padding p pv h w fh fw sh sw dh dw) ->
  quantisation_ok i16 qlo qhi zp q6 q1 qm1 -> activation_kept (negb i16) (at_faf t) qlo qhi zp q6 ->
  (0 < threads)%nat -> consecutive 0 ds od ->
  let reference o y x :=
    conv2d_acc h w fd fh fw sh sw dh dw (before p h fh dh sh (nth 2 pv 0)) (before p w fw dw sw (nth 4 pv 0)) zx img
      (filter_at fh fw fd filter o) (nth (Z.to_nat o) bias 0) y x in
  let o := TflConv (mk_conv i16 (h, w, d) (oh, ow, od) (fh, fw, fd) p pv (sh, sw) (dh, dw) zx) t in
  let run := run_op ds threads qlo qhi zp q6 q1 qm1 scale reference mem filter bias (replace_conv2d threshold errors zp o) (oh, ow, od) in
  (forall m, exists m', run m m') /\
  (forall m m', run m m' -> holds_result oh ow od (fun Y X c => tflite_value qlo qhi zp q6 q1 qm1 (at_faf t) (scale c (reference c Y X))) m m').
Proof.
  intros ds threads threshold errors i16 h w d oh ow od fh fw fd p pv sh sw dh dw zx t qlo qhi zp q6 q1 qm1 scale mem img filter bias
    G Hoh How Hod HM HI (Q0 & Q1 & Q2 & Q3 & Q4) HA Th Cs reference o run.
  set (c := mk_conv i16 (h, w, d) (oh, ow, od) (fh, fw, fd) p pv (sh, sw) (dh, dw) zx) in *.
  assert (A : agrees reference mem filter bias oh ow od (replace_conv2d threshold errors zp o)).
  { assert (K : forall k a, lower_conv c = Some (k, a) -> forall ot, agrees reference mem filter bias oh ow od (XcConv k c a ot no_chain)).
    { intros k a L ot. cbn [agrees]. split; [reflexivity|]. split; [reflexivity|]. intros ch y x Hc Hy Hx.
      pose proof (C57_conv2d_accumulator_partial i16 h w d oh ow od fh fw fd p pv sh sw dh dw zx k a _ img filter bias ch y x G
        (holds_shift h w d mem img (c_i16 c) HM) HI L Hy Hx) as E. fold c in E.
      assert (KK : kernel_accumulator k c a = conv_accumulator k c a).
      { unfold lower_conv in L. destruct (conv_pattern c); [|discriminate L]. destruct (get_args c) as [a'|]; [|discriminate L].
        destruct (conv_kernel_type c a') as [k'|] eqn:KT; [|discriminate L]. injection L as <- <-. unfold conv_kernel_type in KT.
        cbn [c c_in c_out c_i16] in KT. destruct i16; [|destruct (a_padded a')];
        repeat match type of KT with context [if ?b then _ else _] => destruct b end; try discriminate KT; injection KT as <-; reflexivity. }
      rewrite KK. exact E. }
    unfold o, replace_conv2d, phase1.
    assert (K2 : forall t', agrees reference mem filter bias oh ow od (phase3 (phase2 threshold errors (to_fake_conv c t')))).
    { intros t'. unfold to_fake_conv. destruct (conv_pattern c); [|exact I]. cbn [phase2]. unfold phase2_conv.
      destruct (lower_conv c) as [[k a]|] eqn:L; [|exact I]. destruct (c_i16 c); [exact (K k a eq_refl Group)|].
      destruct (choose_ot threshold (fst errors) (snd errors)) as [ot|]; [exact (K k a eq_refl ot)|exact I]. }
    destruct (negb (c_i16 c) && is_relu (at_faf t) && negb (zp =? -128)); [exact (K2 _)|exact (K2 _)]. }
  split.
  - intros m. unfold run. apply run_exists; assumption.
  - intros m m' R. unfold run in R.
    destruct (run_values ds threads qlo qhi zp q6 q1 qm1 scale reference mem filter bias oh ow od Th Hoh How Hod Cs _ m m' R A) as [R1 R2].
    split; [|exact R2]. intros Y X ch HY HX Hc. rewrite (R1 Y X ch HY HX Hc).
    assert (Hq8 : match o with TflConv c _ => c_i16 c = false -> qlo = -128 | _ => qlo = -128 end) by exact Q0.
    rewrite (C58_activation_preserved_partial threshold errors zp qlo qhi q6 q1 qm1 o _ eq_refl Hq8 Q1 Q2 Q3 Q4).
    + reflexivity.
    + cbn [faf_of o relu_handled]. destruct HA as [E|[[E [E'|E']]|[E [E' E'']]]]; [left; exact E|right; left; auto| |right; right; auto].
      right; left. split; [exact E|]. right. cbn [c c_i16]. rewrite E', E. reflexivity.
Qed.

(** The same for an 8-bit depthwise convolution with depth multiplier 1. *)
Theorem C79_depthwise_run_partial : forall ds threads threshold errors i16 h w d oh ow fh fw p pv sh sw dh dw zx t
    qlo qhi zp q6 q1 qm1 scale mem img filter bias,
  geometry_ok p pv h w oh ow fh fw sh sw dh dw -> 1 <= oh -> 1 <= ow -> 0 <= d -> holds_image h w d mem img ->
  quantisation_ok false qlo qhi zp q6 q1 qm1 -> activation_kept false (at_faf t) qlo qhi zp q6 ->
  (0 < threads)%nat -> consecutive 0 ds d ->
  let reference o y x :=
    depthwise_acc h w d fh fw sh sw dh dw (before p h fh dh sh (nth 2 pv 0)) (before p w fw dw sw (nth 4 pv 0)) zx img
      (depthwise_filter_at fw d filter o) o (nth (Z.to_nat o) bias 0) y x in
  let o := TflDepthwise (mk_conv i16 (h, w, d) (oh, ow, d) (fh, fw, d) p pv (sh, sw) (dh, dw) zx) t in
  let run := run_op ds threads qlo qhi zp q6 q1 qm1 scale reference mem filter bias (replace_conv2d threshold errors zp o) (oh, ow, d) in
  (forall m, exists m', run m m') /\
  (forall m m', run m m' -> holds_result oh ow d (fun Y X c => tflite_value qlo qhi zp q6 q1 qm1 (at_faf t) (scale c (reference c Y X))) m m').
Proof.
  intros ds threads threshold errors i16 h w d oh ow fh fw p pv sh sw dh dw zx t qlo qhi zp q6 q1 qm1 scale mem img filter bias
    G Hoh How Hod HM (Q0 & Q1 & Q2 & Q3 & Q4) HA Th Cs reference o run.
  set (c := mk_conv i16 (h, w, d) (oh, ow, d) (fh, fw, d) p pv (sh, sw) (dh, dw) zx) in *.
  assert (A : agrees reference mem filter bias oh ow d (replace_conv2d threshold errors zp o)).
  { unfold o, replace_conv2d, phase1. destruct (depthwise_pattern c); [|exact I]. cbn [phase2]. unfold phase2_depthwise.
    destruct (lower_depthwise c) as [[k a]|] eqn:L; [|exact I].
    destruct (choose_ot threshold (fst errors) (snd errors)) as [ot|]; [|exact I].
    cbn [phase3 agrees]. split; [reflexivity|]. split; [reflexivity|]. intros ch y x Hc Hy Hx.
    pose proof (C57_depthwise_accumulator_partial i16 h w d oh ow fh fw p pv sh sw dh dw zx k a _ img filter bias ch y x G
      (holds_shift h w d mem img (c_i16 c) HM) L Hy Hx Hc) as E. fold c in E.
    assert (KK : kernel_accumulator k c a = depthwise_accumulator k c a).
    { unfold lower_depthwise in L. destruct (depthwise_pattern c); [|discriminate L]. destruct (get_args c) as [a'|]; [|discriminate L].
      unfold depthwise_kernel_type in L. injection L as <- <-. destruct (a_padded a'); reflexivity. }
    rewrite KK, E. unfold reference. rewrite Z.div_same by lia. rewrite Z.div_1_r. reflexivity. }
  split.
  - intros m. unfold run. apply run_exists; assumption.
  - intros m m' R. unfold run in R.
    destruct (run_values ds threads qlo qhi zp q6 q1 qm1 scale reference mem filter bias oh ow d Th Hoh How Hod Cs _ m m' R A) as [R1 R2].
    split; [|exact R2]. intros Y X ch HY HX Hc. rewrite (R1 Y X ch HY HX Hc).
    rewrite (C58_activation_preserved_partial threshold errors zp qlo qhi q6 q1 qm1 o _ eq_refl (Q0 eq_refl) Q1 Q2 Q3 Q4).
    + reflexivity.
    + cbn [faf_of o relu_handled]. destruct HA as [E|[[E [E'|E']]|[E [E' E'']]]]; [left; exact E|right; left; auto|discriminate E'|right; right; auto].
Qed.

(** Maximum pooling without padding (C62). *)
Theorem C79_maxpool_run_partial : forall ds threads h w d oh ow fh fw sh sw p faf mem img,
  geometry_ok p [] h w oh ow fh fw sh sw 1 1 -> no_padding p [] h w fh fw sh sw 1 1 -> 1 <= oh -> 1 <= ow -> 0 <= d -> holds_image h w d mem img ->
  (0 < threads)%nat -> consecutive 0 ds d ->
  let run := run_pool ds threads (mk_pool (h, w, d) (oh, ow, d) (fh, fw) (sh, sw) p faf) mem in
  (forall m, exists m', run m m') /\
  (forall m m', run m m' ->
    (forall Y X c, 0 <= Y < oh -> 0 <= X < ow -> 0 <= c < d ->
      is_max (m' ((Y * ow + X) * d + c)) (pooled h w fh fw sh sw (before p h fh 1 sh 0) (before p w fw 1 sw 0) img c Y X)) /\
    (forall a, ~ (0 <= a < oh * ow * d) -> m' a = m a)).
Proof.
  intros ds threads h w d oh ow fh fw sh sw p faf mem img G NP Hoh How Hd HM Th Cs run. unfold run, run_pool. cbn [p_out].
  destruct (run_kernel_values ds threads oh ow d 1
    (fun m o y x => pool_result (mk_pool (h, w, d) (oh, ow, d) (fh, fw) (sh, sw) p faf) m y x o) mem Th Hoh How Hd Cs) as [Ex V].
  split; [exact Ex|]. intros m m' R. destruct (V m m' R) as [V1 V2]. split; [|exact V2].
  intros Y X c HY HX Hc. rewrite (V1 Y X c HY HX Hc).
  exact (C62_maxpool_partial h w d oh ow d fh fw sh sw p faf _ img Y X c G NP (holds_shift h w d mem img false HM) HY HX Hc).
Qed.

(** A padded 8-bit convolution with a Relu, zero point -100, five threads: the hypotheses hold, it is lowered (the Relu stays as a
    separate operator) and the work is divided by columns (the height is no multiple of five). *)
Example C79_concrete :
  let c := mk_conv false (8, 9, 4) (4, 5, 8) (5, 3, 4) SAME [] (2, 2) (1, 1) (-3) in
  geometry_ok SAME [] 8 9 4 5 5 3 2 2 1 1 /\
  (forall mem, holds_image 8 9 4 mem (fun y x i => mem ((y * 9 + x) * 4 + i))) /\
  quantisation_ok false (-128) 127 (-100) 20 0 (-110) /\ activation_kept true RELU (-128) 127 (-100) 20 /\ consecutive 0 [(0, 8)] 8 /\
  replace_conv2d (1 # 4) (1 # 10, 0)%Q (-100) (TflConv c (ex_attr RELU)) = TflRelu (XcConv PaddedIndirect c (mk_args true (-1, -1)) Group no_chain) /\
  conv_regions [(0, 8)] 5 (4, 5, 8) (as_fake no_chain) =
    Some [Region 0 0 0 4 1 8; Region 0 1 0 4 1 8; Region 0 2 0 4 1 8; Region 0 3 0 4 1 8; Region 0 4 0 4 1 8].
Proof.
  cbv zeta. split; [vm_compute; repeat split; discriminate|]. split; [intros mem y x i _ _ _; reflexivity|].
  split; [unfold quantisation_ok; lia|]. split; [right; left; split; [reflexivity|right; reflexivity]|].
  split; [cbn; lia|]. split; reflexivity.
Qed.
(** Six pixels, two threads, identity 1x1 maximum pooling: the memory before and after, and the byte after the tensor. *)
Example C79_concrete_pool : forall m, exists m', run_pool [(0, 1)] 2 (mk_pool (2, 3, 1) (2, 3, 1) (1, 1) (1, 1) VALID NONE) (fun a => 10 + a) m m' /\
  map m' [0; 1; 2; 3; 4; 5] = [10; 11; 12; 13; 14; 15] /\ m' 6 = m 6.
Proof.
  intros m. destruct (C79_maxpool_run_partial [(0, 1)] 2 2 3 1 2 3 1 1 1 1 VALID NONE (fun a => 10 + a) (fun y x i => 10 + ((y * 3 + x) * 1 + i)))
    as [Ex V]; [vm_compute; repeat split; discriminate|vm_compute; repeat split|lia|lia|lia|intros y x i _ _ _; reflexivity|lia|cbn; lia|].
  destruct (Ex m) as [m' R]. exists m'. split; [exact R|]. destruct (V m m' R) as [V1 V2].
  assert (K : forall Y X, 0 <= Y < 2 -> 0 <= X < 3 -> m' (Y * 3 + X) = 10 + (Y * 3 + X)).
  { intros Y X HY HX. destruct (V1 Y X 0 HY HX ltac:(lia)) as [(ky & kx & Hky & Hkx & _ & E) _].
    replace ((Y * 3 + X) * 1 + 0) with (Y * 3 + X) in E by lia. rewrite E. change (before VALID 2 1 1 1 0) with 0. change (before VALID 3 1 1 1 0) with 0. lia. }
  split; [|apply V2; lia]. cbn [map].
  change [10; 11; 12; 13; 14; 15] with [10 + (0 * 3 + 0); 10 + (0 * 3 + 1); 10 + (0 * 3 + 2); 10 + (1 * 3 + 0); 10 + (1 * 3 + 1); 10 + (1 * 3 + 2)].
  rewrite <- (K 0 0), <- (K 0 1), <- (K 0 2), <- (K 1 0), <- (K 1 1), <- (K 1 2) by lia. reflexivity.
Qed.

Print Assumptions C79_conv2d_run_partial.
Print Assumptions C79_depthwise_run_partial.
Print Assumptions C79_maxpool_run_partial.
