(** Soundness of the patterns of OptimizeConv2D in a whole function (C93). *)
From Coq Require Import Permutation QArith.
From Verif Require Import Base NdSpec NdBase LowerSpec BroadcastProofs ConcatProofs LowerProps FunOpsSpec FunOpsProofs FunModel FunSpec FunProofs FunProofs2.
From Verif Require Import FunOptModel FunOptSpec FunOptProofs FunOptProofs2 FunConvModel FunConvSpec.
From Verif Require ConvSpec ConvLowerSpec ConvRunSpec ConvLowerModel ConvLowerProps ConvOptModel ConvOptSpec ConvOptProofs.
Import ConvLowerSpec ConvLowerModel.
Local Open Scope nat_scope.

(** ** Result bytes as a tensor of shape 1 x H x W x D *)
Definition image_t (e : nat) (v : Z -> Z -> Z -> Z) : tensor (list Z) :=
  fun idx => match idx with [_; y; x; o] => le_bytes e (v (Z.of_nat y) (Z.of_nat x) (Z.of_nat o)) | _ => le_bytes e 0 end.
Lemma result_image e out v : result_bytes e out v = bytes_of (image_shape out) (image_t e v).
Proof.
  destruct out as [[H W] D]. unfold result_bytes, image_shape, bytes_of. f_equal. cbn [flatten].
  change (seq 0 1) with [0]. cbn [flat_map]. rewrite app_nil_r. reflexivity.
Qed.
Lemma image_t_length e v idx : length (image_t e v idx) = e.
Proof. unfold image_t. destruct idx as [|? [|? [|? [|? [|? ?]]]]]; apply le_bytes_length. Qed.
Lemma stored_result t e out v idx : t_shape t = image_shape out -> t_elem t = e -> in_shape (image_shape out) idx -> stored t (result_bytes e out v) idx = image_t e v idx.
Proof. intros Sh El Hi. rewrite result_image, <- Sh. apply stored_bytes; [intros; rewrite image_t_length; auto|rewrite Sh; exact Hi]. Qed.

Lemma sum_ext n g g' : (forall k, (0 <= k < n)%Z -> g k = g' k) -> sum_to n g = sum_to n g'.
Proof. intros H. unfold sum_to. f_equal. apply map_ext_in. intros k Hk. apply in_seq in Hk. apply H. lia. Qed.
Lemma sum_more n p g : (0 <= n -> 0 <= p -> (forall k, n <= k < n + p -> g k = 0) -> sum_to (n + p) g = sum_to n g)%Z.
Proof.
  intros Hn Hp H. unfold sum_to. rewrite Z2Nat.inj_add, seq_app, map_app by lia. rewrite fold_right_app. f_equal. cbn [Nat.add].
  assert (E : forall l, (forall k, In k l -> g (Z.of_nat k) = 0%Z) -> fold_right Z.add 0%Z (map (fun i => g (Z.of_nat i)) l) = 0%Z).
  { induction l as [|k l IH]; intros Hl; cbn [map fold_right]; auto. rewrite IH, Hl; [reflexivity|left; auto|intros; apply Hl; right; auto]. }
  apply E. intros k Hk. apply in_seq in Hk. apply H. lia.
Qed.

(** ** Padding the input channels *)
Lemma padded_channels i16 (z : option Z) zp b h w d p y x i :
  let a := Ty (image_shape (h, w, d)) (elems i16) z in
  let b' := bytes_of (image_shape (h, w, d + Z.of_nat p)%Z) (pad_t [0; 0; 0; 0] (t_shape a) (le_bytes (elems i16) zp) (stored a b)) in
  (0 <= y < h -> 0 <= x < w -> 0 <= i < d + Z.of_nat p -> 1 <= d -> (i16 = true -> zp = 0) -> (i16 = false -> -128 <= zp <= 127) ->
   image (elems i16) b' w (d + Z.of_nat p) y x i = if i <? d then image (elems i16) b w d y x i else zp)%Z.
Proof.
  intros a b' Hy Hx Hi Hd Z1 Z2. rewrite (image_stored (elems i16) z b' h w (d + Z.of_nat p)%Z y x i Hy Hx Hi).
  set (t := Ty (image_shape (h, w, d + Z.of_nat p)%Z) (elems i16) z). change (image_shape (h, w, d + Z.of_nat p)%Z) with (t_shape t) in b'. unfold b'.
  rewrite stored_bytes.
  2:{ intros idx _. apply pad_elem; [apply le_bytes_length|intros j; exact (stored_elem a b j)]. }
  2:{ unfold t, image_shape; cbn [t_shape]. apply in4; lia. }
  unfold pad_t, a. cbn [t_shape image_shape inside map2]. destruct (Z.ltb_spec i d) as [L|L].
  - replace ((0 <=? 0) && (0 <? 0 + 1) && ((0 <=? Z.to_nat y) && (Z.to_nat y <? 0 + Z.to_nat h) && ((0 <=? Z.to_nat x) && (Z.to_nat x <? 0 + Z.to_nat w) && ((0 <=? Z.to_nat i) && (Z.to_nat i <? 0 + Z.to_nat d) && true)))) with true by lia.
    rewrite (image_stored (elems i16) z b h w d y x i) by lia. rewrite !Nat.sub_0_r. reflexivity.
  - replace ((0 <=? 0) && (0 <? 0 + 1) && ((0 <=? Z.to_nat y) && (Z.to_nat y <? 0 + Z.to_nat h) && ((0 <=? Z.to_nat x) && (Z.to_nat x <? 0 + Z.to_nat w) && ((0 <=? Z.to_nat i) && (Z.to_nat i <? 0 + Z.to_nat d) && true)))) with false by lia.
    apply signed_zero_point; auto.
Qed.

Lemma conv_padded h w d fh fw sh sw dh dw top lft zp img img' f f' p o b y x :
  (0 <= d -> 0 <= p -> (forall Y X i, 0 <= Y < h -> 0 <= X < w -> 0 <= i < d + p -> img' Y X i = if i <? d then img Y X i else zp) ->
   (forall ky kx i, 0 <= ky < fh -> 0 <= kx < fw -> 0 <= i < d -> filter_at fh fw (d + p) f' o ky kx i = filter_at fh fw d f o ky kx i) ->
   conv2d_acc h w (d + p) fh fw sh sw dh dw top lft zp img' (filter_at fh fw (d + p) f' o) b y x =
   conv2d_acc h w d fh fw sh sw dh dw top lft zp img (filter_at fh fw d f o) b y x)%Z.
Proof.
  intros Hd Hp HI HF. unfold conv2d_acc. f_equal. apply sum_ext. intros ky Hky. apply sum_ext. intros kx Hkx. cbv zeta.
  rewrite sum_more; [|lia|lia|].
  - apply sum_ext. intros i Hi. destruct (ConvSpec.in_image _ _ _ _) eqn:I; [|reflexivity]. unfold ConvSpec.in_image in I.
    rewrite HI by lia. rewrite HF by lia. destruct (Z.ltb_spec i d); [reflexivity|lia].
  - intros k Hk. destruct (ConvSpec.in_image _ _ _ _) eqn:I; [|reflexivity]. unfold ConvSpec.in_image in I. rewrite HI by lia.
    destruct (Z.ltb_spec k d); [lia|]. rewrite Z.sub_diag. reflexivity.
Qed.

Lemma filter_padded fh fw d p n f o ky kx i : (Z.of_nat (length f) = n * (fh * fw * d) -> 1 <= d -> 0 <= o < n -> 0 <= ky < fh -> 0 <= kx < fw -> 0 <= i < d ->
  filter_at fh fw (d + Z.of_nat p) (ConvOptModel.pad_depth (Z.to_nat d) p f) o ky kx i = filter_at fh fw d f o ky kx i)%Z.
Proof.
  intros L Hd Ho Hky Hkx Hi. unfold filter_at.
  set (row := ((o * fh + ky) * fw + kx)%Z). assert (R1 : (0 <= o * fh + ky < n * fh)%Z) by nia. assert (R0 : (0 <= row < n * fh * fw)%Z) by (unfold row; set (u := (o * fh + ky)%Z) in *; nia).
  destruct (ConvOptProofs.pad_depth_nth (Z.to_nat d) p (Z.to_nat (n * fh * fw)) f ltac:(lia)) as [_ PN].
  { apply Nat2Z.inj. rewrite L, Nat2Z.inj_mul, !Z2Nat.id by nia. ring. }
  specialize (PN (Z.to_nat row) (Z.to_nat i) ltac:(lia) ltac:(lia)).
  replace (Z.to_nat (row * (d + Z.of_nat p) + i)) with (Z.to_nat row * (Z.to_nat d + p) + Z.to_nat i) by nia.
  rewrite PN. destruct (Nat.ltb_spec (Z.to_nat i) (Z.to_nat d)); [|lia]. f_equal. nia.
Qed.
Lemma depthwise_filter_padded fh fw d p f o ky kx : (Z.of_nat (length f) = fh * fw * d -> 1 <= d -> 0 <= o < d -> 0 <= ky < fh -> 0 <= kx < fw ->
  depthwise_filter_at fw (d + Z.of_nat p) (ConvOptModel.pad_depth (Z.to_nat d) p f) o ky kx = depthwise_filter_at fw d f o ky kx)%Z.
Proof.
  intros L Hd Ho Hky Hkx. unfold depthwise_filter_at.
  set (row := (ky * fw + kx)%Z). assert (R0 : (0 <= row < fh * fw)%Z) by (unfold row; nia).
  destruct (ConvOptProofs.pad_depth_nth (Z.to_nat d) p (Z.to_nat (fh * fw)) f ltac:(lia)) as [_ PN].
  { apply Nat2Z.inj. rewrite L, Nat2Z.inj_mul, !Z2Nat.id by nia. ring. }
  specialize (PN (Z.to_nat row) (Z.to_nat o) ltac:(lia) ltac:(lia)).
  replace (Z.to_nat (row * (d + Z.of_nat p) + o)) with (Z.to_nat row * (Z.to_nat d + p) + Z.to_nat o) by nia.
  rewrite PN. destruct (Nat.ltb_spec (Z.to_nat o) (Z.to_nat d)); [|lia]. f_equal. nia.
Qed.
Lemma depthwise_padded h w d d' fh fw sh sw dh dw top lft zp img img' g g' ch b y x :
  ((forall Y X, 0 <= Y < h -> 0 <= X < w -> img' Y X ch = img Y X ch) -> (forall ky kx, 0 <= ky < fh -> 0 <= kx < fw -> g' ky kx = g ky kx) ->
   depthwise_acc h w d' fh fw sh sw dh dw top lft zp img' g' ch b y x = depthwise_acc h w d fh fw sh sw dh dw top lft zp img g ch b y x)%Z.
Proof.
  intros HI HF. unfold depthwise_acc. f_equal. apply sum_ext. intros ky Hky. apply sum_ext. intros kx Hkx. cbv zeta.
  destruct (ConvSpec.in_image _ _ _ _) eqn:I; [|reflexivity]. unfold ConvSpec.in_image in I. rewrite HI by lia. rewrite HF by lia. reflexivity.
Qed.

Lemma pad_bias_nth o p b : nth o (bias_of (ConvOptModel.Consts [] (ConvOptModel.pad_bias p match b with [] => None | _ => Some b end) None None)) 0%Z = nth o b 0%Z.
Proof.
  unfold bias_of, ConvOptModel.pad_bias. cbn [ConvOptModel.c_bias]. destruct b as [|z b]; [reflexivity|].
  destruct (Nat.lt_ge_cases o (length (z :: b))) as [H|H]; [apply app_nth1; auto|]. rewrite app_nth2 by auto. rewrite (nth_overflow (z :: b)) by auto.
  generalize (o - length (z :: b)). induction p as [|p IH]; intros [|k]; cbn; auto.
Qed.

(** ** The operators *)
Lemma consts_bias f b p : (1 <= p -> bias_of (consts f b) = b)%nat.
Proof. intros _. unfold bias_of, consts. destruct b; reflexivity. Qed.
Lemma bias_consts f b : bias_of (consts f b) = b.
Proof. unfold bias_of, consts. destruct b; reflexivity. Qed.

(** Same value up to requantisation. *)
Lemma requantised_value q q' n from cs f acc o : requantised q q' n from cs -> (0 <= o < n)%Z ->
  ConvRunSpec.tflite_value (q_lo q') (q_hi q') (q_zp q') (q_6 q') (q_1 q') (q_m1 q') f (q_scale q' o acc) =
  ConvRunSpec.tflite_value (q_lo q) (q_hi q) (q_zp q) (q_6 q) (q_1 q) (q_m1 q) f (q_scale q (from + o)%Z acc).
Proof. intros (-> & -> & -> & -> & -> & -> & _ & H & _) Ho. rewrite H by exact Ho. reflexivity. Qed.
Lemma requantised_ok q q' n from cs i16 : requantised q q' n from cs ->
  (ConvRunSpec.quantisation_ok i16 (q_lo q) (q_hi q) (q_zp q) (q_6 q) (q_1 q) (q_m1 q) -> ConvRunSpec.quantisation_ok i16 (q_lo q') (q_hi q') (q_zp q') (q_6 q') (q_1 q') (q_m1 q')) /\
  (forall c8 f, ConvRunSpec.activation_kept c8 f (q_lo q) (q_hi q) (q_zp q) (q_6 q) -> ConvRunSpec.activation_kept c8 f (q_lo q') (q_hi q') (q_zp q') (q_6 q')) /\
  ((0 < q_step q)%Q -> (0 < q_step q')%Q) /\ q_lo q' = q_lo q /\ q_hi q' = q_hi q.
Proof. intros (-> & -> & -> & -> & -> & -> & -> & _). auto. Qed.

Lemma pad_ok i16 h w d a p : t_shape a = image_shape (h, w, d) -> (1 <= h -> 1 <= w -> 1 <= d)%Z -> (1 <= h)%Z -> (1 <= w)%Z -> t_elem a = elems i16 ->
  (i16 = true -> t_zero a = Some 0%Z) -> okB (TPad [0; 0; 0; 0] [0; 0; 0; p]) [a] (Ty (add_last (t_shape a) p) (t_elem a) (t_zero a)).
Proof.
  intros Sa Hd Hh Hw Ea Z0. cbn [op_ok_before op_ok t_shape t_elem t_zero]. rewrite Sa. cbn [image_shape add_last]. split; [|split; [|split]].
  - repeat (constructor; [lia|]). constructor.
  - repeat (constructor; [lia|]). constructor.
  - split; reflexivity.
  - destruct i16; [right; rewrite (Z0 eq_refl); reflexivity|left; exact Ea].
Qed.

Lemma input_padded c t q f bi a r b p cs q' :
  okB (TCompute (CConv c t q f bi)) [a] r -> consts_fit (TCompute (CConv c t q f bi)) ->
  ConvOptModel.pad_conv_input (c_i16 c) (Z.to_nat (in_channels c)) (consts f bi) = Some (p, cs) -> requantised q q' (out_channels c) 0 cs ->
  let pt := Ty (add_last (t_shape a) p) (t_elem a) (t_zero a) in
  let c' := CConv (pad_inputs c (Z.of_nat p)) t q' (ConvOptModel.c_filter cs) (bias_of cs) in
  okB (TPad [0; 0; 0; 0] [0; 0; 0; p]) [a] pt /\ okB (TCompute c') [pt] r /\ consts_fit (TCompute c') /\
  exists b', sem (TPad [0; 0; 0; 0] [0; 0; 0; p]) [(a, b)] pt = Some b' /\ sem_compute c' [b'] = sem_compute (CConv c t q f bi) [b].
Proof.
  intros OK CFit PI RQ. cbv zeta. cbn [op_ok_before] in OK. destruct OK as (CF & RD & Sa & Sr & Ea & Er).
  destruct a as [sa ea za]. cbn [t_shape t_elem t_zero] in *. subst sa ea.
  destruct c as [i16 ci co cf pd pv st di zp]. unfold pad_inputs. cbn [c_i16 c_in c_out c_filter c_padding c_padding_values c_stride c_dilation c_in_zp consts_fit] in *.
  destruct ci as [[h w] d], co as [[oh ow] od], cf as [[fh fw] fd], st as [sh sw], di as [dh dw].
  unfold in_channels, out_channels in *. cbn [c_in c_out] in *.
  unfold conv_fits in CF. cbn [c_i16 c_in c_out c_filter c_padding c_padding_values c_stride c_dilation c_in_zp t_zero] in CF.
  destruct CF as (Pi & Po & NE & G & C1 & C2 & C3 & C4 & C5 & C6 & C7 & C8). pose proof (C1 eq_refl) as ->. subst za.
  destruct Pi as (Hh & Hw & Hd). destruct CFit as (LF & LB).
  unfold ConvOptModel.pad_conv_input in PI. destruct (Z.eqb_spec (ConvOptModel.pad_size (Z.of_nat (Z.to_nat d)) (ConvOptModel.alignment i16)) 0); [discriminate|].
  remember (Z.to_nat (ConvOptModel.pad_size (Z.of_nat (Z.to_nat d)) (ConvOptModel.alignment i16))) as p' eqn:Ep. unfold consts in PI. cbn [ConvOptModel.c_filter ConvOptModel.c_bias ConvOptModel.c_fq ConvOptModel.c_bq] in PI. injection PI as <- <-. cbn [ConvOptModel.c_filter ConvOptModel.c_bias ConvOptModel.c_fq ConvOptModel.c_bq].
  assert (EB : forall x fq bq, bias_of (ConvOptModel.Consts x match bi with [] => None | _ => Some bi end fq bq) = bi) by (intros; unfold bias_of; destruct bi; reflexivity).
  destruct (requantised_ok _ _ _ _ _ i16 RQ) as (Q1 & Q2 & Q3 & Q4 & Q5). rewrite Q4, Q5 in Q1. rewrite Q4, Q5 in Q2.
  rewrite EB. cbn [ConvOptModel.c_filter consts].
  split; [|split; [|split]].
  - apply (pad_ok i16 h w d); auto. cbn [t_zero]. intros E. rewrite C3 by exact E. reflexivity.
  - cbn [op_ok_before]. cbn [c_i16 c_in c_out c_filter c_padding c_padding_values c_stride c_dilation c_in_zp t_shape t_elem t_zero image_shape add_last].
    split; [|split; [|split; [repeat (apply f_equal2; [lia|]); reflexivity|auto]]].
    + unfold conv_fits. cbn [c_i16 c_in c_out c_filter c_padding c_padding_values c_stride c_dilation c_in_zp positive t_zero].
      rewrite Q4, Q5. repeat (split; [first [lia | discriminate | auto; fail]|]). reflexivity.
    + destruct RQ as (_ & _ & _ & _ & _ & _ & _ & _ & RQ). rewrite EB in RQ. exact RQ.
  - cbn [consts_fit c_out c_filter]. split; [|exact LB].
    destruct G as (_ & _ & Hfh & Hfw & _). destruct Po as (_ & _ & Po).
    destruct (ConvOptProofs.pad_depth_nth (Z.to_nat d) p' (Z.to_nat (od * fh * fw)) f ltac:(lia)) as [PL _].
    { apply Nat2Z.inj. rewrite LF, Nat2Z.inj_mul, !Z2Nat.id by nia. ring. }
    rewrite PL. rewrite Nat2Z.inj_mul, Nat2Z.inj_add, !Z2Nat.id by nia. ring.
  - cbn [sem t_zero t_shape t_elem]. eexists. split; [reflexivity|]. cbn [sem_compute c_in c_i16 c_out t_shape].
    cbn [image_shape add_last]. f_equal. apply result_ext. intros y x o Hy Hx Ho.
    unfold conv_result. cbn [c_in c_out c_filter c_padding c_padding_values c_stride c_dilation c_in_zp].
    rewrite (requantised_value _ _ _ _ _ _ _ o RQ Ho). cbn [Z.add]. f_equal. f_equal.
    apply conv_padded; [lia|lia| |].
    + intros Y X i HY HX Hi. 
      replace [1; Z.to_nat h; Z.to_nat w; (Z.to_nat d + p')] with (image_shape (h, w, (d + Z.of_nat p')%Z)) by (cbn [image_shape]; repeat (apply f_equal2; [lia|]); reflexivity).
      apply (padded_channels i16 (Some zp) zp b h w d p' Y X i HY HX Hi Hd); [exact C3|]. intros E. destruct (C4 E) as (_ & _ & Z4). exact Z4.
    + intros ky kx i Hky Hkx Hi. apply (filter_padded fh fw d p' od); auto.
Qed.

(** The slice back to the first channels. *)
Lemma sliced_result e z oh ow od p r v : t_shape r = image_shape (oh, ow, od) -> t_elem r = e -> t_zero r = z -> (1 <= od)%Z ->
  let r1 := Ty (add_last (t_shape r) p) e z in
  okB (i_op (slice_back 0 0 r)) [r1] r /\ sem (i_op (slice_back 0 0 r)) [(r1, result_bytes e (oh, ow, (od + Z.of_nat p)%Z) v)] r = Some (result_bytes e (oh, ow, od) v).
Proof.
  intros Sr Er Zr Hod r1. unfold slice_back, r1. cbn [i_op op_ok_before op_ok t_shape t_elem t_zero sem]. rewrite Sr. cbn [image_shape add_last nth]. split.
  - split; [repeat (constructor; [lia|]); constructor|]. split; [repeat (constructor; [left; reflexivity|]); constructor|split; auto].
  - f_equal. rewrite (result_image e (oh, ow, od) v). apply bytes_ext. intros idx Hi. apply in_shape4 in Hi. destruct Hi as (i0 & y & x & o & -> & H0 & Hy & Hx & Ho).
    unfold slice_t. cbn [map2 Nat.add].
    rewrite (stored_result _ e (oh, ow, (od + Z.of_nat p)%Z)); [reflexivity| |reflexivity|].
    + cbn [t_shape image_shape]. repeat (apply f_equal2; [lia|]). reflexivity.
    + cbn [image_shape]. apply in4; lia.
Qed.

Lemma output_padded c t q f bi a r b p cs q' :
  okB (TCompute (CConv c t q f bi)) [a] r -> consts_fit (TCompute (CConv c t q f bi)) ->
  ConvOptModel.pad_conv_output (c_i16 c) (Z.to_nat (out_channels c)) (Z.to_nat (per_channel c)) (consts f bi) = Some (p, cs) -> requantised q q' (out_channels c) 0 cs ->
  let r1 := Ty (add_last (t_shape r) p) (t_elem r) (t_zero r) in
  let c' := CConv (with_outputs c (out_channels c + Z.of_nat p)) t q' (ConvOptModel.c_filter cs) (bias_of cs) in
  okB (TCompute c') [a] r1 /\ consts_fit (TCompute c') /\ okB (i_op (slice_back 0 0 r)) [r1] r /\
  exists b', sem_compute c' [b] = Some b' /\ sem (i_op (slice_back 0 0 r)) [(r1, b')] r = sem_compute (CConv c t q f bi) [b].
Proof.
  intros OK CFit PO RQ r1 c'. cbn [op_ok_before] in OK. destruct OK as (CF & RD & Sa & Sr & Ea & Er).
  destruct c as [i16 ci co cf pd pv st di zp]. unfold with_outputs, out_channels, per_channel in *. cbn [c_i16 c_in c_out c_filter c_padding c_padding_values c_stride c_dilation c_in_zp consts_fit] in *.
  destruct ci as [[h w] d], co as [[oh ow] od], cf as [[fh fw] fd], st as [sh sw], di as [dh dw].
  unfold conv_fits in CF. cbn [c_i16 c_in c_out c_filter c_padding c_padding_values c_stride c_dilation c_in_zp t_zero] in CF.
  destruct CF as (Pi & Po & NE & G & C1 & C2 & C3 & C4 & C5 & C6 & C7 & C8). pose proof (C1 eq_refl) as ->.
  destruct Po as (Ho1 & Ho2 & Ho3). destruct CFit as (LF & LB).
  unfold ConvOptModel.pad_conv_output in PO. destruct (Z.eqb_spec (ConvOptModel.pad_size (Z.of_nat (Z.to_nat od)) (ConvOptModel.alignment i16)) 0); [discriminate|].
  remember (Z.to_nat (ConvOptModel.pad_size (Z.of_nat (Z.to_nat od)) (ConvOptModel.alignment i16))) as p' eqn:Ep. injection PO as <- <-.
  cbn [ConvOptModel.c_filter ConvOptModel.c_bias consts] in *.
  destruct (requantised_ok _ _ _ _ _ i16 RQ) as (Q1 & Q2 & Q3 & Q4 & Q5). rewrite Q4, Q5 in Q1. rewrite Q4, Q5 in Q2.
  assert (SL1 := proj1 (sliced_result (elems i16) (t_zero r) oh ow od p' r (fun _ _ _ => 0%Z) Sr Er eq_refl Ho3)).
  assert (SL2 := fun v => proj2 (sliced_result (elems i16) (t_zero r) oh ow od p' r v Sr Er eq_refl Ho3)).
  split; [|split; [|split]].
  - unfold c', r1. cbn [op_ok_before]. cbn [c_i16 c_in c_out c_filter c_padding c_padding_values c_stride c_dilation c_in_zp t_shape t_elem t_zero]. rewrite Sr. cbn [image_shape add_last].
    split; [|split; [|split; [exact Sa|split; [repeat (apply f_equal2; [lia|]); reflexivity|auto]]]].
    + unfold conv_fits. cbn [c_i16 c_in c_out c_filter c_padding c_padding_values c_stride c_dilation c_in_zp positive t_zero].
      rewrite Q4, Q5. repeat (split; [first [assumption | lia | discriminate | auto; fail]|]). exact C8.
    + destruct RQ as (_ & _ & _ & _ & _ & _ & _ & _ & RQ). exact RQ.
  - unfold c'. cbn [consts_fit c_out c_filter]. destruct G as (_ & _ & Hfh & Hfw & _). destruct Pi as (_ & _ & Hd). split.
    + unfold ConvOptModel.pad_batch. rewrite app_length, repeat_length, Nat2Z.inj_add, Nat2Z.inj_mul, LF, Z2Nat.id by nia. ring.
    + unfold bias_of, ConvOptModel.pad_bias. cbn [ConvOptModel.c_bias]. destruct bi as [|z bi]; [left; reflexivity|right]. destruct LB as [LB|LB]; [discriminate|].
      rewrite app_length, repeat_length, Nat2Z.inj_add, LB. reflexivity.
  - unfold r1. rewrite Er. exact SL1.
  - eexists. split; [unfold c'; cbn [sem_compute c_in c_i16 c_out]; reflexivity|]. unfold r1. rewrite Er. etransitivity; [apply SL2|]. cbn [sem_compute c_in c_i16 c_out]. f_equal. apply result_ext. intros y x o Hy Hx Ho.
    unfold conv_result. cbn [c_in c_out c_filter c_padding c_padding_values c_stride c_dilation c_in_zp].
    rewrite (requantised_value _ _ _ _ _ _ _ o RQ Ho). cbn [Z.add]. f_equal. f_equal. unfold conv2d_acc. f_equal; [apply pad_bias_nth|].
    apply sum_ext. intros ky Hky. apply sum_ext. intros kx Hkx. apply sum_ext. intros i Hi. cbv zeta. destruct (ConvSpec.in_image _ _ _ _); [|reflexivity]. f_equal.
    unfold filter_at, ConvOptModel.pad_batch. apply app_nth1. apply Nat2Z.inj_lt. rewrite LF.
    assert (R1 : (0 <= o * fh + ky < od * fh)%Z) by nia. set (u := (o * fh + ky)%Z) in *. assert (R2 : (0 <= u * fw + kx < od * fh * fw)%Z) by nia. set (v := (u * fw + kx)%Z) in *.
    rewrite Z2Nat.id by nia. nia.
Qed.

Lemma depthwise_op_padded c t q f bi a r b p cs q' :
  okB (TCompute (CDepthwise c t q f bi)) [a] r -> consts_fit (TCompute (CDepthwise c t q f bi)) -> c_i16 c = false ->
  ConvOptModel.pad_depthwise (Z.to_nat (in_channels c)) (Z.to_nat (out_channels c)) (consts f bi) = Some (p, cs) -> requantised q q' (out_channels c) 0 cs ->
  let pt := Ty (add_last (t_shape a) p) (t_elem a) (t_zero a) in
  let r1 := Ty (add_last (t_shape r) p) (t_elem r) (t_zero r) in
  let c' := CDepthwise (with_outputs (pad_inputs c (Z.of_nat p)) (out_channels c + Z.of_nat p)) t q' (ConvOptModel.c_filter cs) (bias_of cs) in
  okB (TPad [0; 0; 0; 0] [0; 0; 0; p]) [a] pt /\ okB (TCompute c') [pt] r1 /\ consts_fit (TCompute c') /\ okB (i_op (slice_back 0 0 r)) [r1] r /\
  exists b1 b2, sem (TPad [0; 0; 0; 0] [0; 0; 0; p]) [(a, b)] pt = Some b1 /\ sem_compute c' [b1] = Some b2 /\
    sem (i_op (slice_back 0 0 r)) [(r1, b2)] r = sem_compute (CDepthwise c t q f bi) [b].
Proof.
  intros OK CFit I8 PD RQ. cbv zeta. cbn [op_ok_before] in OK. destruct OK as (CF & RD & Sa & Sr & Ea & Er).
  destruct a as [sa ea za]. cbn [t_shape t_elem t_zero] in *. subst sa ea.
  destruct c as [i16 ci co cf pd pv st di zp]. unfold pad_inputs, with_outputs, in_channels, out_channels in *. cbn [c_i16 c_in c_out c_filter c_padding c_padding_values c_stride c_dilation c_in_zp consts_fit] in *. subst i16.
  destruct ci as [[h w] d], co as [[oh ow] od], cf as [[fh fw] fd], st as [sh sw], di as [dh dw].
  unfold conv_fits in CF. cbn [c_i16 c_in c_out c_filter c_padding c_padding_values c_stride c_dilation c_in_zp t_zero] in CF.
  destruct CF as (Pi & Po & NE & G & C1 & C2 & C3 & C4 & C5 & C6 & C7 & C8). destruct (C2 eq_refl) as (_ & -> & ->). subst za.
  destruct Pi as (Hh & Hw & Hd). destruct Po as (Ho1 & Ho2 & Ho3). destruct CFit as (LF & LB).
  unfold ConvOptModel.pad_depthwise in PD. rewrite Nat.eqb_refl in PD. destruct (Z.eqb_spec (ConvOptModel.pad_size (Z.of_nat (Z.to_nat d)) 4) 0); [discriminate|].
  remember (Z.to_nat (ConvOptModel.pad_size (Z.of_nat (Z.to_nat d)) 4)) as p' eqn:Ep.
  unfold consts in PD. cbn [ConvOptModel.c_filter ConvOptModel.c_bias ConvOptModel.c_fq ConvOptModel.c_bq] in PD. injection PD as <- <-. cbn [ConvOptModel.c_filter ConvOptModel.c_bias ConvOptModel.c_fq ConvOptModel.c_bq].
  destruct (requantised_ok _ _ _ _ _ false RQ) as (Q1 & Q2 & Q3 & Q4 & Q5). rewrite Q4, Q5 in Q1. rewrite Q4, Q5 in Q2.
  assert (SL1 := proj1 (sliced_result (elems false) (t_zero r) oh ow d p' r (fun _ _ _ => 0%Z) Sr Er eq_refl Ho3)).
  assert (SL2 := fun v => proj2 (sliced_result (elems false) (t_zero r) oh ow d p' r v Sr Er eq_refl Ho3)).
  split; [|split; [|split; [|split]]].
  - apply (pad_ok false h w d); auto. discriminate.
  - cbn [op_ok_before]. cbn [c_i16 c_in c_out c_filter c_padding c_padding_values c_stride c_dilation c_in_zp t_shape t_elem t_zero]. rewrite Sr. cbn [image_shape add_last].
    split; [|split; [|split; [repeat (apply f_equal2; [lia|]); reflexivity|split; [repeat (apply f_equal2; [lia|]); reflexivity|auto]]]].
    + unfold conv_fits. cbn [c_i16 c_in c_out c_filter c_padding c_padding_values c_stride c_dilation c_in_zp positive t_zero].
      rewrite Q4, Q5. repeat (split; [first [assumption | lia | discriminate | auto; fail]|]). reflexivity.
    + destruct RQ as (_ & _ & _ & _ & _ & _ & _ & _ & RQ). exact RQ.
  - cbn [consts_fit c_out c_filter]. destruct G as (_ & _ & Hfh & Hfw & _). split.
    + destruct (ConvOptProofs.pad_depth_nth (Z.to_nat d) p' (Z.to_nat (fh * fw)) f ltac:(lia)) as [PL _].
      { apply Nat2Z.inj. rewrite LF, Nat2Z.inj_mul, !Z2Nat.id by nia. ring. }
      rewrite PL. rewrite Nat2Z.inj_mul, Nat2Z.inj_add, !Z2Nat.id by nia. ring.
    + unfold bias_of, ConvOptModel.pad_bias. cbn [ConvOptModel.c_bias]. destruct bi as [|z bi]; [left; reflexivity|right]. destruct LB as [LB|LB]; [discriminate|].
      rewrite app_length, repeat_length, Nat2Z.inj_add, LB. reflexivity.
  - rewrite Er. exact SL1.
  - cbn [sem t_zero t_shape t_elem]. do 2 eexists. split; [reflexivity|]. split; [cbn [sem_compute c_in c_i16 c_out]; reflexivity|]. rewrite Er. etransitivity; [apply SL2|].
    cbn [sem_compute c_in c_i16 c_out image_shape add_last]. f_equal. apply result_ext. intros y x o Hy Hx Ho.
    unfold conv_result. cbn [c_in c_out c_filter c_padding c_padding_values c_stride c_dilation c_in_zp].
    rewrite (requantised_value _ _ _ _ _ _ _ o RQ Ho). cbn [Z.add]. f_equal. f_equal. 
    replace (nth (Z.to_nat o) (bias_of _) 0%Z) with (nth (Z.to_nat o) bi 0%Z) by (symmetry; apply pad_bias_nth).
    apply depthwise_padded.
    + intros Y X HY HX.
      replace [1; Z.to_nat h; Z.to_nat w; (Z.to_nat d + p')] with (image_shape (h, w, (d + Z.of_nat p')%Z)) by (cbn [image_shape]; repeat (apply f_equal2; [lia|]); reflexivity).
      pose proof (padded_channels false (Some zp) zp b h w d p' Y X o HY HX ltac:(lia) Hd C3 ltac:(intros E; destruct (C4 E) as (_ & _ & Z4); exact Z4)) as PC.
      destruct (Z.ltb_spec o d); [exact PC|lia].
    + intros ky kx Hky Hkx. apply (depthwise_filter_padded fh fw d p'); auto.
Qed.

(** ** Splitting the output channels *)
Lemma nth_range {A} (z : A) a n l r i : ConvOptModel.range a n l = Some r -> i < n -> nth i r z = nth (a + i) l z.
Proof.
  intros H Hi. apply ConvOptProofs.range_spec in H. destruct H as [-> H].
  rewrite <- (firstn_skipn a l) at 2. rewrite app_nth2; rewrite firstn_length_le by lia; [|lia]. replace (a + i - a) with i by lia.
  rewrite <- (firstn_skipn n (skipn a l)) at 2. rewrite app_nth1; [reflexivity|]. rewrite firstn_length, skipn_length. lia.
Qed.
Lemma range_length {A} a n (l r : list A) : ConvOptModel.range a n l = Some r -> length r = n.
Proof. intros H. apply ConvOptProofs.range_spec in H. destruct H as [-> H]. rewrite firstn_length, skipn_length. lia. Qed.

(** Convolution of one group. *)
Lemma group_conv c t q f bi a r b n cs q' from z :
  okB (TCompute (CConv c t q f bi)) [a] r -> is_same (c_padding c) = false -> (1 <= n)%nat -> (0 <= from)%Z ->
  ConvOptModel.range (Z.to_nat from * Z.to_nat (per_channel c)) (n * Z.to_nat (per_channel c)) f = Some (ConvOptModel.c_filter cs) ->
  ConvOptModel.range_opt (Z.to_nat from) n (ConvOptModel.c_bias (consts f bi)) = Some (ConvOptModel.c_bias cs) ->
  requantised q q' (Z.of_nat n) from cs ->
  let r1 := Ty (set_last (t_shape r) n) (t_elem r) z in
  let c' := CConv (split_conv c (Z.of_nat n)) (valid_attr t) q' (ConvOptModel.c_filter cs) (bias_of cs) in
  okB (TCompute c') [a] r1 /\ consts_fit (TCompute c') /\
  let '(oh, ow, _) := c_out c in let '(_, w, d) := c_in c in
  sem_compute c' [b] = Some (result_bytes (elems (c_i16 c)) (oh, ow, Z.of_nat n) (fun y x o => conv_result false c t q f bi (image (elems (c_i16 c)) b w d) y x (from + o)%Z)).
Proof.
  intros OK IS Hn Hf RF RB RQ. cbv zeta. cbn [op_ok_before] in OK. destruct OK as (CF & RD & Sa & Sr & Ea & Er).
  destruct c as [i16 ci co cf pd pv st di zp]. unfold split_conv, per_channel in *. cbn [c_i16 c_in c_out c_filter c_padding c_padding_values c_stride c_dilation c_in_zp consts_fit] in *.
  destruct ci as [[h w] d], co as [[oh ow] od], cf as [[fh fw] fd], st as [sh sw], di as [dh dw].
  unfold conv_fits in CF. cbn [c_i16 c_in c_out c_filter c_padding c_padding_values c_stride c_dilation c_in_zp t_zero] in CF.
  destruct CF as (Pi & Po & NE & G & C1 & C2 & C3 & C4 & C5 & C6 & C7 & C8). pose proof (C1 eq_refl) as ->.
  assert (pd = VALID) as -> by (destruct pd; [reflexivity|discriminate|congruence]).
  destruct Po as (Ho1 & Ho2 & Ho3). destruct (requantised_ok _ _ _ _ _ i16 RQ) as (Q1 & Q2 & Q3 & Q4 & Q5). rewrite Q4, Q5 in Q1. rewrite Q4, Q5 in Q2.
  assert (Hk : (0 <= fh * fw * d)%Z) by (destruct G as (_ & _ & Hfh & Hfw & _); destruct Pi as (_ & _ & Hd); nia).
  split; [|split].
  - cbn [op_ok_before]. cbn [c_i16 c_in c_out c_filter c_padding c_padding_values c_stride c_dilation c_in_zp t_shape t_elem t_zero]. rewrite Sr. cbn [image_shape set_last].
    split; [|split; [|split; [exact Sa|split; [repeat (apply f_equal2; [lia|]); reflexivity|auto]]]].
    + unfold conv_fits. cbn [c_i16 c_in c_out c_filter c_padding c_padding_values c_stride c_dilation c_in_zp positive t_zero valid_attr at_faf].
      rewrite Q4, Q5. repeat (split; [first [assumption | lia | discriminate | auto; fail]|]). exact C8.
    + destruct RQ as (_ & _ & _ & _ & _ & _ & _ & _ & RQ). exact RQ.
  - cbn [consts_fit c_out c_filter]. split.
    + rewrite (range_length _ _ _ _ RF), Nat2Z.inj_mul, Z2Nat.id by exact Hk. reflexivity.
    + unfold bias_of. unfold consts in RB. cbn [ConvOptModel.c_bias] in RB. destruct bi as [|z0 bi]; cbn [ConvOptModel.range_opt] in RB; [left; assert (E0 : ConvOptModel.c_bias cs = None) by congruence; rewrite E0; reflexivity|].
      destruct (ConvOptModel.range (Z.to_nat from) n (z0 :: bi)) as [l|] eqn:E; [|discriminate].  assert (E0 : ConvOptModel.c_bias cs = Some l) by congruence. rewrite E0. right. rewrite (range_length _ _ _ _ E). reflexivity.
  - cbn [sem_compute c_in c_i16 c_out]. f_equal. apply result_ext. intros y x o Hy Hx Ho.
    unfold conv_result. cbn [c_in c_out c_filter c_padding c_padding_values c_stride c_dilation c_in_zp valid_attr at_faf before].
    rewrite (requantised_value _ _ _ _ _ _ _ o RQ Ho). f_equal. f_equal. unfold conv2d_acc. f_equal.
    + unfold bias_of. unfold consts in RB. cbn [ConvOptModel.c_bias] in RB. destruct bi as [|z0 bi]; cbn [ConvOptModel.range_opt] in RB; [assert (E0 : ConvOptModel.c_bias cs = None) by congruence; rewrite E0; destruct (Z.to_nat o), (Z.to_nat (from + o)); reflexivity|].
      destruct (ConvOptModel.range (Z.to_nat from) n (z0 :: bi)) as [l|] eqn:E; [|discriminate]. assert (E0 : ConvOptModel.c_bias cs = Some l) by congruence. rewrite E0. rewrite (nth_range _ _ _ _ _ _ E) by lia. f_equal. lia.
    + apply sum_ext. intros ky Hky. apply sum_ext. intros kx Hkx. apply sum_ext. intros i Hi. cbv zeta. destruct (ConvSpec.in_image _ _ _ _); [|reflexivity]. f_equal.
      unfold filter_at.
      assert (R1 : (0 <= o * fh + ky < Z.of_nat n * fh)%Z) by nia. replace ((from + o) * fh + ky)%Z with (from * fh + (o * fh + ky))%Z by ring. set (u := (o * fh + ky)%Z) in *.
      assert (R2 : (0 <= u * fw + kx < Z.of_nat n * fh * fw)%Z) by nia. replace ((from * fh + u) * fw + kx)%Z with (from * fh * fw + (u * fw + kx))%Z by ring. set (v := (u * fw + kx)%Z) in *.
      assert (R3 : (0 <= v * d + i < Z.of_nat n * (fh * fw * d))%Z) by nia. 
      rewrite (nth_range _ _ _ _ _ _ RF).
      * f_equal. apply Nat2Z.inj. rewrite Nat2Z.inj_add, Nat2Z.inj_mul, !Z2Nat.id; try lia; nia.
      * apply Nat2Z.inj_lt. rewrite Nat2Z.inj_mul, !Z2Nat.id by lia. lia.
Qed.
