(** Soundness of the lowerings of FunOpsModel (C82). *)
From Coq Require Import QArith Lqa Qabs.
From Verif Require Import Base NdSpec NdBase FunOpsModel.
From Verif Require Import ConvSpec ConvLowerSpec ConvRunSpec ConvLowerModel ConvLowerProps ConvRunModel.
From Verif Require Import FunOpsSpec.
From Verif Require LutModel LutSpec LutProofs LutProps.
Local Open Scope Z_scope.

(** ** Layout *)
Lemma result_ext e H W D v v' : (forall y x o, 0 <= y < H -> 0 <= x < W -> 0 <= o < D -> v y x o = v' y x o) ->
  result_bytes e (H, W, D) v = result_bytes e (H, W, D) v'.
Proof.
  intros E. unfold result_bytes, bytes_of. f_equal. cbn [flatten].
  assert (FE : forall (A B : Type) (f g : A -> list B) l, (forall x, In x l -> f x = g x) -> flat_map f l = flat_map g l).
  { intros A B f g l. induction l as [|x l IH]; intros K; [reflexivity|]. cbn [flat_map]. rewrite (K x (or_introl eq_refl)), IH; [reflexivity|]. intros y Hy. apply K. right; exact Hy. }
  apply FE. intros y Hy. apply in_seq in Hy. apply FE. intros x Hx. apply in_seq in Hx. apply FE. intros o Ho. apply in_seq in Ho.
  rewrite E by lia. reflexivity.
Qed.
Lemma le_bytes_len k : forall v, length (le_bytes k v) = k.
Proof. induction k as [|k IH]; intros v; cbn; auto. Qed.
Lemma concat_len k (l : list (list Z)) : (forall x, In x l -> length x = k) -> length (concat l) = (length l * k)%nat.
Proof. induction l as [|x l IH]; intros H; cbn; auto. rewrite app_length, IH by (intros y Hy; apply H; right; auto). rewrite (H x) by (left; auto). lia. Qed.
Lemma result_length e H W D v : length (result_bytes e (H, W, D) v) = (Z.to_nat H * Z.to_nat W * Z.to_nat D * e)%nat.
Proof.
  unfold result_bytes, bytes_of. rewrite flatten_unravel, (concat_len e).
  - rewrite map_length, seq_length. cbn [nelem fold_right]. lia.
  - intros l Hl. apply in_map_iff in Hl. destruct Hl as (k & <- & _). destruct (unravel _ k) as [|a [|b [|c [|? ?]]]]; apply le_bytes_len.
Qed.
(** The result of one-byte elements, by position. *)
Lemma result_one H W D v : result_bytes 1 (H, W, D) v =
  map (fun k => let s := [Z.to_nat H; Z.to_nat W; Z.to_nat D] in
                match unravel s k with [y; x; o] => v (Z.of_nat y) (Z.of_nat x) (Z.of_nat o) mod 256 | _ => 0 end)
      (seq 0 (Z.to_nat H * Z.to_nat W * Z.to_nat D)).
Proof.
  unfold result_bytes, bytes_of. rewrite flatten_unravel.
  replace (Z.to_nat H * Z.to_nat W * Z.to_nat D)%nat with (nelem [Z.to_nat H; Z.to_nat W; Z.to_nat D]) by (cbn; lia).
  induction (seq _ _) as [|k l IH]; cbn [map concat]; auto. rewrite IH.
  destruct (unravel _ k) as [|a [|b [|c [|? ?]]]]; reflexivity.
Qed.

Lemma signed8_of v : -128 <= v <= 127 -> (if v mod 256 <? 128 then v mod 256 else v mod 256 - 256) = v.
Proof. intros H. destruct (Z.ltb_spec (v mod 256) 128); Z.to_euclidean_division_equations; lia. Qed.
Lemma int_at_one b a : int_at 1 b a = let u := nth a b 0 mod 256 in if u <? 128 then u else u - 256.
Proof.
  unfold int_at. cbn [seq map unsigned_le]. rewrite Nat.mul_1_r, Nat.add_0_r, Z.mul_0_r, Z.add_0_r. reflexivity.
Qed.
Lemma int_at_int8 b a : LutSpec.int8 (int_at 1 b a).
Proof. rewrite int_at_one. cbv zeta. unfold LutSpec.int8. pose proof (Z.mod_pos_bound (nth a b 0) 256 ltac:(lia)). destruct (Z.ltb_spec (nth a b 0 mod 256) 128); lia. Qed.

Lemma holds_memory e h w d b outside : 0 <= h -> 0 <= w -> 0 <= d ->
  holds_image h w d (memory_of e (nelem [1%nat; Z.to_nat h; Z.to_nat w; Z.to_nat d]) b outside) (image e b w d).
Proof.
  intros Hh Hw Hd y x i Hy Hx Hi. unfold memory_of, image.
  replace (0 <=? (y * w + x) * d + i) with true by (symmetry; apply Z.leb_le; nia).
  replace ((y * w + x) * d + i <? Z.of_nat (nelem [1%nat; Z.to_nat h; Z.to_nat w; Z.to_nat d])) with true; [reflexivity|].
  symmetry. apply Z.ltb_lt. cbn [nelem fold_right]. rewrite !Nat2Z.inj_mul, !Z2Nat.id by assumption.
  change (Z.of_nat 1) with 1. assert (y * w + x < h * w) by nia. nia.
Qed.

(** ** Maximum *)
Lemma fold_max_is_max lo l : l <> [] -> (forall v, In v l -> lo <= v) -> is_max (fold_right Z.max lo l) (fun v => In v l).
Proof.
  intros NE B. split.
  - induction l as [|x l IH]; [congruence|]. cbn [fold_right]. destruct l as [|y l'].
    + cbn [fold_right]. left. specialize (B x (or_introl eq_refl)). lia.
    + assert (IH' : In (fold_right Z.max lo (y :: l')) (y :: l')) by (apply IH; [discriminate|intros v Hv; apply B; right; exact Hv]).
      destruct (Z.max_spec x (fold_right Z.max lo (y :: l'))) as [[_ E]|[_ E]]; rewrite E; [right; exact IH'|left; reflexivity].
  - intros u Hu. clear NE B. induction l as [|x l IH]; [destruct Hu|]. cbn [fold_right]. destruct Hu as [->|Hu]; [lia|]. specialize (IH Hu). lia.
Qed.
Lemma is_max_unique v v' P P' : is_max v P -> is_max v' P' -> (forall u, P u <-> P' u) -> v = v'.
Proof. intros [A1 A2] [B1 B2] E. apply E in A1. apply E in B1. specialize (A2 _ B1). specialize (B2 _ A1). lia. Qed.

Lemma in_window n v : In v (window n) <-> 0 <= v < n.
Proof.
  unfold window. rewrite in_map_iff. split.
  - intros (k & <- & Hk). apply in_seq in Hk. lia.
  - intros Hv. exists (Z.to_nat v). split; [lia|]. apply in_seq. lia.
Qed.

(** ** Relu *)
Lemma act_relu m s z v : (0 < s)%Q -> LutSpec.int8 z -> LutSpec.int8 v -> act_value m LutModel.Relu s z s z v = Z.max z v.
Proof.
  intros Hs Hz Hv. unfold act_value, LutModel.requantize, LutSpec.dequantised.
  rewrite (LutProofs.c_round_comp _ (inject_Z (Z.max (v - z) 0))).
  - rewrite LutProofs.c_round_int. unfold LutSpec.int8 in *. lia.
  - rewrite <- (LutProps.relu_scaled s (v - z) Hs). unfold Qdiv. rewrite <- LutProofs.apply_activation_real. reflexivity.
Qed.
Lemma relu_bound m s z : (0 < s)%Q -> LutSpec.int8 z -> forall x, LutSpec.int8 x ->
  (Qabs (LutSpec.act_real m LutModel.Relu (LutSpec.dequantised s z x) / s) <= inject_Z (2 ^ 31 - 256))%Q.
Proof.
  intros Hs Hz x Hx. rewrite <- LutProofs.apply_activation_real. unfold LutSpec.dequantised. cbn [LutModel.apply_activation].
  rewrite (LutProps.relu_scaled s (x - z) Hs). rewrite Qabs_pos; [|change 0%Q with (inject_Z 0); rewrite <- Zle_Qle; lia].
  rewrite <- Zle_Qle. unfold LutSpec.int8 in *. lia.
Qed.

(** ** The table *)
Lemma table_value m a si zi so zo t : (0 < so)%Q -> LutSpec.int8 zo ->
  (forall x, LutSpec.int8 x -> (Qabs (LutSpec.act_real m a (LutSpec.dequantised si zi x) / so) <= inject_Z (2 ^ 31 - 256))%Q) ->
  LutModel.lookup_table m a si zi so zo = Some t -> forall x, LutSpec.int8 x -> LutModel.lookup_kernel t x = act_value m a si zi so zo x.
Proof.
  intros Hso Hzo HB T x Hx.
  assert (AR : forall x, (LutModel.apply_activation m a (inject_Z (x - zi) * si) / so == LutSpec.act_real m a (LutSpec.dequantised si zi x) / so)%Q).
  { intros y. rewrite LutProofs.apply_activation_real. reflexivity. }
  destruct (LutProofs.table_ok m a si zi so zo) as (t' & E & L & F & K).
  - intros n Hn. specialize (HB n Hn). unfold LutSpec.int8 in Hzo. cbv zeta. rewrite (LutProofs.c_round_comp _ _ (AR n)).
    apply Qabs_Qle_condition in HB. destruct HB as [B1 B2].
    pose proof (LutProofs.c_round_mono _ _ B1) as M1. pose proof (LutProofs.c_round_mono _ _ B2) as M2.
    rewrite <- inject_Z_opp, LutProofs.c_round_int in M1. rewrite LutProofs.c_round_int in M2. lia.
  - rewrite T in E. injection E as <-. rewrite (K x Hx), (LutProofs.c_round_comp _ _ (AR x)). unfold act_value, LutModel.requantize. lia.
Qed.
Lemma table_length m a si zi so zo t : LutModel.lookup_table m a si zi so zo = Some t -> length t = 256%nat.
Proof.
  unfold LutModel.lookup_table. intros E.
  assert (G : forall l (t : list Z), LutModel.collect l = Some t -> length t = length l).
  { clear. induction l as [|[x|] l IH]; intros t E; cbn in E; try discriminate; [injection E as <-; reflexivity|].
    destruct (LutModel.collect l); [|discriminate]. injection E as <-. cbn. f_equal. apply IH. reflexivity. }
  rewrite (G _ _ E), map_length. reflexivity.
Qed.

(** ** Convolutions *)
Lemma conv_kernel_acc k c a : lower_conv c = Some (k, a) -> kernel_accumulator k c a = conv_accumulator k c a.
Proof.
  intros L. unfold lower_conv in L. destruct (conv_pattern c); [|discriminate L]. destruct (get_args c) as [a'|]; [|discriminate L].
  destruct (conv_kernel_type c a') as [k'|] eqn:KT; [|discriminate L]. injection L as <- <-. unfold conv_kernel_type in KT.
  destruct (c_in c) as [[h w] d]. destruct (c_out c) as [[oh ow] od]. destruct (c_i16 c); [|destruct (a_padded a')];
    repeat match type of KT with context [if ?b then _ else _] => destruct b end; try discriminate KT; injection KT as <-; reflexivity.
Qed.
Lemma depthwise_kernel_acc k c a : lower_depthwise c = Some (k, a) -> kernel_accumulator k c a = depthwise_accumulator k c a.
Proof.
  intros L. unfold lower_depthwise in L. destruct (depthwise_pattern c); [|discriminate L]. destruct (get_args c) as [a'|]; [|discriminate L].
  unfold depthwise_kernel_type in L. injection L as <- <-. destruct (a_padded a'); reflexivity.
Qed.
Lemma replaced_conv th er zp c t k c' a ot ch : replace_conv2d th er zp (TflConv c t) = XcConv k c' a ot ch ->
  c' = c /\ ch = no_chain /\ lower_conv c = Some (k, a).
Proof.
  unfold replace_conv2d, phase1. destruct (negb (c_i16 c) && is_relu (at_faf t) && negb (zp =? -128)).
  - unfold to_fake_conv. destruct (conv_pattern c); discriminate.
  - unfold to_fake_conv. destruct (conv_pattern c); [|discriminate]. cbn [phase2]. unfold phase2_conv. destruct (lower_conv c) as [[k' a']|]; [|discriminate].
    destruct (c_i16 c); [|destruct (choose_ot _ _ _); [|discriminate]]; cbn [phase3]; intros E; injection E as <- <- <- _ <-; auto.
Qed.
Lemma replaced_depthwise th er zp c t k c' a ot ch : replace_conv2d th er zp (TflDepthwise c t) = XcConv k c' a ot ch ->
  c' = c /\ ch = no_chain /\ lower_depthwise c = Some (k, a).
Proof.
  unfold replace_conv2d, phase1. destruct (depthwise_pattern c); [|discriminate]. cbn [phase2]. unfold phase2_depthwise.
  destruct (lower_depthwise c) as [[k' a']|]; [|discriminate]. destruct (choose_ot _ _ _); [|discriminate]. cbn [phase3]. intros E; injection E as <- <- <- _ <-; auto.
Qed.

Lemma activation_value dw cv t q v : conv_ok dw cv t q ->
  (if dw then True else negb (c_i16 cv) && is_relu (at_faf t) && negb (q_zp q =? -128) = false) ->
  clampZ (q_lo q) (q_hi q) v = tflite_value (q_lo q) (q_hi q) (q_zp q) (q_6 q) (q_1 q) (q_m1 q) (at_faf t) v.
Proof.
  unfold conv_ok. destruct (c_in cv) as [[h w] d]. destruct (c_out cv) as [[oh ow] od]. destruct (c_filter cv) as [[fh fw] fd].
  destruct (c_stride cv) as [sh sw]. destruct (c_dilation cv) as [dh dwl]. intros (_ & _ & _ & _ & _ & _ & Q8 & QO & AK & _) NR.
  destruct QO as (Q0 & Q1 & Q2 & Q3 & Q4). unfold tflite_value, ConvLowerSpec.activation_range. destruct AK as [->|[[E AK]|(-> & E & E')]]; cbn [fst snd].
  - reflexivity.
  - assert (Z0 : q_zp q = q_lo q).
    { destruct AK as [AK|AK]; [exact AK|]. destruct dw; [discriminate AK|]. apply andb_prop in AK. destruct AK as [_ AK].
      rewrite AK, E in NR. cbn [andb is_relu] in NR. apply negb_false_iff in NR. apply Z.eqb_eq in NR.
      apply negb_true_iff in AK. destruct (Q8 AK) as [E8 _]. lia. }
    rewrite E. cbn [fst snd]. rewrite Z0, Z.max_id. reflexivity.
  - rewrite E, Z.max_id, Z.min_l by lia. reflexivity.
Qed.

Lemma conv_values dw cv t q f bi k a ot b mem : conv_ok dw cv t q ->
  (if dw then True else negb (c_i16 cv) && is_relu (at_faf t) && negb (q_zp q =? -128) = false) ->
  (if dw then lower_depthwise cv else lower_conv cv) = Some (k, a) ->
  let '(h, w, d) := c_in cv in let '(oh, ow, od) := c_out cv in
  holds_image h w d mem (image (elems (c_i16 cv)) b w d) -> forall y x o, 0 <= y < oh -> 0 <= x < ow -> 0 <= o < od ->
  value (q_lo q) (q_hi q) (q_zp q) (q_6 q) (q_1 q) (q_m1 q) (XcConv k cv a ot no_chain) (q_scale q o (kernel_accumulator k cv a mem f bi o y x)) =
  conv_result dw cv t q f bi (image (elems (c_i16 cv)) b w d) y x o.
Proof.
  intros OK NR L. pose proof (fun v => activation_value dw cv t q v OK NR) as AV. clear NR. unfold conv_ok in OK.
  destruct cv as [i16 [[h w] d] [[oh ow] od] [[fh fw] fd] p pv [sh sw] [dh dwl] zx]. cbn [c_in c_out c_filter c_stride c_dilation c_padding c_padding_values c_i16 c_in_zp] in *.
  destruct OK as ((Ph & Pw & Pd) & _ & G & F1 & F2 & I16 & _ & _ & _ & _).
  intros HM y x o Hy Hx Ho. cbn [value].
  unfold conv_result. cbn [c_in c_out c_filter c_stride c_dilation c_padding c_padding_values c_in_zp]. rewrite AV. do 2 f_equal.
  destruct dw.
  - destruct (F2 eq_refl) as (-> & -> & ->). rewrite (depthwise_kernel_acc _ _ _ L).
    rewrite (C57_depthwise_accumulator_partial false h w d oh ow fh fw p pv sh sw dh dwl zx k a _ _ f bi o y x G HM L Hy Hx Ho).
    rewrite Z.div_same, Z.div_1_r by lia. reflexivity.
  - rewrite (F1 eq_refl) in *. rewrite (conv_kernel_acc _ _ _ L).
    apply (C57_conv2d_accumulator_partial i16 h w d oh ow od fh fw d p pv sh sw dh dwl zx k a _ _ f bi o y x G HM I16 L Hy Hx).
Qed.
Lemma conv_positive dw cv t q : conv_ok dw cv t q -> positive (c_in cv) /\ positive (c_out cv).
Proof.
  unfold conv_ok. destruct (c_in cv) as [[h w] d]. destruct (c_out cv) as [[oh ow] od]. destruct (c_filter cv) as [[fh fw] fd].
  destruct (c_stride cv) as [sh sw]. destruct (c_dilation cv) as [dh dwl]. intros (P1 & P2 & _). auto.
Qed.
Lemma conv_sound dw cv t q f bi k a ot outside b : conv_ok dw cv t q ->
  (if dw then True else negb (c_i16 cv) && is_relu (at_faf t) && negb (q_zp q =? -128) = false) ->
  (if dw then lower_depthwise cv else lower_conv cv) = Some (k, a) ->
  q_read q (q_weights q) (q_muls q) = (f, bi, q_scale q) ->
  sem_xcompute (XConv k cv a ot no_chain q outside) (nelem (image_shape (c_in cv))) [b; q_weights q; q_muls q] =
  sem_compute (if dw then CDepthwise cv t q f bi else CConv cv t q f bi) [b].
Proof.
  intros OK NR L RD. pose proof (conv_values dw cv t q f bi k a ot b (memory_of (elems (c_i16 cv)) (nelem (image_shape (c_in cv))) b outside) OK NR L) as V.
  destruct (conv_positive _ _ _ _ OK) as [P1 P2]. cbn [sem_xcompute]. rewrite RD.
  transitivity (let '(_, w, d) := c_in cv in Some (result_bytes (elems (c_i16 cv)) (c_out cv) (conv_result dw cv t q f bi (image (elems (c_i16 cv)) b w d)))).
  - destruct (c_in cv) as [[h w] d]. destruct (c_out cv) as [[oh ow] od]. f_equal. apply result_ext. apply V. destruct P1 as (Ph & Pw & Pd). apply holds_memory; lia.
  - destruct dw; cbn [sem_compute]; destruct (c_in cv) as [[h w] d]; reflexivity.
Qed.

Lemma pool_values p b a r mem : compute_ok (CMaxPool p) [a] r ->
  let '(h, w, d) := p_in p in let '(oh, ow, od) := p_out p in
  holds_image h w d mem (image 1 b w d) -> forall y x o, 0 <= y < oh -> 0 <= x < ow -> 0 <= o < od ->
  pool_result p mem y x o = pool_value p (image 1 b w d) y x o.
Proof.
  cbn [compute_ok]. destruct p as [[[h w] d] [[oh ow] od] [fh fw] [sh sw] p faf]. cbn [p_in p_out p_filter p_stride p_padding p_faf].
  intros ((Ph & Pw & Pd) & _ & -> & G & NP & _ & Sa & _ & _ & _). intros HM y x o Hy Hx Ho.
  pose proof (C62_maxpool_partial h w d oh ow d fh fw sh sw p faf _ _ y x o G NP HM Hy Hx Ho) as M.
  unfold pool_value. cbn [p_in p_filter p_stride p_padding].
  set (img := image 1 b w d) in *. set (top := before p h fh 1 sh 0) in *. set (lft := before p w fw 1 sw 0) in *.
  set (l := flat_map _ (window fh)).
  assert (IN : forall u, In u l <-> pooled h w fh fw sh sw top lft img o y x u).
  { intros u. unfold l, pooled. rewrite in_flat_map. split.
    - intros (ky & Hky & Hu). apply in_flat_map in Hu. destruct Hu as (kx & Hkx & Hu). apply in_window in Hky. apply in_window in Hkx.
      cbv zeta in Hu. destruct (in_image h w _ _) eqn:I; [|destruct Hu]. destruct Hu as [<-|[]]. exists ky, kx. auto.
    - intros (ky & kx & Hky & Hkx & I & ->). exists ky. split; [apply in_window; exact Hky|]. apply in_flat_map. exists kx. split; [apply in_window; exact Hkx|].
      cbv zeta. rewrite I. left; reflexivity. }
  refine (is_max_unique _ _ _ _ M (fold_max_is_max (-128) l _ _) (fun u => iff_sym (IN u))).
  - intros E. destruct M as [M _]. apply IN in M. rewrite E in M. destruct M.
  - intros u Hu. apply IN in Hu. destruct Hu as (ky & kx & _ & _ & _ & ->). unfold img, image. apply int_at_int8.
Qed.
Lemma pool_ok_facts p a r : compute_ok (CMaxPool p) [a] r -> positive (p_in p) /\ positive (p_out p) /\ t_shape a = image_shape (p_in p).
Proof.
  cbn [compute_ok]. destruct (p_in p) as [[h w] d]. destruct (p_out p) as [[oh ow] od]. destruct (p_filter p). destruct (p_stride p).
  intros (P1 & P2 & _ & _ & _ & _ & Sa & _). auto.
Qed.
Lemma pool_sound p outside b a r : compute_ok (CMaxPool p) [a] r ->
  sem_xcompute (XMaxPool p outside) (nelem (t_shape a)) [b] = sem_compute (CMaxPool p) [b].
Proof.
  intros OK. pose proof (pool_values p b a r (memory_of 1 (nelem (t_shape a)) b outside) OK) as V. destruct (pool_ok_facts p a r OK) as (P1 & P2 & Sa).
  rewrite Sa in *. cbn [sem_xcompute sem_compute]. destruct (p_in p) as [[h w] d]. destruct (p_out p) as [[oh ow] od]. f_equal.
  apply result_ext. apply V. destruct P1 as (Ph & Pw & Pd). apply holds_memory; lia.
Qed.

(** An operator replaced by a kernel. *)
Lemma kernel_sound c x ts outside a r b : compute_ok c [a] r -> replace_compute outside c = ByKernel x ts ->
  sem_xcompute x (nelem (t_shape a)) (b :: ts) = sem_compute c [b].
Proof.
  intros OK R. destruct c as [fc t q f bi|cv t q f bi|cv t q f bi|p|m ac si zi so zo]; cbn [replace_compute] in R.
  - discriminate R.
  - destruct OK as (OK & RD & Sa & _). rewrite Sa. destruct (negb (c_i16 cv) && is_relu (at_faf t) && negb (q_zp q =? -128)) eqn:NR; [discriminate|].
    destruct (replace_conv2d _ _ _ _) as [| | | | |k c' a' ot ch] eqn:E; try discriminate. injection R as <- <-.
    apply replaced_conv in E. destruct E as (-> & -> & L). apply (conv_sound false); auto.
  - destruct OK as (OK & RD & Sa & _). rewrite Sa.
    destruct (replace_conv2d _ _ _ _) as [| | | | |k c' a' ot ch] eqn:E; try discriminate. injection R as <- <-.
    apply replaced_depthwise in E. destruct E as (-> & -> & L). apply (conv_sound true); auto.
  - injection R as <- <-. eapply pool_sound. exact OK.
  - destruct (LutModel.lookup_table m ac si zi so zo) as [t|] eqn:T; [|discriminate]. injection R as <- <-.
    cbn [compute_ok] in OK. destruct OK as (Hso & Hzo & _ & _ & _ & HB). cbn [sem_xcompute sem_compute]. f_equal. apply map_ext. intros k.
    rewrite (table_value m ac si zi so zo t Hso Hzo HB T) by apply int_at_int8. reflexivity.
Qed.
(** A Relu taken out of a convolution. *)
Lemma unravel_of a b c k : exists y x o, unravel [a; b; c] k = [y; x; o].
Proof. cbn [unravel]. eauto. Qed.
Lemma nth_map_seq (g : nat -> Z) n k : (k < n)%nat -> nth k (map g (seq 0 n)) 0 = g k.
Proof. intros H. rewrite (nth_indep _ 0 (g 0%nat)) by (rewrite map_length, seq_length; exact H). rewrite map_nth, seq_nth by exact H. reflexivity. Qed.
Lemma relu_sound c c1 c2 outside a r b : compute_ok c [a] r -> replace_compute outside c = ByRelu c1 c2 ->
  compute_ok c1 [a] r /\ compute_ok c2 [r] r /\ exists b1, sem_compute c1 [b] = Some b1 /\ sem_compute c2 [b1] = sem_compute c [b].
Proof.
  intros OK R. destruct c as [fc t q f bi|cv t q f bi|cv t q f bi|p|m ac si zi so zo]; cbn [replace_compute] in R.
  1: discriminate.
  2:{ destruct (replace_conv2d _ _ _ _); discriminate. }
  2: discriminate.
  2:{ destruct (LutModel.lookup_table _ _ _ _ _ _); discriminate. }
  destruct (negb (c_i16 cv) && is_relu (at_faf t) && negb (q_zp q =? -128)) eqn:NR.
  2:{ destruct (replace_conv2d _ _ _ _); discriminate. }
  injection R as <- <-. apply andb_prop in NR. destruct NR as [NR _]. apply andb_prop in NR. destruct NR as [N16 NR].
  apply negb_true_iff in N16. assert (F : at_faf t = RELU) by (destruct (at_faf t); [discriminate|reflexivity|discriminate|discriminate]). clear NR.
  destruct OK as (OK & RD & Sa & Sr & Ea & Er). unfold conv_ok in OK.
  destruct cv as [i16 [[h w] d] [[oh ow] od] [[fh fw] fd] p pv [sh sw] [dh dwl] zx]. cbn [c_in c_out c_filter c_stride c_dilation c_padding c_padding_values c_i16 c_in_zp] in *.
  subst i16. destruct OK as (P1 & P2 & G & F1 & F2 & I16 & Q8 & QO & AK & QS). destruct (Q8 eq_refl) as [L8 H8].
  assert (Hz : LutSpec.int8 (q_zp q)) by (destruct QO as (_ & QO & _); unfold LutSpec.int8; lia).
  split; [|split].
  - cbn [compute_ok]. unfold conv_ok. cbn [c_in c_out c_filter c_stride c_dilation c_padding c_padding_values c_i16 c_in_zp with_faf at_faf].
    repeat (split; auto). left; reflexivity.
  - cbn [compute_ok]. repeat (split; auto). apply relu_bound; assumption.
  - eexists. split; [reflexivity|]. cbn [sem_compute c_in c_i16 c_out elems]. rewrite result_length, Nat.mul_1_r. f_equal. rewrite !result_one.
    apply map_ext_in. intros k Hk. apply in_seq in Hk. rewrite int_at_one, nth_map_seq by lia. cbv zeta.
    destruct (unravel_of (Z.to_nat oh) (Z.to_nat ow) (Z.to_nat od) k) as (y & x & o & ->).
    set (cv := mk_conv false (h, w, d) (oh, ow, od) (fh, fw, fd) p pv (sh, sw) (dh, dwl) zx) in *. unfold conv_result. cbn [cv c_in c_out c_filter c_stride c_dilation c_padding c_padding_values c_in_zp with_faf at_faf].
    set (acc := q_scale q (Z.of_nat o) _). rewrite F. unfold tflite_value. cbn [ConvLowerSpec.activation_range fst snd].
    rewrite Z.mod_mod by lia. rewrite signed8_of by (unfold clampZ; lia). rewrite act_relu; auto.
    + f_equal. unfold clampZ. destruct QO as (_ & QO & _). lia.
    + unfold LutSpec.int8, clampZ. lia.
Qed.

(** A fully connected layer replaced by a 1x1 convolution. *)
Lemma lead_ones lead : Forall (eq 1) lead -> fold_right Z.mul 1 lead = 1 /\ nelem (map Z.to_nat lead) = 1%nat.
Proof. induction 1 as [|x l <- F [IH1 IH2]]; cbn [fold_right map nelem]; [auto|]. rewrite IH1. unfold nelem in *. cbn [map fold_right]. rewrite IH2. auto. Qed.
Lemma nelem_app a b : nelem (a ++ b) = (nelem a * nelem b)%nat.
Proof. unfold nelem. induction a as [|x a IH]; cbn [app fold_right]; [lia|]. rewrite IH. lia. Qed.
Lemma conv_shape_lead lead rows I : ConvGeomModel.fc_conv_shape (lead ++ [rows; I]) = [1; 1; rows; I].
Proof.
  unfold ConvGeomModel.fc_conv_shape. cbv zeta. rewrite app_length. cbn [length].
  replace (length lead + 2 - 2)%nat with (length lead) by lia. replace (length lead + 2 - 1)%nat with (S (length lead)) by lia.
  rewrite !app_nth2 by lia. rewrite Nat.sub_diag. replace (S (length lead) - length lead)%nat with 1%nat by lia. reflexivity.
Qed.
Lemma removelast_lead (lead : list Z) rows I : removelast (lead ++ [rows; I]) = lead ++ [rows].
Proof. rewrite removelast_app by discriminate. reflexivity. Qed.
Lemma full_conv_acc rows I zp img filter o bias x : 0 <= x < rows ->
  conv2d_acc 1 rows I 1 1 1 1 1 1 0 0 zp img (filter_at 1 1 I filter o) bias 0 x =
  bias + sum_to I (fun i => (img 0 x i - zp) * nth (Z.to_nat (o * I + i)) filter 0).
Proof.
  intros Hx. unfold conv2d_acc. f_equal. unfold sum_to. change (seq 0 (Z.to_nat 1)) with [0%nat]. cbn [map fold_right]. rewrite !Z.add_0_r.
  f_equal. apply map_ext. intros i. change (Z.of_nat 0) with 0. rewrite ?Z.sub_0_r, ?Z.mul_1_r, ?Z.add_0_r.
  unfold in_image. replace (0 <=? 0) with true by lia. replace (0 <? 1) with true by lia. replace (0 <=? x) with true by lia. replace (x <? rows) with true by lia. cbn [andb].
  unfold filter_at. replace (((o * 1 + 0) * 1 + 0) * I + Z.of_nat i) with (o * I + Z.of_nat i) by ring. reflexivity.
Qed.
Lemma full_sound fc t q f bi outside a r b s1 c' s2 s3 : compute_ok (CFull fc t q f bi) [a] r -> replace_compute outside (CFull fc t q f bi) = ByConv s1 c' s2 s3 ->
  nelem s1 = nelem (t_shape a) /\ s3 = t_shape r /\ nelem s2 = nelem s3 /\
  compute_ok c' [Ty s1 (t_elem a) (t_zero a)] (Ty s2 (t_elem r) (t_zero r)) /\ sem_compute c' [b] = sem_compute (CFull fc t q f bi) [b].
Proof.
  intros OK R. cbn [replace_compute] in R.
  cbn [compute_ok] in OK. destruct OK as ((lead & rows & I & O & HL & Ei & Eo & Ed & Hr & HI & HO & Hz & Q8 & QO & AK & QS) & RD & Sa & Sr & Ea & Er).
  destruct fc as [i16 fin fout fdims zp]. cbn [fl_in fl_out fl_dims fl_i16 fl_in_zp] in *. subst fin fdims.
  destruct (lead_ones lead HL) as [L1 L2].
  assert (Sq : ConvGeomModel.fc_squeezed fout = fout /\ ConvGeomModel.fc_conv_shape fout = [1; 1; rows; O]) by (destruct Eo as [-> | ->]; split; reflexivity).
  destruct Sq as [Sq Sc].
  rewrite Sq in R. unfold conv_of_full in R. cbn [fl_in fl_out fl_dims fl_i16 fl_in_zp] in R. rewrite conv_shape_lead, Sc in R. unfold ConvGeomModel.fc_filter_shape, image_of in R. cbn [nth] in R. injection R as <- <- <- <-.
  split; [|split; [|split; [|split]]].
  - rewrite Sa, map_app, nelem_app, L2. unfold nelem. cbn [map fold_right]. change (Z.to_nat 1) with 1%nat. lia.
  - auto.
  - destruct Eo as [-> | ->]; unfold nelem; cbn [map fold_right]; change (Z.to_nat 1) with 1%nat; lia.
  - cbn [compute_ok c_in c_out c_i16 t_shape t_elem image_shape]. split; [|auto].
    unfold conv_ok. cbn [c_in c_out c_filter c_stride c_dilation c_padding c_padding_values c_i16 c_in_zp at_faf].
    split; [unfold positive; lia|]. split; [unfold positive; lia|]. split.
    { unfold geometry_ok. cbn [before after out_size nth]. unfold valid_out, eff. Z.to_euclidean_division_equations. lia. }
    split; [auto|]. split; [discriminate|]. split; [intros E; split; [auto|]; unfold no_padding; cbn [before after]; auto|].
    split; [auto|]. split; [auto|]. split; [exact AK|exact QS].
  - cbn [sem_compute c_in c_out c_i16 fl_in fl_out fl_dims fl_i16 fl_in_zp nth]. rewrite removelast_lead.
    replace (fold_right Z.mul 1 (lead ++ [rows])) with rows.
    2:{ rewrite fold_right_app. cbn [fold_right]. rewrite Z.mul_1_r. clear - HL. induction HL as [|v l <- F IH]; cbn [fold_right]; lia. }
    f_equal. apply result_ext. intros y x o Hy Hx Ho. assert (y = 0) by lia. subst y.
    unfold conv_result, full_result. cbn [c_in c_out c_filter c_stride c_dilation c_padding c_padding_values c_in_zp at_faf before]. rewrite full_conv_acc by lia.
    unfold image. replace (0 * rows + x) with x by lia. reflexivity.
Qed.

Lemma by_conv_sound c outside a r b s1 c' s2 s3 : compute_ok c [a] r -> replace_compute outside c = ByConv s1 c' s2 s3 ->
  nelem s1 = nelem (t_shape a) /\ s3 = t_shape r /\ nelem s2 = nelem (t_shape r) /\
  compute_ok c' [Ty s1 (t_elem a) (t_zero a)] (Ty s2 (t_elem r) (t_zero r)) /\ sem_compute c' [b] = sem_compute c [b].
Proof.
  intros OK R. destruct c as [fc t q f bi|cv t q f bi|cv t q f bi|p|m ac si zi so zo].
  - destruct (full_sound fc t q f bi outside a r b s1 c' s2 s3 OK R) as (H1 & -> & H2 & H3). auto.
  - cbn [replace_compute] in R. destruct (_ && _); [discriminate|]. destruct (replace_conv2d _ _ _ _); discriminate.
  - cbn [replace_compute] in R. destruct (replace_conv2d _ _ _ _); discriminate.
  - discriminate R.
  - cbn [replace_compute] in R. destruct (LutModel.lookup_table _ _ _ _ _ _); discriminate.
Qed.

(** ** What is left alone *)
Lemma args_exist dw cv t q : conv_ok dw cv t q -> get_args cv <> None.
Proof.
  unfold conv_ok, get_args. destruct cv as [i16 [[h w] d] [[oh ow] od] [[fh fw] fd] p pv [sh sw] [dh dwl] zx].
  cbn [c_in c_out c_filter c_stride c_dilation c_padding c_padding_values c_i16 c_in_zp].
  intros (_ & (O1 & O2 & _) & (Hh & Hw & Hfh & Hfw & Hsh & Hsw & Hdh & Hdw & Hoh & How & _) & _).
  enough (F : find_padding (mk_conv i16 (h, w, d) (oh, ow, od) (fh, fw, fd) p pv (sh, sw) (dh, dwl) zx) <> None).
  { destruct (find_padding _) as [[[a b] [c e]]|]; [discriminate|congruence]. }
  unfold find_padding. cbn [c_in c_filter c_padding c_stride c_dilation fst snd].
  assert (V : forall n f d s o, 1 <= n -> 1 <= f -> 1 <= d -> 1 <= s -> 1 <= o -> o = valid_out n f d s -> windowed n f d s VALID <> None).
  { clear. intros n f d s o Hn Hf Hd Hs Ho E. unfold windowed. replace (s <=? 0) with false by lia. replace (d <? 1) with false by lia. cbn [fst].
    unfold valid_out, eff in E. assert (K : (f - 1) * d + 1 <= n).
    { destruct (Z.le_gt_cases ((f - 1) * d + 1) n) as [|Gt]; [assumption|exfalso]. Z.to_euclidean_division_equations. nia. }
    rewrite Z.quot_div_nonneg by lia. assert (0 <= (n - ((f - 1) * d + 1) + s) / s) by (apply Z.div_pos; lia).
    replace ((n - ((f - 1) * d + 1) + s) / s <? 0) with false by lia. discriminate. }
  destruct p.
  - pose proof (V h fh dh sh oh Hh Hfh Hdh Hsh O1 Hoh) as V1. pose proof (V w fw dwl sw ow Hw Hfw Hdw Hsw O2 How) as V2.
    destruct (windowed h fh dh sh VALID) as [[[? ?] ?]|]; [|congruence]. destruct (windowed w fw dwl sw VALID) as [[[? ?] ?]|]; [discriminate|congruence].
  - pose proof (ConvLowerProofs.windowed_same h fh dh sh Hh Hfh Hdh Hsh) as V1. pose proof (ConvLowerProofs.windowed_same w fw dwl sw Hw Hfw Hdw Hsw) as V2.
    destruct (windowed h fh dh sh SAME) as [[[? ?] ?]|]; [|congruence]. destruct (windowed w fw dwl sw SAME) as [[[? ?] ?]|]; [discriminate|congruence].
  - discriminate.
Qed.
Lemma errors_above th er : choose_ot th (fst er) (snd er) = None -> (th < fst er)%Q /\ (th < snd er)%Q.
Proof.
  unfold choose_ot. destruct (Qle_bool (fst er) th) eqn:E1; cbn [negb]; [discriminate|]. destruct (Qle_bool (snd er) th) eqn:E2; cbn [negb]; [discriminate|].
  intros _. split; apply Qnot_le_lt; intros X; apply Qle_bool_iff in X; congruence.
Qed.
Lemma kept_only outside c a r : compute_ok c [a] r -> replace_compute outside c = Kept -> not_lowered c.
Proof.
  intros OK R. destruct c as [fc t q f bi|cv t q f bi|cv t q f bi|p|m ac si zi so zo]; cbn [replace_compute not_lowered] in *.
  - discriminate R.
  - destruct OK as (OK & _). pose proof (args_exist _ _ _ _ OK) as AE. unfold conv_ok in OK.
    destruct (negb (c_i16 cv) && is_relu (at_faf t) && negb (q_zp q =? -128)) eqn:NR; [discriminate|].
    destruct (c_in cv) as [[h w] ic] eqn:Ei. destruct (c_out cv) as [[oh ow] oc] eqn:Eo. destruct (c_filter cv) as [[fh fw] fd] eqn:Ef.
    destruct (c_stride cv) as [sh sw]. destruct (c_dilation cv) as [dh dwl]. destruct OK as (_ & _ & _ & F1 & _). specialize (F1 eq_refl). subst fd.
    destruct (Z.eq_dec (Z.rem ic 4) 0) as [R1|]; [|left; assumption]. destruct (Z.eq_dec (Z.rem oc 4) 0) as [R2|]; [|right; left; assumption]. right; right.
    unfold replace_conv2d, phase1 in R. rewrite NR in R. unfold to_fake_conv in R.
    assert (CP : conv_pattern cv = true) by (unfold conv_pattern; rewrite Ei, Eo, Ef, R1, R2, !Z.eqb_refl; reflexivity). rewrite CP in R. cbn [phase2] in R.
    unfold phase2_conv, lower_conv in R. rewrite CP in R. destruct (get_args cv) as [ar|]; [|congruence]. unfold conv_kernel_type in R. rewrite Ei, Eo in R.
    destruct (c_i16 cv) eqn:I16.
    + left. split; [reflexivity|]. destruct (Z.eqb_spec (Z.rem ic 16) 0) as [E1|E1]; [|left; exact E1]. destruct (Z.eqb_spec (Z.rem oc 16) 0) as [E2|E2]; [|right; exact E2].
      cbn [andb] in R. discriminate R.
    + right. split; [reflexivity|]. apply errors_above.
      destruct (choose_ot (q_threshold q) (fst (q_errors q)) (snd (q_errors q))) as [ot|]; [|reflexivity]. exfalso.
      destruct (a_padded ar); [|destruct ((Z.rem ic 32 =? 0) && (Z.rem oc 16 =? 0))]; cbn [phase3] in R; rewrite ?I16 in R; discriminate R.
  - destruct OK as (OK & _). pose proof (args_exist _ _ _ _ OK) as AE. unfold conv_ok in OK.
    destruct (c_in cv) as [[h w] ic] eqn:Ei. destruct (c_out cv) as [[oh ow] oc] eqn:Eo. destruct (c_filter cv) as [[fh fw] fd] eqn:Ef.
    destruct (c_stride cv) as [sh sw]. destruct (c_dilation cv) as [dh dwl]. destruct OK as (_ & _ & _ & _ & F2 & _). destruct (F2 eq_refl) as (I16 & _ & _).
    destruct (Z.eq_dec (Z.rem ic 4) 0) as [R1|]; [|left; assumption]. destruct (Z.eq_dec (Z.rem oc 4) 0) as [R2|]; [|right; left; assumption]. right; right; right.
    split; [exact I16|]. apply errors_above.
    assert (CP : depthwise_pattern cv = true) by (unfold depthwise_pattern; rewrite Ei, Eo, R1, R2, I16; reflexivity).
    unfold replace_conv2d, phase1 in R. rewrite CP in R. cbn [phase2] in R. unfold phase2_depthwise, lower_depthwise in R. rewrite CP in R.
    destruct (get_args cv) as [ar|]; [|congruence]. unfold depthwise_kernel_type in R.
    destruct (choose_ot (q_threshold q) (fst (q_errors q)) (snd (q_errors q))) as [ot|]; [|reflexivity]. discriminate R.
  - discriminate R.
  - destruct OK as (Hso & Hzo & _ & _ & _ & HB). destruct (LutProps.C36_lookup_table m ac si zi so zo Hso Hzo HB) as (t & E & _). rewrite E in R. discriminate R.
Qed.
