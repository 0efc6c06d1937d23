(** Lemmas for C74. *)
From Coq Require Import QArith.
From Verif Require Import Base ConvSpec ConvOptModel ConvOptSpec ConvOptProofs ConvOptProps ConvGeomModel ConvGeomSpec OpSplitProofs ConvGeomProofs ConvGeomProps
  ConvNetModel ConvNetSpec.
Local Open Scope Z_scope.

Section Ind.
Variable Pr : net -> Prop.
Hypothesis HSrc : forall s img, Pr (Src s img).
Hypothesis HConv : forall a c n e, Pr e -> Pr (Conv a c n e).
Hypothesis HPad : forall t b l r z e, Pr e -> Pr (Pad t b l r z e).
Hypothesis HPadC : forall p z e, Pr e -> Pr (PadC p z e).
Hypothesis HSliceC : forall n e, Pr e -> Pr (SliceC n e).
Hypothesis HConcatC : forall l, Forall Pr l -> Pr (ConcatC l).
Hypothesis HAny : forall s f l, Forall Pr l -> Pr (Any s f l).
Fixpoint net_ind2 (e : net) : Pr e :=
  let go := fix go (l : list net) : Forall Pr l :=
      match l with [] => Forall_nil _ | e :: tl => Forall_cons e (net_ind2 e) (go tl) end in
  match e with
  | Src s img => HSrc s img
  | Conv a c n e => HConv a c n e (net_ind2 e)
  | Pad t b l r z e => HPad t b l r z e (net_ind2 e)
  | PadC p z e => HPadC p z e (net_ind2 e)
  | SliceC n e => HSliceC n e (net_ind2 e)
  | ConcatC l => HConcatC l (go l)
  | Any s f l => HAny s f l (go l)
  end.
End Ind.

Lemma fold_and_forall {A} (Q : A -> Prop) l : fold_right and True (map Q l) <-> Forall Q l.
Proof.
  induction l as [|a l IH]; cbn; [split; auto|]. rewrite IH. split.
  - intros [H1 H2]. constructor; auto.
  - intros H. inversion H; auto.
Qed.
Lemma valid_out_pos n f d s : eff f d <= n -> 1 <= s -> 1 <= valid_out n f d s.
Proof. intros. unfold valid_out. apply Z.div_le_lower_bound; lia. Qed.
Lemma same_out_pos n s : 1 <= n -> 1 <= s -> 1 <= same_out n s.
Proof. intros. unfold same_out. apply Z.div_le_lower_bound; lia. Qed.
Lemma valid_out_fits n f d s : 1 <= s -> 1 <= valid_out n f d s -> eff f d <= n.
Proof. intros Hs. unfold valid_out. intros H. pose proof (Z.mul_div_le (n - eff f d + s) s ltac:(lia)). nia. Qed.

Lemma size_pos e : well_typed e -> 1 <= s_h (size_of e) /\ 1 <= s_w (size_of e).
Proof.
  induction e using net_ind2; intros WT; cbn [well_typed size_of s_h s_w] in *.
  - tauto.
  - destruct WT as (A1 & A2 & A3 & A4 & A5 & A6 & A7 & A8 & A9 & A10 & A11). destruct (IHe A11) as [D1 D2].
    unfold conv_size. destruct (a_same a).
    + split; apply same_out_pos; lia.
    + destruct (A7 eq_refl). split; apply valid_out_pos; lia.
  - destruct WT as (A1 & A2 & A3 & A4 & A5 & A6). destruct (IHe A6). lia.
  - auto.
  - tauto.
  - destruct WT as (A1 & _ & A3). apply fold_and_forall in A3. destruct l as [|e l]; [congruence|]. cbn [s_h s_w].
    inversion H; subst. inversion A3; subst. auto.
  - tauto.
Qed.

Lemma conv_pixel_length a c d n w : length (conv_pixel a c d n w) = n.
Proof. unfold conv_pixel, conv_channels. destruct (a_depthwise a); rewrite map_length, seq_length; reflexivity. Qed.

Lemma zpad_length H W z img d y x : length z = d -> (forall y x, 0 <= y < H -> 0 <= x < W -> length (img y x) = d) ->
  length (zpad (P := pixel) H W z img y x) = d.
Proof. intros Hz Hi. unfold zpad. destruct (in_image H W y x) eqn:I; auto. apply Hi; unfold in_image in I; lia. Qed.

Lemma concat_length_sum (l : list (list Z)) : length (concat l) = fold_right Nat.add 0%nat (map (@length Z) l).
Proof. induction l; cbn; auto. rewrite app_length. lia. Qed.

Lemma eval_length e : well_typed e -> forall y x, inside (size_of e) y x -> length (eval e y x) = s_c (size_of e).
Proof.
  induction e using net_ind2; intros WT y x I; cbn [well_typed size_of s_h s_w s_c eval] in *.
  - destruct WT as (_ & _ & _ & K). auto.
  - apply conv_pixel_length.
  - destruct WT as (A1 & A2 & A3 & A4 & A5 & A6). unfold pad_image. apply zpad_length; auto.
    intros. apply IHe; auto. split; auto.
  - rewrite app_length, repeat_length. f_equal. apply IHe; auto.
  - destruct WT as [A1 A2]. rewrite firstn_length. rewrite IHe by auto. lia.
  - destruct WT as (A1 & (h & w & A2) & A3). apply fold_and_forall in A2, A3. rewrite concat_length_sum, map_map.
    destruct l as [|e0 l]; [congruence|]. cbn [s_c]. assert (HW : s_h (size_of e0) = h /\ s_w (size_of e0) = w) by (inversion A2; auto).
    destruct HW as [Hh Hw]. unfold inside in I. cbn [s_h s_w] in I. rewrite Hh, Hw in I.
    f_equal. apply map_ext_in. intros e He. rewrite Forall_forall in H, A2, A3. apply H; auto.
    destruct (A2 e He) as [E1 E2]. unfold inside. rewrite E1, E2. exact I.
  - apply WT. exact I.
Qed.

(** ** congruence *)
Definition good (e e' : net) : Prop := well_typed e' /\ same_result e e'.
Lemma good_trans e1 e2 e3 : good e1 e2 -> good e2 e3 -> good e1 e3.
Proof.
  intros (W & D & V) (W' & D' & V'). split; auto. split; [congruence|]. intros y x I. rewrite V' by (rewrite D; auto). auto.
Qed.
Lemma good_refl e : well_typed e -> good e e.
Proof. intros W. split; auto. split; auto. intros y x I. reflexivity. Qed.

Lemma zpad_ext H W (z : pixel) i1 i2 : (forall y x, 0 <= y < H -> 0 <= x < W -> i1 y x = i2 y x) ->
  forall y x, zpad H W z i1 y x = zpad H W z i2 y x.
Proof. intros E y x. unfold zpad. destruct (in_image H W y x) eqn:I; auto. apply E; unfold in_image in I; lia. Qed.
Lemma conv_image_ext a c n s i1 i2 : agree s i1 i2 -> forall y x, conv_image a c n s i1 y x = conv_image a c n s i2 y x.
Proof.
  intros E y x. unfold conv_image, conv_at. f_equal. f_equal. apply window_ext. intros. apply zpad_ext.
  intros y0 x0 Hy0 Hx0. apply E. split; auto.
Qed.

Lemma conv_cong a c n e e' : well_typed (Conv a c n e) -> good e e' -> good (Conv a c n e) (Conv a c n e').
Proof.
  intros WT (W' & D & V). cbn [well_typed] in WT. split; [cbn [well_typed]; rewrite D; tauto|].
  split; cbn [size_of eval]; rewrite D; auto. intros y x _. apply conv_image_ext. auto.
Qed.
Lemma pad_cong t b l r z e e' : well_typed (Pad t b l r z e) -> good e e' -> good (Pad t b l r z e) (Pad t b l r z e').
Proof.
  intros WT (W' & D & V). cbn [well_typed] in WT. split; [cbn [well_typed]; rewrite D; tauto|].
  split; cbn [size_of eval]; rewrite D; auto. intros y x _. unfold pad_image. apply zpad_ext.
  intros y0 x0 Hy0 Hx0. apply V. split; auto.
Qed.
Lemma padc_cong p z e e' : good e e' -> good (PadC p z e) (PadC p z e').
Proof.
  intros (W' & D & V). split; [exact W'|]. split; cbn [size_of eval]; rewrite ?D; auto. intros y x I. f_equal. apply V. exact I.
Qed.
Lemma slicec_cong n e e' : well_typed (SliceC n e) -> good e e' -> good (SliceC n e) (SliceC n e').
Proof.
  intros WT (W' & D & V). cbn [well_typed] in WT. split; [cbn [well_typed]; rewrite D; tauto|].
  split; cbn [size_of eval]; rewrite ?D; auto. intros y x I. f_equal. apply V. exact I.
Qed.
Lemma concat_cong l1 e e' l2 : well_typed (ConcatC (l1 ++ e :: l2)) -> good e e' ->
  good (ConcatC (l1 ++ e :: l2)) (ConcatC (l1 ++ e' :: l2)).
Proof.
  intros WT (W' & D & V). cbn [well_typed] in WT. destruct WT as (_ & (h & w & A2) & A3).
  apply fold_and_forall in A2, A3.
  assert (DM : forall B (g : size -> B), map (fun e => g (size_of e)) (l1 ++ e' :: l2) = map (fun e => g (size_of e)) (l1 ++ e :: l2)).
  { intros B g. rewrite !map_app. cbn [map]. rewrite D. reflexivity. }
  assert (F2 := proj1 (Forall_app _ _ _) A2). assert (F3 := proj1 (Forall_app _ _ _) A3). destruct F2 as [B2 C2]. destruct F3 as [B3 C3].
  inversion C2 as [|? ? C4 C5]; subst. inversion C3 as [|? ? C6 C7]; subst. destruct C4 as [C4 C4'].
  assert (SZ : size_of (ConcatC (l1 ++ e' :: l2)) = size_of (ConcatC (l1 ++ e :: l2))).
  { cbn [size_of]. rewrite (DM nat s_c). destruct l1 as [|e0 l1]; cbn [app]; [rewrite D|]; reflexivity. }
  split; [|split].
  - cbn [well_typed]. split; [destruct l1; discriminate|]. split.
    + exists h, w. apply fold_and_forall. apply Forall_app. split; [exact B2|].
      constructor; [rewrite D; auto|exact C5].
    + apply fold_and_forall. apply Forall_app. split; auto.
  - exact SZ.
  - intros y x I. cbn [eval]. rewrite !map_app. cbn [map]. do 2 f_equal. f_equal. apply V.
    assert (SH : s_h (size_of (ConcatC (l1 ++ e :: l2))) = s_h (size_of e) /\ s_w (size_of (ConcatC (l1 ++ e :: l2))) = s_w (size_of e)).
    { cbn [size_of]. destruct l1 as [|e0 l1]; cbn [app s_h s_w]; auto. inversion B2 as [|? ? [B4 B5] B6]; subst. split; congruence. }
    destruct SH as [S1 S2]. unfold inside in *. rewrite S1, S2 in I. exact I.
Qed.

Lemma any_cong s f l1 e e' l2 : well_typed (Any s f (l1 ++ e :: l2)) -> good e e' ->
  good (Any s f (l1 ++ e :: l2)) (Any s f (l1 ++ e' :: l2)).
Proof.
  intros WT (W' & D & V). cbn [well_typed] in WT. destruct WT as (A1 & A2 & A3 & A4 & A5). apply fold_and_forall in A3.
  assert (AG : agree s (f (map eval (l1 ++ e :: l2))) (f (map eval (l1 ++ e' :: l2)))).
  { apply A4. rewrite !map_app. cbn [map]. apply Forall2_app; [|constructor].
    - clear. induction l1; constructor; auto. intros y x I; reflexivity.
    - intros y x I. symmetry. apply V. exact I.
    - clear. induction l2; constructor; auto. intros y x I; reflexivity. }
  split; [|split].
  - cbn [well_typed]. repeat (split; [assumption|]). split; [|split].
    + apply fold_and_forall. apply Forall_app in A3. destruct A3 as [B3 C3]. inversion C3; subst. apply Forall_app. split; auto.
    + intros l' F y x I. rewrite <- AG by exact I. apply A4; auto.
      apply Forall2_app_inv_l in F. destruct F as (m1 & m2 & F1 & F2 & ->). apply Forall2_app; auto.
      inversion F2 as [|? i ? m3 F3 F4]; subst. constructor; auto. intros y0 x0 I0. rewrite <- F3 by (rewrite D; auto).
      symmetry. apply V. exact I0.
    + intros y x I. rewrite <- AG by exact I. auto.
  - reflexivity.
  - intros y x I. cbn [size_of eval] in *. symmetry. apply AG. exact I.
Qed.

(** A property of every convolution and preservation of the result lift from the root to anywhere. *)
Lemma lift (R : net -> net -> Prop) (Qp : attrs * conv_consts * nat * nat -> Prop) :
  (forall e e', R e e' -> well_typed e -> Forall Qp (convs e) -> good e e' /\ Forall Qp (convs e')) ->
  forall e e', anywhere R e e' -> well_typed e -> Forall Qp (convs e) -> good e e' /\ Forall Qp (convs e').
Proof.
  intros HR e e' H. induction H as [e e' H|a c n e e' H IH|t b l r z e e' H IH|p z e e' H IH|n e e' H IH|l1 e e' l2 H IH|s f l1 e e' l2 H IH]; intros WT FQ.
  - auto.
  - cbn [convs] in FQ |- *. inversion FQ as [|? ? Q1 Q2]; subst.
    destruct IH as [G F]; auto; [cbn [well_typed] in WT; tauto|]. split; [apply conv_cong; auto|].
    constructor; auto. destruct G as (_ & D & _). rewrite D. exact Q1.
  - destruct IH as [G F]; auto; [cbn [well_typed] in WT; tauto|]. split; [apply pad_cong; auto|exact F].
  - destruct IH as [G F]; auto. split; [apply padc_cong; auto|exact F].
  - destruct IH as [G F]; auto; [cbn [well_typed] in WT; tauto|]. split; [apply slicec_cong; auto|exact F].
  - cbn [convs] in FQ |- *. rewrite flat_map_app in FQ |- *. cbn [flat_map] in *. apply Forall_app in FQ. destruct FQ as [F1 F2].
    apply Forall_app in F2. destruct F2 as [F2 F3].
    destruct IH as [G F]; auto.
    { cbn [well_typed] in WT. destruct WT as (_ & _ & A). apply fold_and_forall in A. rewrite Forall_forall in A. apply A, in_elt. }
    split; [apply concat_cong; auto|]. apply Forall_app. split; auto. apply Forall_app. split; auto.
  - cbn [convs] in FQ |- *. rewrite flat_map_app in FQ |- *. cbn [flat_map] in *. apply Forall_app in FQ. destruct FQ as [F1 F2].
    apply Forall_app in F2. destruct F2 as [F2 F3].
    destruct IH as [G F]; auto.
    { cbn [well_typed] in WT. destruct WT as (_ & _ & A & _). apply fold_and_forall in A. rewrite Forall_forall in A. apply A, in_elt. }
    split; [apply any_cong; auto|]. apply Forall_app. split; auto. apply Forall_app. split; auto.
Qed.

(** ** the patterns at the root *)
Lemma valid_pixel a c d n w : conv_pixel (valid a) c d n w = conv_pixel a c d n w.
Proof. reflexivity. Qed.

Lemma same_good e e' : same_root e e' -> well_typed e -> good e e'.
Proof.
  intros R WT. destruct R as [a c n e top bottom lft rgt newH newW EL SM CP].
  cbn [well_typed] in WT. destruct WT as (A1 & A2 & A3 & A4 & A5 & A6 & A7 & A8 & A9 & A10 & A11).
  destruct (size_pos e A11) as [D1 D2].
  set (s := size_of e) in *.
  pose proof (C32_same_conv_equals_pad_and_valid pixel pixel (fun w => conv_pixel a c (s_c s) n (concat w)) (a_fh a) (a_fw a) (a_sh a) (a_sw a)
    (a_dh a) (a_dw a) (s_h s) (s_w s) (repeat (a_zx a) (s_c s)) (eval e) D1 D2 A1 A2 A3 A4 A5 A6) as K.
  rewrite CP in K. destruct K as (T1 & T2 & T3 & T4 & N1 & N2 & V1 & V2 & V).
  assert (PH : newH = top + s_h s + bottom) by lia. assert (PW : newW = lft + s_w s + rgt) by lia.
  assert (O1 := same_out_pos (s_h s) (a_sh a) D1 A3). assert (O2 := same_out_pos (s_w s) (a_sw a) D2 A4).
  split; [|split].
  - cbn [well_typed size_of s_h s_w s_c valid a_fh a_fw a_sh a_sw a_dh a_dw a_same in_ok out_ok a_in a_out]. fold s.
    repeat (split; [assumption|]). split.
    { intros _. rewrite <- PH, <- PW. split; eapply valid_out_fits; [apply A3| |apply A4|]; lia. }
    split; [exact A8|]. split; [exact A9|]. split; [exact A10|]. repeat (split; [assumption|]). split; [apply repeat_length|exact A11].
  - cbn [size_of valid a_same a_fh a_fw a_sh a_sw a_dh a_dw s_h s_w s_c conv_size]. fold s. rewrite SM, <- PH, <- PW, V1, V2. reflexivity.
  - cbn [size_of]. fold s. rewrite SM. cbn [conv_size]. intros y x [Iy Ix]. cbn [s_h s_w] in Iy, Ix.
    cbn [eval]. fold s. unfold conv_image. cbn [size_of valid a_same a_fh a_fw a_sh a_sw a_dh a_dw a_zx s_h s_w s_c]. fold s. rewrite SM.
    rewrite <- PH, <- PW. apply V; auto.
Qed.

Lemma window_length {P} fh fw dh dw (img : image P) y x : length (concat (window fh fw dh dw img y x)) = (fh * fw)%nat.
Proof.
  unfold window. rewrite <- (seq_length fh 0) at 2. generalize (seq 0 fh). induction l as [|k l IH]; cbn [map concat length]; auto.
  rewrite app_length, map_length, seq_length, IH. cbn. lia.
Qed.
Lemma window_forall {P} (Q : P -> Prop) fh fw dh dw (img : image P) y x : (forall y x, Q (img y x)) -> Forall Q (concat (window fh fw dh dw img y x)).
Proof.
  intros H. unfold window. apply Forall_concat. apply Forall_map. apply Forall_forall. intros k _. apply Forall_map. apply Forall_forall. intros; apply H.
Qed.
Lemma window_map {P R} (g : P -> R) fh fw dh dw (img : image P) y x :
  concat (window fh fw dh dw (fun y x => g (img y x)) y x) = map g (concat (window fh fw dh dw img y x)).
Proof. unfold window. rewrite concat_map. rewrite map_map. f_equal. apply map_ext. intros. rewrite map_map. reflexivity. Qed.

(** Reading padded channels: every pixel of the window has [p] more channels, equal to the zero point. *)
Lemma padc_window a c c' n m s p img y x :
  let s' := Size (s_h s) (s_w s) (s_c s + p) in
  (forall w, length w = taps a -> Forall (fun px => length px = s_c s) w ->
     conv_pixel a c' (s_c s + p) m (pad_window p (a_zx a) w) = conv_pixel a c (s_c s) n w) ->
  (forall y x, inside s y x -> length (img y x) = s_c s) ->
  conv_image a c' m s' (fun y x => img y x ++ repeat (a_zx a) p) y x = conv_image a c n s img y x.
Proof.
  intros s' K L. unfold conv_image, conv_at. cbn [s' s_h s_w s_c].
  set (Y := y * a_sh a - _). set (X := x * a_sw a - _).
  rewrite <- K.
  - f_equal. unfold pad_window. rewrite <- window_map. f_equal. apply window_ext. intros ky kx _ _. unfold zpad.
    destruct (in_image _ _ _ _); auto. apply repeat_app.
  - apply window_length.
  - apply window_forall. intros. apply zpad_length; [apply repeat_length|]. intros. apply L. split; auto.
Qed.

Lemma pad_in_pixel a c c' d n p (w : list (list Z)) : a_depthwise a = false -> pad_conv_input (i16_conv a) d c = Some (p, c') -> (1 <= d)%nat ->
  consts_ok (taps a * d) n c -> length w = taps a -> Forall (fun px => length px = d) w ->
  conv_pixel a c' (d + p) n (pad_window p (a_zx a) w) = conv_pixel a c d n w.
Proof.
  intros ND E Hd HC LW FW. rewrite <- LW in HC.
  destruct (C30_pad_input_channels (i16_conv a) d n c p c' (a_zx a) (a_zw a) w E Hd FW HC) as (_ & _ & _ & _ & B1 & B2 & B3 & _ & V).
  unfold conv_pixel. rewrite ND. unfold conv_channels. rewrite B1, B2, B3, <- LW. apply map_ext_in. intros o Ho. apply in_seq in Ho.
  rewrite V by lia. reflexivity.
Qed.

Lemma depthwise_pixel a c d (w : list (list Z)) : a_depthwise a = true -> (1 <= d)%nat -> length (c_filter c) = (length w * d)%nat ->
  conv_pixel a c d d w =
  depthwise_channels (fun xs col b fq bq => a_post a (zsum (fun t => (nth t xs 0 - a_zx a) * (nth t col 0 - a_zw a)) (length xs)) b fq bq) d c w.
Proof.
  intros DW Hd LF. unfold conv_pixel, depthwise_channels. rewrite DW. apply map_ext_in. intros o Ho. apply in_seq in Ho.
  rewrite Nat.div_same by lia. rewrite Nat.div_1_r. rewrite map_length. f_equal. unfold zsum. f_equal. apply map_ext_in. intros t Ht. apply in_seq in Ht.
  f_equal.
  - f_equal. transitivity (nth t (map (fun px => nth o px 0) w) (nth o [] 0)).
    + rewrite (map_nth (fun px => nth o px 0)). reflexivity.
    + f_equal. destruct o; reflexivity.
  - f_equal. unfold column. rewrite LF, Nat.div_mul by lia.
    rewrite (nth_indep (map (fun t0 => nth (t0 * d + o) (c_filter c) 0) (seq 0 (length w))) 0 (nth (0 * d + o) (c_filter c) 0)) by (rewrite map_length, seq_length; exact (proj2 Ht)).
    rewrite (map_nth (fun t0 => nth (t0 * d + o)%nat (c_filter c) 0)). rewrite seq_nth by exact (proj2 Ht). reflexivity.
Qed.

Lemma pad_dw_pixel a c c' d p (w : list (list Z)) : a_depthwise a = true -> pad_depthwise d d c = Some (p, c') -> (1 <= d)%nat ->
  consts_fit a c d d -> length w = taps a -> Forall (fun px => length px = d) w ->
  firstn d (conv_pixel a c' (d + p) (d + p) (pad_window p (a_zx a) w)) = conv_pixel a c d d w /\ consts_fit a c' (d + p) (d + p).
Proof.
  intros DW E Hd HC LW FW. unfold consts_fit in *. rewrite DW in *. destruct HC as (_ & LF & LB & LQ & LR).
  destruct (C47_pad_depthwise Z (fun xs col b fq bq => a_post a (zsum (fun t => (nth t xs 0 - a_zx a) * (nth t col 0 - a_zw a)) (length xs)) b fq bq)
    d (taps a) c p c' (a_zx a) w E Hd LF LB LQ LR FW) as (_ & P1 & LF' & V).
  split.
  - rewrite (depthwise_pixel a c d w DW Hd) by (rewrite LW; exact LF).
    rewrite (depthwise_pixel a c' (d + p) (pad_window p (a_zx a) w) DW); [exact V|lia|].
    unfold pad_window. rewrite map_length, LW. exact LF'.
  - split; [apply Nat.mod_same; lia|]. split; [exact LF'|]. unfold pad_depthwise in E. rewrite Nat.eqb_refl in E.
    destruct (pad_size (Z.of_nat d) 4 =? 0); [discriminate|]. injection E as E1 E2. rewrite <- E2. cbn [c_bias c_fq c_bq]. rewrite E1.
    unfold pad_bias, pad_q. repeat split; intros l El;
      [destruct (c_bias c) as [b|]|destruct (c_fq c) as [b|]|destruct (c_bq c) as [b|]]; try discriminate; injection El as <-;
      rewrite app_length, repeat_length; f_equal; auto.
Qed.

Lemma eqb_and b1 b2 : b1 && b2 = true -> b1 = true /\ b2 = true. Proof. apply andb_true_iff. Qed.

Lemma pad_good e e' : pad_root e e' -> well_typed e -> good e e'.
Proof.
  intros R WT. destruct R as [a c n e p c' EL E|a c n e p c' EL E|a c n e p c' EL E];
    cbn [well_typed] in WT; destruct WT as (A1 & A2 & A3 & A4 & A5 & A6 & A7 & A8 & A9 & A10 & A11); set (s := size_of e) in *.
  - assert (ND : a_depthwise a = false) by (unfold pad_eligible in EL; destruct (a_depthwise a); [discriminate|reflexivity]).
    unfold consts_fit in A8. rewrite ND in A8.
    assert (C' : consts_ok (taps a * (s_c s + p)) n c').
    { destruct (C30_pad_input_channels (i16_conv a) (s_c s) n c p c' (a_zx a) (a_zw a) (repeat (repeat 0 (s_c s)) (taps a)) E A10) as (_ & _ & _ & K & _).
      - apply Forall_forall. intros px I. apply repeat_spec in I. subst. apply repeat_length.
      - rewrite repeat_length. exact A8.
      - rewrite repeat_length in K. exact K. }
    split; [|split].
    + cbn [well_typed size_of s_h s_w s_c]. fold s. unfold consts_fit. rewrite ND. repeat (split; [assumption|]). split; [lia|exact A11].
    + reflexivity.
    + intros y x _. cbn [eval size_of]. fold s. apply (padc_window a c c' n n s p).
      * intros w LW FW. apply pad_in_pixel; auto.
      * intros y0 x0 I0. apply eval_length; auto.
  - assert (ND : a_depthwise a = false) by (unfold pad_eligible in EL; destruct (a_depthwise a); [discriminate|reflexivity]).
    unfold consts_fit in A8. rewrite ND in A8.
    destruct (C31_pad_output_channels (list pixel) Z (fun w f b fq bq => a_post a (accumulator (s_c s) (a_zx a) (a_zw a) w f) b fq bq)
      _ _ _ _ _ _ E A8) as (_ & _ & _ & C' & V).
    split; [|split].
    + cbn [well_typed size_of s_c]. split; [lia|]. fold s. unfold consts_fit. rewrite ND. repeat (split; [assumption|]). exact A11.
    + reflexivity.
    + intros y x _. cbn [eval]. fold s. unfold conv_image, conv_at, conv_pixel. rewrite ND. apply V.
  - unfold pad_dw_eligible in EL. assert (DW : a_depthwise a = true) by (destruct (a_depthwise a); [reflexivity|discriminate]).
    assert (N : s_c s = n) by (unfold pad_depthwise in E; destruct (Nat.eqb_spec (s_c s) n); [auto|discriminate]). subst n.
    destruct (pad_dw_pixel a c c' (s_c s) p (repeat (repeat 0 (s_c s)) (taps a)) DW E A10 A8) as [_ C'].
    { apply repeat_length. } { apply Forall_forall. intros px I. apply repeat_spec in I. subst. apply repeat_length. }
    split; [|split].
    + cbn [well_typed size_of s_h s_w s_c]. fold s. split; [lia|]. repeat (split; [assumption|]). split; [lia|exact A11].
    + reflexivity.
    + intros y x _. cbn [eval size_of s_h s_w s_c]. fold s.
      assert (K : forall w, length w = taps a -> Forall (fun px => length px = s_c s) w ->
        firstn (s_c s) (conv_pixel a c' (s_c s + p) (s_c s + p) (pad_window p (a_zx a) w)) = conv_pixel a c (s_c s) (s_c s) w).
      { intros w LW FW. apply pad_dw_pixel; auto. }
      unfold conv_image, conv_at. cbn [s_h s_w s_c].
      rewrite <- K.
      * f_equal. f_equal. unfold pad_window. rewrite <- window_map. f_equal. apply window_ext. intros ky kx _ _. unfold zpad.
        destruct (in_image _ _ _ _); auto. apply repeat_app.
      * apply window_length.
      * apply window_forall. intros. apply zpad_length; [apply repeat_length|]. intros. apply eval_length; auto. split; auto.
Qed.

Lemma split_good splitSize a c n e ns groups : 1 <= splitSize -> split_eligible a = true -> a_same a = false -> (n mod 4 = 0)%nat ->
  num_splits (Z.of_nat (length (c_filter c))) splitSize (Z.of_nat n) = Some ns ->
  split_groups (taps a * s_c (size_of e)) c 0 (split_sizes (Z.of_nat n) ns) = Some groups ->
  well_typed (Conv a c n e) ->
  good (Conv a c n e) (ConcatC (map (fun g => Conv (valid a) (snd g) (fst g) e) groups)) /\ Forall (fun g => (fst g mod 4 = 0)%nat) groups.
Proof.
  intros HS EL SM N4 NS SG WT. cbn [well_typed] in WT. destruct WT as (A1 & A2 & A3 & A4 & A5 & A6 & A7 & A8 & A9 & A10 & A11).
  set (s := size_of e) in *. assert (ND : a_depthwise a = false) by (unfold split_eligible in EL; destruct (a_depthwise a); [discriminate|reflexivity]).
  unfold consts_fit in A8. rewrite ND in A8. assert (LF := proj1 A8). rewrite LF in NS.
  destruct (C29_channelwise_split_partial (list pixel) Z (fun w f b fq bq => a_post a (accumulator (s_c s) (a_zx a) (a_zw a) w f) b fq bq)
    (taps a * s_c s) n c splitSize ns A8 N4 HS NS) as (gs & E & LG & L2 & F & _ & V).
  rewrite SG in E. injection E as <-.
  assert (NE : groups <> []) by (destruct groups; [cbn in L2; lia|discriminate]).
  assert (SUM : fold_right Nat.add 0%nat (map fst groups) = n).
  { assert (LV := f_equal (@length Z) (V (repeat [] (taps a)))). rewrite concat_length_sum in LV. rewrite map_map in LV.
    unfold conv_channels in LV. rewrite map_length, seq_length in LV. rewrite <- LV. f_equal. apply map_ext. intros. rewrite map_length, seq_length. reflexivity. }
  split; [|eapply Forall_impl; [|exact F]; cbn; tauto].
  split; [|split].
  - cbn [well_typed]. split; [destruct groups; [congruence|discriminate]|]. split.
    + exists (conv_size false (s_h s) (Z.of_nat (a_fh a)) (a_dh a) (a_sh a)), (conv_size false (s_w s) (Z.of_nat (a_fw a)) (a_dw a) (a_sw a)).
      apply fold_and_forall. apply Forall_map. apply Forall_forall. intros g _. split; reflexivity.
    + apply fold_and_forall. apply Forall_map. eapply Forall_impl; [|exact F]. intros g [Cg _]. cbn [well_typed].
      unfold consts_fit. cbn [valid a_fh a_fw a_sh a_sw a_dh a_dw a_same a_depthwise in_ok out_ok a_in a_out]. rewrite ND. fold s.
      rewrite SM in A7. repeat (split; [assumption|]). exact A11.
  - destruct groups as [|g groups]; [congruence|].
    change (size_of (ConcatC (map (fun g => Conv (valid a) (snd g) (fst g) e) (g :: groups)))) with
      (Size (conv_size false (s_h s) (Z.of_nat (a_fh a)) (a_dh a) (a_sh a)) (conv_size false (s_w s) (Z.of_nat (a_fw a)) (a_dw a) (a_sw a))
         (fold_right Nat.add 0%nat (map (fun e => s_c (size_of e)) (map (fun g => Conv (valid a) (snd g) (fst g) e) (g :: groups))))).
    rewrite map_map. cbn [size_of s_c]. rewrite SM. f_equal. exact SUM.
  - intros y x _. cbn [eval]. rewrite map_map. fold s.
    rewrite (map_ext (fun x0 => eval (Conv (valid a) (snd x0) (fst x0) e) y x)
      (fun g => conv_channels (fun w f b fq bq => a_post a (accumulator (s_c s) (a_zx a) (a_zw a) w f) b fq bq) (taps a * s_c s) (fst g) (snd g)
        (concat (window (a_fh a) (a_fw a) (a_dh a) (a_dw a) (zpad (s_h s) (s_w s) (repeat (a_zx a) (s_c s)) (eval e)) (y * a_sh a - 0) (x * a_sw a - 0))))).
    + rewrite V. unfold conv_image, conv_at, conv_pixel. rewrite ND, SM. reflexivity.
    + intros g. cbn [eval]. fold s. unfold conv_image, conv_at, conv_pixel. cbn [valid a_depthwise a_same]. rewrite ND. reflexivity.
Qed.
