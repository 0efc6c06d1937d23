(** Lemmas for C57-C60, C62. *)
From Coq Require Import QArith Lqa.
From Verif Require Import Base ConvSpec ConvOptSpec ConvOptProofs ConvGeomModel ConvGeomProofs OpSplitProofs ConvLowerModel ConvLowerSpec.
Local Open Scope Z_scope.

Lemma sum_to_zsum n f : sum_to n f = zsum (fun i => f (Z.of_nat i)) (Z.to_nat n).
Proof. reflexivity. Qed.
Lemma zsum_plus f g n : (zsum f n + zsum g n = zsum (fun i => f i + g i) n)%Z.
Proof. unfold zsum. induction (seq 0 n) as [|i l IH]; [reflexivity|]. cbn [map fold_right]. lia. Qed.
Lemma zsum_scale f c n : (c * zsum f n = zsum (fun i => c * f i) n)%Z.
Proof. unfold zsum. induction (seq 0 n) as [|i l IH]; [cbn [map fold_right]; lia|]. cbn [map fold_right]. lia. Qed.
Lemma wsum_ext fh fw d f g :
  (forall ky kx i, (ky < Z.to_nat fh)%nat -> (kx < Z.to_nat fw)%nat -> (i < Z.to_nat d)%nat -> f ky kx i = g ky kx i) ->
  window_sum fh fw d f = window_sum fh fw d g.
Proof.
  intros H. unfold window_sum. apply zsum_ext. intros ky Hky. apply zsum_ext. intros kx Hkx.
  apply zsum_ext. intros i Hi. apply H; assumption.
Qed.
Lemma wsum_plus fh fw d f g : window_sum fh fw d f + window_sum fh fw d g = window_sum fh fw d (fun a b c => f a b c + g a b c).
Proof.
  unfold window_sum. rewrite zsum_plus. apply zsum_ext. intros ky _. rewrite zsum_plus. apply zsum_ext. intros kx _.
  apply zsum_plus.
Qed.
Lemma wsum_scale fh fw d c f : c * window_sum fh fw d f = window_sum fh fw d (fun a b e => c * f a b e).
Proof.
  unfold window_sum. rewrite zsum_scale. apply zsum_ext. intros ky _. rewrite zsum_scale. apply zsum_ext. intros kx _.
  apply zsum_scale.
Qed.
Lemma wsum_fold fh fw d zp t w :
  window_sum fh fw d (fun a b c => t a b c * w a b c) - zp * window_sum fh fw d w =
  window_sum fh fw d (fun a b c => (t a b c - zp) * w a b c).
Proof.
  replace (window_sum fh fw d (fun a b c => t a b c * w a b c) - zp * window_sum fh fw d w)
    with (window_sum fh fw d (fun a b c => t a b c * w a b c) + (- zp) * window_sum fh fw d w) by lia.
  rewrite wsum_scale, wsum_plus. apply wsum_ext. intros; lia.
Qed.

(** The padding found by the pass is that of the specification. *)
Lemma windowed_spec p n f d s r : 1 <= n -> 1 <= f -> 1 <= d -> 1 <= s -> p <> EXPLICIT ->
  windowed n f d s p = Some r -> snd (fst r) = before p n f d s 0 /\ snd r = after p n f d s 0.
Proof.
  intros Hn Hf Hd Hs Hp. unfold windowed. destruct (s <=? 0); [discriminate|]. destruct (d <? 1); [discriminate|].
  destruct p; [| |congruence].
  - cbn [fst snd]. destruct (_ <? 0); [discriminate|]. intros E. injection E as <-. split; reflexivity.
  - destruct (_ <? 0); [discriminate|]. intros E. injection E as <-. cbn [fst snd before after].
    unfold same_after, same_before, same_needed, same_out, eff.
    rewrite !Z.quot_div_nonneg by (try lia; apply Z.le_max_l). split; reflexivity.
Qed.
Lemma windowed_same n f d s : 1 <= n -> 1 <= f -> 1 <= d -> 1 <= s -> windowed n f d s SAME <> None.
Proof.
  intros Hn Hf Hd Hs. unfold windowed. replace (s <=? 0) with false by lia. replace (d <? 1) with false by lia.
  cbn [fst]. rewrite Z.quot_div_nonneg by lia.
  assert (0 <= (n + s - 1) / s) by (apply Z.div_pos; lia).
  replace ((n + s - 1) / s <? 0) with false by lia. discriminate.
Qed.

(** A window without padding lies inside the image. *)
Lemma inside p n f d s e1 e2 y k : 1 <= n -> 1 <= f -> 1 <= d -> 1 <= s ->
  before p n f d s e1 = 0 -> after p n f d s e2 = 0 -> 0 <= y < out_size p n f d s e1 e2 -> 0 <= k < f ->
  0 <= y * s + k * d < n.
Proof.
  intros Hn Hf Hd Hs B A Hy Hk. assert (Hkd : k * d <= (f - 1) * d) by nia. split; [nia|].
  assert (V : forall m, m = n -> 0 <= y < valid_out m f d s -> y * s + k * d < n).
  { intros m -> Hv. unfold valid_out, eff in Hv.
    assert (H1 : s * ((n - ((f - 1) * d + 1) + s) / s) <= n - ((f - 1) * d + 1) + s) by (apply Z.mul_div_le; lia). nia. }
  destruct p; cbn [before after out_size] in *.
  - apply (V n); auto.
  - unfold same_after in A. rewrite B in A. unfold same_needed, eff in A.
    assert (y * s <= (same_out n s - 1) * s) by (apply Z.mul_le_mono_nonneg_r; lia). lia.
  - apply (V (n + e1 + e2)); [lia|exact Hy].
Qed.

Lemma int16_small v : -32768 <= v < 32768 -> int16 v = v.
Proof. intros H. unfold int16. rewrite Z.mod_small by lia. lia. Qed.

Lemma find_padding_spec c t b l r : forall h w d fh fw fd sh sw dh dw,
  c_in c = (h, w, d) -> c_filter c = (fh, fw, fd) -> c_stride c = (sh, sw) -> c_dilation c = (dh, dw) ->
  1 <= h -> 1 <= w -> 1 <= fh -> 1 <= fw -> 1 <= sh -> 1 <= sw -> 1 <= dh -> 1 <= dw ->
  find_padding c = Some (t, b, (l, r)) ->
  t = before (c_padding c) h fh dh sh (nth 2 (c_padding_values c) 0) /\
  b = after (c_padding c) h fh dh sh (nth 3 (c_padding_values c) 0) /\
  l = before (c_padding c) w fw dw sw (nth 4 (c_padding_values c) 0) /\
  r = after (c_padding c) w fw dw sw (nth 5 (c_padding_values c) 0).
Proof.
  intros h w d fh fw fd sh sw dh dw E1 E2 E3 E4 Hh Hw Hfh Hfw Hsh Hsw Hdh Hdw. unfold find_padding.
  rewrite E1, E2, E3, E4. cbn [fst snd].
  destruct (c_padding c) eqn:P.
  3:{ intros E. injection E as <- <- <- <-. repeat split. }
  all: destruct (windowed h fh dh sh _) as [[[o1 t'] b']|] eqn:W1; [|discriminate];
    destruct (windowed w fw dw sw _) as [[[o2 l'] r']|] eqn:W2; [|discriminate];
    intros E; injection E as <- <- <- <-;
    apply windowed_spec in W1; [|assumption..|discriminate]; apply windowed_spec in W2; [|assumption..|discriminate];
    cbn [fst snd before after] in *; tauto.
Qed.

Lemma in_image_true H W y x : 0 <= y < H -> 0 <= x < W -> in_image H W y x = true.
Proof. intros. unfold in_image. lia. Qed.
Lemma in_image_inv H W y x : in_image H W y x = true -> 0 <= y < H /\ 0 <= x < W.
Proof. unfold in_image. intros E. apply andb_prop in E as [E E4]. apply andb_prop in E as [E E3]. apply andb_prop in E as [E1 E2]. lia. Qed.
Lemma qmin_spec a b : (qmin a b <= a)%Q /\ (qmin a b <= b)%Q /\ (qmin a b = a \/ qmin a b = b).
Proof.
  unfold qmin. destruct (Qle_bool a b) eqn:E.
  - apply Qle_bool_iff in E. split; [apply Qle_refl|]. split; [exact E|left; reflexivity].
  - assert (~ (a <= b)%Q) by (intros X; apply Qle_bool_iff in X; congruence). apply Qnot_le_lt in H.
    split; [apply Qlt_le_weak; exact H|]. split; [apply Qle_refl|right; reflexivity].
Qed.
Lemma min_element_spec l : l <> [] -> In (min_element l) l /\ forall v, In v l -> (min_element l <= v)%Q.
Proof.
  destruct l as [|x r]; [congruence|intros _]. cbn [min_element].
  assert (G : forall r x, (fold_left qmin r x = x \/ In (fold_left qmin r x) r) /\ (fold_left qmin r x <= x)%Q /\
                          forall v, In v r -> (fold_left qmin r x <= v)%Q).
  { clear. induction r as [|y r IH]; intros x; cbn [fold_left].
    - split; [left; reflexivity|]. split; [apply Qle_refl|]. intros v [].
    - destruct (qmin_spec x y) as (A & B & D). destruct (IH (qmin x y)) as (I1 & I2 & I3).
      split.
      + destruct I1 as [I1|I1]; [|right; right; exact I1]. rewrite I1. destruct D as [D|D]; rewrite D; [left; reflexivity|right; left; reflexivity].
      + split; [eapply Qle_trans; eassumption|]. intros v [<-|Hv]; [eapply Qle_trans; eassumption|apply I3; exact Hv]. }
  destruct (G r x) as (A & B & D). split.
  - destruct A as [A|A]; [left; symmetry; exact A|right; exact A].
  - intros v [<-|Hv]; auto.
Qed.
