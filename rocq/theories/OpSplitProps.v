(** C24-C28, C45, C46: splitting operators by height. *)
From Coq Require Import QArith.
From Verif Require Import Base NdSpec NdBase LowerSpec BroadcastProofs SlicePadProofs2 ConvSpec OpSplitModel OpSplitSpec OpSplitProofs OpSearchModel.
Local Open Scope nat_scope.

(** ** C24 *)
Theorem C24_bands_partition : forall H n, 1 <= n ->
  exists bands : list (nat * nat),
    op_split (Z.of_nat H) n = Some (map (fun b => (Z.of_nat (fst b), Z.of_nat (snd b))) bands) /\
    length bands = n /\ consecutive 0 bands H /\
    Forall (fun b => H / n <= snd b <= S (H / n)) bands /\
    (n <= H -> Forall (fun b => 1 <= snd b) bands) /\
    forall A (z : A) (t : tensor A) W C idx, in_shape [1; H; W; C] idx ->
      Forall (fun b => slice_fits [0; fst b; 0; 0] [1; snd b; W; C] [1; H; W; C]) bands /\
      concat_t z 1 (map (fun b => (snd b, slice_t [0; fst b; 0; 0] t)) bands) idx = t idx.
Proof.
  intros H n Hn. destruct (op_split_ok H n ltac:(lia)) as (bands & E & L & C & F).
  exists bands. split; [exact E|]. split; [exact L|]. split; [exact C|]. split; [exact F|]. split.
  - intros HH. eapply Forall_impl; [|exact F]. cbn. intros b Hb.
    assert (1 <= H / n) by (apply Nat.div_le_lower_bound; lia). lia.
  - intros A z t W Ch idx HI. split.
    + destruct (consecutive_le _ _ _ C) as [_ G]. eapply Forall_impl; [|exact G]. cbn. intros b Hb. fits.
    + destruct (in_shape4 _ _ _ _ _ HI) as (a & i & c & d & -> & Ha & Hi & _).
      rewrite (concat_bands z t bands 0 H) by (auto; lia). reflexivity.
Qed.
Example C24_concrete : op_split 10 4 = Some [(0, 3); (3, 3); (6, 2); (8, 2)]%Z. Proof. reflexivity. Qed.
(** A number of splits larger than the height gives empty bands. *)
Theorem C24_refuted_more_splits_than_rows : op_split 2 3 = Some [(0, 1); (1, 1); (2, 0)]%Z.
Proof. reflexivity. Qed.

(** ** C25 *)
Theorem C25_combined_slice : forall A H W C s others r b n,
  combine_slice (zn [1; H; W; C]) s others = Some r ->
  slices s b n [1; H; W; C] ->
  (forall c, In c others -> exists bc nc, slices c bc nc [1; H; W; C]) ->
  match r with
  | UseExisting c => In c others /\ slices c b n [1; H; W; C]
  | SliceOfExisting c new => In c others /\ exists bc nc bn,
      slices c bc nc [1; H; W; C] /\ slices new bn n nc /\
      forall (t : tensor A) idx, in_shape n idx -> slice_of_slice bc bn t idx = slice_t b t idx
  end.
Proof. intros A H W C s others r b n. apply combine_ok. Qed.
Example C25_concrete :
  let other := create_slice [0; 2; 0; 0]%Z [1; 5; 6; 3]%Z in
  let s := create_slice [0; 3; 0; 0]%Z [1; 2; 6; 3]%Z in
  combine_slice (zn [1; 9; 6; 3]) s [other] = Some (SliceOfExisting other (create_slice [0; 1; 0; 0]%Z [1; 2; 6; 3]%Z)) /\
  slices s [0; 3; 0; 0] [1; 2; 6; 3] [1; 9; 6; 3] /\ slices other [0; 2; 0; 0] [1; 5; 6; 3] [1; 9; 6; 3].
Proof.
  cbv zeta. split; [reflexivity|]. split; (split; [reflexivity|split; [reflexivity|split; [reflexivity|fits]]]).
Qed.

(** ** C26 *)
Local Open Scope Z_scope.
Theorem C26_valid : forall P Q (G : list (list P) -> Q) z fh fw inH inW sH sW begin size,
  (1 <= fh)%nat -> (1 <= fw)%nat -> Z.of_nat fh <= inH -> Z.of_nat fw <= inW -> 1 <= sH -> 1 <= sW ->
  0 <= begin -> 1 <= size -> begin + size <= valid_out inH (Z.of_nat fh) 1 sH ->
  let r := raise_conv false inH inW (Z.of_nat fh) (Z.of_nat fw) sH sW (valid_out inH (Z.of_nat fh) 1 sH) begin size in
  0 <= r_begin r /\ 1 <= r_size r /\ r_begin r + r_size r <= inH /\
  r_pad r = None /\ r_padded_h r = r_size r /\ r_padded_w r = inW /\
  r_out_h r = size /\ r_out_w r = valid_out inW (Z.of_nat fw) 1 sW /\
  forall img y x, 0 <= y < size -> 0 <= x < valid_out inW (Z.of_nat fw) 1 sW ->
    raised_conv G z fh fw sH sW inW r img y x = original_conv G z false fh fw sH sW inH inW img (begin + y) x.
Proof. intros. apply raise_valid; auto. Qed.

Theorem C26_same_partial : forall P Q (G : list (list P) -> Q) z fh fw inH inW sH sW begin size,
  (1 <= fh)%nat -> (1 <= fw)%nat -> 1 <= inH -> 1 <= inW -> 1 <= sH -> 1 <= sW ->
  0 <= begin -> 1 <= size -> begin + size <= same_out inH sH ->
  let r := raise_conv true inH inW (Z.of_nat fh) (Z.of_nat fw) sH sW (same_out inH sH) begin size in
  ((0 <= r_begin r /\ 1 <= r_size r /\ r_begin r + r_size r <= inH) <->
   band_supported true inH (Z.of_nat fh) sH (same_out inH sH) begin size) /\
  (band_supported true inH (Z.of_nat fh) sH (same_out inH sH) begin size ->
   (exists pt pb pl pr, r_pad r = Some (pt, pb, pl, pr) /\ 0 <= pt /\ 0 <= pb /\ 0 <= pl /\ 0 <= pr /\
      r_padded_h r = r_size r + pt + pb /\ r_padded_w r = inW + pl + pr /\
      valid_out (r_padded_h r) (Z.of_nat fh) 1 sH = size /\ valid_out (r_padded_w r) (Z.of_nat fw) 1 sW = same_out inW sW) /\
   r_out_h r = size /\ r_out_w r = same_out inW sW /\
   forall img y x, 0 <= y < size -> 0 <= x < same_out inW sW ->
     raised_conv G z fh fw sH sW inW r img y x = original_conv G z true fh fw sH sW inH inW img (begin + y) x).
Proof.
  intros P Q G z fh fw inH inW sH sW begin size Hfh Hfw HH HW HsH HsW Hb Hn Hout r.
  split; [apply raise_same_fits; auto; lia|]. intros BS.
  destruct (raise_same_shape fh inH inW (Z.of_nat fw) sH sW begin size Hfh ltac:(lia) HH HW HsH HsW Hb Hn Hout) as (R1 & R2 & R3 & R4 & R5 & R6 & R7).
  cbv zeta in R1, R2, R3, R4, R5, R6, R7. fold r in R1, R2, R3, R4, R5, R6, R7.
  destruct (same_bounds inH (Z.of_nat fh) sH HH ltac:(lia) HsH) as (B1 & B2 & B3 & B4 & B5 & B6 & B7 & B8).
  destruct (same_bounds inW (Z.of_nat fw) sW HW ltac:(lia) HsW) as (D1 & D2 & D3 & D4 & D5 & D6 & D7 & D8).
  split; [|split; [exact R6|split; [exact R7|]]].
  - do 4 eexists. split; [exact R3|].
    split; [destruct (begin =? 0); lia|].
    split; [destruct (begin =? 0); [lia|destruct (begin + size =? same_out inH sH); lia]|].
    split; [exact D4|]. split; [exact D5|]. rewrite R4, R2. split; [reflexivity|]. split; [exact R5|]. split.
    + unfold valid_out, eff. symmetry. apply Z.div_unique with 0; lia.
    + rewrite R5. rewrite <- (out_w_same inW (Z.of_nat fw) sW) by lia. unfold valid_out, eff.
      assert (Z.max 0 ((same_out inW sW - 1) * sW + Z.of_nat fw - inW) >= (same_out inW sW - 1) * sW + Z.of_nat fw - inW) by lia.
      assert (0 <= (same_out inW sW - 1) * sW) by (apply Z.mul_nonneg_nonneg; lia).
      rewrite Z.quot_div_nonneg by lia. f_equal. lia.
  - apply raise_same_value; auto.
Qed.

(** Every proper band is supported when the padding below is at most one stride,
    in particular for filters of height at most 3. *)
Theorem C26_small_filters : forall inH f sH begin size,
  1 <= inH -> 1 <= f -> 1 <= sH -> 0 <= begin -> 1 <= size -> begin + size <= same_out inH sH ->
  size < same_out inH sH ->
  f <= 3 \/ same_after inH f 1 sH <= sH ->
  band_supported true inH f sH (same_out inH sH) begin size.
Proof.
  intros inH f sH begin size HH Hf Hs Hb Hn Hout Hp HF _.
  destruct (same_bounds inH f sH HH Hf Hs) as (B1 & B2 & B3 & B4 & B5 & B6 & B7 & B8).
  assert (PA : same_after inH f 1 sH <= sH).
  { destruct HF as [HF|HF]; [|exact HF]. unfold same_after, same_before in *. Z.to_euclidean_division_equations. lia. }
  set (o := same_out inH sH) in *. set (pb := same_before inH f 1 sH) in *. set (pa := same_after inH f 1 sH) in *.
  split.
  - destruct (Z.eq_dec begin 0); [left; auto|right].
    assert (1 * sH <= begin * sH) by (apply Z.mul_le_mono_nonneg_r; lia). lia.
  - destruct (Z.eq_dec (begin + size) o) as [E|N].
    + left. split; [lia|auto].
    + right. assert ((begin + size - 1) * sH <= (o - 2) * sH) by (apply Z.mul_le_mono_nonneg_r; lia). lia.
Qed.

Example C26_concrete : band_supported true 7 3 2 (same_out 7 2) 1 2 /\ same_out 7 2 = 4 /\
  raise_conv true 7 5 3 3 2 1 4 1 2 = Raised 1 5 (Some (0, 0, 1, 1)) 5 7 2 5.
Proof. split; [apply C26_small_filters; try lia; try (vm_compute; congruence); vm_compute; reflexivity|split; reflexivity]. Qed.

(** A slice of the whole output of a SAME convolution (3x3 on 4 rows) becomes a slice
    of 5 rows of a 4-row tensor. *)
Theorem C26_refuted_whole : same_out 4 1 = 4 /\ r_begin (raise_conv true 4 4 3 3 1 1 4 0 4) = 0 /\ r_size (raise_conv true 4 4 3 3 1 1 4 0 4) = 5.
Proof. repeat split. Qed.
(** Thin bands of a SAME convolution with a 5x5 filter: the new slice starts at row -1. *)
Theorem C26_refuted_thin : r_begin (raise_conv true 8 8 5 5 1 1 8 1 1) = -1.
Proof. reflexivity. Qed.
(** Dilation is ignored: filter 3, dilation 2, 7 rows (3 output rows, VALID); the band
    of the first two rows gets 4 input rows but its second row needs rows 1..5. *)
Theorem C26_refuted_dilation : valid_out 7 3 2 1 = 3 /\
  r_begin (raise_conv false 7 7 3 3 1 1 3 0 2) + r_size (raise_conv false 7 7 3 3 1 1 3 0 2) < (2 - 1) * 1 + eff 3 2.
Proof. repeat split. Qed.

(** Exactly then: the convolution of the band, with the dilation of the original, has the
    rows of the band iff the dilation does not matter. *)
Theorem C26_dilation_exactly_when : forall same inH inW fH fW sH sW outH d begin size,
  1 <= fH -> 1 <= sH -> 1 <= d -> same = true \/ begin + size <> outH ->
  (valid_out (r_padded_h (raise_conv same inH inW fH fW sH sW outH begin size)) fH d sH = size <-> fH = 1 \/ d = 1).
Proof.
  intros same inH inW fH fW sH sW outH d begin size Hf Hs Hd HC.
  assert (P : r_padded_h (raise_conv same inH inW fH fW sH sW outH begin size) = size * sH - sH + fH).
  { unfold raise_conv. destruct (windowed same inH fH sH) as [[o1 t1] b1]. destruct (windowed same inW fW sW) as [[o2 t2] b2].
    destruct same; [destruct (begin =? 0); [|destruct (begin + size =? outH)]|destruct (Z.eqb_spec (begin + size) outH); [destruct HC; [discriminate|contradiction]|]];
      cbn [r_padded_h]; lia. }
  rewrite P. unfold valid_out, eff.
  replace (size * sH - sH + fH - ((fH - 1) * d + 1) + sH) with (size * sH - (fH - 1) * (d - 1)) by ring. split.
  - intros E. assert (0 <= (fH - 1) * (d - 1)) by nia.
    assert ((fH - 1) * (d - 1) < 1) by (Z.to_euclidean_division_equations; nia). nia.
  - intros E. replace ((fH - 1) * (d - 1)) with 0 by (destruct E; subst; ring). rewrite Z.sub_0_r. apply Z.div_mul. lia.
Qed.

(** ** C27 *)
Theorem C27_pad_partial : forall P (z : P) inH inW top bottom left right pc begin size,
  1 <= inH -> 1 <= inW -> 0 <= top -> 0 <= bottom -> 0 <= left -> 0 <= right ->
  top = (top + bottom) / 2 -> left = (left + right) / 2 ->
  let outH := top + inH + bottom in
  0 <= begin -> 1 <= size -> begin + size <= outH ->
  let r := raise_pad inH inW outH (left + inW + right) pc begin size in
  let supported := (begin = 0 \/ top <= begin) /\ ((begin <> 0 /\ begin + size = outH) \/ begin + size <= top + inH) in
  ((0 <= rp_begin r /\ rp_begin r + rp_size r <= inH) <-> supported) /\
  rp_chan r = pc /\ rp_left r = left /\ rp_right r = right /\ rp_size r + rp_top r + rp_bottom r = size /\
  rp_out_h r = size /\ rp_out_w r = left + inW + right /\
  (supported -> forall (img : image P) y x, 0 <= y < size ->
    pad_image (rp_size r) inW z (rp_top r) (rp_left r) (slice_image (rp_begin r) 0 img) y x =
    pad_image inH inW z top left img (begin + y) x).
Proof. intros. apply raise_pad_ok; auto. Qed.
(** Exactly then: every band the rewrite can take from the input is the band of the
    original pad, for every image, iff both paddings are split that way. *)
Theorem C27_exactly_when : forall (z : Z) inH inW top bottom left right pc,
  1 <= inH -> 1 <= inW -> 0 <= top -> 0 <= bottom -> 0 <= left -> 0 <= right ->
  let outH := top + inH + bottom in let outW := left + inW + right in
  ((forall (img : image Z) begin size y x, 0 <= begin -> 1 <= size -> begin + size <= outH ->
      let r := raise_pad inH inW outH outW pc begin size in
      0 <= rp_begin r -> rp_begin r + rp_size r <= inH -> 0 <= y < size -> 0 <= x < outW ->
      pad_image (rp_size r) inW z (rp_top r) (rp_left r) (slice_image (rp_begin r) 0 img) y x =
      pad_image inH inW z top left img (begin + y) x) <->
   top = (top + bottom) / 2 /\ left = (left + right) / 2).
Proof.
  intros z inH inW top bottom left right pc HH HW Ht Hbo Hl Hr outH outW. split.
  - intros A. set (mt := (top + bottom) / 2). set (ml := (left + right) / 2).
    assert (M1 : 0 <= mt /\ 2 * mt <= top + bottom) by (unfold mt; Z.to_euclidean_division_equations; lia).
    assert (M2 : 0 <= ml /\ 2 * ml <= left + right) by (unfold ml; Z.to_euclidean_division_equations; lia).
    assert (Q1 : Z.quot (outH - inH) 2 = mt) by (unfold outH, mt; rewrite Z.quot_div_nonneg by lia; f_equal; lia).
    assert (Q2 : Z.quot (outW - inW) 2 = ml) by (unfold outW, ml; rewrite Z.quot_div_nonneg by lia; f_equal; lia).
    assert (B : forall y x, 0 <= y < mt + inH -> 0 <= x < outW -> in_image inH inW (y - mt) (x - ml) = in_image inH inW (y - top) (x - left)).
    { intros y x Hy Hx. specialize (A (fun _ _ => z + 1) 0 (mt + inH) y x ltac:(lia) ltac:(lia) ltac:(unfold outH; lia)).
      unfold raise_pad in A. rewrite Q1, Q2 in A. cbv zeta in A. change (0 =? 0) with true in A. cbn [rp_begin rp_size rp_top rp_left] in A.
      specialize (A ltac:(lia) ltac:(lia) Hy Hx). unfold pad_image, zpad, slice_image in A. replace (0 + y - top) with (y - top) in A by lia.
      replace (mt + inH - mt - 0) with inH in A by lia.
      destruct (in_image inH inW (y - mt) (x - ml)), (in_image inH inW (y - top) (x - left)); auto; lia. }
    assert (T : top = mt).
    { destruct (Z.lt_total top mt) as [L|[E|L]]; [|exact E|].
      - pose proof (B top left ltac:(lia) ltac:(unfold outW; lia)) as K. unfold in_image in K. lia.
      - pose proof (B mt ml ltac:(lia) ltac:(unfold outW; lia)) as K. unfold in_image in K. lia. }
    split; [exact T|]. destruct (Z.lt_total left ml) as [L|[E|L]]; [|exact E|].
    + pose proof (B top left ltac:(lia) ltac:(unfold outW; lia)) as K. unfold in_image in K. lia.
    + pose proof (B top ml ltac:(lia) ltac:(unfold outW; lia)) as K. unfold in_image in K. lia.
  - intros [ST SL] img begin size y x Hb Hs Hbs r R1 R2 Hy Hx.
    destruct (raise_pad_ok z inH inW top bottom left right pc begin size HH HW Ht Hbo Hl Hr ST SL Hb Hs Hbs) as (SUP & _ & _ & _ & _ & _ & _ & OK).
    apply OK; [apply SUP; split; assumption|exact Hy].
Qed.
Example C27_concrete : raise_pad 5 5 8 8 (0, 0) 4 4 = RaisedPad 3 2 0 2 1 2 (0, 0) 4 8.
Proof. reflexivity. Qed.
(** Padding (1, 0) above and below is turned into (0, 1): the first output row, all
    padding in the original, reads row 0 of the input. *)
Theorem C27_refuted_asymmetric : exists inH inW begin size (img : image Z),
  let r := raise_pad inH inW (1 + inH + 0) inW (0, 0) begin size in
  0 <= rp_begin r /\ rp_begin r + rp_size r <= inH /\
  pad_image (rp_size r) inW 0 (rp_top r) (rp_left r) (slice_image (rp_begin r) 0 img) 0 0 <>
  pad_image inH inW 0 1 0 img (begin + 0) 0.
Proof. exists 4, 4, 0, 2, (fun _ _ => 7). cbv. repeat split; discriminate. Qed.

(** ** C28 *)
Local Open Scope nat_scope.
Lemma same_dims_eq a : forall b, same_dims (zn a) (zn b) = true <-> a = b.
Proof.
  induction a as [|x a IH]; intros [|y b]; cbn [zn map same_dims]; split; try discriminate; auto.
  - rewrite andb_true_iff. intros [E1 E2]. unfold static_dim in E1. apply IH in E2. subst.
    destruct (Z.ltb_spec (Z.of_nat x) 0); [lia|]. destruct (Z.ltb_spec (Z.of_nat y) 0); [lia|]. f_equal. lia.
  - intros E. inv E. rewrite andb_true_iff. split; [apply Z.eqb_refl|apply IH; auto].
Qed.

(** A dynamic dimension of an operand counts as 1: with a dynamic batch it is sliced like a result of batch 1, and only then. *)
Theorem C28_dynamic_batch : forall (s : list nat) n, (raise_operand (-1 :: zn s)%Z (Z.of_nat n :: zn s) = Sliced <-> n = 1).
Proof.
  intros s n. unfold raise_operand. cbn [same_dims]. rewrite (proj2 (same_dims_eq s s) eq_refl), andb_true_r.
  unfold static_dim. change (-1 <? 0)%Z with true. replace (Z.of_nat n <? 0)%Z with false by lia.
  destruct (Z.eqb_spec 1 (Z.of_nat n)); split; intros H; try lia; try discriminate; auto.
Qed.
Lemma bc_dim n i : i < n -> (if n =? 1 then 0 else i) = i.
Proof. intros. destruct (Nat.eqb_spec n 1); lia. Qed.

Lemma operand_ok {A} (t : tensor A) s H W C b n idx :
  broadcastable s [1; H; W; C] -> b + n <= H ->
  s = [1; H; W; C] \/ height_dim s = 1 -> in_shape [1; n; W; C] idx ->
  let v := operand_value (raise_operand (zn s) (zn [1; H; W; C])) [0; b; 0; 0] [1; n; W; C] s t in
  broadcast_to (fst v) [1; n; W; C] (snd v) idx = slice_t [0; b; 0; 0] (broadcast_to s [1; H; W; C] t) idx.
Proof.
  intros [BL BF] Hbn HS HI. cbv zeta. unfold raise_operand.
  destruct (in_shape4 _ _ _ _ _ HI) as (i0 & i1 & i2 & i3 & -> & H0 & H1 & H2 & H3).
  destruct (same_dims (zn s) (zn [1; H; W; C])) eqn:E.
  - apply same_dims_eq in E. subst s. cbn [operand_value fst snd]. unfold broadcast_to, broadcast_t, slice_t.
    cbn [length Nat.sub skipn map2]. rewrite (bc_dim n i1) by lia. rewrite (bc_dim H (b + i1)) by lia.
    rewrite !(bc_dim W i2), !(bc_dim C i3) by lia. rewrite !Nat.add_0_l. rewrite (bc_dim W i2), (bc_dim C i3) by lia. reflexivity.
  - destruct HS as [HS|HS].
    { apply same_dims_eq in HS. congruence. }
    cbn [operand_value fst snd]. unfold broadcast_to, broadcast_t, slice_t.
    cbn [length] in BL. destruct s as [|d1 [|d2 [|d3 [|d4 [|d5 s]]]]]; cbn [length] in BL; try lia;
      cbn [length Nat.sub skipn map2 height_dim Nat.ltb Nat.leb nth] in *; rewrite ?Nat.add_0_l; auto.
    + cbn in HS. subst d1. reflexivity.
    + cbn in HS. subst d2. reflexivity.
Qed.

(** The operands of the sliced Add or Mul give the band of the original result, when
    each operand has the result's shape or height 1. *)
Theorem C28_binary_partial : forall A B C (f : A -> B -> C) (l : tensor A) (r : tensor B) sl sr H W Ch b n idx,
  broadcastable sl [1; H; W; Ch] -> broadcastable sr [1; H; W; Ch] -> b + n <= H ->
  sl = [1; H; W; Ch] \/ height_dim sl = 1 -> sr = [1; H; W; Ch] \/ height_dim sr = 1 ->
  in_shape [1; n; W; Ch] idx ->
  let use s := raise_operand (zn s) (zn [1; H; W; Ch]) in
  binary f [1; n; W; Ch] (operand_value (use sl) [0; b; 0; 0] [1; n; W; Ch] sl l)
                         (operand_value (use sr) [0; b; 0; 0] [1; n; W; Ch] sr r) idx =
  slice_t [0; b; 0; 0] (binary f [1; H; W; Ch] (sl, l) (sr, r)) idx.
Proof.
  intros A B C f l r sl sr H W Ch b n idx HL HR Hbn CL CR HI use. unfold use, binary.
  rewrite (operand_ok l sl H W Ch b n idx HL Hbn CL HI), (operand_ok r sr H W Ch b n idx HR Hbn CR HI). reflexivity.
Qed.
(** Exactly then, for every band but the first: the band of the result is computed, for
    every function and every value of the operands, iff each operand has the shape of the
    result or height 1. *)
Lemma operand_iff s H W C b n :
  broadcastable s [1; H; W; C] -> 1 <= b -> 1 <= n -> b + n <= H -> 1 <= W -> 1 <= C ->
  ((forall (t : tensor nat) idx, in_shape [1; n; W; C] idx ->
     let v := operand_value (raise_operand (zn s) (zn [1; H; W; C])) [0; b; 0; 0] [1; n; W; C] s t in
     broadcast_to (fst v) [1; n; W; C] (snd v) idx = slice_t [0; b; 0; 0] (broadcast_to s [1; H; W; C] t) idx) <->
   s = [1; H; W; C] \/ height_dim s = 1).
Proof.
  intros HB Hb Hn Hbn HW HC. split; [|intros HS t idx HI; apply operand_ok; auto].
  intros A. specialize (A (fun i => nth (length s - 3) i 0) [0; 0; 0; 0]). 
  specialize (A ltac:(repeat (apply Forall2_cons; [lia|]); apply Forall2_nil)). cbv zeta in A. unfold raise_operand in A.
  destruct (same_dims (zn s) (zn [1; H; W; C])) eqn:E; [left; apply same_dims_eq in E; exact E|right].
  cbn [operand_value fst snd] in A. unfold broadcast_to, broadcast_t, slice_t in A. destruct HB as [BL _].
  destruct s as [|d1 [|d2 [|d3 [|d4 [|d5 s]]]]]; cbn [length] in BL; try lia; try reflexivity;
    cbn [length Nat.sub skipn map2 height_dim Nat.ltb Nat.leb nth] in *; unfold height_dim; cbn [length Nat.ltb Nat.leb Nat.sub nth].
  - destruct (Nat.eqb_spec d1 1); [assumption|lia].
  - destruct (Nat.eqb_spec d2 1); [assumption|lia].
Qed.
Theorem C28_exactly_when : forall sl sr H W Ch b n,
  broadcastable sl [1; H; W; Ch] -> broadcastable sr [1; H; W; Ch] ->
  1 <= b -> 1 <= n -> b + n <= H -> 1 <= W -> 1 <= Ch ->
  let use s := raise_operand (zn s) (zn [1; H; W; Ch]) in
  ((forall (f : nat -> nat -> nat) (l r : tensor nat) idx, in_shape [1; n; W; Ch] idx ->
      binary f [1; n; W; Ch] (operand_value (use sl) [0; b; 0; 0] [1; n; W; Ch] sl l)
                             (operand_value (use sr) [0; b; 0; 0] [1; n; W; Ch] sr r) idx =
      slice_t [0; b; 0; 0] (binary f [1; H; W; Ch] (sl, l) (sr, r)) idx) <->
   (sl = [1; H; W; Ch] \/ height_dim sl = 1) /\ (sr = [1; H; W; Ch] \/ height_dim sr = 1)).
Proof.
  intros sl sr H W Ch b n HL HR Hb Hn Hbn HW HC use. split.
  - intros A. split; [apply (operand_iff sl H W Ch b n)|apply (operand_iff sr H W Ch b n)]; auto; intros t idx HI.
    + exact (A (fun x _ => x) t t idx HI).
    + exact (A (fun _ x => x) t t idx HI).
  - intros [CL CR] f l r idx HI. apply C28_binary_partial; auto.
Qed.
Example C28_concrete : broadcastable [1; 6; 4; 2] [1; 6; 4; 2] /\ broadcastable [4; 1] [1; 6; 4; 2] /\ height_dim [4; 1] = 1 /\ height_dim [1; 1; 4; 1] = 1.
Proof. repeat split; cbn; try lia; repeat (apply Forall2_cons; [lia|]); apply Forall2_nil. Qed.

(** An operand of shape [1; H; 1; 1] is not sliced: it keeps height 4, which cannot be
    broadcast to the 2 rows of the band, and its rows 0.. are used for the second band. *)
Theorem C28_refuted_column : let sr := [1; 4; 1; 1] in
  broadcastable sr [1; 4; 3; 2] /\ raise_operand (zn sr) (zn [1; 4; 3; 2]) = Unsliced /\
  ~ broadcastable sr [1; 2; 3; 2] /\
  exists idx (r : tensor nat), in_shape [1; 2; 3; 2] idx /\
    broadcast_to sr [1; 2; 3; 2] r idx <> slice_t [0; 2; 0; 0] (broadcast_to sr [1; 4; 3; 2] r) idx.
Proof.
  cbv zeta. split; [|split; [reflexivity|split]].
  - split; cbn; [lia|]. repeat (apply Forall2_cons; [lia|]); apply Forall2_nil.
  - intros [_ F]. cbn in F. inversion F as [|? ? ? ? _ F1]; subst. inversion F1 as [|? ? ? ? E _]; subst. lia.
  - exists [0; 1; 0; 0], (fun i => nth 1 i 0). split; [repeat (apply Forall2_cons; [lia|]); apply Forall2_nil|]. cbn. lia.
Qed.

(** ** C45 *)
Local Open Scope Q_scope.
Lemma sum_rows_app r b n m : sum_rows r b (n + m) == sum_rows r b n + sum_rows r (b + n) m.
Proof.
  unfold sum_rows. rewrite seq_app, map_app. generalize (map r (seq (b + n) m)); intros l2.
  induction (map r (seq b n)) as [|x l IH]; cbn [app fold_right]; [ring|]. rewrite IH. ring.
Qed.

Lemma sum_bands r n bands : forall pos stop, consecutive pos bands stop -> Forall (fun b => snd b = n) bands ->
  (stop = pos + length bands * n)%nat /\
  fold_right Qplus 0 (map (fun b => sum_rows r (fst b) n) bands) == sum_rows r pos (length bands * n).
Proof.
  induction bands as [|[b m] bands IH]; intros pos stop HC HF; cbn [consecutive length map fold_right fst] in *.
  - split; [lia|]. cbn. reflexivity.
  - destruct HC as [-> HC]. inversion HF as [|? ? E HF']; subst. cbn [snd] in *.
    destruct (IH _ _ HC HF') as [L S]. split; [nia|].
    rewrite S. replace (Datatypes.S (length bands) * m)%nat with (m + length bands * m)%nat by lia.
    rewrite sum_rows_app. ring.
Qed.

Lemma sum_scale (l : list (nat * nat)) (g : nat * nat -> Q) k : fold_right Qplus 0 (map (fun b => g b * k) l) == fold_right Qplus 0 (map g l) * k.
Proof. induction l as [|x l IH]; cbn [map fold_right]; [ring|]. rewrite IH. ring. Qed.

(** The mean of the means of equal, consecutive bands covering all rows is the mean of
    all rows (exact arithmetic). *)
Theorem C45_mean_of_means_partial : forall (r : nat -> Q) w H begins sizes bands,
  raise_mean (map Z.of_nat begins) (map Z.of_nat sizes) = Some (map (fun b => (Z.of_nat (fst b), Z.of_nat (snd b))) bands) ->
  length begins = length sizes ->
  consecutive 0 bands H -> (1 <= H)%nat -> ~ w == 0 ->
  mean_of (map (fun b => mean_rows r w (fst b) (snd b)) bands) == mean_rows r w 0 H.
Proof.
  intros r w H begins sizes bands E L HC HH HW.
  assert (X : exists n, Forall (fun b => snd b = n) bands).
  { unfold raise_mean in E. destruct (map Z.of_nat sizes) as [|s0 tl] eqn:ES; [discriminate|].
    destruct (forallb (fun s => (s =? s0)%Z) tl) eqn:FB; [|discriminate]. rewrite forallb_forall in FB. inversion E as [E'].
    exists (Z.to_nat s0). apply Forall_forall. intros b Hb.
    assert (I : In (Z.of_nat (fst b), Z.of_nat (snd b)) (combine (map Z.of_nat begins) (s0 :: tl))).
    { rewrite E'. apply (in_map (fun b => (Z.of_nat (fst b), Z.of_nat (snd b)))). exact Hb. }
    apply in_combine_r in I. destruct I as [->|I]; [lia|]. specialize (FB _ I). lia. }
  destruct X as [n F]. destruct (sum_bands r n bands 0 H HC F) as [EH ES].
  assert (LB : (1 <= length bands)%nat) by (destruct bands; cbn in *; lia).
  assert (Ln : (1 <= n)%nat) by nia.
  unfold mean_of. rewrite map_length.
  assert (M : forall b, In b bands -> mean_rows r w (fst b) (snd b) = sum_rows r (fst b) n * / (inject_Z (Z.of_nat n) * w)).
  { intros b Hb. rewrite Forall_forall in F. unfold mean_rows, Qdiv. rewrite (F b Hb). reflexivity. }
  rewrite (map_ext_in _ _ _ M). rewrite (sum_scale bands (fun b => sum_rows r (fst b) n)). rewrite ES. unfold mean_rows.
  rewrite EH. rewrite Nat.add_0_l. rewrite Nat2Z.inj_mul, inject_Z_mult.
  assert (N1 : ~ inject_Z (Z.of_nat n) == 0) by (intros Z0; change 0 with (inject_Z 0) in Z0; rewrite inject_Z_injective in Z0; lia).
  assert (N2 : ~ inject_Z (Z.of_nat (length bands)) == 0) by (intros Z0; change 0 with (inject_Z 0) in Z0; rewrite inject_Z_injective in Z0; lia).
  field. auto.
Qed.
(** Exactly then, for equal bands inside the tensor: the mean of the means is the mean of
    all rows, whatever the rows, iff every row is in the same number of bands. *)
Definition in_band (i : nat) (b : nat * nat) : bool := (fst b <=? i)%nat && (i <? fst b + snd b)%nat.
Definition cover (bands : list (nat * nat)) (i : nat) : nat := length (filter (in_band i) bands).
Lemma sumq_app (l l' : list Q) : fold_right Qplus 0 (l ++ l') == fold_right Qplus 0 l + fold_right Qplus 0 l'.
Proof. induction l as [|x l IH]; cbn [app fold_right]; [ring|]. rewrite IH. ring. Qed.
Lemma sumq_zero (f : nat -> Q) l : (forall i, In i l -> f i == 0) -> fold_right Qplus 0 (map f l) == 0.
Proof. induction l as [|x l IH]; intros H; cbn [map fold_right]; [reflexivity|]. rewrite (H x (or_introl eq_refl)), IH; [ring|]. intros; apply H; right; auto. Qed.
Lemma sumq_ext (f g : nat -> Q) l : (forall i, In i l -> f i == g i) -> fold_right Qplus 0 (map f l) == fold_right Qplus 0 (map g l).
Proof. induction l as [|x l IH]; intros H; cbn [map fold_right]; [reflexivity|]. rewrite (H x (or_introl eq_refl)), IH; [ring|]. intros; apply H; right; auto. Qed.
Lemma sumq_add (f g : nat -> Q) l : fold_right Qplus 0 (map (fun i => f i + g i) l) == fold_right Qplus 0 (map f l) + fold_right Qplus 0 (map g l).
Proof. induction l as [|x l IH]; cbn [map fold_right]; [ring|]. rewrite IH. ring. Qed.
Lemma sum_one_band (r : nat -> Q) b n H : (b + n <= H)%nat ->
  sum_rows r b n == fold_right Qplus 0 (map (fun i => if in_band i (b, n) then r i else 0) (seq 0 H)).
Proof.
  intros HB. replace H with (b + (n + (H - b - n)))%nat by lia. rewrite !seq_app, !map_app, !sumq_app. cbn [Nat.add].
  rewrite (sumq_zero _ (seq 0 b)), (sumq_zero _ (seq (b + n) _)); [unfold sum_rows; rewrite Qplus_0_l, Qplus_0_r|..].
  - apply sumq_ext. intros i Hi. apply in_seq in Hi. unfold in_band. cbn [fst snd].
    replace (b <=? i)%nat with true by (symmetry; apply Nat.leb_le; lia). replace (i <? b + n)%nat with true by (symmetry; apply Nat.ltb_lt; lia). reflexivity.
  - intros i Hi. apply in_seq in Hi. unfold in_band. cbn [fst snd]. replace (i <? b + n)%nat with false by (symmetry; apply Nat.ltb_ge; lia).
    rewrite andb_false_r. reflexivity.
  - intros i Hi. apply in_seq in Hi. unfold in_band. cbn [fst snd]. replace (b <=? i)%nat with false by (symmetry; apply Nat.leb_gt; lia). reflexivity.
Qed.
Lemma sum_cover (r : nat -> Q) n H bands : Forall (fun b => snd b = n /\ (fst b + snd b <= H)%nat) bands ->
  fold_right Qplus 0 (map (fun b => sum_rows r (fst b) n) bands) ==
  fold_right Qplus 0 (map (fun i => inject_Z (Z.of_nat (cover bands i)) * r i) (seq 0 H)).
Proof.
  induction bands as [|[b m] bands IH]; intros F.
  - cbn [map fold_right]. symmetry. apply sumq_zero. intros i _. cbn. ring.
  - inversion F as [|? ? [E1 E2] F']; subst. cbn [fst snd] in *. cbn [map fold_right fst]. rewrite (IH F'), (sum_one_band r b m H E2), <- sumq_add.
    apply sumq_ext. intros i _. unfold cover. cbn [filter]. destruct (in_band i (b, m)); cbn [length]; [|ring].
    rewrite Nat2Z.inj_succ, <- Z.add_1_r, inject_Z_plus. ring.
Qed.
Lemma inject_nonzero n : (1 <= n)%nat -> ~ inject_Z (Z.of_nat n) == 0.
Proof. intros Hn Z0. change 0 with (inject_Z 0) in Z0. rewrite inject_Z_injective in Z0. lia. Qed.
Theorem C45_exactly_when : forall w H begins sizes bands n,
  raise_mean (map Z.of_nat begins) (map Z.of_nat sizes) = Some (map (fun b => (Z.of_nat (fst b), Z.of_nat (snd b))) bands) ->
  Forall (fun b => snd b = n /\ (fst b + snd b <= H)%nat) bands -> (1 <= n)%nat -> (1 <= length bands)%nat -> ~ w == 0 ->
  ((forall r : nat -> Q, mean_of (map (fun b => mean_rows r w (fst b) (snd b)) bands) == mean_rows r w 0 H) <->
   exists m, forall i, (i < H)%nat -> cover bands i = m).
Proof.
  intros w H begins sizes bands n _ F Hn HK HW.
  assert (HH : (1 <= H)%nat) by (destruct bands as [|b bands]; [cbn in HK; lia|]; inversion F; subst; lia).
  assert (ME : forall r, mean_of (map (fun b => mean_rows r w (fst b) (snd b)) bands) ==
    fold_right Qplus 0 (map (fun i => inject_Z (Z.of_nat (cover bands i)) * r i) (seq 0 H)) / (inject_Z (Z.of_nat (length bands * n)) * w)).
  { intros r. unfold mean_of. rewrite map_length.
    assert (M : forall b, In b bands -> mean_rows r w (fst b) (snd b) = sum_rows r (fst b) n * / (inject_Z (Z.of_nat n) * w)).
    { intros b Hb. rewrite Forall_forall in F. unfold mean_rows, Qdiv. rewrite (proj1 (F b Hb)). reflexivity. }
    rewrite (map_ext_in _ _ _ M). rewrite (sum_scale bands (fun b => sum_rows r (fst b) n)). rewrite (sum_cover r n H bands F).
    rewrite Nat2Z.inj_mul, inject_Z_mult. pose proof (inject_nonzero n Hn). pose proof (inject_nonzero _ HK). field. auto. }
  split.
  - intros A. assert (C : forall i, (i < H)%nat -> (cover bands i * H = length bands * n)%nat).
    { intros i Hi. specialize (A (fun j => if Nat.eqb j i then 1 else 0)). rewrite ME in A. unfold mean_rows, sum_rows in A.
      assert (ONE : forall g : nat -> Q, fold_right Qplus 0 (map (fun j => g j * (if Nat.eqb j i then 1 else 0)) (seq 0 H)) == g i).
      { intros g. replace H with (i + (1 + (H - i - 1)))%nat by lia. rewrite !seq_app, !map_app, !sumq_app. cbn [Nat.add seq map fold_right].
        rewrite (sumq_zero _ (seq 0 i)), (sumq_zero _ (seq (i + 1) _)), Nat.eqb_refl; [ring|..];
          intros j Hj; apply in_seq in Hj; destruct (Nat.eqb_spec j i); try lia; ring. }
      rewrite (ONE (fun j => inject_Z (Z.of_nat (cover bands j)))) in A.
      pose proof (ONE (fun _ => 1)) as O1.
      rewrite (sumq_ext _ (fun j => if Nat.eqb j i then 1 else 0)) in O1 by (intros; ring). rewrite O1 in A.
      pose proof (inject_nonzero (length bands * n) ltac:(nia)) as N1. pose proof (inject_nonzero H HH) as N2.
      assert (A' : inject_Z (Z.of_nat (cover bands i)) * inject_Z (Z.of_nat H) == inject_Z (Z.of_nat (length bands * n))).
      { transitivity (inject_Z (Z.of_nat (cover bands i)) / (inject_Z (Z.of_nat (length bands * n)) * w) *
          (inject_Z (Z.of_nat (length bands * n)) * w * inject_Z (Z.of_nat H))); [field; auto|]. rewrite A. field. auto. }
      rewrite <- inject_Z_mult in A'. rewrite inject_Z_injective in A'. lia. }
    exists (cover bands 0). intros i Hi. pose proof (C i Hi). pose proof (C 0%nat ltac:(lia)). nia.
  - intros [m Hm] r. rewrite ME. unfold mean_rows, sum_rows.
    assert (S1 : forall g : nat -> Q, fold_right Qplus 0 (map (fun i => inject_Z (Z.of_nat (cover bands i)) * g i) (seq 0 H)) ==
      inject_Z (Z.of_nat m) * fold_right Qplus 0 (map g (seq 0 H))).
    { intros g. transitivity (fold_right Qplus 0 (map (fun i => inject_Z (Z.of_nat m) * g i) (seq 0 H))).
      - apply sumq_ext. intros i Hi. apply in_seq in Hi. rewrite Hm by lia. reflexivity.
      - generalize (seq 0 H). intros l. induction l as [|x l IHl]; cbn [map fold_right]; [ring|]. rewrite IHl. ring. }
    assert (KN : (length bands * n = m * H)%nat).
    { pose proof (sum_cover (fun _ => 1) n H bands F) as SC. rewrite S1 in SC.
      assert (ONES : forall a b, fold_right Qplus 0 (map (fun _ : nat => 1) (seq a b)) == inject_Z (Z.of_nat b)).
      { intros a b. revert a. induction b as [|b IHb]; intros a; cbn [seq map fold_right]; [reflexivity|]. rewrite IHb.
        rewrite Nat2Z.inj_succ, <- Z.add_1_r, inject_Z_plus. ring. }
      rewrite ONES in SC. unfold sum_rows in SC.
      assert (LB : fold_right Qplus 0 (map (fun b : nat * nat => fold_right Qplus 0 (map (fun _ : nat => 1) (seq (fst b) n))) bands) ==
        inject_Z (Z.of_nat (length bands)) * inject_Z (Z.of_nat n)).
      { clear - ONES. induction bands as [|b bands IHb]; cbn [map fold_right length]; [ring|]. rewrite IHb, ONES.
        rewrite Nat2Z.inj_succ, <- Z.add_1_r, inject_Z_plus. ring. }
      rewrite LB, <- !inject_Z_mult in SC. rewrite inject_Z_injective in SC. lia. }
    rewrite S1, KN, Nat2Z.inj_mul, inject_Z_mult.
    assert (M1 : (1 <= m)%nat) by nia. pose proof (inject_nonzero m M1). pose proof (inject_nonzero H HH). field. auto.
Qed.
Example C45_cover_concrete : (forall i, (i < 9)%nat -> cover [(0, 3); (3, 3); (6, 3)]%nat i = 1%nat) /\
  cover [(0, 2); (1, 2)]%nat 0 = 1%nat /\ cover [(0, 2); (1, 2)]%nat 1 = 2%nat.
Proof. split; [|split; reflexivity]. intros i Hi. do 9 (destruct i as [|i]; [reflexivity|]). lia. Qed.
Example C45_concrete : raise_mean [0; 3; 6]%Z [3; 3; 3]%Z = Some [(0, 3); (3, 3); (6, 3)]%Z /\ consecutive 0 [(0, 3); (3, 3); (6, 3)]%nat 9 /\
  raise_mean [0; 3; 6]%Z [3; 3; 4]%Z = None.
Proof. repeat split. Qed.
(** The pattern only compares sizes: equal overlapping bands (as a convolution between
    the mean and the split operator produces) give a different mean. *)
Theorem C45_refuted_overlapping : raise_mean [0; 1]%Z [2; 2]%Z = Some [(0, 2); (1, 2)]%Z /\
  let r := fun i => inject_Z (Z.of_nat i) * inject_Z (Z.of_nat i) in
  ~ mean_of [mean_rows r 1 0 2; mean_rows r 1 1 2] == mean_rows r 1 0 3.
Proof. split; [reflexivity|]. cbv. discriminate. Qed.

Print Assumptions C24_bands_partition.
Print Assumptions C25_combined_slice.
Print Assumptions C26_valid.
Print Assumptions C26_same_partial.
Print Assumptions C26_small_filters.
Print Assumptions C27_pad_partial.
Print Assumptions C28_binary_partial.
Print Assumptions C45_mean_of_means_partial.
Print Assumptions C45_exactly_when.
Print Assumptions C28_exactly_when.
Print Assumptions C27_exactly_when.
Print Assumptions C26_dilation_exactly_when.
