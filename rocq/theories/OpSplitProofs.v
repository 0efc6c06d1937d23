From Coq Require Import QArith.
From Verif Require Import Base NdSpec NdBase LowerSpec BroadcastProofs SlicePadProofs2 ConvSpec OpSplitModel OpSplitSpec.
Local Open Scope nat_scope.

(** ** bands *)
Definition zpair (p : nat * nat) : Z * Z := (Z.of_nat (fst p), Z.of_nat (snd p)).

Lemma split_loop_ok n : forall i h r pos, exists bands,
  split_loop n (Z.of_nat i) (Z.of_nat h) (Z.of_nat r) (Z.of_nat pos) = map zpair bands /\
  length bands = n /\ consecutive pos bands (pos + n * h + Nat.min n (r - i)) /\
  Forall (fun b => snd b = h \/ (i < r /\ snd b = S h)) bands.
Proof.
  induction n as [|n IH]; intros i h r pos.
  - exists []. cbn. repeat split; auto. lia.
  - cbn [split_loop]. set (h' := if i <? r then S h else h).
    replace (if (Z.of_nat i <? Z.of_nat r)%Z then (Z.of_nat h + 1)%Z else Z.of_nat h) with (Z.of_nat h')
      by (unfold h'; destruct (Nat.ltb_spec i r); destruct (Z.ltb_spec (Z.of_nat i) (Z.of_nat r)); lia).
    destruct (IH (S i) h r (pos + h')) as (bands & E & L & C & F).
    exists ((pos, h') :: bands). split; [|split; [|split]].
    + cbn [map zpair fst snd]. f_equal. rewrite <- E. f_equal; lia.
    + cbn; lia.
    + cbn [consecutive]. split; auto.
      replace (pos + S n * h + Nat.min (S n) (r - i)) with (pos + h' + n * h + Nat.min n (r - S i)); auto.
      unfold h'. destruct (Nat.ltb_spec i r); lia.
    + constructor.
      * unfold h'; cbn [snd]. destruct (Nat.ltb_spec i r); auto.
      * eapply Forall_impl; [|exact F]. cbn. intros b [H|H]; auto. right; lia.
Qed.

Lemma op_split_ok H n : 0 < n -> exists bands, op_split (Z.of_nat H) n = Some (map zpair bands) /\
  length bands = n /\ consecutive 0 bands H /\ Forall (fun b => H / n <= snd b <= S (H / n)) bands.
Proof.
  intros Hn. destruct (split_loop_ok n 0 (H / n) (H mod n) 0) as (bands & E & L & C & F).
  exists bands. split; [|split; [auto|split]].
  - unfold op_split. destruct n as [|n]; [lia|]. rewrite <- E. f_equal.
    rewrite Z.quot_div_nonneg, Z.rem_mod_nonneg by lia. rewrite Nat2Z.inj_div, Nat2Z.inj_mod. reflexivity.
  - pose proof (Nat.div_mod H n ltac:(lia)) as D. pose proof (Nat.mod_upper_bound H n ltac:(lia)).
    assert (X : 0 + n * (H / n) + Nat.min n (H mod n - 0) = H).
    { rewrite Nat.sub_0_r, Nat.min_r by lia. symmetry. exact D. }
    rewrite X in C. exact C.
  - eapply Forall_impl; [|exact F]. cbn. intros b; lia.
Qed.

Lemma consecutive_le bands : forall pos stop, consecutive pos bands stop -> pos <= stop /\
  Forall (fun b => pos <= fst b /\ fst b + snd b <= stop) bands.
Proof.
  induction bands as [|[b n] bands IH]; intros pos stop H; cbn [consecutive] in H.
  - split; [lia|constructor].
  - destruct H as [-> H]. destruct (IH _ _ H) as [L F]. split; [lia|]. constructor; [cbn; lia|].
    eapply Forall_impl; [|exact F]. cbn; lia.
Qed.

Lemma consecutive_sum bands : forall pos stop, consecutive pos bands stop -> pos + sum_n (map snd bands) = stop.
Proof.
  induction bands as [|[b n] bands IH]; intros pos stop H; cbn [consecutive map sum_n fold_right snd] in *; [lia|].
  destruct H as [-> H]. specialize (IH _ _ H). unfold sum_n in IH. lia.
Qed.

Lemma concat_bands {A} (z : A) (t : tensor A) bands : forall pos stop a i c d,
  consecutive pos bands stop -> pos + i < stop ->
  concat_t z 1 (map (fun b => (snd b, slice_t [0; fst b; 0; 0] t)) bands) [a; i; c; d] = t [a; pos + i; c; d].
Proof.
  induction bands as [|[b n] bands IH]; intros pos stop a i c d H L; cbn [consecutive] in H; [lia|].
  destruct H as [-> H]. cbn [map concat_t fst snd nth]. destruct (Nat.ltb_spec i n).
  - unfold slice_t. cbn [map2]. f_equal.
  - cbn [firstn skipn app]. rewrite (IH (pos + n) stop a (i - n) c d) by (auto; lia). f_equal. f_equal. f_equal. lia.
Qed.

(** ** combining slices *)
Lemma find_candidate_spec b n l c : find_candidate b n l = Some c ->
  In c l /\ (nth 1 (sl_begin c) 0 <= b /\ b + n <= nth 1 (sl_begin c) 0 + nth 1 (sl_size c) 0)%Z.
Proof.
  induction l as [|x l IH]; cbn [find_candidate]; [discriminate|].
  destruct ((b >=? nth 1 (sl_begin x) 0)%Z && (b + n <=? nth 1 (sl_begin x) 0 + nth 1 (sl_size x) 0)%Z) eqn:E; intros H.
  - inv H. split; [left; auto|lia].
  - destruct (IH H) as [I K]. split; [right; auto|auto].
Qed.

Lemma zn4 (a b c d : nat) : zn [a; b; c; d] = [Z.of_nat a; Z.of_nat b; Z.of_nat c; Z.of_nat d].
Proof. reflexivity. Qed.

Lemma slice_fits4 b n d0 d1 d2 d3 : slice_fits b n [d0; d1; d2; d3] -> exists b0 b1 b2 b3 n0 n1 n2 n3,
  b = [b0; b1; b2; b3] /\ n = [n0; n1; n2; n3] /\ b0 + n0 <= d0 /\ b1 + n1 <= d1 /\ b2 + n2 <= d2 /\ b3 + n3 <= d3.
Proof.
  intros F. inversion F as [|b0 n0 d' bs ns ds L0 F0]; subst.
  inversion F0 as [|b1 n1 d'' bs1 ns1 ds1 L1 F1]; subst.
  inversion F1 as [|b2 n2 d'' bs2 ns2 ds2 L2 F2]; subst.
  inversion F2 as [|b3 n3 d'' bs3 ns3 ds3 L3 F3]; subst.
  inversion F3; subst. do 8 eexists. repeat split; eauto.
Qed.
Lemma in_shape4 idx d0 d1 d2 d3 : in_shape [d0; d1; d2; d3] idx -> exists a b c d, idx = [a; b; c; d] /\ a < d0 /\ b < d1 /\ c < d2 /\ d < d3.
Proof.
  intros H. inversion H as [|a ? l0 ? L0 F0]; subst. inversion F0 as [|b ? l1 ? L1 F1]; subst.
  inversion F1 as [|c ? l2 ? L2 F2]; subst. inversion F2 as [|d ? l3 ? L3 F3]; subst. inversion F3; subst.
  exists a, b, c, d. auto.
Qed.

Ltac fits := repeat (apply fits_cons; [lia|]); apply fits_nil.
Lemma combine_ok {A} H W C s others r b n :
  combine_slice (zn [1; H; W; C]) s others = Some r ->
  slices s b n [1; H; W; C] ->
  (forall c, In c others -> exists bc nc, slices c bc nc [1; H; W; C]) ->
  match r with
  | UseExisting c => In c others /\ slices c b n [1; H; W; C]
  | SliceOfExisting c new => In c others /\ exists bc nc bn,
      slices c bc nc [1; H; W; C] /\ slices new bn n nc /\
      forall (t : tensor A) idx, in_shape n idx -> slice_of_slice bc bn t idx = slice_t b t idx
  end.
Proof.
  intros E (S1 & S2 & S3 & SF) HO. unfold combine_slice in E.
  destruct (forallb (height_only (zn [1; H; W; C])) (s :: others)) eqn:FB; [|discriminate].
  cbn [forallb] in FB. rewrite andb_true_iff in FB. destruct FB as [HS FB]. rewrite forallb_forall in FB.
  destruct (slice_fits4 _ _ _ _ _ _ SF) as (b0 & b1 & b2 & b3 & n0 & n1 & n2 & n3 & -> & -> & L0 & L1 & L2 & L3).
  unfold height_only in HS. rewrite S3 in HS. rewrite !zn4 in HS. cbn [nth] in HS.
  rewrite S1, S2, !zn4 in E. cbn [nth] in E.
  destruct (find_candidate (Z.of_nat b1) (Z.of_nat n1) others) as [c|] eqn:EC; [|discriminate].
  apply find_candidate_spec in EC. destruct EC as [IC EC].
  destruct (HO c IC) as (bc & nc & C1 & C2 & C3 & CF). specialize (FB c IC).
  destruct (slice_fits4 _ _ _ _ _ _ CF) as (c0 & c1 & c2 & c3 & m0 & m1 & m2 & m3 & -> & -> & K0 & K1 & K2 & K3).
  unfold height_only in FB. rewrite C3 in FB. rewrite !zn4 in FB. cbn [nth] in FB.
  rewrite C1, C2, !zn4 in EC. rewrite C1, C2, !zn4 in E. cbn [nth] in EC, E.
  destruct ((Z.of_nat b1 =? Z.of_nat c1)%Z && (Z.of_nat n1 =? Z.of_nat m1)%Z) eqn:EQ; inv E.
  - split; auto. unfold slices. rewrite C1, C2, C3.
    assert (b1 = c1 /\ n1 = m1 /\ m0 = n0 /\ m2 = n2 /\ m3 = n3) as (-> & -> & -> & -> & ->) by lia.
    assert (c0 = b0 /\ c2 = b2 /\ c3 = b3) as (-> & -> & ->) by lia.
    repeat (split; [reflexivity|]). fits.
  - split; auto.
    assert (c0 = 0 /\ b0 = 0 /\ b2 = 0 /\ b3 = 0 /\ c2 = 0 /\ c3 = 0) as (-> & -> & -> & -> & -> & ->) by lia.
    assert (m0 = 1 /\ n0 = 1) as (-> & ->) by lia.
    exists [0; c1; 0; 0], [1; m1; m2; m3], [0; b1 - c1; 0; 0].
    split; [|split].
    + unfold slices. rewrite C1, C2, C3. repeat (split; [reflexivity|]). fits.
    + unfold slices, create_slice. cbn [sl_begin sl_size sl_out tl]. rewrite !zn4.
      split; [rewrite Nat2Z.inj_sub by lia; reflexivity|]. repeat (split; [reflexivity|]). fits.
    + intros t idx HI. destruct (in_shape4 _ _ _ _ _ HI) as (i0 & i1 & i2 & i3 & -> & _).
      unfold slice_of_slice, slice_t. cbn [map2]. f_equal. f_equal. f_equal. lia.
Qed.

(** ** windows *)
Lemma window_ext {P} fh fw dh dw (i1 i2 : image P) y1 x1 y2 x2 :
  (forall ky kx, (0 <= ky < Z.of_nat fh)%Z -> (0 <= kx < Z.of_nat fw)%Z -> i1 (y1 + ky * dh) (x1 + kx * dw) = i2 (y2 + ky * dh) (x2 + kx * dw))%Z ->
  window fh fw dh dw i1 y1 x1 = window fh fw dh dw i2 y2 x2.
Proof.
  intros H. unfold window. apply map_ext_in. intros ky Hky. apply map_ext_in. intros kx Hkx.
  apply in_seq in Hky, Hkx. apply H; lia.
Qed.
Local Open Scope Z_scope.

Lemma same_bounds n f s : 1 <= n -> 1 <= f -> 1 <= s ->
  let o := same_out n s in
  1 <= o /\ (o - 1) * s < n /\ n <= o * s /\
  0 <= same_before n f 1 s /\ 0 <= same_after n f 1 s /\ same_before n f 1 s <= same_after n f 1 s /\
  same_needed n f 1 s <= f - 1 /\
  same_before n f 1 s + same_after n f 1 s = Z.max 0 ((o - 1) * s + f - n).
Proof.
  intros Hn Hf Hs o. unfold same_after, same_before, same_needed. fold o.
  assert (B : 1 <= o /\ (o - 1) * s < n /\ n <= o * s).
  { unfold o, same_out. pose proof (Z.div_mod (n + s - 1) s ltac:(lia)). pose proof (Z.mod_pos_bound (n + s - 1) s ltac:(lia)).
    set (q := (n + s - 1) / s) in *. split; [|split]; nia. }
  destruct B as (B1 & B2 & B3). unfold eff. replace ((f - 1) * 1 + 1) with f by lia.
  set (m := Z.max 0 ((o - 1) * s + f - n)). assert (0 <= m <= f - 1) by lia.
  repeat split; auto; Z.to_euclidean_division_equations; lia.
Qed.

Lemma windowed_same n f s : 1 <= n -> 1 <= f -> 1 <= s ->
  windowed true n f s = (same_out n s, same_before n f 1 s, same_after n f 1 s).
Proof.
  intros Hn Hf Hs. unfold windowed.
  assert (E : Z.quot (n + s - 1) s = same_out n s) by (unfold same_out; apply Z.quot_div_nonneg; lia). rewrite E.
  assert (F : Z.max 0 ((same_out n s - 1) * s + f - n) = same_needed n f 1 s).
  { unfold same_needed, eff. f_equal. lia. }
  rewrite F. unfold same_after, same_before. rewrite Z.quot_div_nonneg by (unfold same_needed; lia). reflexivity.
Qed.

Lemma quot_exact k s r : 1 <= s -> 0 <= k -> 0 <= r < s -> Z.quot (k * s + r) s = k.
Proof. intros. rewrite Z.quot_div_nonneg by nia. symmetry. apply Z.div_unique with r; lia. Qed.

Lemma out_w_same n f s : 1 <= n -> 1 <= f -> 1 <= s ->
  Z.quot (n + same_before n f 1 s + same_after n f 1 s + s - f) s = same_out n s.
Proof.
  intros Hn Hf Hs. destruct (same_bounds n f s Hn Hf Hs) as (B1 & B2 & B3 & B4 & B5 & B6 & B7 & B8).
  set (o := same_out n s) in *.
  replace (n + same_before n f 1 s + same_after n f 1 s + s - f)
    with (o * s + (n + (same_before n f 1 s + same_after n f 1 s) - ((o - 1) * s + f))) by lia.
  rewrite B8. apply quot_exact; auto; try lia.
Qed.

Section Conv.
Context {P Q : Type}.
Variable G : list (list P) -> Q.
Variable z : P.

Lemma raise_valid fh fw inH inW sH sW begin size :
  (1 <= fh)%nat -> (1 <= fw)%nat -> Z.of_nat fh <= inH -> Z.of_nat fw <= inW -> 1 <= sH -> 1 <= sW ->
  0 <= begin -> 1 <= size -> begin + size <= valid_out inH (Z.of_nat fh) 1 sH ->
  let r := raise_conv false inH inW (Z.of_nat fh) (Z.of_nat fw) sH sW (valid_out inH (Z.of_nat fh) 1 sH) begin size in
  0 <= r_begin r /\ 1 <= r_size r /\ r_begin r + r_size r <= inH /\
  r_pad r = None /\ r_padded_h r = r_size r /\ r_padded_w r = inW /\
  r_out_h r = size /\ r_out_w r = valid_out inW (Z.of_nat fw) 1 sW /\
  forall img y x, 0 <= y < size -> 0 <= x < valid_out inW (Z.of_nat fw) 1 sW ->
    raised_conv G z fh fw sH sW inW r img y x = original_conv G z false fh fw sH sW inH inW img (begin + y) x.
Proof.
  intros Hfh Hfw HH HW HsH HsW Hb Hn Hout r.
  set (f := Z.of_nat fh) in *. set (g := Z.of_nat fw) in *. set (o := valid_out inH f 1 sH) in *.
  assert (B : (o - 1) * sH + f <= inH < o * sH + f /\ Z.rem (inH - f + sH) sH = inH - f + sH - o * sH).
  { unfold o, valid_out, eff. replace ((f - 1) * 1 + 1) with f by lia.
    rewrite Z.rem_mod_nonneg by lia.
    pose proof (Z.div_mod (inH - f + sH) sH ltac:(lia)). pose proof (Z.mod_pos_bound (inH - f + sH) sH ltac:(lia)).
    set (q := (inH - f + sH) / sH) in *. nia. }
  assert (BW : exists lw, 0 <= lw < sW /\ inW = (valid_out inW g 1 sW - 1) * sW + g + lw).
  { unfold valid_out, eff. replace ((g - 1) * 1 + 1) with g by lia.
    pose proof (Z.div_mod (inW - g + sW) sW ltac:(lia)). pose proof (Z.mod_pos_bound (inW - g + sW) sW ltac:(lia)).
    exists ((inW - g + sW) mod sW). nia. }
  destruct BW as (lw & HLw & EW). set (ow := valid_out inW g 1 sW) in *.
  destruct B as [B1 B2].
  assert (R : exists lost, 0 <= lost < sH /\ r = Raised (begin * sH) (size * sH - sH + f + lost) None (size * sH - sH + f + lost) inW
     (Z.quot (size * sH - sH + f + lost + sH - f) sH) (Z.quot (inW + sW - g) sW) /\ begin * sH + (size * sH - sH + f + lost) <= inH).
  { unfold r, raise_conv. cbn [windowed]. destruct (Z.eqb_spec (begin + size) o) as [E|N].
    - exists (inH - f + sH - o * sH). rewrite B2. rewrite !Z.sub_0_r, !Z.add_0_r. split; [lia|]. split; [|nia].
      f_equal; nia.
    - exists 0. rewrite !Z.sub_0_r, !Z.add_0_r. split; [lia|]. split; [|nia]. f_equal; nia. }
  destruct R as (lost & HL & -> & HE). cbn [r_begin r_size r_pad r_padded_h r_padded_w r_out_h r_out_w].
  assert (OH : Z.quot (size * sH - sH + f + lost + sH - f) sH = size).
  { replace (size * sH - sH + f + lost + sH - f) with (size * sH + lost) by lia. apply quot_exact; lia. }
  assert (OW : Z.quot (inW + sW - g) sW = ow).
  { rewrite EW. replace ((ow - 1) * sW + g + lw + sW - g) with (ow * sW + lw) by lia. apply quot_exact; lia. }
  clearbody o ow. clear B2.
  assert (NN : 0 <= begin * sH) by (apply Z.mul_nonneg_nonneg; lia).
  assert (NM : 1 * sH <= size * sH) by (apply Z.mul_le_mono_nonneg_r; lia).
  split; [exact NN|]. split; [clear - NM HL Hfh; lia|]. split; [exact HE|].
  split; [reflexivity|]. split; [reflexivity|]. split; [reflexivity|]. split; [exact OH|]. split; [exact OW|].
  intros img y x Hy Hx. unfold raised_conv, original_conv, conv_at. cbn [r_begin r_size r_pad r_padded_h r_padded_w].
  f_equal. apply window_ext. intros ky kx Hky Hkx. fold f in Hky. fold g in Hkx. unfold zpad.
  assert (0 <= y * sH) by (apply Z.mul_nonneg_nonneg; lia). assert (y * sH <= (size - 1) * sH) by (apply Z.mul_le_mono_nonneg_r; lia).
  assert (0 <= x * sW) by (apply Z.mul_nonneg_nonneg; lia). assert (x * sW <= (ow - 1) * sW) by (apply Z.mul_le_mono_nonneg_r; lia).
  replace (in_image (size * sH - sH + f + lost) inW (y * sH - 0 + ky * 1) (x * sW - 0 + kx * 1)) with true by (unfold in_image; lia).
  replace (in_image inH inW ((begin + y) * sH - 0 + ky * 1) (x * sW - 0 + kx * 1)) with true by (unfold in_image; lia).
  unfold slice_image. f_equal; lia.
Qed.

Lemma raise_same_shape fh inH inW g sH sW begin size :
  (1 <= fh)%nat -> 1 <= g -> 1 <= inH -> 1 <= inW -> 1 <= sH -> 1 <= sW ->
  0 <= begin -> 1 <= size -> begin + size <= same_out inH sH ->
  let f := Z.of_nat fh in
  let o := same_out inH sH in
  let pt := if begin =? 0 then same_before inH f 1 sH else 0 in
  let pb := if begin =? 0 then 0 else if begin + size =? o then same_after inH f 1 sH else 0 in
  let r := raise_conv true inH inW f g sH sW o begin size in
  let newH := size * sH - sH + f - pt - pb in
  r_begin r = begin * sH - same_before inH f 1 sH + pt /\ r_size r = newH /\
  r_pad r = Some (pt, pb, same_before inW g 1 sW, same_after inW g 1 sW) /\
  r_padded_h r = newH + pt + pb /\ r_padded_w r = inW + same_before inW g 1 sW + same_after inW g 1 sW /\
  r_out_h r = size /\ r_out_w r = same_out inW sW.
Proof.
  intros Hfh Hg HH HW HsH HsW Hb Hn Hout f o pt pb r newH.
  unfold r, raise_conv. rewrite !windowed_same by (unfold f; lia).
  assert (Q1 : Z.quot (newH + pt + pb + sH - f) sH = size).
  { unfold newH. replace (size * sH - sH + f - pt - pb + pt + pb + sH - f) with (size * sH + 0) by lia. apply quot_exact; lia. }
  pose proof (out_w_same inW g sW HW Hg HsW) as Q2. fold o.
  unfold newH, pt, pb in *. destruct (Z.eqb_spec begin 0) as [->|N].
  - cbn [r_begin r_size r_pad r_padded_h r_padded_w r_out_h r_out_w]. rewrite !Z.add_0_r in *. repeat split; auto; try lia.
  - destruct (Z.eqb_spec (begin + size) o) as [E|N2];
    cbn [r_begin r_size r_pad r_padded_h r_padded_w r_out_h r_out_w]; rewrite !Z.add_0_r in *; repeat split; auto; try lia.
Qed.

(** the new slice is inside the input exactly for the supported bands *)
Lemma raise_same_fits fh inH inW g sH sW begin size :
  (1 <= fh)%nat -> 1 <= g -> 1 <= inH -> 1 <= inW -> 1 <= sH -> 1 <= sW ->
  0 <= begin -> 1 <= size -> begin + size <= same_out inH sH ->
  let f := Z.of_nat fh in
  let r := raise_conv true inH inW f g sH sW (same_out inH sH) begin size in
  (0 <= r_begin r /\ 1 <= r_size r /\ r_begin r + r_size r <= inH) <-> band_supported true inH f sH (same_out inH sH) begin size.
Proof.
  intros Hfh Hg HH HW HsH HsW Hb Hn Hout f r.
  destruct (raise_same_shape fh inH inW g sH sW begin size Hfh Hg HH HW HsH HsW Hb Hn Hout) as (R1 & R2 & _). fold f in R1, R2. fold r in R1, R2.
  rewrite R1, R2. clear R1 R2.
  destruct (same_bounds inH f sH HH ltac:(unfold f; lia) HsH) as (B1 & B2 & B3 & B4 & B5 & B6 & B7 & B8).
  set (o := same_out inH sH) in *. set (pb := same_before inH f 1 sH) in *. set (pa := same_after inH f 1 sH) in *.
  assert (NE : same_needed inH f 1 sH = pb + pa) by (unfold pa, same_after, pb; lia). rewrite NE in B7.
  unfold band_supported. fold pb.
  assert (LE : (begin + size - 1) * sH <= (o - 1) * sH) by (apply Z.mul_le_mono_nonneg_r; lia).
  replace ((begin + size - 1) * sH) with (begin * sH + (size * sH - sH)) in * by lia.
  assert (S0 : 0 <= size * sH - sH) by nia.
  destruct (Z.eqb_spec begin 0) as [->|N].
  - replace (0 * sH) with 0 in * by lia. split.
    + intros K _. split; [left; auto|]. right. lia.
    + intros K. destruct (K eq_refl) as [_ [[K1 _]|K1]]; [contradiction|]. lia.
  - assert (begin * sH >= sH) by nia. destruct (Z.eqb_spec (begin + size) o) as [E|N2].
    + assert (EQ : begin * sH + (size * sH - sH) = (o - 1) * sH) by (rewrite <- E; lia).
      split.
      * intros K _. split; [right; lia|]. left. auto.
      * intros K. destruct (K eq_refl) as [[K1|K1] _]; [contradiction|].
        assert (M : pb + pa <= 0 \/ pb + pa = (o - 1) * sH + f - inH) by lia.
        split; [lia|]. split; [|lia]. 
        assert (begin * sH <= (o - 1) * sH) by (apply Z.mul_le_mono_nonneg_r; lia). lia.
    + split.
      * intros K _. split; [right; lia|]. right. lia.
      * intros K. destruct (K eq_refl) as [[K1|K1] [[_ K2]|K2]]; try contradiction.
        split; [lia|]. split; [unfold f; lia|lia].
Qed.

Lemma raise_same_value fh fw inH inW sH sW begin size :
  (1 <= fh)%nat -> (1 <= fw)%nat -> 1 <= inH -> 1 <= inW -> 1 <= sH -> 1 <= sW ->
  0 <= begin -> 1 <= size -> begin + size <= same_out inH sH ->
  let f := Z.of_nat fh in
  let r := raise_conv true inH inW f (Z.of_nat fw) sH sW (same_out inH sH) begin size in
  band_supported true inH f sH (same_out inH sH) begin size ->
  forall img y x, 0 <= y < size -> 0 <= x < same_out inW sW ->
    raised_conv G z fh fw sH sW inW r img y x = original_conv G z true fh fw sH sW inH inW img (begin + y) x.
Proof.
  intros Hfh Hfw HH HW HsH HsW Hb Hn Hout f r BS img y x Hy Hx.
  pose proof (proj2 (raise_same_fits fh inH inW (Z.of_nat fw) sH sW begin size Hfh ltac:(lia) HH HW HsH HsW Hb Hn Hout) BS) as FITS.
  destruct (raise_same_shape fh inH inW (Z.of_nat fw) sH sW begin size Hfh ltac:(lia) HH HW HsH HsW Hb Hn Hout) as (R1 & R2 & R3 & R4 & R5 & _).
  fold f in R1, R2, R3, R4, R5, FITS. fold r in R1, R2, R3, R4, R5, FITS.
  unfold raised_conv, original_conv. rewrite R3, R4, R5. unfold conv_at. f_equal. apply window_ext. intros ky kx Hky Hkx.
  destruct (same_bounds inH f sH HH ltac:(unfold f; lia) HsH) as (B1 & B2 & B3 & B4 & B5 & B6 & B7 & B8).
  destruct (same_bounds inW (Z.of_nat fw) sW HW ltac:(lia) HsW) as (D1 & D2 & D3 & D4 & D5 & D6 & D7 & D8).
  fold f. fold f in Hky.
  set (o := same_out inH sH) in *. set (ow := same_out inW sW) in *. set (pb := same_before inH f 1 sH) in *. set (pa := same_after inH f 1 sH) in *.
  set (pl := same_before inW (Z.of_nat fw) 1 sW) in *. set (pr := same_after inW (Z.of_nat fw) 1 sW) in *.
  set (pt := if begin =? 0 then pb else 0) in *. set (pe := if begin =? 0 then 0 else if begin + size =? o then pa else 0) in *.
  assert (Y1 : 0 <= y * sH) by nia. assert (Y2 : y * sH <= size * sH - sH) by nia.
  assert (X1 : 0 <= x * sW) by nia. assert (X2 : x * sW <= (ow - 1) * sW) by nia.
  unfold zpad at 1. rewrite !Z.sub_0_r, !Z.mul_1_r.
  replace (in_image (size * sH - sH + f - pt - pe + pt + pe) (inW + pl + pr) (y * sH + ky) (x * sW + kx)) with true
    by (unfold in_image; lia).
  unfold pad_image. unfold zpad.
  assert (EX : x * sW + kx - pl = x * sW - pl + kx) by lia. rewrite EX.
  rewrite R1, R2 in FITS.
  (* inside tests agree *)
  rewrite R2.
  assert (T : in_image (size * sH - sH + f - pt - pe) inW (y * sH + ky - pt) (x * sW - pl + kx) =
              in_image inH inW ((begin + y) * sH - pb + ky) (x * sW - pl + kx)).
  { assert (U : ((0 <=? y * sH + ky - pt) && (y * sH + ky - pt <? size * sH - sH + f - pt - pe)) =
                ((0 <=? (begin + y) * sH - pb + ky) && ((begin + y) * sH - pb + ky <? inH))).
    2:{ unfold in_image. rewrite U. reflexivity. }
    assert (E1 : (begin + y) * sH - pb + ky = begin * sH - pb + pt + (y * sH + ky - pt)) by lia. rewrite E1.
    unfold pt, pe in *. destruct (Z.eqb_spec begin 0) as [->|N].
    - replace (0 * sH) with 0 in * by lia. lia.
    - destruct (Z.eqb_spec (begin + size) o) as [E|N2].
      + assert (EQ : begin * sH + (size * sH - sH) = (o - 1) * sH) by (rewrite <- E; lia). lia.
      + lia. }
  rewrite T. destruct (in_image inH inW ((begin + y) * sH - pb + ky) (x * sW - pl + kx)); auto.
  unfold slice_image. rewrite R1. f_equal; lia.
Qed.
End Conv.

(** ** pad *)
Lemma raise_pad_ok {P} (z : P) inH inW top bottom left right pc begin size :
  1 <= inH -> 1 <= inW -> 0 <= top -> 0 <= bottom -> 0 <= left -> 0 <= right ->
  top = (top + bottom) / 2 -> left = (left + right) / 2 ->
  let outH := top + inH + bottom in
  0 <= begin -> 1 <= size -> begin + size <= outH ->
  let r := raise_pad inH inW outH (left + inW + right) pc begin size in
  let supported := (begin = 0 \/ top <= begin) /\ ((begin <> 0 /\ begin + size = outH) \/ begin + size <= top + inH) in
  ((0 <= rp_begin r /\ rp_begin r + rp_size r <= inH) <-> supported) /\
  rp_chan r = pc /\ rp_left r = left /\ rp_right r = right /\ rp_size r + rp_top r + rp_bottom r = size /\
  rp_out_h r = size /\ rp_out_w r = left + inW + right /\
  (supported -> forall (img : image P) y x, 0 <= y < size ->
    pad_image (rp_size r) inW z (rp_top r) (rp_left r) (slice_image (rp_begin r) 0 img) y x =
    pad_image inH inW z top left img (begin + y) x).
Proof.
  intros HH HW Ht Hbo Hl Hr ST SL outH Hb Hn Hs r supported.
  assert (Q1 : Z.quot (outH - inH) 2 = top) by (unfold outH; rewrite Z.quot_div_nonneg by lia; rewrite ST at 2; f_equal; lia).
  assert (Q2 : Z.quot (left + inW + right - inW) 2 = left) by (rewrite Z.quot_div_nonneg by lia; rewrite SL at 2; f_equal; lia).
  assert (R : r = let pt := if begin =? 0 then top else 0 in
                  let pb := if begin =? 0 then 0 else if begin + size =? outH then bottom else 0 in
                  RaisedPad (begin - top + pt) (size - pt - pb) pt pb left right pc size (left + inW + right)).
  { unfold r, raise_pad. rewrite Q1, Q2. cbv zeta. 
    destruct (begin =? 0) eqn:E1; [|destruct (begin + size =? outH) eqn:E2]; cbn [rp_begin]; f_equal; unfold outH; lia. }
  rewrite R. cbv zeta. cbn [rp_begin rp_size rp_chan rp_left rp_right rp_top rp_bottom rp_out_h rp_out_w].
  set (pt := if begin =? 0 then top else 0). set (pb := if begin =? 0 then 0 else if begin + size =? outH then bottom else 0).
  split; [|repeat (split; [lia|])].
  - unfold supported, pt, pb, outH in *. destruct (Z.eqb_spec begin 0) as [E|N].
    + split; [intros K; split; [auto|right; lia]|intros [K1 [[K2 _]|K2]]; [contradiction|lia]].
    + destruct (Z.eqb_spec (begin + size) (top + inH + bottom)); [split; [intros K; split; [right; lia|left; auto]|lia]|].
      split; [intros K; split; right; lia|]. intros [[K1|K1] [[_ K2]|K2]]; try contradiction. lia.
  - split; [auto|]. split; [auto|]. split; [auto|]. split; [lia|]. split; [lia|]. split; [lia|]. 
    intros S img y x Hy. unfold pad_image, zpad, slice_image.
    assert (T : in_image (size - pt - pb) inW (y - pt) (x - left) = in_image inH inW (begin + y - top) (x - left)).
    { unfold in_image. unfold supported, pt, pb, outH in *.
      destruct (Z.eqb_spec begin 0); [|destruct (Z.eqb_spec (begin + size) (top + inH + bottom))]; destruct S as [S1 S2]; lia. }
    rewrite T. destruct (in_image inH inW (begin + y - top) (x - left)); auto. f_equal; lia.
Qed.
