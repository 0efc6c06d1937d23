From Verif Require Import Base NdSpec NdBase SlicePadModel CopyKernels SlicePadProofs.

(** * Slice *)
Definition rep_slice (a : axis) (g : gax) : Prop :=
  exists b, a_begin a = Z.of_nat b /\ a_in a = Z.of_nat (gd g) /\ a_out a = Z.of_nat (go g) /\
    b + go g <= gd g /\ forall i, i < go g -> gf g i = Some (b + i).

Lemma rep_slice_dims a g : rep_slice a g -> a_in a = Z.of_nat (gd g) /\ a_out a = Z.of_nat (go g).
Proof. intros (b & H1 & H2 & H3 & _). auto. Qed.

Lemma rep_slice_id a g : rep_slice a g -> a_in a = a_out a -> forall i, i < go g -> gf g i = Some i.
Proof. intros (b & H1 & H2 & H3 & H4 & H5) E i Hi. rewrite H5 by auto. f_equal. lia. Qed.

Lemma gmerge_lt (k o m : nat) : k < o * m -> k / m < o /\ 0 < m.
Proof. intros H. assert (0 < m) by (destruct m; lia). split; auto. apply Nat.div_lt_upper_bound; lia. Qed.

Lemma rep_slice_fold a g a' g' : rep_slice a g -> rep_slice a' g' -> a_in a' = a_out a' ->
  rep_slice (fold_axis a a') (gmerge g g').
Proof.
  intros (b & H1 & H2 & H3 & H4 & H5) (b' & G1 & G2 & G3 & G4 & G5) E.
  exists (b * gd g'). cbn [fold_axis a_begin a_in a_out gmerge gd go gf].
  rewrite H1, H2, H3, G2. repeat split; try lia; try nia.
  intros k Hk. destruct (gmerge_lt _ _ _ Hk) as [Hq Hm]. rewrite H5 by auto. cbn [option_map]. f_equal.
  pose proof (Nat.div_mod k (gd g') ltac:(lia)). nia.
Qed.

Fixpoint slice_gax (ins outs begin : list nat) : list gax :=
  match ins, outs, begin with
  | d :: ins', o :: outs', b :: begin' => Gax d o (fun i => Some (b + i)) :: slice_gax ins' outs' begin'
  | _, _, _ => []
  end.

Lemma slice_gax_rep begin outs ins : slice_fits begin outs ins -> forall sizes : list Z, length sizes = length ins ->
  Forall2 rep_slice (zip_axes (map Z.of_nat begin) sizes (map Z.of_nat ins) (map Z.of_nat outs)) (slice_gax ins outs begin).
Proof.
  induction 1 as [|b o d begin outs ins H F IH]; intros sizes Hl; destruct sizes as [|s sizes]; try discriminate; cbn [map zip_axes slice_gax]; constructor.
  - exists b. cbn. auto.
  - apply IH. cbn in Hl. lia.
Qed.

Lemma slice_gax_ins begin outs ins : slice_fits begin outs ins -> gins (slice_gax ins outs begin) = ins /\ gouts (slice_gax ins outs begin) = outs.
Proof. induction 1 as [|b o d begin outs ins H F [I1 I2]]; cbn; auto. unfold gins, gouts in *. rewrite I1, I2. auto. Qed.

Lemma slice_gax_lookup begin outs ins : slice_fits begin outs ins -> forall idx, length idx = length ins ->
  glookup (slice_gax ins outs begin) idx = Some (map2 Nat.add begin idx).
Proof.
  induction 1 as [|b o d begin outs ins H F IH]; intros idx Hl; destruct idx as [|i idx]; try discriminate; cbn [slice_gax glookup map2 gf]; auto.
  rewrite IH by (cbn in Hl; lia). auto.
Qed.

Lemma in_shape_length s idx : in_shape s idx -> length idx = length s.
Proof. induction 1; cbn; auto. Qed.

Lemma slice_fits_length begin outs ins : slice_fits begin outs ins -> length begin = length ins /\ length outs = length ins.
Proof. induction 1; cbn; lia. Qed.

Lemma gather_slice {A} begin outs ins (z : A) t : slice_fits begin outs ins ->
  flatten outs (gather (slice_gax ins outs begin) z t) = flatten outs (slice_t begin t).
Proof.
  intros H. apply flatten_ext_in. intros idx Hx. unfold gather, slice_t.
  destruct (slice_fits_length _ _ _ H). rewrite (slice_gax_lookup _ _ _ H) by (rewrite (in_shape_length _ _ Hx); lia). auto.
Qed.

(** from reps back to shapes *)
Lemma rep_slice_back axes gs : Forall2 rep_slice axes gs ->
  exists begin, map a_begin axes = map Z.of_nat begin /\ map a_in axes = map Z.of_nat (gins gs) /\
    map a_out axes = map Z.of_nat (gouts gs) /\ slice_fits begin (gouts gs) (gins gs) /\
    forall A (z : A) t, flatten (gouts gs) (gather gs z t) = flatten (gouts gs) (slice_t begin t).
Proof.
  induction 1 as [|a g axes gs Ha HF IH].
  - exists []. repeat split; auto. constructor.
  - destruct IH as (begin & I1 & I2 & I3 & I4 & I5). destruct Ha as (b & H1 & H2 & H3 & H4 & H5).
    exists (b :: begin). cbn [map gins gouts]. unfold gins, gouts in *. rewrite H1, H2, H3, I1, I2, I3.
    repeat split; auto. { constructor; auto. }
    intros A z t. cbn [flatten]. apply flat_map_ext_in. intros i Hi. apply in_seq in Hi.
    unfold gather. cbn [glookup]. rewrite H5 by lia. unfold slice_t. cbn [map2].
    etransitivity; [|apply (I5 A z (fun r => t (b + i :: r)))]. apply flatten_ext. intros idx. unfold gather.
    destruct (glookup gs idx); auto.
Qed.

Lemma merge_slice {A} begin outs ins sizes : slice_fits begin outs ins -> length sizes = length ins -> ins <> [] ->
  exists axes' begin' outs' ins',
    merge_axes (zip_axes (map Z.of_nat begin) sizes (map Z.of_nat ins) (map Z.of_nat outs)) = Some axes' /\
    map a_begin axes' = map Z.of_nat begin' /\ map a_in axes' = map Z.of_nat ins' /\
    map a_out axes' = map Z.of_nat outs' /\ slice_fits begin' outs' ins' /\
    nelem outs = nelem outs' /\
    exists F : tensor A -> tensor A, forall t,
      flatten ins t = flatten ins' (F t) /\ flatten outs (slice_t begin t) = flatten outs' (slice_t begin' (F t)) /\
      (forall P : A -> Prop, (forall idx, P (t idx)) -> forall idx, P (F t idx)).
Proof.
  intros Hf Hl Hne.
  pose proof (slice_gax_rep _ _ _ Hf sizes Hl) as R.
  assert (Hne' : zip_axes (map Z.of_nat begin) sizes (map Z.of_nat ins) (map Z.of_nat outs) <> []).
  { destruct (slice_fits_length _ _ _ Hf). destruct ins, begin, outs, sizes; try discriminate; congruence. }
  destruct (merge_axes_ok (A := A) rep_slice rep_slice_dims rep_slice_id rep_slice_fold _ _ Hne' R)
    as (axes' & gs' & E & R' & (Q1 & F & Q2)).
  destruct (rep_slice_back _ _ R') as (begin' & B1 & B2 & B3 & B4 & B5).
  destruct (slice_gax_ins _ _ _ Hf) as [D1 D2]. rewrite D2 in Q1.
  exists axes', begin', (gouts gs'), (gins gs'). repeat split; auto.
  exists F. intros t. destruct (Q2 (t []) t) as (U1 & U2 & U3). rewrite D1 in U1. rewrite D2 in U2.
  split; auto. split; auto. rewrite <- (gather_slice begin outs ins (t []) t Hf), U2. apply B5.
Qed.

Lemma nelem_one s : nelem s = 1 -> s = repeat 1 (length s).
Proof.
  induction s as [|d s IH]; cbn [nelem fold_right length repeat]; auto. fold (nelem s). intros H.
  apply Nat.eq_mul_1 in H. destruct H. subst. f_equal. auto.
Qed.

Lemma same_dims_refl l : same_dims l l = true.
Proof. induction l; cbn [same_dims]; auto. rewrite Z.eqb_refl. auto. Qed.

Lemma same_dims_eq l : forall m, same_dims l m = true -> l = m.
Proof.
  induction l as [|a l IH]; intros [|b m] H; cbn in H; try discriminate; auto.
  apply andb_prop in H. destruct H. f_equal; [lia|auto].
Qed.

Lemma map_of_nat_inj l : forall m, map Z.of_nat l = map Z.of_nat m -> l = m.
Proof. induction l as [|a l IH]; intros [|b m] H; try discriminate; auto. injection H as H1 H2. f_equal; [lia|auto]. Qed.

(** ** strided copies *)
Section Copy.
Context {B : Type}.
Implicit Types src : list B.

Lemma read_ok src s n : s + n <= length src -> read src (Z.of_nat s) (Z.of_nat n) = Some (sub src s n).
Proof.
  intros H. unfold read, sub. 
  replace ((0 <=? Z.of_nat s)%Z && (0 <=? Z.of_nat n)%Z && (Z.of_nat s + Z.of_nat n <=? Z.of_nat (length src))%Z) with true by lia.
  rewrite !Nat2Z.id. auto.
Qed.

Lemma copy_strided_ok src n : forall s off sz, (forall i, i < n -> s + i * off + sz <= length src) ->
  copy_strided src (Z.of_nat s) (Z.of_nat off) (Z.of_nat sz) n =
  Some (flat_map (fun i => sub src (s + i * off) sz) (seq 0 n)).
Proof.
  induction n as [|n IH]; intros s off sz H; cbn [copy_strided]; auto.
  rewrite read_ok by (specialize (H 0); lia). rewrite <- Nat2Z.inj_add, IH.
  - cbn [seq flat_map]. replace (s + 0 * off) with s by lia. do 2 f_equal.
    rewrite <- seq_shift, flat_map_map. apply flat_map_ext. intros i. f_equal. lia.
  - intros i Hi. specialize (H (S i)). lia.
Qed.

Lemma concat_flat_map {X} (f : X -> list (list B)) l : concat (flat_map f l) = flat_map (fun x => concat (f x)) l.
Proof. induction l as [|x l IH]; cbn [flat_map]; auto. rewrite concat_app, IH. auto. Qed.

Lemma bytes_2 d0 d1 (t : tensor (list B)) :
  bytes_of [d0; d1] t = flat_map (fun i => flat_map (fun j => t [i; j]) (seq 0 d1)) (seq 0 d0).
Proof.
  unfold bytes_of. cbn [flatten]. rewrite concat_flat_map. apply flat_map_ext. intros i.
  rewrite concat_flat_map. apply flat_map_ext. intros j. cbn. apply app_nil_r.
Qed.

Lemma bytes_1 d0 (t : tensor (list B)) : bytes_of [d0] t = flat_map (fun i => t [i]) (seq 0 d0).
Proof.
  unfold bytes_of. cbn [flatten]. rewrite concat_flat_map. apply flat_map_ext. intros j. cbn. apply app_nil_r.
Qed.

Lemma bytes_length k s (t : tensor (list B)) : elem_bytes k t -> length (bytes_of s t) = nelem s * k.
Proof.
  intros H. unfold bytes_of. rewrite <- (flatten_length s t).
  assert (E : forall l : list (list B), (forall x, In x l -> length x = k) -> length (concat l) = length l * k).
  { induction l as [|x l IH]; cbn; auto. intros Hx. rewrite app_length, IH, Hx by auto. auto. }
  apply E. clear E. revert t H. induction s as [|d s IH]; intros t H x; cbn [flatten].
  - intros [<-|[]]. auto.
  - intros Hx. apply in_flat_map in Hx. destruct Hx as (i & _ & Hx). eapply IH; [|exact Hx]. intros idx. apply H.
Qed.

Lemma row_length k d (t : tensor (list B)) i : elem_bytes k t -> length (flat_map (fun j => t [i; j]) (seq 0 d)) = d * k.
Proof. intros H. rewrite (blocks_length _ k) by (intros; apply H). rewrite seq_length. auto. Qed.

Lemma slice_1 k d o b (t : tensor (list B)) : elem_bytes k t -> b + o <= d ->
  sub (bytes_of [d] t) (b * k) (o * k) = bytes_of [o] (slice_t [b] t).
Proof.
  intros Hk H. rewrite !bytes_1. rewrite (sub_blocks _ k d b o) by (auto; intros; apply Hk).
  unfold slice_t. cbn [map2]. replace (seq b o) with (seq (b + 0) o) by (f_equal; lia).
  rewrite seq_shift_map, flat_map_map. auto.
Qed.

Lemma slice_2 k d0 d1 o0 o1 b0 b1 (t : tensor (list B)) : elem_bytes k t -> b0 + o0 <= d0 -> b1 + o1 <= d1 ->
  flat_map (fun i => sub (bytes_of [d0; d1] t) ((b0 * (d1 * k) + b1 * k) + i * (d1 * k)) (o1 * k)) (seq 0 o0)
  = bytes_of [o0; o1] (slice_t [b0; b1] t).
Proof.
  intros Hk H0 H1. rewrite !bytes_2. apply flat_map_ext_in. intros i Hi. apply in_seq in Hi.
  replace (b0 * (d1 * k) + b1 * k + i * (d1 * k)) with ((b0 + i) * (d1 * k) + b1 * k) by lia.
  rewrite <- (sub_sub _ _ (d1 * k)) by nia.
  pose proof (sub_blocks (fun i => flat_map (fun j => t [i; j]) (seq 0 d1)) (d1 * k) d0 (b0 + i) 1
    (fun i => row_length k d1 t i Hk) ltac:(lia)) as R. rewrite Nat.mul_1_l in R. rewrite R.
  cbn [seq flat_map]. rewrite app_nil_r.
  rewrite (sub_blocks _ k d1 b1 o1) by (auto; intros; apply Hk).
  unfold slice_t. cbn [map2]. replace (seq b1 o1) with (seq (b1 + 0) o1) by (f_equal; lia).
  rewrite seq_shift_map, flat_map_map. auto.
Qed.

Lemma replace_slice_ok is_const k begin outs ins sizes (t : tensor (list B)) :
  slice_fits begin outs ins -> length sizes = length ins -> elem_bytes k t ->
  match replace_slice is_const (Z.of_nat k) (map Z.of_nat ins) (map Z.of_nat outs) (map Z.of_nat begin) sizes with
  | Forward => bytes_of ins t = bytes_of outs (slice_t begin t)
  | Lowered op => run_slice op (bytes_of ins t) = Some (bytes_of outs (slice_t begin t)) /\
       (Forall (fun d => 0 < d) outs -> 0 < k -> 
        (0 <= s_start op < Z.of_nat (nelem ins * k) /\ 0 < s_offset op <= Z.of_nat (nelem ins * k) /\
         0 < s_size op <= Z.of_nat (nelem ins * k) /\ 0 < s_copies op <= Z.of_nat (nelem ins * k))%Z)
  | NotApplied => True
  | Undefined => False
  end.
Proof.
  intros Hf Hl Hk. unfold replace_slice. destruct (slice_fits_length _ _ _ Hf) as [L1 L2].
  destruct (same_dims _ _) eqn:Es.
  { apply same_dims_eq, map_of_nat_inj in Es. subst.
    assert (Z0 : forall begin outs, slice_fits begin outs outs -> begin = repeat 0 (length outs)).
    { clear. intros begin outs H. remember outs as ins eqn:E in H at 2. revert E.
      induction H as [|b o d begin outs ins H F IH]; intros E; auto. injection E as -> ->. cbn [length repeat]. f_equal; [lia|auto]. }
    rewrite (Z0 _ _ Hf). unfold bytes_of. f_equal. apply flatten_ext_in. intros idx Hx. unfold slice_t.
    f_equal. assert (length idx = length outs) by (apply (in_shape_length _ _ Hx)).
    clear - H. revert idx H. induction outs as [|o outs IH]; intros [|i idx] H; try discriminate; cbn [length repeat map2]; auto.
    rewrite Nat.add_0_l. f_equal. auto. }
  destruct is_const; auto.
  assert (Hne : ins <> []).
  { intros ->. destruct outs; [|discriminate]. discriminate. }
  destruct (merge_slice (A := list B) begin outs ins sizes Hf Hl Hne)
    as (axes' & begin' & outs' & ins' & E & B1 & B2 & B3 & B4 & B5 & F & HF). rewrite E.
  destruct (HF t) as (Q1 & Q2 & Q3). specialize (Q3 (fun x => length x = k) Hk).
  assert (Qi : nelem ins = nelem ins') by (rewrite <- (flatten_length ins t), Q1; apply flatten_length).
  assert (P1 : bytes_of ins t = bytes_of ins' (F t)) by (unfold bytes_of; rewrite Q1; auto).
  assert (P2 : bytes_of outs (slice_t begin t) = bytes_of outs' (slice_t begin' (F t))) by (unfold bytes_of; rewrite Q2; auto).
  assert (Hpos : Forall (fun d => 0 < d) outs -> 0 < nelem outs').
  { intros H. rewrite <- B5. clear - H. induction H; cbn [nelem fold_right]; [lia|fold (nelem l); nia]. }
  clear HF. destruct axes' as [|a0 [|a1 [|a2 axes']]].
  - (* empty: everything was one *)
    destruct ins'; [|discriminate]. destruct outs'; [|discriminate]. cbn in B5, Qi.
    assert (X : map Z.of_nat ins = map Z.of_nat outs).
    { rewrite (nelem_one ins Qi), (nelem_one outs B5), L2. auto. }
    rewrite X, same_dims_refl in Es. discriminate.
  - destruct begin' as [|b0 [|]], outs' as [|o0 [|]], ins' as [|d0 [|]]; try discriminate.
    injection B1 as B1. injection B2 as B2. injection B3 as B3.
    inversion B4 as [|? ? ? ? ? ? Hb0 _]; subst. rewrite B1, B2, B3. split.
    + unfold run_slice. cbn [s_start s_offset s_size s_copies].
      change (1 <? 0)%Z with false. cbn iota. change (Z.to_nat 1) with 1%nat.
      rewrite <- !Nat2Z.inj_mul, copy_strided_ok.
      * cbn [seq flat_map]. rewrite app_nil_r. replace (b0 * k + 0 * (d0 * k)) with (b0 * k) by lia.
        rewrite P1, P2, slice_1; auto.
      * intros i Hi. rewrite P1, (bytes_length k) by auto. cbn. nia.
    + intros Hp Hk0. specialize (Hpos Hp). cbn in Hpos, Qi. rewrite Qi. cbn [s_start s_offset s_size s_copies].
      assert (0 < o0) by lia. nia.
  - destruct begin' as [|b0 [|b1 [|]]], outs' as [|o0 [|o1 [|]]], ins' as [|d0 [|d1 [|]]]; try discriminate.
    injection B1 as B1 B1'. injection B2 as B2 B2'. injection B3 as B3 B3'.
    inversion B4 as [|? ? ? ? ? ? Hb0 F0]; subst. inversion F0 as [|? ? ? ? ? ? Hb1 _]; subst.
    rewrite B1, B2', B3, B3', B1'. split.
    + unfold run_slice. cbn [s_start s_offset s_size s_copies].
      replace (Z.of_nat o0 <? 0)%Z with false by lia. rewrite Nat2Z.id.
      rewrite <- !Nat2Z.inj_mul, <- Nat2Z.inj_add, copy_strided_ok.
      * rewrite P1, P2. rewrite slice_2; auto.
      * intros i Hi. rewrite P1, (bytes_length k) by auto. cbn.
        assert (b1 * k + o1 * k <= d1 * k) by nia.
        assert ((b0 + i + 1) * (d1 * k) <= d0 * (d1 * k)) by (apply Nat.mul_le_mono_r; lia). nia.
    + intros Hp Hk0. specialize (Hpos Hp). cbn in Hpos, Qi. rewrite Qi. cbn [s_start s_offset s_size s_copies].
      assert (0 < o0 /\ 0 < o1) by nia.
      assert (b1 * k + o1 * k <= d1 * k) by nia.
      assert ((b0 + 1) * (d1 * k) <= d0 * (d1 * k)) by (apply Nat.mul_le_mono_r; lia).
      assert (0 < d1 * k) by nia. assert (0 < o1 * k) by nia.
      repeat split; try nia.
  - exact I.
Qed.
End Copy.
