(** C38, C49, C52-C54: shape-level patterns. *)
From Verif Require Import Base NdSpec NdBase LowerSpec LutModel LutSpec LutProofs LutProps PatternModel.

Definition befores (attr : list Z) : list nat := map (fun d => Z.to_nat (pv attr d 0)) [0; 1; 2; 3].
Definition afters (attr : list Z) : list nat := map (fun d => Z.to_nat (pv attr d 1)) [0; 1; 2; 3].
(** Shape of the padded tensor. *)
Definition padded (attr : list Z) (s : shape) : shape := map2 Nat.add (map2 Nat.add (befores attr) s) (afters attr).

Lemma len8 (l : list Z) : length l = 8 -> exists a b c d e f g h, l = [a; b; c; d; e; f; g; h].
Proof. intros H. do 8 (destruct l as [|? l]; [discriminate|]). destruct l; [|discriminate]. repeat eexists. Qed.

(** ** C38 *)
(** The two pads can be exchanged: same final shape, the declared type of the new
    intermediate tensor is the one it has, and every element is the same. *)
Theorem C38_swap_pads : forall A (z : A) inner outer inner' outer' n h w c,
  swap_pads inner outer = Some (inner', outer') ->
  Forall (fun v => 0 <= v)%Z inner -> Forall (fun v => 0 <= v)%Z outer ->
  let ins := [n; h; w; c] in
  let mid := padded inner ins in let out := padded outer mid in
  let mid' := padded inner' ins in
  mid' = pad_channel_output_type ins out /\ padded outer' mid' = out /\
  forall t idx, in_shape out idx ->
    pad_t (befores outer') mid' z (pad_t (befores inner') ins z t) idx =
    pad_t (befores outer) mid z (pad_t (befores inner) ins z t) idx.
Proof.
  intros A z inner outer inner' outer' n h w c HS HI HO ins mid out mid'.
  unfold swap_pads, has_only_spatial_padding, has_only_channel_padding in HS.
  destruct (Nat.eqb_spec (length inner) 8) as [LI|]; [|discriminate]. destruct (Nat.eqb_spec (length outer) 8) as [LO|]; [|cbn [negb] in HS; rewrite andb_false_r in HS; discriminate].
  cbn [negb] in HS.
  destruct (len8 _ LI) as (i0 & i1 & i2 & i3 & i4 & i5 & i6 & i7 & ->). destruct (len8 _ LO) as (o0 & o1 & o2 & o3 & o4 & o5 & o6 & o7 & ->).
  unfold pv in HS. cbn [Nat.mul Nat.add nth] in HS.
  match type of HS with (if ?b then _ else _) = _ => destruct b eqn:B end; [|discriminate]. injection HS as <- <-.
  assert (i0 = 0 /\ i1 = 0 /\ i6 = 0 /\ i7 = 0 /\ o0 = 0 /\ o1 = 0 /\ o2 = 0 /\ o3 = 0 /\ o4 = 0 /\ o5 = 0)%Z
    as (-> & -> & -> & -> & -> & -> & -> & -> & -> & ->) by lia.
  subst mid mid' out. unfold padded, befores, afters, pv, pad_channel_output_type, ins.
  cbn [map Nat.mul Nat.add nth map2]. change (Z.to_nat 0) with 0.
  set (a := Z.to_nat i2). set (b := Z.to_nat i3). set (d := Z.to_nat i4). set (e := Z.to_nat i5).
  set (p := Z.to_nat o6). set (q := Z.to_nat o7). clearbody a b d e p q.
  split; [repeat (f_equal; try lia)|]. split; [repeat (f_equal; try lia)|].
  intros t idx Hidx. unfold in_shape in Hidx.
  inversion Hidx as [|i ? idx1 ? Hi H1]; subst. inversion H1 as [|j ? idx2 ? Hj H2]; subst.
  inversion H2 as [|k ? idx3 ? Hk H3]; subst. inversion H3 as [|l ? idx4 ? Hl H4]; subst. inversion H4; subst.
  unfold pad_t, inside. cbn [map2]. rewrite !Nat.sub_0_r.
  repeat match goal with |- context [?x <? ?y] => replace (x <? y) with true by (symmetry; apply Nat.ltb_lt; lia) end.
  cbn [Nat.leb andb]. rewrite ?andb_true_r. rewrite ?Nat.add_0_l, ?Nat.add_0_r, ?andb_true_r. clear Hidx H1 H2 H3 H4 B HI HO LI LO.
  destruct (Nat.leb_spec a j), (Nat.ltb_spec j (a + h)), (Nat.leb_spec d k), (Nat.ltb_spec k (d + w)), (Nat.leb_spec p l), (Nat.ltb_spec l (p + c)); cbn [andb]; try reflexivity;
  repeat match goal with |- context [?x <? ?y] => (replace (x <? y) with true by (symmetry; apply Nat.ltb_lt; lia)) || (replace (x <? y) with false by (symmetry; apply Nat.ltb_ge; lia)) end; reflexivity.
Qed.

(** Exactly the pairs of pads of four dimensions of which the inner one leaves batch and
    channels alone and the outer one pads channels only are swapped. *)
Theorem C38_exactly_when : forall n0 n1 h0 h1 w0 w1 c0 c1 m0 m1 i0 i1 j0 j1 d0 d1,
  let inner := [n0; n1; h0; h1; w0; w1; c0; c1] in
  let outer := [m0; m1; i0; i1; j0; j1; d0; d1] in
  (swap_pads inner outer = Some (outer, inner) <->
   (n0 = 0 /\ n1 = 0 /\ c0 = 0 /\ c1 = 0 /\ m0 = 0 /\ m1 = 0 /\ i0 = 0 /\ i1 = 0 /\ j0 = 0 /\ j1 = 0)%Z) /\
  (swap_pads inner outer = None \/ swap_pads inner outer = Some (outer, inner)).
Proof.
  intros. split; [|unfold swap_pads; destruct (_ && _); auto].
  unfold swap_pads, has_only_spatial_padding, has_only_channel_padding, pv, inner, outer. cbn [length Nat.eqb negb nth Nat.mul Nat.add].
  destruct (_ && _) eqn:E.
  - split; auto. intros _. rewrite !andb_true_iff, !Z.eqb_eq in E. tauto.
  - split; [discriminate|]. intros H. rewrite <- not_true_iff_false in E. destruct E. rewrite !andb_true_iff, !Z.eqb_eq. tauto.
Qed.

(** The exchanged pads match again only when there is no padding at all: the pattern
    cannot be applied for ever to real pads. *)
Theorem C38_swap_terminates : forall inner outer inner' outer', swap_pads inner outer = Some (inner', outer') ->
  swap_pads inner' outer' <> None -> Forall (fun v => v = 0)%Z inner /\ Forall (fun v => v = 0)%Z outer.
Proof.
  intros inner outer inner' outer' HS HT. unfold swap_pads in HS.
  destruct (has_only_spatial_padding inner && has_only_channel_padding outer) eqn:B; [|discriminate]. injection HS as <- <-.
  unfold swap_pads in HT. destruct (has_only_spatial_padding outer && has_only_channel_padding inner) eqn:B2; [|congruence].
  unfold has_only_spatial_padding, has_only_channel_padding in B, B2.
  destruct (Nat.eqb_spec (length inner) 8) as [LI|]; [|discriminate]. destruct (Nat.eqb_spec (length outer) 8) as [LO|]; [|discriminate].
  cbn [negb] in B, B2.
  destruct (len8 _ LI) as (i0 & i1 & i2 & i3 & i4 & i5 & i6 & i7 & ->). destruct (len8 _ LO) as (o0 & o1 & o2 & o3 & o4 & o5 & o6 & o7 & ->).
  unfold pv in B, B2. cbn [Nat.mul Nat.add nth] in B, B2.
  split; repeat (constructor; [lia|]); constructor.
Qed.

Example C38_concrete : swap_pads [0; 0; 1; 2; 3; 1; 0; 0]%Z [0; 0; 0; 0; 0; 0; 0; 1]%Z = Some ([0; 0; 0; 0; 0; 0; 0; 1], [0; 0; 1; 2; 3; 1; 0; 0])%Z /\
  padded [0; 0; 1; 2; 3; 1; 0; 0]%Z [1; 5; 5; 3] = [1; 8; 9; 3].
Proof. split; reflexivity. Qed.

(** ** C49 *)
Lemma pad34_app word n m l1 l2 : length l1 = 3 * n -> pad_3_to_4 word (n + m) (l1 ++ l2) = pad_3_to_4 word n l1 ++ pad_3_to_4 word m l2.
Proof.
  revert l1. induction n as [|n IH]; intros l1 H.
  - destruct l1; [reflexivity|discriminate].
  - do 3 (destruct l1 as [|? l1]; [cbn in H; lia|]). cbn [Nat.add pad_3_to_4 app firstn skipn]. rewrite IH by (cbn in H; lia). reflexivity.
Qed.
Lemma flatten_len {A} s (t : tensor A) : length (flatten s t) = nelem s.
Proof.
  revert t. induction s as [|d s IH]; intros t; cbn [flatten nelem fold_right]; [reflexivity|].
  assert (G : forall k, length (flat_map (fun i => flatten s (fun idx => t (i :: idx))) (seq k d)) = d * fold_right Nat.mul 1 s).
  { induction d as [|d IHd]; intros k; cbn [seq flat_map]; [reflexivity|]. rewrite app_length, IH, IHd. reflexivity. }
  apply G.
Qed.
Lemma flatten_ext' {A} s (t1 t2 : tensor A) : (forall idx, in_shape s idx -> t1 idx = t2 idx) -> flatten s t1 = flatten s t2.
Proof.
  revert t1 t2. induction s as [|d s IH]; intros t1 t2 H; cbn [flatten].
  - rewrite (H []); [reflexivity|constructor].
  - assert (G : forall l, (forall i, In i l -> i < d) -> flat_map (fun i => flatten s (fun idx => t1 (i :: idx))) l = flat_map (fun i => flatten s (fun idx => t2 (i :: idx))) l).
    { induction l as [|i l IHl]; intros HL; cbn [flat_map]; [reflexivity|]. rewrite IHl by (intros; apply HL; right; auto). f_equal.
      apply IH. intros idx Hidx. apply H. constructor; [apply HL; left; auto|exact Hidx]. }
    apply G. intros i Hi. apply in_seq in Hi. lia.
Qed.

Lemma nelem_snoc pre k : nelem (pre ++ [k]) = k * nelem pre.
Proof. unfold nelem. induction pre as [|d pre IH]; cbn [app fold_right]; [lia|]. rewrite IH. ring. Qed.
Lemma pad34_flatten word pre : forall (t T : tensor Z),
  (forall idx l, in_shape pre idx -> l < 3 -> T (idx ++ [l]) = t (idx ++ [l])) ->
  (forall idx, in_shape pre idx -> T (idx ++ [3]) = (word mod 256)%Z) ->
  pad_3_to_4 word (nelem pre) (flatten (pre ++ [3]) t) = flatten (pre ++ [4]) T.
Proof.
  induction pre as [|d pre IH]; intros t T H1 H2.
  - cbn [nelem fold_right app flatten seq flat_map pad_3_to_4 firstn skipn].
    pose proof (H2 [] ltac:(constructor)) as E3. pose proof (H1 [] 0 ltac:(constructor) ltac:(lia)) as E0.
    pose proof (H1 [] 1 ltac:(constructor) ltac:(lia)) as E1. pose proof (H1 [] 2 ltac:(constructor) ltac:(lia)) as E2.
    cbn [app] in E0, E1, E2, E3. rewrite E0, E1, E2, E3. reflexivity.
  - cbn [app flatten nelem fold_right]. fold (nelem pre).
    assert (G : forall n k, k + n <= d -> pad_3_to_4 word (n * nelem pre) (flat_map (fun i => flatten (pre ++ [3]) (fun idx => t (i :: idx))) (seq k n)) =
       flat_map (fun i => flatten (pre ++ [4]) (fun idx => T (i :: idx))) (seq k n)).
    { induction n as [|n IHn]; intros k Hk; cbn [seq flat_map Nat.mul]; [reflexivity|].
      rewrite pad34_app; [|rewrite flatten_len; apply nelem_snoc].
      rewrite IHn by lia. f_equal. apply IH.
      - intros idx l Hi Hl. apply (H1 (k :: idx) l); [constructor; [lia|auto]|auto].
      - intros idx Hi. apply (H2 (k :: idx)). constructor; [lia|auto]. }
    apply G. lia.
Qed.

(** Pad pattern: the generated operator computes the padded tensor when the padding is
    after the channels. *)
Theorem C49_pad3to4_partial : forall attr n h w c o zero word (t : tensor Z),
  pad_to_pad3to4 attr [n; h; w; c] o zero = Some word -> o = padded attr [n; h; w; c] ->
  Forall (fun v => 0 <= v)%Z attr -> pv attr 3 0 = 0%Z ->
  pad_3_to_4 word (n * h * w) (flatten [n; h; w; c] t) = flatten o (pad_t (befores attr) [n; h; w; c] (zero mod 256)%Z t).
Proof.
  intros attr n h w c o zero word t HP HO HN H0. unfold pad_to_pad3to4, has_only_channel_padding in HP.
  destruct (Nat.eqb_spec (length attr) 8) as [LI|]; [|discriminate]. destruct (len8 _ LI) as (i0 & i1 & i2 & i3 & i4 & i5 & i6 & i7 & ->).
  unfold pv in HP, H0. cbn [negb Nat.mul Nat.add nth] in HP, H0. subst i6.
  match type of HP with (if ?b then _ else _) = _ => destruct b eqn:B end; [|discriminate]. injection HP as <-.
  assert (i0 = 0 /\ i1 = 0 /\ i2 = 0 /\ i3 = 0 /\ i4 = 0 /\ i5 = 0)%Z as (-> & -> & -> & -> & -> & ->) by lia.
  assert (c = 3) as -> by (repeat (apply andb_true_iff in B; destruct B as [B ?]); apply Nat.eqb_eq; assumption).
  assert (ON : nth 3 o 0 = 4) by (apply andb_true_iff in B; destruct B as [_ B]; apply Nat.eqb_eq; assumption).
  subst o. unfold padded, befores, afters, pv in *. cbn [map Nat.mul Nat.add nth map2] in *. change (Z.to_nat 0) with 0 in *.
  cbn [Nat.add] in *. rewrite !Nat.add_0_r. rewrite ON.
  replace (n * h * w) with (nelem [n; h; w]) by (unfold nelem; cbn; lia).
  assert (W : (get_pad_value (Some zero) 8 mod 256 = zero mod 256)%Z).
  { destruct (C37_pad_value zero 8) as [(C & _) _]; [reflexivity|]. cbn [le_bytes] in C. injection C as C _. exact C. }
  apply (pad34_flatten _ [n; h; w]).
  - intros idx l Hi Hl. inversion Hi as [|i ? idx1 ? Hi0 H1]; subst. inversion H1 as [|j ? idx2 ? Hj H2]; subst.
    inversion H2 as [|k ? idx3 ? Hk H3]; subst. inversion H3; subst. cbn [app].
    unfold pad_t, inside. cbn [map2]. rewrite !Nat.sub_0_r.
    repeat match goal with |- context [?x <? ?y] => replace (x <? y) with true by (symmetry; apply Nat.ltb_lt; lia) end. reflexivity.
  - intros idx Hi. inversion Hi as [|i ? idx1 ? Hi0 H1]; subst. inversion H1 as [|j ? idx2 ? Hj H2]; subst.
    inversion H2 as [|k ? idx3 ? Hk H3]; subst. inversion H3; subst. cbn [app].
    unfold pad_t, inside. rewrite W. replace (3 <? 0 + 3) with false by reflexivity. rewrite !andb_false_r. reflexivity.
Qed.
Example C49_concrete : pad_to_pad3to4 [0; 0; 0; 0; 0; 0; 0; 1]%Z [1; 2; 2; 3] [1; 2; 2; 4] (-7)%Z = Some (-101058055)%Z /\
  pad_3_to_4 (-101058055) 2 [1; 2; 3; 4; 5; 6]%Z = [1; 2; 3; 249; 4; 5; 6; 249]%Z.
Proof. split; reflexivity. Qed.

(** Padding before the channels matches too and gives another tensor. *)
Theorem C49_refuted_padding_before :
  let attr := [0; 0; 0; 0; 0; 0; 1; 0]%Z in
  exists word, pad_to_pad3to4 attr [1; 1; 1; 3] (padded attr [1; 1; 1; 3]) 0 = Some word /\
    pad_3_to_4 word 1 (flatten [1; 1; 1; 3] (fun i => Z.of_nat (nth 3%nat i 0%nat) + 1)%Z) <>
    flatten (padded attr [1; 1; 1; 3]) (pad_t (befores attr) [1; 1; 1; 3] 0%Z (fun i => Z.of_nat (nth 3%nat i 0%nat) + 1)%Z).
Proof. eexists. split; [reflexivity|]. vm_compute. discriminate. Qed.

(** Exactly then: a pad the pattern accepts is computed for every tensor iff nothing is
    padded before the channels. *)
Theorem C49_exactly_when : forall attr n h w c o zero word,
  pad_to_pad3to4 attr [n; h; w; c] o zero = Some word -> o = padded attr [n; h; w; c] ->
  Forall (fun v => 0 <= v)%Z attr -> 1 <= n -> 1 <= h -> 1 <= w ->
  ((forall t : tensor Z, pad_3_to_4 word (n * h * w) (flatten [n; h; w; c] t) =
      flatten o (pad_t (befores attr) [n; h; w; c] (zero mod 256)%Z t)) <-> pv attr 3 0 = 0%Z).
Proof.
  intros attr n h w c o zero word HP HO HN Hn Hh Hw. split; [|intros H0 t; apply C49_pad3to4_partial; auto].
  intros HT. specialize (HT (fun _ => zero mod 256 + 1)%Z). unfold pad_to_pad3to4, has_only_channel_padding in HP.
  destruct (Nat.eqb_spec (length attr) 8) as [LI|]; [|discriminate]. destruct (len8 _ LI) as (i0 & i1 & i2 & i3 & i4 & i5 & i6 & i7 & ->).
  unfold pv in HP |- *. cbn [negb Nat.mul Nat.add nth] in HP |- *.
  match type of HP with (if ?b then _ else _) = _ => destruct b eqn:B end; [|discriminate].
  assert (i0 = 0 /\ i1 = 0 /\ i2 = 0 /\ i3 = 0 /\ i4 = 0 /\ i5 = 0)%Z as (-> & -> & -> & -> & -> & ->) by lia.
  assert (c = 3) as -> by (repeat (apply andb_true_iff in B; destruct B as [B ?]); apply Nat.eqb_eq; assumption).
  assert (ON : nth 3 o 0 = 4) by (apply andb_true_iff in B; destruct B as [_ B]; apply Nat.eqb_eq; assumption).
  assert (0 <= i6)%Z by (repeat match goal with F : Forall _ (_ :: _) |- _ => inversion F; clear F; subst end; assumption).
  destruct (Z.eq_dec i6 0) as [|NZ]; [assumption|exfalso].
  apply (f_equal (hd 0%Z)) in HT. subst o. unfold padded, befores, afters, pv in *. cbn [map Nat.mul Nat.add nth map2] in *.
  change (Z.to_nat 0) with 0 in *. cbn [Nat.add] in *. rewrite !Nat.add_0_r in HT. rewrite ON in HT.
  destruct n as [|n]; [lia|]. destruct h as [|h]; [lia|]. destruct w as [|w]; [lia|].
  cbn [flatten seq flat_map app Nat.mul Nat.add pad_3_to_4 firstn hd] in HT.
  unfold pad_t, inside in HT. destruct (Z.to_nat i6) as [|p6] eqn:E6; [lia|]. cbn [Nat.leb Nat.ltb andb] in HT.
  rewrite !andb_false_r in HT. lia.
Qed.

(** Concatenation pattern (rank 4): the axis must be the last one, and the result is the
    concatenation. *)
Theorem C49_concat_pad3to4 : forall second n h w c n2 h2 w2 c2 o axis word (t t2 : tensor Z),
  concat_to_pad3to4 2 (Some second) [n; h; w; c] o = Some word ->
  (* [o] is the shape of the concatenation of the two inputs *)
  axis < 4 ->
  (forall d, d < 4 -> d <> axis -> nth d [n2; h2; w2; c2] 0 = nth d [n; h; w; c] 0 /\ nth d o 0 = nth d [n; h; w; c] 0) ->
  nth axis o 0 = nth axis [n; h; w; c] 0 + nth axis [n2; h2; w2; c2] 0 -> length o = 4 ->
  second = flatten [n2; h2; w2; c2] t2 ->
  axis = 3 /\ pad_3_to_4 word (n * h * w) (flatten [n; h; w; c] t) =
    flatten o (concat_t 1%Z axis [(c, t); (c2, t2)]).
Proof.
  intros second n h w c n2 h2 w2 c2 o axis word t t2 HP HA HD HX HL HS. unfold concat_to_pad3to4 in HP.
  match type of HP with (if ?b then _ else _) = _ => destruct b eqn:B end; [|discriminate]. injection HP as <-.
  apply andb_true_iff in B; destruct B as [B B4]. apply andb_true_iff in B; destruct B as [B B3]. apply andb_true_iff in B; destruct B as [_ B2].
  apply Nat.eqb_eq in B4, B3. cbn [nth] in B3. subst c. rewrite forallb_forall in B2.
  assert (axis = 3) as ->. { destruct (Nat.eq_dec axis 3) as [|N]; [assumption|exfalso]. destruct (HD 3) as [_ D]; [lia|lia|]. cbn [nth] in D. lia. }
  split; [reflexivity|]. cbn [nth] in HX. 
  destruct o as [|o0 [|o1 [|o2 [|o3 [|]]]]]; try discriminate. cbn [nth] in B4, HX. subst o3.
  destruct (HD 0 ltac:(lia) ltac:(lia)) as [D1 D2], (HD 1 ltac:(lia) ltac:(lia)) as [D3 D4], (HD 2 ltac:(lia) ltac:(lia)) as [D5 D6]. cbn [nth] in *. subst.
  assert (c2 = 1) as -> by lia. clear HX.
  replace (n * h * w) with (nelem [n; h; w]) by (unfold nelem; cbn; lia).
  assert (ZT : forall idx, in_shape [n; h; w; 1] idx -> t2 idx = 0%Z).
  { intros idx Hi. 
    assert (I : forall s (T : tensor Z) ix, in_shape s ix -> In (T ix) (flatten s T)).
    { clear. induction s as [|d s IH]; intros T ix Hix; inversion Hix as [|i ? r ? Hi Hr]; subst; cbn [flatten]; [left; reflexivity|].
      apply in_flat_map. exists i. split; [apply in_seq; lia|]. apply (IH (fun idx => T (i :: idx)) r Hr). }
    specialize (B2 _ (I _ t2 idx Hi)). apply Z.eqb_eq in B2. auto. }
  apply (pad34_flatten _ [n; h; w]).
  - intros idx l Hi Hl. inversion Hi as [|i ? idx1 ? Hi0 H1]; subst. inversion H1 as [|j ? idx2 ? Hj H2]; subst.
    inversion H2 as [|k ? idx3 ? Hk H3]; subst. inversion H3; subst. cbn [app concat_t nth].
    destruct (Nat.ltb_spec l 3); [reflexivity|lia].
  - intros idx Hi. inversion Hi as [|i ? idx1 ? Hi0 H1]; subst. inversion H1 as [|j ? idx2 ? Hj H2]; subst.
    inversion H2 as [|k ? idx3 ? Hk H3]; subst. inversion H3; subst. cbn [app concat_t nth firstn skipn Nat.ltb Nat.leb Nat.sub].
    rewrite ZT; [reflexivity|]. repeat (constructor; auto).
Qed.
Example C49_concat_concrete : concat_to_pad3to4 2 (Some [0; 0]%Z) [1; 1; 2; 3] [1; 1; 2; 4] = Some 0%Z.
Proof. reflexivity. Qed.

(** ** C52 *)
(** Quantising (or any element-wise operator) before or after a concatenation: the same. *)
Theorem C52_hoist_quantize_above_concat : forall A B (q : A -> B) z axis parts idx,
  map fst (hoist_quantize q parts) = map fst parts /\
  concat_t (q z) axis (hoist_quantize q parts) idx = q (concat_t z axis parts idx).
Proof.
  intros A B q z axis parts idx. split; [unfold hoist_quantize; rewrite map_map; reflexivity|].
  revert idx. induction parts as [|[d t] parts IH]; intros idx; cbn [hoist_quantize map concat_t fst snd]; [reflexivity|].
  destruct (nth axis idx 0 <? d); [reflexivity|]. apply IH.
Qed.
Example C52_concrete : map (concat_t 0%Z 0 (hoist_quantize (Z.mul 2) [(2, fun i => Z.of_nat (nth 0 i 0)); (1, fun _ => 7%Z)])) [[0]; [1]; [2]] = [0; 2; 14]%Z.
Proof. reflexivity. Qed.
(** The pattern that moves Quantize above Reshape never applies. *)
Theorem C52_quantize_reshape_never : forall bits, quantize_reshape_applies bits = false.
Proof. intros bits. unfold quantize_reshape_applies. destruct (Z.eqb_spec bits 8); [subst; reflexivity|reflexivity]. Qed.

(** ** C53 *)
(** A binary operator with broadcasting, and the operator after the inserted BroadcastTo. *)
Definition binary_t {A B C} (f : A -> B -> C) (sa sb out : shape) (a : tensor A) (b : tensor B) : tensor C :=
  fun idx => f (broadcast_to sa out a idx) (broadcast_to sb out b idx).
Lemma same_shape_eq a b : has_same_shape (map Some a) (map Some b) = true -> a = b.
Proof.
  unfold has_same_shape. rewrite !map_length. intros H. apply andb_true_iff in H. destruct H as [L H]. apply Nat.eqb_eq in L.
  revert b L H. induction a as [|x a IH]; intros [|y b] L H; try discriminate; [reflexivity|].
  cbn [map combine forallb fst snd dim] in H. apply andb_true_iff in H. destruct H as [E H]. apply Nat.eqb_eq in E. subst. f_equal. apply IH; auto.
Qed.
Lemma broadcast_id {A} out (t : tensor A) idx : in_shape out idx -> broadcast_to out out t idx = t idx.
Proof.
  intros H. unfold broadcast_to, broadcast_t. rewrite Nat.sub_diag. cbn [skipn]. f_equal.
  induction H as [|i d idx out Hi H IH]; cbn [map2]; [reflexivity|]. f_equal; [|exact IH]. destruct (Nat.eqb_spec d 1); lia.
Qed.
Theorem C53_insert_broadcasts : forall A B C (f : A -> B -> C) sa sb out a b idx, in_shape out idx ->
  let '(ba, bb) := insert_broadcasts sa sb out in
  let sa' := if ba then out else sa in let sb' := if bb then out else sb in
  let a' := if ba then broadcast_to sa out a else a in let b' := if bb then broadcast_to sb out b else b in
  sa' = out /\ sb' = out /\
  binary_t f sa' sb' out a' b' idx = binary_t f sa sb out a b idx /\ f (a' idx) (b' idx) = binary_t f sa sb out a b idx.
Proof.
  intros A B C f sa sb out a b idx H. unfold insert_broadcasts.
  destruct (has_same_shape (map Some sa) (map Some out)) eqn:E1, (has_same_shape (map Some sb) (map Some out)) eqn:E2; cbn [negb];
  try (apply same_shape_eq in E1; subst sa); try (apply same_shape_eq in E2; subst sb);
  (split; [reflexivity|]; split; [reflexivity|]); unfold binary_t; rewrite ?(broadcast_id out) by assumption; auto.
Qed.
Example C53_concrete : insert_broadcasts [1; 1; 3] [2; 4; 3] [2; 4; 3] = (true, false) /\
  binary_t Z.add [1; 1; 3] [2; 4; 3] [2; 4; 3] (fun i => Z.of_nat (nth 2 i 0)) (fun i => 10 * Z.of_nat (nth 1%nat i 0%nat))%Z [1; 3; 2] = 32%Z.
Proof. split; reflexivity. Qed.

(** ** C54 *)
Lemma shapes_agree a b : length a = length b -> forallb (fun p => Nat.eqb (fst p) (snd p)) (combine a b) = true -> a = b.
Proof.
  revert b. induction a as [|x a IH]; intros [|y b] L H; try discriminate; [reflexivity|].
  cbn [combine forallb fst snd] in H. apply andb_true_iff in H. destruct H as [E H]. apply Nat.eqb_eq in E. subst. f_equal. apply IH; auto.
Qed.
(** A pad that is folded away, and a slice treated as doing nothing, return their input. *)
Theorem C54_no_op_pad : forall A (z : A) before after ins outs t idx, pad_fits before after outs ins -> pad_folds ins outs = true ->
  in_shape outs idx -> outs = ins /\ pad_t before ins z t idx = t idx.
Proof.
  intros A z before after ins outs t idx HF HP HI. unfold pad_folds in HP. apply andb_true_iff in HP. destruct HP as [L HP].
  apply Nat.eqb_eq in L. pose proof (shapes_agree _ _ L HP) as E. subst outs. split; [reflexivity|]. clear L HP.
  assert (B : Forall (eq 0) before /\ length before = length ins).
  { clear HI. remember ins as o eqn:Eo in HF at 1. induction HF as [|b e o d before after outs ins' E HF IH]; [repeat constructor|].
    injection Eo as -> ->. destruct (IH eq_refl). split; [constructor; [lia|assumption]|cbn; congruence]. }
  destruct B as [B LB]. unfold pad_t.
  assert (IN : inside before ins idx = true /\ map2 Nat.sub idx before = idx).
  { clear HF. revert before B LB. induction HI as [|i d idx ins Hi HI IH]; intros before B LB; destruct before as [|b before]; try discriminate; [split; reflexivity|].
    inversion B; subst. destruct (IH before) as [I1 I2]; auto. cbn [inside map2]. rewrite I1, I2, Nat.sub_0_r. split; [|reflexivity].
    replace (0 <=? i) with true by reflexivity. replace (i <? 0 + d) with true by (symmetry; apply Nat.ltb_lt; lia). reflexivity. }
  destruct IN as [-> ->]. reflexivity.
Qed.
Theorem C54_no_op_slice : forall A begin ins outs (t : tensor A) idx, slice_fits begin outs ins -> slice_no_op ins outs = true ->
  in_shape outs idx -> outs = ins /\ slice_t begin t idx = t idx.
Proof.
  intros A begin ins outs t idx HF HP HI. unfold slice_no_op in HP.
  destruct (Nat.eqb_spec (length ins) (length outs)) as [L|]; [|discriminate]. cbn [negb] in HP.
  pose proof (shapes_agree _ _ L HP) as E. subst outs. split; [reflexivity|]. clear L HP. unfold slice_t. f_equal.
  remember ins as o eqn:Eo in HF at 1. revert idx HI. induction HF as [|b o d begin outs ins' E HF IH]; intros idx HI; inversion HI; subst; [reflexivity|].
  injection Eo as -> ->. cbn [map2]. rewrite IH by auto. f_equal. lia.
Qed.
Example C54_concrete : pad_folds [1; 2; 3] [1; 2; 3] = true /\ slice_no_op [1; 2; 3] [1; 2; 2] = false.
Proof. split; reflexivity. Qed.

Print Assumptions C38_swap_pads.
Print Assumptions C49_pad3to4_partial.
Print Assumptions C49_concat_pad3to4.
Print Assumptions C52_hoist_quantize_above_concat.
Print Assumptions C53_insert_broadcasts.
Print Assumptions C54_no_op_pad.
Print Assumptions C49_exactly_when.
Print Assumptions C38_exactly_when.
