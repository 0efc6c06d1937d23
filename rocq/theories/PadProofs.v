From Verif Require Import Base NdSpec NdBase SlicePadModel CopyKernels SlicePadProofs SlicePadProofs2.

Definition pad_map (ps d i : nat) : option nat :=
  if (ps <=? i) && (i <? ps + d) then Some (i - ps) else None.

Definition rep_pad (a : axis) (g : gax) : Prop :=
  exists ps pe, a_begin a = Z.of_nat ps /\ a_size a = Z.of_nat pe /\ a_in a = Z.of_nat (gd g) /\ a_out a = Z.of_nat (go g) /\
    go g = ps + gd g + pe /\ forall i, i < go g -> gf g i = pad_map ps (gd g) i.

Lemma rep_pad_dims a g : rep_pad a g -> a_in a = Z.of_nat (gd g) /\ a_out a = Z.of_nat (go g).
Proof. intros (ps & pe & H1 & H2 & H3 & H4 & _). auto. Qed.

Lemma rep_pad_id a g : rep_pad a g -> a_in a = a_out a -> forall i, i < go g -> gf g i = Some i.
Proof.
  intros (ps & pe & H1 & H2 & H3 & H4 & H5 & H6) E i Hi. rewrite H6 by auto. unfold pad_map.
  replace (_ && _) with true by lia. f_equal. lia.
Qed.

Lemma rep_pad_fold a g a' g' : rep_pad a g -> rep_pad a' g' -> a_in a' = a_out a' ->
  rep_pad (fold_axis a a') (gmerge g g').
Proof.
  intros (ps & pe & H1 & H2 & H3 & H4 & H5 & H6) (ps' & pe' & G1 & G2 & G3 & G4 & G5 & G6) E.
  exists (ps * gd g'), (pe * gd g'). cbn [fold_axis a_begin a_in a_out a_size gmerge gd go gf].
  rewrite H1, H2, H3, H4, G3. repeat split; try lia; try nia.
  intros k Hk. destruct (gmerge_lt _ _ _ Hk) as [Hq Hm]. rewrite H6 by auto. unfold pad_map.
  pose proof (Nat.div_mod k (gd g') ltac:(lia)) as D.
  pose proof (Nat.mod_upper_bound k (gd g') ltac:(lia)) as M.
  set (q := k / gd g') in *. set (r := k mod gd g') in *. set (m := gd g') in *.
  destruct ((ps <=? q) && (q <? ps + gd g)) eqn:C.
  - replace ((ps * m <=? k) && (k <? ps * m + gd g * m)) with true by nia. cbn [option_map]. f_equal. nia.
  - replace ((ps * m <=? k) && (k <? ps * m + gd g * m)) with false; auto.
    symmetry. apply andb_false_iff in C. apply andb_false_iff. destruct C as [C|C]; [left|right].
    + assert (q + 1 <= ps) by lia. nia.
    + assert (ps + gd g <= q) by lia. nia.
Qed.

Fixpoint pad_gax (ins outs before : list nat) : list gax :=
  match ins, outs, before with
  | d :: ins', o :: outs', b :: before' => Gax d o (pad_map b d) :: pad_gax ins' outs' before'
  | _, _, _ => []
  end.

Lemma pad_fits_length before after outs ins : pad_fits before after outs ins ->
  length before = length ins /\ length after = length ins /\ length outs = length ins.
Proof. induction 1; cbn; lia. Qed.

Lemma pad_gax_rep before after outs ins : pad_fits before after outs ins ->
  Forall2 rep_pad (zip_axes (map Z.of_nat before) (map Z.of_nat after) (map Z.of_nat ins) (map Z.of_nat outs)) (pad_gax ins outs before).
Proof.
  induction 1 as [|b e o d before after outs ins H F IH]; cbn [map zip_axes pad_gax]; constructor; auto.
  exists b, e. cbn. repeat split; auto.
Qed.

Lemma pad_gax_ins before after outs ins : pad_fits before after outs ins ->
  gins (pad_gax ins outs before) = ins /\ gouts (pad_gax ins outs before) = outs.
Proof. induction 1 as [|b e o d before after outs ins H F [I1 I2]]; cbn; auto. unfold gins, gouts in *. rewrite I1, I2. auto. Qed.

Lemma pad_gax_lookup before after outs ins : pad_fits before after outs ins -> forall idx, length idx = length ins ->
  glookup (pad_gax ins outs before) idx = if inside before ins idx then Some (map2 Nat.sub idx before) else None.
Proof.
  induction 1 as [|b e o d before after outs ins H F IH]; intros idx Hl; destruct idx as [|i idx]; try discriminate; cbn [pad_gax glookup inside map2 gf]; auto.
  unfold pad_map. destruct ((b <=? i) && (i <? b + d)); cbn [andb]; auto.
  rewrite IH by (cbn in Hl; lia). destruct (inside before ins idx); auto.
Qed.

Lemma gather_pad {A} before after outs ins (z : A) t : pad_fits before after outs ins ->
  flatten outs (gather (pad_gax ins outs before) z t) = flatten outs (pad_t before ins z t).
Proof.
  intros H. apply flatten_ext_in. intros idx Hx. unfold gather, pad_t.
  destruct (pad_fits_length _ _ _ _ H) as (L1 & L2 & L3).
  rewrite (pad_gax_lookup _ _ _ _ H) by (rewrite (in_shape_length _ _ Hx); lia).
  destruct (inside before ins idx); auto.
Qed.

Lemma rep_pad_back axes gs : Forall2 rep_pad axes gs ->
  exists before after, map a_begin axes = map Z.of_nat before /\ map a_size axes = map Z.of_nat after /\
    map a_in axes = map Z.of_nat (gins gs) /\
    map a_out axes = map Z.of_nat (gouts gs) /\ pad_fits before after (gouts gs) (gins gs) /\
    forall A (z : A) t, flatten (gouts gs) (gather gs z t) = flatten (gouts gs) (pad_t before (gins gs) z t).
Proof.
  induction 1 as [|a g axes gs Ha HF IH].
  - exists [], []. repeat split; auto. constructor.
  - destruct IH as (before & after & I0 & I1 & I2 & I3 & I4 & I5). destruct Ha as (ps & pe & H1 & H2 & H3 & H4 & H5 & H6).
    exists (ps :: before), (pe :: after). cbn [map gins gouts]. unfold gins, gouts in *. rewrite H1, H2, H3, H4, I0, I1, I2, I3.
    repeat split; auto. { constructor; auto. }
    intros A z t. cbn [flatten]. apply flat_map_ext_in. intros i Hi. apply in_seq in Hi.
    unfold gather. cbn [glookup]. rewrite H6 by lia. unfold pad_t. cbn [map2 inside].
    unfold pad_map. destruct ((ps <=? i) && (i <? ps + gd g)); cbn [andb].
    + etransitivity; [|apply (I5 A z (fun r => t (i - ps :: r)))]. apply flatten_ext. intros idx. unfold gather.
      destruct (glookup gs idx); auto.
    + auto.
Qed.

Lemma merge_pad {A} before after outs ins : pad_fits before after outs ins -> ins <> [] ->
  exists axes' before' after' outs' ins',
    merge_axes (zip_axes (map Z.of_nat before) (map Z.of_nat after) (map Z.of_nat ins) (map Z.of_nat outs)) = Some axes' /\
    map a_begin axes' = map Z.of_nat before' /\ map a_size axes' = map Z.of_nat after' /\ map a_in axes' = map Z.of_nat ins' /\
    map a_out axes' = map Z.of_nat outs' /\ pad_fits before' after' outs' ins' /\
    nelem outs = nelem outs' /\
    exists F : tensor A -> tensor A, forall z t,
      flatten ins t = flatten ins' (F t) /\ flatten outs (pad_t before ins z t) = flatten outs' (pad_t before' ins' z (F t)) /\
      (forall P : A -> Prop, (forall idx, P (t idx)) -> forall idx, P (F t idx)).
Proof.
  intros Hf Hne.
  pose proof (pad_gax_rep _ _ _ _ Hf) as R.
  assert (Hne' : zip_axes (map Z.of_nat before) (map Z.of_nat after) (map Z.of_nat ins) (map Z.of_nat outs) <> []).
  { destruct (pad_fits_length _ _ _ _ Hf) as (? & ? & ?). destruct ins, before, outs, after; try discriminate; congruence. }
  destruct (merge_axes_ok (A := A) rep_pad rep_pad_dims rep_pad_id rep_pad_fold _ _ Hne' R)
    as (axes' & gs' & E & R' & (Q1 & F & Q2)).
  destruct (rep_pad_back _ _ R') as (before' & after' & B0 & B1 & B2 & B3 & B4 & B5).
  destruct (pad_gax_ins _ _ _ _ Hf) as [D1 D2]. rewrite D2 in Q1.
  exists axes', before', after', (gouts gs'), (gins gs'). repeat split; auto.
  exists F. intros z t. destruct (Q2 z t) as (U1 & U2 & U3). rewrite D1 in U1. rewrite D2 in U2.
  split; auto. split; auto. rewrite <- (gather_pad before after outs ins z t Hf), U2. apply B5.
Qed.

(** ** fill word *)
Lemma fill_byte_broadcast v : fill_byte (broadcast_8_to_32 v) = Some (v mod 256)%Z.
Proof.
  unfold broadcast_8_to_32. assert (Hb : (0 <= v mod 256 < 256)%Z) by (apply Z.mod_pos_bound; lia).
  set (b := (v mod 256)%Z) in *. clearbody b.
  assert (All : forallb (fun n => let b := Z.of_nat n in
     match fill_byte (if (b + b * 2 ^ 8 + b * 2 ^ 16 + b * 2 ^ 24 >=? 2 ^ 31)%Z
                      then (b + b * 2 ^ 8 + b * 2 ^ 16 + b * 2 ^ 24 - 2 ^ 32)%Z
                      else (b + b * 2 ^ 8 + b * 2 ^ 16 + b * 2 ^ 24)%Z) with
     | Some x => (x =? b)%Z | None => false end) (seq 0 256) = true) by (vm_compute; reflexivity).
  rewrite forallb_forall in All. specialize (All (Z.to_nat b)). cbv zeta in All. rewrite Z2Nat.id in All by lia.
  cbv zeta. destruct (fill_byte _) as [x|].
  - f_equal. assert (x =? b = true)%Z; [|lia]. apply All. apply in_seq. lia.
  - assert (false = true); [|discriminate]. apply All. apply in_seq. lia.
Qed.

(** ** padding kernels *)
Lemma fill_bytes_ok {B} (f : B) n : fill_bytes f (Z.of_nat n) = Some (repeat f n).
Proof. unfold fill_bytes. replace (Z.of_nat n <? 0)%Z with false by lia. rewrite Nat2Z.id. auto. Qed.

Lemma pad_rows_ok {B} (src : list B) f size pad stop n : forall pos, pos + (S n) * size <= length src ->
  pad_rows src f (Z.of_nat pos) (Z.of_nat size) (Z.of_nat pad) n (Z.of_nat stop) =
  Some (flat_map (fun i => sub src (pos + i * size) size ++ repeat f pad) (seq 0 n) ++
        sub src (pos + n * size) size ++ repeat f stop).
Proof.
  induction n as [|n IH]; intros pos H; cbn [pad_rows].
  - rewrite read_ok by lia. rewrite fill_bytes_ok. cbn. do 3 f_equal. lia.
  - rewrite read_ok by lia. rewrite fill_bytes_ok. rewrite <- Nat2Z.inj_add, IH by lia. cbn [app_opt seq flat_map].
    f_equal. rewrite <- !app_assoc. replace (pos + 0 * size) with pos by lia. f_equal. f_equal.
    rewrite <- seq_shift, flat_map_map. f_equal.
    + apply flat_map_ext. intros i. do 2 f_equal. lia.
    + do 2 f_equal. lia.
Qed.

Lemma flat_map_const {X B} (z : list B) (l : list X) (f : B) k : z = repeat f k ->
  flat_map (fun _ => z) l = repeat f (length l * k).
Proof. intros ->. induction l; cbn; auto. rewrite IHl, <- repeat_app. auto. Qed.

Lemma pad_axis {B} (f : nat -> list B) z ps d pe :
  flat_map (fun i => if (ps <=? i) && (i <? ps + d) then f (i - ps) else z i) (seq 0 (ps + d + pe)) =
  flat_map z (seq 0 ps) ++ flat_map f (seq 0 d) ++ flat_map z (seq (ps + d) pe).
Proof.
  rewrite <- Nat.add_assoc, seq_app, flat_map_app. cbn [Nat.add]. rewrite seq_app, flat_map_app. f_equal; [|f_equal].
  - apply flat_map_ext_in. intros i Hi. apply in_seq in Hi. replace (_ && _) with false by lia. auto.
  - replace (seq ps d) with (seq (ps + 0) d) by (f_equal; lia). rewrite seq_shift_map, flat_map_map.
    apply flat_map_ext_in. intros i Hi. apply in_seq in Hi. replace (_ && _) with true by lia. f_equal. lia.
  - apply flat_map_ext_in. intros i Hi. apply in_seq in Hi. replace (_ && _) with false by lia. auto.
Qed.

Lemma pad_glue {B} (R : nat -> list B) f ps pe n : forall a,
  repeat f ps ++ flat_map (fun i => R i ++ repeat f (ps + pe)) (seq a n) ++ R (a + n) ++ repeat f pe =
  flat_map (fun i => repeat f ps ++ R i ++ repeat f pe) (seq a (S n)).
Proof.
  induction n as [|n IH]; intros a.
  - cbn [seq flat_map app]. rewrite app_nil_r. replace (a + 0) with a by lia. auto.
  - cbn [seq flat_map]. rewrite <- !app_assoc. f_equal. f_equal. 
    replace (ps + pe) with (pe + ps) at 1 by lia. rewrite repeat_app, <- !app_assoc. f_equal.
    specialize (IH (S a)). cbn [seq flat_map] in IH. rewrite <- !app_assoc in IH. rewrite <- IH.
    f_equal. f_equal. f_equal. f_equal. lia.
Qed.

Section PadB.
Context {B : Type} (k : nat) (f : B).

Lemma pad_1 (d ps pe : nat) (t : tensor (list B)) :
  bytes_of [ps + d + pe] (pad_t [ps] [d] (repeat f k) t) =
  repeat f (ps * k) ++ bytes_of [d] t ++ repeat f (pe * k).
Proof.
  rewrite !bytes_1. unfold pad_t. cbn [inside map2].
  erewrite flat_map_ext; [|intros i; rewrite andb_true_r; reflexivity].
  rewrite (pad_axis (fun i => t [i]) (fun _ => repeat f k)).
  rewrite !(flat_map_const _ _ f k eq_refl), !seq_length. auto.
Qed.

Lemma pad_2 (d0 d1 ps0 pe0 ps1 pe1 : nat) (t : tensor (list B)) :
  bytes_of [ps0 + d0 + pe0; ps1 + d1 + pe1] (pad_t [ps0; ps1] [d0; d1] (repeat f k) t) =
  repeat f (ps0 * ((ps1 + d1 + pe1) * k)) ++
  flat_map (fun i => repeat f (ps1 * k) ++ flat_map (fun j => t [i; j]) (seq 0 d1) ++ repeat f (pe1 * k)) (seq 0 d0) ++
  repeat f (pe0 * ((ps1 + d1 + pe1) * k)).
Proof.
  rewrite bytes_2. set (o1 := ps1 + d1 + pe1).
  set (g := fun i => flat_map (fun j => if (ps1 <=? j) && (j <? ps1 + d1) then t [i; j - ps1] else repeat f k) (seq 0 o1)).
  transitivity (flat_map (fun i => if (ps0 <=? i) && (i <? ps0 + d0) then g (i - ps0)
     else repeat f (o1 * k)) (seq 0 (ps0 + d0 + pe0))).
  - apply flat_map_ext. intros i. unfold pad_t. cbn [inside map2].
    destruct ((ps0 <=? i) && (i <? ps0 + d0)); cbn [andb].
    + unfold g. apply flat_map_ext. intros j. rewrite andb_true_r. auto.
    + rewrite (flat_map_const _ _ f k eq_refl), seq_length. auto.
  - rewrite (pad_axis g (fun _ => repeat f (o1 * k))).
    rewrite !(flat_map_const _ _ f (o1 * k) eq_refl), !seq_length. f_equal. f_equal.
    apply flat_map_ext. intros i. unfold g, o1. rewrite (pad_axis (fun j => t [i; j]) (fun _ => repeat f k)).
    rewrite !(flat_map_const _ _ f k eq_refl), !seq_length. auto.
Qed.
End PadB.

Lemma nelem_pos s : Forall (fun d => 0 < d) s -> 0 < nelem s.
Proof. induction 1; cbn [nelem fold_right]; [lia|fold (nelem l); nia]. Qed.

Lemma replace_pad_ok is_const k zp before after outs ins (t : tensor (list Z)) fill :
  pad_fits before after outs ins -> elem_bytes k t -> Forall (fun d => 0 < d) ins ->
  fill = match zp with Some z => (z mod 256)%Z | None => 0%Z end ->
  match replace_pad is_const (Z.of_nat k) zp (map Z.of_nat ins) (map Z.of_nat outs) (map Z.of_nat before) (map Z.of_nat after) with
  | Forward => bytes_of ins t = bytes_of outs (pad_t before ins (repeat fill k) t)
  | Lowered op => run_pad op (bytes_of ins t) = Some (bytes_of outs (pad_t before ins (repeat fill k) t))
  | NotApplied => True
  | Undefined => False
  end.
Proof.
  intros Hf Hk Hpos Hfill. unfold replace_pad. destruct (pad_fits_length _ _ _ _ Hf) as (L1 & L2 & L3).
  destruct (same_dims _ _) eqn:Es.
  { apply same_dims_eq, map_of_nat_inj in Es. subst outs.
    unfold bytes_of. f_equal. apply flatten_ext_in. intros idx Hx. unfold pad_t.
    assert (Z0 : before = repeat 0 (length ins)).
    { clear - Hf. remember ins as outs eqn:E in Hf at 1. revert E.
      induction Hf as [|b e o d before after outs ins H F IH]; intros E; auto. injection E as -> ->. cbn [length repeat]. f_equal; [lia|auto]. }
    rewrite Z0. assert (Hi : inside (repeat 0 (length ins)) ins idx = true /\ map2 Nat.sub idx (repeat 0 (length ins)) = idx).
    { clear - Hx. induction Hx as [|i d idx s H F [I1 I2]]; cbn [length repeat inside map2]; auto.
      rewrite I1, I2, Nat.sub_0_r. split; auto. lia. }
    destruct Hi as [-> ->]. auto. }
  destruct is_const; auto.
  assert (Hne : ins <> []).
  { intros ->. destruct outs; [|discriminate]. discriminate. }
  destruct (merge_pad (A := list Z) before after outs ins Hf Hne)
    as (axes' & before' & after' & outs' & ins' & E & B0 & B1 & B2 & B3 & B4 & B5 & F & HF). rewrite E.
  destruct (HF (repeat fill k) t) as (Q1 & Q2 & Q3). specialize (Q3 (fun x => length x = k) Hk).
  assert (Qi : nelem ins = nelem ins') by (rewrite <- (flatten_length ins t), Q1; apply flatten_length).
  assert (P1 : bytes_of ins t = bytes_of ins' (F t)) by (unfold bytes_of; rewrite Q1; auto).
  assert (P2 : bytes_of outs (pad_t before ins (repeat fill k) t) = bytes_of outs' (pad_t before' ins' (repeat fill k) (F t))) by (unfold bytes_of; rewrite Q2; auto).
  pose proof (nelem_pos _ Hpos) as Np. rewrite Qi in Np.
  assert (Hz : fill_byte (match zp with Some z => broadcast_8_to_32 z | None => 0%Z end) = Some fill).
  { subst fill. destruct zp; [apply fill_byte_broadcast|reflexivity]. }
  clear HF. cbv zeta. destruct axes' as [|a0 [|a1 [|a2 axes']]].
  - destruct ins'; [|discriminate]. destruct outs'; [|discriminate]. cbn in B5, Qi.
    assert (X : map Z.of_nat ins = map Z.of_nat outs).
    { rewrite (nelem_one ins Qi), (nelem_one outs B5), L3. auto. }
    rewrite X, same_dims_refl in Es. discriminate.
  - destruct before' as [|b0 [|]], after' as [|e0 [|]], outs' as [|o0 [|]], ins' as [|d0 [|]]; try discriminate.
    injection B0 as B0. injection B1 as B1. injection B2 as B2. injection B3 as B3.
    inversion B4 as [|? ? ? ? ? ? ? ? Ho _]; subst o0. rewrite B0, B1, B2.
    unfold run_pad. cbn [p_zero p_start p_copies p_pad p_size p_end]. rewrite Hz.
    change (0 <? 0)%Z with false. cbn iota. change (Z.to_nat 0) with 0%nat.
    rewrite <- !Nat2Z.inj_mul. change 0%Z with (Z.of_nat 0).
    rewrite pad_rows_ok by (rewrite P1, (bytes_length k) by auto; cbn; lia).
    rewrite fill_bytes_ok. cbn [app_opt seq flat_map app]. f_equal. rewrite P2, pad_1, P1. f_equal. f_equal.
    replace (d0 * k) with (length (bytes_of [d0] (F t))) by (rewrite (bytes_length k) by auto; cbn; lia).
    apply sub_all.
  - destruct before' as [|b0 [|b1 [|]]], after' as [|e0 [|e1 [|]]], outs' as [|o0 [|o1 [|]]], ins' as [|d0 [|d1 [|]]]; try discriminate.
    injection B0 as B0 B0'. injection B1 as B1 B1'. injection B2 as B2 B2'. injection B3 as B3 B3'.
    inversion B4 as [|? ? ? ? ? ? ? ? Ho0 F0]; subst o0. inversion F0 as [|? ? ? ? ? ? ? ? Ho1 _]; subst o1.
    rewrite B0, B0', B1, B1', B2, B2', B3'.
    destruct (_ && _); auto.
    unfold run_pad. cbn [p_zero p_start p_copies p_pad p_size p_end]. rewrite Hz.
    cbn in Np. assert (0 < d0) by nia.
    replace (Z.of_nat d0 - 1 <? 0)%Z with false by lia.
    replace (Z.to_nat (Z.of_nat d0 - 1)) with (d0 - 1) by lia.
    rewrite <- !Nat2Z.inj_mul, <- !Nat2Z.inj_add. change 0%Z with (Z.of_nat 0).
    assert (Hlen : length (bytes_of ins t) = d0 * (d1 * k)) by (rewrite P1, (bytes_length k) by auto; cbn; lia).
    rewrite pad_rows_ok by (rewrite Hlen; replace (S (d0 - 1)) with d0 by lia; lia).
    rewrite fill_bytes_ok. cbn [app_opt]. f_equal. rewrite P2, pad_2.
    set (R := fun i => flat_map (fun j => F t [i; j]) (seq 0 d1)).
    assert (HR : forall i, i < d0 -> sub (bytes_of ins t) (0 + i * (d1 * k)) (d1 * k) = R i).
    { intros i Hi. rewrite P1, bytes_2. fold R.
      pose proof (sub_blocks R (d1 * k) d0 i 1 (fun i => row_length k d1 (F t) i Q3) ltac:(lia)) as X.
      rewrite Nat.mul_1_l in X. cbn [Nat.add]. rewrite X. cbn [seq flat_map]. apply app_nil_r. }
    rewrite HR by lia.
    rewrite (flat_map_ext_in _ (fun i => R i ++ repeat fill (b1 * k + e1 * k))) by
      (intros i Hi; apply in_seq in Hi; rewrite HR by lia; auto).
    rewrite repeat_app, <- !app_assoc. f_equal.
    rewrite (Nat.add_comm (e0 * _)), repeat_app. 
    replace d0 with (S (d0 - 1)) at 3 by lia. 
    rewrite <- pad_glue. cbn [Nat.add]. rewrite <- !app_assoc. f_equal. f_equal.
    + apply flat_map_ext. intros i. rewrite repeat_app. auto.
    + fold (R (d0 - 1)). rewrite repeat_app. auto.
  - exact I.
Qed.
