From Verif Require Import Base NdSpec NdBase SlicePadModel CopyKernels SlicePadProofs SlicePadProofs2.

(** shapes of an accepted broadcast *)
Definition zn (l : list nat) := map Z.of_nat l.

Lemma loop_false outs : forall ins size c b r, length ins = length outs ->
  broadcast_loop false size c b (zn ins) (zn outs) = Some r ->
  ins = outs /\ r = ((size * Z.of_nat (nelem outs))%Z, c, b).
Proof.
  induction outs as [|o outs IH]; intros [|i ins] size c b r Hl H; try discriminate; cbn in H.
  - injection H as <-. split; auto. cbn. do 2 f_equal. lia.
  - destruct (Z.eqb_spec (Z.of_nat i) (Z.of_nat o)) as [E|E]; cbn in H; [|discriminate].
    apply IH in H; [|cbn in Hl; lia]. destruct H as [-> ->]. split; [f_equal; lia|].
    cbn [nelem fold_right]. fold (nelem outs). do 2 f_equal. rewrite Nat2Z.inj_mul. nia.
Qed.

Lemma loop_mid outs : forall ins size c b r, length ins = length outs -> c <> 1%Z -> (0 <= c)%Z ->
  compatible (zn ins) (zn outs) = true ->
  broadcast_loop true size c b (zn ins) (zn outs) = Some r ->
  exists C S, outs = C ++ S /\ ins = repeat 1 (length C) ++ S /\
    r = ((size * Z.of_nat (nelem S))%Z, (c * Z.of_nat (nelem C))%Z, b).
Proof.
  induction outs as [|o outs IH]; intros [|i ins] size c b r Hl Hc Hc0 Hcomp H; try discriminate; cbn [broadcast_loop zn map] in H.
  - injection H as <-. exists [], []. cbn. repeat split; auto. do 2 f_equal; lia.
  - cbn [zn map compatible] in Hcomp. apply andb_prop in Hcomp. destruct Hcomp as [Hc1 Hc2].
    destruct (Z.eqb_spec (Z.of_nat i) (Z.of_nat o)) as [E|E]; cbn [negb] in H.
    + replace (c =? 1)%Z with false in H by lia. cbn [negb andb] in H.
      destruct (Z.eqb_spec (Z.of_nat o) 1) as [E1|E1]; cbn [negb] in H.
      * assert (o = 1) by lia. assert (i = 1) by lia. subst.
        rewrite Z.mul_1_r in H. apply IH in H; auto. destruct H as (C & S & -> & -> & ->).
        exists (1 :: C), S. repeat split. cbn [nelem fold_right]. fold (nelem C). do 3 f_equal. lia.
      * apply loop_false in H; [|cbn in Hl; lia]. destruct H as [-> ->].
        exists [], (o :: outs). split; [auto|]. split; [cbn; f_equal; lia|].
        assert (Hn : nelem (o :: outs) = o * nelem outs) by auto. rewrite Hn. cbn [nelem fold_right].
        do 2 f_equal; nia.
    + assert (i = 1) by lia. subst. apply IH in H; auto; try nia.
      destruct H as (C & S & -> & -> & ->). exists (o :: C), S. repeat split.
      assert (Hn : nelem (o :: C) = o * nelem C) by auto. rewrite Hn. do 2 f_equal. nia.
Qed.

Lemma loop_top outs : forall ins size b r, length ins = length outs ->
  compatible (zn ins) (zn outs) = true ->
  broadcast_loop true size 1 b (zn ins) (zn outs) = Some r ->
  exists A C S, outs = A ++ C ++ S /\ ins = A ++ repeat 1 (length C) ++ S /\
    r = ((size * Z.of_nat (nelem S))%Z, Z.of_nat (nelem C), (b * Z.of_nat (nelem A))%Z).
Proof.
  induction outs as [|o outs IH]; intros [|i ins] size b r Hl Hcomp H; try discriminate; cbn [broadcast_loop zn map] in H.
  - injection H as <-. exists [], [], []. cbn. repeat split; auto. do 2 f_equal; lia.
  - cbn [zn map compatible] in Hcomp. apply andb_prop in Hcomp. destruct Hcomp as [Hc1 Hc2].
    destruct (Z.eqb_spec (Z.of_nat i) (Z.of_nat o)) as [E|E]; cbn [negb] in H.
    + change (1 =? 1)%Z with true in H. cbn [negb andb] in H.
      apply IH in H; auto. destruct H as (A & C & S & -> & -> & ->). exists (o :: A), C, S.
      split; auto. split; [cbn [app]; f_equal; lia|].
      assert (Hn : nelem (o :: A) = o * nelem A) by auto. rewrite Hn. f_equal. nia.
    + assert (i = 1) by lia. subst. apply loop_mid in H; auto; try lia.
      destruct H as (C & S & -> & -> & ->). exists [], (o :: C), S. split; auto. split; auto.
      assert (Hn : nelem (o :: C) = o * nelem C) by auto. rewrite Hn. cbn [nelem fold_right].
      do 2 f_equal; nia.
Qed.

(** kernel *)
Section K.
Context {B : Type}.

Lemma concat_blocks_length (n : nat) (X : list (list B)) : (forall x, In x X -> length x = n) -> length (concat X) = length X * n.
Proof. induction X as [|x X IH]; cbn; auto. intros H. rewrite app_length, IH, (H x) by auto. auto. Qed.

Lemma repeat_opt_some (x : list B) n : repeat_opt (Some x) n = Some (concat (repeat x n)).
Proof. induction n as [|n IH]; cbn; auto. rewrite IH. auto. Qed.

Lemma bcast_blocks_ok size c X : forall pre : list (list B),
  (forall x, In x (pre ++ X) -> length x = size) ->
  bcast_blocks (concat (pre ++ X)) (Z.of_nat (length pre * size)) (Z.of_nat size) c (length X)
  = Some (flat_map (fun x => concat (repeat x c)) X).
Proof.
  induction X as [|x X IH]; intros pre H; cbn [bcast_blocks length]; auto.
  rewrite read_ok.
  - assert (E : sub (concat (pre ++ x :: X)) (length pre * size) size = x).
    { rewrite concat_app. pose proof (concat_blocks_length size pre) as Lp.
      assert (Hp : length (concat pre) = length pre * size) by (apply Lp; intros y Hy; apply H; apply in_or_app; auto).
      rewrite sub_app_r, Hp, Nat.sub_diag by lia. cbn [concat]. 
      assert (Hx : length x = size) by (apply H; apply in_or_app; right; left; auto).
      rewrite sub_app_l by lia. rewrite <- Hx. apply sub_all. }
    rewrite E, repeat_opt_some. cbn [flat_map]. 
    replace (Z.of_nat (length pre * size) + Z.of_nat size)%Z with (Z.of_nat (length (pre ++ [x]) * size)) by (rewrite app_length; cbn [length]; lia).
    replace (pre ++ x :: X) with ((pre ++ [x]) ++ X) in * by (rewrite <- app_assoc; auto).
    rewrite IH; auto.
  - rewrite (concat_blocks_length size) by auto. rewrite app_length. cbn [length]. nia.
Qed.

Lemma flatten_ones {A} n (g : tensor A) : flatten (repeat 1 n) g = [g (repeat 0 n)].
Proof. revert g. induction n as [|n IH]; intros g; cbn [repeat]; auto. rewrite flatten_one, IH. auto. Qed.

Lemma bcast_id (A : shape) a : in_shape A a -> map2 (fun d i => if d =? 1 then 0 else i) A a = a.
Proof.
  induction 1 as [|i d a s H F IH]; cbn [map2]; auto. rewrite IH. f_equal. destruct (Nat.eqb_spec d 1); auto. lia.
Qed.

Lemma map2_app {X Y W} (f : X -> Y -> W) a : forall a' b b', length a = length a' -> map2 f (a ++ b) (a' ++ b') = map2 f a a' ++ map2 f b b'.
Proof. induction a as [|x a IH]; intros [|y a'] b b' H; try discriminate; cbn [app map2]; auto. f_equal. auto. Qed.

Lemma map2_ones (C : list nat) : forall c : list nat, length c = length C -> map2 (fun d i => if d =? 1 then 0 else i) (repeat 1 (length C)) c = repeat 0 (length C).
Proof. induction C as [|x C IH]; intros [|y c] H; try discriminate; cbn [length repeat map2]; auto. rewrite IH; auto. Qed.

Lemma concat_map_concat {X} (l : list X) (f : X -> list (list B)) : concat (concat (map f l)) = concat (map (fun x => concat (f x)) l).
Proof. induction l as [|x l IH]; cbn; auto. rewrite concat_app, IH. auto. Qed.

Lemma flat_map_idl {X} (l : list (list X)) : flat_map (fun r => r) l = concat l.
Proof. rewrite flat_map_concat_map, map_id. auto. Qed.

Lemma broadcast_same_rank k A C S (t : tensor (list B)) :
  elem_bytes k t ->
  bcast_blocks (bytes_of (A ++ repeat 1 (length C) ++ S) t) 0 (Z.of_nat (k * nelem S)) (nelem C) (nelem A)
  = Some (bytes_of (A ++ C ++ S) (broadcast_t (A ++ repeat 1 (length C) ++ S) t)).
Proof.
  intros Hk. set (n := length C).
  set (blk := fun a => flatten S (fun s => t (a ++ repeat 0 n ++ s))).
  set (X := map (@concat B) (flatten A blk)).
  assert (Hin : bytes_of (A ++ repeat 1 n ++ S) t = concat X).
  { unfold bytes_of, X. rewrite flatten_app.
    rewrite flat_map_idl.
    replace (flatten A (fun idx => flatten (repeat 1 n ++ S) (fun idx' => t (idx ++ idx')))) with (flatten A blk).
    - rewrite <- (map_id (flatten A blk)) at 1. apply concat_map_concat.
    - apply flatten_ext. intros a. rewrite flatten_app, flatten_ones. cbn [flat_map]. rewrite app_nil_r. auto. }
  assert (HX : forall x, In x X -> length x = k * nelem S).
  { intros x Hx. unfold X in Hx. apply in_map_iff in Hx. destruct Hx as (y & <- & Hy).
    assert (Ey : exists a, y = blk a).
    { clear - Hy. rewrite flatten_unravel in Hy. apply in_map_iff in Hy. destruct Hy as (j & <- & _). eauto. }
    destruct Ey as [a ->]. unfold blk.
    change (length (bytes_of S (fun s => t (a ++ repeat 0 n ++ s))) = k * nelem S).
    rewrite (bytes_length k) by (intros idx; apply Hk). lia. }
  assert (HlX : length X = nelem A) by (unfold X; rewrite map_length; apply flatten_length).
  rewrite Hin, <- HlX. pose proof (bcast_blocks_ok (k * nelem S) (nelem C) X [] HX) as K. cbn [app length Nat.mul] in K.
  change (Z.of_nat 0) with 0%Z in K. rewrite K. f_equal. clear K.
  unfold bytes_of. rewrite flatten_app, flat_map_idl.
  unfold X. rewrite flat_map_map, flat_map_concat_map.
  transitivity (concat (concat (flatten A (fun a => concat (repeat (blk a) (nelem C)))))).
  - rewrite (flatten_unravel A blk), (flatten_unravel A (fun a => _)), concat_map_concat, map_map.
    f_equal. apply map_ext. intros j. clear. generalize (blk (unravel A j)). intros l.
    induction (nelem C) as [|m IH]; cbn [repeat concat]; auto. rewrite concat_app, IH. auto.
  - f_equal. f_equal. apply flatten_ext_in. intros a Ha.
    rewrite flatten_app, flat_map_idl. f_equal.
    rewrite <- flatten_const. apply flatten_ext_in. intros c Hc.
    unfold blk. apply flatten_ext_in. intros s Hs. unfold broadcast_t. f_equal.
    rewrite map2_app by (rewrite (in_shape_length _ _ Ha); auto).
    rewrite map2_app by (rewrite repeat_length, (in_shape_length _ _ Hc); auto).
    rewrite (bcast_id A a), (bcast_id S s) by auto. unfold n. rewrite map2_ones by (apply (in_shape_length _ _ Hc)). auto.
Qed.

Lemma bytes_ones n s (t : tensor (list B)) : bytes_of (repeat 1 n ++ s) (fun idx => t (skipn n idx)) = bytes_of s t.
Proof.
  unfold bytes_of. rewrite flatten_app, flatten_ones. cbn [flat_map]. rewrite app_nil_r. f_equal.
  apply flatten_ext. intros idx. f_equal. rewrite skipn_app, repeat_length, Nat.sub_diag.
  rewrite skipn_all2 by (rewrite repeat_length; lia). auto.
Qed.

Lemma map2_skipn {X Y W} (f : X -> Y -> W) n : forall a b, skipn n (map2 f a b) = map2 f (skipn n a) (skipn n b).
Proof.
  induction n as [|n IH]; intros a b; auto. destruct a as [|x a], b as [|y b]; cbn [map2 skipn]; auto.
  destruct (skipn n a); auto.
Qed.

Lemma replace_broadcast_ok is_const k ins outs (t : tensor (list B)) :
  length ins <= length outs -> elem_bytes k t ->
  match replace_broadcast is_const (Z.of_nat k) (zn ins) (zn outs) with
  | Forward => bytes_of ins t = bytes_of outs (broadcast_to ins outs t)
  | Lowered op => run_broadcast op (bytes_of ins t) = Some (bytes_of outs (broadcast_to ins outs t))
  | NotApplied => True
  | Undefined => False
  end.
Proof.
  intros Hl Hk. unfold replace_broadcast. destruct (same_dims _ _) eqn:Es.
  { apply same_dims_eq, map_of_nat_inj in Es. subst. unfold bytes_of. f_equal. apply flatten_ext_in. intros idx Hx.
    unfold broadcast_to, broadcast_t. rewrite Nat.sub_diag. cbn [skipn]. rewrite bcast_id; auto. }
  destruct is_const; auto.
  set (n := length outs - length ins).
  assert (El : lead_ones (zn ins) (zn outs) = zn (repeat 1 n ++ ins)).
  { unfold lead_ones, zn. rewrite !map_length, map_app. f_equal. fold n. clear. induction n; cbn; auto. f_equal; auto. }
  rewrite El. destruct (compatible _ _) eqn:Ec; cbn [negb]; auto.
  destruct (broadcast_loop _ _ _ _ _ _) as [[[size copies] bcasts]|] eqn:E; auto.
  apply loop_top in E; auto; [|rewrite app_length, repeat_length; lia].
  destruct E as (A & C & S & Eo & Ei & Er). injection Er as -> -> ->.
  unfold run_broadcast. cbn [b_copies b_broadcasts b_size].
  replace (_ || _) with false by lia. rewrite Nat2Z.id, Z.mul_1_l, Nat2Z.id, <- Nat2Z.inj_mul.
  rewrite <- (bytes_ones n). rewrite Ei. rewrite (broadcast_same_rank k) by (intros idx; apply Hk).
  rewrite <- Ei, <- Eo. f_equal. unfold bytes_of. f_equal. apply flatten_ext. intros idx.
  unfold broadcast_to, broadcast_t. f_equal. rewrite map2_skipn. f_equal.
  rewrite skipn_app, repeat_length, Nat.sub_diag, skipn_all2 by (rewrite repeat_length; lia). auto.
Qed.
End K.
