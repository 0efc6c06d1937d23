From Coq Require Import QArith.
From Verif Require Import Base NdSpec ConvSpec ConvOptSpec ConvOptProofs ConvGeomModel ConvGeomSpec OpSplitProofs.
Local Open Scope Z_scope.

(** ** SAME convolution *)
Lemma same_bounds_d n f d s : 1 <= n -> 1 <= f -> 1 <= d -> 1 <= s ->
  let o := same_out n s in
  1 <= o /\ (o - 1) * s < n /\ n <= o * s /\ 1 <= eff f d /\
  0 <= same_before n f d s /\ 0 <= same_after n f d s /\
  same_before n f d s + same_after n f d s = Z.max 0 ((o - 1) * s + eff f d - n).
Proof.
  intros Hn Hf Hd Hs o. unfold same_after, same_before, same_needed. fold o.
  assert (B : 1 <= o /\ (o - 1) * s < n /\ n <= o * s).
  { unfold o, same_out. pose proof (Z.div_mod (n + s - 1) s ltac:(lia)). pose proof (Z.mod_pos_bound (n + s - 1) s ltac:(lia)).
    set (q := (n + s - 1) / s) in *. split; [|split]; nia. }
  destruct B as (B1 & B2 & B3). assert (E : 1 <= eff f d) by (unfold eff; nia).
  set (m := Z.max 0 ((o - 1) * s + eff f d - n)). assert (0 <= m) by lia.
  repeat split; auto; Z.to_euclidean_division_equations; lia.
Qed.

Lemma windowed_same_d n f d s : 1 <= n -> 1 <= s ->
  windowed_same_dilated n f d s = (same_out n s, same_before n f d s, same_after n f d s).
Proof.
  intros Hn Hs. unfold windowed_same_dilated.
  assert (E : Z.quot (n + s - 1) s = same_out n s) by (unfold same_out; apply Z.quot_div_nonneg; lia). rewrite E.
  fold (eff f d). fold (same_needed n f d s). unfold same_after, same_before.
  rewrite Z.quot_div_nonneg by (unfold same_needed; lia). reflexivity.
Qed.

Lemma valid_of_padded n f d s : 1 <= n -> 1 <= f -> 1 <= d -> 1 <= s ->
  valid_out (n + same_before n f d s + same_after n f d s) f d s = same_out n s.
Proof.
  intros Hn Hf Hd Hs. destruct (same_bounds_d n f d s Hn Hf Hd Hs) as (B1 & B2 & B3 & B4 & B5 & B6 & B7).
  unfold valid_out. set (o := same_out n s) in *. symmetry.
  apply Z.div_unique with (n + same_before n f d s + same_after n f d s - eff f d + s - o * s); lia.
Qed.

Lemma eff_tap f d k : 1 <= d -> 0 <= k < f -> 0 <= k * d <= eff f d - 1.
Proof. intros. unfold eff. split; nia. Qed.

(** ** sums over intervals *)
Definition isum (F : Z -> Z) (lo : Z) (n : nat) : Z := zsum (fun i => F (lo + Z.of_nat i)) n.

Lemma isum_app F lo n m : isum F lo (n + m) = isum F lo n + isum F (lo + Z.of_nat n) m.
Proof. unfold isum. rewrite zsum_app. f_equal. apply zsum_ext. intros i Hi. f_equal. lia. Qed.

Lemma isum_zero F lo n : (forall i, lo <= i < lo + Z.of_nat n -> F i = 0) -> isum F lo n = 0.
Proof. intros H. apply zsum_zero. intros i Hi. apply H. lia. Qed.

Lemma isum_inside F lo n lo' n' : lo' <= lo -> lo + Z.of_nat n <= lo' + Z.of_nat n' ->
  (forall i, lo' <= i < lo' + Z.of_nat n' -> ~ (lo <= i < lo + Z.of_nat n) -> F i = 0) -> isum F lo' n' = isum F lo n.
Proof.
  intros H1 H2 HZ. set (a := Z.to_nat (lo - lo')). set (b := (n' - a - n)%nat).
  replace n' with (a + (n + b))%nat by lia. rewrite !isum_app.
  rewrite (isum_zero F lo' a) by (intros i Hi; apply HZ; lia).
  replace (lo' + Z.of_nat a) with lo by lia.
  rewrite (isum_zero F (lo + Z.of_nat n) b) by (intros i Hi; apply HZ; lia). lia.
Qed.

Lemma isum_support F lo n lo' n' :
  (forall i, ~ (lo <= i < lo + Z.of_nat n) -> F i = 0) -> (forall i, ~ (lo' <= i < lo' + Z.of_nat n') -> F i = 0) ->
  isum F lo n = isum F lo' n'.
Proof.
  intros Z1 Z2. set (l := Z.min lo lo'). set (h := Z.max (lo + Z.of_nat n) (lo' + Z.of_nat n')).
  rewrite <- (isum_inside F lo n l (Z.to_nat (h - l))) by (try lia; intros; apply Z1; lia).
  rewrite <- (isum_inside F lo' n' l (Z.to_nat (h - l))) by (try lia; intros; apply Z2; lia). reflexivity.
Qed.

(** at most one tap *)
Lemma zsum_one (g : nat -> Z) n v : zsum (fun k => if Z.of_nat k =? v then g k else 0) n = if (0 <=? v) && (v <? Z.of_nat n) then g (Z.to_nat v) else 0.
Proof.
  induction n as [|n IH].
  - destruct (Z.leb_spec 0 v), (Z.ltb_spec v (Z.of_nat 0)); cbn; auto; lia.
  - rewrite <- Nat.add_1_r, zsum_app, IH. unfold zsum at 1. cbn [seq map fold_right]. rewrite Nat.add_0_r.
    destruct (Z.eqb_spec (Z.of_nat n) v) as [E|N].
    + replace (Z.to_nat v) with n by lia.
      replace ((0 <=? v) && (v <? Z.of_nat n)) with false by lia.
      replace ((0 <=? v) && (v <? Z.of_nat (n + 1))) with true by lia. lia.
    + replace ((0 <=? v) && (v <? Z.of_nat (n + 1))) with ((0 <=? v) && (v <? Z.of_nat n)) by lia. lia.
Qed.

Lemma sub_count_spec k h s j : (0 < s)%nat -> (h < k)%nat -> (j < sub_count k h s <-> h + s * j < k)%nat.
Proof.
  intros Hs Hk. unfold sub_count. pose proof (Nat.div_mod (k - h + s - 1) s ltac:(lia)) as D.
  pose proof (Nat.mod_upper_bound (k - h + s - 1) s ltac:(lia)). set (q := ((k - h + s - 1) / s)%nat) in *. nia.
Qed.

(** one dimension of the transpose convolution *)
Lemma transpose_1d (inN k h s : nat) (y : Z) (g : nat -> nat -> Z) :
  (0 < s)%nat -> (h < s)%nat -> (h < k)%nat ->
  let n := sub_count k h s in
  zsum (fun i => zsum (fun t => if Z.of_nat i * Z.of_nat s + Z.of_nat t =? y * Z.of_nat s + Z.of_nat h then g i t else 0) k) inN =
  zsum (fun a => let i := y - Z.of_nat (n - 1) + Z.of_nat a in
                 if (0 <=? i) && (i <? Z.of_nat inN) then g (Z.to_nat i) (h + s * (n - 1 - a))%nat else 0) n.
Proof.
  intros Hs Hh Hk n.
  set (v := fun i : Z => Z.of_nat h + Z.of_nat s * (y - i)).
  set (F := fun i : Z => if (0 <=? i) && (i <? Z.of_nat inN) && (0 <=? v i) && (v i <? Z.of_nat k) then g (Z.to_nat i) (Z.to_nat (v i)) else 0).
  assert (N1 : (1 <= n)%nat). { assert (0 < n)%nat by (apply sub_count_spec; lia). lia. }
  transitivity (isum F 0 inN).
  - apply zsum_ext. intros i Hi.
    transitivity (zsum (fun t => if Z.of_nat t =? v (Z.of_nat i) then g i t else 0) k).
    { apply zsum_ext. intros t Ht.
      replace (Z.of_nat i * Z.of_nat s + Z.of_nat t =? y * Z.of_nat s + Z.of_nat h) with (Z.of_nat t =? v (Z.of_nat i)) by (unfold v; lia).
      reflexivity. }
    rewrite zsum_one. unfold F. rewrite Z.add_0_l.
    replace ((0 <=? Z.of_nat i) && (Z.of_nat i <? Z.of_nat inN)) with true by lia. cbn [andb].
    rewrite Nat2Z.id. reflexivity.
  - transitivity (isum F (y - Z.of_nat (n - 1)) n).
    + apply isum_support.
      * intros i Hi. unfold F. replace ((0 <=? i) && (i <? Z.of_nat inN)) with false by lia. reflexivity.
      * intros i Hi. unfold F. destruct ((0 <=? i) && (i <? Z.of_nat inN)); [|reflexivity]. cbn [andb].
        destruct (Z.leb_spec 0 (v i)) as [V1|V1]; [|reflexivity]. destruct (Z.ltb_spec (v i) (Z.of_nat k)) as [V2|V2]; [|reflexivity].
        exfalso. apply Hi. unfold v in V1, V2.
        assert (0 <= y - i) by nia.
        assert (K : (Z.to_nat (y - i) < n)%nat).
        { apply sub_count_spec; lia. }
        lia.
    + apply zsum_ext. intros a Ha. cbv zeta. set (i := y - Z.of_nat (n - 1) + Z.of_nat a).
      unfold F. assert (VI : v i = Z.of_nat (h + s * (n - 1 - a))).
      { unfold v, i. rewrite Nat2Z.inj_add, Nat2Z.inj_mul. f_equal. f_equal. lia. }
      rewrite VI, Nat2Z.id.
      assert (L : (h + s * (n - 1 - a) < k)%nat) by (apply sub_count_spec; lia).
      clearbody i. destruct ((0 <=? i) && (i <? Z.of_nat inN)); cbn [andb]; [|reflexivity].
      destruct (Z.leb_spec 0 (Z.of_nat (h + s * (n - 1 - a)))) as [P1|P1]; [|pose proof (Nat2Z.is_nonneg (h + s * (n - 1 - a))); exfalso; clear -P1 H; eapply Z.lt_irrefl, Z.le_lt_trans; eassumption].
      destruct (Z.ltb_spec (Z.of_nat (h + s * (n - 1 - a))) (Z.of_nat k)) as [P2|P2]; [|apply Nat2Z.inj_le in P2; exfalso; clear -P2 L; eapply Nat.lt_irrefl, Nat.lt_le_trans; eassumption]. reflexivity.
Qed.

(** the sub-kernels *)
Lemma in_reorder kH kW sH sW c : In c (reorder_kernel kH kW sH sW) ->
  (subH c < sH /\ subH c < kH /\ subW c < sW /\ subW c < kW)%nat /\
  c = SubKernel (subH c) (subW c) (sub_count kH (subH c) sH) (sub_count kW (subW c) sW)
        (fun a b => (subH c + sH * (sub_count kH (subH c) sH - 1 - a), subW c + sW * (sub_count kW (subW c) sW - 1 - b))%nat).
Proof.
  intros H. apply in_flat_map in H. destruct H as (h & Hh & H). apply in_map_iff in H. destruct H as (w & <- & Hw).
  apply filter_In in Hh, Hw. destruct Hh as [Hh1 Hh2], Hw as [Hw1 Hw2]. apply in_seq in Hh1, Hw1.
  apply Nat.ltb_lt in Hh2, Hw2. cbn [subH subW]. repeat split; lia.
Qed.
Lemma reorder_in kH kW sH sW h w : (h < sH -> h < kH -> w < sW -> w < kW ->
  exists c, In c (reorder_kernel kH kW sH sW) /\ subH c = h /\ subW c = w)%nat.
Proof.
  intros H1 H2 H3 H4. eexists. split.
  - apply in_flat_map. exists h. split; [apply filter_In; split; [apply in_seq; lia|apply Nat.ltb_lt; auto]|].
    apply in_map_iff. exists w. split; [reflexivity|]. apply filter_In; split; [apply in_seq; lia|apply Nat.ltb_lt; auto].
  - split; reflexivity.
Qed.

Lemma transpose_padding_max cs : forall v h,
  let r := fold_left (fun '(v, h) c => (Z.max v (Z.of_nat (skH c) - 1), Z.max h (Z.of_nat (skW c) - 1))) cs (v, h) in
  v <= fst r /\ h <= snd r /\ Forall (fun c => Z.of_nat (skH c) - 1 <= fst r /\ Z.of_nat (skW c) - 1 <= snd r) cs.
Proof.
  induction cs as [|c cs IH]; intros v h; cbn [fold_left].
  - cbn. repeat split; try lia. constructor.
  - destruct (IH (Z.max v (Z.of_nat (skH c) - 1)) (Z.max h (Z.of_nat (skW c) - 1))) as (I1 & I2 & I3).
    cbv zeta. repeat split; try lia. constructor; [lia|exact I3].
Qed.

Lemma flat_map_ext_in' {A B} (f g : A -> list B) l : (forall x, In x l -> f x = g x) -> flat_map f l = flat_map g l.
Proof. induction l as [|x l IH]; intros H; cbn; auto. rewrite (H x) by (left; auto). rewrite IH; auto. intros y Hy; apply H; right; auto. Qed.
