(** C44: parameters of the quantised add and sub. *)
From Coq Require Import List ZArith Bool QArith Qround Qminmax Qabs Lia Lqa Qpower.
Import ListNotations.
From Verif Require Import LutModel LutSpec LutProofs AddModel.
Local Open Scope Z_scope.

(** * Specification *)
(** The real sum (difference) of two stored values, in units of the output scale, plus the
    output's zero point: the number an exact implementation rounds and saturates. *)
Definition exact_output (lhs rhs out : qtype) (sub : bool) (x1 x2 : Z) : Q :=
  let a := dequantised (q_scale lhs) (q_zero lhs) x1 in
  let b := dequantised (q_scale rhs) (q_zero rhs) x2 in
  ((if sub then a - b else a + b) / q_scale out + inject_Z (q_zero out))%Q.
Definition sound (t : qtype) : Prop := (0 < q_scale t)%Q /\ int8 (q_zero t).

(** * Powers of two *)
Lemma pow2_pos k : (0 < Qpower 2 k)%Q.
Proof. apply Qpower_0_lt. reflexivity. Qed.
Lemma pow2_add a b : (Qpower 2 (a + b) == Qpower 2 a * Qpower 2 b)%Q.
Proof. apply Qpower_plus. intros C. discriminate. Qed.
Lemma pow2_Z k : 0 <= k -> (Qpower 2 k == inject_Z (2 ^ k))%Q.
Proof. intros H. symmetry. exact (Zpower_Qpower 2 k H). Qed.
Lemma log2_bounds n : 0 < n -> (Qpower 2 (Z.log2 n) <= inject_Z n)%Q /\ (inject_Z n < 2 * Qpower 2 (Z.log2 n))%Q.
Proof.
  intros H. pose proof (Z.log2_spec n H) as [A B]. pose proof (Z.log2_nonneg n) as L. rewrite pow2_Z by exact L. split.
  - apply injZ_le. exact A.
  - rewrite Z.pow_succ_r in B by exact L. change (2 * inject_Z (2 ^ Z.log2 n))%Q with (inject_Z 2 * inject_Z (2 ^ Z.log2 n))%Q.
    rewrite <- inject_Z_mult. apply injZ_lt. exact B.
Qed.
Lemma floor_log2_spec q : (0 < q)%Q -> (Qpower 2 (floor_log2 q) <= q)%Q /\ (q < 2 * Qpower 2 (floor_log2 q))%Q.
Proof.
  intros Hq. destruct q as [n d]. assert (Hn : 0 < n) by (unfold Qlt in Hq; cbn in Hq; lia).
  destruct (log2_bounds n Hn) as [A B]. destruct (log2_bounds (Zpos d) ltac:(lia)) as [C D].
  set (a := Z.log2 n) in *. set (b := Z.log2 (Zpos d)) in *.
  assert (Eq : (n # d == inject_Z n / inject_Z (Zpos d))%Q) by (rewrite <- Qmake_Qdiv; reflexivity).
  assert (Hd : (0 < inject_Z (Zpos d))%Q) by reflexivity.
  pose proof (pow2_pos (a - b)) as P. pose proof (pow2_pos b) as Pb.
  assert (Eab : (Qpower 2 a == Qpower 2 (a - b) * Qpower 2 b)%Q) by (rewrite <- pow2_add; replace (a - b + b) with a by lia; reflexivity).
  assert (Hlt : ((n # d) < 2 * Qpower 2 (a - b))%Q).
  { rewrite Eq. apply Qlt_shift_div_r; [exact Hd|].
    apply Qlt_le_trans with (2 * (Qpower 2 (a - b) * Qpower 2 b))%Q; [rewrite <- Eab; exact B|].
    assert (X : (Qpower 2 (a - b) * Qpower 2 b <= Qpower 2 (a - b) * inject_Z (Zpos d))%Q) by (apply Qmult_le_l; assumption). lra. }
  assert (Hge : (Qpower 2 (a - b) <= 2 * (n # d))%Q).
  { rewrite Eq.
    assert (X : (Qpower 2 (a - b) * (1 # 2) <= inject_Z n / inject_Z (Zpos d))%Q); [|lra].
    apply Qle_shift_div_l; [exact Hd|].
    apply Qle_trans with (Qpower 2 (a - b) * (1 # 2) * (2 * Qpower 2 b))%Q.
    - apply Qmult_le_l; [lra|]. lra.
    - lra. }
  unfold floor_log2. cbn [Qnum Qden]. fold a b.
  destruct (Qle_bool (Qpower 2 (a - b)) (n # d)) eqn:E.
  - apply Qle_bool_iff in E. split; assumption.
  - assert (E' : (n # d < Qpower 2 (a - b))%Q).
    { apply Qnot_le_lt. intros X. apply Qle_bool_iff in X. congruence. }
    assert (Em : (Qpower 2 (a - b) == 2 * Qpower 2 (a - b - 1))%Q).
    { rewrite <- (Z.sub_add 1 (a - b)) at 1. rewrite pow2_add. change (Qpower 2 1) with 2%Q. ring. }
    split; lra.
Qed.

(** * Bounds *)
Section Params.
Variables (lhs rhs out : qtype) (sub : bool).
Hypotheses (Hl : sound lhs) (Hr : sound rhs) (Ho : sound out).
Let r1 := (q_scale lhs / q_scale out)%Q.
Let r2 := (q_scale rhs / q_scale out)%Q.
Let maxR := Qmax r1 r2.
Let shift := floor_log2 (Qpower 2 14 / maxR).
Let sgn : Q := if sub then (-1)%Q else 1%Q.
Let P := Qpower 2 shift.

Lemma r1_pos : (0 < r1)%Q.
Proof. unfold r1. apply Qlt_shift_div_l; [apply Ho|]. rewrite Qmult_0_l. apply Hl. Qed.
Lemma r2_pos : (0 < r2)%Q.
Proof. unfold r2. apply Qlt_shift_div_l; [apply Ho|]. rewrite Qmult_0_l. apply Hr. Qed.
Lemma maxR_pos : (0 < maxR)%Q.
Proof. unfold maxR. apply Qlt_le_trans with r1; [apply r1_pos|apply Q.le_max_l]. Qed.
Lemma shift_spec : (P * maxR <= Qpower 2 14 /\ Qpower 2 13 < P * maxR)%Q.
Proof.
  pose proof maxR_pos as Hm.
  destruct (floor_log2_spec (Qpower 2 14 / maxR)) as [A B].
  { apply Qlt_shift_div_l; [exact Hm|]. rewrite Qmult_0_l. apply pow2_pos. }
  fold shift P in A, B. 
  assert (E : (Qpower 2 14 / maxR * maxR == Qpower 2 14)%Q) by (field; lra).
  split.
  - rewrite <- E. apply Qmult_le_compat_r; [exact A|lra].
  - assert (X : (Qpower 2 14 / maxR * maxR < 2 * P * maxR)%Q) by (apply Qmult_lt_compat_r; assumption).
    rewrite E in X.
    assert (E13 : (Qpower 2 14 == 2 * Qpower 2 13)%Q) by reflexivity. rewrite E13 in X. lra.
Qed.
Lemma ratio_bound r : (0 < r)%Q -> (r <= maxR)%Q -> (0 < r * P <= 16384)%Q.
Proof.
  intros H0 H1. destruct shift_spec as [A _].
  assert (E14 : (Qpower 2 14 == 16384)%Q) by reflexivity. rewrite E14 in A.
  pose proof (pow2_pos shift) as HP. fold P in HP.
  split; [apply Qmult_lt_0_compat; assumption|].
  apply Qle_trans with (P * maxR)%Q; [|exact A]. rewrite Qmult_comm. rewrite Qmult_le_l by exact HP. exact H1.
Qed.
Lemma round_close x : (Qabs (inject_Z (c_round x) - x) <= 1 # 2)%Q.
Proof. pose proof (rounds_bounds x _ (c_round_ok x)) as [A B]. apply Qabs_Qle_condition. split; lra. Qed.
Lemma round_range x (n : Z) : (- inject_Z n <= x <= inject_Z n)%Q -> - n <= c_round x <= n.
Proof.
  intros [A B]. split.
  - rewrite <- (c_round_int (- n)). apply c_round_mono. rewrite inject_Z_opp. exact A.
  - rewrite <- (c_round_int n). apply c_round_mono. exact B.
Qed.
Lemma m1_range : - 16384 <= c_round (r1 * P) <= 16384.
Proof. apply (round_range _ 16384). pose proof (ratio_bound r1 r1_pos (Q.le_max_l r1 r2)). change (inject_Z 16384) with 16384%Q. lra. Qed.
Lemma m2_range : - 16384 <= c_round ((if sub then - r2 else r2) * P) <= 16384.
Proof.
  apply (round_range _ 16384). pose proof (ratio_bound r2 r2_pos (Q.le_max_r r1 r2)). change (inject_Z 16384) with 16384%Q. destruct sub; lra.
Qed.
Definition bias_real : Q := ((inject_Z (q_zero out) - inject_Z (q_zero lhs) * r1 - inject_Z (q_zero rhs) * (if sub then - r2 else r2)) * P)%Q.
Lemma zero_bound t : sound t -> (-128 <= inject_Z (q_zero t) <= 128)%Q.
Proof. intros [_ [A B]]. split; [change (-128)%Q with (inject_Z (-128))|change 128%Q with (inject_Z 128)]; apply injZ_le; lia. Qed.
Lemma mul_bound (a b c d : Q) : (- c <= a <= c)%Q -> (0 <= b <= d)%Q -> (- (c * d) <= a * b <= c * d)%Q.
Proof.
  intros [A1 A2] [B1 B2]. assert (Hc : (0 <= c)%Q) by lra.
  assert (X : (a * b <= c * b)%Q) by (apply Qmult_le_compat_r; assumption).
  assert (Y : ((- c) * b <= a * b)%Q) by (apply Qmult_le_compat_r; assumption).
  assert (W : (b * c <= d * c)%Q) by (apply Qmult_le_compat_r; assumption).
  split; lra.
Qed.
Lemma bias_bound : shift <= 23 -> (- 1077936128 <= bias_real <= 1077936128)%Q.
Proof.
  intros Hs. unfold bias_real.
  pose proof (ratio_bound r1 r1_pos (Q.le_max_l r1 r2)) as B1. pose proof (ratio_bound r2 r2_pos (Q.le_max_r r1 r2)) as B2.
  pose proof (pow2_pos shift) as HP. fold P in HP.
  assert (HP2 : (P <= 8388608)%Q).
  { change 8388608%Q with (Qpower 2 23). unfold P. apply Qpower_le_compat_l; [exact Hs|]. discriminate. }
  destruct (mul_bound (inject_Z (q_zero out)) P 128 8388608 (zero_bound out Ho) ltac:(lra)) as [A1 A2].
  destruct (mul_bound (inject_Z (q_zero lhs)) (r1 * P) 128 16384 (zero_bound lhs Hl) ltac:(lra)) as [A3 A4].
  destruct (mul_bound (inject_Z (q_zero rhs)) (r2 * P) 128 16384 (zero_bound rhs Hr) ltac:(lra)) as [A5 A6].
  destruct sub; lra.
Qed.
End Params.

(** The shift for which the bias is sure to fit: the larger input scale is more than
    1/1024 of the output scale. *)
Lemma shift_le lhs rhs out : sound lhs -> sound rhs -> sound out ->
  (1 # 1024 < Qmax (q_scale lhs / q_scale out) (q_scale rhs / q_scale out))%Q ->
  floor_log2 (Qpower 2 14 / Qmax (q_scale lhs / q_scale out) (q_scale rhs / q_scale out)) <= 23.
Proof.
  intros Hl Hr Ho H. destruct (shift_spec lhs rhs out Hl Ho) as [A _].
  set (m := Qmax _ _) in *. set (s := floor_log2 _) in *.
  assert (X : (Qpower 2 s < Qpower 2 24)%Q).
  { assert (HP := pow2_pos s). assert (Y : (Qpower 2 s * (1 # 1024) < Qpower 2 s * m)%Q) by (apply Qmult_lt_l; assumption).
    assert (E14 : (Qpower 2 14 == 16384)%Q) by reflexivity. rewrite E14 in A. change (Qpower 2 24) with 16777216%Q. lra. }
  apply Qpower_lt_compat_l_inv in X; [lia|reflexivity].
Qed.

(** The parameters exist, the multipliers have at most 15 bits (they fit the 16-bit fields of
    the kernel) and the larger one uses at least 14 of them, and the accumulator does not
    overflow 32 bits, for all stored values. *)
Theorem C44_fields_fit : forall lhs rhs out sub, sound lhs -> sound rhs -> sound out ->
  (1 # 1024 < Qmax (q_scale lhs / q_scale out) (q_scale rhs / q_scale out))%Q ->
  exists op, replace_add_sub lhs rhs out sub = Some op /\
    - 16384 <= a_m1 op <= 16384 /\ - 16384 <= a_m2 op <= 16384 /\
    8192 <= Z.max (Z.abs (a_m1 op)) (Z.abs (a_m2 op)) /\
    - 2 ^ 31 <= a_bias op < 2 ^ 31 /\ a_shift op <= 23 /\
    forall x1 x2, int8 x1 -> int8 x2 -> - 2 ^ 31 <= add_acc op x1 x2 < 2 ^ 31.
Proof.
  intros lhs rhs out sub Hl Hr Ho Hm.
  pose proof (shift_le lhs rhs out Hl Hr Ho Hm) as Hs.
  pose proof (m1_range lhs rhs out Hl Ho) as M1. pose proof (m2_range lhs rhs out sub Hl Hr Ho) as M2.
  pose proof (bias_bound lhs rhs out sub Hl Hr Ho Hs) as Bb. unfold bias_real in Bb.
  destruct (shift_spec lhs rhs out Hl Ho) as [_ Hbig].
  set (s := floor_log2 _) in *.
  unfold replace_add_sub. cbv zeta. fold s.
  set (m1 := c_round (q_scale lhs / q_scale out * Qpower 2 s)) in *.
  set (m2 := c_round ((if sub then (- (q_scale rhs / q_scale out))%Q else (q_scale rhs / q_scale out)%Q) * Qpower 2 s)) in *.
  match goal with |- context [as_int (c_round ?x)] => match x with context [q_zero out] => set (br := x) in *; set (bias := c_round br) end end.
  assert (HB : - 1077936128 <= bias <= 1077936128).
  { apply (round_range _ 1077936128). change (inject_Z 1077936128) with 1077936128%Q. lra. }
  unfold as_int, to_int32.
  replace ((- 2 ^ 31 <=? m1) && (m1 <? 2 ^ 31)) with true by (symmetry; apply andb_true_intro; split; [apply Z.leb_le|apply Z.ltb_lt]; change (2 ^ 31) with 2147483648; lia).
  replace ((- 2 ^ 31 <=? m2) && (m2 <? 2 ^ 31)) with true by (symmetry; apply andb_true_intro; split; [apply Z.leb_le|apply Z.ltb_lt]; change (2 ^ 31) with 2147483648; lia).
  replace ((- 2 ^ 31 <=? bias) && (bias <? 2 ^ 31)) with true by (symmetry; apply andb_true_intro; split; [apply Z.leb_le|apply Z.ltb_lt]; change (2 ^ 31) with 2147483648; lia).
  eexists. split; [reflexivity|]. cbn [a_m1 a_m2 a_bias a_shift]. split; [exact M1|]. split; [exact M2|]. split.
  { assert (E13 : (Qpower 2 13 == 8192)%Q) by reflexivity. rewrite E13 in Hbig.
    set (r1 := (q_scale lhs / q_scale out)%Q) in *. set (r2 := (q_scale rhs / q_scale out)%Q) in *.
    assert (Hc : (8192 <= r1 * Qpower 2 s)%Q \/ (8192 <= r2 * Qpower 2 s)%Q).
    { destruct (Q.max_spec r1 r2) as [[_ E]|[_ E]]; rewrite E in Hbig; [right|left]; lra. }
    destruct Hc as [Hc|Hc].
    - assert (X : 8192 <= m1) by (unfold m1; rewrite <- (c_round_int 8192); apply c_round_mono; exact Hc). lia.
    - destruct sub.
      + assert (X : m2 <= - 8192). { unfold m2. rewrite <- (c_round_int (- 8192)). apply c_round_mono. change (inject_Z (- 8192)) with (- 8192)%Q. lra. } lia.
      + assert (X : 8192 <= m2) by (unfold m2; rewrite <- (c_round_int 8192); apply c_round_mono; exact Hc). lia. }
  split; [change (2 ^ 31) with 2147483648; lia|]. split; [exact Hs|].
  intros x1 x2 [X1 X1'] [X2 X2']. unfold add_acc. cbn [a_m1 a_m2 a_bias]. change (2 ^ 31) with 2147483648.
  assert (Y1 : - 2097152 <= m1 * x1 <= 2097152) by nia. assert (Y2 : - 2097152 <= m2 * x2 <= 2097152) by nia. lia.
Qed.

(** The accumulator divided by 2^shift is the exact output up to 257 / 2^(shift+1), for all
    stored values, whatever the scales. *)
Theorem C44_accuracy : forall lhs rhs out sub op x1 x2, sound lhs -> sound rhs -> sound out -> int8 x1 -> int8 x2 ->
  replace_add_sub lhs rhs out sub = Some op ->
  (Qabs (inject_Z (add_acc op x1 x2) - exact_output lhs rhs out sub x1 x2 * Qpower 2 (a_shift op)) <= 257 # 2)%Q.
Proof.
  intros lhs rhs out sub op x1 x2 [Hl _] [Hr _] [Ho _] X1 X2 H. unfold replace_add_sub in H. cbv zeta in H.
  set (s := floor_log2 _) in *. set (P := Qpower 2 s) in *.
  set (r1 := (q_scale lhs / q_scale out)%Q) in *. set (r2 := (q_scale rhs / q_scale out)%Q) in *.
  set (r2' := if sub then (- r2)%Q else r2) in *.
  set (m1 := c_round (r1 * P)) in *. set (m2 := c_round (r2' * P)) in *.
  match type of H with context [as_int (c_round ?x)] => match x with context [q_zero out] => set (br := x) in *; set (bias := c_round br) in * end end.
  unfold as_int, to_int32 in H.
  destruct ((- 2 ^ 31 <=? m1) && (m1 <? 2 ^ 31)); [|discriminate]. destruct ((- 2 ^ 31 <=? m2) && (m2 <? 2 ^ 31)); [|discriminate].
  destruct ((- 2 ^ 31 <=? bias) && (bias <? 2 ^ 31)); [|discriminate]. injection H as <-. unfold add_acc. cbn [a_m1 a_m2 a_bias a_shift]. fold P.
  pose proof (rounds_bounds _ _ (c_round_ok (r1 * P))) as [E1 E1']. fold m1 in E1, E1'.
  pose proof (rounds_bounds _ _ (c_round_ok (r2' * P))) as [E2 E2']. fold m2 in E2, E2'.
  pose proof (rounds_bounds _ _ (c_round_ok br)) as [E3 E3']. fold bias in E3, E3'.
  assert (Ex : (exact_output lhs rhs out sub x1 x2 * P == inject_Z x1 * (r1 * P) + inject_Z x2 * (r2' * P) + br)%Q).
  { unfold exact_output, dequantised, br, r2', r1, r2. unfold Z.sub. rewrite !inject_Z_plus, !inject_Z_opp. destruct sub; field; lra. }
  rewrite Ex. rewrite !inject_Z_plus, !inject_Z_mult.
  assert (B1 : (-128 <= inject_Z x1 <= 128)%Q) by (destruct X1; split; [change (-128)%Q with (inject_Z (-128))|change 128%Q with (inject_Z 128)]; apply injZ_le; lia).
  assert (B2 : (-128 <= inject_Z x2 <= 128)%Q) by (destruct X2; split; [change (-128)%Q with (inject_Z (-128))|change 128%Q with (inject_Z 128)]; apply injZ_le; lia).
  assert (G : forall a d, (-128 <= a <= 128)%Q -> (- (1 # 2) <= d <= 1 # 2)%Q -> (- 64 <= a * d <= 64)%Q).
  { intros a d [A A'] [D D']. destruct (Qlt_le_dec d 0) as [N|N].
    - destruct (mul_bound a (- d) 128 (1 # 2)) as [U V]; [split; assumption|lra|]. lra.
    - destruct (mul_bound a d 128 (1 # 2)) as [U V]; [split; assumption|lra|]. lra. }
  destruct (G (inject_Z x1) (inject_Z m1 - r1 * P) B1 ltac:(lra))%Q as [U1 V1].
  destruct (G (inject_Z x2) (inject_Z m2 - r2' * P) B2 ltac:(lra))%Q as [U2 V2].
  apply Qabs_Qle_condition. split; lra.
Qed.

(** Hence, for the assumed kernel (rounding shift, saturation): the stored output is at most
    one away from the correctly rounded one when the larger scale ratio is at most 32. *)
Lemma round_shift a s : 1 <= s -> (Qabs (inject_Z ((a + 2 ^ (s - 1)) / 2 ^ s) * Qpower 2 s - inject_Z a) <= Qpower 2 s * (1 # 2))%Q.
Proof.
  intros Hs. set (h := 2 ^ (s - 1)). assert (Eh : 2 ^ s = 2 * h) by (unfold h; rewrite <- Z.pow_succ_r by lia; f_equal; lia).
  assert (Hh : 0 < h) by (apply Z.pow_pos_nonneg; lia).
  rewrite pow2_Z by lia. rewrite Eh. set (k := (a + h) / (2 * h)).
  assert (Hk : 2 * h * k <= a + h < 2 * h * k + 2 * h).
  { unfold k. pose proof (Z.div_mod (a + h) (2 * h) ltac:(lia)). pose proof (Z.mod_pos_bound (a + h) (2 * h) ltac:(lia)). lia. }
  rewrite <- inject_Z_mult.
  assert (A : (inject_Z (k * (2 * h)) <= inject_Z a + inject_Z h)%Q) by (rewrite <- inject_Z_plus; apply injZ_le; lia).
  assert (B : (inject_Z a - inject_Z h <= inject_Z (k * (2 * h)))%Q).
  { assert (X : (inject_Z (a + (- h)) <= inject_Z (k * (2 * h)))%Q) by (apply injZ_le; lia). rewrite inject_Z_plus, inject_Z_opp in X. lra. }
  assert (C : (inject_Z (2 * h) == 2 * inject_Z h)%Q) by (rewrite inject_Z_mult; reflexivity). rewrite C.
  apply Qabs_Qle_condition. split; lra.
Qed.
Theorem C44_output : forall lhs rhs out sub op x1 x2, sound lhs -> sound rhs -> sound out -> int8 x1 -> int8 x2 ->
  (Qmax (q_scale lhs / q_scale out) (q_scale rhs / q_scale out) <= 32)%Q ->
  replace_add_sub lhs rhs out sub = Some op ->
  let correct := Z.min 127 (Z.max (-128) (c_round (exact_output lhs rhs out sub x1 x2))) in
  Z.abs (add_kernel op x1 x2 - correct) <= 1.
Proof.
  intros lhs rhs out sub op x1 x2 Hl Hr Ho X1 X2 Hm H.
  pose proof (C44_accuracy lhs rhs out sub op x1 x2 Hl Hr Ho X1 X2 H) as Acc.
  assert (Hs : 9 <= a_shift op /\ a_shift op = floor_log2 (Qpower 2 14 / Qmax (q_scale lhs / q_scale out) (q_scale rhs / q_scale out))).
  { unfold replace_add_sub in H. cbv zeta in H. destruct (shift_spec lhs rhs out Hl Ho) as [_ Hbig].
    set (s := floor_log2 _) in *. destruct (as_int _); [|discriminate]. destruct (as_int _); [|discriminate]. destruct (as_int _); [|discriminate].
    injection H as <-. cbn [a_shift]. split; [|reflexivity].
    set (m := Qmax _ _) in *. assert (HP := pow2_pos s).
    assert (Y : (Qpower 2 s * m <= Qpower 2 s * 32)%Q) by (apply Qmult_le_l; assumption).
    assert (E13 : (Qpower 2 13 == 8192)%Q) by reflexivity. rewrite E13 in Hbig.
    assert (X : (Qpower 2 8 < Qpower 2 s)%Q) by (change (Qpower 2 8) with 256%Q; lra).
    apply Qpower_lt_compat_l_inv in X; [lia|reflexivity]. }
  destruct Hs as [Hs _]. set (s := a_shift op) in *.
  intros correct. unfold add_kernel. cbv zeta. fold s.
  pose proof (round_shift (add_acc op x1 x2) s ltac:(lia)) as Rs. set (r := (add_acc op x1 x2 + 2 ^ (s - 1)) / 2 ^ s) in *.
  set (y := exact_output lhs rhs out sub x1 x2) in *.
  assert (HP : (512 <= Qpower 2 s)%Q) by (change 512%Q with (Qpower 2 9); apply Qpower_le_compat_l; [exact Hs|discriminate]).
  apply Qabs_Qle_condition in Acc, Rs. set (P := Qpower 2 s) in *. clearbody P.
  assert (D : (- (1) < inject_Z r - y < 1)%Q).
  { assert (E1 : (- (P * (1 # 2)) - (257 # 2) <= (inject_Z r - y) * P)%Q) by lra.
    assert (E2 : ((inject_Z r - y) * P <= P * (1 # 2) + (257 # 2))%Q) by lra.
    set (d := (inject_Z r - y)%Q) in *. clearbody d. split.
    - apply Qnot_le_lt. intros N. assert (Z1 : (d * P <= - (1) * P)%Q) by (apply Qmult_le_compat_r; lra). lra.
    - apply Qnot_le_lt. intros N. assert (Z1 : (1 * P <= d * P)%Q) by (apply Qmult_le_compat_r; lra). lra. }
  pose proof (rounds_bounds y _ (c_round_ok y)) as [R1 R2]. set (c := c_round y) in *.
  assert (Hrc : -1 <= r - c <= 1).
  { split.
    - assert (Z1 : (inject_Z (c + -2) < inject_Z r)%Q) by (rewrite inject_Z_plus; change (inject_Z (-2)) with (-2)%Q; lra). apply Zlt_inj in Z1. lia.
    - assert (Z1 : (inject_Z r < inject_Z (c + 2))%Q) by (rewrite inject_Z_plus; change (inject_Z 2) with 2%Q; lra). apply Zlt_inj in Z1. lia. }
  unfold correct. fold y c. lia.
Qed.

(** With equal scales and powers of two the result is exact. *)
Theorem C44_equal_scales_exact : forall s z1 z2 zo sub op x1 x2, (0 < s)%Q -> int8 z1 -> int8 z2 -> int8 zo -> int8 x1 -> int8 x2 ->
  replace_add_sub (QType s z1) (QType s z2) (QType s zo) sub = Some op ->
  add_kernel op x1 x2 = Z.min 127 (Z.max (-128) (if sub then (x1 - z1) - (x2 - z2) + zo else (x1 - z1) + (x2 - z2) + zo)).
Proof.
  intros s z1 z2 zo sub op x1 x2 Hs Z1 Z2 Z0 X1 X2 H. unfold replace_add_sub in H. cbn [q_scale q_zero] in H. cbv zeta in H.
  assert (E1 : (s / s == 1)%Q) by (field; lra).
  set (r := (s / s)%Q) in *.
  assert (Em : (Qmax r r == 1)%Q) by (rewrite Q.max_id; exact E1).
  assert (Esh : floor_log2 (Qpower 2 14 / Qmax r r) = 14).
  { destruct (floor_log2_spec (Qpower 2 14 / Qmax r r)) as [A B].
    - rewrite Em. reflexivity.
    - rewrite Em in A at 2. rewrite Em in B at 1. set (k := floor_log2 _) in *.
      assert (E14 : (Qpower 2 14 / 1 == Qpower 2 14)%Q) by reflexivity. rewrite E14 in A, B.
      assert (Eb : (2 * Qpower 2 k == Qpower 2 (k + 1))%Q) by (rewrite pow2_add; change (Qpower 2 1) with 2%Q; ring). rewrite Eb in B.
      apply Qpower_lt_compat_l_inv in B; [|reflexivity].
      assert (k <= 14); [|lia]. destruct (Z_le_gt_dec k 14) as [L|L]; [exact L|]. exfalso.
      assert (X : (Qpower 2 15 <= Qpower 2 k)%Q) by (apply Qpower_le_compat_l; [lia|discriminate]).
      change (Qpower 2 15) with 32768%Q in X. change (Qpower 2 14) with 16384%Q in A. lra. }
  rewrite Esh in H.
  assert (M1 : c_round (r * Qpower 2 14) = 16384) by (rewrite <- (c_round_int 16384); apply c_round_comp; rewrite E1; reflexivity).
  assert (M2 : c_round ((if sub then (- r)%Q else r) * Qpower 2 14) = if sub then -16384 else 16384).
  { destruct sub; [rewrite <- (c_round_int (-16384))|rewrite <- (c_round_int 16384)]; apply c_round_comp; rewrite E1; reflexivity. }
  assert (M3 : c_round ((inject_Z zo - inject_Z z1 * r - inject_Z z2 * (if sub then (- r)%Q else r)) * Qpower 2 14) = (zo - z1 - (if sub then - z2 else z2)) * 16384).
  { rewrite <- (c_round_int ((zo - z1 - (if sub then - z2 else z2)) * 16384)). apply c_round_comp. unfold Z.sub. rewrite inject_Z_mult, !inject_Z_plus, !inject_Z_opp.
    change (Qpower 2 14) with (inject_Z 16384). destruct sub; rewrite E1, ?inject_Z_opp; ring. }
  rewrite M1, M2, M3 in H. unfold as_int, to_int32 in H. change (2 ^ 31) with 2147483648 in H.
  repeat match type of H with context [if ?c then Some _ else None] => destruct c; [|discriminate] end.
  injection H as <-. unfold add_kernel, add_acc. cbn [a_m1 a_m2 a_bias a_shift]. f_equal. f_equal.
  change (2 ^ (14 - 1)) with 8192. change (2 ^ 14) with 16384. destruct sub; Z.to_euclidean_division_equations; lia.
Qed.

(** Very different scales: the bias does not fit an int, the conversion is undefined. *)
Theorem C44_refuted_bias_overflow : exists lhs rhs out, sound lhs /\ sound rhs /\ sound out /\ replace_add_sub lhs rhs out false = None.
Proof.
  exists (QType (1 # 4096) 0), (QType (1 # 4096) 0), (QType 1 (-128)).
  split; [split; [reflexivity|split; discriminate]|]. split; [split; [reflexivity|split; discriminate]|]. split; [split; [reflexivity|split; discriminate]|]. vm_compute. reflexivity.
Qed.
(** A large scale ratio: the shift is negative, which the kernel does not support. *)
Theorem C44_refuted_negative_shift : exists lhs rhs out op, sound lhs /\ sound rhs /\ sound out /\
  replace_add_sub lhs rhs out false = Some op /\ a_shift op < 0.
Proof.
  exists (QType 40000 0), (QType 1 0), (QType 1 0). eexists.
  split; [split; [reflexivity|split; discriminate]|]. split; [split; [reflexivity|split; discriminate]|]. split; [split; [reflexivity|split; discriminate]|].
  split; [vm_compute; reflexivity|]. reflexivity.
Qed.
Example C44_example : let l := QType (3 # 100) (-5) in let r := QType (1 # 50) 7 in let o := QType (1 # 20) 3 in
  sound l /\ sound r /\ sound o /\ (1 # 1024 < Qmax (q_scale l / q_scale o) (q_scale r / q_scale o) <= 32)%Q /\
  replace_add_sub l r o false = Some (AddOp 9830 6554 52429 14) /\
  add_kernel (AddOp 9830 6554 52429 14) 100 (-20) = 55.
Proof. vm_compute. repeat split; try reflexivity; discriminate. Qed.

Print Assumptions C44_fields_fit.
Print Assumptions C44_accuracy.
Print Assumptions C44_output.
Print Assumptions C44_equal_scales_exact.
