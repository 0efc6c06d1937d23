(** C86: the fixed-point logarithms of the audio example. *)
From Coq Require Import List ZArith Lia Psatz Bool Arith Reals.
Import ListNotations.
From Verif Require Import LogModel LogSpec LogProofs.
Local Open Scope Z_scope.

Lemma norm_sandwich x k : 0 < x -> 0 <= k -> let e := Z.log2 x in let X := x * 2 ^ k / 2 ^ e in X * 2 ^ e <= x * 2 ^ k < (X + 1) * 2 ^ e.
Proof.
  intros H K e X. assert (P : 0 < 2 ^ e) by (apply Z.pow_pos_nonneg; try apply Z.log2_nonneg; lia). subst X.
  pose proof (Z.mul_div_le (x * 2 ^ k) (2 ^ e) P). pose proof (Z.mul_succ_div_gt (x * 2 ^ k) (2 ^ e) P). nia.
Qed.
(** From a normalised value to any value. *)
Lemma within_norm q a b k x v : 0 < x -> 0 <= k -> 0 <= a -> 0 <= b -> 0 < q -> 0 <= v -> let X := x * 2 ^ k / 2 ^ Z.log2 x in
  2 ^ v * 2 ^ (k * q) <= 2 ^ a * X ^ q -> (X + 1) ^ q <= 2 ^ b * 2 ^ v * 2 ^ (k * q) -> log_within q a b x (v + q * Z.log2 x).
Proof.
  intros H K A B Q V X H1 H2. pose proof (norm_sandwich x k H K) as [S1 S2]. fold X in S1, S2. cbv zeta in S1, S2. pose proof (Z.log2_nonneg x) as L0. set (e := Z.log2 x) in *.
  assert (X0 : 0 <= X) by (apply Z.div_pos; [apply Z.mul_nonneg_nonneg; [lia|apply Z.pow_nonneg; lia]|apply Z.pow_pos_nonneg; lia]).
  assert (KQ : 0 < 2 ^ (k * q)) by (apply Z.pow_pos_nonneg; nia).
  assert (Eq : 2 ^ (q * e) = (2 ^ e) ^ q) by (rewrite Z.mul_comm, Z.pow_mul_r by lia; auto).
  assert (Kq : 2 ^ (k * q) = (2 ^ k) ^ q) by (rewrite Z.pow_mul_r by lia; auto).
  assert (E0 : 0 < 2 ^ e) by (apply Z.pow_pos_nonneg; lia). assert (EQ0 : 0 < (2 ^ e) ^ q) by (apply Z.pow_pos_nonneg; lia).
  assert (T1 : X ^ q * (2 ^ e) ^ q <= x ^ q * (2 ^ k) ^ q) by (rewrite <- !Z.pow_mul_l; apply Z.pow_le_mono_l; nia).
  assert (T2 : x ^ q * (2 ^ k) ^ q < (X + 1) ^ q * (2 ^ e) ^ q) by (rewrite <- !Z.pow_mul_l; apply Z.pow_lt_mono_l; [lia|split; [apply Z.mul_nonneg_nonneg; [lia|apply Z.pow_nonneg; lia]|lia]]).
  unfold log_within. rewrite Z.pow_add_r by nia. rewrite Eq. rewrite <- Kq in T1, T2. clear Eq Kq S1 S2.
  assert (A2 : 0 < 2 ^ a) by (apply Z.pow_pos_nonneg; lia).
  set (W := 2 ^ (k * q)) in *. set (D := (2 ^ e) ^ q) in *. set (Y := x ^ q) in *. set (Xq := X ^ q) in *. set (X1q := (X + 1) ^ q) in *. set (Vv := 2 ^ v) in *. set (Aa := 2 ^ a) in *. set (Bb := 2 ^ b) in *.
  clearbody W D Y Xq X1q Vv Aa Bb. split.
  - apply (Z.mul_le_mono_pos_r _ _ W); auto. transitivity (Aa * Xq * D); nia.
  - apply (Z.mul_lt_mono_pos_r W); auto. eapply Z.lt_le_trans; [exact T2|]. transitivity (Bb * Vv * W * D); nia.
Qed.

Lemma v0_within x : 0 < x -> log_within 1024 1 2 x (v0 (norm x) + 1024 * Z.log2 x).
Proof.
  intros H. assert (N : 32768 <= norm x < 65536) by (apply (norm_range x 15); lia). destruct (v0_ok _ N) as (V & A & B). remember (v0 (norm x)) as v eqn:Ev.
  apply (within_norm 1024 1 2 15 x v H ltac:(clear; lia) ltac:(clear; lia) ltac:(clear; lia) ltac:(clear; lia) (proj1 V)); fold (norm x); change (15 * 1024) with 15360.
  - rewrite <- Z.pow_add_r by (clear - V; lia). replace (v + 15360) with (1 + (v + 15359)) by (clear - V; lia). rewrite Z.pow_add_r by (clear - V; lia). apply Z.mul_le_mono_nonneg_l; [clear; lia|exact A].
  - rewrite <- Z.pow_add_r by (clear - V; lia). rewrite <- Z.pow_add_r by (clear - V; lia). replace (2 + v + 15360) with (v + 15362) by (clear; lia). exact B.
Qed.

(** The value is within -1 and 2 units (of 2^-10) of the logarithm, for every word. *)
Theorem C86_log2_16 : forall x, 0 < x < 2 ^ 32 -> 0 <= log2_16 x /\ log_within 1024 1 2 x (log2_16 x).
Proof.
  intros x H. destruct (log2_16_v0 x H) as [N E]. rewrite E. destruct (v0_ok _ N) as [V _]. pose proof (Z.log2_nonneg x). split; [lia|apply v0_within; lia].
Qed.
Lemma split64 x : 4294967296 <= x < 2 ^ 64 -> let base := 32 - clz (x / 4294967296) in
  0 < base <= 32 /\ Z.log2 x = 31 + base /\ lextract (x / 4294967296) (x mod 4294967296) base = x / 2 ^ base /\ 2147483648 <= x / 2 ^ base < 4294967296.
Proof.
  intros H. unfold clz. change (2 ^ 64) with (4294967296 * 4294967296) in H.
  assert (HI : 0 < x / 4294967296 < 4294967296) by (Z.to_euclidean_division_equations; lia). destruct (Z.eqb_spec (x / 4294967296) 0); [lia|].
  pose proof (log2_word _ HI) as L. cbv zeta. set (l := Z.log2 (x / 4294967296)) in *. replace (32 - (31 - l)) with (l + 1) by lia.
  assert (LX : Z.log2 x = 32 + l).
  { destruct (Z.log2_spec (x / 4294967296) ltac:(lia)) as [A B]. fold l in A, B. apply Z.log2_unique; [lia|]. rewrite Z.pow_succ_r in B by lia. replace (Z.succ (32 + l)) with (33 + l) by lia.
    rewrite !Z.pow_add_r by lia. change (2 ^ 32) with 4294967296. change (2 ^ 33) with (2 * 4294967296). set (p := 2 ^ l) in *. clearbody p. clear - A B. Z.to_euclidean_division_equations. nia. }
  split; [lia|]. split; [lia|].
  assert (R : 2147483648 <= x / 2 ^ (l + 1) < 4294967296).
  { destruct (Z.log2_spec x ltac:(lia)) as [A B]. rewrite LX in A, B. replace (Z.succ (32 + l)) with (32 + (l + 1)) in B by lia. replace (32 + l) with (31 + (l + 1)) in A by lia.
    rewrite Z.pow_add_r in A, B by lia. change (2 ^ 32) with 4294967296 in B. change (2 ^ 31) with 2147483648 in A. assert (0 < 2 ^ (l + 1)) by (apply Z.pow_pos_nonneg; lia).
    split; [apply Z.div_le_lower_bound; lia|apply Z.div_lt_upper_bound; lia]. }
  split; [|exact R]. unfold lextract. replace (x / 4294967296 * 4294967296 + x mod 4294967296) with x by (rewrite Z.mul_comm; apply Z.div_mod; lia). apply Z.mod_small. lia.
Qed.
Theorem C86_log2_16_64 : forall x, 0 < x < 2 ^ 64 -> 0 <= log2_16_64 x /\ log_within 1024 1 2 x (log2_16_64 x).
Proof.
  intros x H. destruct (Z.lt_ge_cases x 4294967296) as [L|G].
  - unfold log2_16_64. replace (x / 4294967296) with 0 by (symmetry; apply Z.div_small; lia). change (32 - clz 0 <=? 0) with true. cbv iota zeta. rewrite Z.mod_small by lia. apply C86_log2_16. change (2 ^ 32) with 4294967296. lia.
  - destruct (split64 x ltac:(lia)) as (B & LX & E & R). unfold log2_16_64. cbv zeta. set (base := 32 - clz (x / 4294967296)) in *. destruct (Z.leb_spec base 0); [lia|]. rewrite E.
    destruct (log2_16_v0 (x / 2 ^ base) ltac:(lia)) as [N EV]. destruct (v0_ok _ N) as [V _].
    assert (LY : Z.log2 (x / 2 ^ base) = 31) by (apply Z.log2_unique; [lia|change (2 ^ 31) with 2147483648; change (2 ^ Z.succ 31) with 4294967296; lia]).
    assert (NN : norm (x / 2 ^ base) = norm x).
    { unfold norm. rewrite LY, LX. change (2 ^ 31) with (2 ^ 16 * 2 ^ 15). rewrite Z.div_mul_cancel_r by lia. assert (0 < 2 ^ base) by (apply Z.pow_pos_nonneg; lia). rewrite Z.div_div by lia.
      replace (2 ^ (31 + base)) with (2 ^ base * 2 ^ 16 * 2 ^ 15) by (rewrite Z.pow_add_r by lia; change (2 ^ 31) with (2 ^ 16 * 2 ^ 15); ring). rewrite Z.div_mul_cancel_r by lia. reflexivity. }
    rewrite EV, NN, LY. rewrite NN in V. rewrite to_int_id by lia. replace (v0 (norm x) + 1024 * 31 + base * 1024) with (v0 (norm x) + 1024 * Z.log2 x) by lia. split; [lia|]. apply v0_within. lia.
Qed.

(** In real numbers. *)
Lemma log_within_R q a b x v : 0 < x -> 0 <= q -> 0 <= a -> 0 <= b -> 0 <= v -> log_within q a b x v ->
  (IZR v - IZR a <= IZR q * (ln (IZR x) / ln 2) < IZR v + IZR b)%R.
Proof.
  intros X Q A B V [H1 H2]. assert (L2 : (0 < ln 2)%R) by (rewrite <- ln_1; apply ln_increasing; lra). apply IZR_lt in X as XR.
  assert (PW : forall z n, (0 < IZR z)%R -> 0 <= n -> ln (IZR (z ^ n)) = (IZR n * ln (IZR z))%R).
  { intros z n Z0 N. rewrite <- (Z2Nat.id n N). rewrite <- pow_IZR, ln_pow by auto. rewrite INR_IZR_INZ. reflexivity. }
  assert (P2 : forall n, 0 <= n -> (0 < IZR (2 ^ n))%R) by (intros n N; apply IZR_lt; apply Z.pow_pos_nonneg; lia).
  assert (PX : (0 < IZR (x ^ q))%R) by (apply IZR_lt, Z.pow_pos_nonneg; lia).
  assert (E : (IZR q * (ln (IZR x) / ln 2) * ln 2 = ln (IZR (x ^ q)))%R) by (rewrite PW by auto; field; lra).
  assert (G1 : (IZR v * ln 2 <= IZR a * ln 2 + ln (IZR (x ^ q)))%R).
  { apply IZR_le in H1. rewrite mult_IZR in H1. change 2%R with (IZR 2). rewrite <- !PW by (auto; apply IZR_lt; lia). rewrite <- ln_mult by auto.
    destruct (Rle_lt_or_eq_dec _ _ H1) as [LT|EQ]; [left; apply ln_increasing; auto|right; f_equal; auto]. }
  assert (G2 : (ln (IZR (x ^ q)) < IZR b * ln 2 + IZR v * ln 2)%R).
  { apply IZR_lt in H2. rewrite mult_IZR in H2. change 2%R with (IZR 2). rewrite <- !PW by (auto; apply IZR_lt; lia). rewrite <- ln_mult by auto. apply ln_increasing; auto. }
  set (t := (IZR q * (ln (IZR x) / ln 2))%R) in *. clearbody t. split; [apply (Rmult_le_reg_r (ln 2)); auto; lra|apply (Rmult_lt_reg_r (ln 2)); auto; lra].
Qed.
Corollary C86_log2_16_real : forall x, 0 < x < 2 ^ 64 -> (IZR (log2_16_64 x) - 1 <= 1024 * (ln (IZR x) / ln 2) < IZR (log2_16_64 x) + 2)%R.
Proof. intros x H. destruct (C86_log2_16_64 x H). apply (log_within_R 1024 1 2); auto; lia. Qed.

(** log2_8: never more than the logarithm, less than 2 units (of 2^-3) below, and monotone. *)
Definition norm8 (x : Z) : Z := x * 2 ^ 3 / 2 ^ Z.log2 x.
Lemma log2_8_norm x : 0 < x < 4294967296 -> 8 <= norm8 x < 16 /\ log2_8 x = norm8 x - 8 + 8 * Z.log2 x.
Proof.
  intros H. pose proof (log2_word x H) as L. assert (N : 8 <= norm8 x < 16) by (apply (norm_range x 3); lia). split; [exact N|].
  unfold log2_8, clz. destruct (Z.eqb_spec x 0); [lia|]. replace (31 - Z.log2 x - 28) with (3 - Z.log2 x) by lia. rewrite (shl_norm x 3) by (fold (norm8 x); lia). fold (norm8 x).
  unfold zext. change (2 ^ 3) with 8. replace (norm8 x mod 8) with (norm8 x - 8) by (Z.to_euclidean_division_equations; lia). rewrite to_int_id by lia. lia.
Qed.
Theorem C86_log2_8 : forall x, 0 < x < 2 ^ 32 -> 0 <= log2_8 x /\ log_within 8 0 2 x (log2_8 x).
Proof.
  intros x H. destruct (log2_8_norm x H) as [N E]. rewrite E. pose proof (Z.log2_nonneg x). split; [lia|]. apply (within_norm 8 0 2 3); try lia; fold (norm8 x).
  - assert (C : norm8 x = 8 \/ norm8 x = 9 \/ norm8 x = 10 \/ norm8 x = 11 \/ norm8 x = 12 \/ norm8 x = 13 \/ norm8 x = 14 \/ norm8 x = 15) by lia.
    repeat destruct C as [C|C]; rewrite C; vm_compute; discriminate.
  - assert (C : norm8 x = 8 \/ norm8 x = 9 \/ norm8 x = 10 \/ norm8 x = 11 \/ norm8 x = 12 \/ norm8 x = 13 \/ norm8 x = 14 \/ norm8 x = 15) by lia.
    repeat destruct C as [C|C]; rewrite C; vm_compute; discriminate.
Qed.
Lemma norm_mono x y k : 0 < x <= y -> 0 <= k -> Z.log2 x = Z.log2 y -> x * 2 ^ k / 2 ^ Z.log2 x <= y * 2 ^ k / 2 ^ Z.log2 y.
Proof. intros H K ->. apply Z.div_le_mono; [apply Z.pow_pos_nonneg; try apply Z.log2_nonneg; lia|]. apply Z.mul_le_mono_nonneg_r; [apply Z.pow_nonneg; lia|lia]. Qed.
Theorem C86_monotone : forall x y, 0 < x <= y -> y < 2 ^ 32 -> log2_8 x <= log2_8 y /\ log2_16 x <= log2_16 y + 2.
Proof.
  intros x y H Y. change (2 ^ 32) with 4294967296 in Y. destruct (log2_8_norm x ltac:(lia)) as [Nx Ex]. destruct (log2_8_norm y ltac:(lia)) as [Ny Ey].
  destruct (log2_16_v0 x ltac:(lia)) as [Mx Fx]. destruct (log2_16_v0 y ltac:(lia)) as [My Fy]. destruct (v0_ok _ Mx) as [Vx _]. destruct (v0_ok _ My) as [Vy _].
  pose proof (Z.log2_le_mono x y ltac:(lia)) as L. destruct (Z.eq_dec (Z.log2 x) (Z.log2 y)) as [E|].
  - pose proof (norm_mono x y 3 H ltac:(lia) E) as A. pose proof (norm_mono x y 15 H ltac:(lia) E) as B. fold (norm8 x) (norm8 y) in A. fold (norm x) (norm y) in B.
    pose proof (v0_dips _ _ (conj (proj1 Mx) B) (proj2 My)). lia.
  - lia.
Qed.
Theorem C86_powers : forall k, 0 <= k < 32 -> log2_8 (2 ^ k) = 8 * k /\ log2_16 (2 ^ k) = 1024 * k.
Proof.
  intros k H. assert (P : 0 < 2 ^ k < 4294967296). { split; [apply Z.pow_pos_nonneg; lia|]. change 4294967296 with (2 ^ 32). apply Z.pow_lt_mono_r; lia. }
  destruct (log2_8_norm _ P) as [_ E8]. destruct (log2_16_v0 _ P) as [_ E16]. unfold norm8 in E8. unfold norm in E16. rewrite Z.log2_pow2 in * by lia.
  rewrite (Z.mul_comm (2 ^ k)), Z.div_mul in E8, E16 by lia. rewrite E8, E16. change (v0 (2 ^ 15)) with 0. change (2 ^ 3) with 8. lia.
Qed.
(** Words and double words. *)
Example C86_values : map log2_16 [1; 2; 3; 10; 1000; 4294967295] = [0; 1024; 1623; 3401; 10204; 32767] /\ map log2_16_64 [1000; 2 ^ 40; 10 ^ 18] = [10204; 40960; 61230] /\
  map log2_8 [1; 3; 1000; 4294967295] = [0; 12; 79; 255].
Proof. repeat split; vm_compute; reflexivity. Qed.
(** Zero gives a large negative value, not an error. *)
Example C86_zero : log2_16 0 = -2490 /\ log2_8 0 = -8.
Proof. split; vm_compute; reflexivity. Qed.
(** log2_16 is not monotone. *)
Theorem C86_not_monotone : exists x y, 0 < x < y /\ y < 2 ^ 32 /\ log2_16 y < log2_16 x.
Proof. exists 35327, 35328. split; [lia|]. split; [lia|]. vm_compute. reflexivity. Qed.
(** log2_8_64 adds one unit instead of eight for every bit above the first 32. *)
Theorem C86_log2_8_64_refuted : forall x, 2 ^ 32 <= x < 2 ^ 64 -> 8 * Z.log2 x - log2_8_64 x >= 7 * (Z.log2 x - 31) - 7 /\ log2_8_64 (2 ^ 40) = 257 /\ log2_8_64 (2 ^ 32 - 1) = 255.
Proof.
  intros x H. split; [|split; vm_compute; reflexivity]. change (2 ^ 32) with 4294967296 in H. destruct (split64 x H) as (B & LX & E & R). unfold log2_8_64. cbv zeta. set (base := 32 - clz (x / 4294967296)) in *.
  destruct (Z.leb_spec base 0); [lia|]. rewrite E. destruct (log2_8_norm (x / 2 ^ base) ltac:(lia)) as [N EV].
  assert (LY : Z.log2 (x / 2 ^ base) = 31) by (apply Z.log2_unique; [lia|change (2 ^ 31) with 2147483648; change (2 ^ Z.succ 31) with 4294967296; lia]).
  rewrite EV, LY. rewrite to_int_id by lia. lia.
Qed.
Theorem C86_log2_8_64_partial : forall x, 0 < x < 2 ^ 32 -> log2_8_64 x = log2_8 x.
Proof.
  intros x H. change (2 ^ 32) with 4294967296 in H. unfold log2_8_64. replace (x / 4294967296) with 0 by (symmetry; apply Z.div_small; lia). change (32 - clz 0 <=? 0) with true. cbv iota zeta. rewrite Z.mod_small by lia. reflexivity.
Qed.
Print Assumptions C86_log2_16_64.
Print Assumptions C86_log2_16_real.
