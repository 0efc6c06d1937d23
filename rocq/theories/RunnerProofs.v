(** Lemmas for C100. *)
From Coq Require Import List ZArith Reals Bool Lia Lra.
From Flocq Require Import Core Relative.
Import ListNotations.
From Verif Require Import RunnerModel RunnerSpec.
Local Open Scope Z_scope.

Notation fexp := (FLT_exp (-149) 24).
Notation rnd := (round radix2 fexp ZnearestE).
Global Instance prec24 : Prec_gt_0 24. Proof. reflexivity. Qed.

Lemma product_error k s : float32_scale s -> Z.abs k <= 65536 ->
  (Rabs (rnd (IZR k * s) - IZR k * s) <= bpow radix2 (-24) * Rabs (IZR k * s))%R.
Proof.
  intros [G [S0 _]] K.
  destruct (Rle_or_lt (bpow radix2 (-126)) (Rabs (IZR k * s))) as [L|L].
  - eapply Rle_trans; [apply (relative_error_N_FLT radix2 (-149) 24)|].
    + reflexivity.
    + exact L.
    + apply Rmult_le_compat_r; [apply Rabs_pos|]. cbn. lra.
  - rewrite round_generic; [|apply valid_rnd_N|].
    + unfold Rminus. rewrite Rplus_opp_r, Rabs_R0. apply Rmult_le_pos; [apply bpow_ge_0|apply Rabs_pos].
    + apply generic_format_FLT.
      apply (FLT_format_generic radix2 (-149) 24) in G. destruct G as [[m e] E Hm He]. cbn in Hm, He. cbn [Fnum Fexp] in *.
      set (M := k * (m * 2 ^ (e + 149))).
      assert (EM : (IZR k * s = F2R (Float radix2 M (-149)))%R).
      { rewrite E. unfold F2R, M. cbn [Fnum Fexp]. rewrite !mult_IZR.
        replace (IZR (2 ^ (e + 149))) with (bpow radix2 (e + 149)) by (rewrite <- IZR_Zpower by lia; reflexivity).
        replace e with (e + 149 + -149) at 1 by lia. rewrite bpow_plus. ring. }
      exists (Float radix2 M (-149)); [exact EM| |cbn; lia].
      cbn [Fnum]. rewrite EM in L. apply lt_IZR.
      rewrite <- (F2R_Zabs) in L. unfold F2R in L. cbn [Fnum Fexp] in L.
      apply (Rmult_lt_reg_r (bpow radix2 (-149))); [apply bpow_gt_0|]. eapply Rlt_trans; [exact L|].
      change (IZR (radix2 ^ 24)) with (IZR (radix2 ^ 24)). rewrite IZR_Zpower by lia. rewrite <- bpow_plus. apply bpow_lt. lia.
Qed.

Lemma rounded_injective k k' s : float32_scale s -> (0 < s)%R -> Z.abs k <= 65536 -> Z.abs k' <= 65536 ->
  rnd (IZR k * s) = rnd (IZR k' * s) -> k = k'.
Proof.
  intros Fs S0 K K' E. destruct (Z.eq_dec k k') as [|N]; [assumption|exfalso].
  pose proof (product_error k s Fs K) as A. pose proof (product_error k' s Fs K') as B. rewrite <- E in B.
  assert (Q : forall j, Z.abs j <= 65536 -> (bpow radix2 (-24) * Rabs (IZR j * s) <= / 256 * s)%R).
  { intros j J. rewrite Rabs_mult, (Rabs_pos_eq s) by lra. rewrite <- Rmult_assoc. apply Rmult_le_compat_r; [lra|].
    rewrite <- abs_IZR. apply IZR_le in J. cbn. lra. }
  pose proof (Q k K) as A'. pose proof (Q k' K') as B'.
  assert (D : (s <= Rabs (IZR k * s - IZR k' * s))%R).
  { rewrite <- Rmult_minus_distr_r, <- minus_IZR, Rabs_mult, (Rabs_pos_eq s) by lra. rewrite <- abs_IZR.
    assert (1 <= Z.abs (k - k')) as Z1 by lia. apply IZR_le in Z1. nra. }
  assert (T : (Rabs (IZR k * s - IZR k' * s) <= Rabs (rnd (IZR k * s) - IZR k * s) + Rabs (rnd (IZR k * s) - IZR k' * s))%R).
  { replace (IZR k * s - IZR k' * s)%R with (- (rnd (IZR k * s) - IZR k * s) + (rnd (IZR k * s) - IZR k' * s))%R by ring.
    eapply Rle_trans; [apply Rabs_triang|]. rewrite Rabs_Ropp. lra. }
  lra.
Qed.

Lemma round_opp x : rnd (- x) = (- rnd x)%R.
Proof. apply round_NE_opp. Qed.

(** The threshold of overflow. *)
Lemma round_overflow_pos x : (0 <= x)%R -> ((bpow radix2 128 <= rnd x)%R <-> (bpow radix2 128 - bpow radix2 103 <= x)%R).
Proof.
  intros X0.
  assert (Gtop : generic_format radix2 fexp (bpow radix2 128)) by (apply generic_format_bpow; unfold FLT_exp; lia).
  assert (Gmax : generic_format radix2 fexp (bpow radix2 128 - bpow radix2 104)).
  { apply generic_format_FLT. exists (Float radix2 (2 ^ 24 - 1) 104); [|cbn; lia|cbn; lia].
    unfold F2R. cbn [Fnum Fexp]. rewrite minus_IZR. replace (IZR (2 ^ 24)) with (bpow radix2 24) by (rewrite <- IZR_Zpower by lia; reflexivity).
    rewrite Rmult_minus_distr_r, <- bpow_plus, Rmult_1_l. reflexivity. }
  assert (P3 : (bpow radix2 104 = 2 * bpow radix2 103)%R) by (change 104 with (1 + 103); rewrite bpow_plus; reflexivity).
  assert (P0 : (0 < bpow radix2 103)%R) by apply bpow_gt_0.
  split.
  - intros H. destruct (Rle_or_lt (bpow radix2 128 - bpow radix2 103) x) as [|L]; [assumption|exfalso].
    destruct (Rle_or_lt x (bpow radix2 128 - bpow radix2 104)) as [L2|L2].
    + pose proof (round_le_generic radix2 fexp ZnearestE _ _ Gmax L2) as U. lra.
    + destruct (round_N_pt radix2 fexp (fun z => negb (Z.even z)) x) as [_ N].
      specialize (N _ Gmax). rewrite (Rabs_pos_eq (rnd x - x)) in N by lra. rewrite Rabs_left in N by lra. lra.
  - intros H. set (mid := (bpow radix2 128 - bpow radix2 103)%R) in *.
    assert (M : rnd mid = bpow radix2 128).
    { assert (C : cexp radix2 fexp mid = 104).
      { unfold cexp. rewrite (mag_unique radix2 mid 128); [reflexivity|].
        assert ((bpow radix2 128 = 2 * bpow radix2 127)%R) by (change 128 with (1 + 127); rewrite bpow_plus; reflexivity).
        assert ((bpow radix2 103 < bpow radix2 127)%R) by (apply bpow_lt; lia).
        unfold mid. rewrite Rabs_pos_eq by lra. cbn [Z.sub]. change (128 - 1) with 127. lra. }
      unfold round, scaled_mantissa. rewrite C.
      assert (SM : (mid * bpow radix2 (- (104)) = IZR (2 ^ 24) - / 2)%R).
      { unfold mid. rewrite Rmult_minus_distr_r, <- !bpow_plus. cbn. lra. }
      rewrite SM. assert (ZN : ZnearestE (IZR (2 ^ 24) - / 2) = 2 ^ 24).
      { unfold Znearest. assert (F : Zfloor (IZR (2 ^ 24) - / 2) = 2 ^ 24 - 1).
        { apply Zfloor_imp. rewrite minus_IZR. replace (2 ^ 24 - 1 + 1) with (2 ^ 24) by lia. lra. }
        rewrite F. rewrite Rcompare_Eq by (rewrite minus_IZR; lra). cbn -[Z.pow Zceil].
        replace (negb (Z.even (2 ^ 24 - 1))) with true by reflexivity.
        apply Zceil_imp. rewrite minus_IZR. lra. }
      rewrite ZN. unfold F2R. cbn [Fnum Fexp]. replace (IZR (2 ^ 24)) with (bpow radix2 24) by (rewrite <- IZR_Zpower by lia; reflexivity).
      rewrite <- bpow_plus. reflexivity. }
    rewrite <- M. apply round_le; [apply FLT_exp_valid; reflexivity|apply valid_rnd_N|exact H].
Qed.

Lemma int32_short z : Z.abs z <= 65536 -> int32 z = z.
Proof. intros H. unfold int32. rewrite Z.mod_small by lia. lia. Qed.

Lemma round_integer k : Z.abs k <= 65536 -> round32 (IZR k) = Finite (IZR k).
Proof.
  intros K. unfold round32. cbv zeta. rewrite round_generic; [|apply valid_rnd_N|].
  - rewrite Rle_bool_false; [reflexivity|]. rewrite <- abs_IZR. apply IZR_le in K. cbn. lra.
  - apply generic_format_FLT. exists (Float radix2 k 0); [|cbn; lia|cbn; lia]. unfold F2R. cbn. lra.
Qed.

Lemma dequantize_eq v zp s : short v -> short zp -> dequantize v zp s = round32 (IZR (v - zp) * s).
Proof.
  unfold short. intros V Zp. unfold dequantize. rewrite int32_short by lia. rewrite round_integer by lia. reflexivity.
Qed.

Lemma round32_cases k s : float32_scale s -> (0 < s)%R ->
  (round32 (IZR k * s) = Finite (rnd (IZR k * s)) /\ ~ overflows k s) \/
  (round32 (IZR k * s) = Infinite (k <? 0) /\ overflows k s).
Proof.
  intros Fs S0. unfold round32, overflows. cbv zeta.
  assert (A : Rabs (rnd (IZR k * s)) = rnd (Rabs (IZR k) * s)).
  { destruct (Rle_or_lt 0 (IZR k)) as [P|P].
    - rewrite (Rabs_pos_eq (IZR k)) by assumption. apply Rabs_pos_eq.
      rewrite <- (round_0 radix2 fexp ZnearestE). apply round_le; [apply FLT_exp_valid; reflexivity|apply valid_rnd_N|]. apply Rmult_le_pos; lra.
    - rewrite (Rabs_left (IZR k)) by assumption. replace (- IZR k * s)%R with (- (IZR k * s))%R by ring. rewrite round_opp.
      apply Rabs_left1. rewrite <- (round_0 radix2 fexp ZnearestE). apply round_le; [apply FLT_exp_valid; reflexivity|apply valid_rnd_N|]. nra. }
  rewrite A. pose proof (round_overflow_pos (Rabs (IZR k) * s) (Rmult_le_pos _ _ (Rabs_pos _) (Rlt_le _ _ S0))) as O.
  destruct (Rle_bool_spec (bpow radix2 128) (rnd (Rabs (IZR k) * s))) as [L|L].
  - right. split; [|apply O; exact L]. f_equal.
    assert (N0 : IZR k <> 0%R). { intros E. rewrite E in L. rewrite Rabs_R0, Rmult_0_l, round_0 in L; [|apply valid_rnd_N]. pose proof (bpow_gt_0 radix2 128). lra. }
    destruct (k <? 0) eqn:E.
    + apply Z.ltb_lt in E. apply Rlt_bool_true. apply IZR_lt in E. rewrite Rabs_left in L by assumption.
      replace (- IZR k * s)%R with (- (IZR k * s))%R in L by ring. rewrite round_opp in L. pose proof (bpow_gt_0 radix2 128). lra.
    + apply Z.ltb_ge in E. apply Rlt_bool_false. apply IZR_le in E.
      rewrite <- (round_0 radix2 fexp ZnearestE). apply round_le; [apply FLT_exp_valid; reflexivity|apply valid_rnd_N|]. apply Rmult_le_pos; lra.
  - left. split; [reflexivity|]. intros H. apply O in H. lra.
Qed.

(** When are two dequantised values the same? *)
Lemma same_dequantized v w zp s : float32_scale s -> (0 < s)%R -> short v -> short w -> short zp ->
  (same32 (dequantize v zp s) (dequantize w zp s) = true <->
   v = w \/ (overflows (v - zp) s /\ overflows (w - zp) s /\ (v < zp <-> w < zp))).
Proof.
  intros Fs S0 V W Zp. rewrite !dequantize_eq by assumption. unfold short in *.
  destruct (round32_cases (v - zp) s Fs S0) as [[-> N1]|[-> N1]]; destruct (round32_cases (w - zp) s Fs S0) as [[-> N2]|[-> N2]]; cbn [same32].
  - split.
    + intros H. left. destruct (Req_bool_spec (rnd (IZR (v - zp) * s)) (rnd (IZR (w - zp) * s))) as [E|E]; [|discriminate].
      apply rounded_injective in E; auto; lia.
    + intros [->|(H & _)]; [|contradiction]. apply Req_bool_true. reflexivity.
  - split; [discriminate|]. intros [->|(H & _)]; [|contradiction]. contradiction.
  - split; [discriminate|]. intros [->|(_ & H & _)]; contradiction.
  - split.
    + intros H. right. split; [assumption|]. split; [assumption|]. apply eqb_prop in H.
      destruct (v - zp <? 0) eqn:E1, (w - zp <? 0) eqn:E2; try discriminate; rewrite ?Z.ltb_lt, ?Z.ltb_ge in *; lia.
    + intros [->|(_ & _ & H)]; [apply eqb_reflx|]. replace (w - zp <? 0) with (v - zp <? 0); [apply eqb_reflx|].
      destruct (v - zp <? 0) eqn:E1, (w - zp <? 0) eqn:E2; auto; rewrite ?Z.ltb_lt, ?Z.ltb_ge in *; lia.
Qed.

Lemma all_same_iff {A} (same : A -> A -> bool) (l m : list A) (d : A) : length l = length m ->
  (all_same same l m = true <-> forall i, (i < length l)%nat -> same (nth i l d) (nth i m d) = true).
Proof.
  revert m. induction l as [|x l IH]; intros [|y m] L; try discriminate; cbn [all_same].
  - split; auto. intros _ i H. inversion H.
  - cbn in L. rewrite andb_true_iff, IH by lia. split.
    + intros [H1 H2] [|i] Hi; cbn; auto. apply H2. cbn in Hi. lia.
    + intros H. split; [apply (H 0%nat); cbn; lia|]. intros i Hi. apply (H (S i)). cbn. lia.
Qed.

Lemma all_same_integers l m : length l = length m -> (all_same Z.eqb l m = true <-> l = m).
Proof.
  revert m. induction l as [|x l IH]; intros [|y m] L; try discriminate; cbn [all_same]; [split; auto|].
  cbn in L. rewrite andb_true_iff, IH by lia. rewrite Z.eqb_eq. split; [intros [-> ->]; auto|]. intros E. inversion E; auto.
Qed.

(** The inputs. *)
Lemma fill_spec lo hi step count n j : 0 < step -> lo < hi -> lo <= n <= hi + step - 1 -> (j < count)%nat ->
  lo <= nth j (fill lo hi step count n) 0 < hi /\ exists q, 0 <= q /\ (nth j (fill lo hi step count n) 0 = n + step * q \/ nth j (fill lo hi step count n) 0 = lo + step * q).
Proof.
  intros Hs Hl. revert n j. induction count as [|c IH]; intros n j Hn Hj; [lia|].
  cbn [fill]. cbv zeta. assert (B : lo <= (if n >=? hi then lo else n) < hi) by (destruct (Z.geb_spec n hi); lia).
  destruct j as [|j]; cbn [nth].
  - split; [exact B|]. exists 0. split; [lia|]. destruct (Z.geb_spec n hi); [right|left]; lia.
  - destruct (IH ((if n >=? hi then lo else n) + step) j) as (H1 & q & Hq & H2); [lia|lia|]. split; [exact H1|].
    destruct H2 as [H2|H2]; [|exists q; auto].
    exists (q + 1). split; [lia|]. rewrite H2. destruct (Z.geb_spec n hi); [right|left]; ring.
Qed.

(** Closed form: element [j] is [lo + step * (j mod P)], with [P] steps in a round. *)
Lemma fill_round lo hi step P count j0 : 0 < step -> 0 < P -> lo + step * (P - 1) < hi <= lo + step * P -> 0 <= j0 <= P ->
  forall j, (j < count)%nat -> nth j (fill lo hi step count (lo + step * j0)) 0 = lo + step * ((j0 + Z.of_nat j) mod P).
Proof.
  intros Hs HP HB. revert j0. induction count as [|c IH]; intros j0 Hj0 j Hj; [lia|].
  cbn [fill]. cbv zeta.
  assert (E : (if lo + step * j0 >=? hi then lo else lo + step * j0) = lo + step * (j0 mod P)).
  { destruct (Z.geb_spec (lo + step * j0) hi) as [G|G].
    - assert (j0 = P) as -> by nia. rewrite Z_mod_same_full. lia.
    - rewrite Z.mod_small; [reflexivity|]. nia. }
  rewrite E. pose proof (Z.mod_pos_bound j0 P HP) as M.
  destruct j as [|j]; cbn [nth]; [rewrite Z.add_0_r; reflexivity|].
  replace (lo + step * (j0 mod P) + step) with (lo + step * (j0 mod P + 1)) by ring.
  rewrite IH by lia. f_equal. f_equal. rewrite Nat2Z.inj_succ. rewrite <- Z.add_assoc, Zplus_mod_idemp_l. f_equal. lia.
Qed.

Lemma checksum_from data : forall r, 0 <= r < 256 -> fold_left (fun res d => (res - d) mod 256) data r = (r - fold_right Z.add 0 data) mod 256.
Proof.
  induction data as [|d data IH]; intros r Hr; cbn [fold_left fold_right].
  - rewrite Z.sub_0_r, Z.mod_small by lia. reflexivity.
  - rewrite IH by (apply Z.mod_pos_bound; lia). rewrite Zminus_mod_idemp_l. f_equal. lia.
Qed.

Lemma loop_total n f acc : loop n (Some f) acc = TotalFails (acc + Z.of_nat n * f).
Proof. revert acc. induction n as [|n IH]; intros acc; cbn [loop]; [f_equal; lia|]. rewrite IH. f_equal. lia. Qed.
