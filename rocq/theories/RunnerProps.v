(** Property C100: what modelrunner.py reports.
    Vocabulary: RunnerSpec.  Model: RunnerModel. *)
From Coq Require Import List ZArith Reals Bool Lia Lra.
From Flocq Require Import Core.
Import ListNotations.
From Verif Require Import RunnerModel RunnerSpec RunnerProofs.
Local Open Scope Z_scope.

(** Exactly when an output of integers with one scale passes: every pair of values is equal, or
    both dequantised values lie beyond float32 on the same side. *)
Theorem C100_output_exactly_when : forall q s zp reference compiled,
  q_scales q = [s] -> q_zero_points q = [zp] -> float32_scale s -> (0 < s)%R ->
  length reference = length compiled ->
  Forall short reference -> Forall short compiled -> short zp ->
  (output_fails q reference compiled = false <->
   forall i, (i < length reference)%nat ->
     nth i reference 0 = nth i compiled 0 \/
     (overflows (nth i reference 0 - zp) s /\ overflows (nth i compiled 0 - zp) s /\ (nth i reference 0 < zp <-> nth i compiled 0 < zp))).
Proof.
  intros q s zp l m Hs Hz Fs S0 L Fl Fm Sz. unfold output_fails. rewrite Hs, Hz. cbn [nth].
  rewrite Req_bool_false by lra. rewrite negb_false_iff.
  rewrite (all_same_iff same32 _ _ (dequantize 0 zp s)) by (rewrite !map_length; exact L). rewrite map_length.
  assert (E : forall i, (i < length l)%nat ->
    (same32 (nth i (map (fun v => dequantize v zp s) l) (dequantize 0 zp s)) (nth i (map (fun v => dequantize v zp s) m) (dequantize 0 zp s)) = true <->
     nth i l 0 = nth i m 0 \/ (overflows (nth i l 0 - zp) s /\ overflows (nth i m 0 - zp) s /\ (nth i l 0 < zp <-> nth i m 0 < zp)))).
  { intros i Hi. rewrite !(map_nth (fun v => dequantize v zp s)). rewrite Forall_forall in Fl, Fm.
    apply same_dequantized; auto; [apply Fl|apply Fm]; apply nth_In; lia. }
  split; intros H i Hi; apply E; auto.
Qed.

Lemma output_fails_iff q l m : comparable (q_scales q) (q_zero_points q) l m -> (output_fails q l m = true <-> l <> m).
Proof.
  intros (L & [Hs|(s & zp & Hs & Hz & (Fs & Mo) & Sz & Fl & Fm)]).
  - unfold output_fails. rewrite Hs, negb_true_iff. rewrite <- (all_same_integers l m L). destruct (all_same Z.eqb l m); intuition congruence.
  - destruct (Req_dec s 0) as [Z0|N0].
    { unfold output_fails. rewrite Hs. rewrite Req_bool_true by exact Z0. rewrite negb_true_iff. rewrite <- (all_same_integers l m L). destruct (all_same Z.eqb l m); intuition congruence. }
    assert (S0 : (0 < s)%R) by (destruct Fs as [_ [? _]]; lra).
    pose proof (C100_output_exactly_when q s zp l m Hs Hz Fs S0 L Fl Fm Sz) as X.
    assert (NO : forall v, short v -> ~ overflows (v - zp) s).
    { intros v Hv Ho. unfold overflows in Ho. unfold short in *. rewrite <- abs_IZR in Ho.
      assert (A : (IZR (Z.abs (v - zp)) <= 65535)%R) by (apply IZR_le; lia). nra. }
    split.
    + intros H ->. assert (output_fails q m m = false) by (apply X; intros; left; reflexivity). congruence.
    + intros N. destruct (output_fails q l m) eqn:E; [reflexivity|exfalso]. apply N. apply (nth_ext l m 0 0 L).
      intros i Hi. destruct (proj1 X eq_refl i Hi) as [e|(O1 & _)]; [exact e|exfalso].
      eapply NO; [|exact O1]. rewrite Forall_forall in Fl. apply Fl. apply nth_In. exact Hi.
Qed.

(** The number reported at the end is the number of outputs that differ, in every run; all
    runs are of the same input. *)
Theorem C100_total_partial : forall a inputs qs reference compiled l threads,
  a_threads a = Some threads -> a_bnn a = false -> a_input a = false ->
  make_inputs inputs = Some l ->
  length (reference l) = length qs -> length (compiled l) = length qs ->
  (forall i, (i < length qs)%nat -> comparable (q_scales (nth i qs (Quantization [] []))) (q_zero_points (nth i qs (Quantization [] []))) (nth i (reference l) []) (nth i (compiled l) [])) ->
  exists d, differing (reference l) (compiled l) d /\
    runner a inputs qs reference compiled = TotalFails (Z.of_nat (a_runs a) * d).
Proof.
  intros a inputs qs rf cp l th Ht Hb Hi Hl L1 L2 HC.
  exists (count_fails qs (rf l) (cp l)). split.
  - clear Hl Ht Hb Hi. revert L1 L2 HC. generalize (rf l) as R. generalize (cp l) as C. clear. intros C R. revert R C. induction qs as [|q qs IH]; intros [|r rs] [|c cs] L1 L2 HC; try discriminate.
    + exists []. split; [reflexivity|]. split; [intros i Hi; inversion Hi|reflexivity].
    + cbn in L1, L2. destruct (IH rs cs ltac:(lia) ltac:(lia)) as (fl & Lf & Ff & En).
      { intros i Hi. apply (HC (S i)). cbn. lia. }
      exists (output_fails q r c :: fl). split; [cbn; lia|]. split.
      * intros [|i] Hi; cbn [nth]; [apply output_fails_iff; apply (HC 0%nat); cbn; lia|]. apply Ff. cbn in Hi. lia.
      * cbn [count_fails filter]. rewrite En. destruct (output_fails q r c); cbn [length]; lia.
  - unfold runner. rewrite Ht, Hb, Hi, Hl. rewrite loop_total. f_equal.
Qed.

(** Hence: no failures are reported exactly when all outputs are the same. *)
Theorem C100_no_failure_partial : forall a inputs qs reference compiled l threads,
  a_threads a = Some threads -> a_bnn a = false -> a_input a = false -> (1 <= a_runs a)%nat ->
  make_inputs inputs = Some l ->
  length (reference l) = length qs -> length (compiled l) = length qs ->
  (forall i, (i < length qs)%nat -> comparable (q_scales (nth i qs (Quantization [] []))) (q_zero_points (nth i qs (Quantization [] []))) (nth i (reference l) []) (nth i (compiled l) [])) ->
  (runner a inputs qs reference compiled = TotalFails 0 <-> reference l = compiled l).
Proof.
  intros a inputs qs rf cp l th Ht Hb Hi Hr Hl L1 L2 HC.
  destruct (C100_total_partial a inputs qs rf cp l th Ht Hb Hi Hl L1 L2 HC) as (d & (fl & Lf & Ff & ->) & ->).
  split.
  - intros E. assert (d0 : Z.of_nat (a_runs a) * Z.of_nat (length (filter (fun b => b) fl)) = 0) by congruence.
    assert (F0 : length (filter (fun b : bool => b) fl) = 0%nat) by nia. apply length_zero_iff_nil in F0.
    apply (nth_ext _ _ [] []); [lia|]. intros i Hi'. destruct (list_eq_dec Z.eq_dec (nth i (rf l) []) (nth i (cp l) [])) as [e|n]; [exact e|exfalso].
    apply (Ff i Hi') in n. assert (In true (filter (fun b => b) fl)) by (apply filter_In; split; [rewrite <- n; apply nth_In; lia|reflexivity]).
    rewrite F0 in H. destruct H.
  - intros E. assert (F0 : filter (fun b : bool => b) fl = []).
    { destruct (filter (fun b : bool => b) fl) as [|b fl'] eqn:X; [reflexivity|exfalso].
      assert (Hin : In b (filter (fun b : bool => b) fl)) by (rewrite X; left; reflexivity). apply filter_In in Hin. destruct Hin as [Hin ->].
      destruct (In_nth fl true false Hin) as (i & Hi' & En). apply (Ff i) in En; [|lia]. apply En. rewrite E. reflexivity. }
    rewrite F0. cbn [length]. f_equal. lia.
Qed.

(** The inputs: in the range of their type; the values of a round of [P] steps, over and over. *)
Theorem C100_inputs : forall lo hi size, lo < hi -> 43 <= hi ->
  length (make_input (lo, hi) size) = size /\
  (forall j, (j < size)%nat -> lo <= nth j (make_input (lo, hi) size) 0 < hi) /\
  (let step := hi * 2 / 85 in let P := (hi - lo + step - 1) / step in
   forall j, (j < size)%nat -> nth j (make_input (lo, hi) size) 0 = lo + step * (Z.of_nat j mod P)).
Proof.
  intros lo hi size Hl Hh. unfold make_input. set (step := hi * 2 / 85).
  assert (Hs : 1 <= step) by (unfold step; Z.to_euclidean_division_equations; lia).
  split; [|split].
  - generalize lo at 2. induction size as [|c IH]; intros n; cbn [fill length]; auto.
  - intros j Hj. apply (fill_spec lo hi step size lo j); lia.
  - cbv zeta. set (P := (hi - lo + step - 1) / step). intros j Hj.
    assert (PB : step * P <= hi - lo + step - 1 < step * (P + 1)).
    { unfold P. pose proof (Z.mul_div_le (hi - lo + step - 1) step ltac:(lia)). pose proof (Z.mul_succ_div_gt (hi - lo + step - 1) step ltac:(lia)). lia. }
    assert (HP : 0 < P) by nia.
    replace (fill lo hi step size lo) with (fill lo hi step size (lo + step * 0)) by (f_equal; lia).
    rewrite (fill_round lo hi step P size 0); [reflexivity|lia|lia|nia|lia|exact Hj].
Qed.
(** 8-bit networks are only ever run on even numbers. *)
Theorem C100_int8_inputs_even : forall size v, In v (make_input (-128, 127) size) -> Z.even v = true.
Proof.
  intros size v Hv. destruct (In_nth _ _ 0 Hv) as (j & Hj & <-).
  destruct (C100_inputs (-128) 127 size ltac:(lia) ltac:(lia)) as (L & _ & F). rewrite L in Hj. rewrite (F j Hj).
  change (127 * 2 / 85) with 2. rewrite Z.even_add, Z.even_mul. reflexivity.
Qed.

(** The checksum printed: with it the bytes sum to 0 modulo 256. *)
Theorem C100_checksum : forall data,
  0 <= checksum_calc data < 256 /\ (fold_right Z.add 0 data + checksum_calc data) mod 256 = 0.
Proof.
  intros data. unfold checksum_calc. rewrite checksum_from by lia. split; [apply Z.mod_pos_bound; lia|].
  rewrite Zplus_mod_idemp_r. replace (fold_right Z.add 0 data + (0 - fold_right Z.add 0 data)) with 0 by lia. reflexivity.
Qed.

(** *** Concrete cases *)
Lemma scale_half : moderate (/ 2).
Proof.
  assert (P : (bpow radix2 104 <= bpow radix2 128)%R) by (apply bpow_le; lia).
  assert (P2 : (bpow radix2 104 = 2 * bpow radix2 103)%R) by (change 104 with (1 + 103); rewrite bpow_plus; reflexivity).
  assert (P3 : (bpow radix2 20 <= bpow radix2 103)%R) by (apply bpow_le; lia). change (bpow radix2 20) with 1048576%R in P3.
  split; [split; [|cbn; lra]|].
  - change (/ 2)%R with (bpow radix2 (-1)). apply generic_format_bpow. unfold FLT_exp. lia.
  - lra.
Qed.
Example C100_comparable : comparable [/ 2]%R [3] [5; -128] [6; -128].
Proof.
  split; [reflexivity|]. right. exists (/ 2)%R, 3. split; [reflexivity|]. split; [reflexivity|]. split; [exact scale_half|].
  unfold short. split; [lia|]. split; repeat constructor; lia.
Qed.
Example C100_two_runs : runner (Arguments (Some 5) false false 2) [(Some (-128, 127), 3%nat)] [Quantization [] []]
    (fun l => l) (fun _ => [[-128; -126; 0]]) = TotalFails 2.
Proof. reflexivity. Qed.

(** *** What it does not report *)
(** A scale so large that everything overflows hides every difference. *)
Theorem C100_refuted_overflow : exists s, float32_scale s /\
  output_fails (Quantization [s] [0]) [2] [3] = false.
Proof.
  exists (bpow radix2 127).
  assert (F : float32_scale (bpow radix2 127)).
  { split; [apply generic_format_bpow; unfold FLT_exp; lia|]. split; [apply bpow_ge_0|apply bpow_lt; lia]. }
  split; [exact F|].
  assert (P : (bpow radix2 128 = 2 * bpow radix2 127)%R) by (change 128 with (1 + 127); rewrite bpow_plus; reflexivity).
  assert (P0 : (0 < bpow radix2 127)%R) by apply bpow_gt_0. assert (P1 : (0 < bpow radix2 103)%R) by apply bpow_gt_0.
  assert (O : forall k, (2 <= k)%Z -> overflows k (bpow radix2 127)).
  { intros k Hk. unfold overflows. apply IZR_le in Hk. rewrite Rabs_pos_eq by lra. nra. }
  apply (C100_output_exactly_when (Quantization [bpow radix2 127] [0]) (bpow radix2 127) 0 [2] [3]); auto; try (repeat constructor; unfold short; lia); try (unfold short; lia).
  intros [|i] Hi; [|cbn in Hi; lia]. right. cbn [nth]. split; [apply O; lia|]. split; [apply O; lia|]. lia.
Qed.

(** Scales for each channel: the outputs are reported as failed even if they are the same. *)
Theorem C100_refuted_channel_scales : forall s t scales zps l, output_fails (Quantization (s :: t :: scales) zps) l l = true.
Proof. reflexivity. Qed.
(** Without --tc, with --bnn or with --input no verdict is given. *)
Theorem C100_refuted_options : forall a inputs qs reference compiled,
  a_threads a = None \/ (a_bnn a = true /\ (1 <= a_runs a)%nat) \/ (a_input a = true /\ a_bnn a = false) ->
  runner a inputs qs reference compiled = Exception.
Proof.
  intros [[t|] i b n] inputs qs rf cp H; cbn in H; unfold runner; cbn [a_threads a_bnn a_input a_runs]; [|reflexivity].
  destruct H as [H|[[-> H]|[-> ->]]]; [discriminate| |reflexivity]. destruct n; [lia|reflexivity].
Qed.
(** More failures than runs. *)
Theorem C100_refuted_more_fails_than_runs : runner (Arguments (Some 5) false false 1) [(Some (-128, 127), 1%nat)] [Quantization [] []; Quantization [] []]
    (fun _ => [[0]; [0]]) (fun _ => [[1]; [1]]) = TotalFails 2.
Proof. reflexivity. Qed.
Print Assumptions C100_output_exactly_when.
Print Assumptions C100_total_partial.
Print Assumptions C100_no_failure_partial.
Print Assumptions C100_inputs.
Print Assumptions C100_int8_inputs_even.
Print Assumptions C100_checksum.
Print Assumptions C100_refuted_overflow.
Print Assumptions C100_refuted_channel_scales.
Print Assumptions C100_refuted_options.
