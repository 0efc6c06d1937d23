(** C94, C85, C86 together: dsp_calculate_mels computes the logarithm of the filter bank applied to the magnitudes of the spectrum. *)
From Coq Require Import List ZArith Bool Lia Reals Lra QArith Qreals Qabs.
Import ListNotations.
From Verif Require Import MelModel MelSpec MelProofs MelProps LogModel LogSpec LogProps HypotModel HypotProofs HypotProps.
Local Open Scope R_scope.

(** The magnitude of bin c of a spectrum of 512 ints (dsp.c 78-84). *)
Definition part (fft : list Z) (i : nat) : R := IZR (nth i fft 0%Z).
Definition magnitude (fft : list Z) (c : nat) : R :=
  if Nat.eqb c 0 then Rabs (part fft 0) else if Nat.eqb c 256 then Rabs (part fft 1) else sqrt (part fft (2 * c) * part fft (2 * c) + part fft (2 * c + 1) * part fft (2 * c + 1)).
Fixpoint rsum (n : nat) (f : nat -> R) : R := match n with O => 0 | S k => rsum k f + f k end.

Lemma rsum_le n f h : (forall i, (i < n)%nat -> f i <= h i) -> rsum n f <= rsum n h.
Proof. induction n as [|n IH]; intros H; cbn [rsum]; [lra|]. pose proof (H n ltac:(lia)). assert (rsum n f <= rsum n h) by (apply IH; intros; apply H; lia). lra. Qed.
Lemma rsum_plus n f h : rsum n (fun i => f i + h i) = rsum n f + rsum n h.
Proof. induction n as [|n IH]; cbn [rsum]; [ring|]. rewrite IH. ring. Qed.
Lemma rsum_const n c : rsum n (fun _ => c) = INR n * c.
Proof. induction n as [|n IH]; [simpl; ring|]. cbn [rsum]. rewrite IH, S_INR. ring. Qed.
Lemma qsum_rsum n f : Q2R (qsum n f) = rsum n (fun i => Q2R (f i)).
Proof. induction n as [|n IH]; cbn [qsum rsum]; [unfold Q2R; simpl; lra|]. rewrite Q2R_plus, IH. reflexivity. Qed.
Lemma Q2R_inject z : Q2R (inject_Z z) = IZR z.
Proof. unfold Q2R, inject_Z. cbn [Qnum Qden]. field. Qed.
Lemma zabs_sum_app a b : zabs_sum (a ++ b) = (zabs_sum a + zabs_sum b)%Z.
Proof. induction a as [|x a IH]; cbn; [reflexivity|]. fold (zabs_sum (a ++ b)). fold (zabs_sum a). lia. Qed.
Lemma zabs_rsum l n : length l = n -> (forall i, 0 <= nth i l 0)%Z -> IZR (zabs_sum l) = rsum n (fun i => IZR (nth i l 0%Z)).
Proof.
  revert n. induction l as [|x l IH] using rev_ind; intros n L P.
  - subst n. reflexivity.
  - rewrite app_length in L. cbn [length] in L. destruct n as [|n]; [lia|]. rewrite zabs_sum_app, plus_IZR. cbn [rsum]. assert (Ln : length l = n) by lia. f_equal.
    + rewrite (IH n Ln). * assert (E : forall m, (m <= n)%nat -> rsum m (fun i => IZR (nth i l 0%Z)) = rsum m (fun i => IZR (nth i (l ++ [x]) 0%Z))). { induction m as [|m IHm]; intros Hm; [reflexivity|]. cbn [rsum]. rewrite IHm by lia. rewrite app_nth1 by lia. reflexivity. } apply E; lia.
      * intros i. destruct (Nat.lt_ge_cases i (length l)) as [Li|Li]; [|rewrite nth_overflow by lia; lia]. specialize (P i). rewrite app_nth1 in P by lia. exact P.
    + specialize (P n). rewrite app_nth2, <- Ln, Nat.sub_diag in * by lia. cbn in P |- *. rewrite Z.add_0_r, Z.abs_eq by exact P. reflexivity.
Qed.
Lemma pairs_nth : forall l i, (2 * i + 1 < length l)%nat -> nth_error (pairs l) i = Some (nth (2 * i) l 0%Z, nth (2 * i + 1) l 0%Z).
Proof.
  fix IH 1. intros [|a [|b l]] i H; try (cbn in H; lia). destruct i as [|i]; [reflexivity|]. cbn [pairs nth_error]. rewrite (IH l i) by (cbn [length] in H; lia).
  replace (2 * S i)%nat with (S (S (2 * i))) by lia. replace (S (S (2 * i)) + 1)%nat with (S (S (2 * i + 1))) by lia. reflexivity.
Qed.
Lemma pairs_length : forall l k, length l = (2 * k)%nat -> length (pairs l) = k.
Proof. fix IH 1. intros [|a [|b l]] k H; [cbn in H; cbn; lia|cbn in H; lia|]. destruct k as [|k]; [cbn in H; lia|]. cbn [pairs length]. rewrite (IH l k); [reflexivity|cbn [length] in H; lia]. Qed.

Lemma filter_length_le {A} (f : A -> bool) l : (length (filter f l) <= length l)%nat.
Proof. induction l as [|x l IH]; cbn; [lia|]. destruct (f x); cbn; lia. Qed.

(** The computed magnitudes, each within -104 and 81 of the true one. *)
Lemma magnitudes_ok fft t2 t3 t11 : length fft = 512%nat -> Forall int fft -> (forall c, (c < 257)%nat -> magnitude fft c <= 2147483566) ->
  exists l, magnitudes t2 t3 t11 fft = Some l /\ length l = 257%nat /\ (forall c, (0 <= nth c l 0%Z)%Z) /\ forall c, (c < 257)%nat -> -104 <= IZR (nth c l 0%Z) - magnitude fft c <= 81.
Proof.
  intros L F B. destruct fft as [|dc [|ny rest]]; try discriminate L. assert (Lr : length rest = (2 * 255)%nat) by (cbn [length] in L; lia).
  assert (F0 : int dc) by (inversion F; auto). assert (F1 : int ny) by (inversion F as [|? ? ? F']; inversion F'; auto). assert (FR : Forall int rest) by (inversion F as [|? ? ? F']; inversion F'; auto).
  pose proof (B 0%nat ltac:(lia)) as B0. pose proof (B 256%nat ltac:(lia)) as B1. unfold magnitude in B0, B1. cbn [Nat.eqb] in B0, B1. unfold part in B0, B1. cbn [nth] in B0, B1.
  assert (A : forall z, int z -> Rabs (IZR z) <= 2147483566 -> c_abs z = Some (Z.abs z)). { intros z Iz Hz. unfold c_abs. destruct (Z.eqb_spec z (- 2 ^ 31)) as [E|E]; [|reflexivity]. exfalso. rewrite <- abs_IZR in Hz. apply le_IZR in Hz. subst z. cbn in Hz. lia. }
  unfold magnitudes. rewrite (A dc F0 B0), (A ny F1 B1). eexists. split; [reflexivity|].
  set (f := fun p : Z * Z => hypot_i (fst p) (snd p) t2 t3 t11). pose proof (pairs_length rest 255 Lr) as Lp.
  assert (N : forall c, nth c (Z.abs dc :: map f (pairs rest) ++ [Z.abs ny]) 0%Z =
    if Nat.eqb c 0 then Z.abs dc else if Nat.eqb c 256 then Z.abs ny else if Nat.ltb c 256 then f (nth (2 * c) (dc :: ny :: rest) 0%Z, nth (2 * c + 1) (dc :: ny :: rest) 0%Z) else 0%Z).
  { intros c. destruct c as [|c]; [reflexivity|]. change (Nat.eqb (S c) 0) with false. cbv iota. cbn [nth]. destruct (Nat.eqb_spec (S c) 256) as [E|E].
    - rewrite app_nth2 by (rewrite map_length; lia). rewrite map_length, Lp. replace (c - 255)%nat with 0%nat by lia. reflexivity.
    - destruct (Nat.ltb_spec (S c) 256).
      + rewrite app_nth1 by (rewrite map_length; lia). assert (G : nth_error (map f (pairs rest)) c = Some (f (nth (2 * c) rest 0%Z, nth (2 * c + 1) rest 0%Z))) by (rewrite nth_error_map, pairs_nth by lia; reflexivity).
        rewrite (nth_error_nth _ _ _ G). replace (2 * S c)%nat with (S (S (2 * c))) by lia. replace (S (S (2 * c)) + 1)%nat with (S (S (2 * c + 1))) by lia. reflexivity.
      + apply nth_overflow. rewrite app_length, map_length. cbn [length]. lia. }
  assert (H : forall c, (c < 256)%nat -> c <> 0%nat -> (0 <= f (nth (2 * c) (dc :: ny :: rest) 0%Z, nth (2 * c + 1) (dc :: ny :: rest) 0%Z))%Z /\
    -104 <= IZR (f (nth (2 * c) (dc :: ny :: rest) 0%Z, nth (2 * c + 1) (dc :: ny :: rest) 0%Z)) - magnitude (dc :: ny :: rest) c <= 81).
  { intros c Hc C0. pose proof (B c ltac:(lia)) as Bc. unfold magnitude in *. destruct (Nat.eqb_spec c 0); [lia|]. destruct (Nat.eqb_spec c 256); [lia|]. unfold part in *.
    set (x := nth (2 * c) (dc :: ny :: rest) 0%Z) in *. set (y := nth (2 * c + 1) (dc :: ny :: rest) 0%Z) in *.
    assert (Ix : int x) by (rewrite Forall_forall in F; apply F; apply nth_In; lia). assert (Iy : int y) by (rewrite Forall_forall in F; apply F; apply nth_In; lia). unfold f. cbn [fst snd]. apply C94_int; auto.
    apply le_IZR. rewrite plus_IZR, !mult_IZR. change (IZR (2 ^ 31 - 82)) with 2147483566. set (v := IZR x * IZR x + IZR y * IZR y) in *. assert (V : 0 <= v) by (unfold v; nra).
    rewrite <- (sqrt_sqrt v V). pose proof (sqrt_pos v). apply Rmult_le_compat; lra. }
  split; [cbn [length]; rewrite app_length, map_length, Lp; reflexivity|]. split.
  - intros c. rewrite N. destruct (Nat.eqb_spec c 0); [lia|]. destruct (Nat.eqb_spec c 256); [lia|]. destruct (Nat.ltb_spec c 256); [apply H; lia|lia].
  - intros c Hc. rewrite N. destruct (Nat.eqb_spec c 0) as [->|C0]; [unfold magnitude; cbn [Nat.eqb]; unfold part; cbn [nth]; rewrite <- abs_IZR; lra|].
    destruct (Nat.eqb_spec c 256) as [->|C1]; [unfold magnitude; cbn [Nat.eqb]; unfold part; cbn [nth]; rewrite <- abs_IZR; lra|]. destruct (Nat.ltb_spec c 256); [|lia]. apply H; lia.
Qed.
(** dsp.c 86-93: the integer level of mel r before the multiplication by a float. *)
Definition level (mels : list Z) (gain : Z) (r : nat) : Z := (log2_16 (nth r mels 0%Z) + gain * 1024 - 20 * 1024)%Z.
Theorem C94_mels : forall fft mel t2 t3 t11, length fft = 512%nat -> Forall int fft -> length mel = 64%nat -> rsum 257 (magnitude fft) <= 2147460000 ->
  exists l mels, magnitudes t2 t3 t11 fft = Some l /\ mel_compress mel l mel_coefficients mel_bins_in_overlap = Some mels /\ length mels = 64%nat /\
  forall r, (r < 64)%nat ->
    Rabs (IZR (nth r mels 0%Z) - rsum 257 (fun c => Q2R (shipped r c) * magnitude fft c)) <= 105 * INR (reaching 257 shipped_first r) + Q2R delta * (rsum 257 (magnitude fft) + 20817) /\
    ((0 < nth r mels 0%Z)%Z -> forall gain, log_within 1024 1 2 (nth r mels 0%Z) (level mels gain r - (gain - 20) * 1024)%Z).
Proof.
  intros fft mel t2 t3 t11 L F Lm SUM.
  assert (P : forall c, 0 <= magnitude fft c) by (intros c; unfold magnitude; destruct (Nat.eqb c 0); [apply Rabs_pos|destruct (Nat.eqb c 256); [apply Rabs_pos|apply sqrt_pos]]).
  assert (B : forall c, (c < 257)%nat -> magnitude fft c <= 2147483566).
  { intros c Hc. assert (G : forall n, (c < n)%nat -> magnitude fft c <= rsum n (magnitude fft)). { induction n as [|n IH]; intros Hn; [lia|]. cbn [rsum]. assert (Z0 : forall m, 0 <= rsum m (magnitude fft)) by (induction m as [|m IHm]; cbn [rsum]; [lra|]; pose proof (P m); lra). destruct (Nat.eq_dec c n) as [->|E]; [pose proof (Z0 n); lra|]. specialize (IH ltac:(lia)). pose proof (P n). lra. }
    specialize (G 257%nat Hc). lra. }
  destruct (magnitudes_ok fft t2 t3 t11 L F B) as (l & E & Ll & Pl & El).
  assert (SL : IZR (zabs_sum l) <= rsum 257 (magnitude fft) + 20817).
  { rewrite (zabs_rsum l 257 Ll Pl). replace 20817 with (rsum 257 (fun _ => 81)) by (rewrite rsum_const; simpl; lra). rewrite <- rsum_plus. apply rsum_le. intros i Hi. specialize (El i Hi). lra. }
  assert (ZB : (zabs_sum l <= 2147483647)%Z) by (apply le_IZR; lra).
  destruct (C85_shipped mel l Lm Ll ZB) as (mels & Em & Lms & _ & H). exists l, mels. split; [exact E|]. split; [exact Em|]. split; [exact Lms|]. intros r Hr.
  match goal with |- ?A /\ _ => assert (MAIN : A) end.
  { specialize (H r Hr). apply Qle_Rle in H. rewrite Q2R_plus, Q2R_mult, !Q2R_inject in H.
    assert (D : 0 <= Q2R delta) by (unfold Q2R, delta; simpl; lra).
    assert (H1 : Rabs (IZR (nth r mels 0%Z) - rsum 257 (fun c => Q2R (shipped r c) * IZR (nth c l 0%Z))) <= INR (reaching 257 shipped_first r) + Q2R delta * IZR (zabs_sum l)).
    { eapply Rle_trans; [|rewrite INR_IZR_INZ; exact H]. assert (QA : forall q, Q2R (Qabs q) = Rabs (Q2R q)). { intros q. destruct (Qlt_le_dec q 0) as [N|N]; [rewrite (Qeq_eqR _ _ (Qabs_neg q ltac:(apply Qlt_le_weak; auto))), Q2R_opp; apply Qlt_Rlt in N; rewrite Rabs_left; [reflexivity|unfold Q2R in N at 2; simpl in N; lra]|rewrite (Qeq_eqR _ _ (Qabs_pos q N)); apply Qle_Rle in N; rewrite Rabs_pos_eq; [reflexivity|unfold Q2R in N at 1; simpl in N; lra]]. }
      rewrite QA, Q2R_minus. unfold vector, product. rewrite Q2R_inject, qsum_rsum. right. f_equal. f_equal. clear. generalize 257%nat. intros n. induction n as [|n IH]; [reflexivity|]. cbn [rsum]. rewrite IH, Q2R_mult. unfold vector. rewrite Q2R_inject. reflexivity. }
    destruct C85_shipped_tables as (FB & _ & _).
    assert (H2 : Rabs (rsum 257 (fun c => Q2R (shipped r c) * IZR (nth c l 0%Z)) - rsum 257 (fun c => Q2R (shipped r c) * magnitude fft c)) <= 104 * INR (reaching 257 shipped_first r)).
    { assert (G : forall n, (n <= 257)%nat -> Rabs (rsum n (fun c => Q2R (shipped r c) * IZR (nth c l 0%Z)) - rsum n (fun c => Q2R (shipped r c) * magnitude fft c)) <= 104 * INR (reaching n shipped_first r)); [|apply G; lia].
      induction n as [|n IH]; intros Hn; [cbn [rsum]; rewrite Rminus_0_r, Rabs_R0; pose proof (pos_INR (reaching 0 shipped_first r)); lra|]. specialize (IH ltac:(lia)). cbn [rsum].
      assert (RC : reaching (S n) shipped_first r = (reaching n shipped_first r + (if orb (Nat.eqb (shipped_first n) r) (Nat.eqb (S (shipped_first n)) r) then 1 else 0))%nat).
      { unfold reaching. rewrite seq_S, filter_app, app_length. cbn [filter plus]. destruct (orb _ _); reflexivity. }
      rewrite RC, plus_INR. destruct (fb_entries 64 257 shipped shipped_first FB r n Hr ltac:(lia)) as (S0 & S1). apply Qle_Rle in S0, S1. specialize (El n ltac:(lia)).
      replace (Q2R 0) with 0 in S0 by (unfold Q2R; simpl; lra). replace (Q2R 1) with 1 in S1 by (unfold Q2R; simpl; lra).
      match goal with |- Rabs (?a + ?s * ?u - (?b + ?s * ?v)) <= _ => replace (a + s * u - (b + s * v)) with ((a - b) + s * (u - v)) by ring end. eapply Rle_trans; [apply Rabs_triang|]. rewrite Rmult_plus_distr_l. apply Rplus_le_compat; [exact IH|].
      destruct (orb _ _) eqn:OR.
      - simpl INR. rewrite Rabs_mult, (Rabs_pos_eq (Q2R (shipped r n))) by lra. assert (A : Rabs (IZR (nth n l 0%Z) - magnitude fft n) <= 104) by (apply Rabs_le; lra). pose proof (Rabs_pos (IZR (nth n l 0%Z) - magnitude fft n)). nra.
      - apply orb_false_iff in OR. destruct OR as (O1 & O2). apply Nat.eqb_neq in O1, O2. assert (Z0 : (shipped r n == 0)%Q) by (apply (fb_two 64 257 shipped shipped_first FB); auto; lia). apply Qeq_eqR in Z0. rewrite Z0.
        replace (Q2R 0) with 0 by (unfold Q2R; simpl; lra). rewrite Rmult_0_l, Rabs_R0. simpl INR. lra. }
    set (mid := rsum 257 (fun c => Q2R (shipped r c) * IZR (nth c l 0%Z))) in *. match goal with |- Rabs (?a - ?b) <= _ => replace (a - b) with ((a - mid) + (mid - b)) by ring end.
    eapply Rle_trans; [apply Rabs_triang|]. assert (Q2R delta * IZR (zabs_sum l) <= Q2R delta * (rsum 257 (magnitude fft) + 20817)) by (apply Rmult_le_compat_l; auto). lra. }
  split; [exact MAIN|]. intros M gain. replace (level mels gain r - (gain - 20) * 1024)%Z with (log2_16 (nth r mels 0%Z)) by (unfold level; lia). apply C86_log2_16. split; [exact M|].
  apply lt_IZR. change (IZR (2 ^ 32)) with 4294967296. pose proof (Rle_abs (IZR (nth r mels 0%Z) - rsum 257 (fun c => Q2R (shipped r c) * magnitude fft c))) as AB.
  assert (R1 : rsum 257 (fun c => Q2R (shipped r c) * magnitude fft c) <= rsum 257 (magnitude fft)).
  { apply rsum_le. intros i Hi. destruct C85_shipped_tables as (FB & _ & _). destruct (fb_entries 64 257 shipped shipped_first FB r i Hr Hi) as (_ & S1). apply Qle_Rle in S1. replace (Q2R 1) with 1 in S1 by (unfold Q2R; simpl; lra). pose proof (P i). nra. }
  assert (R2 : INR (reaching 257 shipped_first r) <= 257). { replace 257 with (INR 257) by (simpl; lra). apply le_INR. unfold reaching. eapply Nat.le_trans; [apply filter_length_le|]. rewrite seq_length. lia. }
  assert (R3 : Q2R delta * (rsum 257 (magnitude fft) + 20817) <= 1 / 100 * (2147460000 + 20817)). { assert (D1 : 0 <= Q2R delta <= 1 / 100) by (unfold Q2R, delta; simpl; lra). assert (Z0 : 0 <= rsum 257 (magnitude fft)) by (clear - P; generalize 257%nat; intros m; induction m as [|m IHm]; cbn [rsum]; [lra|]; pose proof (P m); lra). apply Rmult_le_compat; lra. }
  lra.
Qed.

(** Every spectrum whose entries are at most 5900000 meets the hypothesis; a tone in bin 20. *)
Lemma C94_mels_hypothesis : forall fft, length fft = 512%nat -> Forall (fun z => (Z.abs z <= 5900000)%Z) fft -> Forall int fft /\ rsum 257 (magnitude fft) <= 2147460000.
Proof.
  intros fft L F. split; [eapply Forall_impl; [|exact F]; cbv beta; unfold int; intros; lia|].
  apply Rle_trans with (rsum 257 (fun _ => 8344000)); [|rewrite rsum_const; simpl; lra]. apply rsum_le. intros c Hc.
  assert (P : forall i, Rabs (part fft i) <= 5900000). { intros i. unfold part. rewrite <- abs_IZR. apply IZR_le. destruct (Nat.lt_ge_cases i 512) as [Li|Li]; [|rewrite nth_overflow by lia; lia]. rewrite Forall_forall in F. apply F, nth_In. lia. }
  assert (P2 : forall i, part fft i * part fft i <= 5900000 * 5900000). { intros i. specialize (P i). pose proof (Rabs_pos (part fft i)). pose proof (Rsqr_abs (part fft i)) as E. unfold Rsqr in E. rewrite E. nra. }
  unfold magnitude. destruct (Nat.eqb c 0); [specialize (P 0%nat); lra|]. destruct (Nat.eqb c 256); [specialize (P 1%nat); lra|].
  rewrite <- (sqrt_square 8344000) by lra. apply sqrt_le_1_alt. pose proof (P2 (2 * c)%nat). pose proof (P2 (2 * c + 1)%nat). lra.
Qed.
Definition tone : list Z := repeat 0%Z 40 ++ [3000000; -4000000]%Z ++ repeat 0%Z 470.
Example C94_mels_concrete : length tone = 512%nat /\ Forall (fun z => (Z.abs z <= 5900000)%Z) tone /\
  option_map (fun l => firstn 3 (skipn 19 l)) (magnitudes 1 2 3 tone) = Some [0; 5000004; 0]%Z /\
  match magnitudes 1 2 3 tone with Some l => option_map (fun m => map (fun r => (r, nth r m 0%Z, level m 0 r)) (filter (fun r => negb (nth r m 0 =? 0)%Z) (seq 0 64))) (mel_compress (repeat 7%Z 64) l mel_coefficients mel_bins_in_overlap) | None => None end = Some [(18%nat, 5000004%Z, 2307%Z)].
Proof.
  split; [reflexivity|]. split; [apply Forall_forall; intros z Hz; unfold tone in Hz; rewrite !in_app_iff in Hz; destruct Hz as [Hz|[Hz|Hz]]; [apply repeat_spec in Hz; lia|cbn in Hz; intuition lia|apply repeat_spec in Hz; lia]|].
  split; vm_compute; reflexivity.
Qed.
Print Assumptions C94_magnitude.
Print Assumptions C94_int.
Print Assumptions C94_overflow_refuted.
Print Assumptions C94_arguments_only.
Print Assumptions C94_scale.
Print Assumptions C94_mels.
Print Assumptions C94_mels_hypothesis.
