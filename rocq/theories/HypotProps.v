(** C94: the magnitude of a spectral bin (hypot.S), for every pair of ints. *)
From Coq Require Import List ZArith Bool Lia Reals Lra Psatz.
Import ListNotations.
From Verif Require Import HypotModel HypotProofs.
Local Open Scope R_scope.

(** ** The constant: the scalar times the gain of all the rotations is 1 up to 2^-30 *)
Definition all_steps : list Z := steps ++ [18%Z].
Fixpoint gains2 (l : list Z) : R := match l with [] => 1 | n :: tl => gain2 n * gains2 tl end.
Lemma gains_sq l : gains l * gains l = gains2 l.
Proof.
  induction l as [|n l IH]; cbn [gains gains2]; [ring|]. rewrite <- IH. unfold gain at 1 2.
  replace (sqrt (gain2 n) * gains l * (sqrt (gain2 n) * gains l)) with (sqrt (gain2 n) * sqrt (gain2 n) * (gains l * gains l)) by ring. rewrite sqrt_sqrt; [ring|]. pose proof (gain2_ge n). lra.
Qed.
(** Gain2 of a step as a quotient of integers. *)
Lemma gain2_q n : (0 <= n)%Z -> gain2 n = IZR (2 ^ (2 * n) + 1) / IZR (2 ^ (2 * n)).
Proof.
  intros Hn. unfold gain2. replace (2 * n)%Z with (n + n)%Z by lia. rewrite Z.pow_add_r by lia. rewrite plus_IZR, mult_IZR.
  assert (0 < IZR (2 ^ n)) by (apply IZR_lt; apply Z.pow_pos_nonneg; lia). field. lra.
Qed.
Definition num (l : list Z) : Z := fold_right (fun n p => (2 ^ (2 * n) + 1) * p)%Z 1%Z l.
Definition den (l : list Z) : Z := fold_right (fun n p => 2 ^ (2 * n) * p)%Z 1%Z l.
Lemma gains2_q l : (forall n, In n l -> (0 <= n)%Z) -> (0 < den l)%Z /\ gains2 l = IZR (num l) / IZR (den l).
Proof.
  induction l as [|n l IH]; intros H; cbn [gains2 num den fold_right]; [split; [lia|field]|].
  destruct IH as (D & E); [intros; apply H; right; auto|]. fold (num l). fold (den l). assert (Hn : (0 <= n)%Z) by (apply H; left; auto). assert (P : (0 < 2 ^ (2 * n))%Z) by (apply Z.pow_pos_nonneg; lia).
  split; [apply Z.mul_pos_pos; auto|]. rewrite E, gain2_q, !mult_IZR by auto. assert (0 < IZR (den l)) by (apply IZR_lt; auto). assert (0 < IZR (2 ^ (2 * n))) by (apply IZR_lt; auto). field. lra.
Qed.
Lemma all_steps_pos n : In n all_steps -> (1 <= n <= 18)%Z.
Proof. unfold all_steps, steps. cbn [app In]. intuition lia. Qed.
Definition g : R := IZR scalar / IZR (2 ^ 32).
Definition total : R := sqrt 2 * gains all_steps.
Lemma total_sq : total * total = 2 * (IZR (num all_steps) / IZR (den all_steps)).
Proof.
  unfold total. replace (sqrt 2 * gains all_steps * (sqrt 2 * gains all_steps)) with (sqrt 2 * sqrt 2 * (gains all_steps * gains all_steps)) by ring.
  rewrite sqrt_sqrt by lra. rewrite gains_sq. f_equal. apply gains2_q. intros n Hn. apply all_steps_pos in Hn. lia.
Qed.
Lemma total_bounds : 16467 / 10000 <= total <= 16468 / 10000.
Proof.
  assert (D : (0 < den all_steps)%Z) by reflexivity. pose proof total_sq as E. assert (DR : 0 < IZR (den all_steps)) by (apply IZR_lt; auto).
  assert (T : 0 <= total) by (unfold total; pose proof (gains_ge all_steps); pose proof (sqrt_pos 2); nra).
  assert (L : (16467 * 16467 * den all_steps <= 2 * 10000 * 10000 * num all_steps)%Z) by (vm_compute; discriminate).
  assert (U : (2 * 10000 * 10000 * num all_steps <= 16468 * 16468 * den all_steps)%Z) by (vm_compute; discriminate).
  apply IZR_le in L, U. rewrite !mult_IZR in L, U.
  assert (E2 : total * total * IZR (den all_steps) = 2 * IZR (num all_steps)) by (rewrite E; field; lra).
  set (d := IZR (den all_steps)) in *. set (m := IZR (num all_steps)) in *. clearbody d m. clear E. split.
  - apply Rnot_lt_le. intros X. assert (total * total < 16467 / 10000 * (16467 / 10000)) by nra. nra.
  - apply Rnot_lt_le. intros X. assert (16468 / 10000 * (16468 / 10000) < total * total) by nra. nra.
Qed.
Lemma scaled : Rabs (g * total - 1) <= / 2000000000.
Proof.
  assert (D : (0 < den all_steps)%Z) by reflexivity. pose proof total_sq as E. assert (DR : 0 < IZR (den all_steps)) by (apply IZR_lt; auto). pose proof total_bounds as T.
  assert (L : (999999999025 * 2 ^ 64 * den all_steps <= 1000000000000 * (scalar * scalar * 2 * num all_steps))%Z) by (vm_compute; discriminate).
  assert (U : (scalar * scalar * 2 * num all_steps <= 2 ^ 64 * den all_steps)%Z) by (vm_compute; discriminate).
  apply IZR_le in L, U. rewrite !mult_IZR in L, U.
  assert (G : 0 < g) by (unfold g, scalar; apply Rmult_lt_0_compat; [lra|apply Rinv_0_lt_compat; apply IZR_lt; reflexivity]).
  assert (E2 : g * total * (g * total) * IZR (2 ^ 64) * IZR (den all_steps) = IZR scalar * IZR scalar * 2 * IZR (num all_steps)).
  { replace (g * total * (g * total)) with (g * g * (total * total)) by ring. rewrite E. unfold g. change (2 ^ 64)%Z with (2 ^ 32 * 2 ^ 32)%Z. rewrite (mult_IZR (2 ^ 32) (2 ^ 32)). assert (0 < IZR (2 ^ 32)) by (apply IZR_lt; reflexivity). field. lra. }
  set (h := g * total) in *. assert (H0 : 0 < h) by (unfold h; nra).
  assert (D64 : 0 < IZR (2 ^ 64) * IZR (den all_steps)) by (apply Rmult_lt_0_compat; [apply IZR_lt; reflexivity|auto]).
  set (dd := IZR (2 ^ 64) * IZR (den all_steps)) in *. assert (Sc : IZR (scalar * scalar * 2) = IZR scalar * IZR scalar * 2) by (rewrite (mult_IZR (scalar * scalar) 2), (mult_IZR scalar scalar); reflexivity). rewrite ?Sc in L; rewrite ?Sc in U. rewrite <- E2 in L, U.
  replace (h * h * IZR (2 ^ 64) * IZR (den all_steps)) with (h * h * dd) in L, U by (unfold dd; ring). replace (999999999025 * IZR (2 ^ 64) * IZR (den all_steps)) with (999999999025 * dd) in L by (unfold dd; ring).
  assert (A : 999999999025 / 1000000000000 <= h * h) by (apply Rmult_le_reg_r with dd; [auto|]; lra). assert (B : h * h <= 1) by (apply Rmult_le_reg_r with dd; [auto|]; lra).
  clear - A B H0. assert (h <= 1) by nra. apply Rabs_le. split; [|lra].
  apply Rnot_lt_le. intros X. assert (Y : h < 1 - / 2000000000) by lra. assert (h * h < (1 - / 2000000000) * (1 - / 2000000000)) by nra. nra.
Qed.

(** ** The run *)
Lemma zrun_within l : (forall n, In n l -> (0 <= n)%Z) -> forall s, (Z.abs (fst s) <= snd s)%Z -> (Z.abs (fst (zrun l s)) <= snd (zrun l s) /\ snd s <= snd (zrun l s))%Z.
Proof.
  induction l as [|n l IH]; intros Hl s H; cbn [zrun fold_left]; [lia|]. fold (zrun l (zstep n s)). destruct s as [a b]. destruct (zstep n (a, b)) as [a' b'] eqn:E.
  destruct (zstep_within n a b a' b' (Hl n (or_introl eq_refl)) H E) as (A & B). destruct (IH ltac:(intros; apply Hl; right; auto) (a', b') A) as (C & D). cbn [fst snd] in *. lia.
Qed.
Lemma zrun_small : forall m e s, (0 <= e)%Z -> (Z.abs (fst s) <= snd s)%Z -> (Z.abs (fst s) * 2 ^ e <= snd s + e * 2 ^ e)%Z ->
  let s' := zrun (map Z.of_nat (seq (S (Z.to_nat e)) m)) s in (Z.abs (fst s') * 2 ^ (e + Z.of_nat m) <= snd s' + (e + Z.of_nat m) * 2 ^ (e + Z.of_nat m))%Z.
Proof.
  induction m as [|m IH]; intros e s He Hw Hs; cbn [seq map zrun fold_left]; [rewrite Z.add_0_r; exact Hs|].
  replace (Z.of_nat (S (Z.to_nat e))) with (e + 1)%Z by lia. fold (zrun (map Z.of_nat (seq (S (S (Z.to_nat e))) m)) (zstep (e + 1) s)). destruct s as [a b]. destruct (zstep (e + 1) (a, b)) as [a' b'] eqn:E. cbn [fst snd] in Hw, Hs.
  destruct (zstep_within (e + 1) a b a' b' ltac:(lia) Hw E) as (A & _).
  assert (SM : (Z.abs a' * 2 ^ (e + 1) <= b' + (e + 1) * 2 ^ (e + 1))%Z). { apply (zstep_small (e + 1) e a b a' b'); auto; try lia. replace (e + 1 - 1)%Z with e by lia. exact Hs. }
  replace (S (S (Z.to_nat e))) with (S (Z.to_nat (e + 1))) by lia. replace (e + Z.of_nat (S m))%Z with (e + 1 + Z.of_nat m)%Z by lia. apply IH; cbn [fst snd]; auto; lia.
Qed.
Lemma run_exact : forall l s t2 t3, (forall n, In n l -> (0 <= n)%Z) -> (Z.abs (fst s) <= snd s)%Z -> (forall k, snd (zrun (firstn k l) s) < 2 ^ 31)%Z ->
  exists u2 u3, fold_left (fun r n => itt n r) l (Regs (word (fst s)) (snd s) t2 t3 0) = Regs (word (fst (zrun l s))) (snd (zrun l s)) u2 u3 0.
Proof.
  induction l as [|n l IH]; intros s t2 t3 Hl Hw B; cbn [fold_left zrun]; [eauto|]. fold (zrun l (zstep n s)). destruct s as [a b]. cbn [fst snd] in *.
  destruct (zstep n (a, b)) as [a' b'] eqn:E. destruct (zstep_within n a b a' b' (Hl n (or_introl eq_refl)) Hw E) as (A & C).
  pose proof (B 0%nat) as B0. pose proof (B 1%nat) as B1. cbn [firstn zrun fold_left] in B0, B1. rewrite E in B1. cbn [fst snd] in B0, B1.
  destruct (itt_exact n a b a' b' t2 t3 (Hl n (or_introl eq_refl)) ltac:(lia) ltac:(lia) E ltac:(lia)) as (u2 & u3 & ->).
  apply (IH (a', b')); cbn [fst snd]; auto; [intros; apply Hl; right; auto|]. intros k. specialize (B (S k)). cbn [firstn zrun fold_left] in B. rewrite E in B. exact B.
Qed.
Lemma sqrt2 : 0 < sqrt 2 < 14143 / 10000.
Proof.
  assert (S : sqrt 2 * sqrt 2 = 2) by (apply sqrt_sqrt; lra). pose proof (sqrt_lt_R0 2 ltac:(lra)). split; [auto|]. apply Rnot_le_lt. intros X. nra.
Qed.
Lemma gains_all : gains all_steps < 11646 / 10000.
Proof.
  pose proof total_bounds as T. unfold total in T. pose proof (sqrt_sqrt 2 ltac:(lra)) as S. pose proof (sqrt_lt_R0 2 ltac:(lra)). pose proof (gains_ge all_steps). apply Rnot_le_lt. intros X.
  assert (sqrt 2 * (11646 / 10000) <= 16468 / 10000) by nra. nra.
Qed.
Lemma norm_le_bound a b c : 0 <= c -> a * a + b * b <= c * c -> norm a b <= c.
Proof. intros Hc H. unfold norm. rewrite <- (sqrt_square c) by auto. apply sqrt_le_1_alt. exact H. Qed.
Lemma norm_ge_snd a b : b <= norm a b.
Proof.
  destruct (Rle_dec 0 b) as [P|P]; [|pose proof (norm_nonneg a b); lra]. unfold norm. rewrite <- (sqrt_square b) at 1 by auto. apply sqrt_le_1_alt. nra.
Qed.
Definition int (z : Z) : Prop := (- 2 ^ 31 <= z < 2 ^ 31)%Z.
Section Run.
Variables x y : Z.
Hypothesis Hx : int x.
Hypothesis Hy : int y.
Definition s0 := quarter x y.
Definition s1 := zstep 0 s0.
Lemma quarter_bounds : (- 2 ^ 29 <= x / 4 < 2 ^ 29 /\ 0 <= Z.abs y / 4 <= 2 ^ 29)%Z.
Proof. unfold int in *. split; (split; [apply Z.div_le_lower_bound||apply Z.div_pos|apply Z.div_lt_upper_bound||apply Z.div_le_upper_bound]); lia. Qed.
Lemma s1_within : (Z.abs (fst s1) <= snd s1)%Z.
Proof. unfold s1, s0, quarter, zstep. change (2 ^ 0)%Z with 1%Z. rewrite !Z.div_1_r. pose proof quarter_bounds. destruct (Z.ltb_spec (x / 4) 0); cbn [fst snd]; lia. Qed.
Lemma n0_bound : znorm s0 <= 760000000.
Proof.
  pose proof quarter_bounds as (A & B). unfold znorm, s0, quarter. cbn [fst snd]. apply norm_le_bound; [lra|]. rewrite <- !mult_IZR, <- plus_IZR. apply IZR_le. change (2 ^ 29)%Z with 536870912%Z in *. nia.
Qed.
Lemma n1_bound : znorm s1 <= 1073741824.
Proof.
  unfold s1. rewrite zstep_norm0. unfold znorm, norm, s0, quarter. cbn [fst snd]. rewrite <- sqrt_mult by (try lra; nra). rewrite <- (sqrt_square 1073741824) by lra. apply sqrt_le_1_alt.
  pose proof quarter_bounds as (A & B). change (2 ^ 29)%Z with 536870912%Z in *. rewrite <- !mult_IZR, <- plus_IZR, <- mult_IZR. apply IZR_le. nia.
Qed.
Lemma prefix_bound k : (snd (zrun (firstn k all_steps) s1) < 1300000000)%Z.
Proof.
  pose proof (zrun_norm (firstn k all_steps)) as Z1. specialize (Z1 ltac:(intros n Hn; assert (In n all_steps) by (rewrite <- (firstn_skipn k all_steps); apply in_or_app; auto); pose proof (all_steps_pos n H); lia) s1).
  apply lt_IZR. eapply Rle_lt_trans; [apply (norm_ge_snd (IZR (fst (zrun (firstn k all_steps) s1))))|]. fold (znorm (zrun (firstn k all_steps) s1)).
  assert (U : znorm (zrun (firstn k all_steps) s1) <= gains (firstn k all_steps) * znorm s1 + INR (length (firstn k all_steps)) * sqrt 2 * gains (firstn k all_steps)) by (pose proof (Rle_abs (znorm (zrun (firstn k all_steps) s1) - gains (firstn k all_steps) * znorm s1)); lra).
  clear Z1. assert (G : gains (firstn k all_steps) <= 11646 / 10000). { pose proof gains_all as G. rewrite <- (firstn_skipn k all_steps), gains_app in G. pose proof (gains_ge (skipn k all_steps)). pose proof (gains_ge (firstn k all_steps)). nra. }
  assert (L : INR (length (firstn k all_steps)) <= 18). { replace 18 with (INR 18) by (simpl; lra). apply le_INR. rewrite firstn_length. change (length all_steps) with 18%nat. lia. }
  pose proof (gains_ge (firstn k all_steps)). pose proof n1_bound. pose proof sqrt2. pose proof (pos_INR (length (firstn k all_steps))). pose proof (norm_nonneg (IZR (fst s1)) (IZR (snd s1))) as N. fold (znorm s1) in N.
  set (G0 := gains (firstn k all_steps)) in *. set (L0 := INR (length (firstn k all_steps))) in *. 
  assert (G0 * znorm s1 <= 11646 / 10000 * 1073741824) by (apply Rmult_le_compat; lra).
  assert (L0 * sqrt 2 <= 18 * (14143 / 10000)) by (apply Rmult_le_compat; lra).
  assert (L0 * sqrt 2 * G0 <= 18 * (14143 / 10000) * (11646 / 10000)) by (apply Rmult_le_compat; try lra; apply Rmult_le_pos; lra). lra.
Qed.
Definition s19 := zrun all_steps s1.
Lemma word_exact t2 t3 t11 : hypot_word x y t2 t3 t11 = (4 * (snd s19 * scalar / 2 ^ 32))%Z /\ (0 <= snd s19 * scalar / 2 ^ 32 < 2 ^ 30)%Z.
Proof.
  unfold hypot_word. destruct (prologue_exact x y t2 t3 t11 Hx Hy) as (u2 & u3 & E). rewrite E. clear E. change (zstep 0 (quarter x y)) with s1. destruct s1 as [a b] eqn:E1. pose proof s1_within as W. rewrite E1 in W.
  assert (P : forall n, In n steps -> (0 <= n)%Z) by (intros n Hn; assert (In n all_steps) by (apply in_or_app; auto); pose proof (all_steps_pos n H); lia).
  destruct (run_exact steps (a, b) u2 u3 P W) as (v2 & v3 & E2).
  { intros k. rewrite <- E1. destruct (Nat.le_gt_cases k 17) as [K|K].
    - pose proof (prefix_bound k) as B. unfold all_steps in B. rewrite firstn_app in B. change (length steps) with 17%nat in B. replace (k - 17)%nat with 0%nat in B by lia. rewrite firstn_O, app_nil_r in B. lia.
    - rewrite firstn_all2 by (change (length steps) with 17%nat; lia). pose proof (prefix_bound 17) as B. change (firstn 17 all_steps) with steps in B. lia. }
  cbn [fst snd] in E2. rewrite E2. clear E2.
  pose proof (zrun_within steps P (a, b) W) as (W17 & _). pose proof (prefix_bound 17) as B17. change (firstn 17 all_steps) with steps in B17. rewrite E1 in B17.
  assert (E19 : s19 = zstep 18 (zrun steps (a, b))) by (unfold s19, all_steps, zrun; rewrite fold_left_app, E1; reflexivity).
  pose proof (prefix_bound 18) as B18. change (firstn 18 all_steps) with all_steps in B18. fold s19 in B18.
  destruct (zrun steps (a, b)) as [a17 b17]. cbn [fst snd] in *. destruct s19 as [a19 b19] eqn:Es. cbn [fst snd] in *. symmetry in E19.
  destruct (zstep_within 18 a17 b17 a19 b19 ltac:(lia) W17 E19) as (W19 & M19).
  destruct (itt_final_exact 18 a17 b17 a19 b19 v2 v3 ltac:(lia) ltac:(lia) ltac:(lia) E19 ltac:(lia)) as (u0 & w2 & ->).
  unfold epilogue. cbn [r0 r1 r2 r3 r11]. unfold i_maccu. rewrite Z.mul_0_l, !Z.add_0_l.
  assert (Q : (0 <= b19 * scalar / 2 ^ 32 < 2 ^ 30)%Z) by (unfold scalar; split; [apply Z.div_pos|apply Z.div_lt_upper_bound]; lia).
  split; [|exact Q]. unfold i_shl. rewrite (word_id (b19 * scalar / 2 ^ 32)) by lia. change (2 ^ 2)%Z with 4%Z. rewrite word_id by lia. lia.
Qed.
Lemma norm_residual a b : 0 <= b -> b <= 2147483648 -> Rabs a <= b -> Rabs a * 262144 <= b + 18 * 262144 -> norm a b <= b + 8.
Proof.
  intros B0 B1 A0 A1. apply norm_le_bound; [lra|]. pose proof (Rsqr_abs a) as E. unfold Rsqr in E. rewrite E. pose proof (Rabs_pos a). set (c := Rabs a) in *. clearbody c. clear E.
  assert (C : c * c <= 16 * b + 64); [|lra]. destruct (Rle_dec b 18) as [S|S]; [assert (c * c <= b * b) by (apply Rmult_le_compat; lra); assert (b * b <= 18 * b) by (apply Rmult_le_compat_r; lra); lra|].
  assert (c <= b / 262144 + 18) by lra. assert (c * c <= (b / 262144 + 18) * (b / 262144 + 18)) by (apply Rmult_le_compat; lra).
  assert (b / 262144 <= 8192) by lra. assert (b / 262144 * (b / 262144) <= b / 262144 * 8192) by (apply Rmult_le_compat_l; lra).
  replace ((b / 262144 + 18) * (b / 262144 + 18)) with (b / 262144 * (b / 262144) + 36 * (b / 262144) + 324) in * by ring. lra.
Qed.
Theorem word_error t2 t3 t11 : let r := IZR (hypot_word x y t2 t3 t11) - sqrt (IZR x * IZR x + IZR y * IZR y) in -104 <= r <= 81.
Proof.
  cbv zeta. destruct (word_exact t2 t3 t11) as (E & Q). rewrite E. clear E. rewrite mult_IZR.
  pose proof (floor_error (snd s19 * scalar) 32 ltac:(lia)) as F. rewrite mult_IZR in F. fold s19 in Q. replace (IZR (snd s19) * IZR scalar * / IZR (2 ^ 32)) with (g * IZR (snd s19)) in F by (unfold g; field; apply not_0_IZR; discriminate).
  set (h := IZR (snd s19 * scalar / 2 ^ 32)) in *.
  (* the quarter *)
  assert (N0 : Rabs (znorm s0 - sqrt (IZR x * IZR x + IZR y * IZR y) / 4) <= sqrt 2).
  { replace (sqrt (IZR x * IZR x + IZR y * IZR y) / 4) with (norm (IZR x * / IZR (2 ^ 2)) (IZR (Z.abs y) * / IZR (2 ^ 2))).
    - unfold znorm, s0, quarter. cbn [fst snd]. eapply Rle_trans; [apply norm_triangle|].
      pose proof (floor_error x 2 ltac:(lia)) as Fx. pose proof (floor_error (Z.abs y) 2 ltac:(lia)) as Fy. change (2 ^ 2)%Z with 4%Z in *. apply norm_small; apply Rabs_le; lra.
    - change (2 ^ 2)%Z with 4%Z. assert (Y : IZR (Z.abs y) * IZR (Z.abs y) = IZR y * IZR y) by (rewrite <- !mult_IZR, Z.abs_square; reflexivity).
      unfold norm. replace (IZR x * / 4 * (IZR x * / 4) + IZR (Z.abs y) * / 4 * (IZR (Z.abs y) * / 4)) with ((IZR x * IZR x + IZR (Z.abs y) * IZR (Z.abs y)) * (/ 4 * / 4)) by ring.
      rewrite sqrt_mult by nra. rewrite sqrt_square, Y by lra. reflexivity. }
  (* the rotations *)
  assert (N1 : Rabs (znorm s19 - total * znorm s0) <= 18 * total).
  { pose proof (zrun_norm all_steps ltac:(intros n Hn; apply all_steps_pos in Hn; lia) s1) as Z1. fold s19 in Z1. unfold s1 in Z1 at 1. rewrite zstep_norm0 in Z1. unfold total.
    replace (sqrt 2 * gains all_steps * znorm s0) with (gains all_steps * (sqrt 2 * znorm s0)) by ring. eapply Rle_trans; [exact Z1|]. change (length all_steps) with 18%nat. replace (INR 18) with 18 by (simpl; lra). lra. }
  (* what is left of the first coordinate *)
  assert (N2 : IZR (snd s19) <= znorm s19 <= IZR (snd s19) + 8).
  { split; [apply norm_ge_snd|]. pose proof s1_within as W. destruct (zrun_within all_steps ltac:(intros n Hn; apply all_steps_pos in Hn; lia) s1 W) as (W19 & M19). fold s19 in W19, M19.
    pose proof (zrun_small 18 0 s1 ltac:(lia) W) as SM. change (map Z.of_nat (seq (S (Z.to_nat 0)) 18)) with all_steps in SM. cbv zeta in SM. fold s19 in SM.
    assert (SM' : (Z.abs (fst s19) * 262144 <= snd s19 + 18 * 262144)%Z) by (apply SM; change (2 ^ 0)%Z with 1%Z; lia). pose proof (prefix_bound 18) as B. change (firstn 18 all_steps) with all_steps in B. fold s19 in B.
    apply norm_residual.
    - apply IZR_le. lia.
    - apply IZR_le. lia.
    - rewrite <- abs_IZR. apply IZR_le. lia.
    - rewrite <- abs_IZR, <- !mult_IZR, <- plus_IZR. apply IZR_le. exact SM'. }
  pose proof scaled as SC. pose proof sqrt2 as S2. pose proof n0_bound as B0. pose proof (norm_nonneg (IZR (fst s0)) (IZR (snd s0))) as NN. fold (znorm s0) in NN. pose proof total_bounds as T.
  assert (G : 0 < g < 60726 / 100000) by (unfold g, scalar; change (IZR (2 ^ 32)) with 4294967296; lra).
  set (v := sqrt (IZR x * IZR x + IZR y * IZR y)) in *. set (n0 := znorm s0) in *. set (n19 := znorm s19) in *. set (b := IZR (snd s19)) in *. clearbody v n0 n19 b h.
  assert (A0 : - sqrt 2 <= n0 - v / 4 <= sqrt 2) by (split; [pose proof (Rle_abs (- (n0 - v / 4))) as X; rewrite Rabs_Ropp in X; lra|pose proof (Rle_abs (n0 - v / 4)); lra]).
  assert (A1 : - (18 * total) <= n19 - total * n0 <= 18 * total) by (split; [pose proof (Rle_abs (- (n19 - total * n0))) as X; rewrite Rabs_Ropp in X; lra|pose proof (Rle_abs (n19 - total * n0)); lra]).
  assert (A2 : - / 2000000000 <= g * total - 1 <= / 2000000000) by (split; [pose proof (Rle_abs (- (g * total - 1))) as X; rewrite Rabs_Ropp in X; lra|pose proof (Rle_abs (g * total - 1)); lra]).
  clear N0 N1 SC. set (gt := g * total) in *.
  assert (A3 : - (18 * gt) <= g * n19 - gt * n0 <= 18 * gt) by (unfold gt; replace (g * n19 - g * total * n0) with (g * (n19 - total * n0)) by ring; replace (18 * (g * total)) with (g * (18 * total)) by ring; split; [replace (- (g * (18 * total))) with (g * - (18 * total)) by ring|]; apply Rmult_le_compat_l; lra).
  assert (A4 : - (38 / 100) <= gt * n0 - n0 <= 38 / 100) by (replace (gt * n0 - n0) with ((gt - 1) * n0) by ring; split; nra).
  assert (A5 : g * b <= g * n19 <= g * b + g * 8) by nra. assert (A6 : g * 8 <= 60726 / 100000 * 8) by nra. assert (A7 : 18 * gt <= 18001 / 1000) by lra.
  lra.
Qed.
End Run.

(** ** The theorems.  [hypot_word]: the 32 bits of the result; [t2], [t3], [t11]: whatever is in the other registers. *)
Theorem C94_magnitude : forall x y t2 t3 t11, int x -> int y ->
  -104 <= IZR (hypot_word x y t2 t3 t11) - sqrt (IZR x * IZR x + IZR y * IZR y) <= 81.
Proof. intros x y t2 t3 t11 Hx Hy. exact (word_error x y Hx Hy t2 t3 t11). Qed.
(** As an int: right as long as the magnitude fits, negative when it does not. *)
Lemma sqrt_le_z n c : (0 <= c)%Z -> (n <= c * c)%Z -> sqrt (IZR n) <= IZR c.
Proof. intros Hc H. rewrite <- (sqrt_square (IZR c)) by (apply IZR_le; auto). apply sqrt_le_1_alt. rewrite <- mult_IZR. apply IZR_le. auto. Qed.
Lemma sqrt_ge_z n c : (0 <= c)%Z -> (c * c <= n)%Z -> IZR c <= sqrt (IZR n).
Proof. intros Hc H. rewrite <- (sqrt_square (IZR c)) at 1 by (apply IZR_le; auto). apply sqrt_le_1_alt. rewrite <- mult_IZR. apply IZR_le. auto. Qed.
Theorem C94_int : forall x y t2 t3 t11, int x -> int y -> (x * x + y * y <= (2 ^ 31 - 82) * (2 ^ 31 - 82))%Z ->
  (0 <= hypot_i x y t2 t3 t11)%Z /\ -104 <= IZR (hypot_i x y t2 t3 t11) - sqrt (IZR x * IZR x + IZR y * IZR y) <= 81.
Proof.
  intros x y t2 t3 t11 Hx Hy B. pose proof (C94_magnitude x y t2 t3 t11 Hx Hy) as M. pose proof (sqrt_le_z _ (2 ^ 31 - 82) ltac:(lia) B) as L. rewrite (plus_IZR (x * x)), (mult_IZR x x), (mult_IZR y y) in L.
  destruct (word_exact x y Hx Hy t2 t3 t11) as (E & P).
  assert (W : (0 <= hypot_word x y t2 t3 t11 < 2 ^ 31)%Z) by (split; [rewrite E; lia|]; apply lt_IZR; change (IZR (2 ^ 31)) with 2147483648; change (IZR (2 ^ 31 - 82)) with 2147483566 in L; lra).
  unfold hypot_i, signed. destruct (Z.ltb_spec (hypot_word x y t2 t3 t11) (2 ^ 31)); [|lia]. split; [lia|exact M].
Qed.
Theorem C94_overflow_refuted : forall x y t2 t3 t11, int x -> int y -> ((2 ^ 31 + 104) * (2 ^ 31 + 104) <= x * x + y * y)%Z -> (hypot_i x y t2 t3 t11 < 0)%Z.
Proof.
  intros x y t2 t3 t11 Hx Hy B. pose proof (C94_magnitude x y t2 t3 t11 Hx Hy) as M. pose proof (sqrt_ge_z _ (2 ^ 31 + 104) ltac:(lia) B) as L. rewrite (plus_IZR (x * x)), (mult_IZR x x), (mult_IZR y y) in L.
  destruct (word_exact x y Hx Hy t2 t3 t11) as (E & P).
  assert (W : (2 ^ 31 <= hypot_word x y t2 t3 t11 < 2 ^ 32)%Z) by (split; [|rewrite E; lia]; apply le_IZR; change (IZR (2 ^ 31)) with 2147483648; change (IZR (2 ^ 31 + 104)) with 2147483752 in L; lra).
  unfold hypot_i, signed. destruct (Z.ltb_spec (hypot_word x y t2 t3 t11) (2 ^ 31)); lia.
Qed.
(** The result depends on the arguments only. *)
Theorem C94_arguments_only : forall x y t2 t3 t11 u2 u3 u11, int x -> int y -> hypot_word x y t2 t3 t11 = hypot_word x y u2 u3 u11.
Proof. intros x y t2 t3 t11 u2 u3 u11 Hx Hy. destruct (word_exact x y Hx Hy t2 t3 t11) as (-> & _), (word_exact x y Hx Hy u2 u3 u11) as (-> & _). reflexivity. Qed.
(** Not better than 43: almost silence is 44. *)
Example C94_concrete : hypot_i 3000 (-4000) 7 8 9 = 5024%Z /\ hypot_i (-1) 0 7 8 9 = 44%Z /\ hypot_i 0 0 7 8 9 = 0%Z /\
  hypot_i 1500000000 (-1500000000) 0 0 0 = 2121320344%Z /\ hypot_i 2147483647 2147483647 0 0 0 = (-1257966800)%Z.
Proof. repeat split; vm_compute; reflexivity. Qed.

(** scale: division of 64 bits by 32, and no exception unless the divisor is 0. *)
Theorem C94_scale : forall lo hi d, (0 <= lo < 2 ^ 32)%Z -> (0 <= hi < 2 ^ 32)%Z -> (0 <= d < 2 ^ 32)%Z ->
  scale lo hi d = if (d =? 0)%Z then None else let q := ((hi * 2 ^ 32 + lo) / d)%Z in Some (q mod 2 ^ 32, q / 2 ^ 32)%Z.
Proof.
  intros lo hi d Hl Hh Hd. unfold scale, i_ldivu. destruct (Z.eqb_spec d 0) as [->|N]; [reflexivity|]. destruct (Z.ltb_spec 0 d); [|lia].
  rewrite Z.mul_0_l, Z.add_0_l. pose proof (Z.mod_pos_bound hi d ltac:(lia)) as M. destruct (Z.ltb_spec (hi mod d) d); [|lia]. f_equal.
  pose proof (Z.div_mod hi d N) as D. set (q1 := (hi / d)%Z) in *. set (r1 := (hi mod d)%Z) in *. clearbody q1 r1.
  assert (E : ((hi * 2 ^ 32 + lo) / d = q1 * 2 ^ 32 + (r1 * 2 ^ 32 + lo) / d)%Z) by (rewrite D; replace ((d * q1 + r1) * 2 ^ 32 + lo)%Z with (r1 * 2 ^ 32 + lo + q1 * 2 ^ 32 * d)%Z by ring; rewrite Z.div_add by exact N; ring).
  assert (Q : (0 <= (r1 * 2 ^ 32 + lo) / d < 2 ^ 32)%Z) by (split; [apply Z.div_pos|apply Z.div_lt_upper_bound]; nia).
  cbv zeta. rewrite E. set (q0 := ((r1 * 2 ^ 32 + lo) / d)%Z) in *. clearbody q0. f_equal; [symmetry; rewrite Z.add_comm, Z.mod_add by lia; apply Z.mod_small; lia|].
  symmetry. rewrite Z.add_comm, Z.div_add by lia. rewrite Z.div_small by lia. lia.
Qed.
