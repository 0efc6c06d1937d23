(** Lemmas for C86: powers with directed rounding. *)
From Coq Require Import List ZArith Lia Psatz Bool Arith.
Import ListNotations.
From Verif Require Import LogModel LogSpec.
Local Open Scope Z_scope.

(** (p, e): p * 2^e.  Squares rounded down / up to 32 bits. *)
Definition square_lo (pe : Z * Z) : Z * Z := let '(p, e) := pe in let s := Z.max 0 (Z.log2 (p * p) - 31) in (Z.shiftr (p * p) s, 2 * e + s).
Definition square_up (pe : Z * Z) : Z * Z := let '(p, e) := pe in let s := Z.max 0 (Z.log2 (p * p) - 31) in (Z.shiftr (p * p) s + 1, 2 * e + s).
Fixpoint iter {A} (n : nat) (f : A -> A) (x : A) : A := match n with O => x | S k => iter k f (f x) end.
Definition lower (pe : Z * Z) (z : Z) : Prop := 0 < fst pe /\ 0 <= snd pe /\ fst pe * 2 ^ snd pe <= z.
Definition upper (pe : Z * Z) (z : Z) : Prop := 0 < fst pe /\ 0 <= snd pe /\ z <= fst pe * 2 ^ snd pe.
Lemma square_lo_ok pe z : lower pe z -> lower (square_lo pe) (z * z).
Proof.
  destruct pe as [p e]. unfold lower, square_lo. cbn [fst snd]. intros (P & E & L). set (s := Z.max 0 (Z.log2 (p * p) - 31)).
  assert (S0 : 0 <= s) by lia. rewrite Z.shiftr_div_pow2 by lia. assert (P2 : 0 < 2 ^ s) by (apply Z.pow_pos_nonneg; lia).
  assert (SP : 2 ^ s <= p * p).
  { destruct (Z.log2_spec (p * p) ltac:(nia)) as [A _]. destruct (Z.le_gt_cases s 0); [replace s with 0 by lia; cbn; nia|].
    eapply Z.le_trans; [|exact A]. apply Z.pow_le_mono_r; lia. }
  split; [apply Z.div_str_pos; lia|]. split; [lia|].
  rewrite Z.pow_add_r, Z.mul_comm with (n := 2) by lia. rewrite Z.pow_mul_r, Z.pow_2_r by lia.
  assert (D : 2 ^ s * (p * p / 2 ^ s) <= p * p) by (apply Z.mul_div_le; auto). assert (E2 : 0 < 2 ^ e) by (apply Z.pow_pos_nonneg; lia).
  assert ((p * 2 ^ e) * (p * 2 ^ e) <= z * z) by nia. nia.
Qed.
Lemma square_up_ok pe z : 0 <= z -> upper pe z -> upper (square_up pe) (z * z).
Proof.
  destruct pe as [p e]. unfold upper, square_up. cbn [fst snd]. intros Z0 (P & E & L). set (s := Z.max 0 (Z.log2 (p * p) - 31)).
  assert (S0 : 0 <= s) by lia. rewrite Z.shiftr_div_pow2 by lia. assert (P2 : 0 < 2 ^ s) by (apply Z.pow_pos_nonneg; lia).
  pose proof (Z.div_pos (p * p) (2 ^ s) ltac:(nia) P2). split; [lia|]. split; [lia|].
  rewrite Z.pow_add_r, Z.mul_comm with (n := 2) by lia. rewrite Z.pow_mul_r, Z.pow_2_r by lia.
  assert (D : p * p <= 2 ^ s * (p * p / 2 ^ s + 1)) by (pose proof (Z.mul_succ_div_gt (p * p) (2 ^ s) P2); lia). assert (E2 : 0 < 2 ^ e) by (apply Z.pow_pos_nonneg; lia).
  assert (z * z <= (p * 2 ^ e) * (p * 2 ^ e)) by nia. nia.
Qed.
Lemma pow2_iter n : forall z, z ^ 2 ^ Z.of_nat (S n) = (z * z) ^ 2 ^ Z.of_nat n.
Proof. intros z. rewrite Nat2Z.inj_succ, Z.pow_succ_r by lia. rewrite Z.pow_mul_r by lia. rewrite Z.pow_2_r. reflexivity. Qed.
Lemma iter_lo n : forall pe z, 0 <= z -> lower pe z -> lower (iter n square_lo pe) (z ^ 2 ^ Z.of_nat n).
Proof. induction n as [|n IH]; intros pe z Z0 H; [rewrite Z.pow_1_r; auto|]. rewrite pow2_iter. cbn [iter]. apply IH; [nia|]. apply square_lo_ok; auto. Qed.
Lemma iter_up n : forall pe z, 0 <= z -> upper pe z -> upper (iter n square_up pe) (z ^ 2 ^ Z.of_nat n).
Proof. induction n as [|n IH]; intros pe z Z0 H; [rewrite Z.pow_1_r; auto|]. rewrite pow2_iter. cbn [iter]. apply IH; [nia|]. apply square_up_ok; auto. Qed.

(** 2^t <= z^1024 and z^1024 <= 2^t. *)
Definition above (z t : Z) : bool := let '(p, e) := iter 10 square_lo (z, 0) in t <=? Z.log2 p + e.
Definition below (z t : Z) : bool := let '(p, e) := iter 10 square_up (z, 0) in Z.log2_up p + e <=? t.
Lemma above_ok z t : 0 < z -> 0 <= t -> above z t = true -> 2 ^ t <= z ^ 1024.
Proof.
  intros Z0 T0. unfold above. pose proof (iter_lo 10 (z, 0) z ltac:(lia)) as H. destruct (iter 10 square_lo (z, 0)) as [p e]. intros C. apply Z.leb_le in C.
  destruct H as (P & E & L). { unfold lower. cbn. lia. } cbn [fst snd] in *. change (2 ^ Z.of_nat 10) with 1024 in L.
  eapply Z.le_trans; [|exact L]. eapply Z.le_trans; [apply Z.pow_le_mono_r; [lia|exact C]|]. rewrite Z.pow_add_r by (try apply Z.log2_nonneg; lia).
  destruct (Z.log2_spec p P) as [A _]. apply Z.mul_le_mono_nonneg_r; auto. apply Z.pow_nonneg; lia.
Qed.
Lemma below_ok z t : 0 < z -> 0 <= t -> below z t = true -> z ^ 1024 <= 2 ^ t.
Proof.
  intros Z0 T0. unfold below. pose proof (iter_up 10 (z, 0) z ltac:(lia)) as H. destruct (iter 10 square_up (z, 0)) as [p e]. intros C. apply Z.leb_le in C.
  destruct H as (P & E & L). { unfold upper. cbn. lia. } cbn [fst snd] in *. change (2 ^ Z.of_nat 10) with 1024 in L.
  eapply Z.le_trans; [exact L|]. eapply Z.le_trans; [|apply Z.pow_le_mono_r; [lia|exact C]]. rewrite Z.pow_add_r by (try apply Z.log2_up_nonneg; lia).
  apply Z.mul_le_mono_nonneg_r; [apply Z.pow_nonneg; lia|]. destruct (Z.eq_dec p 1) as [->|]; [cbn; lia|]. apply Z.log2_up_spec. lia.
Qed.

(** The value for a normalised word. *)
Definition v0 (X : Z) : Z := let '(a, m) := nth (Z.to_nat (X / 512 - 64)) xxx (0, 0) in a + m * X / 65536.
Fixpoint all_from (n : nat) (X : Z) (f : Z -> bool) : bool := match n with O => true | S k => if f X then all_from k (X + 1) f else false end.
Lemma all_from_ok n : forall X f, all_from n X f = true -> forall Y, X <= Y < X + Z.of_nat n -> f Y = true.
Proof.
  induction n as [|n IH]; intros X f H Y R; [lia|]. cbn [all_from] in H. destruct (f X) eqn:E; [|discriminate]. destruct (Z.eq_dec X Y) as [->|]; auto. apply (IH (X + 1)); auto. lia.
Qed.
Definition check (X : Z) : bool := (0 <=? v0 X) && (v0 X <=? 1024) && above X (v0 X + 15359) && below (X + 1) (v0 X + 15362).
Lemma check_all : forall X, 32768 <= X < 65536 -> check X = true.
Proof.
  intros X H. apply (all_from_ok (Z.to_nat 32768) 32768); [vm_compute; reflexivity|]. rewrite Z2Nat.id by lia. lia.
Qed.
Lemma v0_ok X : 32768 <= X < 65536 -> 0 <= v0 X <= 1024 /\ 2 ^ (v0 X + 15359) <= X ^ 1024 /\ (X + 1) ^ 1024 <= 2 ^ (v0 X + 15362).
Proof.
  intros H. pose proof (check_all X H) as C. unfold check in C. rewrite !andb_true_iff, !Z.leb_le in C. destruct C as [[[A B] C] D].
  split; [lia|]. split; [apply above_ok; auto; lia|apply below_ok; auto; lia].
Qed.
(** Largest value so far. *)
Fixpoint dips (n : nat) (X mx : Z) : bool := match n with O => true | S k => let v := v0 X in if mx <=? v + 2 then dips k (X + 1) (Z.max mx v) else false end.
Lemma dips_ok n : forall X mx, dips n X mx = true -> (forall Y, X <= Y < X + Z.of_nat n -> mx <= v0 Y + 2) /\ (forall Y W, X <= Y <= W -> W < X + Z.of_nat n -> v0 Y <= v0 W + 2).
Proof.
  induction n as [|n IH]; intros X mx H; [split; intros; lia|]. cbn [dips] in H. cbv zeta in H. destruct (Z.leb_spec mx (v0 X + 2)) as [L|]; [|discriminate]. apply IH in H as [A B].
  split.
  - intros Y R. destruct (Z.eq_dec X Y) as [->|]; [lia|]. specialize (A Y ltac:(lia)). lia.
  - intros Y W R1 R2. destruct (Z.eq_dec X Y) as [<-|]; [|apply B; lia]. destruct (Z.eq_dec X W) as [<-|]; [lia|]. specialize (A W ltac:(lia)). lia.
Qed.
Lemma v0_dips Y W : 32768 <= Y <= W -> W < 65536 -> v0 Y <= v0 W + 2.
Proof.
  intros H1 H2. destruct (dips_ok (Z.to_nat 32768) 32768 0) as [_ B]; [vm_compute; reflexivity|]. apply B; auto.
Qed.

(** Shifts. *)
Lemma shl_norm x k e : 0 <= x -> 0 <= k -> 0 <= e -> x * 2 ^ k / 2 ^ e < 4294967296 -> shl x (k - e) = x * 2 ^ k / 2 ^ e.
Proof.
  intros X K E B. unfold shl. assert (P : 0 < 2 ^ e) by (apply Z.pow_pos_nonneg; lia). assert (PK : 0 < 2 ^ k) by (apply Z.pow_pos_nonneg; lia).
  assert (Q : Z.shiftl x (k - e) = x * 2 ^ k / 2 ^ e).
  { destruct (Z.le_gt_cases e k).
    - rewrite Z.shiftl_mul_pow2 by lia. replace k with (k - e + e) at 2 by lia. rewrite Z.pow_add_r, Z.mul_assoc, Z.div_mul by lia. reflexivity.
    - rewrite Z.shiftl_div_pow2 by lia. replace (- (k - e)) with (e - k) by lia. replace e with (e - k + k) at 2 by lia. rewrite Z.pow_add_r by lia. rewrite Z.div_mul_cancel_r by (try apply Z.pow_nonzero; lia). reflexivity. }
  rewrite Q. apply Z.mod_small. split; [apply Z.div_pos; nia|auto].
Qed.
Lemma norm_range x k : 0 < x -> 0 <= k -> 2 ^ k <= x * 2 ^ k / 2 ^ Z.log2 x < 2 * 2 ^ k.
Proof.
  intros X K. destruct (Z.log2_spec x X) as [A B]. pose proof (Z.log2_nonneg x). rewrite Z.pow_succ_r in B by lia. assert (P : 0 < 2 ^ Z.log2 x) by (apply Z.pow_pos_nonneg; lia).
  assert (PK : 0 < 2 ^ k) by (apply Z.pow_pos_nonneg; lia). split; [apply Z.div_le_lower_bound; nia|apply Z.div_lt_upper_bound; nia].
Qed.
Lemma to_int_id z : -2147483648 <= z <= 2147483647 -> to_int z = z.
Proof. intros H. unfold to_int. destruct (Z.ltb_spec (z mod 4294967296) 2147483648); Z.to_euclidean_division_equations; lia. Qed.
Lemma log2_word x : 0 < x < 4294967296 -> 0 <= Z.log2 x <= 31.
Proof. intros H. split; [apply Z.log2_nonneg|]. assert (Z.log2 x < 32) by (apply Z.log2_lt_pow2; [lia|change (2 ^ 32) with 4294967296; lia]). lia. Qed.
Definition norm (x : Z) : Z := x * 2 ^ 15 / 2 ^ Z.log2 x.
Lemma table_range : forall k, 0 <= k < 64 -> let '(a, m) := nth (Z.to_nat k) xxx (0, 0) in 0 <= m < 65536.
Proof.
  assert (H : all_from 64 0 (fun k => let '(a, m) := nth (Z.to_nat k) xxx (0, 0) in (0 <=? m) && (m <? 65536)) = true) by (vm_compute; reflexivity).
  intros k R. pose proof (all_from_ok _ _ _ H k ltac:(lia)) as C. cbv beta in C. destruct (nth (Z.to_nat k) xxx (0, 0)) as [a m]. rewrite andb_true_iff, Z.leb_le, Z.ltb_lt in C. auto.
Qed.
Lemma log2_16_v0 x : 0 < x < 4294967296 -> 32768 <= norm x < 65536 /\ log2_16 x = v0 (norm x) + 1024 * Z.log2 x.
Proof.
  intros H. pose proof (log2_word x H) as L. assert (N : 32768 <= norm x < 65536) by (apply (norm_range x 15); lia). split; [exact N|].
  unfold log2_16, clz. destruct (Z.eqb_spec x 0); [lia|]. replace (31 - Z.log2 x - 25) with (6 - Z.log2 x) by lia. replace (31 - Z.log2 x - 16) with (15 - Z.log2 x) by lia.
  pose proof (norm_range x 6 ltac:(lia) ltac:(lia)) as N6. change (2 ^ 6) with 64 in N6.
  rewrite (shl_norm x 6) by (try change (2 ^ 6) with 64; lia). fold (norm x). rewrite (shl_norm x 15) by (try fold (norm x); lia). fold (norm x).
  assert (E6 : x * 2 ^ 6 / 2 ^ Z.log2 x = norm x / 512).
  { unfold norm. assert (P : 0 < 2 ^ Z.log2 x) by (apply Z.pow_pos_nonneg; lia). rewrite Z.div_div by lia. rewrite <- (Z.div_mul_cancel_r (x * 2 ^ 6) (2 ^ Z.log2 x) 512) by lia. f_equal. change (2 ^ 15) with 32768. change (2 ^ 6) with 64. lia. }
  change (2 ^ 6) with 64 in *. rewrite E6 in *. unfold zext. change (2 ^ 16) with 65536. change (2 ^ 6) with 64. rewrite (Z.mod_small (norm x)) by lia.
  replace (norm x / 512 mod 64) with (norm x / 512 - 64) by (Z.to_euclidean_division_equations; lia).
  pose proof (v0_ok (norm x) N) as [V _]. unfold v0 in *. pose proof (table_range (norm x / 512 - 64) ltac:(lia)) as TR.
  destruct (nth (Z.to_nat (norm x / 512 - 64)) xxx (0, 0)) as [a m]. rewrite (Z.mod_small (m * norm x)) by nia. rewrite to_int_id by lia. lia.
Qed.
