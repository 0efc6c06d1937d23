From Coq Require Import List ZArith Bool Lia Reals Lra Psatz.
Import ListNotations.
From Verif Require Import HypotModel.
Local Open Scope Z_scope.

(** ** The exact integers *)
Definition zstep (n : Z) (s : Z * Z) : Z * Z :=
  let '(a, b) := s in if a <? 0 then (a + b / 2 ^ n, b - a / 2 ^ n) else (a - b / 2 ^ n, b + a / 2 ^ n).
Definition zrun (l : list Z) (s : Z * Z) : Z * Z := fold_left (fun s n => zstep n s) l s.

Lemma div_le z n : 0 <= n -> 0 <= z -> 0 <= z / 2 ^ n <= z.
Proof. intros Hn Hz. assert (0 < 2 ^ n) by (apply Z.pow_pos_nonneg; lia). split; [apply Z.div_pos; lia|]. apply Z.div_le_upper_bound; [lia|]. nia. Qed.
Lemma div_neg z n : 0 <= n -> z < 0 -> z <= z / 2 ^ n < 0.
Proof. intros Hn Hz. assert (0 < 2 ^ n) by (apply Z.pow_pos_nonneg; lia). split; [apply Z.div_le_lower_bound; [lia|nia]|]. apply Z.div_lt_upper_bound; lia. Qed.
(** The first coordinate never exceeds the second. *)
Lemma zstep_within n a b a' b' : 0 <= n -> Z.abs a <= b -> zstep n (a, b) = (a', b') -> Z.abs a' <= b' /\ b <= b'.
Proof.
  unfold zstep. intros Hn H. pose proof (div_le b n Hn ltac:(lia)) as D. destruct (Z.ltb_spec a 0); intros [= <- <-].
  - pose proof (div_neg a n Hn ltac:(lia)). lia.
  - pose proof (div_le a n Hn ltac:(lia)). lia.
Qed.
(** and gets small: in units of the step, plus one per step *)
Lemma zstep_small n e a b a' b' : 1 <= n -> 0 <= e -> Z.abs a <= b -> Z.abs a * 2 ^ (n - 1) <= b + e * 2 ^ (n - 1) -> zstep n (a, b) = (a', b') -> Z.abs a' * 2 ^ n <= b' + (e + 1) * 2 ^ n.
Proof.
  intros Hn He Hw H St. destruct (zstep_within n a b a' b' ltac:(lia) Hw St) as (Hw' & Hb). revert St. unfold zstep.
  assert (P : 2 ^ n = 2 * 2 ^ (n - 1)) by (replace n with (Z.succ (n - 1)) at 1 by lia; apply Z.pow_succ_r; lia). assert (P1 : 0 < 2 ^ (n - 1)) by (apply Z.pow_pos_nonneg; lia).
  set (p := 2 ^ (n - 1)) in *. set (t := 2 ^ n) in *. assert (T : 0 < t) by lia.
  pose proof (Z.div_mod b t ltac:(lia)) as D. pose proof (Z.mod_pos_bound b t T) as M. set (q := b / t) in *. set (m := b mod t) in *.
  assert (Q0 : 0 <= q) by (apply Z.div_pos; lia). assert (TB : t * q <= b) by lia.
  destruct (Z.ltb_spec a 0); intros [= <- <-].
  - assert (A : Z.abs (a + q) * t <= b + (e + 1) * t); [|lia]. destruct (Z.abs_spec (a + q)) as [(? & ->)|(? & ->)].
    + nia.
    + rewrite Z.abs_neq in H by lia. nia.
  - assert (A : Z.abs (a - q) * t <= b + (e + 1) * t); [|lia]. destruct (Z.abs_spec (a - q)) as [(? & ->)|(? & ->)].
    + rewrite Z.abs_eq in H by lia. nia.
    + nia.
Qed.

(** ** Machine words *)
Lemma word_id z : 0 <= z < 2 ^ 32 -> word z = z.
Proof. intros. apply Z.mod_small. auto. Qed.
Lemma signed_word z : - 2 ^ 31 <= z < 2 ^ 31 -> signed (word z) = z.
Proof.
  intros H. unfold signed, word. destruct (Z.ltb_spec (z mod 2 ^ 32) (2 ^ 31)) as [L|L].
  - destruct (Z.neg_nonneg_cases z) as [N|N]; [|apply Z.mod_small; lia]. exfalso. replace (z mod 2 ^ 32) with (z + 2 ^ 32) in L; [lia|].
    symmetry. rewrite <- (Z.mod_small (z + 2 ^ 32) (2 ^ 32)) by lia. rewrite Z.add_mod, Z.mod_same, Z.add_0_r, Z.mod_mod by lia. reflexivity.
  - destruct (Z.neg_nonneg_cases z) as [N|N]; [|rewrite Z.mod_small in L by lia; lia]. replace (z mod 2 ^ 32) with (z + 2 ^ 32); [lia|].
    rewrite <- (Z.mod_small (z + 2 ^ 32) (2 ^ 32)) by lia. rewrite Z.add_mod, Z.mod_same, Z.add_0_r, Z.mod_mod by lia. reflexivity.
Qed.
Lemma word_add x y : word (word x + y) = word (x + y).
Proof. unfold word. rewrite Z.add_mod_idemp_l by lia. reflexivity. Qed.
Lemma word_sub x y : word (word x - y) = word (x - y).
Proof. unfold word. rewrite Zminus_mod_idemp_l. reflexivity. Qed.
Lemma word_sub_r x y : word (x - word y) = word (x - y).
Proof. unfold word. rewrite Zminus_mod_idemp_r. reflexivity. Qed.
Lemma lss_zero a : - 2 ^ 31 <= a < 2 ^ 31 -> i_lss (word a) 0 = if a <? 0 then 1 else 0.
Proof. intros H. unfold i_lss. rewrite signed_word by auto. reflexivity. Qed.

Lemma itt_exact n a b a' b' t2 t3 : 0 <= n -> - 2 ^ 31 <= a < 2 ^ 31 -> 0 <= b < 2 ^ 31 -> zstep n (a, b) = (a', b') -> 0 <= b' < 2 ^ 32 ->
  exists u2 u3, itt n (Regs (word a) b t2 t3 0) = Regs (word a') b' u2 u3 0.
Proof.
  intros Hn Ha Hb St Hb'. unfold itt. cbn [r0 r1 r2 r3 r11]. rewrite lss_zero by auto. unfold zstep in St. destruct (Z.ltb_spec a 0).
  - change (negb (1 =? 0)) with true. cbv iota. unfold i_ashr, i_add, i_sub, i_shr. rewrite signed_word by auto. rewrite word_add, word_sub_r. injection St as <- <-. rewrite (word_id (b - a / 2 ^ n)) by auto. eauto.
  - change (negb (0 =? 0)) with false. cbv iota. unfold i_add, i_sub, i_shr. rewrite (word_id a) by lia. injection St as <- <-. rewrite (word_id (b + a / 2 ^ n)) by auto. eauto.
Qed.
Lemma itt_final_exact n a b a' b' t2 t3 : 0 <= n -> - 2 ^ 31 <= a < 2 ^ 31 -> 0 <= b < 2 ^ 31 -> zstep n (a, b) = (a', b') -> 0 <= b' < 2 ^ 32 ->
  exists u0 u2, itt_final n (Regs (word a) b t2 t3 0) = Regs u0 b' u2 0 0.
Proof.
  intros Hn Ha Hb St Hb'. unfold itt_final. cbn [r0 r1 r2 r3 r11]. rewrite lss_zero by auto. unfold zstep in St. destruct (Z.ltb_spec a 0).
  - change (negb (1 =? 0)) with true. cbv iota. unfold i_ashr, i_add, i_sub, i_shr. rewrite signed_word by auto. rewrite word_sub_r. injection St as <- <-. rewrite (word_id (b - a / 2 ^ n)) by auto. eauto.
  - change (negb (0 =? 0)) with false. cbv iota. unfold i_add, i_sub, i_shr. rewrite (word_id a) by lia. injection St as <- <-. rewrite (word_id (b + a / 2 ^ n)) by auto. eauto.
Qed.
(** Quarter of the arguments: what the loop starts from. *)
Definition quarter (x y : Z) : Z * Z := (x / 4, Z.abs y / 4).
Lemma prologue_exact x y t2 t3 t11 : - 2 ^ 31 <= x < 2 ^ 31 -> - 2 ^ 31 <= y < 2 ^ 31 ->
  exists u2 u3, prologue (Regs (word x) (word y) t2 t3 t11) = (let '(a, b) := zstep 0 (quarter x y) in Regs (word a) b u2 u3 0).
Proof.
  intros Hx Hy. unfold prologue. cbn [r0 r1 r2 r3 r11]. unfold i_ashr. rewrite signed_word by auto. change (2 ^ 2) with 4.
  assert (Qx : - 2 ^ 29 <= x / 4 < 2 ^ 29) by (split; [apply Z.div_le_lower_bound|apply Z.div_lt_upper_bound]; lia).
  assert (Qy : 0 <= Z.abs y / 4 <= 2 ^ 29) by (split; [apply Z.div_pos|apply Z.div_le_upper_bound]; lia).
  rewrite lss_zero by auto. rewrite (lss_zero (x / 4)) by lia.
  assert (Y : forall (b : bool) t, b = (y <? 0) -> (if negb ((if b then 1 else 0) =? 0) then Regs (word (x / 4)) (i_neg (word y)) t t3 0 else Regs (word (x / 4)) (word y) t t3 0) = Regs (word (x / 4)) (Z.abs y) t t3 0).
  { intros b t ->. destruct (Z.ltb_spec y 0).
    - change (negb (1 =? 0)) with true. cbv iota. f_equal. unfold i_neg. rewrite <- (Z.sub_0_l (word y)), word_sub_r, Z.sub_0_l. rewrite word_id by lia. lia.
    - change (negb (0 =? 0)) with false. cbv iota. f_equal. rewrite word_id by lia. lia. }
  rewrite Y by reflexivity. cbn [r0 r1 r2 r3 r11]. unfold quarter, zstep. change (2 ^ 0) with 1. rewrite !Z.div_1_r. unfold i_shr. change (2 ^ 2) with 4.
  destruct (Z.ltb_spec (x / 4) 0).
  - change (negb (1 =? 0)) with true. cbv iota. unfold i_add, i_sub. rewrite word_add, word_sub_r. rewrite (word_id (Z.abs y / 4 - x / 4)) by lia. eauto.
  - change (negb (0 =? 0)) with false. cbv iota. unfold i_add, i_sub. rewrite (word_id (x / 4)) by lia. rewrite (word_id (Z.abs y / 4 + x / 4)) by lia. eauto.
Qed.

(** ** The norm *)
Local Open Scope R_scope.
Definition norm (a b : R) : R := sqrt (a * a + b * b).
Definition znorm (s : Z * Z) : R := norm (IZR (fst s)) (IZR (snd s)).
Definition gain2 (n : Z) : R := 1 + (/ IZR (2 ^ n)) * (/ IZR (2 ^ n)).
Definition gain (n : Z) : R := sqrt (gain2 n).
Lemma norm_nonneg a b : 0 <= norm a b.
Proof. apply sqrt_pos. Qed.
Lemma sq_nonneg a : 0 <= a * a.
Proof. nra. Qed.
Lemma norm_triangle a b c d : Rabs (norm a b - norm c d) <= norm (a - c) (b - d).
Proof.
  assert (T : forall a b c d, norm a b - norm c d <= norm (a - c) (b - d)).
  { clear. intros a b c d. pose proof (triangle 0 0 a b c d) as H. unfold dist_euc, Rsqr in H. unfold norm.
    replace ((0 - a) * (0 - a) + (0 - b) * (0 - b)) with (a * a + b * b) in H by ring. replace ((0 - c) * (0 - c) + (0 - d) * (0 - d)) with (c * c + d * d) in H by ring.
    replace ((c - a) * (c - a) + (d - b) * (d - b)) with ((a - c) * (a - c) + (b - d) * (b - d)) in H by ring. lra. }
  apply Rabs_le. split; [|apply T]. pose proof (T c d a b) as H. replace (norm (c - a) (d - b)) with (norm (a - c) (b - d)) in H by (unfold norm; f_equal; ring). lra.
Qed.
Lemma norm_small a b : Rabs a <= 1 -> Rabs b <= 1 -> norm a b <= sqrt 2.
Proof.
  intros Ha Hb. apply sqrt_le_1_alt. assert (a * a <= 1) by (pose proof (Rabs_pos a); pose proof (Rsqr_abs a) as E; unfold Rsqr in E; rewrite E; nra).
  assert (b * b <= 1) by (pose proof (Rabs_pos b); pose proof (Rsqr_abs b) as E; unfold Rsqr in E; rewrite E; nra). lra.
Qed.
Lemma norm_rotate a b t : norm (a - b * t) (b + a * t) = sqrt (1 + t * t) * norm a b.
Proof. unfold norm. rewrite <- sqrt_mult by nra. f_equal. ring. Qed.
Lemma norm_rotate' a b t : norm (a + b * t) (b - a * t) = sqrt (1 + t * t) * norm a b.
Proof. unfold norm. rewrite <- sqrt_mult by nra. f_equal. ring. Qed.
Lemma floor_error z n : (0 <= n)%Z -> 0 <= IZR z * / IZR (2 ^ n) - IZR (z / 2 ^ n) <= 1.
Proof.
  intros Hn. assert (P : (0 < 2 ^ n)%Z) by (apply Z.pow_pos_nonneg; lia). pose proof (Z.div_mod z (2 ^ n) ltac:(lia)) as D. pose proof (Z.mod_pos_bound z (2 ^ n) P) as M.
  assert (PR : 0 < IZR (2 ^ n)) by (apply IZR_lt; auto). assert (E : IZR z = IZR (2 ^ n) * IZR (z / 2 ^ n) + IZR (z mod 2 ^ n)) by (rewrite <- mult_IZR, <- plus_IZR; f_equal; exact D). rewrite E.
  replace ((IZR (2 ^ n) * IZR (z / 2 ^ n) + IZR (z mod 2 ^ n)) * / IZR (2 ^ n) - IZR (z / 2 ^ n)) with (IZR (z mod 2 ^ n) / IZR (2 ^ n)) by (field; lra).
  assert (M0 : 0 <= IZR (z mod 2 ^ n)) by (apply IZR_le; lia). assert (M1 : IZR (z mod 2 ^ n) <= IZR (2 ^ n)) by (apply IZR_le; lia).
  split; [apply Rmult_le_pos; [lra|left; apply Rinv_0_lt_compat; lra]|]. apply Rmult_le_reg_r with (IZR (2 ^ n)); [lra|]. unfold Rdiv. rewrite Rmult_assoc, Rinv_l by lra. lra.
Qed.
Lemma zstep_norm n s : (0 <= n)%Z -> Rabs (znorm (zstep n s) - gain n * znorm s) <= sqrt 2.
Proof.
  intros Hn. destruct s as [a b]. pose proof (floor_error a n Hn) as Fa. pose proof (floor_error b n Hn) as Fb. unfold gain, gain2. unfold zstep, znorm. cbn [fst snd]. destruct (a <? 0)%Z; cbn [fst snd].
  - rewrite <- norm_rotate'. eapply Rle_trans; [apply norm_triangle|]. apply norm_small; rewrite ?plus_IZR, ?minus_IZR; apply Rabs_le; lra.
  - rewrite <- norm_rotate. eapply Rle_trans; [apply norm_triangle|]. apply norm_small; rewrite ?plus_IZR, ?minus_IZR; apply Rabs_le; lra.
Qed.
Lemma zstep_norm0 s : znorm (zstep 0 s) = sqrt 2 * znorm s.
Proof.
  destruct s as [a b]. replace 2 with (1 + 1 * 1) by ring. unfold zstep, znorm. change (2 ^ 0)%Z with 1%Z. rewrite !Z.div_1_r. destruct (a <? 0)%Z; cbn [fst snd]; rewrite plus_IZR, minus_IZR.
  - rewrite <- norm_rotate', !Rmult_1_r. reflexivity.
  - rewrite <- norm_rotate, !Rmult_1_r. reflexivity.
Qed.
Fixpoint gains (l : list Z) : R := match l with [] => 1 | n :: tl => gain n * gains tl end.
Lemma gain2_ge n : 1 <= gain2 n.
Proof. unfold gain2. nra. Qed.
Lemma gain_ge n : 1 <= gain n.
Proof. unfold gain. rewrite <- sqrt_1. apply sqrt_le_1_alt, gain2_ge. Qed.
Lemma gains_ge l : 1 <= gains l.
Proof. induction l as [|n l IH]; cbn [gains]; [lra|]. pose proof (gain_ge n). nra. Qed.
Lemma gains_app l l' : gains (l ++ l') = gains l * gains l'.
Proof. induction l as [|n l IH]; cbn [gains app]; [ring|]. rewrite IH. ring. Qed.
Lemma zrun_norm l : (forall n, In n l -> (0 <= n)%Z) -> forall s, Rabs (znorm (zrun l s) - gains l * znorm s) <= INR (length l) * sqrt 2 * gains l.
Proof.
  assert (S2 : 0 <= sqrt 2) by apply sqrt_pos.
  induction l as [|n l IH]; intros Hl s; cbn [zrun fold_left gains length].
  - replace (znorm s - 1 * znorm s) with 0 by ring. rewrite Rabs_R0. simpl. lra.
  - specialize (IH ltac:(intros; apply Hl; right; auto) (zstep n s)). fold (zrun l (zstep n s)). pose proof (zstep_norm n s (Hl n (or_introl eq_refl))) as St.
    replace (znorm (zrun l (zstep n s)) - gain n * gains l * znorm s) with ((znorm (zrun l (zstep n s)) - gains l * znorm (zstep n s)) + gains l * (znorm (zstep n s) - gain n * znorm s)) by ring.
    eapply Rle_trans; [apply Rabs_triang|]. rewrite Rabs_mult, (Rabs_pos_eq (gains l)) by (pose proof (gains_ge l); lra).
    pose proof (gains_ge l) as G. pose proof (gain_ge n) as G1. rewrite S_INR. pose proof (pos_INR (length l)).
    assert (gains l * Rabs (znorm (zstep n s) - gain n * znorm s) <= gains l * sqrt 2) by (apply Rmult_le_compat_l; lra).
    assert (X : INR (length l) * sqrt 2 * gains l + gains l * sqrt 2 <= (INR (length l) + 1) * sqrt 2 * (gain n * gains l)); [|lra].
    replace (INR (length l) * sqrt 2 * gains l + gains l * sqrt 2) with ((INR (length l) + 1) * sqrt 2 * gains l) by ring. apply Rmult_le_compat_l; [|nra].
    apply Rmult_le_pos; lra.
Qed.
