From Coq Require Import QArith Qround Qminmax Qabs Lqa.
From Verif Require Import Base NdSpec LutModel LutSpec.
Local Open Scope Z_scope.

(** ** rounding *)
Lemma injZ_lt a b : a < b -> (inject_Z a < inject_Z b)%Q. Proof. rewrite Zlt_Qlt. auto. Qed.
Lemma injZ_le a b : a <= b -> (inject_Z a <= inject_Z b)%Q. Proof. rewrite Zle_Qle. auto. Qed.
Lemma Zlt_inj a b : (inject_Z a < inject_Z b)%Q -> a < b. Proof. rewrite Zlt_Qlt. auto. Qed.
Lemma Zle_inj a b : (inject_Z a <= inject_Z b)%Q -> a <= b. Proof. rewrite Zle_Qle. auto. Qed.

Lemma c_round_ok x : rounds_to x (c_round x).
Proof.
  unfold c_round, rounds_to. destruct (Qle_bool 0 x) eqn:E.
  - apply Qle_bool_iff in E. left. pose proof (Qfloor_le (x + (1 # 2))) as A. pose proof (Qlt_floor (x + (1 # 2))) as B.
    rewrite inject_Z_plus in B. change (inject_Z 1) with 1%Q in B. split; [assumption|]. split; lra.
  - right. assert (x < 0)%Q. { apply Qnot_le_lt. intros H. apply Qle_bool_iff in H. congruence. }
    pose proof (Qfloor_le (- x + (1 # 2))) as A. pose proof (Qlt_floor (- x + (1 # 2))) as B.
    rewrite inject_Z_plus in B. change (inject_Z 1) with 1%Q in B. rewrite inject_Z_opp. split; [assumption|]. split; lra.
Qed.

Lemma rounds_bounds x r : rounds_to x r -> (inject_Z r - (1 # 2) <= x <= inject_Z r + (1 # 2))%Q.
Proof. intros [(A & B & C)|(A & B & C)]; split; lra. Qed.

Lemma rounds_to_unique x r r' : rounds_to x r -> rounds_to x r' -> r = r'.
Proof.
  assert (K : forall a b, (inject_Z a < inject_Z b + 1)%Q -> a <= b).
  { intros a b H. change 1%Q with (inject_Z 1) in H. rewrite <- inject_Z_plus in H. apply Zlt_inj in H. lia. }
  intros [(A & B & C)|(A & B & C)] [(A' & B' & C')|(A' & B' & C')]; try lra; apply Z.le_antisymm; apply K; lra.
Qed.

Lemma c_round_unique x r : rounds_to x r -> c_round x = r.
Proof. intros H. eapply rounds_to_unique; [apply c_round_ok|exact H]. Qed.

Lemma rounds_to_comp x y r : (x == y)%Q -> rounds_to x r -> rounds_to y r.
Proof. intros E. unfold rounds_to. rewrite E. auto. Qed.
Lemma c_round_comp x y : (x == y)%Q -> c_round x = c_round y.
Proof. intros E. apply c_round_unique. eapply rounds_to_comp; [symmetry; exact E|apply c_round_ok]. Qed.

Lemma c_round_int n : c_round (inject_Z n) = n.
Proof.
  apply c_round_unique. unfold rounds_to. destruct (Qlt_le_dec (inject_Z n) 0) as [H|H]; [right|left]; repeat split; auto; lra.
Qed.

Lemma c_round_mono x y : (x <= y)%Q -> c_round x <= c_round y.
Proof.
  intros H. pose proof (c_round_ok x) as A. pose proof (c_round_ok y) as B.
  destruct (Z_le_gt_dec (c_round x) (c_round y)) as [|G]; [assumption|exfalso].
  assert (G' : (inject_Z (c_round y) + 1 <= inject_Z (c_round x))%Q).
  { change 1%Q with (inject_Z 1). rewrite <- inject_Z_plus. apply injZ_le. lia. }
  destruct A as [(A1 & A2 & A3)|(A1 & A2 & A3)], B as [(B1 & B2 & B3)|(B1 & B2 & B3)]; try lra.
Qed.

(** distance: |round x - round y| < |x - y| + 1, one side *)
Lemma c_round_lipschitz x y d : (x <= y + d)%Q -> (inject_Z (c_round x) <= inject_Z (c_round y) + d + 1)%Q.
Proof. intros H. destruct (rounds_bounds x _ (c_round_ok x)), (rounds_bounds y _ (c_round_ok y)). lra. Qed.

(** ** the table *)
Lemma collect_map {A B} (f : A -> option B) l : (forall x, In x l -> exists y, f x = Some y) ->
  exists r, collect (map f l) = Some r /\ length r = length l /\ forall i d d', (i < length l)%nat -> f (nth i l d) = Some (nth i r d').
Proof.
  induction l as [|x l IH]; intros H; cbn [map collect].
  - exists []. repeat split; auto. cbn. lia.
  - destruct (H x (or_introl eq_refl)) as (y & E). rewrite E.
    destruct IH as (r & E2 & L & F); [intros z Hz; apply H; right; auto|]. rewrite E2.
    exists (y :: r). cbn [length]. repeat split; auto. intros [|i] d d' Hi; cbn [nth]; auto. apply F; lia.
Qed.

Lemma nth_map_seq_z (f : nat -> Z) n i d : (i < n)%nat -> nth i (map f (seq 0 n)) d = f i.
Proof. intros H. rewrite (nth_indep _ d (f 0%nat)) by (rewrite map_length, seq_length; lia). rewrite map_nth, seq_nth by lia. reflexivity. Qed.

Lemma input_vector_nth x : int8 x -> nth (Z.to_nat (x mod 256)) input_vector 0 = x /\ (Z.to_nat (x mod 256) < 256)%nat.
Proof.
  intros H. unfold int8 in H. unfold input_vector. destruct (Z.lt_ge_cases x 0) as [N|P].
  - assert (E : x mod 256 = x + 256) by (symmetry; apply Z.mod_unique with (-1); lia). rewrite E.
    rewrite app_nth2; rewrite map_length, seq_length; [|lia]. split; [|lia]. rewrite nth_map_seq_z by lia. lia.
  - rewrite Z.mod_small by lia. rewrite app_nth1 by (rewrite map_length, seq_length; lia). rewrite nth_map_seq_z by lia. lia.
Qed.
Lemma input_vector_in x : In x input_vector -> int8 x.
Proof.
  unfold input_vector, int8. rewrite in_app_iff, !in_map_iff. intros [(i & <- & H)|(i & <- & H)]; apply in_seq in H; lia.
Qed.
Lemma input_vector_length : length input_vector = 256%nat. Proof. reflexivity. Qed.

Lemma signed8_mod v : int8 v -> signed8 (v mod 256) = v /\ 0 <= v mod 256 < 256.
Proof.
  intros H. unfold int8 in H. split; [|apply Z.mod_pos_bound; lia]. unfold signed8. destruct (Z.lt_ge_cases v 0) as [N|P].
  - assert (E : v mod 256 = v + 256) by (symmetry; apply Z.mod_unique with (-1); lia). rewrite E. replace (v + 256 <? 128) with false by lia. lia.
  - rewrite Z.mod_small by lia. replace (v <? 128) with true by lia. reflexivity.
Qed.

Lemma wrap32_small v : - 2 ^ 31 <= v < 2 ^ 31 -> wrap32 v = v.
Proof. intros H. unfold wrap32. rewrite Z.mod_small by lia. lia. Qed.

(** The table, when no conversion to int32 overflows. *)
Lemma table_ok m a si zi so zo :
  (forall n, int8 n -> let r := c_round (apply_activation m a (inject_Z (n - zi) * si) / so) in
     - 2 ^ 31 <= r < 2 ^ 31 /\ - 2 ^ 31 <= r + zo < 2 ^ 31) ->
  exists t, lookup_table m a si zi so zo = Some t /\ length t = 256%nat /\ Forall (fun b => 0 <= b < 256) t /\
    forall x, int8 x -> lookup_kernel t x =
      Z.max (Z.min (c_round (apply_activation m a (inject_Z (x - zi) * si) / so) + zo) 127) (-128).
Proof.
  intros H. unfold lookup_table.
  assert (EN : forall n, int8 n -> lut_entry m a si zi so zo n =
      Some (Z.max (Z.min (c_round (apply_activation m a (inject_Z (n - zi) * si) / so) + zo) 127) (-128) mod 256)).
  { intros n Hn. unfold lut_entry, to_int32. specialize (H n Hn). cbv zeta in H |- *. destruct H as [H1 H2].
    replace ((- 2 ^ 31 <=? _) && (_ <? 2 ^ 31)) with true by lia. rewrite wrap32_small by lia. reflexivity. }
  destruct (collect_map (lut_entry m a si zi so zo) input_vector) as (t & E & L & F).
  { intros x Hx. apply input_vector_in in Hx. rewrite (EN x Hx). eauto. }
  exists t. rewrite L, input_vector_length. repeat split; auto.
  - apply Forall_nth. intros i d Hi. rewrite L in Hi. specialize (F i 0 d Hi).
    rewrite EN in F by (apply input_vector_in, nth_In; exact Hi). inversion F. apply Z.mod_pos_bound. lia.
  - intros x Hx. destruct (input_vector_nth x Hx) as [E1 E2]. unfold lookup_kernel.
    specialize (F (Z.to_nat (x mod 256)) 0 0 E2). rewrite E1, EN in F by assumption. inversion F as [F1].
    apply signed8_mod. unfold int8. lia.
Qed.

Lemma clamp_quantised s z y : quantised s z y (Z.max (Z.min (c_round (y / s) + z) 127) (-128)).
Proof.
  exists (c_round (y / s)). split; [apply c_round_ok|].
  destruct (Z.lt_ge_cases 127 (c_round (y / s) + z)); [right; left; lia|].
  destruct (Z.lt_ge_cases (c_round (y / s) + z) (-128)); [right; right; lia|left; lia].
Qed.

Lemma quantised_closest s z y v : (0 < s)%Q -> int8 z -> quantised s z y v -> closest s z y v.
Proof.
  intros Hs Hz (r & R & C). unfold int8 in Hz. pose proof (rounds_bounds _ _ R) as [B1 B2]. set (t := (y / s)%Q) in *.
  assert (Hv : int8 v) by (unfold int8; lia). split; [exact Hv|].
  assert (Ey : (y == s * t)%Q) by (unfold t; field; lra).
  assert (D : forall u, (dequantised s z u - y == s * (inject_Z (u - z) - t))%Q) by (intros u; unfold dequantised; rewrite Ey; ring).
  intros w Hw. unfold int8 in Hv, Hw. rewrite !D, !Qabs_Qmult. apply Qmult_le_l with (z := Qabs s); [rewrite Qabs_pos; lra|].
  set (p := v - z) in *. set (q := w - z) in *.
  assert (K : (inject_Z p == inject_Z q \/ inject_Z p + 1 <= inject_Z q \/ inject_Z q + 1 <= inject_Z p)%Q).
  { change 1%Q with (inject_Z 1). rewrite <- !inject_Z_plus. destruct (Z.lt_trichotomy p q) as [G|[G|G]].
    - right; left. apply injZ_le. lia.
    - left. rewrite G. reflexivity.
    - right; right. apply injZ_le. lia. }
  assert (C' : (p = r \/ (p + 1 <= r /\ q <= p) \/ (r + 1 <= p /\ p <= q))) by lia.
  destruct C' as [C'|[C'|C']].
  - rewrite C' in *. destruct K as [K|[K|K]].
    + rewrite K. apply Qle_refl.
    + apply Qabs_case; intros; apply Qabs_case; intros; lra.
    + apply Qabs_case; intros; apply Qabs_case; intros; lra.
  - destruct C' as [C1 C2]. assert (P1 : (inject_Z p + 1 <= inject_Z r)%Q) by (change 1%Q with (inject_Z 1); rewrite <- inject_Z_plus; apply injZ_le; lia).
    apply injZ_le in C2. apply Qabs_case; intros; apply Qabs_case; intros; lra.
  - destruct C' as [C1 C2]. assert (P1 : (inject_Z r + 1 <= inject_Z p)%Q) by (change 1%Q with (inject_Z 1); rewrite <- inject_Z_plus; apply injZ_le; lia).
    apply injZ_le in C2. apply Qabs_case; intros; apply Qabs_case; intros; lra.
Qed.

(** ** activations *)
Lemma apply_activation_real m a x : (apply_activation m a x == act_real m a x)%Q.
Proof.
  destruct a; cbn [apply_activation act_real]; try reflexivity.
  - destruct (Qle_bool x 0) eqn:E.
    + apply Qle_bool_iff in E. rewrite Q.max_r by assumption. reflexivity.
    + rewrite Q.max_l; [reflexivity|]. apply Qlt_le_weak, Qnot_le_lt. intros H. apply Qle_bool_iff in H. congruence.
  - destruct (Qle_bool x 0) eqn:E.
    + apply Qle_bool_iff in E. rewrite Q.max_r by assumption. reflexivity.
    + assert (N : (0 < x)%Q) by (apply Qnot_le_lt; intros H; apply Qle_bool_iff in H; congruence).
      rewrite Q.max_l by lra. destruct (Qle_bool 6 x) eqn:E6.
      * apply Qle_bool_iff in E6. rewrite Q.min_r by assumption. reflexivity.
      * rewrite Q.min_l; [reflexivity|]. apply Qlt_le_weak, Qnot_le_lt. intros H. apply Qle_bool_iff in H. congruence.
  - unfold hard_swish. destruct (Qle_bool x (-3)) eqn:E.
    + apply Qle_bool_iff in E. rewrite Q.max_r by lra. rewrite Q.min_l by lra. field.
    + assert (N : (-3 < x)%Q) by (apply Qnot_le_lt; intros H; apply Qle_bool_iff in H; congruence).
      rewrite Q.max_l by lra. destruct (Qle_bool 3 x) eqn:E6.
      * apply Qle_bool_iff in E6. rewrite Q.min_r by lra. field.
      * assert (N6 : (x < 3)%Q) by (apply Qnot_le_lt; intros H; apply Qle_bool_iff in H; congruence).
        rewrite Q.min_l by lra. reflexivity.
Qed.

(** ** the pad value *)
Lemma lor_add x y k : 0 <= k -> 0 <= y < 2 ^ k -> Z.lor (Z.shiftl x k) y = x * 2 ^ k + y.
Proof.
  intros Hk Hy. rewrite <- Z.lxor_lor, <- Z.add_nocarry_lxor; rewrite ?Z.shiftl_mul_pow2 by lia; auto.
  all: rewrite <- Z.shiftl_mul_pow2 by lia; apply Z.bits_inj'; intros n Hn; rewrite Z.land_spec, Z.bits_0.
  all: destruct (Z.lt_ge_cases n k); [rewrite Z.shiftl_spec_low by lia; reflexivity|].
  all: assert (E : y = y mod 2 ^ k) by (rewrite Z.mod_small; lia); rewrite E, Z.mod_pow2_bits_high by lia; apply andb_false_r.
Qed.
