(** C36, C37, C50, C51: lookup tables, pad values, fused activations. *)
From Coq Require Import QArith Qround Qminmax Qabs Lqa.
From Verif Require Import Base NdSpec LutModel LutSpec LutProofs.
Local Open Scope Z_scope.

(** ** C36 *)
(** For every activation and all quantisation parameters for which the scaled results fit
    in 32 bits: the table exists, has 256 bytes, and the lookup kernel returns, for every
    8-bit input, the quantised value of the function at the number the input stands for;
    no 8-bit value is closer to it. *)
Theorem C36_lookup_table : forall m a inScale inZero outScale outZero,
  (0 < outScale)%Q -> int8 outZero ->
  (forall x, int8 x -> Qabs (act_real m a (dequantised inScale inZero x) / outScale) <= inject_Z (2 ^ 31 - 256))%Q ->
  exists t, lookup_table m a inScale inZero outScale outZero = Some t /\
    length t = 256%nat /\ Forall (fun b => 0 <= b < 256) t /\
    forall x, int8 x ->
      let y := act_real m a (dequantised inScale inZero x) in
      quantised outScale outZero y (lookup_kernel t x) /\ closest outScale outZero y (lookup_kernel t x).
Proof.
  intros m a si zi so zo Hso Hzo HB.
  assert (AR : forall x, (apply_activation m a (inject_Z (x - zi) * si) / so == act_real m a (dequantised si zi x) / so)%Q).
  { intros x. rewrite apply_activation_real. reflexivity. }
  destruct (table_ok m a si zi so zo) as (t & E & L & F & K).
  - intros n Hn. specialize (HB n Hn). unfold int8 in Hzo. cbv zeta. rewrite (c_round_comp _ _ (AR n)).
    apply Qabs_Qle_condition in HB. destruct HB as [B1 B2].
    pose proof (c_round_mono _ _ B1) as M1. pose proof (c_round_mono _ _ B2) as M2.
    rewrite <- inject_Z_opp, c_round_int in M1. rewrite c_round_int in M2. lia.
  - exists t. split; [exact E|]. split; [exact L|]. split; [exact F|]. intros x Hx. cbv zeta.
    assert (QQ : quantised so zo (act_real m a (dequantised si zi x)) (lookup_kernel t x)).
    { rewrite (K x Hx), (c_round_comp _ _ (AR x)). apply clamp_quantised. }
    split; [exact QQ|]. apply quantised_closest; auto.
Qed.

Definition m0 : libm := Libm (fun x => x) (fun _ => 0%Q).
Example C36_concrete :
  exists t, lookup_table m0 Relu6 (1 # 10) (-20) (1 # 20) (-128) = Some t /\
    map (lookup_kernel t) [-128; -20; -19; 0; 39; 41; 127] = [-128; -128; -126; -88; -10; -8; -8].
Proof. eexists. split; vm_compute; reflexivity. Qed.

(** Without the bound the conversion to int32 is undefined. *)
Theorem C36_refuted_tiny_output_scale : lookup_table m0 Relu 1 0 (1 # 4294967296) 0 = None.
Proof. vm_compute. reflexivity. Qed.

(** ** C37 *)
(** For 8-bit tensors all four bytes of the word are the zero point, whatever its sign; for
    other types it is the zero point; 0 for types that are not quantised. *)
Theorem C37_pad_value : forall z bits,
  (bits = 8 -> le_bytes 4 (get_pad_value (Some z) bits) = [z mod 256; z mod 256; z mod 256; z mod 256] /\
               - 2 ^ 31 <= get_pad_value (Some z) bits < 2 ^ 31) /\
  (bits <> 8 -> get_pad_value (Some z) bits = z) /\
  get_pad_value None bits = 0.
Proof.
  intros z bits. unfold get_pad_value. split; [|split].
  - intros ->. change (8 =? 8) with true. cbv iota.
    set (b := z mod 256). assert (Hb : 0 <= b < 256) by (apply Z.mod_pos_bound; lia).
    change 16777215 with (Z.ones 24). change 65535 with (Z.ones 16). change 255 with (Z.ones 8).
    rewrite !Z.land_ones by lia. rewrite (Z.shiftl_mul_pow2 z 16), (Z.shiftl_mul_pow2 z 8) by lia.
    replace (2 ^ 24) with (2 ^ 8 * 2 ^ 16) by reflexivity. replace ((z * 2 ^ 8) mod 2 ^ 16) with ((z * 2 ^ 8) mod (2 ^ 8 * 2 ^ 8)) by reflexivity.
    rewrite !Z.mul_mod_distr_r by lia. change (z mod 2 ^ 8) with b.
    rewrite <- !Z.lor_assoc. rewrite <- (Z.shiftl_mul_pow2 b 8), <- (Z.shiftl_mul_pow2 b 16) by lia.
    rewrite (lor_add b b 8) by lia. rewrite (lor_add b (b * 2 ^ 8 + b) 16) by lia. rewrite (lor_add z _ 24) by lia.
    set (v := z * 2 ^ 24 + (b * 2 ^ 16 + (b * 2 ^ 8 + b))).
    assert (W : exists k, wrap32 v = v + k * 2 ^ 32 /\ - 2 ^ 31 <= wrap32 v < 2 ^ 31).
    { exists (- ((v + 2 ^ 31) / 2 ^ 32)). unfold wrap32. pose proof (Z.div_mod (v + 2 ^ 31) (2 ^ 32) ltac:(lia)).
      pose proof (Z.mod_pos_bound (v + 2 ^ 31) (2 ^ 32) ltac:(lia)). split; lia. }
    destruct W as (k & Ek & Rg). split; [|exact Rg]. rewrite Ek. clear Ek Rg.
    assert (Ez : z = 256 * (z / 256) + b) by (apply Z.div_mod; lia). set (h := z / 256) in *. clearbody b h.
    assert (Ev : v + k * 2 ^ 32 = b + 256 * (b + 256 * (b + 256 * (b + 256 * (h + k))))) by (unfold v; lia).
    rewrite Ev. assert (S : forall q, (b + 256 * q) mod 256 = b /\ (b + 256 * q) / 256 = q).
    { intros q. replace (b + 256 * q) with (b + q * 256) by ring. rewrite Z.mod_add, Z.div_add, Z.mod_small, Z.div_small by lia. lia. }
    cbn [le_bytes]. repeat (rewrite (proj1 (S _)) || rewrite (proj2 (S _))). reflexivity.
  - intros H. replace (bits =? 8) with false by lia. reflexivity.
  - destruct (bits =? 8); reflexivity.
Qed.
Example C37_concrete : get_pad_value (Some (-3)) 8 = -33686019 /\ get_pad_value (Some 5) 8 = 84215045.
Proof. split; reflexivity. Qed.

(** ** C50 *)
Lemma relu_scaled s (n : Z) : (0 < s)%Q -> (Qmax (inject_Z n * s) 0 / s == inject_Z (Z.max n 0))%Q.
Proof.
  intros Hs. destruct (Z.le_ge_cases n 0) as [H|H].
  - assert (N : (inject_Z n <= 0)%Q) by (change 0%Q with (inject_Z 0); apply injZ_le; lia).
    rewrite Q.max_r by nra. rewrite Z.max_r by lia. change (inject_Z 0) with 0%Q. field. lra.
  - assert (N : (0 <= inject_Z n)%Q) by (change 0%Q with (inject_Z 0); apply injZ_le; lia).
    rewrite Q.max_l by nra. rewrite Z.max_l by lia. field. lra.
Qed.
Lemma relu6_scaled s (n : Z) : (0 < s)%Q ->
  (Qmin (Qmax (inject_Z n * s) 0) 6 / s == Qmin (inject_Z (Z.max n 0)) (6 / s))%Q.
Proof.
  intros Hs. assert (E : (Qmax (inject_Z n * s) 0 == inject_Z (Z.max n 0) * s)%Q).
  { rewrite <- (relu_scaled s n Hs). field. lra. }
  rewrite E. set (p := inject_Z (Z.max n 0)).
  assert (E6 : (6 == 6 / s * s)%Q) by (field; lra).
  assert (Hi : (0 < / s)%Q) by (apply Qinv_lt_0_compat; assumption).
  destruct (Qlt_le_dec (6 / s) p) as [H|H].
  - assert (6 / s * s <= p * s)%Q by (apply Qmult_le_compat_r; lra).
    rewrite (Q.min_r (p * s)) by lra. rewrite (Q.min_r p) by lra. reflexivity.
  - assert (p * s <= 6 / s * s)%Q by (apply Qmult_le_compat_r; lra).
    rewrite (Q.min_l (p * s)) by lra. rewrite (Q.min_l p) by lra. field. lra.
Qed.
Lemma round_min_int (n : Z) (q : Q) : c_round (Qmin (inject_Z n) q) = Z.min n (c_round q).
Proof.
  destruct (Qlt_le_dec q (inject_Z n)) as [H|H].
  - rewrite (c_round_comp _ q) by (apply Q.min_r; lra).
    pose proof (c_round_mono q (inject_Z n) ltac:(lra)) as M. rewrite c_round_int in M. lia.
  - rewrite (c_round_comp _ (inject_Z n)) by (apply Q.min_l; lra).
    pose proof (c_round_mono (inject_Z n) q ltac:(lra)) as M. rewrite c_round_int in *. lia.
Qed.

(** Relu and Relu6: taking the fused activation out of Add, Sub or Mul and computing it
    with the generated table changes no result [v] of the operator before saturation. *)
Theorem C50_unfuse_activation : forall m a scale zero v, a = Relu \/ a = Relu6 -> (0 < scale)%Q -> int8 zero ->
  unfused m a scale zero v = Some (fused_clamp a scale zero v).
Proof.
  intros m a s z v Ha Hs Hz. unfold int8 in Hz.
  assert (Z0 : c_round (0 / s) = 0) by (rewrite (c_round_comp _ (inject_Z 0)); [apply c_round_int|unfold Qdiv; ring]).
  assert (P6 : 0 <= c_round (6 / s)).
  { rewrite <- Z0. apply c_round_mono. unfold Qdiv. apply Qmult_le_compat_r; [lra|]. apply Qlt_le_weak, Qinv_lt_0_compat; assumption. }
  assert (RR : forall n, int8 n -> c_round (apply_activation m a (inject_Z (n - z) * s) / s) =
      match a with Relu6 => Z.min (Z.max (n - z) 0) (c_round (6 / s)) | _ => Z.max (n - z) 0 end).
  { intros n Hn. destruct Ha as [-> | ->]; cbn [apply_activation].
    - rewrite (c_round_comp _ _ (relu_scaled s _ Hs)). apply c_round_int.
    - rewrite (c_round_comp _ _ (relu6_scaled s _ Hs)). apply round_min_int. }
  unfold unfused. destruct (table_ok m a s z s z) as (t & E & _ & _ & K).
  - intros n Hn. cbv zeta. rewrite (RR n Hn). unfold int8 in Hn. destruct Ha as [-> | ->]; lia.
  - rewrite E. f_equal. rewrite K by (unfold int8; lia). rewrite RR by (unfold int8; lia).
    unfold fused_clamp, activation_range. rewrite Z0. destruct Ha as [-> | ->]; lia.
Qed.
Example C50_concrete : map (unfused m0 Relu6 (1 # 10) 3) [-500; 2; 3; 40; 63; 64; 500] = map Some [3; 3; 3; 40; 63; 63; 63].
Proof. vm_compute. reflexivity. Qed.

(** Relu(Minimum(x, 127)): nothing changes for 8-bit values. *)
Theorem C50_minimum_127 : forall x, int8 x -> minimum_127 x = x.
Proof. intros x H. unfold int8 in H. unfold minimum_127. lia. Qed.

(** ** C51 *)
(** Same quantisation for both results: merging changes nothing. *)
Theorem C51_same_quantisation_partial : forall m s z y, (0 < s)%Q -> int8 z ->
  relu_after m s z s z y = Some (relu_merged s z y) /\ quantize_after s z s z y = quantize_merged s z y.
Proof.
  intros m s z y Hs Hz. split.
  - pose proof (C50_unfuse_activation m Relu s z (c_round (y / s) + z) (or_introl eq_refl) Hs Hz) as H. exact H.
  - unfold quantize_after, quantize_merged. set (v := requantize s z y). unfold requantize at 1.
    rewrite (c_round_comp _ (inject_Z (v - z))) by (field; lra). rewrite c_round_int. unfold v, requantize. lia.
Qed.

(** Otherwise, when the intermediate result does not saturate, the two results differ by at
    most 1 + s1 / (2 s2) units of the last scale. *)
Lemma clamp_close (a b lo hi : Z) (d : Q) : lo <= hi -> (0 <= d)%Q -> (inject_Z a <= inject_Z b + d)%Q ->
  (inject_Z (Z.min hi (Z.max lo a)) <= inject_Z (Z.min hi (Z.max lo b)) + d)%Q.
Proof.
  intros HL Hd H. destruct (Z.le_ge_cases a b) as [G|G].
  - assert (Z.min hi (Z.max lo a) <= Z.min hi (Z.max lo b)) as M by lia. apply injZ_le in M. lra.
  - assert (M : Z.min hi (Z.max lo a) - Z.min hi (Z.max lo b) <= a - b) by lia. apply injZ_le in M.
    unfold Z.sub in M. rewrite !inject_Z_plus, !inject_Z_opp in M. lra.
Qed.
Lemma intermediate_close s1 z1 y : (0 < s1)%Q -> int8 (c_round (y / s1) + z1) ->
  (Qabs (dequantised s1 z1 (requantize s1 z1 y) - y) <= s1 / 2)%Q.
Proof.
  intros Hs N. unfold int8 in N. assert (E : requantize s1 z1 y = c_round (y / s1) + z1) by (unfold requantize; lia).
  rewrite E. unfold dequantised. replace (c_round (y / s1) + z1 - z1) with (c_round (y / s1)) by lia.
  destruct (rounds_bounds _ _ (c_round_ok (y / s1))) as [B1 B2]. set (r := inject_Z (c_round (y / s1))) in *.
  assert (Ey : (y == (y / s1) * s1)%Q) by (field; lra). set (t := (y / s1)%Q) in *. rewrite Ey.
  assert (M1 : ((r - (1 # 2)) * s1 <= t * s1)%Q) by (apply Qmult_le_compat_r; lra).
  assert (M2 : (t * s1 <= (r + (1 # 2)) * s1)%Q) by (apply Qmult_le_compat_r; lra).
  clearbody r t. apply Qabs_Qle_condition. assert (Eh : (s1 / 2 == (1 # 2) * s1)%Q) by field. rewrite Eh. split; lra.
Qed.

Theorem C51_merge_partial : forall m s1 z1 s2 z2 y, (0 < s1)%Q -> (0 < s2)%Q -> int8 z1 -> int8 z2 ->
  (Qabs (inject_Z 255 * s1 / s2) <= inject_Z (2 ^ 31 - 256))%Q ->
  int8 (c_round (y / s1) + z1) ->
  exists v, relu_after m s1 z1 s2 z2 y = Some v /\
    (Qabs (inject_Z v - inject_Z (relu_merged s2 z2 y)) <= 1 + s1 / (2 * s2))%Q /\
    (Qabs (inject_Z (quantize_after s1 z1 s2 z2 y) - inject_Z (quantize_merged s2 z2 y)) <= 1 + s1 / (2 * s2))%Q.
Proof.
  intros m s1 z1 s2 z2 y H1 H2 Hz1 Hz2 HB N. unfold int8 in Hz1, Hz2.
  assert (Hi : (0 < / s2)%Q) by (apply Qinv_lt_0_compat; assumption).
  pose proof (intermediate_close s1 z1 y H1 N) as IC. apply Qabs_Qle_condition in IC. destruct IC as [I1 I2].
  set (q1 := requantize s1 z1 y) in *. set (x := dequantised s1 z1 q1) in *.
  assert (Hq : int8 q1) by (unfold q1, requantize, int8; lia).
  assert (D0 : (0 <= s1 / (2 * s2))%Q).
  { unfold Qdiv. apply Qmult_le_0_compat; [lra|]. apply Qlt_le_weak, Qinv_lt_0_compat. lra. }
  assert (Ed : (s1 / (2 * s2) == s1 / 2 * / s2)%Q) by (field; lra).
  assert (CL : forall u w, (- (s1 / 2) <= u - w <= s1 / 2)%Q -> forall lo hi, lo <= hi ->
     (Qabs (inject_Z (Z.min hi (Z.max lo (c_round (u / s2) + z2))) - inject_Z (Z.min hi (Z.max lo (c_round (w / s2) + z2)))) <= 1 + s1 / (2 * s2))%Q).
  { intros u w [U1 U2] lo hi HL.
    assert (A : (u / s2 <= w / s2 + s1 / (2 * s2))%Q). { rewrite Ed. unfold Qdiv. setoid_replace (w * / s2 + s1 * / 2 * / s2)%Q with ((w + s1 / 2) * / s2)%Q by (field; lra). apply Qmult_le_compat_r; lra. }
    assert (B : (w / s2 <= u / s2 + s1 / (2 * s2))%Q). { rewrite Ed. unfold Qdiv. setoid_replace (u * / s2 + s1 * / 2 * / s2)%Q with ((u + s1 / 2) * / s2)%Q by (field; lra). apply Qmult_le_compat_r; lra. }
    apply c_round_lipschitz in A. apply c_round_lipschitz in B.
    assert (A' := clamp_close (c_round (u / s2) + z2) (c_round (w / s2) + z2) lo hi (1 + s1 / (2 * s2)) HL ltac:(lra) ltac:(rewrite !inject_Z_plus; lra)).
    assert (B' := clamp_close (c_round (w / s2) + z2) (c_round (u / s2) + z2) lo hi (1 + s1 / (2 * s2)) HL ltac:(lra) ltac:(rewrite !inject_Z_plus; lra)).
    apply Qabs_Qle_condition. split; lra. }
  destruct (table_ok m Relu s1 z1 s2 z2) as (t & E & _ & _ & K).
  - intros n Hn. unfold int8 in Hn. cbv zeta. cbn [apply_activation].
    apply Qabs_Qle_condition in HB. destruct HB as [_ HB].
    assert (L : (0 <= Qmax (inject_Z (n - z1) * s1) 0 / s2)%Q).
    { unfold Qdiv. apply Qmult_le_0_compat; [apply Q.le_max_r|lra]. }
    assert (U : (Qmax (inject_Z (n - z1) * s1) 0 / s2 <= inject_Z (2 ^ 31 - 256))%Q).
    { eapply Qle_trans; [|exact HB]. unfold Qdiv. apply Qmult_le_compat_r; [|lra].
      apply Q.max_lub; [apply Qmult_le_compat_r; [apply injZ_le; lia|lra]|]. apply Qmult_le_0_compat; [discriminate|lra]. }
    apply c_round_mono in L. apply c_round_mono in U. change 0%Q with (inject_Z 0) in L at 1. rewrite c_round_int in L, U. lia.
  - unfold relu_after. rewrite E. eexists. split; [reflexivity|]. split.
    + fold q1. rewrite (K q1 Hq). unfold relu_merged, fused_clamp, activation_range. cbn [apply_activation].
      assert (Z0 : c_round (0 / s2) = 0) by (rewrite (c_round_comp _ (inject_Z 0)); [apply c_round_int|unfold Qdiv; ring]).
      rewrite Z0. fold (dequantised s1 z1 q1). fold x.
      (* relu y = max y 0; both sides clamped *)
      assert (RM : forall w, Z.min 127 (Z.max (Z.max (-128) (z2 + 0)) (c_round (w / s2) + z2)) =
                             Z.min 127 (Z.max (-128) (c_round (Qmax w 0 / s2) + z2))).
      { intros w. destruct (Qlt_le_dec w 0) as [G|G].
        - rewrite (c_round_comp (Qmax w 0 / s2) (0 / s2)) by (rewrite Q.max_r by lra; reflexivity). rewrite Z0.
          assert (w / s2 <= 0 / s2)%Q as G' by (unfold Qdiv; apply Qmult_le_compat_r; lra). apply c_round_mono in G'. rewrite Z0 in G'. lia.
        - rewrite (c_round_comp (Qmax w 0 / s2) (w / s2)) by (rewrite Q.max_l by lra; reflexivity).
          assert (0 / s2 <= w / s2)%Q as G' by (unfold Qdiv; apply Qmult_le_compat_r; lra). apply c_round_mono in G'. rewrite Z0 in G'. lia. }
      rewrite RM.
      replace (Z.max (Z.min (c_round (Qmax x 0 / s2) + z2) 127) (-128)) with (Z.min 127 (Z.max (-128) (c_round (Qmax x 0 / s2) + z2))) by lia.
      apply CL; [|lia].
      destruct (Qlt_le_dec x 0), (Qlt_le_dec y 0).
      * rewrite (Q.max_r x), (Q.max_r y) by lra. split; lra.
      * rewrite (Q.max_r x), (Q.max_l y) by lra. split; lra.
      * rewrite (Q.max_l x), (Q.max_r y) by lra. split; lra.
      * rewrite (Q.max_l x), (Q.max_l y) by lra. split; lra.
    + unfold quantize_after, quantize_merged, requantize. fold (requantize s1 z1 y). fold q1. fold (dequantised s1 z1 q1). fold x.
      apply CL; [split; lra|lia].
Qed.

(** Exactly when merging a quantize keeps every result: the two quantisations are the same. *)
Lemma clamp_of q : forall s z y, (y / s == q)%Q -> requantize s z y = Z.min 127 (Z.max (-128) (c_round q + z)).
Proof. intros s z y E. unfold requantize. rewrite (c_round_comp _ _ E). reflexivity. Qed.
Lemma round_half : c_round (1 # 2) = 1 /\ c_round (- (1 # 2)) = -1. Proof. split; reflexivity. Qed.
Lemma round_small q : (- (1 # 2) < q < 1 # 2)%Q -> c_round q = 0.
Proof. intros H. apply c_round_unique. unfold rounds_to. change (inject_Z 0) with 0%Q. destruct (Qlt_le_dec q 0); [right|left]; repeat split; lra. Qed.
Lemma round_one q : (1 # 2 <= q < 3 # 2)%Q -> c_round q = 1 /\ c_round (- q) = -1.
Proof.
  intros H. split; apply c_round_unique; unfold rounds_to; [left|right]; change (inject_Z 1) with 1%Q; change (inject_Z (-1)) with (-1 # 1)%Q; repeat split; lra.
Qed.

Theorem C51_quantize_exactly_when : forall s1 z1 s2 z2, (0 < s1)%Q -> (0 < s2)%Q -> int8 z1 -> int8 z2 ->
  ((forall y, quantize_after s1 z1 s2 z2 y = quantize_merged s2 z2 y) <-> (s1 == s2)%Q /\ z1 = z2).
Proof.
  intros s1 z1 s2 z2 P1 P2 I1 I2. unfold int8 in I1, I2. split.
  - intros H. unfold quantize_after, quantize_merged in H.
    set (r := (s1 / s2)%Q). assert (Pr : (0 < r)%Q) by (unfold r; apply Qlt_shift_div_l; lra).
    assert (N1 : ~ (s1 == 0)%Q) by lra. assert (N2 : ~ (s2 == 0)%Q) by lra.
    assert (Up : (inject_Z (127 - z2) - (1 # 2) <= inject_Z (127 - z1) * r)%Q).
    { specialize (H (inject_Z 1000 * (s1 + s2))%Q).
      assert (U : forall s z, (0 < s)%Q -> (s <= s1 + s2)%Q -> -128 <= z -> requantize s z (inject_Z 1000 * (s1 + s2)) = 127).
      { intros s z Ps Hs Hz. unfold requantize.
        assert (G : 1000 <= c_round (inject_Z 1000 * (s1 + s2) / s)).
        { rewrite <- (c_round_int 1000) at 1. apply c_round_mono. apply Qle_shift_div_l; auto.
          change (inject_Z 1000) with (1000 # 1)%Q. nra. }
        lia. }
      rewrite (U s1 z1), (U s2 z2) in H by (auto; lra || lia).
      rewrite (clamp_of (inject_Z (127 - z1) * r)) in H by (unfold r; field; auto).
      assert (G : 127 - z2 <= c_round (inject_Z (127 - z1) * r)) by lia. apply injZ_le in G.
      destruct (rounds_bounds _ _ (c_round_ok (inject_Z (127 - z1) * r))). lra. }
    assert (Lo : (inject_Z (128 + z2) - (1 # 2) <= inject_Z (128 + z1) * r)%Q).
    { specialize (H (inject_Z (-1000) * (s1 + s2))%Q).
      assert (U : forall s z, (0 < s)%Q -> (s <= s1 + s2)%Q -> z <= 127 -> requantize s z (inject_Z (-1000) * (s1 + s2)) = -128).
      { intros s z Ps Hs Hz. unfold requantize.
        assert (G : c_round (inject_Z (-1000) * (s1 + s2) / s) <= -1000).
        { rewrite <- (c_round_int (-1000)) at 2. apply c_round_mono. apply Qle_shift_div_r; auto.
          change (inject_Z (-1000)) with (-1000 # 1)%Q. nra. }
        lia. }
      rewrite (U s1 z1), (U s2 z2) in H by (auto; lra || lia).
      rewrite (clamp_of (inject_Z (-128 - z1) * r)) in H by (unfold r; field; auto).
      assert (G : c_round (inject_Z (-128 - z1) * r) <= -128 - z2) by lia. apply injZ_le in G.
      destruct (rounds_bounds _ _ (c_round_ok (inject_Z (-128 - z1) * r))) as [_ B].
      replace (-128 - z1) with (- (128 + z1)) in B, G by lia. replace (-128 - z2) with (- (128 + z2)) in G by lia.
      rewrite inject_Z_opp in B, G. rewrite inject_Z_opp in G. lra. }
    assert (R1 : ~ (r < 1)%Q).
    { intros L. assert (R0 : (254 # 255 <= r)%Q).
      { unfold Z.sub in Up. rewrite !inject_Z_plus, !inject_Z_opp in Up. rewrite !inject_Z_plus in Lo.
        change (inject_Z 127) with (127 # 1)%Q in *. change (inject_Z 128) with (128 # 1)%Q in *.
        apply (Qmult_le_r _ _ (255 # 1)); [reflexivity|]. lra. }
      destruct (round_one r) as [RO1 RO2]; [split; lra|].
      assert (Both : (z1 < 127 /\ z2 < 127) \/ (-128 < z1 /\ -128 < z2)).
      { destruct (Z.eq_dec z1 127) as [->|]; [right|destruct (Z.eq_dec z2 127) as [->|]; [right|lia]].
        - split; [lia|]. destruct (Z.eq_dec z2 (-128)) as [->|]; [exfalso|lia].
          change (inject_Z (127 - 127)) with 0%Q in Up. change (inject_Z (127 - -128)) with (255 # 1)%Q in Up. lra.
        - split; [|lia]. destruct (Z.eq_dec z1 (-128)) as [->|]; [exfalso|lia].
          change (inject_Z (128 + -128)) with 0%Q in Lo. change (inject_Z (128 + 127)) with (255 # 1)%Q in Lo. lra. }
      destruct Both as [[B1 B2]|[B1 B2]].
      - specialize (H (s1 * (1 # 2))%Q). 
        rewrite (clamp_of (1 # 2) s1 z1) in H by (field; auto). rewrite (proj1 round_half) in H.
        replace (Z.min 127 (Z.max (-128) (1 + z1)) - z1) with 1 in H by lia.
        rewrite (clamp_of r), RO1 in H by (unfold r; change (inject_Z 1) with 1%Q; field; auto).
        rewrite (clamp_of (r * (1 # 2))) in H by (unfold r; field; auto). rewrite (round_small (r * (1 # 2))) in H by (split; lra). lia.
      - specialize (H (- (s1 * (1 # 2)))%Q).
        rewrite (clamp_of (- (1 # 2)) s1 z1) in H by (field; auto). rewrite (proj2 round_half) in H.
        replace (Z.min 127 (Z.max (-128) (-1 + z1)) - z1) with (-1) in H by lia.
        rewrite (clamp_of (- r)), RO2 in H by (unfold r; change (inject_Z (-1)) with (- (1))%Q; field; auto).
        rewrite (clamp_of (- (r * (1 # 2)))) in H by (unfold r; field; auto). rewrite (round_small (- (r * (1 # 2)))) in H by (split; lra). lia. }
    assert (R2 : ~ (1 < r)%Q).
    { intros L. set (q := (s2 / s1)%Q). assert (Q1 : (0 < q < 1)%Q).
      { unfold q. split; [apply Qlt_shift_div_l; lra|]. apply Qlt_shift_div_r; auto. assert (E : (s1 == r * s2)%Q) by (unfold r; field; auto). rewrite E. nra. }
      destruct (Z.eq_dec z2 127) as [->|Nz].
      - specialize (H (- (s2 * (1 # 2)))%Q).
        rewrite (clamp_of (- (q * (1 # 2))) s1 z1) in H by (unfold q; field; auto). rewrite (round_small (- (q * (1 # 2)))) in H by (split; lra).
        replace (Z.min 127 (Z.max (-128) (0 + z1)) - z1) with 0 in H by lia.
        rewrite (clamp_of 0%Q), (round_small 0) in H by (try (split; lra); change (inject_Z 0) with 0%Q; field; auto).
        rewrite (clamp_of (- (1 # 2))), (proj2 round_half) in H by (field; auto). lia.
      - specialize (H (s2 * (1 # 2))%Q).
        rewrite (clamp_of (q * (1 # 2)) s1 z1) in H by (unfold q; field; auto). rewrite (round_small (q * (1 # 2))) in H by (split; lra).
        replace (Z.min 127 (Z.max (-128) (0 + z1)) - z1) with 0 in H by lia.
        rewrite (clamp_of 0%Q), (round_small 0) in H by (try (split; lra); change (inject_Z 0) with 0%Q; field; auto).
        rewrite (clamp_of (1 # 2)), (proj1 round_half) in H by (field; auto). lia. }
    assert (R : (r == 1)%Q) by lra. rewrite R in Up, Lo. split.
    + assert (E : (s1 == r * s2)%Q) by (unfold r; field; auto). rewrite E, R. ring.
    + assert (K : forall a b, (inject_Z a - (1 # 2) <= inject_Z b * 1)%Q -> a <= b).
      { intros a b G. assert (X : (inject_Z a < inject_Z (b + 1))%Q) by (rewrite inject_Z_plus; change (inject_Z 1) with 1%Q; lra). apply Zlt_inj in X. lia. }
      apply K in Up. apply K in Lo. lia.
  - intros [E ->] y. unfold quantize_after, quantize_merged.
    assert (X : forall u, requantize s1 z2 u = requantize s2 z2 u) by (intros u; unfold requantize; rewrite (c_round_comp (u / s1) (u / s2)); auto; rewrite E; reflexivity).
    rewrite X. rewrite (clamp_of (inject_Z (requantize s2 z2 y - z2))) by (rewrite E; field; lra).
    rewrite c_round_int. unfold requantize. lia.
Qed.

(** When the intermediate result saturates, merging changes the result by any amount. *)
Theorem C51_refuted_saturation :
  relu_after m0 (1 # 2) 0 1 0 100 = Some 64 /\ relu_merged 1 0 100 = 100 /\
  quantize_after (1 # 2) 0 1 0 100 = 64 /\ quantize_merged 1 0 100 = 100.
Proof. repeat split; vm_compute; reflexivity. Qed.
Example C51_concrete : relu_after m0 (1 # 3) (-10) (1 # 2) 5 (77 # 10) = Some 20 /\ relu_merged (1 # 2) 5 (77 # 10) = 20 /\
  int8 (c_round ((77 # 10) / (1 # 3)) + -10).
Proof. split; [|split]; [vm_compute; reflexivity|vm_compute; reflexivity|unfold int8; vm_compute; split; discriminate]. Qed.

Print Assumptions C36_lookup_table.
Print Assumptions C37_pad_value.
Print Assumptions C50_unfuse_activation.
Print Assumptions C51_merge_partial.
Print Assumptions C51_quantize_exactly_when.
