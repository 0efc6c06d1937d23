(** C69: 16-bit element-wise operators and activations. *)
From Coq Require Import List ZArith Bool QArith Qabs Qround Lia Lqa.
Import ListNotations.
From Verif Require Import Int16Model Int16Spec.
Local Open Scope Z_scope.

Definition positive (t : elt) : Prop := (0 < scale_of t)%Q.
Definition zero_of (t : elt) : Z := match t with QInt _ _ z => z | F32 => 0 end.

(** What lowering is decided by. *)
Theorem C69_lowered_iff : forall ok op fused_none in1 in2 out,
  (exists x, lower_i16 ok op fused_none in1 in2 out = Lowered x) <->
  ok (i16_blob_args op in1 in2 out) = true /\
  match op with
  | TQuantize => (in1 = F32 /\ is_q 16 out = true) \/ (is_q 16 in1 = true /\ (is_q 16 out = true \/ out = F32))
  | TDequantize => is_q 16 in1 = true /\ (is_q 16 out = true \/ out = F32)
  | _ => is_q 16 in1 = true /\ is_q 16 in2 = true /\ fused_none = true /\ is_q 16 out = true
  end.
Proof.
  intros ok op fn in1 in2 out. unfold lower_i16, i16_blob.
  assert (E : forall t, is_f32 t = true <-> t = F32) by (intros [|w s z]; cbn; split; congruence).
  assert (U : forall kind b, (exists x, verify (UnaryI16 kind b) out = Lowered x) <-> is_q 16 out = true \/ out = F32).
  { intros kind b. unfold verify. rewrite <- E. rewrite <- orb_true_iff.
    destruct (is_q 16 out || is_f32 out); split; intro H; eauto; [destruct H as [x H]; discriminate | discriminate]. }
  assert (B : forall kind b, (exists x, verify (BinaryI16 kind b) out = Lowered x) <-> is_q 16 out = true).
  { intros kind b. unfold verify.
    destruct (is_q 16 out); split; intro H; eauto; [destruct H as [x H]; discriminate | discriminate]. }
  assert (N : (exists x, Unchanged = Lowered x) <-> False) by (split; [intros [x H]; discriminate | tauto]).
  destruct op; cbn zeta.
  - destruct (ok (i16_blob_args TQuantize in1 in2 out)) eqn:Hok.
    + destruct (is_f32 in1 && is_q 16 out) eqn:H1.
      * apply andb_prop in H1 as [H1 H2]. apply E in H1. rewrite U. intuition.
      * destruct (is_q 16 in1) eqn:H2.
        -- rewrite U. split; [intuition|]. intros [_ [[H3 H4]|H3]]; [left; exact H4 | tauto].
        -- rewrite N. split; [tauto|]. intros [_ [[H3 H4]|H3]]; [|intuition congruence].
           apply E in H3. rewrite H3, H4 in H1. discriminate.
    + destruct (is_f32 in1 && is_q 16 out); [rewrite N; intuition congruence|].
      destruct (is_q 16 in1); rewrite N; intuition congruence.
  - destruct (is_q 16 in1); destruct (ok (i16_blob_args TDequantize in1 in2 out)); rewrite ?U, ?N; intuition congruence.
  - destruct (is_q 16 in1), (is_q 16 in2), fn; cbn [andb]; rewrite ?N; try (intuition congruence);
      destruct (ok (i16_blob_args TAdd in1 in2 out)); rewrite ?B, ?N; intuition congruence.
  - destruct (is_q 16 in1), (is_q 16 in2), fn; cbn [andb]; rewrite ?N; try (intuition congruence);
      destruct (ok (i16_blob_args TSub in1 in2 out)); rewrite ?B, ?N; intuition congruence.
  - destruct (is_q 16 in1), (is_q 16 in2), fn; cbn [andb]; rewrite ?N; try (intuition congruence);
      destruct (ok (i16_blob_args TMul in1 in2 out)); rewrite ?B, ?N; intuition congruence.
Qed.
Print Assumptions C69_lowered_iff.

Lemma lowered_blob : forall ok op fn in1 in2 out x, lower_i16 ok op fn in1 in2 out = Lowered x ->
  xc_blob x = i16_blob_args op in1 in2 out.
Proof.
  intros ok op fn in1 in2 out x.
  assert (V : forall y, verify y out = Lowered x -> x = y).
  { intros [k b|k b]; cbn; destruct (is_q 16 out); cbn; try destruct (is_f32 out); intro H; congruence. }
  unfold lower_i16, i16_blob. destruct op; cbn zeta;
    destruct (ok _); repeat match goal with |- context [if ?b then _ else _] => destruct b end; intro H;
      try discriminate H; apply V in H; subst x; reflexivity.
Qed.

(** The blob is the one the chosen kernel expects. *)
Lemma lowered_kind : forall ok op fn in1 in2 out x, lower_i16 ok op fn in1 in2 out = Lowered x ->
  forall a b, xc_value x a b = Some (blob_value (xc_blob x) a b).
Proof.
  intros ok op fn in1 in2 out x.
  assert (V : forall y, verify y out = Lowered x -> x = y).
  { intros [k b|k b]; cbn; destruct (is_q 16 out); cbn; try destruct (is_f32 out); intro H; congruence. }
  unfold lower_i16, i16_blob. destruct op; cbn zeta; destruct (ok _); cbn [i16_blob_args];
    try (destruct in1; cbn [is_f32 is_q andb]);
    repeat match goal with |- context [if ?b then _ else _] => destruct b end; intro H;
      try discriminate H; apply V in H; subst x; reflexivity.
Qed.

(** The kernel and the operator agree on every pair of inputs, up to the rounding of the kernel, when the zero points are 0. *)
Theorem C69_values_partial : forall ok op fused_none in1 in2 out x,
  lower_i16 ok op fused_none in1 in2 out = Lowered x ->
  positive in1 -> positive in2 -> positive out -> (op = TDequantize -> out = F32) ->
  zero_of in1 = 0 -> zero_of in2 = 0 -> zero_of out = 0 ->
  forall a b : Q, exists v, xc_value x a b = Some v /\ (v == unrounded out (real_op op (real in1 a) (real in2 b)))%Q.
Proof.
  intros ok op fn in1 in2 out x Hl P1 P2 P3 Hd Z1 Z2 Z3 a b. eexists. split; [eapply lowered_kind; exact Hl|].
  rewrite (lowered_blob _ _ _ _ _ _ _ Hl).
  assert (Hs : (exists y, lower_i16 ok op fn in1 in2 out = Lowered y)) by eauto.
  apply C69_lowered_iff in Hs. destruct Hs as [_ Hs].
  unfold positive in *.
  assert (R : forall t v, zero_of t = 0 -> (real t v == v * scale_of t)%Q).
  { intros [|w s z] v Hz; cbn in *; [ring|]. rewrite Hz. ring. }
  assert (Uo : forall y, (unrounded out y == y / scale_of out)%Q).
  { intro y. destruct out as [|w s z]; cbn in *; [field|]. rewrite Z3. field. lra. }
  destruct op; cbn [i16_blob_args real_op blob_value]; rewrite Uo, ?R by assumption; cbn [blob_value].
  - destruct (is_f32 in1) eqn:H1; cbn [blob_value].
    + destruct in1; [|discriminate]. cbn [scale_of]. field. lra.
    + reflexivity.
  - rewrite Hd by reflexivity. cbn [scale_of]. field.
  - reflexivity.
  - field. lra.
  - reflexivity.
Qed.
Print Assumptions C69_values_partial.

(** Exactly when: for 16-bit operands and result, in terms of the real numbers s * z of the zero points. *)
Definition offset (t : elt) : Q := (scale_of t * inject_Z (zero_of t))%Q.
Definition agrees (op : tfl_op) (in1 in2 out : elt) : Prop :=
  forall a b : Z, int16 a -> int16 b ->
    (blob_value (i16_blob_args op in1 in2 out) (inject_Z a) (inject_Z b) ==
     unrounded out (real_op op (real in1 (inject_Z a)) (real in2 (inject_Z b))))%Q.

Theorem C69_exactly_when : forall s1 z1 s2 z2 s z,
  (0 < s1)%Q -> (0 < s2)%Q -> (0 < s)%Q ->
  let in1 := QInt 16 s1 z1 in let in2 := QInt 16 s2 z2 in let out := QInt 16 s z in
  (agrees TQuantize in1 in2 out <-> (offset in1 == offset out)%Q) /\
  (agrees TDequantize in1 in2 F32 <-> z1 = 0) /\
  (agrees TAdd in1 in2 out <-> (offset in1 + offset in2 == offset out)%Q) /\
  (agrees TSub in1 in2 out <-> (offset in1 - offset in2 == offset out)%Q) /\
  (agrees TMul in1 in2 out <-> z1 = 0 /\ z2 = 0 /\ z = 0).
Proof.
  intros s1 z1 s2 z2 s z P1 P2 P3. cbn zeta.
  unfold agrees, offset. cbn [i16_blob_args is_f32 scale_of zero_of blob_value unrounded real real_op].
  assert (I0 : int16 0) by (unfold int16; lia). assert (I1 : int16 1) by (unfold int16; lia).
  assert (D : forall p q : Q, (p / s == q / s <-> p == q)%Q).
  { intros p q. split; intro H; [|rewrite H; reflexivity].
    assert (H2 : (p / s * s == q / s * s)%Q) by (rewrite H; reflexivity).
    rewrite <- (Qmult_div_r p s) by lra. rewrite <- (Qmult_div_r q s) by lra.
    rewrite (Qmult_comm s (p / s)), (Qmult_comm s (q / s)). exact H2. }
  split; [|split; [|split; [|split]]].
  - split.
    + intro H. specialize (H 0 0 I0 I0). revert H. change (inject_Z 0) with 0%Q.
      intro H. assert (H2 : (0 * s1 / s * s == ((0 - inject_Z z1) * s1 / s + inject_Z z) * s)%Q) by (rewrite H; reflexivity).
      assert (H3 : (0 == (0 - inject_Z z1) * s1 + inject_Z z * s)%Q).
      { transitivity (0 * s1 / s * s)%Q; [field; lra|]. rewrite H2. field. lra. }
      lra.
    + intros H a b _ _. transitivity ((inject_Z a * s1 - (s1 * inject_Z z1) + s * inject_Z z) / s)%Q.
      * apply D. rewrite H. ring.
      * field. lra.
  - split.
    + intro H. specialize (H 0 0 I0 I0). change (inject_Z 0) with 0%Q in H.
      assert (H2 : (inject_Z z1 * s1 == 0)%Q) by lra.
      apply Qmult_integral in H2 as [H2|H2]; [|lra].
      unfold Qeq in H2. cbn in H2. lia.
    + intros -> a b _ _. change (inject_Z 0) with 0%Q. ring.
  - split.
    + intro H. specialize (H 0 0 I0 I0). revert H. change (inject_Z 0) with 0%Q. intro H.
      assert (H3 : ((0 * s1 + 0 * s2) / s * s == (((0 - inject_Z z1) * s1 + (0 - inject_Z z2) * s2) / s + inject_Z z) * s)%Q)
        by (rewrite H; reflexivity).
      assert (H4 : (0 == (0 - inject_Z z1) * s1 + (0 - inject_Z z2) * s2 + inject_Z z * s)%Q).
      { transitivity ((0 * s1 + 0 * s2) / s * s)%Q; [field; lra|]. rewrite H3. field. lra. }
      lra.
    + intros H a b _ _.
      transitivity ((inject_Z a * s1 + inject_Z b * s2 - (s1 * inject_Z z1 + s2 * inject_Z z2) + s * inject_Z z) / s)%Q.
      * apply D. rewrite H. ring.
      * field. lra.
  - split.
    + intro H. specialize (H 0 0 I0 I0). revert H. change (inject_Z 0) with 0%Q. intro H.
      assert (H3 : ((0 * s1 + 0 * - s2) / s * s == (((0 - inject_Z z1) * s1 - (0 - inject_Z z2) * s2) / s + inject_Z z) * s)%Q)
        by (rewrite H; reflexivity).
      assert (H4 : (0 == (0 - inject_Z z1) * s1 - (0 - inject_Z z2) * s2 + inject_Z z * s)%Q).
      { transitivity ((0 * s1 + 0 * - s2) / s * s)%Q; [field; lra|]. rewrite H3. field. lra. }
      lra.
    + intros H a b _ _.
      transitivity ((inject_Z a * s1 + inject_Z b * - s2 - (s1 * inject_Z z1 - s2 * inject_Z z2) + s * inject_Z z) / s)%Q.
      * apply D. rewrite H. ring.
      * field. lra.
  - split.
    + intro H.
      assert (K : forall a b, int16 a -> int16 b ->
                (inject_Z a * s1 * (inject_Z b * s2) ==
                 (inject_Z a - inject_Z z1) * s1 * ((inject_Z b - inject_Z z2) * s2) + inject_Z z * s)%Q).
      { intros a b Ha Hb. specialize (H a b Ha Hb).
        transitivity (inject_Z a * s1 * (inject_Z b * s2) / s * s)%Q; [field; lra|]. rewrite H. field. lra. }
      pose proof (K 0 0 I0 I0) as K00. pose proof (K 0 1 I0 I1) as K01. pose proof (K 1 0 I1 I0) as K10.
      clear K H. change (inject_Z 0) with 0%Q in *. change (inject_Z 1) with 1%Q in *.
      assert (E1 : (s1 * s2 * inject_Z z1 == 0)%Q) by (ring_simplify in K00; ring_simplify in K01; lra).
      assert (E2 : (s1 * s2 * inject_Z z2 == 0)%Q) by (ring_simplify in K00; ring_simplify in K10; lra).
      assert (P : (0 < s1 * s2)%Q) by (apply Qmult_lt_0_compat; assumption).
      assert (Z1 : z1 = 0).
      { apply Qmult_integral in E1 as [E1|E1]; [lra|]. unfold Qeq in E1. cbn in E1. lia. }
      assert (Z2 : z2 = 0).
      { apply Qmult_integral in E2 as [E2|E2]; [lra|]. unfold Qeq in E2. cbn in E2. lia. }
      subst z1 z2. change (inject_Z 0) with 0%Q in *.
      assert (E3 : (inject_Z z * s == 0)%Q) by (ring_simplify in K00; lra).
      apply Qmult_integral in E3 as [E3|E3]; [|lra].
      unfold Qeq in E3. cbn in E3. repeat split; lia.
    + intros [-> [-> ->]] a b _ _. change (inject_Z 0) with 0%Q. field. lra.
Qed.
Print Assumptions C69_exactly_when.

(** A concrete lowered operator with non-zero zero points whose result is off by 100 units. *)
Theorem C69_refuted_zero_point : exists x,
  lower_i16 (fun _ => true) TAdd true (QInt 16 1 0) (QInt 16 1 0) (QInt 16 1 100) = Lowered x /\
  (blob_value (xc_blob x) 7 8 == 15)%Q /\
  (unrounded (QInt 16 1 100) (real_op TAdd (real (QInt 16 1 0) 7) (real (QInt 16 1 0) 8)) == 115)%Q.
Proof. eexists. split; [reflexivity|]. split; reflexivity. Qed.
Print Assumptions C69_refuted_zero_point.

(** A Quantize from 16 to 8 bits is turned into an operator that does not verify: the compilation fails. *)
Theorem C69_refuted_narrowing : forall ok s1 z1 s z in2, ok (RequantizeBlob s1 s) = true ->
  lower_i16 ok TQuantize true (QInt 16 s1 z1) in2 (QInt 8 s z) = InvalidIR.
Proof. intros ok s1 z1 s z in2 H. unfold lower_i16, i16_blob. cbn. rewrite H. reflexivity. Qed.
Print Assumptions C69_refuted_narrowing.

(** *** Activations. *)
(** The generator of lib_nn (not in the repository): the error it reports bounds the error of the table at every input whose
    result is representable. *)
Definition reports_error (g : (Q -> Q) -> Q -> Q -> (Z -> Z) * Z) : Prop :=
  forall fn si so x, int16 x ->
    let y := (fn (inject_Z x * si) / so)%Q in
    (inject_Z (-32768) <= y <= inject_Z 32767)%Q ->
    (Qabs (inject_Z (fst (g fn si so) x) - y) <= inject_Z (snd (g fn si so)))%Q.

Theorem C69_activation : forall g threshold fn si so table x,
  reports_error g -> (0 < si)%Q -> (0 < so)%Q -> int16 x ->
  lookup_i16 g threshold fn si so = Some table ->
  (inject_Z (-32768) * so <= fn (inject_Z x * si) <= inject_Z 32767 * so)%Q ->
  (Qabs (inject_Z (table x) * so - fn (inject_Z x * si)) <= inject_Z threshold * so)%Q.
Proof.
  intros g threshold fn si so table x Hg Hsi Hso Hx Hl Hr.
  unfold lookup_i16 in Hl. destruct (g fn si so) as [t e] eqn:Hgen.
  destruct (e >? threshold) eqn:He; [discriminate|]. injection Hl as <-.
  rewrite Z.gtb_ltb in He. apply Z.ltb_ge in He.
  pose proof (Hg fn si so x Hx) as Hb. rewrite Hgen in Hb. cbn [fst snd] in Hb.
  assert (Hy : (inject_Z (-32768) <= fn (inject_Z x * si) / so <= inject_Z 32767)%Q).
  { split; [apply Qle_shift_div_l | apply Qle_shift_div_r]; lra. }
  specialize (Hb Hy).
  set (y := (fn (inject_Z x * si) / so)%Q) in *.
  assert (E : (inject_Z (t x) * so - fn (inject_Z x * si) == (inject_Z (t x) - y) * so)%Q).
  { unfold y. field. lra. }
  rewrite E, Qabs_Qmult, (Qabs_pos so) by lra.
  apply Qmult_le_compat_r; [|lra].
  apply Qle_trans with (inject_Z e); [exact Hb|]. rewrite <- Zle_Qle. lia.
Qed.
Print Assumptions C69_activation.

(** ELU after a Dequantize: the dequantised table is within the threshold of the true ELU, for an input that is the first
    result of an operator and has zero point 0. *)
Theorem C69_elu_partial : forall g threshold elu types s table x,
  reports_error g -> elu_like elu -> (forall p q, (p == q)%Q -> (elu p == elu q)%Q) ->
  (0 < s)%Q -> nth 0 types F32 = QInt 16 s 0 -> int16 x ->
  lower_elu g threshold elu (OpResult types 0) = EluLowered table ->
  (Qabs (elu_value table (OpResult types 0) x - elu (real (QInt 16 s 0) (inject_Z x))) <= inject_Z threshold * s)%Q.
Proof.
  intros g threshold elu types s table x Hg [He1 He2] Hext Hs Ht Hx Hl.
  unfold lower_elu in Hl. cbn [value_type] in Hl. rewrite Ht in Hl. cbn [is_q negb Z.eqb Pos.eqb scale_of] in Hl.
  destruct (lookup_i16 g threshold elu s s) as [t|] eqn:Hlook; [|discriminate]. injection Hl as <-.
  unfold elu_value. cbn [value_type]. rewrite Ht. cbn [real].
  assert (E : (elu ((inject_Z x - inject_Z 0) * s) == elu (inject_Z x * s))%Q).
  { apply Hext. change (inject_Z 0) with 0%Q. ring. }
  rewrite E, Z.sub_0_r.
  apply (C69_activation g threshold elu s s); try assumption.
  assert (B1 : (inject_Z (-32768) <= inject_Z x)%Q) by (rewrite <- Zle_Qle; unfold int16 in Hx; lia).
  assert (B2 : (inject_Z x <= inject_Z 32767)%Q) by (rewrite <- Zle_Qle; unfold int16 in Hx; lia).
  assert (M1 : (inject_Z (-32768) * s <= inject_Z x * s)%Q) by (apply Qmult_le_compat_r; lra).
  assert (M2 : (inject_Z x * s <= inject_Z 32767 * s)%Q) by (apply Qmult_le_compat_r; lra).
  assert (M3 : (0 <= inject_Z 32767 * s)%Q) by (apply Qmult_le_0_compat; [|lra]; rewrite <- (Zle_Qle 0); lia).
  destruct (Qlt_le_dec 0 (inject_Z x * s)) as [Hp|Hn].
  - rewrite (He1 (inject_Z x * s)%Q) by lra. split; assumption.
  - destruct (He2 (inject_Z x * s)%Q Hn) as [L1 [L2 L3]]. split; lra.
Qed.
Print Assumptions C69_elu_partial.

(** A perfect generator (it exists: the table may be any function) for functions with integer results. *)
Definition exact_generator (fn : Q -> Q) (si so : Q) : (Z -> Z) * Z :=
  (fun x => Qfloor (fn (inject_Z x * si) / so)%Q, 1).

Lemma exact_generator_reports : reports_error exact_generator.
Proof.
  intros fn si so x _ y _. unfold exact_generator. cbn [fst snd].
  fold y. pose proof (Qfloor_le y) as H1. pose proof (Qlt_floor y) as H2.
  rewrite inject_Z_plus in H2. change (inject_Z 1) with 1%Q in *.
  apply Qabs_Qle_condition. split; lra.
Qed.

Definition ramp (x : Q) : Q := if Qle_bool 0 x then x else if Qle_bool x (-1) then -1 else x.
Lemma ramp_elu_like : elu_like ramp.
Proof.
  split; intros x Hx; unfold ramp.
  - destruct (Qle_bool 0 x) eqn:H; [reflexivity|]. apply Qle_bool_iff in Hx. congruence.
  - destruct (Qle_bool 0 x) eqn:H.
    + apply Qle_bool_iff in H. repeat split; lra.
    + assert (~ (0 <= x)%Q) by (intro K; apply Qle_bool_iff in K; congruence).
      destruct (Qle_bool x (-1)) eqn:H'.
      * apply Qle_bool_iff in H'. repeat split; lra.
      * assert (~ (x <= -1)%Q) by (intro K; apply Qle_bool_iff in K; congruence). repeat split; lra.
Qed.

(** The hypotheses are met. *)
Example C69_elu_example : exists table,
  lower_elu exact_generator 1 ramp (OpResult [QInt 16 (1 # 4) 0] 0) = EluLowered table /\ table 10 = 10 /\ table (-10) = -4.
Proof. eexists. split; [reflexivity|]. split; vm_compute; reflexivity. Qed.

(** An input that is an argument of the function: a null operator is dereferenced. *)
Theorem C69_refuted_elu_argument : forall g threshold elu s z, lower_elu g threshold elu (BlockArg (QInt 16 s z)) = EluCrash.
Proof. reflexivity. Qed.
Print Assumptions C69_refuted_elu_argument.

(** An input that is the second result of an operator: the scale of the first result is used; here the ELU of 20 becomes 40. *)
Theorem C69_refuted_elu_second_result : exists table,
  lower_elu exact_generator 1 ramp (OpResult [QInt 16 1 0; QInt 16 2 0] 1) = EluLowered table /\
  (elu_value table (OpResult [QInt 16 1 0; QInt 16 2 0] 1) 10 == 40)%Q /\ (ramp (real (QInt 16 2 0) 10) == 20)%Q.
Proof. eexists. split; [reflexivity|]. split; vm_compute; reflexivity. Qed.
Print Assumptions C69_refuted_elu_second_result.

(** A case of the first theorems: a subtraction with scales 1/2, 1/4, 1/8. *)
Example C69_values_example : exists x,
  lower_i16 (fun _ => true) TSub true (QInt 16 (1 # 2) 0) (QInt 16 (1 # 4) 0) (QInt 16 (1 # 8) 0) = Lowered x /\
  (blob_value (xc_blob x) 100 40 == 320)%Q.
Proof. eexists. split; [reflexivity|]. vm_compute. reflexivity. Qed.
