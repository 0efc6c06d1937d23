(** C68: the softmax lowering. *)
From Coq Require Import List ZArith Bool Reals Lra Lia.
Import ListNotations.
From Verif Require Import SoftmaxModel SoftmaxSpec.
Local Open Scope R_scope.

Lemma exp_nat : forall n, exp (INR n) = exp 1 ^ n.
Proof.
  induction n as [|n IH]; [cbn; apply exp_0|].
  rewrite S_INR, exp_plus, IH. cbn. ring.
Qed.

Lemma exp_64 : exp 64 <= 3 ^ 64.
Proof.
  replace 64 with (INR 64) by (cbn; ring).
  rewrite exp_nat. apply pow_incr. split; [left; apply exp_pos | apply exp_le_3].
Qed.

Lemma exp_mono : forall x y, x <= y -> exp x <= exp y.
Proof. intros x y [H|H]; [left; now apply exp_increasing | subst; lra]. Qed.

Lemma exp_range : forall x, Rabs x <= 64 -> / 3 ^ 64 <= exp x <= 3 ^ 64.
Proof.
  intros x Hx.
  assert (Hb : - 64 <= x <= 64) by (unfold Rabs in Hx; destruct (Rcase_abs x); lra).
  split.
  - apply Rle_trans with (exp (Ropp 64)); [|apply exp_mono; lra].
    rewrite exp_Ropp. apply Rinv_le_contravar; [apply exp_pos | apply exp_64].
  - apply Rle_trans with (exp 64); [apply exp_mono; lra | apply exp_64].
Qed.

Lemma big_128 : 2 ^ 20 * 3 ^ 64 < 2 ^ 128.
Proof.
  rewrite !pow_IZR, <- mult_IZR. apply IZR_lt. vm_compute. reflexivity.
Qed.
Lemma small_150 : / 2 ^ 150 <= / 3 ^ 64.
Proof.
  apply Rinv_le_contravar; [apply pow_lt; lra|].
  rewrite !pow_IZR. apply IZR_le. vm_compute. discriminate.
Qed.

Lemma to_float_in : forall x, / 3 ^ 64 <= x < 2 ^ 128 -> to_float x = Finite x.
Proof.
  intros x [Hl Hu]. unfold to_float.
  destruct (Rle_dec (2 ^ 128) x) as [H|H]; [lra|].
  destruct (Rlt_dec x (/ 2 ^ 150)) as [H'|H']; [|reflexivity].
  pose proof small_150. lra.
Qed.

Definition good_input (t : rqtype) : Prop := 0 < rq_scale t <= / 4 /\ (-128 <= rq_zero t <= 127)%Z.

Lemma entry_value : forall t o x, good_input t -> (-128 <= x <= 127)%Z ->
  entry (exp_lookup t o) x = Some (exp (rq_scale t * IZR (x - rq_zero t))).
Proof.
  intros [s z] o x [[Hs1 Hs2] Hz] Hx. cbn [rq_scale rq_zero] in *.
  unfold entry, exp_lookup.
  rewrite nth_error_map.
  rewrite (nth_error_nth' (seq 0 256) 0%nat) by (rewrite seq_length; lia).
  rewrite seq_nth by lia. cbn [option_map Nat.add].
  unfold exp_entry. cbn [rq_zero rq_scale].
  rewrite Z2Nat.id by lia.
  replace (x + 128 - 128 - z)%Z with (x - z)%Z by ring.
  assert (Hd : -255 <= IZR (x - z) <= 255) by (split; apply IZR_le; lia).
  rewrite (Rmult_comm (IZR (x - z))).
  assert (Hr : Rabs (s * IZR (x - z)) <= 64).
  { rewrite Rabs_mult, (Rabs_pos_eq s) by lra.
    assert (Rabs (IZR (x - z)) <= 255) by (unfold Rabs; destruct (Rcase_abs (IZR (x - z))); lra).
    apply Rle_trans with (/ 4 * 255); [|lra].
    apply Rmult_le_compat; try lra. apply Rabs_pos. }
  pose proof (exp_range _ Hr) as Hx'.
  rewrite to_float_in; [reflexivity|].
  split; [apply Hx'|].
  apply Rle_lt_trans with (3 ^ 64); [apply Hx'|].
  apply Rle_lt_trans with (2 ^ 20 * 3 ^ 64); [|apply big_128].
  assert (0 < 3 ^ 64) by (apply pow_lt; lra). assert (1 <= 2 ^ 20) by (apply pow_R1_Rle; lra).
  nra.
Qed.

Lemma collect_some : forall {A B} (f : A -> option B) (g : A -> B) l,
  (forall x, In x l -> f x = Some (g x)) -> collect (map f l) = Some (map g l).
Proof.
  induction l as [|x l IH]; intro H; [reflexivity|].
  cbn. rewrite (H x) by now left. rewrite IH; [reflexivity|]. intros y Hy. apply H. now right.
Qed.

Lemma collect_inv : forall {A B} (f : A -> option B) l r, collect (map f l) = Some r ->
  length r = length l /\ forall i a, nth_error l i = Some a -> exists b, f a = Some b /\ nth_error r i = Some b.
Proof.
  induction l as [|x l IH]; intros r H; cbn in H.
  - injection H as <-. split; [reflexivity|]. intros [|i] a Ha; discriminate.
  - destruct (f x) as [b|] eqn:Hf; [|discriminate].
    destruct (collect (map f l)) as [r'|] eqn:Hc; [|discriminate].
    injection H as <-. destruct (IH r' eq_refl) as [Hl Hn].
    split; [cbn; now rewrite Hl|].
    intros [|i] a Ha; cbn in Ha.
    + injection Ha as <-. exists b. split; [exact Hf | reflexivity].
    + cbn. now apply Hn.
Qed.

Lemma rsum_total : forall s z row,
  rsum (map (fun q => exp (s * IZR (q - z))) row) = total (real_row s z row).
Proof. induction row as [|q row IH]; [reflexivity|].
  cbn [map rsum fold_right real_row total] in *. f_equal. exact IH. Qed.

Lemma total_nonneg : forall v, 0 <= total v.
Proof. induction v as [|x v IH]; cbn; [lra|]. pose proof (exp_pos x). unfold total in IH. lra. Qed.

Lemma total_pos : forall v, v <> [] -> 0 < total v.
Proof.
  intros [|x v] H; [congruence|]. cbn.
  pose proof (exp_pos x). pose proof (total_nonneg v). unfold total in *. lra.
Qed.

Lemma total_bounds : forall v, Forall (fun x => Rabs x <= 64) v ->
  total v <= INR (length v) * 3 ^ 64 /\ (v <> [] -> / 3 ^ 64 <= total v).
Proof.
  induction v as [|x v IH]; intro H; [cbn; split; [lra | congruence]|].
  inversion H as [|? ? Hx Hv]; subst.
  destruct (IH Hv) as [IH1 _].
  pose proof (exp_range _ Hx) as Hb. pose proof (total_nonneg v) as Hn.
  change (total (x :: v)) with (exp x + total v).
  change (length (x :: v)) with (S (length v)). rewrite S_INR.
  split; [|intros _]; nra.
Qed.

Lemma Int_part_bounds : forall x, IZR (Int_part x) <= x < IZR (Int_part x) + 1.
Proof. intro x. pose proof (base_Int_part x). lra. Qed.

Lemma output_stored : forall y s, 0 < s -> stored (/ 256) (-128) (y / s) (softmax_output s y).
Proof.
  intros y s Hs. unfold stored, softmax_output, saturate.
  set (r := Int_part (256 * (y / s) + / 2)).
  exists r. pose proof (Int_part_bounds (256 * (y / s) + / 2)) as Hb. fold r in Hb.
  split.
  - replace (y / s / / 256) with (256 * (y / s)) by (field; lra). lra.
  - lia.
Qed.

Lemma real_row_nth : forall s z row i q, nth_error row i = Some q -> nth i (real_row s z row) 0 = s * IZR (q - z).
Proof.
  intros s z row i q H. unfold real_row.
  apply nth_error_nth. now rewrite nth_error_map, H.
Qed.

Lemma row_exact : forall t o row, good_input t -> int8_row row -> row <> [] -> (length row <= 2 ^ 20)%nat ->
  softmax_row (exp_lookup t o) row =
  Some (map (fun q => softmax_output (total (real_row (rq_scale t) (rq_zero t) row))
                        (exp (rq_scale t * IZR (q - rq_zero t)))) row).
Proof.
  intros t o row Ht Hrow Hne Hlen. unfold softmax_row.
  rewrite (collect_some _ (fun x => exp (rq_scale t * IZR (x - rq_zero t)))).
  2:{ intros x Hx. apply entry_value; [exact Ht|]. unfold int8_row in Hrow. rewrite Forall_forall in Hrow. now apply Hrow. }
  rewrite rsum_total.
  set (v := real_row (rq_scale t) (rq_zero t) row).
  assert (Hv : Forall (fun x => Rabs x <= 64) v).
  { unfold v, real_row. apply Forall_map.
    apply Forall_impl with (2 := Hrow). intros q Hq.
    destruct Ht as [[Hs1 Hs2] Hz].
    rewrite Rabs_mult, (Rabs_pos_eq (rq_scale t)) by lra.
    assert (Hd : -255 <= IZR (q - rq_zero t) <= 255) by (split; apply IZR_le; lia).
    assert (Rabs (IZR (q - rq_zero t)) <= 255) by (unfold Rabs; destruct (Rcase_abs (IZR (q - rq_zero t))); lra).
    apply Rle_trans with (/ 4 * 255); [|lra].
    apply Rmult_le_compat; try lra. apply Rabs_pos. }
  assert (Hvne : v <> []) by (unfold v, real_row; destruct row; [congruence | discriminate]).
  destruct (total_bounds v Hv) as [Hu Hl].
  assert (Hlv : length v = length row) by (unfold v, real_row; apply map_length).
  rewrite to_float_in.
  2:{ split; [now apply Hl|].
      apply Rle_lt_trans with (2 ^ 20 * 3 ^ 64); [|apply big_128].
      apply Rle_trans with (1 := Hu). apply Rmult_le_compat_r; [left; apply pow_lt; lra|].
      rewrite Hlv. replace (2 ^ 20) with (INR (2 ^ 20)%nat); [now apply le_INR|].
      rewrite pow_INR. reflexivity. }
  pose proof (total_pos v Hvne) as Hp.
  destruct (Req_EM_T (total v) 0) as [H0|H0]; [lra|].
  f_equal. now rewrite map_map.
Qed.

(** C68: every lowered 8-bit softmax stores, for each row of the last dimension, the softmax of the real numbers of the row,
    rounded to the nearest multiple of 1/256: input scale at most 1/4, rows of at most 2^20 values, output quantised with
    scale 1/256 and zero point -128 (as TFLite requires). *)
Theorem C68_softmax : forall inType outType rows,
  0 < rq_scale inType <= / 4 -> (-128 <= rq_zero inType <= 127)%Z ->
  rq_scale outType = / 256 -> rq_zero outType = (-128)%Z ->
  Forall (fun row => int8_row row /\ row <> [] /\ (length row <= 2 ^ 20)%nat) rows ->
  exists outs, softmax_kernel (exp_lookup inType outType) rows = Some outs /\ length outs = length rows /\
    forall b row, nth_error rows b = Some row -> exists out, nth_error outs b = Some out /\ length out = length row /\
      forall i, (i < length row)%nat -> exists v, nth_error out i = Some v /\
        stored (rq_scale outType) (rq_zero outType) (softmax (real_row (rq_scale inType) (rq_zero inType) row) i) v.
Proof.
  intros t o rows Hs Hz Hos Hoz Hrows. rewrite Hos, Hoz.
  assert (Ht : good_input t) by (split; assumption).
  rewrite Forall_forall in Hrows.
  unfold softmax_kernel.
  erewrite collect_some.
  2:{ intros row Hr. destruct (Hrows row Hr) as [H1 [H2 H3]]. apply row_exact; assumption. }
  eexists. split; [reflexivity|]. split; [apply map_length|].
  intros b row Hb. rewrite nth_error_map, Hb.
  eexists. split; [reflexivity|]. split; [apply map_length|].
  intros i Hi. rewrite nth_error_map.
  destruct (nth_error row i) as [q|] eqn:Hq; [|apply nth_error_None in Hq; lia].
  eexists. split; [reflexivity|].
  unfold softmax. rewrite (real_row_nth _ _ _ _ _ Hq).
  apply output_stored. apply total_pos.
  destruct row; [cbn in Hi; lia | discriminate].
Qed.
Print Assumptions C68_softmax.

Lemma total_shift : forall s z1 z2 row,
  total (real_row s z1 row) = exp (s * IZR (z2 - z1)) * total (real_row s z2 row).
Proof.
  induction row as [|q row IH]; [cbn; ring|].
  unfold real_row, total in *. cbn [map fold_right]. rewrite IH, Rmult_plus_distr_l, <- exp_plus. do 2 f_equal.
  rewrite <- Rmult_plus_distr_l, <- plus_IZR. do 2 f_equal. ring.
Qed.

(** The result does not depend on the zero point of the input. *)
Theorem C68_zero_point_irrelevant : forall s z1 z2 o1 o2 rows,
  0 < s <= / 4 -> (-128 <= z1 <= 127)%Z -> (-128 <= z2 <= 127)%Z ->
  Forall (fun row => int8_row row /\ row <> [] /\ (length row <= 2 ^ 20)%nat) rows ->
  softmax_kernel (exp_lookup (RQType s z1) o1) rows = softmax_kernel (exp_lookup (RQType s z2) o2) rows.
Proof.
  intros s z1 z2 o1 o2 rows Hs Hz1 Hz2 Hrows. unfold softmax_kernel. f_equal.
  apply map_ext_in. intros row Hr. rewrite Forall_forall in Hrows.
  destruct (Hrows row Hr) as [H1 [H2 H3]].
  rewrite !row_exact by (try assumption; split; assumption). f_equal.
  cbn [rq_scale rq_zero].
  apply map_ext. intro q. unfold softmax_output.
  assert (E : exp (s * IZR (q - z1)) / total (real_row s z1 row) = exp (s * IZR (q - z2)) / total (real_row s z2 row));
    [|now rewrite E].
  rewrite (total_shift s z1 z2).
  replace (s * IZR (q - z1)) with (s * IZR (z2 - z1) + s * IZR (q - z2)).
  2:{ rewrite <- Rmult_plus_distr_l, <- plus_IZR. do 2 f_equal. ring. }
  rewrite exp_plus.
  assert (0 < total (real_row s z2 row)) by (apply total_pos; destruct row; [congruence | discriminate]).
  pose proof (exp_pos (s * IZR (z2 - z1))).
  field. lra.
Qed.
Print Assumptions C68_zero_point_irrelevant.

(** A larger stored input never gets a smaller stored output: the largest class stays largest. *)
Theorem C68_order_preserved : forall inType outType row out i j qi qj vi vj,
  0 < rq_scale inType <= / 4 -> (-128 <= rq_zero inType <= 127)%Z -> int8_row row -> (length row <= 2 ^ 20)%nat ->
  softmax_row (exp_lookup inType outType) row = Some out ->
  nth_error row i = Some qi -> nth_error row j = Some qj -> nth_error out i = Some vi -> nth_error out j = Some vj ->
  (qi <= qj)%Z -> (vi <= vj)%Z.
Proof.
  intros t o row out i j qi qj vi vj Hs Hz Hrow Hlen Hout Hi Hj Hvi Hvj Hq.
  assert (Hne : row <> []) by (intro H; subst row; destruct i; discriminate).
  rewrite row_exact in Hout; [|split; assumption | assumption | assumption | assumption].
  injection Hout as <-. rewrite nth_error_map, Hi in Hvi. rewrite nth_error_map, Hj in Hvj.
  injection Hvi as <-. injection Hvj as <-.
  set (S := total _).
  assert (HS : 0 < S) by (apply total_pos; destruct row; [congruence | discriminate]).
  assert (Hle : exp (rq_scale t * IZR (qi - rq_zero t)) <= exp (rq_scale t * IZR (qj - rq_zero t))).
  { apply exp_mono. apply Rmult_le_compat_l; [lra|]. apply IZR_le. lia. }
  unfold softmax_output, saturate.
  set (a := exp (rq_scale t * IZR (qi - rq_zero t))) in *. set (b := exp (rq_scale t * IZR (qj - rq_zero t))) in *.
  assert (Hab : a / S <= b / S) by (apply Rmult_le_compat_r; [left; now apply Rinv_0_lt_compat | exact Hle]).
  assert (Hi' : (Int_part (256 * (a / S) + / 2) <= Int_part (256 * (b / S) + / 2))%Z).
  { pose proof (Int_part_bounds (256 * (a / S) + / 2)) as H1. pose proof (Int_part_bounds (256 * (b / S) + / 2)) as H2.
    apply Z.lt_succ_r. apply lt_IZR. unfold Z.succ. rewrite plus_IZR. lra. }
  lia.
Qed.
Print Assumptions C68_order_preserved.

(** Which softmax operators are lowered: 8-bit input, beta 1, and rank 2, or rank 3 with a second dimension other than 1. *)
Theorem C68_selection : forall qi8 beta_one shape,
  lower_softmax qi8 beta_one shape <> NotLowered <->
  qi8 = true /\ beta_one = true /\
  ((exists a b, shape = [a; b]) \/ (exists a b c, shape = [a; b; c] /\ b <> 1%Z)).
Proof.
  intros qi8 beta_one shape. unfold lower_softmax.
  destruct qi8, beta_one; cbn [andb negb];
    try (split; [congruence | intros [H1 [H2 H3]]; discriminate]).
  destruct shape as [|a [|b [|c [|d tl]]]].
  - cbn. split; [congruence|]. intros [_ [_ [[x [y H]]|[x [y [z [H _]]]]]]]; discriminate.
  - cbn. split; [congruence|]. intros [_ [_ [[x [y H]]|[x [y [z [H _]]]]]]]; discriminate.
  - cbn [length nth]. change (Z.of_nat 2 =? 2)%Z with true. change (Z.of_nat 2 =? 3)%Z with false.
    split; [intros _; repeat split; left; eauto|].
    intros _. destruct (a =? 1)%Z; cbn; congruence.
  - cbn [length nth]. change (Z.of_nat 3 =? 2)%Z with false. change (Z.of_nat 3 =? 3)%Z with true. cbn [andb orb].
    destruct (b =? 1)%Z eqn:Hb; cbn.
    + split; [congruence|]. apply Z.eqb_eq in Hb. intros [_ [_ [[x [y H]]|[x [y [z [H Hn]]]]]]]; [discriminate|].
      injection H as -> -> ->. contradiction.
    + apply Z.eqb_neq in Hb. split; [intros _; repeat split; right; eauto 6 | congruence].
  - assert (Hl : Z.of_nat (length (a :: b :: c :: d :: tl)) = (4 + Z.of_nat (length tl))%Z) by (cbn [length]; lia).
    rewrite Hl.
    replace (4 + Z.of_nat (length tl) =? 2)%Z with false by (symmetry; apply Z.eqb_neq; lia).
    replace (4 + Z.of_nat (length tl) =? 3)%Z with false by (symmetry; apply Z.eqb_neq; lia).
    cbn. split; [congruence|]. intros [_ [_ [[x [y H]]|[x [y [z [H _]]]]]]]; discriminate.
Qed.
Print Assumptions C68_selection.

(** The single-row operator is only used for a single row. *)
Theorem C68_single : forall qi8 beta_one shape, lower_softmax qi8 beta_one shape = XCSoftmax ->
  exists n, shape = [1%Z; n].
Proof.
  intros qi8 beta_one shape. unfold lower_softmax.
  destruct (negb (qi8 && beta_one)); [discriminate|].
  destruct (_ && _) eqn:H.
  - intros _. apply andb_prop in H as [H1 H2]. apply Z.eqb_eq in H1, H2.
    destruct shape as [|a [|b [|c tl]]]; cbn [length nth] in *; try lia.
    subst a. eauto.
  - destruct (_ || _); discriminate.
Qed.
Print Assumptions C68_single.

(** The hypotheses are met: scale 1/8, zero point 5, two rows. *)
Example C68_softmax_example :
  0 < rq_scale (RQType (/ 8) 5) <= / 4 /\ (-128 <= rq_zero (RQType (/ 8) 5) <= 127)%Z /\
  Forall (fun row => int8_row row /\ row <> [] /\ (length row <= 2 ^ 20)%nat) [[-128; 0; 127]; [3; 3; 4]]%Z /\
  lower_softmax true true [2; 3]%Z = XCBatchedSoftmax.
Proof.
  cbn [rq_scale rq_zero]. split; [lra|]. split; [lia|]. split; [|reflexivity].
  assert (H : (3 <= 2 ^ 20)%nat) by (apply Nat.leb_le; vm_compute; reflexivity).
  assert (I : forall a b c, (-128 <= a <= 127)%Z -> (-128 <= b <= 127)%Z -> (-128 <= c <= 127)%Z -> int8_row [a; b; c]).
  { intros a b c Ha Hb Hc. apply Forall_cons; [exact Ha|]. apply Forall_cons; [exact Hb|]. now apply Forall_cons. }
  apply Forall_cons; [|apply Forall_cons; [|apply Forall_nil]];
    (split; [apply I; lia | split; [discriminate | exact H]]).
Qed.

(** exp overflows a float: scale 1, zero point -128, the row [127; 127], whose softmax is (1/2, 1/2). *)
Lemma exp_255 : 2 ^ 255 <= exp 255.
Proof.
  replace 255 with (INR 255) by (rewrite INR_IZR_INZ; reflexivity). rewrite exp_nat.
  apply pow_incr. pose proof (exp_ineq1 1). lra.
Qed.

Theorem C68_refuted_overflow : forall outType,
  softmax_row (exp_lookup (RQType 1 (-128)) outType) [127; 127]%Z = None /\
  softmax (real_row 1 (-128) [127; 127]%Z) 0 = / 2.
Proof.
  intro o. split.
  - unfold softmax_row. cbn [map]. unfold entry at 1, exp_lookup.
    rewrite nth_error_map. rewrite (nth_error_nth' (seq 0 256) 0%nat) by (rewrite seq_length; lia).
    rewrite seq_nth by lia. cbn [option_map Nat.add]. unfold exp_entry. cbn [rq_zero rq_scale].
    replace (IZR (Z.of_nat (Z.to_nat (127 + 128)) - 128 - -128) * 1) with 255 by (rewrite Rmult_1_r; f_equal).
    unfold to_float. destruct (Rle_dec (2 ^ 128) (exp 255)) as [H|H]; [reflexivity|].
    exfalso. apply H. apply Rle_trans with (2 ^ 255); [|apply exp_255].
    apply Rle_pow; [lra | lia].
  - unfold softmax, real_row, total. cbn [map nth fold_right].
    pose proof (exp_pos (1 * IZR (127 - -128))). field. lra.
Qed.
Print Assumptions C68_refuted_overflow.

(** exp underflows to 0: scale 1, zero point 127, the row [-128; -128]: a division of 0 by 0. *)
Theorem C68_refuted_underflow : forall outType,
  softmax_row (exp_lookup (RQType 1 127) outType) [-128; -128]%Z = None /\
  softmax (real_row 1 127 [-128; -128]%Z) 0 = / 2.
Proof.
  intro o. split.
  - assert (E : entry (exp_lookup (RQType 1 127) o) (-128) = Some 0).
    { unfold entry, exp_lookup.
      rewrite nth_error_map. rewrite (nth_error_nth' (seq 0 256) 0%nat) by (rewrite seq_length; lia).
      rewrite seq_nth by lia. cbn [option_map Nat.add]. unfold exp_entry. cbn [rq_zero rq_scale].
      replace (IZR (Z.of_nat (Z.to_nat (-128 + 128)) - 128 - 127) * 1) with (Ropp 255) by (rewrite Rmult_1_r; reflexivity).
      rewrite exp_Ropp. pose proof exp_255 as H255.
      assert (Hp : 0 < 2 ^ 255) by (apply pow_lt; lra).
      assert (Hi : / exp 255 <= / 2 ^ 255) by (apply Rinv_le_contravar; assumption).
      assert (Hs : / 2 ^ 255 < / 2 ^ 150).
      { apply Rinv_lt_contravar; [apply Rmult_lt_0_compat; apply pow_lt; lra|]. apply Rlt_pow; [lra | lia]. }
      assert (H1 : / 2 ^ 150 <= 1).
      { replace 1 with (/ 1) by field. apply Rinv_le_contravar; [lra|]. apply pow_R1_Rle. lra. }
      assert (H2 : 1 < 2 ^ 128).
      { replace 1 with (2 ^ 0) by reflexivity. apply Rlt_pow; [lra | lia]. }
      clear H255 Hp.
      unfold to_float. generalize dependent (/ 2 ^ 150). generalize dependent (/ 2 ^ 255).
      generalize dependent (2 ^ 128). generalize (/ exp 255). intros x b Hb c Hc d Hd1 Hd2.
      destruct (Rle_dec b x) as [H|H]; [lra|].
      destruct (Rlt_dec x d) as [H'|H']; [reflexivity | lra]. }
    unfold softmax_row. cbn [map collect]. rewrite E. cbn [collect rsum fold_right].
    replace (0 + (0 + 0)) with 0 by ring.
    assert (HI : 0 < / 2 ^ 150) by (apply Rinv_0_lt_compat, pow_lt; lra).
    assert (H2 : 0 < 2 ^ 128) by (apply pow_lt; lra).
    unfold to_float. generalize dependent (/ 2 ^ 150). generalize dependent (2 ^ 128). intros b Hb c Hc.
    destruct (Rle_dec b 0) as [H|H]; [lra|].
    destruct (Rlt_dec 0 c) as [H'|H']; [|lra].
    destruct (Req_EM_T 0 0) as [H0|H0]; [reflexivity | congruence].
  - unfold softmax, real_row, total. cbn [map nth fold_right].
    pose proof (exp_pos (1 * IZR (-128 - 127))). field. lra.
Qed.
Print Assumptions C68_refuted_underflow.

(** The output quantisation is only asserted: the lowered operator does not depend on it, so that a softmax whose result has
    another quantisation is stored wrongly.  Here scale 1/128 and zero point 0: the softmax 1 of a row of one value should
    be stored as 127 (saturated) or 128, and the softmax 1/2 as 64; the lowered operator stores 0. *)
Theorem C68_refuted_output_type :
  exists out, softmax_row (exp_lookup (RQType (/ 4) 0) (RQType (/ 128) 0)) [0; 0]%Z = Some out /\ nth_error out 0 = Some 0%Z /\
    ~ stored (/ 128) 0 (softmax (real_row (/ 4) 0 [0; 0]%Z) 0) 0.
Proof.
  assert (Hsm : softmax (real_row (/ 4) 0 [0; 0]%Z) 0 = / 2).
  { unfold softmax, real_row, total. cbn [map nth fold_right].
    pose proof (exp_pos (/ 4 * IZR (0 - 0))). field. lra. }
  assert (H20 : (2 <= 2 ^ 20)%nat) by (apply Nat.leb_le; vm_compute; reflexivity).
  eexists. split.
  { apply row_exact; [split; cbn [rq_scale rq_zero]; [lra | lia] | repeat constructor; lia | discriminate | exact H20]. }
  split.
  - cbn [map nth_error]. f_equal. cbn [rq_scale rq_zero]. unfold softmax_output, saturate.
    replace (exp (/ 4 * IZR (0 - 0)) / total (real_row (/ 4) 0 [0%Z; 0%Z])) with (/ 2) by (symmetry; exact Hsm).
    pose proof (Int_part_bounds (256 * / 2 + / 2)) as Hb.
    assert (Int_part (256 * / 2 + / 2) = 128%Z).
    { apply Z.le_antisymm; apply Z.lt_succ_r; apply lt_IZR; unfold Z.succ; rewrite ?plus_IZR; lra. }
    lia.
  - rewrite Hsm. intros [r [Hr Hc]].
    replace (/ 2 / / 128) with 64 in Hr by lra.
    assert (r = 64%Z).
    { apply Z.le_antisymm; apply Z.lt_succ_r; apply lt_IZR; unfold Z.succ; rewrite ?plus_IZR; lra. }
    lia.
Qed.
Print Assumptions C68_refuted_output_type.
