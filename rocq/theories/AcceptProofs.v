(** Lemmas for C101. *)
From Coq Require Import List ZArith QArith Qabs Bool Lia Lqa.
Import ListNotations.
From Verif Require Import AcceptModel AcceptSpec.
Local Open Scope Z_scope.

(** The state after some outputs, with the errors as the code computes them. *)
Definition errs (d : dtype) (l : list (Z * Z)) : list Z := map (fun p => subtract d (fst p) (snd p)) l.
Definition zmax0 (l : list Z) : Z := fold_right Z.max 0 l.
Definition state_of (d : dtype) (l : list (Z * Z)) : state :=
  State (Z.of_nat (length l)) (zsum (errs d l)) (zsum (map (absolute d) (errs d l))) (zmax0 (map (absolute d) (errs d l))).

Lemma zsum_app a b : zsum (a ++ b) = zsum a + zsum b.
Proof. induction a as [|x a IH]; cbn; [reflexivity|]. unfold zsum in *. cbn [fold_right app]. rewrite IH. lia. Qed.
Lemma zmax0_app a b : zmax0 (a ++ b) = Z.max (zmax0 a) (zmax0 b).
Proof.
  assert (N : forall l, 0 <= zmax0 l) by (induction l as [|x l IH]; unfold zmax0 in *; cbn [fold_right]; lia).
  induction a as [|x a IH]; unfold zmax0 in *; cbn [fold_right app]; [|rewrite IH; lia]. pose proof (N b). unfold zmax0 in *. lia.
Qed.
Lemma zmax_zmax0 l : forall x s, 0 <= s -> Z.max (zmax x l) s = Z.max s (zmax0 (x :: l)).
Proof.
  induction l as [|y l IH]; intros x s H; unfold zmax0 in *; cbn [zmax fold_right]; [lia|].
  specialize (IH y s H). cbn [fold_right] in IH. lia.
Qed.

Lemma turn_state d l m : turn d m (state_of d l) = state_of d (l ++ m).
Proof.
  unfold turn. fold (errs d m). destruct (errs d m) as [|e tl] eqn:E.
  - assert (m = []) as -> by (destruct m; [reflexivity|discriminate]). rewrite app_nil_r. reflexivity.
  - cbv zeta. unfold state_of. cbn [run_out_count run_out_err run_out_abs_err max_abs_err].
    assert (A : errs d (l ++ m) = errs d l ++ errs d m) by apply map_app. rewrite A, E, !map_app.
    f_equal.
    + rewrite <- E. unfold errs. rewrite map_length, app_length. lia.
    + rewrite zsum_app. reflexivity.
    + rewrite zsum_app. reflexivity.
    + rewrite zmax0_app. rewrite zmax_zmax0; [reflexivity|].
      generalize (map (absolute d) (errs d l)) as q. induction q as [|x q IH]; unfold zmax0 in *; cbn [fold_right]; lia.
Qed.

Lemma finishes_outputs d l runs t s t' s' : finishes d l runs t s t' s' ->
  s = state_of d (outputs runs t) -> s' = state_of d (outputs runs t') /\ REQUIRED_OUTPUTS l <= run_out_count s'.
Proof.
  induction 1 as [t s H|t s t' s' H F IH]; intros E; [auto|].
  apply IH. rewrite E. cbn [outputs]. apply turn_state.
Qed.

Lemma finishes_fun d l runs t s t1 s1 : finishes d l runs t s t1 s1 -> forall t2 s2, finishes d l runs t s t2 s2 -> t1 = t2 /\ s1 = s2.
Proof.
  induction 1 as [t s H|t s t' s' H F IH]; intros t2 s2 G; inversion G; subst; try lia; auto.
Qed.

(** A run with [k] outputs each time. *)
Lemma finishes_exists d l runs k : (1 <= k)%nat -> (forall t, length (runs t) = k) ->
  forall n t s, run_out_count s = Z.of_nat t * Z.of_nat k -> REQUIRED_OUTPUTS l - run_out_count s <= Z.of_nat n ->
  exists t' s', finishes d l runs t s t' s'.
Proof.
  intros Hk Hr. induction n as [|n IH]; intros t s Hs Hn.
  - exists t, s. apply Enough. lia.
  - destruct (Z_le_dec (REQUIRED_OUTPUTS l) (run_out_count s)) as [L|L]; [exists t, s; apply Enough; exact L|].
    assert (C : run_out_count (turn d (runs t) s) = run_out_count s + Z.of_nat k).
    { unfold turn. destruct (map _ (runs t)) as [|e tl] eqn:E.
      - apply (f_equal (@length Z)) in E. rewrite map_length, Hr in E. cbn in E. lia.
      - cbv zeta. cbn [run_out_count]. rewrite <- E, map_length, Hr. reflexivity. }
    destruct (IH (S t) (turn d (runs t) s)) as (t' & s' & F); [lia|lia|].
    exists t', s'. apply Again; [lia|exact F].
Qed.

Lemma wrap_small bits v : 1 <= bits -> in_type bits v -> wrap (DType true bits) v = v.
Proof.
  intros Hb [H1 H2]. unfold wrap. cbn [d_signed d_bits].
  assert (P : 2 ^ bits = 2 * 2 ^ (bits - 1)) by (rewrite <- Z.pow_succ_r by lia; f_equal; lia).
  rewrite Z.mod_small by lia. lia.
Qed.

(** Possible values of the wrapped absolute error of two values of the type. *)
Lemma wrapped_difference bits a b m : 1 <= bits -> in_type bits a -> in_type bits b -> 0 <= m ->
  absolute (DType true bits) (subtract (DType true bits) a b) <= m <->
  Z.abs (a - b) <= m \/ Z.abs (a - b) = 2 ^ (bits - 1) \/ 2 ^ bits - m <= Z.abs (a - b).
Proof.
  intros Hb [A1 A2] [B1 B2] Hm. unfold absolute, subtract, wrap. cbn [d_signed d_bits].
  assert (P : 2 ^ bits = 2 * 2 ^ (bits - 1)) by (rewrite <- Z.pow_succ_r by lia; f_equal; lia).
  set (h := 2 ^ (bits - 1)) in *. rewrite P. assert (Hh : 0 < h) by (unfold h; apply Z.pow_pos_nonneg; lia). clearbody h.
  assert (M : forall z k, - h <= z - k * (2 * h) < h -> (z + h) mod (2 * h) - h = z - k * (2 * h)).
  { intros z k Hz. rewrite <- (Z.mod_unique (z + h) (2 * h) k (z + h - k * (2 * h))); lia. }
  destruct (Z_lt_dec (a - b) (- h)) as [C|C]; [|destruct (Z_lt_dec (a - b) h) as [D|D]].
  - rewrite (M (a - b) (-1)) by lia.
    destruct (Z.eq_dec (a - b) (- (3 * h))); [lia|]. rewrite (M (Z.abs (a - b - -1 * (2 * h))) 0) by lia. lia.
  - rewrite (M (a - b) 0) by lia. rewrite Z.mul_0_l, Z.sub_0_r.
    destruct (Z.eq_dec (a - b) (- h)) as [E|E].
    + rewrite E. replace (Z.abs (- h)) with h by lia. rewrite (M h 1) by lia. lia.
    + rewrite (M (Z.abs (a - b)) 0) by lia. lia.
  - rewrite (M (a - b) 1) by lia. destruct (Z.eq_dec (a - b) h) as [E|E].
    + rewrite E. replace (Z.abs (h - 1 * (2 * h))) with h by lia. rewrite (M h 1) by lia. lia.
    + rewrite (M (Z.abs (a - b - 1 * (2 * h))) 0) by lia. lia.
Qed.

Lemma zmax0_le l m : 0 <= m -> (zmax0 l <= m <-> forall x, In x l -> x <= m).
Proof.
  intros Hm. induction l as [|x l IH]; unfold zmax0 in *; cbn [fold_right].
  - split; [intros _ x []|lia].
  - rewrite Z.max_lub_iff, IH. split.
    + intros [H1 H2] y [<-|Hy]; auto.
    + intros H. split; [apply H; left; reflexivity|intros y Hy; apply H; right; exact Hy].
Qed.

Lemma div_le x n q : 0 < n -> (Qle_bool (inject_Z x / inject_Z n) q = true <-> (inject_Z x <= q * inject_Z n)%Q).
Proof.
  intros Hn. rewrite Qle_bool_iff. assert (P : (0 < inject_Z n)%Q) by (change 0%Q with (inject_Z 0); rewrite <- Zlt_Qlt; exact Hn).
  split; intros H; [|apply Qle_shift_div_r; auto].
  setoid_replace (inject_Z x) with (inject_Z x / inject_Z n * inject_Z n)%Q by (field; intros C; rewrite C in P; apply Qlt_irrefl in P; exact P).
  apply Qmult_le_compat_r; [exact H|apply Qlt_le_weak; exact P].
Qed.
Lemma abs_div_le x n q : 0 < n -> (Qle_bool (Qabs (inject_Z x / inject_Z n)) q = true <-> (Qabs (inject_Z x) <= q * inject_Z n)%Q).
Proof.
  intros Hn. assert (E : (Qabs (inject_Z x / inject_Z n) == inject_Z (Z.abs x) / inject_Z n)%Q).
  { unfold Qdiv. rewrite Qabs_Qmult. assert (A : (Qabs (inject_Z x) == inject_Z (Z.abs x))%Q) by reflexivity. rewrite A.
    rewrite (Qabs_pos (/ inject_Z n)); [reflexivity|]. apply Qinv_le_0_compat. change 0%Q with (inject_Z 0). rewrite <- Zle_Qle. lia. }
  rewrite Qle_bool_iff, E, <- Qle_bool_iff. rewrite div_le by exact Hn. reflexivity.
Qed.

(** The verdict in terms of the errors as computed. *)
Lemma passes_iff d l L : L <> [] -> 0 <= MAX_ABS_ERROR l ->
  (passes l (state_of d L) = true <->
   (forall p, In p L -> absolute d (subtract d (fst p) (snd p)) <= MAX_ABS_ERROR l) /\
   (Qabs (inject_Z (zsum (errs d L))) <= ABS_AVG_ERROR l * inject_Z (Z.of_nat (length L)))%Q /\
   (inject_Z (zsum (map (absolute d) (errs d L))) <= AVG_ABS_ERROR l * inject_Z (Z.of_nat (length L)))%Q).
Proof.
  intros HL Hm. unfold passes. cbv zeta. unfold state_of. cbn [run_out_count run_out_err run_out_abs_err max_abs_err].
  assert (Hn : 0 < Z.of_nat (length L)) by (destruct L; [congruence|cbn [length]; lia]).
  rewrite !andb_true_iff, abs_div_le, div_le by exact Hn. rewrite Z.leb_le, zmax0_le by exact Hm. rewrite and_assoc.
  assert (E : (forall x, In x (map (absolute d) (errs d L)) -> x <= MAX_ABS_ERROR l) <->
              (forall p, In p L -> absolute d (subtract d (fst p) (snd p)) <= MAX_ABS_ERROR l)).
  { unfold errs. rewrite map_map. split; intros H.
    - intros p Hp. apply H. apply (in_map (fun q => absolute d (subtract d (fst q) (snd q)))). exact Hp.
    - intros x Hx. apply in_map_iff in Hx. destruct Hx as (p & <- & Hp). apply H. exact Hp. }
  rewrite E. reflexivity.
Qed.
