(** Property C101: the verdict of the acceptance test.
    Vocabulary: AcceptSpec.  Model: AcceptModel. *)
From Coq Require Import List ZArith QArith Qabs Bool Lia Lqa.
Import ListNotations.
From Verif Require Import AcceptModel AcceptSpec AcceptProofs.
Local Open Scope Z_scope.

Lemma outputs_count d l runs t s t' s' : finishes d l runs t s t' s' -> s = state_of d (outputs runs t) ->
  forall i, (t <= i < t')%nat -> Z.of_nat (length (outputs runs i)) < REQUIRED_OUTPUTS l.
Proof.
  induction 1 as [t s H|t s t' s' H F IH]; intros E i Hi; [lia|].
  destruct (Nat.eq_dec i t) as [->|N]; [rewrite E in H; exact H|].
  apply IH; [rewrite E; cbn [outputs]; apply turn_state|lia].
Qed.

(** For signed outputs, as long as no pair differs by half the range of the type or more:
    the test passes exactly when the outputs are accurate. *)
Theorem C101_verdict_partial : forall bits l runs verdict,
  1 <= bits -> 0 <= MAX_ABS_ERROR l -> 0 < REQUIRED_OUTPUTS l ->
  test_model (DType true bits) l runs verdict ->
  exists t, compared (REQUIRED_OUTPUTS l) runs t /\
    ((forall p, In p (outputs runs t) -> Z.abs (difference p) < 2 ^ (bits - 1)) ->
     (verdict = true <-> accurate (MAX_ABS_ERROR l) (ABS_AVG_ERROR l) (AVG_ABS_ERROR l) (outputs runs t))).
Proof.
  intros bits l runs v Hb Hm Hr (t & s & F & ->). exists t.
  destruct (finishes_outputs _ _ _ _ _ _ _ F eq_refl) as [-> C]. split.
  { split; [exact C|]. intros i Hi. eapply outputs_count; [exact F|reflexivity|lia]. }
  intros N.
  assert (HL : outputs runs t <> []) by (intros E; rewrite E in C; cbn in C; lia).
  rewrite passes_iff by assumption. set (L := outputs runs t) in *. clearbody L. unfold accurate. cbv zeta.
  assert (P0 : 0 < 2 ^ (bits - 1)) by (apply Z.pow_pos_nonneg; lia).
  assert (W : forall p, In p L -> subtract (DType true bits) (fst p) (snd p) = difference p /\
                                  absolute (DType true bits) (difference p) = Z.abs (difference p)).
  { intros p Hp. specialize (N p Hp). unfold subtract, absolute. fold (difference p). split; apply wrap_small; unfold in_type; auto; lia. }
  assert (S1 : zsum (errs (DType true bits) L) = total difference L /\
               zsum (map (absolute (DType true bits)) (errs (DType true bits) L)) = total (fun p => Z.abs (difference p)) L).
  { clear - W. induction L as [|p L IH]; [split; reflexivity|]. destruct (W p (or_introl eq_refl)) as [W1 W2].
    destruct IH as [I1 I2]; [intros q Hq; apply W; right; exact Hq|]. unfold zsum, errs, total in *. cbn [map fold_right]. rewrite W1, W2, I1, I2. auto. }
  destruct S1 as [-> ->].
  assert (E : (forall p, In p L -> absolute (DType true bits) (subtract (DType true bits) (fst p) (snd p)) <= MAX_ABS_ERROR l) <->
              (forall p, In p L -> Z.abs (difference p) <= MAX_ABS_ERROR l)).
  { split; intros H p Hp; specialize (H p Hp); destruct (W p Hp) as [W1 W2]; rewrite W1, W2 in *; exact H. }
  rewrite E. reflexivity.
Qed.

(** Exactly which pairs the test on the greatest error lets through: those within the limit,
    those half the range apart, and those almost the whole range apart. *)
Theorem C101_pair_exactly_when : forall bits a b m, 1 <= bits -> in_type bits a -> in_type bits b -> 0 <= m ->
  (absolute (DType true bits) (subtract (DType true bits) a b) <= m <->
   Z.abs (a - b) <= m \/ Z.abs (a - b) = 2 ^ (bits - 1) \/ 2 ^ bits - m <= Z.abs (a - b)).
Proof. exact wrapped_difference. Qed.

(** What a pass means without any condition, 8-bit outputs and the default limits. *)
Theorem C101_pass_means : forall runs, test_model (DType true 8) default_limits runs true ->
  exists t, compared (REQUIRED_OUTPUTS default_limits) runs t /\
    forall p, In p (outputs runs t) -> in_type 8 (fst p) -> in_type 8 (snd p) ->
      In (Z.abs (difference p)) [0; 1; 128; 255].
Proof.
  intros runs (t & s & F & E). exists t.
  destruct (finishes_outputs _ _ _ _ _ _ _ F eq_refl) as [-> C]. split.
  { split; [exact C|]. intros i Hi. eapply outputs_count; [exact F|reflexivity|lia]. }
  intros p Hp A B. cbn in C.
  symmetry in E. apply passes_iff in E; [|intros E0; rewrite E0 in C; cbn in C; lia|cbn; lia]. destruct E as [E _].
  specialize (E p Hp). apply C101_pair_exactly_when in E; auto; cbn; try lia. fold (difference p) in E.
  change (2 ^ (8 - 1)) with 128 in E. change (2 ^ 8 - MAX_ABS_ERROR default_limits) with 255 in E. change (MAX_ABS_ERROR default_limits) with 1 in E.
  unfold in_type in *. change (2 ^ (8 - 1)) with 128 in *. unfold difference in *. lia.
Qed.

(** The test ends when every run gives the same number of outputs, at least one. *)
Theorem C101_ends : forall d l runs k, (1 <= k)%nat -> (forall t, length (runs t) = k) ->
  (exists verdict, test_model d l runs verdict) /\
  (forall v v', test_model d l runs v -> test_model d l runs v' -> v = v').
Proof.
  intros d l runs k Hk Hr. split.
  - destruct (finishes_exists d l runs k Hk Hr (Z.to_nat (REQUIRED_OUTPUTS l)) 0 start) as (t & s & F); [reflexivity|cbn; lia|].
    exists (passes l s), t, s. auto.
  - intros v v' (t & s & F & ->) (t' & s' & F' & ->). destruct (finishes_fun _ _ _ _ _ _ _ F _ _ F') as [_ ->]. reflexivity.
Qed.

(** *** Concrete cases *)
Lemma outputs_repeat_sum d (B : list (Z * Z)) : forall t,
  Z.of_nat (length (outputs (fun _ => B) t)) = Z.of_nat t * Z.of_nat (length B) /\
  zsum (errs d (outputs (fun _ => B) t)) = Z.of_nat t * zsum (errs d B) /\
  zsum (map (absolute d) (errs d (outputs (fun _ => B) t))) = Z.of_nat t * zsum (map (absolute d) (errs d B)) /\
  (forall p, In p (outputs (fun _ => B) t) -> In p B).
Proof.
  induction t as [|t (I1 & I2 & I3 & I4)]; [split; [reflexivity|]; split; [reflexivity|]; split; [reflexivity|intros p []]|].
  cbn [outputs]. unfold errs in *. rewrite app_length, !map_app, !zsum_app, Nat2Z.inj_add, I1, I2, I3. repeat split; try lia.
  intros p Hp. apply in_app_iff in Hp. destruct Hp; auto.
Qed.
(** Every run gives the outputs [B]. *)
Lemma verdict_constant d l B : B <> [] -> 0 <= MAX_ABS_ERROR l -> 0 < REQUIRED_OUTPUTS l ->
  (forall p, In p B -> absolute d (subtract d (fst p) (snd p)) <= MAX_ABS_ERROR l) ->
  (Qabs (inject_Z (zsum (errs d B))) <= ABS_AVG_ERROR l * inject_Z (Z.of_nat (length B)))%Q ->
  (inject_Z (zsum (map (absolute d) (errs d B))) <= AVG_ABS_ERROR l * inject_Z (Z.of_nat (length B)))%Q ->
  test_model d l (fun _ => B) true.
Proof.
  intros HB Hm Hr H1 H2 H3.
  destruct (proj1 (C101_ends d l (fun _ => B) (length B) ltac:(destruct B; [congruence|cbn; lia]) (fun _ => eq_refl))) as (v & t & s & F & E).
  exists t, s. split; [exact F|]. destruct (finishes_outputs _ _ _ _ _ _ _ F eq_refl) as [-> C]. symmetry.
  destruct (outputs_repeat_sum d B t) as (L1 & L2 & L3 & L4).
  apply passes_iff; [intros E0; rewrite E0 in C; cbn in C; lia|exact Hm|]. rewrite L1, L2, L3, !inject_Z_mult.
  split; [intros p Hp; apply H1; auto|].
  assert (T : (0 <= inject_Z (Z.of_nat t))%Q) by (change 0%Q with (inject_Z 0); rewrite <- Zle_Qle; lia).
  rewrite Qabs_Qmult, (Qabs_pos (inject_Z (Z.of_nat t)) T). split.
  - pose proof (Qmult_le_compat_r _ _ _ H2 T); lra.
  - pose proof (Qmult_le_compat_r _ _ _ H3 T); lra.
Qed.

Example C101_right_network : test_model (DType true 8) default_limits (fun _ => [(5, 5); (-128, -128); (7, 6); (0, 0)]) true.
Proof. apply verdict_constant; [discriminate|cbn; lia|cbn; lia| |unfold Qle; cbn; lia|unfold Qle; cbn; lia]. intros p [<-|[<-|[<-|[<-|[]]]]]; vm_compute; discriminate. Qed.

(** *** What the test lets through *)
(** A quarter of all outputs as wrong as 8-bit values can be. *)
Theorem C101_refuted_wrap : exists B, test_model (DType true 8) default_limits (fun _ => B) true /\
  length B = 8%nat /\ length (filter (fun p => Z.abs (difference p) =? 255) B) = 2%nat /\ (forall p, In p B -> in_type 8 (fst p) /\ in_type 8 (snd p)).
Proof.
  exists ([(127, -128); (-128, 127)] ++ repeat (0, 0) 6). split; [|split; [reflexivity|split; [reflexivity|]]].
  - apply verdict_constant; [discriminate|cbn; lia|cbn; lia| |unfold Qle; cbn; lia|unfold Qle; cbn; lia].
    cbn. intros p H. repeat (destruct H as [<-|H]); try (vm_compute; discriminate); destruct H.
  - cbn. unfold in_type. intros p H. repeat (destruct H as [<-|H]); try (cbn; lia); destruct H.
Qed.
(** An output half the range too low lowers the average of the absolute errors: it hides that
    half of all outputs are off by one. *)
Theorem C101_refuted_half_range : test_model (DType true 8) default_limits (fun _ => (-128, 0) :: repeat (1, 0) 128 ++ repeat (0, 0) 128) true.
Proof.
  apply verdict_constant; [discriminate|cbn; lia|cbn; lia| |unfold Qle; vm_compute; discriminate|unfold Qle; vm_compute; discriminate].
  intros p [<-|H]; [vm_compute; discriminate|]. apply in_app_or in H. destruct H as [H|H]; apply repeat_spec in H; subst p; vm_compute; discriminate.
Qed.
(** Unsigned outputs: one output below the reference by one, or above it, fails or passes. *)
Theorem C101_refuted_unsigned : forall bits l runs verdict t, 1 <= bits -> 0 <= MAX_ABS_ERROR l < 2 ^ bits - 1 -> 0 < REQUIRED_OUTPUTS l ->
  test_model (DType false bits) l runs verdict -> compared (REQUIRED_OUTPUTS l) runs t ->
  (exists p, In p (outputs runs t) /\ 0 <= fst p < 2 ^ bits /\ snd p = fst p + 1) -> verdict = false.
Proof.
  intros bits l runs v t Hb Hm Hr (t' & s & F & ->) [C1 C2] (p & Hp & Hf & Hs).
  destruct (finishes_outputs _ _ _ _ _ _ _ F eq_refl) as [-> C].
  assert (t' = t).
  { destruct (Nat.lt_trichotomy t t') as [L|[L|L]]; auto.
    - pose proof (outputs_count _ _ _ _ _ _ _ F eq_refl t ltac:(lia)). lia.
    - specialize (C2 t' L). cbn in C. lia. }
  subst t'. destruct (passes l (state_of (DType false bits) (outputs runs t))) eqn:E; [exfalso|reflexivity].
  apply passes_iff in E; [|intros E0; rewrite E0 in Hp; destruct Hp|lia]. destruct E as [E _]. specialize (E p Hp).
  unfold absolute, subtract, wrap in E. cbn [d_signed d_bits] in E. rewrite Hs in E. replace (fst p - (fst p + 1)) with (-1) in E by lia.
  assert (P0 : 0 < 2 ^ bits) by (apply Z.pow_pos_nonneg; lia).
  rewrite <- (Z.mod_unique (-1) (2 ^ bits) (-1) (2 ^ bits - 1)) in E by lia.
  rewrite Z.abs_eq in E by lia. rewrite Z.mod_small in E by lia. lia.
Qed.
(** A network whose outputs have no elements is tested for ever. *)
Theorem C101_refuted_never_ends : forall d l verdict, 0 < REQUIRED_OUTPUTS l -> ~ test_model d l (fun _ => []) verdict.
Proof.
  intros d l v Hr (t & s & F & _). destruct (finishes_outputs _ _ _ _ _ _ _ F eq_refl) as [-> C].
  assert (E : outputs (fun _ => []) t = []) by (clear; induction t as [|t IH]; cbn; [reflexivity|rewrite IH; reflexivity]).
  rewrite E in C. cbn in C. lia.
Qed.

Print Assumptions C101_verdict_partial.
Print Assumptions C101_pair_exactly_when.
Print Assumptions C101_pass_means.
Print Assumptions C101_ends.
Print Assumptions C101_refuted_wrap.
Print Assumptions C101_refuted_half_range.
Print Assumptions C101_refuted_unsigned.
Print Assumptions C101_refuted_never_ends.
