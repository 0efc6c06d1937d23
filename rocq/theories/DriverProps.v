(** C66: what a run of xcore-opt leaves behind. *)
From Coq Require Import String.
From Verif Require Import Base TextModel ThreadModel ThreadSpec ThreadProofs DriverModel.
Local Open Scope list_scope.
Local Open Scope Z_scope.

(** The documented rules. *)
Definition documented_rules (o : options) : Prop :=
  (o_analysis o = true -> o_argc o <= 3 /\ o_output o = []) /\
  (o_mlir_io o = false -> o_analysis o = false -> o_output o <> []) /\
  (o_external_memory_given o = true -> o_as_array_given o = true) /\
  (o_if_larger_given o = true -> o_weights_file o <> []) /\
  (o_target_given o = true -> o_bottom o = [] /\ o_top o = [] /\ o_splits o = []) /\
  1 <= o_threads o <= 5 /\ o_tflm_version_ok o = true /\ o_nn_version_ok o = true.
Lemma empty_true {A} (l : list A) : empty l = true <-> l = [].
Proof. destruct l; split; intros H; auto; discriminate. Qed.
Lemma empty_false {A} (l : list A) : empty l = false <-> l <> [].
Proof. destruct l; split; intros H; auto; try discriminate. congruence. Qed.
Lemma guard (b x : bool) : (if b then false else x) = true <-> b = false /\ x = true.
Proof. destruct b; split; intros H; auto; try discriminate; destruct H; auto; discriminate. Qed.
Lemma both_false (a b : bool) : (a && b)%bool = false <-> (a = true -> b = false).
Proof. destruct a, b; split; intros H; auto; try discriminate; exact (H eq_refl). Qed.
(** Exactly the documented combinations of options are accepted; otherwise nothing is read or written. *)
Theorem C66_options_validated : forall o,
  (validate o = true <-> documented_rules o) /\ (validate o = false -> forall w, main o w = (1, [])).
Proof.
  intros o. split; [|intros H w; unfold main; rewrite H; reflexivity].
  unfold validate, documented_rules. repeat rewrite guard. repeat rewrite both_false. repeat rewrite andb_true_iff.
  repeat rewrite orb_false_iff. repeat rewrite negb_false_iff. repeat rewrite negb_true_iff. repeat rewrite empty_true. repeat rewrite empty_false.
  repeat rewrite Z.ltb_ge. split; intros H.
  - destruct H as (H1 & H2 & H3 & H4 & H5 & H6 & [H7 H8] & H9 & H10 & _). repeat split; auto; try lia; apply H6; auto.
  - destruct H as (H1 & H2 & H3 & H4 & H5 & [H6 H7] & H8 & H9). repeat split; auto; try lia; try (intros; apply H1; auto); try apply H5; auto.
    intros [A B]. auto.
Qed.

(** The events of a complete run, and the run: exit code 0 exactly when everything was done, in this order; any other exit leaves a
    proper prefix.  So a .cpp is only replaced after the .tflite it was made from, and a .h after both. *)
Definition complete (o : options) (w : world) (fb source header : text) (size : Z) : list event :=
  map (fun f => Wrote (fst f) (snd f)) (fst (w_pipeline w)) ++
  [Wrote (o_output o) fb; PrintedArenaSize size; Wrote (o_output o ++ codes ".cpp") source; Wrote (o_output o ++ codes ".h") header].
Theorem C66_success : forall o w events, o_output o <> [] -> o_verify o = false -> main o w = (0, events) ->
  snd (w_pipeline w) = true /\
  exists fb source header size, w_export w = Some fb /\ w_tflmc w fb = Some (source, header, size) /\ events = complete o w fb source header size.
Proof.
  intros o w events NE V. unfold main, complete. destruct (negb (validate o)); [discriminate|]. destruct (negb (w_readable w)); [discriminate|]. rewrite V.
  destruct (snd (w_pipeline w)) eqn:P; cbn [negb]; [|discriminate]. destruct (o_output o) as [|c out]; [congruence|].
  destruct (w_export w) as [fb|]; [|discriminate]. destruct (negb (w_can_write w (c :: out))); [discriminate|].
  destruct (w_tflmc w fb) as [[[source header] size]|] eqn:T; [|discriminate].
  destruct (negb (w_can_write w ((c :: out) ++ codes ".cpp"))); [discriminate|].
  destruct (negb (w_can_write w ((c :: out) ++ codes ".h"))); [discriminate|].
  intros E. injection E as <-. split; [reflexivity|]. exists fb, source, header, size. split; [reflexivity|]. split; [exact T|].
  repeat rewrite <- app_assoc. reflexivity.
Qed.
Definition proper_prefix {A} (a b : list A) : Prop := exists c r, b = a ++ c :: r.
Theorem C66_failure_prefix : forall o w code events fb source header size,
  o_output o <> [] -> main o w = (code, events) -> code <> 0 ->
  (forall f, w_export w = Some f -> f = fb /\ forall r, w_tflmc w fb = Some r -> r = (source, header, size)) ->
  proper_prefix events (complete o w fb source header size).
Proof.
  intros o w code events fb source header size NE E NZ X. unfold main in E. unfold complete, proper_prefix.
  set (weights := map (fun f => Wrote (fst f) (snd f)) (fst (w_pipeline w))) in *.
  assert (P0 : exists c r, weights ++ [Wrote (o_output o) fb; PrintedArenaSize size; Wrote (o_output o ++ codes ".cpp") source; Wrote (o_output o ++ codes ".h") header] = [] ++ c :: r).
  { destruct weights as [|a l]; eexists; eexists; reflexivity. }
  destruct (negb (validate o)); [injection E as <- <-; exact P0|]. destruct (negb (w_readable w)); [injection E as <- <-; exact P0|].
  destruct (if o_verify o then _ else _); [injection E as <- <-; eexists; eexists; reflexivity|].
  destruct (o_output o) as [|c out]; [congruence|].
  destruct (w_export w) as [f|]; [|injection E as <- <-; eexists; eexists; reflexivity]. destruct (X f eq_refl) as [-> Y].
  destruct (negb (w_can_write w (c :: out))); [injection E as <- <-; eexists; eexists; reflexivity|].
  destruct (w_tflmc w fb) as [[[source' header'] size']|]; [|injection E as <- <-; eexists; eexists; rewrite <- app_assoc; reflexivity].
  specialize (Y _ eq_refl). injection Y as <- <- <-.
  destruct (negb (w_can_write w ((c :: out) ++ codes ".cpp"))); [injection E as <- <-; eexists; eexists; repeat rewrite <- app_assoc; reflexivity|].
  destruct (negb (w_can_write w ((c :: out) ++ codes ".h"))); [injection E as <- <-; eexists; eexists; repeat rewrite <- app_assoc; reflexivity|].
  injection E as <- <-. congruence.
Qed.
(** The exit code is 0 or 1, and 0 exactly when every stage that was asked for succeeded; without an output file only the files
    of the pipeline are written. *)
Theorem C66_exit_code : forall o w,
  (fst (main o w) = 0 \/ fst (main o w) = 1) /\
  (fst (main o w) = 0 <->
     documented_rules o /\ w_readable w = true /\
     (if o_verify o then w_diagnostics_verified w else snd (w_pipeline w)) = true /\
     (o_output o <> [] -> exists fb source header size, w_export w = Some fb /\ w_tflmc w fb = Some (source, header, size) /\
        w_can_write w (o_output o) = true /\ w_can_write w (o_output o ++ codes ".cpp") = true /\ w_can_write w (o_output o ++ codes ".h") = true)) /\
  (o_output o = [] -> fst (main o w) = 0 -> snd (main o w) = map (fun f => Wrote (fst f) (snd f)) (fst (w_pipeline w))).
Proof.
  intros o w. rewrite <- (proj1 (C66_options_validated o)). unfold main.
  destruct (validate o); cbn [negb]; [|cbn [fst]; intuition discriminate].
  destruct (w_readable w); cbn [negb]; [|cbn [fst]; intuition discriminate].
  replace (if o_verify o then negb (w_diagnostics_verified w) else negb (snd (w_pipeline w)))
    with (negb (if o_verify o then w_diagnostics_verified w else snd (w_pipeline w))) by (destruct (o_verify o); reflexivity).
  destruct (if o_verify o then w_diagnostics_verified w else snd (w_pipeline w)); cbn [negb]; [|cbn [fst]; intuition discriminate].
  destruct (o_output o) as [|c out]; [cbn [fst snd]; intuition congruence|].
  destruct (w_export w) as [fb|]; [|cbn [fst]; split; [auto|split; [split; [discriminate|intros (_ & _ & _ & H); destruct H as (fb & s & h & n & H & _); [discriminate|discriminate]]|discriminate]]].
  destruct (w_can_write w (c :: out)) eqn:W0; cbn [negb];
    [|cbn [fst]; split; [auto|split; [split; [discriminate|intros (_ & _ & _ & H); destruct H as (fb' & s & h & n & _ & _ & H & _); discriminate]|discriminate]]].
  destruct (w_tflmc w fb) as [[[source header] size]|] eqn:T;
    [|cbn [fst]; split; [auto|split; [split; [discriminate|intros (_ & _ & _ & H); destruct H as (fb' & s & h & n & H & H' & _); [discriminate|congruence]]|discriminate]]].
  destruct (w_can_write w ((c :: out) ++ codes ".cpp")) eqn:W1; cbn [negb];
    [|cbn [fst]; split; [auto|split; [split; [discriminate|intros (_ & _ & _ & H); destruct H as (fb' & s & h & n & _ & _ & _ & H & _); discriminate]|discriminate]]].
  destruct (w_can_write w ((c :: out) ++ codes ".h")) eqn:W2; cbn [negb];
    [|cbn [fst]; split; [auto|split; [split; [discriminate|intros (_ & _ & _ & H); destruct H as (fb' & s & h & n & _ & _ & _ & _ & H); discriminate]|discriminate]]].
  cbn [fst]. split; [auto|]. split; [|discriminate]. split; [|auto]. intros _. repeat (split; [reflexivity|]). intros _. exists fb, source, header, size. auto.
Qed.
Definition ex_options (verify : bool) : options :=
  mk_options false 4 (codes "m") false verify false false false [] false [] [] [] 5 true true.
Definition ex_world (pipeline_ok tflmc_ok : bool) : world :=
  mk_world true ([(codes "w", [7])], pipeline_ok) true (Some [1; 2]) (fun fb => if tflmc_ok then Some (fb, fb ++ fb, 64) else None) (fun _ => true).
Example C66_example :
  main (ex_options false) (ex_world true true) =
    (0, [Wrote (codes "w") [7]; Wrote (codes "m") [1; 2]; PrintedArenaSize 64; Wrote (codes "m.cpp") [1; 2]; Wrote (codes "m.h") [1; 2; 1; 2]]) /\
  main (ex_options false) (ex_world true false) = (1, [Wrote (codes "w") [7]; Wrote (codes "m") [1; 2]]).
Proof. split; reflexivity. Qed.
(** The outputs are not replaced together: after a failure of the TFLM compiler the new model and weights stand beside the old source
    (second part of the example).  With --verify-diagnostics a failed pipeline is not noticed and its half-transformed model is
    written with exit code 0. *)
Theorem C66_refuted_verify : exists o w events, o_verify o = true /\ snd (w_pipeline w) = false /\ main o w = (0, events) /\ In (Wrote (o_output o) [1; 2]) events.
Proof. exists (ex_options true), (ex_world false true). eexists. split; [reflexivity|]. split; [reflexivity|]. split; [reflexivity|]. right. left. reflexivity. Qed.

(** The thread count of the metadata is enough for every convolution and pooling operator (their thread count is the number of
    regions) and fits the five threads of a tile. *)
Theorem C66_enough_threads : forall o ds H W D subH subW strideH strideW rs,
  validate o = true -> (length ds <= Z.to_nat (required_thread_count o))%nat ->
  get_image_region_thread_splits ds (Z.to_nat (o_threads o)) H W D subH subW strideH strideW = Some rs ->
  Z.of_nat (length rs) <= required_thread_count o <= 5.
Proof.
  intros o ds H W D subH subW strideH strideW rs V L E.
  apply C66_options_validated in V. destruct V as (_ & _ & _ & _ & _ & T & _). unfold required_thread_count in *. split; [|lia].
  set (n := Z.to_nat (o_threads o)) in *. enough (length rs <= n)%nat by lia.
  unfold get_image_region_thread_splits in E.
  destruct ((H =? 1) && (W =? 1) && (subH =? 0) && (subW =? 0) && (strideH =? 1) && (strideW =? 1)).
  - injection E as <-. rewrite map_length. exact L.
  - destruct (choose_height (Z.of_nat n) (H / strideH) (W / strideW)).
    + pose proof (dim_splits_length n (H / strideH) strideH) as S. destruct (Z.odd H).
      * destruct (bump_last _) as [l|] eqn:B; [|discriminate]. injection E as <-. rewrite map_length, lay_out_length. apply bump_last_length in B. lia.
      * injection E as <-. rewrite map_length, lay_out_length. exact S.
    + pose proof (dim_splits_length n (W / strideW) strideW) as S. destruct (Z.odd W).
      * destruct (bump_last _) as [l|] eqn:B; [|discriminate]. injection E as <-. rewrite map_length, lay_out_length. apply bump_last_length in B. lia.
      * injection E as <-. rewrite map_length, lay_out_length. exact S.
Qed.

Print Assumptions C66_options_validated.
Print Assumptions C66_success.
Print Assumptions C66_exit_code.
Print Assumptions C66_failure_prefix.
Print Assumptions C66_enough_threads.
