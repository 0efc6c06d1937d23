(** C95: the operation-splitting pass on whole functions. *)
From Coq Require Import QArith Qcanon Permutation.
From Verif Require Import Base ConvSpec OpSplitModel OpSplitSpec SplitNetModel SplitNetSpec SplitGraphModel SplitGraphSpec SplitGraphProofs SplitGraphProofs5 SplitGraphProofs6 SplitGraphCheck.
Local Open Scope Z_scope.

(** Any interleaving of the patterns, as long as the verifier accepts what they make, ends with a function that has the types
    and the results of the first one. *)
Theorem C95_pass {P : Type} (dz z : P) (f g : graph P) : verified f -> within_limits f -> pass_run z f g ->
  verified g /\ forall imgs, Forall2 same_value (results dz f imgs) (results dz g imgs).
Proof. intros VF WL RUN. exact (run_same dz z f g RUN VF WL). Qed.

(** Each step also keeps the condition on the selected operations, and the type of every value that stays. *)
Theorem C95_step {P : Type} (dz z : P) (f g : graph P) : verified f -> within_limits f -> split_phase z f g \/ raise_phase z f g -> verified g ->
  (forall k, In k (g_body f) -> rewrite_fake z f k = Rewritten g -> mean_covered f k) ->
  within_limits g /\ (forall imgs, Forall2 same_value (results dz f imgs) (results dz g imgs)) /\
  forall x, In x (map fst (g_params f) ++ map n_dst (g_body f)) -> In x (map fst (g_params g) ++ map n_dst (g_body g)) -> type_of g x = type_of f x.
Proof. intros VF WL ST VG MC. destruct (step_same dz z f g VF WL ST VG MC) as [[A B] C]. auto. Qed.

(** ** Concrete runs *)
Definition total (w : list (list Z)) : Z := fold_right Z.add 0 (map (fold_right Z.add 0) w).
Definition two_convs : graph Z := Graph [(0%nat, GTy 10 4 1)]
  [Node 1 (OConv false 3 3 1 1 total 0) [0%nat] (GTy 8 2 1) true false (Some 2);
   Node 2 (OConv false 3 1 1 1 total 0) [1%nat] (GTy 6 2 1) false true (Some 2)] [2%nat].
Definition whole {P} (f : graph P) : bool :=
  existsb (fun n => match n_op n with OConv _ _ _ _ _ _ _ => n_label n && (g_h (n_ty n) =? g_h (type_of f (hd 0%nat (g_rets f)))) | _ => false end) (g_body f).
Definition fakes {P} (f : graph P) : nat := length (filter (fun n => match n_op n with OFake _ => true | _ => false end) (g_body f)).

(** Two convolutions in two bands: 3 of 6 rows from 7 of 10 rows each. *)
Definition two_convs_split := play 0 two_convs [CSplit 2; CSlice 4 0; CSlice 5 0; CDead 3; CSlice 6 0; CSlice 7 0; CDead 1].
Example C95_instance : exists g, pass_run 0 two_convs g /\ verified two_convs /\ within_limits two_convs /\
  (forall h, ~ split_phase 0 g h /\ ~ raise_phase 0 g h) /\
  map (fun n => (n_args n, g_h (n_ty n))) (g_body g) =
    [([0%nat], 7); ([8%nat], 5); ([6%nat], 3); ([0%nat], 7); ([9%nat], 5); ([7%nat], 3); ([4%nat; 5%nat], 6)].
Proof.
  destruct two_convs_split as [g|] eqn:E; [|vm_compute in E; discriminate]. exists g.
  assert (D : donb 0 g = true /\ map (fun n => (n_args n, g_h (n_ty n))) (g_body g) =
    [([0%nat], 7); ([8%nat], 5); ([6%nat], 3); ([0%nat], 7); ([9%nat], 5); ([7%nat], 3); ([4%nat; 5%nat], 6)]).
  { assert (Q : match two_convs_split with Some g => (donb 0 g, map (fun n => (n_args n, g_h (n_ty n))) (g_body g)) | None => (false, []) end =
      (true, [([0%nat], 7); ([8%nat], 5); ([6%nat], 3); ([0%nat], 7); ([9%nat], 5); ([7%nat], 3); ([4%nat; 5%nat], 6)])) by (vm_compute; reflexivity).
    rewrite E in Q. injection Q as Q1 Q2. auto. }
  destruct D as [D1 D2]. split; [apply (play_run 0 _ _ _ E)|]. split; [apply verifiedb_ok; vm_compute; reflexivity|].
  split; [apply limits_ok; vm_compute; reflexivity|]. split; [apply donb_ok; auto|auto].
Qed.

(** A mean that is exact. *)
Local Open Scope Qc_scope.
Definition qsum (l : list Qc) : Qc := fold_right Qcplus 0 l.
Definition qmean (l : list Qc) : Qc := qsum l / Q2Qc (inject_Z (Z.of_nat (length l))).
Local Close Scope Qc_scope.
Lemma qsum_cons q l : qsum (q :: l) = (q + qsum l)%Qc.
Proof. reflexivity. Qed.
Lemma qsum_app l l' : qsum (l ++ l') = (qsum l + qsum l')%Qc.
Proof. induction l as [|q l IH]; [symmetry; apply Qcplus_0_l|]. cbn [app]. rewrite !qsum_cons, IH. ring. Qed.
Lemma q_of_nat_add a b : Q2Qc (inject_Z (Z.of_nat (a + b))) = (Q2Qc (inject_Z (Z.of_nat a)) + Q2Qc (inject_Z (Z.of_nat b)))%Qc.
Proof. apply Qc_is_canon. cbn [this Q2Qc Qcplus]. rewrite !Qred_correct. rewrite Nat2Z.inj_add, inject_Z_plus. reflexivity. Qed.
Lemma q_of_nat_pos a : (1 <= a)%nat -> Q2Qc (inject_Z (Z.of_nat a)) <> 0%Qc.
Proof.
  intros L E. apply (f_equal this) in E. assert (Q : Qeq (inject_Z (Z.of_nat a)) 0) by (rewrite <- (Qred_correct (inject_Z (Z.of_nat a))); change (Qeq (this (Q2Qc (inject_Z (Z.of_nat a)))) 0); rewrite E; reflexivity).
  unfold Qeq in Q. cbn in Q. lia.
Qed.
Lemma qmean_exact : exact_mean qmean.
Proof.
  split.
  - intros l l' PM. unfold qmean. rewrite (Permutation_length PM). f_equal. induction PM; auto.
    + rewrite !qsum_cons, IHPM. reflexivity.
    + rewrite !qsum_cons. ring.
    + congruence.
  - intros n parts N1 NE FL. unfold qmean at 1 3. rewrite map_length.
    assert (K : (qsum (map qmean parts) * Q2Qc (inject_Z (Z.of_nat n)))%Qc = qsum (concat parts)).
    { clear NE. induction FL as [|l parts EL FL IH]; [apply Qcmult_0_l|]. cbn [map concat]. rewrite qsum_cons, qsum_app, <- IH. unfold qmean at 1. rewrite EL.
      field. apply q_of_nat_pos. auto. }
    assert (LC : Q2Qc (inject_Z (Z.of_nat (length (concat parts)))) = (Q2Qc (inject_Z (Z.of_nat n)) * Q2Qc (inject_Z (Z.of_nat (length parts))))%Qc).
    { clear NE K. induction FL as [|l parts EL FL IH]; [cbn [concat length]; change (Q2Qc (inject_Z (Z.of_nat 0))) with 0%Qc; rewrite Qcmult_0_r; reflexivity|]. cbn [concat length]. rewrite app_length, EL, q_of_nat_add, IH. change (S (length parts)) with (1 + length parts)%nat. rewrite (q_of_nat_add 1).
      change (Q2Qc (inject_Z (Z.of_nat 1))) with 1%Qc. ring. }
    rewrite LC, <- K. field. split; apply q_of_nat_pos; auto. destruct parts; [congruence|cbn; lia].
Qed.
(** A tensor scaled by its mean, in two bands: the fake slice records both and becomes two means. *)
Definition scaled {P} (m : list P -> P) (mul : P -> P -> P) : graph P := Graph [(0%nat, GTy 4 1 1)]
  [Node 1 (OMean m) [0%nat] (GTy 1 1 1) true false (Some 2);
   Node 2 (OBin mul) [0%nat; 1%nat] (GTy 4 1 1) false true (Some 2)] [2%nat].
Definition at_step {P} (z : P) (f : graph P) (c : choice) : graph P := match step_of z f c with Rewritten g => g | _ => f end.
Definition by_hand {P} (z : P) (cs : list choice) (f : graph P) : graph P := fold_left (at_step z) cs f.
Lemma run_trans {P} (z : P) f g h : pass_run z f g -> pass_run z g h -> pass_run z f h.
Proof. induction 1; intros R; auto. eapply PassStep; eauto. Qed.
Lemma scaled_run {P} (z : P) m mul : exact_mean m ->
  pass_run z (scaled m mul) (by_hand z [CSplit 2; CSlice 4 0; CSlice 5 0; CDead 3; CFake 7] (scaled m mul)) /\
  verified (scaled m mul) /\ within_limits (scaled m mul) /\
  fakes (by_hand z [CSplit 2; CSlice 4 0; CSlice 5 0; CDead 3] (scaled m mul)) = 1%nat /\
  fakes (by_hand z [CSplit 2; CSlice 4 0; CSlice 5 0; CDead 3; CFake 7] (scaled m mul)) = 0%nat.
Proof.
  intros EM. split; [|split; [apply verifiedb_ok; vm_compute; reflexivity|split; [apply limits_ok; vm_compute; reflexivity|split; vm_compute; reflexivity]]].
  apply (run_trans _ _ (by_hand z [CSplit 2; CSlice 4 0; CSlice 5 0; CDead 3] (scaled m mul))).
  - apply (play_run _ [CSplit 2; CSlice 4 0; CSlice 5 0; CDead 3]). vm_compute. reflexivity.
  - apply (PassStep _ _ (by_hand z [CSplit 2; CSlice 4 0; CSlice 5 0; CDead 3; CFake 7] (scaled m mul))); [|apply verifiedb_ok; vm_compute; reflexivity| |constructor].
    + apply (step_of_phase _ _ (CFake 7)). vm_compute. reflexivity.
    + intros k IK _ bands a d m0 a' OK AK DA OD AD.
      assert (KK : k = Node 7 (OFake [(0, GTy 2 1 1); (2, GTy 2 1 1)]) [1%nat] (GTy 1 1 1) false false None).
      { vm_compute in IK. repeat (destruct IK as [<-|IK]; [try discriminate OK; reflexivity|]). destruct IK. }
      subst k. injection OK as <-. injection AK as <-. vm_compute in DA. injection DA as <-. cbn [n_op n_args] in OD, AD. injection OD as <-. injection AD as <-.
      split; [exact EM|]. exists [(0, GTy 2 1 1); (2, GTy 2 1 1)]. split; [apply Permutation_refl|].
      split; [vm_compute; repeat split; discriminate|]. repeat constructor.
Qed.
Example C95_instance_mean : exists g, pass_run 0%Qc (scaled qmean Qcmult) g /\ verified (scaled qmean Qcmult) /\ within_limits (scaled qmean Qcmult) /\ fakes g = 0%nat.
Proof. destruct (scaled_run 0%Qc qmean Qcmult qmean_exact) as (A & B & C & _ & D). eexists. eauto. Qed.

(** ** What goes wrong *)
(** A broadcast operand on the left: the pass uses an operation it has erased. *)
Definition gate (on_left : bool) : graph Z := Graph [(0%nat, GTy 4 1 1); (1%nat, GTy 1 1 1)]
  [Node 2 (OBin Z.add) (if on_left then [1%nat; 0%nat] else [0%nat; 1%nat]) (GTy 4 1 1) false true (Some 2)] [2%nat].
Theorem C95_refuted_left : exists (f g : graph Z) s, verified f /\ within_limits f /\ pass_run 0 f g /\ In s (g_body g) /\
  forall pick, rewrite_slice g s pick = Undefined.
Proof.
  exists (gate true), (by_hand 0 [CSplit 2] (gate true)), (Node 4 (OSlice 0 2) [3%nat] (GTy 2 1 1) true false None).
  split; [apply verifiedb_ok; vm_compute; reflexivity|]. split; [apply limits_ok; vm_compute; reflexivity|].
  split; [apply (play_run _ [CSplit 2]); vm_compute; reflexivity|]. split; [vm_compute; tauto|]. intros pick. vm_compute. reflexivity.
Qed.
(** The broadcast operand is an argument of the function: a null operation is asked for its attributes. *)
Theorem C95_refuted_argument : exists (f g : graph Z) k, verified f /\ within_limits f /\ pass_run 0 f g /\ In k (g_body g) /\ rewrite_fake 0 g k = Undefined.
Proof.
  exists (gate false), (by_hand 0 [CSplit 2; CSlice 4 0] (gate false)), (Node 7 (OFake [(0, GTy 2 1 1)]) [1%nat] (GTy 1 1 1) false false None).
  split; [apply verifiedb_ok; vm_compute; reflexivity|]. split; [apply limits_ok; vm_compute; reflexivity|].
  split; [apply (play_run _ [CSplit 2; CSlice 4 0]); vm_compute; reflexivity|]. split; [vm_compute; tauto|]. vm_compute. reflexivity.
Qed.
(** The broadcast operand is computed by an operation outside the split range: the pass ends with a fake slice in the function. *)
Definition plus_other : graph Z := Graph [(0%nat, GTy 4 1 1)]
  [Node 1 (OOther (fun l _ _ => total l)) [0%nat] (GTy 1 1 1) false false None;
   Node 2 (OBin Z.add) [0%nat; 1%nat] (GTy 4 1 1) false true (Some 2)] [2%nat].
Theorem C95_refuted_leftover : exists f g : graph Z, verified f /\ within_limits f /\ fakes f = 0%nat /\ pass_run 0 f g /\ fakes g = 1%nat /\
  forall h, ~ split_phase 0 g h /\ ~ raise_phase 0 g h.
Proof.
  exists plus_other, (by_hand 0 [CSplit 2; CSlice 4 0; CSlice 5 0; CDead 3] plus_other).
  split; [apply verifiedb_ok; vm_compute; reflexivity|]. split; [apply limits_ok; vm_compute; reflexivity|]. split; [reflexivity|].
  split; [apply (play_run _ [CSplit 2; CSlice 4 0; CSlice 5 0; CDead 3]); vm_compute; reflexivity|]. split; [vm_compute; reflexivity|].
  apply donb_ok. vm_compute. reflexivity.
Qed.
(** Bands contained in one another: in one order the pass stops with a labelled convolution on the whole tensor, in another it does
    not, in a third it makes a slice that uses a value defined after it, which the verifier refuses. *)
Definition three_convs : graph Z := Graph [(0%nat, GTy 6 1 1)]
  [Node 1 (OConv true 3 1 1 1 total 0) [0%nat] (GTy 6 1 1) true false (Some 6);
   Node 2 (OConv true 3 1 1 1 total 0) [1%nat] (GTy 6 1 1) true false (Some 6);
   Node 3 (OConv true 3 1 1 1 total 0) [2%nat] (GTy 6 1 1) false true (Some 6)] [3%nat].
Definition three_start := [CSplit 3; CSlice 5 0; CSlice 6 0; CSlice 7 0; CSlice 8 0; CSlice 9 0; CSlice 10 0; CDead 4].
Definition three_stuck := three_start ++ [CSlice 21 0; CSlice 13 0; CSlice 11 0; CSlice 15 0; CSlice 17 0; CSlice 19 0; CDead 2].
Definition three_all := three_start ++ [CSlice 13 0; CSlice 11 0; CSlice 15 0; CSlice 17 0; CSlice 19 0; CSlice 21 0; CDead 2;
  CSlice 27 0; CSlice 29 0; CSlice 23 0; CSlice 31 0; CSlice 25 0; CSlice 33 0; CDead 1].
Theorem C95_refuted_order : exists f g h : graph Z, verified f /\ within_limits f /\ pass_run 0 f g /\ pass_run 0 f h /\
  (forall k, ~ split_phase 0 g k /\ ~ raise_phase 0 g k) /\ (forall k, ~ split_phase 0 h k /\ ~ raise_phase 0 h k) /\
  whole g = true /\ whole h = false.
Proof.
  exists three_convs, (by_hand 0 three_stuck three_convs), (by_hand 0 three_all three_convs).
  split; [apply verifiedb_ok; vm_compute; reflexivity|]. split; [apply limits_ok; vm_compute; reflexivity|].
  split; [apply (play_run _ three_stuck); vm_compute; reflexivity|]. split; [apply (play_run _ three_all); vm_compute; reflexivity|].
  split; [apply donb_ok; vm_compute; reflexivity|]. split; [apply donb_ok; vm_compute; reflexivity|]. split; vm_compute; reflexivity.
Qed.
Theorem C95_refuted_dominance : exists f g h : graph Z, verified f /\ within_limits f /\ pass_run 0 f g /\ raise_phase 0 g h /\ ~ verified h.
Proof.
  exists three_convs, (by_hand 0 three_start three_convs), (by_hand 0 (three_start ++ [CSlice 11 0]) three_convs).
  split; [apply verifiedb_ok; vm_compute; reflexivity|]. split; [apply limits_ok; vm_compute; reflexivity|].
  split; [apply (play_run _ three_start); vm_compute; reflexivity|]. split.
  - apply (RaiseSlice 0 _ _ (Node 11 (OSlice 0 2) [2%nat] (GTy 2 1 1) true false None) 0); [vm_compute; tauto|]. vm_compute. reflexivity.
  - intros (_ & _ & W & _). apply orderb_ok in W. vm_compute in W. discriminate.
Qed.
(** A fake slice raised above a mean before all bands are recorded: the mean of the first band only. *)
Definition average (l : list Z) : Z := fold_right Z.add 0 l / Z.of_nat (length l).
Theorem C95_refuted_mean : exists f g h : graph Z, verified f /\ within_limits f /\ pass_run 0 f g /\ raise_phase 0 g h /\ verified h /\
  exists imgs, ~ Forall2 same_value (results 0 f imgs) (results 0 h imgs).
Proof.
  exists (scaled average Z.mul), (by_hand 0 [CSplit 2; CSlice 4 0] (scaled average Z.mul)), (by_hand 0 [CSplit 2; CSlice 4 0; CFake 7] (scaled average Z.mul)).
  split; [apply verifiedb_ok; vm_compute; reflexivity|]. split; [apply limits_ok; vm_compute; reflexivity|].
  split; [apply (play_run _ [CSplit 2; CSlice 4 0]); vm_compute; reflexivity|]. split.
  { apply (RaiseFake 0 _ _ (Node 7 (OFake [(0, GTy 2 1 1)]) [1%nat] (GTy 1 1 1) false false None)); [vm_compute; tauto|]. vm_compute. reflexivity. }
  split; [apply verifiedb_ok; vm_compute; reflexivity|].
  exists (fun _ y _ => if y <? 2 then 1 else 5). intros K.
  assert (E : map (fun v : value Z => snd v 0 0) (results 0 (scaled average Z.mul) (fun _ y _ => if y <? 2 then 1 else 5)) =
              map (fun v : value Z => snd v 0 0) (results 0 (by_hand 0 [CSplit 2; CSlice 4 0; CFake 7] (scaled average Z.mul)) (fun _ y _ => if y <? 2 then 1 else 5))).
  { assert (T : Forall (fun v => 0 < g_h (fst v) /\ 0 < g_w (fst v)) (results 0 (scaled average Z.mul) (fun _ y _ => if y <? 2 then 1 else 5))) by (repeat constructor).
    revert T. induction K as [|v v' l l' [_ KV] K IH]; intros T; [reflexivity|]. inversion T; subst. cbn [map]. rewrite IH by auto. rewrite KV by lia. reflexivity. }
  vm_compute in E. discriminate.
Qed.
Print Assumptions C95_pass.
Print Assumptions C95_step.
Print Assumptions C95_instance.
Print Assumptions C95_instance_mean.
Print Assumptions C95_refuted_left.
Print Assumptions C95_refuted_argument.
Print Assumptions C95_refuted_leftover.
Print Assumptions C95_refuted_order.
Print Assumptions C95_refuted_dominance.
Print Assumptions C95_refuted_mean.
