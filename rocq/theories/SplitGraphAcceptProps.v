(** C95: which steps of the operation-splitting pass are always accepted by the verifier. *)
From Coq Require Import Permutation.
From Verif Require Import Base ConvSpec OpSplitModel OpSplitSpec SplitNetModel SplitNetSpec SplitGraphModel SplitGraphSpec SplitGraphProofs SplitGraphProofs2 SplitGraphProofs6 SplitGraphCheck SplitGraphProps SplitGraphAccept4.
Local Open Scope Z_scope.

(** A split into at most as many parts as there are rows, a slice raised over a band that fits or combined with one that stands
    before it, a fake slice raised with all its bands recorded, an unused operation erased: the verifier accepts. *)
Theorem C95_accepted {P : Type} (z : P) (f g : graph P) : verified f -> within_limits f -> sound_step z f g -> verified g.
Proof. intros VF WL ST. exact (sound_accept z z f g VF WL ST). Qed.
(** So any sequence of such steps keeps the results. *)
Theorem C95_sound_pass {P : Type} (dz z : P) (f g : graph P) : verified f -> within_limits f -> sound_run z f g ->
  verified g /\ within_limits g /\ forall imgs, Forall2 same_value (results dz f imgs) (results dz g imgs).
Proof. intros VF WL RUN. exact (sound_run_same dz z f g RUN VF WL). Qed.

(** ** A concrete run *)
Section Sound.
Context {P : Type}.
Definition fitsb (f : graph P) (d : node P) (b n : Z) : bool :=
  match n_op d, n_args d with
  | OConv true fh _ sH _ _ _, [a] =>
      let h := g_h (type_of f a) in let fh := Z.of_nat fh in
      ((b =? 0) || (same_before h fh 1 sH <=? b * sH)) &&
      ((negb (b =? 0) && (b + n =? g_h (n_ty d))) || ((b + n - 1) * sH + fh - same_before h fh 1 sH <=? h))
  | OPad top _ _ _ _, [a] =>
      let h := g_h (type_of f a) in
      ((b =? 0) || (top <=? b)) && ((negb (b =? 0) && (b + n =? g_h (n_ty d))) || (b + n <=? top + h)) && (top <? b + n) && (b <? top + h)
  | _, _ => true
  end.
Lemma fitsb_ok f d b n : fitsb f d b n = true -> fits f d b n.
Proof.
  unfold fitsb, fits. destruct (n_op d) as [[|] fh fw sH sW G z0|top bottom lft rgt z0| | | | | | | | ]; auto; destruct (n_args d) as [|a [|]]; auto.
  - rewrite andb_true_iff, !orb_true_iff, andb_true_iff, negb_true_iff. intros K _. lia.
  - rewrite !andb_true_iff, !orb_true_iff, andb_true_iff, negb_true_iff. lia.
Qed.
Fixpoint precedesb (body : list (node P)) (c s : nat) : bool :=
  match body with
  | [] => false
  | m :: tl => if Nat.eqb (n_dst m) c then existsb (fun m' => Nat.eqb (n_dst m') s) tl else precedesb tl c s
  end.
Lemma precedesb_ok (f : graph P) c s : verified f -> In c (g_body f) -> In s (g_body f) -> precedesb (g_body f) (n_dst c) (n_dst s) = true -> precedes f c s.
Proof.
  intros VF IC IS. unfold precedes.
  assert (U : forall m m', In m (g_body f) -> In m' (g_body f) -> n_dst m = n_dst m' -> m = m').
  { intros m m' A B E. assert (X := verified_def f m VF A). rewrite E, (verified_def f m' VF B) in X. congruence. }
  assert (K : forall l, incl l (g_body f) -> precedesb l (n_dst c) (n_dst s) = true -> exists l1 l2 l3, l = l1 ++ c :: l2 ++ s :: l3).
  { induction l as [|m l IH]; intros IL K; [discriminate|]. cbn [precedesb] in K. destruct (Nat.eqb_spec (n_dst m) (n_dst c)) as [E|NE].
    - apply existsb_exists in K. destruct K as (m' & I & E'). apply Nat.eqb_eq in E'. rewrite (U m c) by (auto; apply IL; left; auto).
      rewrite (U m' s) in I by (auto; apply IL; right; auto). apply in_split in I. destruct I as (l2 & l3 & ->). exists [], l2, l3. reflexivity.
    - destruct IH as (l1 & l2 & l3 & ->); [intros y Hy; apply IL; right; auto|auto|]. exists (m :: l1), l2, l3. reflexivity. }
  apply K. apply incl_refl.
Qed.
Definition soundb (f : graph P) (c : choice) : bool :=
  match c with
  | CSplit x => match def_of f x with
                | Some d => match n_num d with Some num => (1 <=? num) && (num <=? g_h (n_ty d)) | None => false end
                | None => false end
  | CSlice x pick =>
      match def_of f x with
      | Some s =>
        match n_op s, n_args s with
        | OSlice b n, [y] =>
            match def_of f y with
            | Some d => match n_op d, containing f s b n y with
                        | OPad _ _ _ _ _, _ | _, [] => fitsb f d b n
                        | _, cands => match nth_error cands pick with Some c => precedesb (g_body f) (n_dst c) (n_dst s) | None => true end
                        end
            | None => true
            end
        | _, _ => true
        end
      | None => false end
  | CFake x => match def_of f x with Some k => negb (mean_fakeb f k) | None => false end
  | CDead _ => true
  end.
Lemma soundb_step z f c g : verified f -> step_of z f c = Rewritten g -> soundb f c = true -> sound_step z f g.
Proof.
  intros VF. destruct c as [x|x pick|x|x]; cbn [step_of soundb]; destruct (def_of f x) as [d|] eqn:D; try discriminate; destruct (def_of_in f x d D) as [I E]; intros EG K.
  - destruct (n_num d) as [num|] eqn:NUM; [|discriminate]. apply (SoundSplit z f g d num); auto. lia.
  - apply (SoundSlice z f g d pick); auto. intros b n y d' OS AS DY. rewrite OS, AS, DY in K.
    assert (COMB : forall cands, containing f d b n y = cands -> match nth_error cands pick with Some c => precedesb (g_body f) (n_dst c) (n_dst d) | None => true end = true ->
      forall c, nth_error cands pick = Some c -> precedes f c d).
    { intros cands EC EK c NT. rewrite NT in EK. apply precedesb_ok; auto. apply nth_error_In in NT. rewrite <- EC in NT. unfold containing, users in NT. apply filter_In in NT. destruct NT as [NT _]. apply filter_In in NT. tauto. }
    destruct (containing f d b n y) as [|c0 cs] eqn:CT; destruct (n_op d'); auto using fitsb_ok; apply (COMB (c0 :: cs)); auto.
  - apply negb_true_iff in K. apply (SoundFake z f g d); auto; unfold mean_covered, mean_bands; intros bands a d' m a' OK AK DA OD AD; unfold mean_fakeb in K; rewrite OK, AK, DA, OD in K; discriminate.
  - destruct (unused f x) eqn:U; [|discriminate]. apply (SoundDead z f g d); auto; rewrite E; auto. injection EG as <-. auto.
Qed.
Fixpoint sound_play (z : P) (f : graph P) (cs : list choice) : option (graph P) :=
  match cs with
  | [] => Some f
  | c :: tl => match step_of z f c with Rewritten g => if soundb f c then sound_play z g tl else None | _ => None end
  end.
Lemma sound_play_run z cs : forall f g, verified f -> within_limits f -> sound_play z f cs = Some g -> sound_run z f g.
Proof.
  induction cs as [|c tl IH]; intros f g VF WL E; cbn [sound_play] in E; [injection E as <-; constructor|].
  destruct (step_of z f c) as [|h|] eqn:ES; try discriminate. destruct (soundb f c) eqn:K; [|discriminate].
  assert (ST := soundb_step z f c h VF ES K). eapply SoundStep; [exact ST|]. apply IH; auto.
  - apply (C95_accepted z f); auto.
  - apply (sound_same z z f h VF WL ST).
Qed.
End Sound.

(** A SAME convolution, an Add and a VALID convolution in two bands of 2 and 2 rows; the input has 6 rows. *)
Definition same_add_valid : graph Z := Graph [(0%nat, GTy 6 3 1); (1%nat, GTy 6 3 1)]
  [Node 2 (OConv true 3 3 1 1 total 0) [0%nat] (GTy 6 3 1) true false (Some 2);
   Node 3 (OBin Z.add) [2%nat; 1%nat] (GTy 6 3 1) true false (Some 2);
   Node 4 (OConv false 3 3 1 1 total 0) [3%nat] (GTy 4 1 1) false true (Some 2)] [4%nat].
Definition same_add_valid_run := [CSplit 4; CSlice 6 0; CSlice 7 0; CDead 5; CSlice 8 0; CSlice 9 0; CDead 3; CSlice 10 0; CSlice 12 0; CDead 2].
Example C95_instance_sound : exists g, verified same_add_valid /\ within_limits same_add_valid /\ sound_run 0 same_add_valid g /\
  (forall h, ~ split_phase 0 g h /\ ~ raise_phase 0 g h) /\ length (g_body g) = 13%nat.
Proof.
  assert (VF : verified same_add_valid) by (apply verifiedb_ok; vm_compute; reflexivity).
  assert (WL : within_limits same_add_valid) by (apply limits_ok; vm_compute; reflexivity).
  destruct (sound_play 0 same_add_valid same_add_valid_run) as [g|] eqn:E; [|vm_compute in E; discriminate]. exists g.
  split; [auto|]. split; [auto|]. split; [apply (sound_play_run 0 _ _ _ VF WL E)|].
  assert (Q : match sound_play 0 same_add_valid same_add_valid_run with Some g => (donb 0 g, length (g_body g)) | None => (false, O) end = (true, 13%nat)) by (vm_compute; reflexivity).
  rewrite E in Q. injection Q as Q1 Q2. split; [apply donb_ok; auto|auto].
Qed.
Print Assumptions C95_accepted.
Print Assumptions C95_sound_pass.
Print Assumptions C95_instance_sound.
