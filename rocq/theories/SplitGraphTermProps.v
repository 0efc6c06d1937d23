(** C96: operation splitting ends, whatever operations the driver picks. *)
From Coq Require Import Permutation.
From Verif Require Import Base ConvSpec OpSplitModel OpSplitSpec SplitNetModel SplitNetSpec SplitGraphModel SplitGraphSpec SplitGraphProofs SplitGraphProofs2 SplitGraphProofs6 SplitGraphCheck SplitGraphAccept SplitGraphAccept2 SplitGraphAccept3 SplitGraphAccept4 SplitGraphAcceptProps SplitGraphTerm SplitGraphTerm2 SplitGraphTerm3 SplitGraphTerm4.
Local Open Scope nat_scope.

Definition pass_step {P} (z : P) (f g : graph P) : Prop := (split_phase z f g \/ raise_phase z f g) /\ verified g.
(** Runs of the second phase with the number of times a slice or a fake slice was rewritten. *)
Inductive raise_run {P} (z : P) : nat -> graph P -> graph P -> Prop :=
| RaiseEnd : forall f, raise_run z 0 f f
| RaiseMoveSlice : forall n f g h s pick, In s (g_body f) -> rewrite_slice f s pick = Rewritten g -> verified g -> raise_run z n g h -> raise_run z (S n) f h
| RaiseMoveFake : forall n f g h k, In k (g_body f) -> rewrite_fake z f k = Rewritten g -> verified g -> raise_run z n g h -> raise_run z (S n) f h
| RaiseErase : forall n f g h d, In d (g_body f) -> unused f (n_dst d) = true -> g = replace f (n_dst d) [] -> verified g -> raise_run z n g h -> raise_run z n f h.

Lemma no_sequence {A} (R : A -> A -> Prop) a : Acc (fun b a => R a b) a -> forall seq : nat -> A, seq 0 = a -> ~ forall i, R (seq i) (seq (S i)).
Proof.
  induction 1 as [a _ IH]. intros seq E K. apply (IH (seq 1)) with (seq := fun i => seq (S i)); auto. rewrite <- E. apply K.
Qed.
Lemma step_decreases {P} (z : P) (f g : graph P) : verified f -> pass_step z f g ->
  verified g /\ (starts g < starts f \/ (starts g <= starts f /\ (pending g < pending f \/ (pending g <= pending f /\ length (g_body g) < length (g_body f))))).
Proof.
  intros VF [[ST|ST] VG]; split; auto.
  - inversion ST as [f0 g0 d I E|f0 d I U]; subst.
    + left. destruct (split_starts z f g VF ST) as [L|[L LL]]; auto. exfalso.
      unfold split_node in E. destruct (_ && _); [|discriminate]. destruct (n_num d); [|discriminate]. destruct (op_split _ _) as [bands|]; [|discriminate].
      apply (f_equal (fun q => match q with Rewritten w => w | _ => f end)) in E. rewrite <- E in LL.
      match type of LL with context [replace f (n_dst d) ?l] => assert (Q := length_replace f d l (verified_nodup f VF) I); cbn [length] in Q; rewrite app_length in Q; cbn [length] in Q end. lia.
    + right. split; [apply starts_replace; intros m []|]. right. apply dead_pending; auto.
  - right. split; [eapply raise_starts; eauto|]. apply (raise_pending z); auto.
Qed.
(** No infinite sequence of accepted steps of either phase, in any order. *)
Theorem C96_pass_ends {P : Type} (z : P) (f : graph P) : verified f -> Acc (fun h g => verified g /\ pass_step z g h) f.
Proof. intros VF. apply (lex3_acc starts pending (fun g => length (g_body g)) (pass_step z) verified); auto. intros a b VA ST. apply (step_decreases z); auto. Qed.
Theorem C96_no_loop {P : Type} (z : P) (seq : nat -> graph P) : verified (seq 0) -> ~ forall i, (split_phase z (seq i) (seq (S i)) \/ raise_phase z (seq i) (seq (S i))) /\ verified (seq (S i)).
Proof.
  intros V0 K. apply (no_sequence (fun a b => verified a /\ pass_step z a b) (seq 0) (C96_pass_ends z (seq 0) V0) seq eq_refl).
  intros i. split; [|apply K]. destruct i; auto. apply K.
Qed.
(** With sound steps nothing needs to be assumed about the functions on the way. *)
Theorem C96_sound_no_loop {P : Type} (z : P) (seq : nat -> graph P) : verified (seq 0) -> within_limits (seq 0) -> ~ forall i, sound_step z (seq i) (seq (S i)).
Proof.
  intros V0 W0 K. assert (A : forall i, verified (seq i) /\ within_limits (seq i)).
  { induction i as [|i [VI WI]]; auto. split; [apply (C95_accepted z (seq i)); auto|]. apply (sound_same z z (seq i)); auto. }
  apply (C96_no_loop z seq V0). intros i. split; [|apply A]. destruct (K i) as [d num I NUM L E|s pick I E SS|k I E MC MB|d I U E].
  - left. econstructor; eauto.
  - right. econstructor; eauto.
  - right. eapply RaiseFake; eauto.
  - right. rewrite E. apply RaiseDead; auto.
Qed.
(** The number of slices and fake slices that can be rewritten is bounded, however the driver goes on. *)
Lemma raise_bound {P : Type} (z : P) n (f g : graph P) : verified f -> raise_run z n f g -> n + pending g <= pending f.
Proof.
  intros VF RUN. induction RUN as [f|n f g h s pick I E VG RUN IH|n f g h k I E VG RUN IH|n f g h d I U E VG RUN IH]; [lia| | | ]; specialize (IH VG).
  - assert (L := slice_pending f g s pick VF I E VG). lia.
  - assert (L := fake_pending z f k g VF I E VG). lia.
  - subst g. destruct (dead_pending f d VF I VG). lia.
Qed.
Theorem C96_rewrites_bounded {P : Type} (z : P) (f : graph P) : verified f -> exists bound, forall n g, raise_run z n f g -> n <= bound.
Proof. intros VF. exists (pending f). intros n g RUN. assert (L := raise_bound z n f g VF RUN). lia. Qed.

(** ** Concrete cases *)
(** The function of C95_instance_sound once its last convolution is split: slices can be moved 6 times, and the bound of C96_rewrites_bounded is 6. *)
Definition same_add_valid_split : graph Z := match sound_play 0%Z same_add_valid [CSplit 4] with Some g => g | None => same_add_valid end.
Definition raise_choices := [CSlice 6 0; CSlice 7 0; CDead 5; CSlice 8 0; CSlice 9 0; CDead 3; CSlice 10 0; CSlice 12 0; CDead 2].
Definition moves (cs : list choice) : nat := length (filter (fun c => match c with CSlice _ _ | CFake _ => true | _ => false end) cs).
Lemma play_raise {P} (z : P) cs : Forall (fun c => match c with CSplit _ => False | _ => True end) cs -> forall f g, verified f -> within_limits f -> sound_play z f cs = Some g -> raise_run z (moves cs) f g.
Proof.
  induction 1 as [|c cs HC HF IH]; intros f g VF WL E; cbn [sound_play] in E; [injection E as <-; constructor|].
  destruct (step_of z f c) as [|h|] eqn:ES; try discriminate. destruct (soundb f c) eqn:K; [|discriminate].
  assert (ST := soundb_step z f c h VF ES K). assert (VH := C95_accepted z f h VF WL ST). assert (WH : within_limits h) by apply (sound_same z z f h VF WL ST).
  specialize (IH h g VH WH E). destruct c as [x|x pick|x|x]; [contradiction| | | ]; cbn [step_of] in ES; destruct (def_of f x) as [d|] eqn:D; try discriminate; destruct (def_of_in f x d D) as [I ED].
  - eapply RaiseMoveSlice; eauto.
  - eapply RaiseMoveFake; eauto.
  - destruct (unused f x) eqn:U; [|discriminate]. apply (RaiseErase z _ f h g d); auto; rewrite ED; auto. apply (f_equal (fun q => match q with Rewritten w => w | _ => f end)) in ES. auto.
Qed.
Example C96_instance : verified same_add_valid_split /\ within_limits same_add_valid_split /\ pending same_add_valid_split = 6 /\
  exists g, raise_run 0%Z 6 same_add_valid_split g /\ forall h, ~ raise_phase 0%Z g h.
Proof.
  assert (VF : verified same_add_valid_split) by (apply verifiedb_ok; vm_compute; reflexivity).
  assert (WL : within_limits same_add_valid_split) by (apply limits_ok; vm_compute; reflexivity).
  split; [auto|]. split; [auto|]. split; [vm_compute; reflexivity|].
  destruct (sound_play 0%Z same_add_valid_split raise_choices) as [g|] eqn:E; [|vm_compute in E; discriminate]. exists g.
  split; [apply (play_raise 0%Z raise_choices); auto; repeat constructor|].
  assert (Q : match sound_play 0%Z same_add_valid_split raise_choices with Some g => donb 0%Z g | None => false end = true) by (vm_compute; reflexivity).
  rewrite E in Q. intros h. apply (donb_ok 0%Z g Q h).
Qed.
Print Assumptions C96_pass_ends.
Print Assumptions C96_no_loop.
Print Assumptions C96_sound_no_loop.
Print Assumptions C96_rewrites_bounded.
Print Assumptions C96_instance.
