(** C97: the channels of the audio example. *)
From Verif Require Import Base ChanModel ChanSpec ChanProofs ChanProofs2 ChanProofs3.
Local Open Scope Z_scope.

(** No thread ever reads a token of the wrong kind, however few tokens the channels hold. *)
Theorem C97_no_trap (cap go_cap press_cap block steps : nat) (s : net) : reach cap go_cap press_cap block steps s -> no_trap s.
Proof. intros R. apply safe. apply (reached cap go_cap press_cap block steps s R). Qed.

(** Calls of the audio thread and frames of the transport thread are the same exchanges, one to one. *)
Theorem C97_in_step (cap go_cap press_cap block steps : nat) (s : net) : reach cap go_cap press_cap block steps s -> in_step s.
Proof.
  intros R. destruct (reached cap go_cap press_cap block steps s R) as [IV _]. destruct (lengths s IV) as (L1 & L2 & _). split; [|split; auto].
  destruct IV as (PD & RG & _). destruct PD as [pa ga gb pb EA EM KU KD OR HD DU DD LL AG|pa ga cs c EA EM EH ED GA KU DU EG EC LL AG WC SC|ga fs y EA EM EG EU KD EF LL AG XR DD].
  - exact AG.
  - rewrite EC. apply agree_one; auto.
  - rewrite EF. apply agree_two; auto.
Qed.

(** No deadlock: with channels that hold at least one token some thread can go on, without any change of a button. *)
Theorem C97_no_deadlock (cap go_cap press_cap block steps : nat) (s : net) : (1 <= cap)%nat -> (1 <= go_cap)%nat -> (1 <= press_cap)%nat ->
  reach cap go_cap press_cap block steps s -> exists l t, l <> LPress /\ move cap go_cap press_cap block steps s l t.
Proof. intros C1 C2 C3 R. apply alive; auto. apply (reached cap go_cap press_cap block steps s R). Qed.

(** Every call ends: whatever the threads do, a run of more than [bound] steps, and 15 more for every change of a button,
    contains the end of a call. *)
Theorem C97_calls_end (cap go_cap press_cap block steps : nat) : exists bound : nat, forall s n p t, reach cap go_cap press_cap block steps s ->
  moves cap go_cap press_cap block steps n p s t -> (bound + 15 * p < n)%nat -> (length (a_calls (n_audio s)) < length (a_calls (n_audio t)))%nat.
Proof.
  exists (ChanProofs3.bound go_cap steps). intros s n p t R RUN L. assert (IV := reached cap go_cap press_cap block steps s R).
  assert (G := runs_grow _ _ _ _ _ _ _ _ _ RUN). destruct (Nat.eq_dec (length (a_calls (n_audio t))) (length (a_calls (n_audio s)))) as [E|N]; [|lia].
  assert (Q := runs_left cap go_cap press_cap block steps n p s t IV RUN E). assert (B := left_bound go_cap steps s IV). lia.
Qed.

(** ** The hypotheses are met: from every reachable state the current call can be finished. *)
Lemma call_possible cap go_cap press_cap block steps s : (1 <= cap)%nat -> (1 <= go_cap)%nat -> (1 <= press_cap)%nat -> reach cap go_cap press_cap block steps s ->
  exists n t, moves cap go_cap press_cap block steps n 0 s t /\ (length (a_calls (n_audio s)) < length (a_calls (n_audio t)))%nat.
Proof.
  intros C1 C2 C3. remember (left_to_do steps s) as k eqn:EK. revert s EK. induction k as [k IH] using lt_wf_ind. intros s -> R.
  destruct (C97_no_deadlock cap go_cap press_cap block steps s C1 C2 C3 R) as (l & t & NP & MV). assert (G := calls_grow _ _ _ _ _ _ _ _ MV).
  destruct (Nat.eq_dec (length (a_calls (n_audio t))) (length (a_calls (n_audio s)))) as [E|N].
  - assert (IV := reached _ _ _ _ _ s R). assert (L := move_left _ _ _ _ _ s l t (proj1 IV) NP MV E).
    destruct (IH _ L t eq_refl) as (n & u & RUN & LT); [eapply ReachMove; eauto|]. exists (S n), u. split; [eapply MovesStep; eauto|lia].
  - exists 1%nat, t. split; [eapply MovesStep; [exact MV|auto|constructor]|lia].
Qed.
(** Channels that hold one token, blocks of two frames: two calls, and what they return. *)
Example C97_concrete : exists s, reach 1 1 1 2 5 s /\ (2 <= length (a_calls (n_audio s)))%nat /\ exists c, nth_error (a_calls (n_audio s)) 0 = Some c /\ snd c = repeat 7 16.
Proof.
  assert (R0 : reach 1 1 1 2 5 (boot (map Z.of_nat (seq 1 16)) 7)).
  { apply ReachBoot; [reflexivity| |lia]. apply Forall_forall. intros y Hy. apply in_map_iff in Hy. destruct Hy as (k & <- & Hk). apply in_seq in Hk. lia. }
  assert (RR : forall n p s t, reach 1 1 1 2 5 s -> moves 1 1 1 2 5 n p s t -> reach 1 1 1 2 5 t).
  { intros n p s t R M. induction M as [s|n p s l t u MV NP RUN IH|n p s t u MV RUN IH]; auto; apply IH; eapply ReachMove; eauto. }
  assert (FV : forall s, reach 1 1 1 2 5 s -> forall n p t, moves 1 1 1 2 5 n p s t -> (nth_error (m_frames (n_mover s)) 0 = None -> m_value (n_mover s) = 7) -> (forall f, nth_error (m_frames (n_mover s)) 0 = Some f -> snd f = 7) ->
    (nth_error (m_frames (n_mover t)) 0 = None -> m_value (n_mover t) = 7) /\ (forall f, nth_error (m_frames (n_mover t)) 0 = Some f -> snd f = 7)).
  { intros s _ n p t M. assert (ST : forall s l t, move 1 1 1 2 5 s l t -> (nth_error (m_frames (n_mover s)) 0 = None -> m_value (n_mover s) = 7) -> (forall f, nth_error (m_frames (n_mover s)) 0 = Some f -> snd f = 7) ->
      (nth_error (m_frames (n_mover t)) 0 = None -> m_value (n_mover t) = 7) /\ (forall f, nth_error (m_frames (n_mover t)) 0 = Some f -> snd f = 7)).
    { intros s0 l0 t0 MV H1 H2. destruct MV; cbn [n_mover m_frames m_value] in *; try (split; assumption). destruct frames as [|f0 fs]; cbn [app nth_error] in *; [|split; [discriminate|exact H2]]. split; [discriminate|]. intros f1 E. injection E as <-. cbn [snd]. apply H1. reflexivity. }
    induction M as [s|n p s l t u MV NP RUN IH|n p s t u MV RUN IH]; intros H1 H2; [auto| |]; destruct (ST _ _ _ MV H1 H2) as [H3 H4]; apply IH; auto. }
  destruct (call_possible 1 1 1 2 5 _ (le_n 1) (le_n 1) (le_n 1) R0) as (n1 & s1 & M1 & L1). assert (R1 := RR _ _ _ _ R0 M1).
  destruct (call_possible 1 1 1 2 5 _ (le_n 1) (le_n 1) (le_n 1) R1) as (n2 & s2 & M2 & L2). assert (R2 := RR _ _ _ _ R1 M2).
  exists s2. split; [auto|]. split; [cbn [boot n_audio a_calls length] in L1; lia|].
  destruct (FV _ R0 _ _ _ M1) as [F1 F2]; [reflexivity|intros f E; discriminate|]. destruct (FV _ R1 _ _ _ M2 F1 F2) as [F3 F4].
  destruct (a_calls (n_audio s2)) as [|c cs] eqn:EC; [cbn [length] in L2; lia|]. exists c. split; [reflexivity|].
  destruct (C97_in_step _ _ _ _ _ s2 R2) as (A & L & _). destruct (nth_error (m_frames (n_mover s2)) 0) as [f|] eqn:EF.
  - rewrite EC in A. destruct (A 0%nat c f eq_refl EF) as [_ Q]. rewrite Q, (F4 f eq_refl). reflexivity.
  - exfalso. rewrite EC in L. cbn [length] in L, L2. destruct (m_frames (n_mover s2)); [cbn [length] in L|discriminate]. cbn [boot n_audio a_calls length] in L1. lia.
Qed.
Print Assumptions C97_no_trap.
Print Assumptions C97_in_step.
Print Assumptions C97_no_deadlock.
Print Assumptions C97_calls_end.
Print Assumptions C97_concrete.
