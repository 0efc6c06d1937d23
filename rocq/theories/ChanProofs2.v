(** C97, proofs: the invariant is kept, nothing traps, some thread can go on, and calls end. *)
From Verif Require Import Base ChanModel ChanSpec ChanProofs.
Local Open Scope Z_scope.

Section Chan.
Variables cap go_cap press_cap block steps : nat.
Notation move := (move cap go_cap press_cap block steps).
Notation reach := (reach cap go_cap press_cap block steps).

Lemma put_get_end pb : map Put pb ++ [GetEnd] <> [].
Proof. destruct pb; discriminate. Qed.
Lemma in_words1 : in_words 1 = [GetByte; GetByte; GetByte; GetByte; GetEnd].
Proof. reflexivity. Qed.
Lemma event_buttons b t pr ack : buttons Waiting b (t :: pr) ack -> buttons (Handling handle_todo) b (t :: pr) ack.
Proof.
  intros B. destruct B as [W EB EP EA|pb W EB EK EA|gd pb W|W EB EP EA|W|pb W]; try discriminate. apply (Handled _ _ _ _ (in_words 1) pb); auto.
Qed.
Lemma handle_buttons todo b pr ack got todo' pr' ack' got' : buttons (Handling todo) b pr ack -> exec press_cap todo pr ack got todo' pr' ack' got' ->
  buttons (Handling todo') b pr' ack'.
Proof.
  intros B EX. destruct B as [W EB EP EA|pb W EB EK EA|gd pb W EB EK EA|W EB EP EA|W EB EP EA|pb W EB EK EA].
  - exfalso. apply (W todo). reflexivity.
  - exfalso. apply (W todo). reflexivity.
  - injection W as W. inversion EX as [t l i o g LT E1 E2 E3 E4 E5 E6 E7 E8|bb l i o g E1 E2 E3 E4 E5 E6 E7 E8|l i o g E1 E2 E3 E4 E5 E6 E7 E8]; subst.
    + destruct (pr' ++ pb) as [|q qs] eqn:Q; cbn [map app] in E1.
      * apply app_eq_nil in Q. destruct Q as [-> ->]. injection E1 as -> ->. apply Acked; auto. intros td Htd. congruence.
      * exfalso. destruct q; discriminate.
    + rewrite <- app_comm_cons in E1. cbn [map kind app] in E1. injection E1 as ->. apply (Handled _ _ _ _ (map kind (pr' ++ pb)) pb); auto.
    + rewrite <- app_comm_cons in E1. cbn [map kind app] in E1. injection E1 as ->. apply (Handled _ _ _ _ (map kind (pr' ++ pb)) pb); auto.
  - specialize (W todo eq_refl). subst. inversion EX.
  - injection W as ->. inversion EX.
  - injection W as ->. inversion EX.
Qed.
Lemma handled_buttons b pr ack : buttons (Handling []) b pr ack -> buttons Waiting b pr ack.
Proof.
  intros B. destruct B as [W EB EP EA|pb W EB EK EA|gd pb W EB EK EA|W EB EP EA|W EB EP EA|pb W EB EK EA].
  - apply Quiet; auto. discriminate.
  - apply (Sending _ _ _ _ pb); auto. discriminate.
  - injection W as W. destruct gd; discriminate.
  - apply Acked; auto. discriminate.
  - apply Quiet; auto. discriminate.
  - apply (Sending _ _ _ _ pb); auto. discriminate.
Qed.
Lemma press_buttons w v pr ack : buttons w [] pr ack -> buttons w (press_todo v) pr ack.
Proof.
  assert (PT : press_todo v = map Put (tokens_of [v]) ++ [GetEnd]) by reflexivity. intros B.
  destruct B as [W EB EP EA|pb W EB EK EA|gd pb W EB EK EA|W EB EP EA|W EB EP EA|pb W EB EK EA]; subst.
  - apply (Sending _ _ _ _ (tokens_of [v])); auto.
  - symmetry in EB. apply put_get_end in EB. contradiction.
  - symmetry in EB. apply put_get_end in EB. contradiction.
  - discriminate.
  - apply (Again _ _ _ _ (tokens_of [v])); auto.
  - symmetry in EB. apply put_get_end in EB. contradiction.
Qed.
Lemma server_buttons w b pr ack got b' ack' pr' got' : buttons w b pr ack -> exec press_cap b ack pr got b' ack' pr' got' -> buttons w b' pr' ack'.
Proof.
  intros B EX.
  assert (PUT : forall pb, b = map Put pb ++ [GetEnd] -> ack = [] -> exists t pb', pb = t :: pb' /\ b' = map Put pb' ++ [GetEnd] /\ pr' = pr ++ [t] /\ ack' = []).
  { intros pb EB EA. subst. destruct pb as [|t pb]; cbn [map app] in EX; inversion EX; subst. exists t, pb. auto. }
  destruct B as [W EB EP EA|pb W EB EK EA|gd pb W EB EK EA|W EB EP EA|W EB EP EA|pb W EB EK EA].
  - subst. inversion EX.
  - destruct (PUT pb EB EA) as (t & pb' & -> & -> & -> & ->). apply (Sending _ _ _ _ pb'); auto. rewrite <- app_assoc. exact EK.
  - destruct (PUT pb EB EA) as (t & pb' & -> & -> & -> & ->). apply (Handled _ _ _ _ gd pb'); auto. rewrite <- app_assoc. exact EK.
  - subst. inversion EX; subst. destruct w as [|k|todo].
    + apply Quiet; auto. discriminate.
    + apply Quiet; auto. discriminate.
    + rewrite (W todo eq_refl). apply Back; auto.
  - subst. inversion EX.
  - destruct (PUT pb EB EA) as (t & pb' & -> & -> & -> & ->). apply (Again _ _ _ _ pb'); auto. rewrite <- app_assoc. exact EK.
Qed.
Lemma work_buttons w w' b pr ack : (forall todo, w <> Handling todo) -> (forall todo, w' <> Handling todo) -> buttons w b pr ack -> buttons w' b pr ack.
Proof.
  intros N N' B. destruct B as [W EB EP EA|pb W EB EK EA|gd pb W EB EK EA|W EB EP EA|W EB EP EA|pb W EB EK EA].
  - apply Quiet; auto.
  - apply (Sending _ _ _ _ pb); auto.
  - exfalso. eapply N; eauto.
  - apply Acked; auto. intros todo Q. exfalso. eapply N'; eauto.
  - exfalso. eapply N; eauto.
  - exfalso. eapply N; eauto.
Qed.

(** Sizes. *)
Definition sizes (s : net) : Prop :=
  (length (a_todo (n_audio s)) <= 130 /\ length (m_todo (n_mover s)) <= 130 /\ n_go s <= go_cap /\ length (n_button s) <= 6 /\
   match n_work s with Waiting => True | Working k => k <= steps | Handling todo => length todo <= 6 end)%nat.
Lemma exec_length c todo i o got todo' i' o' got' : exec c todo i o got todo' i' o' got' -> length todo = S (length todo').
Proof. inversion 1; reflexivity. Qed.
Lemma call_length ws : length ws = 16%nat -> length (call_todo ws) = 130%nat.
Proof. intros L. unfold call_todo. rewrite app_length, out_words_put, map_length. rewrite <- (map_length kind), kinds_words, L. reflexivity. Qed.
Lemma frame_length x : length (frame_todo x) = 130%nat.
Proof. reflexivity. Qed.

Theorem kept s l t : invariant s /\ sizes s -> move s l t -> invariant t /\ sizes t.
Proof.
  intros [(PD & RG & BT) SZ] MV. unfold invariant, sizes in *.
  destruct MV; cbn [n_audio n_mover n_work n_button n_up n_down n_go n_press n_ack a_todo a_sent a_got a_calls m_todo m_got m_value m_frame m_hand m_frames] in *.
  - assert (L := exec_length _ _ _ _ _ _ _ _ _ H). split; [|repeat split; try tauto; lia]. split; [|auto]. exact (audio_exec cap _ _ _ _ _ _ _ _ RG PD H).
  - split; [|rewrite call_length by auto; repeat split; try tauto; lia]. split; [exact (audio_call _ _ _ _ ws RG PD eq_refl H H0)|]. split; [|auto]. destruct RG as (_ & _ & RV). split; auto.
  - assert (L := exec_length _ _ _ _ _ _ _ _ _ H). split; [|repeat split; try tauto; lia]. split; [|auto]. exact (mover_exec cap _ _ _ _ _ _ _ _ RG PD eq_refl H).
  - split; [|rewrite frame_length; repeat split; try tauto; lia]. split; [exact (mover_next _ _ _ _ y block RG PD eq_refl eq_refl H)|]. split; [|auto]. destruct RG as (LS & FS & _). split; auto.
  - split; [|repeat split; try tauto; lia]. split; [|auto]. exact (mover_hand _ _ _ _ PD eq_refl).
  - split; [|repeat split; try tauto; lia]. split; [auto|]. split; [auto|]. apply (work_buttons Waiting); auto; discriminate.
  - split; [|repeat split; try tauto; lia]. split; [auto|]. split; [auto|]. apply (work_buttons (Working (S k))); auto; discriminate.
  - split; [|repeat split; try tauto; lia]. split; [auto|]. split; [auto|]. apply (work_buttons (Working 0)); auto; discriminate.
  - split; [|repeat split; try tauto; cbn; lia]. split; [auto|]. split; [auto|]. apply event_buttons; auto.
  - assert (L := exec_length _ _ _ _ _ _ _ _ _ H). split; [|repeat split; try tauto; lia]. split; [auto|]. split; [auto|]. eapply handle_buttons; eauto.
  - split; [|repeat split; tauto]. split; [auto|]. split; [auto|]. apply handled_buttons; auto.
  - split; [|repeat split; try tauto; cbn; lia]. split; [auto|]. split; [auto|]. apply press_buttons; auto.
  - assert (L := exec_length _ _ _ _ _ _ _ _ _ H). split; [|repeat split; try tauto; lia]. split; [auto|]. split; [auto|]. eapply server_buttons; eauto.
Qed.
Theorem reached s : reach s -> invariant s /\ sizes s.
Proof.
  induction 1 as [ws x LW FW RX|s l t R IH MV]; [|eapply kept; eauto]. unfold boot, invariant, sizes.
  cbn [n_audio n_mover n_work n_button n_up n_down n_go n_press n_ack a_todo a_sent a_got a_calls m_todo m_got m_value m_frame m_hand m_frames]. split.
  - split; [|split; [repeat split; cbn [a_sent m_value]; auto; lia|apply Quiet; auto; discriminate]].
    apply (Same _ _ _ _ (tokens_of ws) (in_words 16) (in_words 16) (tokens_of (repeat x 16))); cbn [a_todo a_sent a_got a_calls m_todo m_got m_value m_frame m_hand m_frames app]; auto.
    + unfold call_todo. rewrite out_words_put. reflexivity.
    + rewrite <- LW. apply kinds_words.
    + apply tokens_data.
    + intros i c f E. destruct i; discriminate.
  - rewrite call_length by auto. rewrite frame_length. cbn [length]. repeat split; lia.
Qed.

(** Nothing traps. *)
Lemma kinds_no_trap l tl todo : map kind l ++ tl = todo -> l <> [] -> ~ traps todo l.
Proof. intros <- N. destruct l as [|t l]; [contradiction|]. destruct t; cbn; auto. Qed.
Lemma put_no_trap ts l i : ts <> [] -> ~ traps (map Put ts ++ l) i.
Proof. destruct ts; [contradiction|]. intros _. cbn. auto. Qed.
Lemma empty_no_trap todo : ~ traps todo [].
Proof. destruct todo as [|[t| | ] l]; cbn; auto. Qed.
Theorem safe s : invariant s -> no_trap s.
Proof.
  intros (PD & _ & BT). split; [|split; [|split]].
  - destruct PD as [pa ga gb pb EA EM KU KD OR HD DU DD LL AG|pa ga calls c EA EM EH ED GA KU DU EG EC LL AG WM SC|ga frames x EA EM EG EU KD EF LL AG XR DD].
    + rewrite EA. destruct pa as [|t pa]; [|cbn; auto]. cbn [map app]. destruct (n_down s) as [|d ds] eqn:Q; [apply empty_no_trap|]. rewrite <- Q in *. apply (kinds_no_trap _ (map kind pb)); [rewrite <- KD, map_app; reflexivity|rewrite Q; discriminate].
    + rewrite ED. apply empty_no_trap.
    + destruct (n_down s) as [|d ds] eqn:Q; [apply empty_no_trap|]. rewrite <- Q in *. apply (kinds_no_trap _ []); [rewrite app_nil_r; congruence|rewrite Q; discriminate].
  - intros _. destruct PD as [pa ga gb pb EA EM KU KD OR HD DU DD LL AG|pa ga calls c EA EM EH ED GA KU DU EG EC LL AG WM SC|ga frames x EA EM EG EU KD EF LL AG XR DD].
    + destruct (n_up s) as [|d ds] eqn:Q; [apply empty_no_trap|]. rewrite <- Q in *. apply (kinds_no_trap _ (map kind pa ++ map Put pb)); [rewrite EM, <- KU, map_app, <- app_assoc; reflexivity|rewrite Q; discriminate].
    + rewrite EM. cbn. auto.
    + rewrite EU. apply empty_no_trap.
  - intros todo EW. destruct BT as [W EB EP EA|pb W EB EK EA|gd pb W EB EK EA|W EB EP EA|W EB EP EA|pb W EB EK EA].
    + exfalso. eapply W; eauto.
    + exfalso. eapply W; eauto.
    + rewrite EW in W. injection W as ->. destruct (n_press s) as [|d ds] eqn:Q; [apply empty_no_trap|]. rewrite <- Q in *. apply (kinds_no_trap _ (map kind pb ++ [Put End])); [rewrite <- EK, map_app, <- app_assoc; reflexivity|rewrite Q; discriminate].
    + rewrite EP. apply empty_no_trap.
    + rewrite EP. apply empty_no_trap.
    + rewrite EW in W. injection W as ->. cbn. auto.
  - destruct BT as [W EB EP EA|pb W EB EK EA|gd pb W EB EK EA|W EB EP EA|W EB EP EA|pb W EB EK EA]; rewrite EA; try apply empty_no_trap. rewrite EB. cbn. auto.
Qed.

(** Some thread can go on. *)
Lemma work_moves s : invariant s -> (1 <= press_cap)%nat -> (n_go s <> 0%nat \/ n_work s <> Waiting) -> exists l t, l <> LPress /\ move s l t.
Proof.
  intros (_ & _ & BT) PC K. destruct s as [a m w b up down go pr ack]. cbn [n_go n_work n_button n_press n_ack] in *.
  destruct w as [|[|k]|todo].
  - destruct K as [K|K]; [|contradiction]. destruct go as [|go]; [contradiction|]. exists LWork. eexists. split; [discriminate|]. apply (MoveGo _ _ _ _ _ _ _ _ _ _ _ _ _ 0). lia.
  - exists LWork. eexists. split; [discriminate|]. apply MoveDone.
  - exists LWork. eexists. split; [discriminate|]. apply MoveWork.
  - exists LButton. destruct BT as [W EB EP EA|pb W EB EK EA|gd pb W EB EK EA|W EB EP EA|W EB EP EA|pb W EB EK EA].
    + exfalso. eapply W; eauto.
    + exfalso. eapply W; eauto.
    + injection W as W. subst. destruct pr as [|t pr].
      * destruct pb as [|t pb].
        -- eexists. split; [discriminate|]. eapply MoveHandle with (got := []). apply ExecPut. cbn. lia.
        -- eexists. split; [discriminate|]. eapply MoveServer with (got := []). apply ExecPut. cbn. lia.
      * eexists. split; [discriminate|]. eapply MoveHandle with (got := []) (got' := match t with Byte x => [x] | End => [] end). cbn [app map]. destruct t; cbn [kind]; [apply ExecByte with (got := [])|apply ExecEnd].
    + specialize (W todo eq_refl). subst. eexists. split; [discriminate|]. apply MoveHandled.
    + injection W as ->. eexists. split; [discriminate|]. apply MoveHandled.
    + injection W as ->. eexists. split; [discriminate|]. apply MoveHandled.
Qed.
Lemma next_moves a got x f frames w b up down go pr ack : exists l t, l <> LPress /\ move (Net a (Mover [] got x f false frames) w b up down go pr ack) l t.
Proof. exists LMover. eexists. split; [discriminate|]. apply (MoveNext _ _ _ _ _ _ _ _ 0). lia. Qed.
Theorem alive s : invariant s -> (1 <= cap)%nat -> (1 <= go_cap)%nat -> (1 <= press_cap)%nat -> exists l t, l <> LPress /\ move s l t.
Proof.
  intros IV C1 C2 C3. assert (WM := work_moves s IV C3). destruct IV as (PD & RG & BT).
  destruct s as [[todo sent got calls] [mtodo mgot x f hand frames] w b up down go pr ack].
  cbn [n_audio n_mover n_work n_button n_up n_down n_go n_press n_ack a_todo a_sent a_got a_calls m_todo m_got m_value m_frame m_hand m_frames] in *.
  assert (HAND : hand = true -> exists l t, l <> LPress /\ move (Net (Audio todo sent got calls) (Mover mtodo mgot x f hand frames) w b up down go pr ack) l t).
  { intros ->. destruct (Nat.eq_dec go 0) as [->|N]; [|apply WM; auto]. exists LMover. eexists. split; [discriminate|]. apply MoveHand. lia. }
  destruct hand; [auto|]. clear HAND.
  assert (AE : forall todo' down' up' got', exec cap todo down up got todo' down' up' got' -> exists l t, l <> LPress /\ move (Net (Audio todo sent got calls) (Mover mtodo mgot x f false frames) w b up down go pr ack) l t)
    by (intros todo' down' up' got' EX; exists LAudio; eexists; split; [discriminate|]; eapply MoveAudio; exact EX).
  assert (ME : forall todo' up' down' got', exec cap mtodo up down mgot todo' up' down' got' -> exists l t, l <> LPress /\ move (Net (Audio todo sent got calls) (Mover mtodo mgot x f false frames) w b up down go pr ack) l t)
    by (intros todo' up' down' got' EX; exists LMover; eexists; split; [discriminate|]; eapply MoveFrame; exact EX).
  destruct PD as [pa ga gb pb EA EM KU KD OR HD DU DD LL AG|pa ga cs c EA EM EH ED GA KU DU EG EC LL AG WC SC|ga fs y EA EM EG EU KD EF LL AG XR DD];
    cbn [n_audio n_mover n_work n_button n_up n_down n_go n_press n_ack a_todo a_sent a_got a_calls m_todo m_got m_value m_frame m_hand m_frames] in *.
  - destruct up as [|t up].
    + destruct pa as [|t pa].
      * cbn [app map] in KU. subst gb. cbn [app map] in EM, EA. destruct down as [|t down].
        -- destruct pb as [|t pb]; cbn [map] in EM; subst mtodo; [apply next_moves|]. eapply ME. apply ExecPut. cbn. lia.
        -- cbn [app map] in KD. subst todo ga. destruct t; cbn [kind] in *; eapply AE; constructor.
      * cbn [app map] in EA. subst todo. eapply AE. apply ExecPut. cbn. lia.
    + cbn [app map] in KU. subst gb mtodo. cbn [app]. destruct t; cbn [kind app] in *; eapply ME; constructor.
  - subst mtodo. apply next_moves.
  - destruct down as [|t down].
    + cbn [map] in KD. subst todo ga. exists LAudio. eexists. split; [discriminate|]. apply (MoveCall _ _ _ _ _ (repeat 0 16)); [reflexivity|]. apply Forall_forall. intros z Hz. apply repeat_spec in Hz. subst. lia.
    + cbn [map] in KD. subst todo ga. destruct t; cbn [kind] in *; eapply AE; constructor.
Qed.
End Chan.
