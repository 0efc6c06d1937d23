(** C97, proofs: how many steps a call can take. *)
From Verif Require Import Base ChanModel ChanSpec ChanProofs ChanProofs2.
Local Open Scope nat_scope.

Section Measure.
Variables cap go_cap press_cap block steps : nat.
Notation move := (move cap go_cap press_cap block steps).
Notation moves := (moves cap go_cap press_cap block steps).

Definition unserved (pr : list token) (b : list instr) : nat := match pr, b with [], [] | [], [GetEnd] => 0 | _, _ => 8 end.
Definition work_left (w : work) (pr : list token) (b : list instr) : nat :=
  match w with
  | Waiting => unserved pr b
  | Working k => k + 1 + unserved pr b
  | Handling [] => 1 + unserved pr b
  | Handling todo => length todo + 1
  end.
Definition left_to_do (s : net) : nat :=
  length (a_todo (n_audio s)) + length (m_todo (n_mover s)) + (if m_hand (n_mover s) then steps + 3 else 0) +
  (S (length (a_calls (n_audio s))) - length (m_frames (n_mover s))) * (steps + 134) + n_go s * (steps + 2) +
  length (n_button s) + work_left (n_work s) (n_press s) (n_button s).

Lemma lengths s : invariant s -> length (m_frames (n_mover s)) <= S (length (a_calls (n_audio s))) /\ length (a_calls (n_audio s)) <= S (length (m_frames (n_mover s))) /\
  (m_todo (n_mover s) = [] -> length (m_frames (n_mover s)) <= length (a_calls (n_audio s))).
Proof.
  intros (PD & _ & _). destruct PD as [pa ga gb pb EA EM KU KD OR HD DU DD LL AG|pa ga cs c EA EM EH ED GA KU DU EG EC LL AG WC SC|ga fs y EA EM EG EU KD EF LL AG XR DD].
  - rewrite LL. lia.
  - rewrite EC, app_length. cbn [length]. lia.
  - rewrite EF, app_length. cbn [length]. split; [lia|]. split; [lia|]. intros Q. rewrite EM in Q. discriminate.
Qed.
Lemma sending_eq pr pb : unserved pr (map Put pb ++ [GetEnd]) = match pr, pb with [], [] => 0 | _, _ => 8 end.
Proof. unfold unserved. destruct pr; [|reflexivity]. destruct pb as [|t [|]]; reflexivity. Qed.
Lemma unserved_le pr b : unserved pr b <= 8.
Proof. unfold unserved. destruct pr; [|lia]. destruct b as [|[t| | ] [|]]; lia. Qed.
Lemma server_left w b pr ack got b' ack' pr' got' : buttons w b pr ack -> exec press_cap b ack pr got b' ack' pr' got' ->
  length b' + work_left w pr' b' < length b + work_left w pr b.
Proof.
  intros B EX. assert (L := exec_length _ _ _ _ _ _ _ _ _ EX).
  assert (PUT : forall pb, b = map Put pb ++ [GetEnd] -> ack = [] -> exists t pb', pb = t :: pb' /\ b' = map Put pb' ++ [GetEnd] /\ pr' = pr ++ [t]).
  { intros pb EB EA. subst. destruct pb as [|t pb]; cbn [map app] in EX; inversion EX; subst. exists t, pb. auto. }
  assert (U : forall pb, b = map Put pb ++ [GetEnd] -> ack = [] -> unserved pr' b' <= unserved pr b).
  { intros pb EB EA. destruct (PUT pb EB EA) as (t & pb' & -> & -> & ->). subst b. rewrite (sending_eq pr). assert (Q := unserved_le (pr ++ [t]) (map Put pb' ++ [GetEnd])). destruct pr; lia. }
  assert (K : unserved pr' b' <= unserved pr b \/ (exists todo, w = Handling todo /\ todo <> [])).
  { destruct B as [W EB EP EA|pb W EB EK EA|gd pb W EB EK EA|W EB EP EA|W EB EP EA|pb W EB EK EA].
    - subst. inversion EX.
    - left. eapply U; eauto.
    - right. exists (gd ++ [Put End]). split; auto. destruct gd; discriminate.
    - left. subst. inversion EX; subst. cbn. lia.
    - subst. inversion EX.
    - left. eapply U; eauto. }
  unfold work_left. destruct w as [|k|[|i todo]]; [| | |lia]; (destruct K as [K|(td & K & N)]; [lia|]); try discriminate. injection K as <-. contradiction.
Qed.
Lemma handle_left todo b pr ack got todo' pr' ack' got' : buttons (Handling todo) b pr ack -> exec press_cap todo pr ack got todo' pr' ack' got' ->
  work_left (Handling todo') pr' b < work_left (Handling todo) pr b.
Proof.
  intros B EX. assert (L := exec_length _ _ _ _ _ _ _ _ _ EX). destruct todo as [|i todo]; [discriminate|]. cbn [length] in L. destruct todo' as [|i' todo']; [|cbn [work_left length] in *; lia].
  assert (U : unserved pr' b = 0); [|cbn [work_left length] in *; rewrite U; lia].
  destruct B as [W EB EP EA|pb W EB EK EA|gd pb W EB EK EA|W EB EP EA|W EB EP EA|pb W EB EK EA].
  - exfalso. eapply W; eauto.
  - exfalso. eapply W; eauto.
  - injection W as W. destruct gd as [|g gd].
    + apply map_nil in EK. apply app_eq_nil in EK. destruct EK as [-> ->]. cbn [app] in W. injection W as -> ->. inversion EX; subst. reflexivity.
    + destruct gd; cbn [app] in W; injection W as -> ->; discriminate.
  - specialize (W _ eq_refl). discriminate.
  - discriminate.
  - discriminate.
Qed.
Lemma move_left s l t : invariant s -> l <> LPress -> move s l t -> length (a_calls (n_audio t)) = length (a_calls (n_audio s)) -> left_to_do t < left_to_do s.
Proof.
  intros IV NP MV EC. assert (LE := lengths s IV). destruct IV as (PD & RG & BT). unfold left_to_do.
  destruct MV; cbn [n_audio n_mover n_work n_button n_up n_down n_go n_press n_ack a_todo a_sent a_got a_calls m_todo m_got m_value m_frame m_hand m_frames] in *; try contradiction.
  - assert (L := exec_length _ _ _ _ _ _ _ _ _ H). lia.
  - rewrite app_length in EC. cbn [length] in EC. lia.
  - assert (L := exec_length _ _ _ _ _ _ _ _ _ H). lia.
  - destruct LE as (_ & _ & LE). specialize (LE eq_refl). rewrite frame_length, app_length. cbn [length].
    replace (S (length (a_calls a)) - length frames) with (S (S (length (a_calls a)) - (length frames + 1))) by lia. destruct (Nat.eqb (S f) block); lia.
  - lia.
  - cbn [work_left]. lia.
  - cbn [work_left]. lia.
  - cbn [work_left]. lia.
  - assert (U : unserved (t :: pr) b = 8) by reflexivity. cbn [work_left]. rewrite U. cbn [handle_todo in_words flat_map seq in_word app length]. lia.
  - assert (Q := handle_left _ _ _ _ _ _ _ _ _ BT H). lia.
  - cbn [work_left]. lia.
  - assert (Q := server_left _ _ _ _ _ _ _ _ _ BT H). lia.
Qed.
Lemma press_left s t : move s LPress t -> left_to_do t <= left_to_do s + 14 /\ length (a_calls (n_audio t)) = length (a_calls (n_audio s)).
Proof.
  intros MV. inversion MV; subst. split; [|reflexivity]. unfold left_to_do. cbn [n_audio n_mover n_work n_button n_up n_down n_go n_press n_ack].
  assert (L : length (press_todo v) = 6) by reflexivity. rewrite L. cbn [length].
  assert (W1 := unserved_le pr (press_todo v)). unfold work_left. destruct w as [|k|[|i td]]; cbn [length]; lia.
Qed.
Lemma calls_grow s l t : move s l t -> length (a_calls (n_audio s)) <= length (a_calls (n_audio t)).
Proof. destruct 1; cbn [n_audio a_calls]; try lia. rewrite app_length. lia. Qed.
Lemma runs_grow n p s t : moves n p s t -> length (a_calls (n_audio s)) <= length (a_calls (n_audio t)).
Proof. induction 1 as [s|n p s l t u MV NP RUN IH|n p s t u MV RUN IH]; [lia| |]; apply calls_grow in MV; lia. Qed.
Lemma runs_left n p s t : invariant s /\ sizes go_cap steps s -> moves n p s t -> length (a_calls (n_audio t)) = length (a_calls (n_audio s)) -> n + left_to_do t <= left_to_do s + 15 * p.
Proof.
  intros IV RUN. induction RUN as [s|n p s l t u MV NP RUN IH|n p s t u MV RUN IH]; intros EC; [lia| |].
  - assert (G1 := calls_grow _ _ _ MV). assert (G2 := runs_grow _ _ _ _ RUN). specialize (IH (kept _ _ _ _ _ _ _ _ IV MV) ltac:(lia)).
    assert (Q := move_left s l t (proj1 IV) NP MV ltac:(lia)). lia.
  - assert (G2 := runs_grow _ _ _ _ RUN). destruct (press_left _ _ MV) as [Q1 Q2]. specialize (IH (kept _ _ _ _ _ _ _ _ IV MV) ltac:(lia)). lia.
Qed.
Definition bound : nat := 130 + 130 + (steps + 3) + 2 * (steps + 134) + go_cap * (steps + 2) + 6 + (steps + 16).
Lemma left_bound s : invariant s /\ sizes go_cap steps s -> left_to_do s <= bound.
Proof.
  intros [IV (S1 & S2 & S3 & S4 & S5)]. destruct (lengths s IV) as (L1 & L2 & _). unfold left_to_do, bound.
  assert (W : work_left (n_work s) (n_press s) (n_button s) <= steps + 16).
  { unfold work_left. assert (U := unserved_le (n_press s) (n_button s)). destruct (n_work s) as [|k|[|i td]]; cbn [length] in *; lia. }
  assert (G : n_go s * (steps + 2) <= go_cap * (steps + 2)) by (apply Nat.mul_le_mono_r; auto).
  assert (F : (S (length (a_calls (n_audio s))) - length (m_frames (n_mover s))) * (steps + 134) <= 2 * (steps + 134)) by (apply Nat.mul_le_mono_r; lia).
  destruct (m_hand (n_mover s)); lia.
Qed.
End Measure.
