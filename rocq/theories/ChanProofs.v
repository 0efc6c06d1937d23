(** C97, proofs: the invariants. *)
From Verif Require Import Base ChanModel ChanSpec.
Local Open Scope Z_scope.

Definition kind (t : token) : instr := match t with Byte _ => GetByte | End => GetEnd end.
Definition data (l : list token) : list Z := flat_map (fun t => match t with Byte b => [b] | End => [] end) l.
Definition word_tokens (w : Z) : list token := map Byte (word_bytes w).
Definition tokens_of (ws : list Z) : list token := flat_map word_tokens ws ++ [End].
Lemma data_app a b : data (a ++ b) = data a ++ data b.
Proof. apply flat_map_app. Qed.
Lemma out_words_put ws : out_words ws = map Put (tokens_of ws).
Proof. unfold out_words, tokens_of. rewrite map_app. f_equal. induction ws as [|w ws IH]; [reflexivity|]. cbn [flat_map]. rewrite map_app, IH. reflexivity. Qed.
Lemma tokens_data ws : data (tokens_of ws) = flat_map word_bytes ws.
Proof. unfold tokens_of. rewrite data_app. cbn [data flat_map app]. rewrite app_nil_r. induction ws as [|w ws IH]; [reflexivity|]. cbn [flat_map]. rewrite data_app, IH. reflexivity. Qed.
Lemma kinds_words ws : map kind (tokens_of ws) = in_words (length ws).
Proof.
  unfold tokens_of, in_words. rewrite map_app. f_equal. generalize 0%nat. induction ws as [|w ws IH]; intros k; [reflexivity|]. cbn [flat_map length seq]. rewrite map_app. rewrite (IH (S k)). reflexivity.
Qed.
Lemma bytes_word w : 0 <= w < 4294967296 -> w / 16777216 mod 256 * 16777216 + w / 65536 mod 256 * 65536 + w / 256 mod 256 * 256 + w mod 256 = w.
Proof. intros H. Z.to_euclidean_division_equations. lia. Qed.
Lemma words_bytes ws : Forall (fun x => 0 <= x < 4294967296) ws -> words_of (flat_map word_bytes ws) = ws.
Proof.
  induction 1 as [|w ws H F IH]; [reflexivity|]. cbn [flat_map word_bytes app words_of]. rewrite IH, bytes_word by auto. reflexivity.
Qed.
Lemma in_words_cons n : exists l, in_words (S n) = GetByte :: l.
Proof. eexists. reflexivity. Qed.

(** The audio thread and the transport thread. *)
Definition agree (calls : list (list Z * list Z)) (frames : list (Z * Z)) : Prop :=
  forall i c f, nth_error calls i = Some c -> nth_error frames i = Some f -> same_exchange c f.
Definition is_get (i : instr) : Prop := match i with Put _ => False | _ => True end.
Inductive paired (a : audio) (m : mover) (up down : list token) : Prop :=
| Same : forall pa ga gb pb,
    a_todo a = map Put pa ++ ga -> m_todo m = gb ++ map Put pb ->
    map kind (up ++ pa) = gb -> map kind (down ++ pb) = ga -> (gb = [] \/ (pb = tokens_of (repeat (m_value m) 16) /\ down = [])) ->
    (m_hand m = true -> m_todo m = frame_todo (m_value m) /\ m_got m = []) ->
    m_got m ++ data (up ++ pa) = flat_map word_bytes (a_sent a) -> a_got a ++ data (down ++ pb) = flat_map word_bytes (repeat (m_value m) 16) ->
    length (a_calls a) = length (m_frames m) -> agree (a_calls a) (m_frames m) -> paired a m up down
| AudioAhead : forall pa ga calls c,
    a_todo a = map Put pa ++ ga -> m_todo m = [] -> m_hand m = false -> down = [] -> ga = in_words 16 -> map kind (up ++ pa) = in_words 16 ->
    data (up ++ pa) = flat_map word_bytes (a_sent a) -> a_got a = [] ->
    a_calls a = calls ++ [c] -> length calls = length (m_frames m) -> agree calls (m_frames m) ->
    words_of (m_got m) = fst c -> snd c = repeat (m_value m) 16 -> paired a m up down
| MoverAhead : forall ga frames x,
    a_todo a = ga -> m_todo m = frame_todo (m_value m) -> m_got m = [] -> up = [] -> map kind down = ga ->
    m_frames m = frames ++ [(hd 0 (a_sent a), x)] -> length (a_calls a) = length frames -> agree (a_calls a) frames ->
    0 <= x < 4294967296 -> a_got a ++ data down = flat_map word_bytes (repeat x 16) -> paired a m up down.
Definition ranges (a : audio) (m : mover) : Prop :=
  length (a_sent a) = 16%nat /\ Forall (fun x => 0 <= x < 4294967296) (a_sent a) /\ 0 <= m_value m < 4294967296.

(** The processing thread and the button server. *)
Inductive buttons (w : work) (b : list instr) (pr ack : list token) : Prop :=
| Quiet : (forall todo, w <> Handling todo) -> b = [] -> pr = [] -> ack = [] -> buttons w b pr ack
| Sending : forall pb, (forall todo, w <> Handling todo) -> b = map Put pb ++ [GetEnd] -> map kind (pr ++ pb) = in_words 1 -> ack = [] -> buttons w b pr ack
| Handled : forall gd pb, w = Handling (gd ++ [Put End]) -> b = map Put pb ++ [GetEnd] -> map kind (pr ++ pb) = gd -> ack = [] -> buttons w b pr ack
| Acked : (forall todo, w = Handling todo -> todo = []) -> b = [GetEnd] -> pr = [] -> ack = [End] -> buttons w b pr ack
| Back : w = Handling [] -> b = [] -> pr = [] -> ack = [] -> buttons w b pr ack
| Again : forall pb, w = Handling [] -> b = map Put pb ++ [GetEnd] -> map kind (pr ++ pb) = in_words 1 -> ack = [] -> buttons w b pr ack.
Definition invariant (s : net) : Prop :=
  paired (n_audio s) (n_mover s) (n_up s) (n_down s) /\ ranges (n_audio s) (n_mover s) /\ buttons (n_work s) (n_button s) (n_press s) (n_ack s).

Lemma agree_app calls frames c f : length calls = length frames -> agree calls frames -> same_exchange c f -> agree (calls ++ [c]) (frames ++ [f]).
Proof.
  intros L A S i c' f' E1 E2. destruct (Nat.lt_ge_cases i (length calls)) as [LT|GE].
  - rewrite nth_error_app1 in E1 by auto. rewrite nth_error_app1 in E2 by lia. eapply A; eauto.
  - rewrite nth_error_app2 in E1 by auto. rewrite nth_error_app2 in E2 by lia. rewrite <- L in E2.
    destruct (i - length calls)%nat as [|k]; cbn [nth_error] in E1, E2; [congruence|destruct k; discriminate].
Qed.
Lemma agree_one calls frames c : length calls = length frames -> agree calls frames -> agree (calls ++ [c]) frames.
Proof. intros L A i c' f' E1 E2. rewrite nth_error_app1 in E1; [eapply A; eauto|]. rewrite L. apply nth_error_Some. congruence. Qed.
Lemma agree_two calls frames f : length calls = length frames -> agree calls frames -> agree calls (frames ++ [f]).
Proof. intros L A i c' f' E1 E2. rewrite nth_error_app1 in E2; [eapply A; eauto|]. rewrite <- L. apply nth_error_Some. congruence. Qed.
Lemma map_nil {A B} (f : A -> B) l : map f l = [] -> l = [].
Proof. destruct l; [auto|discriminate]. Qed.
Lemma kinds_get l i tl : map kind l = i :: tl -> is_get i.
Proof. destruct l as [|t l]; [discriminate|]. cbn [map]. intros E. injection E as <- _. destruct t; exact I. Qed.

Section Inv.
Variables cap go_cap press_cap block steps : nat.

Lemma audio_exec a m up down todo' down' up' got' : ranges a m -> paired a m up down -> exec cap (a_todo a) down up (a_got a) todo' down' up' got' ->
  paired (Audio todo' (a_sent a) got' (a_calls a)) m up' down'.
Proof.
  intros RG PD EX. inversion EX as [t l i o got LT E1 E2 E3 E4 E5 E6 E7 E8|b l i o got E1 E2 E3 E4 E5 E6 E7 E8|l i o got E1 E2 E3 E4 E5 E6 E7 E8]; subst.
  - destruct PD as [pa ga gb pb EA EM KU KD OR HD DU DD LL AG|pa ga calls c EA EM EH ED GA KU DU EG EC LL AG WM SC|ga frames x EA EM EG EU KD EF LL AG XR DD].
    + destruct pa as [|t0 pa]; cbn [map app] in EA.
      * exfalso. assert (Q : ga = Put t :: todo') by congruence. rewrite <- KD in Q. apply kinds_get in Q. exact Q.
      * assert (Q : t0 = t /\ todo' = map Put pa ++ ga) by (split; congruence). destruct Q as [-> ->].
        apply (Same _ _ _ _ pa ga gb pb); cbn [a_todo a_sent a_got a_calls]; auto; rewrite <- app_assoc; auto.
    + destruct pa as [|t0 pa]; cbn [map app] in EA.
      * exfalso. rewrite GA in EA. destruct (in_words_cons 15) as (l & Q). rewrite Q in EA. congruence.
      * assert (Q : t0 = t /\ todo' = map Put pa ++ ga) by (split; congruence). destruct Q as [-> ->].
        apply (AudioAhead _ _ _ _ pa ga calls c); cbn [a_todo a_sent a_got a_calls]; auto; rewrite <- app_assoc; auto.
    + exfalso. assert (Q : map kind down' = Put t :: todo') by congruence. apply kinds_get in Q. exact Q.
  - destruct PD as [pa ga gb pb EA EM KU KD OR HD DU DD LL AG|pa ga calls c EA EM EH ED GA KU DU EG EC LL AG WM SC|ga frames x EA EM EG EU KD EF LL AG XR DD].
    + destruct pa as [|t0 pa]; cbn [map app] in EA; [|congruence].
      destruct OR as [GB|[_ OR]]; [|discriminate]. rewrite <- app_comm_cons in KD, DD. cbn [map kind] in KD. cbn [data flat_map app] in DD.
      apply (Same _ _ _ _ [] todo' gb pb); cbn [a_todo a_sent a_got a_calls map app]; auto; [congruence|]. change (flat_map _ (down' ++ pb)) with (data (down' ++ pb)) in DD. rewrite <- app_assoc. exact DD.
    + discriminate.
    + cbn [map kind] in KD. apply (MoverAhead _ _ _ _ todo' frames x); cbn [a_todo a_sent a_got a_calls]; auto; [congruence|]. rewrite <- app_assoc. exact DD.
  - destruct PD as [pa ga gb pb EA EM KU KD OR HD DU DD LL AG|pa ga calls c EA EM EH ED GA KU DU EG EC LL AG WM SC|ga frames x EA EM EG EU KD EF LL AG XR DD].
    + destruct pa as [|t0 pa]; cbn [map app] in EA; [|congruence].
      destruct OR as [GB|[_ OR]]; [|discriminate]. rewrite <- app_comm_cons in KD, DD. cbn [map kind] in KD.
      apply (Same _ _ _ _ [] todo' gb pb); cbn [a_todo a_sent a_got a_calls map app]; auto. congruence.
    + discriminate.
    + cbn [map kind] in KD. apply (MoverAhead _ _ _ _ todo' frames x); cbn [a_todo a_sent a_got a_calls]; auto. congruence.
Qed.

Lemma mover_exec a m up down todo' up' down' got' : ranges a m -> paired a m up down -> m_hand m = false -> exec cap (m_todo m) up down (m_got m) todo' up' down' got' ->
  paired a (Mover todo' got' (m_value m) (m_frame m) false (m_frames m)) up' down'.
Proof.
  intros RG PD HF EX. inversion EX as [t l i o got LT E1 E2 E3 E4 E5 E6 E7 E8|b l i o got E1 E2 E3 E4 E5 E6 E7 E8|l i o got E1 E2 E3 E4 E5 E6 E7 E8]; subst.
  - destruct PD as [pa ga gb pb EA EM KU KD OR HD DU DD LL AG|pa ga calls c EA EM EH ED GA KU DU EG EC LL AG WM SC|ga frames x EA EM EG EU KD EF LL AG XR DD].
    + destruct gb as [|g gb].
      * cbn [app] in EM. destruct pb as [|t0 pb]; cbn [map] in EM; [congruence|]. assert (Q : t0 = t /\ todo' = map Put pb) by (split; congruence). destruct Q as [-> ->].
        apply (Same _ _ _ _ pa ga [] pb); cbn [m_todo m_got m_value m_frame m_hand m_frames]; auto; try (rewrite <- app_assoc; auto; fail). discriminate.
      * exfalso. cbn [app] in EM. assert (Q : g = Put t) by congruence. subst g. apply kinds_get in KU. exact KU.
    + exfalso. congruence.
    + exfalso. unfold frame_todo in EM. destruct (in_words_cons 15) as (l & Q). rewrite Q in EM. cbn [app] in EM. congruence.
  - destruct PD as [pa ga gb pb EA EM KU KD OR HD DU DD LL AG|pa ga calls c EA EM EH ED GA KU DU EG EC LL AG WM SC|ga frames x EA EM EG EU KD EF LL AG XR DD].
    + rewrite <- app_comm_cons in KU, DU. cbn [map kind] in KU. subst gb. cbn [app] in EM.
      apply (Same _ _ _ _ pa ga (map kind (up' ++ pa)) pb); cbn [m_todo m_got m_value m_frame m_hand m_frames]; auto; [congruence| |discriminate|rewrite <- app_assoc; exact DU].
      destruct OR as [OR|OR]; [discriminate|]. right. exact OR.
    + congruence.
    + congruence.
  - destruct PD as [pa ga gb pb EA EM KU KD OR HD DU DD LL AG|pa ga calls c EA EM EH ED GA KU DU EG EC LL AG WM SC|ga frames x EA EM EG EU KD EF LL AG XR DD].
    + rewrite <- app_comm_cons in KU, DU. cbn [map kind] in KU. subst gb. cbn [app] in EM.
      apply (Same _ _ _ _ pa ga (map kind (up' ++ pa)) pb); cbn [m_todo m_got m_value m_frame m_hand m_frames]; auto; [congruence| |discriminate].
      destruct OR as [OR|OR]; [discriminate|]. right. exact OR.
    + congruence.
    + congruence.
Qed.

Lemma audio_call a m up down ws : ranges a m -> paired a m up down -> a_todo a = [] -> length ws = 16%nat -> Forall (fun x => 0 <= x < 4294967296) ws ->
  paired (Audio (call_todo ws) ws [] (a_calls a ++ [(a_sent a, words_of (a_got a))])) m up down.
Proof.
  intros (LS & FS & RV) PD EA LW FW. assert (CT : call_todo ws = map Put (tokens_of ws) ++ in_words 16) by (unfold call_todo; rewrite out_words_put; reflexivity).
  destruct PD as [pa ga gb pb EA' EM KU KD OR HD DU DD LL AG|pa ga calls c EA' EM EH ED GA KU DU EG EC LL AG WM SC|ga frames x EA' EM EG EU KD EF LL AG XR DD].
  - rewrite EA in EA'. symmetry in EA'. apply app_eq_nil in EA'. destruct EA' as [PA GA]. apply map_nil in PA. subst pa. rewrite GA in KD. apply map_nil in KD. apply app_eq_nil in KD. destruct KD as [-> ->].
    destruct OR as [->|[OR _]]; [|exfalso; destruct (tokens_of (repeat (m_value m) 16)) eqn:Q; [|discriminate]; unfold tokens_of in Q; apply app_eq_nil in Q; destruct Q; discriminate].
    apply map_nil in KU. rewrite app_nil_r in KU. subst up. cbn [app data flat_map] in DU, DD. rewrite app_nil_r in DU, DD. cbn [app map] in EM.
    assert (HF : m_hand m = false).
    { destruct (m_hand m); [|reflexivity]. destruct (HD eq_refl) as [HD1 _]. unfold frame_todo in HD1. rewrite EM in HD1. discriminate. }
    apply (AudioAhead _ _ _ _ (tokens_of ws) (in_words 16) (a_calls a) (a_sent a, words_of (a_got a))); cbn [a_todo a_sent a_got a_calls fst snd app]; auto.
    + rewrite <- LW. apply kinds_words.
    + apply tokens_data.
    + rewrite DU. apply words_bytes; auto.
    + rewrite DD. apply words_bytes. apply Forall_forall. intros y Hy. apply repeat_spec in Hy. subst. exact RV.
  - exfalso. rewrite EA in EA'. symmetry in EA'. apply app_eq_nil in EA'. destruct EA' as [_ Q]. rewrite GA in Q. discriminate.
  - rewrite EA in EA'. rewrite <- EA' in KD. apply map_nil in KD. subst down. cbn [data flat_map] in DD. rewrite app_nil_r in DD.
    apply (Same _ _ _ _ (tokens_of ws) (in_words 16) (in_words 16) (tokens_of (repeat (m_value m) 16))); cbn [a_todo a_sent a_got a_calls app]; rewrite ?EU; auto.
    + cbn [app]. rewrite <- LW. apply kinds_words.
    + rewrite EG. cbn [app]. apply tokens_data.
    + rewrite EF, !app_length. cbn [length]. lia.
    + rewrite EF. apply agree_app; auto. split; cbn [fst snd]; auto. rewrite DD. apply words_bytes. apply Forall_forall. intros y Hy. apply repeat_spec in Hy. subst. exact XR.
Qed.

Lemma mover_next a m up down y b : ranges a m -> paired a m up down -> m_todo m = [] -> m_hand m = false -> 0 <= y < 4294967296 ->
  paired a (Mover (frame_todo y) [] y (if Nat.eqb (S (m_frame m)) b then 0 else S (m_frame m)) (Nat.eqb (S (m_frame m)) b) (m_frames m ++ [(hd 0 (words_of (m_got m)), m_value m)])) up down.
Proof.
  intros (LS & FS & RV) PD EM HF RY.
  destruct PD as [pa ga gb pb EA EM' KU KD OR HD DU DD LL AG|pa ga calls c EA EM' EH ED GA KU DU EG EC LL AG WM SC|ga frames x EA EM' EG EU KD EF LL AG XR DD].
  - rewrite EM in EM'. symmetry in EM'. apply app_eq_nil in EM'. destruct EM' as [GB PB]. rewrite GB in KU. apply map_nil in PB, KU. subst pb. apply app_eq_nil in KU. destruct KU as [-> ->].
    rewrite !app_nil_r in *. cbn [data flat_map] in DU. rewrite ?app_nil_r in DU. cbn [map app] in EA.
    apply (MoverAhead _ _ _ _ ga (m_frames m) (m_value m)); cbn [m_todo m_got m_value m_frame m_hand m_frames]; auto.
    rewrite DU. rewrite words_bytes by auto. reflexivity.
  - assert (FT : frame_todo y = in_words 16 ++ map Put (tokens_of (repeat y 16))) by (unfold frame_todo; rewrite out_words_put; reflexivity).
    apply (Same _ _ _ _ pa ga (in_words 16) (tokens_of (repeat y 16))); cbn [m_todo m_got m_value m_frame m_hand m_frames]; auto.
    + subst. apply (kinds_words (repeat y 16)).
    + rewrite ED, EG. apply tokens_data.
    + rewrite EC, !app_length. cbn [length]. lia.
    + rewrite EC. apply agree_app; auto. split; cbn [fst snd]; [rewrite WM; reflexivity|exact SC].
  - exfalso. rewrite EM in EM'. discriminate.
Qed.
Lemma mover_hand a m up down : paired a m up down -> m_hand m = true -> paired a (Mover (m_todo m) (m_got m) (m_value m) (m_frame m) false (m_frames m)) up down.
Proof.
  intros PD HT. destruct PD as [pa ga gb pb EA EM KU KD OR HD DU DD LL AG|pa ga calls c EA EM EH ED GA KU DU EG EC LL AG WM SC|ga frames x EA EM EG EU KD EF LL AG XR DD].
  - apply (Same _ _ _ _ pa ga gb pb); auto.
  - congruence.
  - apply (MoverAhead _ _ _ _ ga frames x); auto.
Qed.
End Inv.
