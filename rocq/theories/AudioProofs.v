(** Proofs about the two threads of the audio example. *)
From Coq Require Import List ZArith Bool Arith Lia.
From Verif Require Import MelModel AudioTables AudioModel AudioSpec.
Import ListNotations.
Local Open Scope nat_scope.

Lemma set_at_length l i v : length (set_at l i v) = length l.
Proof. revert i. induction l as [|x l IH]; intros [|i]; cbn; auto. Qed.
Lemma set_at_nth l i v j d : i < length l -> nth j (set_at l i v) d = if Nat.eqb i j then v else nth j l d.
Proof.
  revert i j. induction l as [|x l IH]; intros [|i] [|j] H; cbn in *; try lia; auto. apply IH. lia.
Qed.
Lemma list_eq_nth (a b : list Z) : length a = length b -> (forall j, j < length a -> nth j a 0%Z = nth j b 0%Z) -> a = b.
Proof. intros L H. apply (nth_ext _ _ 0%Z 0%Z); auto. Qed.

Section Threads.
Variable N : nat.
Hypothesis Npos : 0 < N.
Variable D : Type.
Variable process : Z -> D -> list Z -> D * list Z.
Hypothesis process_length : forall b d l, length l = N -> length (snd (process b d l)) = N.

Local Notation results := (AudioSpec.results D process).
Local Notation state_after := (AudioSpec.state_after D process).
Local Notation timely := (AudioSpec.timely N D process).
Local Notation rests := (AudioSpec.rests D).
Local Notation buttons := (AudioSpec.buttons N D process).
Local Notation begins := (AudioSpec.begins D).
Lemma results_app d a b l : results d (a ++ [(b, l)]) = results d a ++ [snd (process b (state_after d a) l)].
Proof. revert d. induction a as [|[b' l'] a IH]; intros d; cbn. { destruct (process b d l); reflexivity. } destruct (process b' d l') eqn:E. cbn. rewrite IH. reflexivity. Qed.
Lemma state_app d a b l : state_after d (a ++ [(b, l)]) = fst (process b (state_after d a) l).
Proof. revert d. induction a as [|[b' l'] a IH]; intros d; cbn; auto. Qed.
Lemma results_length d a : length (results d a) = length a.
Proof. revert d. induction a as [|[b l] a IH]; intros d; cbn; auto. destruct (process b d l). cbn. rewrite IH. auto. Qed.

Section Inv.
Variables (d0 : D) (o0 p0 : list Z).
Hypothesis o0_length : length o0 = N.
Hypothesis p0_length : length p0 = N.

(** [bl]: blocks processed completely; [xs]: samples so far; [os]: what has been sent, one word per frame. *)
Definition outs (bl : list (Z * list Z)) : list (list Z) := o0 :: p0 :: results d0 bl.
Definition cur (m : nat) (bl : list (Z * list Z)) : list Z := nth m (outs bl) [].
Inductive dsp_inv (c : config D) (Bs : list (list Z)) (bl : list (Z * list Z)) : Prop :=
| inv_idle : d_phase D (c_dsp D c) = DIdle -> tokens (c_shared D c) = 0 -> Bs = map snd bl -> d_state D (c_dsp D c) = state_after d0 bl ->
    proc (c_shared D c) = last (results d0 bl) p0 -> dsp_inv c Bs bl
| inv_wait B : d_phase D (c_dsp D c) = DIdle -> tokens (c_shared D c) = 1 -> Bs = map snd bl ++ [B] -> d_state D (c_dsp D c) = state_after d0 bl ->
    proc (c_shared D c) = last (results d0 bl) p0 -> tbp (c_shared D c) = B -> length B = N -> dsp_inv c Bs bl
| inv_read B acc : d_phase D (c_dsp D c) = DRead acc -> tokens (c_shared D c) = 0 -> Bs = map snd bl ++ [B] -> d_state D (c_dsp D c) = state_after d0 bl ->
    proc (c_shared D c) = last (results d0 bl) p0 -> tbp (c_shared D c) = B -> length B = N -> acc = firstn (length acc) B -> length acc < N -> dsp_inv c Bs bl
| inv_write B j b r : d_phase D (c_dsp D c) = DWrite j r -> tokens (c_shared D c) = 0 -> Bs = map snd bl ++ [B] -> length B = N ->
    d_button D (c_dsp D c) = b -> r = snd (process b (state_after d0 bl) B) -> d_state D (c_dsp D c) = state_after d0 (bl ++ [(b, B)]) ->
    length (proc (c_shared D c)) = N -> firstn j (proc (c_shared D c)) = firstn j r -> j < N -> dsp_inv c Bs bl.
Definition idle_inv (c : config D) (Bs : list (list Z)) (bl : list (Z * list Z)) : Prop :=
  d_phase D (c_dsp D c) = DIdle /\ tokens (c_shared D c) = 0 /\ Bs = map snd bl /\ d_state D (c_dsp D c) = state_after d0 bl /\ proc (c_shared D c) = last (results d0 bl) p0.

(** The transport thread: [m] blocks handed over. *)
Inductive t_inv (c : config D) (xs os : list Z) (Bs : list (list Z)) (bl : list (Z * list Z)) : Prop :=
| inv_frame : t_phase (c_transport D c) = TFrame -> t_frame (c_transport D c) < N ->
    xs = concat Bs ++ firstn (t_frame (c_transport D c)) (t_in (c_transport D c)) ->
    os = concat (firstn (length Bs) (outs bl)) ++ firstn (t_frame (c_transport D c)) (cur (length Bs) bl) ->
    skipn (t_frame (c_transport D c)) (t_out (c_transport D c)) = skipn (t_frame (c_transport D c)) (cur (length Bs) bl) ->
    length Bs < length (outs bl) -> dsp_inv c Bs bl -> t_inv c xs os Bs bl
| inv_in0 : t_phase (c_transport D c) = TIn 0 -> t_frame (c_transport D c) = 0 -> xs = concat Bs ++ t_in (c_transport D c) ->
    os = concat (firstn (S (length Bs)) (outs bl)) -> length Bs < length (outs bl) -> dsp_inv c Bs bl -> t_inv c xs os Bs bl
| inv_in j : t_phase (c_transport D c) = TIn j -> 0 < j < N -> t_frame (c_transport D c) = 0 -> xs = concat Bs ++ t_in (c_transport D c) ->
    os = concat (firstn (S (length Bs)) (outs bl)) -> idle_inv c Bs bl ->
    firstn j (tbp (c_shared D c)) = firstn j (t_in (c_transport D c)) -> t_inv c xs os Bs bl
| inv_out j : t_phase (c_transport D c) = TOut j -> j < N -> t_frame (c_transport D c) = 0 -> xs = concat Bs ++ t_in (c_transport D c) ->
    os = concat (firstn (S (length Bs)) (outs bl)) -> idle_inv c Bs bl -> tbp (c_shared D c) = t_in (c_transport D c) ->
    firstn j (t_out (c_transport D c)) = firstn j (proc (c_shared D c)) -> t_inv c xs os Bs bl
| inv_send : t_phase (c_transport D c) = TSend -> t_frame (c_transport D c) = 0 -> xs = concat Bs ++ t_in (c_transport D c) ->
    os = concat (firstn (S (length Bs)) (outs bl)) -> idle_inv c Bs bl -> tbp (c_shared D c) = t_in (c_transport D c) ->
    t_out (c_transport D c) = proc (c_shared D c) -> t_inv c xs os Bs bl.
Definition sized (c : config D) (Bs : list (list Z)) (bl : list (Z * list Z)) : Prop :=
  length (t_in (c_transport D c)) = N /\ length (t_out (c_transport D c)) = N /\ length (tbp (c_shared D c)) = N /\ length (proc (c_shared D c)) = N /\
  Forall (fun B => length B = N) Bs /\ Forall (fun p => length (snd p) = N) bl.
Definition Inv (c : config D) (xs os : list Z) (Bs : list (list Z)) (bl : list (Z * list Z)) : Prop := t_inv c xs os Bs bl /\ sized c Bs bl.

Lemma outs_sized bl : Forall (fun p => length (snd p) = N) bl -> Forall (fun r => length r = N) (outs bl).
Proof.
  intros F. constructor; auto. constructor; auto. clear - F process_length. generalize d0. induction F as [|[b l] bl H F IH]; intros d; cbn; auto.
  destruct (process b d l) as [d' r] eqn:E. constructor; auto. specialize (process_length b d l H). rewrite E in process_length. exact process_length.
Qed.
Lemma outs_length bl : length (outs bl) = S (S (length bl)).
Proof. unfold outs. cbn. rewrite results_length. reflexivity. Qed.
Lemma firstn_S_snoc (A : Type) (l : list A) k d : k < length l -> firstn (S k) l = firstn k l ++ [nth k l d].
Proof. revert k. induction l as [|x l IH]; intros [|k] H; cbn in *; try lia; auto. rewrite (IH k) by lia. reflexivity. Qed.
Lemma skipn_set l f v : f < length l -> skipn (S f) (set_at l f v) = skipn (S f) l.
Proof. revert f. induction l as [|x l IH]; intros [|f] H; cbn in *; try lia; auto. apply (IH f). lia. Qed.
Lemma firstn_set l f v : f < length l -> firstn (S f) (set_at l f v) = firstn f l ++ [v].
Proof. revert f. induction l as [|x l IH]; intros [|f] H; cbn in *; try lia; auto. f_equal. apply (IH f). lia. Qed.
Lemma skipn_nth (l m : list Z) f : skipn f l = skipn f m -> nth f l 0%Z = nth f m 0%Z.
Proof. intros E. assert (H : forall l : list Z, nth f l 0%Z = nth 0 (skipn f l) 0%Z). { clear. induction f as [|f IH]; intros [|x l]; cbn; auto. } rewrite (H l), (H m), E. reflexivity. Qed.
Lemma skipn_S (l m : list Z) f : skipn f l = skipn f m -> skipn (S f) l = skipn (S f) m.
Proof. intros E. assert (H : forall l : list Z, skipn (S f) l = skipn 1 (skipn f l)). { clear. induction f as [|f IH]; intros [|x l]; try reflexivity. exact (IH l). } rewrite (H l), (H m), E. reflexivity. Qed.
Lemma outs_app bl b B : outs (bl ++ [(b, B)]) = outs bl ++ [snd (process b (state_after d0 bl) B)].
Proof. unfold outs. rewrite results_app. reflexivity. Qed.
Lemma last_snoc (l : list (list Z)) x d : last (l ++ [x]) d = x.
Proof. induction l as [|y l IH]; auto. cbn [app last]. destruct (l ++ [x]) eqn:E; [destruct l; discriminate|]. exact IH. Qed.
Lemma nth_last (l : list (list Z)) : nth (length l) (p0 :: l) [] = last l p0.
Proof. destruct l as [|r l] using rev_ind; [reflexivity|]. rewrite last_snoc, app_length. cbn [length]. rewrite Nat.add_1_r. cbn [nth]. rewrite app_nth2, Nat.sub_diag by lia. reflexivity. Qed.
Lemma last_results_length bl : Forall (fun p => length (snd p) = N) bl -> length (last (results d0 bl) p0) = N.
Proof.
  intros F. pose proof (outs_sized bl F) as G. unfold outs in G. inversion G as [|? ? _ G2]. inversion G2 as [|? ? Hp G3]. subst.
  destruct (results d0 bl) as [|r l] using rev_ind; auto. rewrite last_snoc. rewrite Forall_forall in G3. apply G3. apply in_or_app. right. left. auto.
Qed.
Definition busy (c : config D) : bool := match d_phase D (c_dsp D c) with DIdle => false | _ => true end.
(** Buttons and phases of a step of the processing. *)
Lemma dsp_phase c c' o : step N D process c StepD = Some (c', o) ->
  d_button D (c_dsp D c') = d_button D (c_dsp D c) /\ begins c StepD = negb (busy c) /\ (busy c = false -> busy c' = true).
Proof.
  destruct c as [[tb pr tk] t [st bt ph]]. unfold begins, busy. cbn [step c_dsp d_phase c_shared tokens]. destruct ph as [|acc|j r].
  - destruct tk; [discriminate|]. intros [= <- <-]. cbn. auto.
  - destruct (Nat.eqb _ N); [cbn [d_button d_state]; destruct (process _ _ _)|]; intros [= <- <-]; cbn; auto; split; auto; split; auto; discriminate.
  - intros E. cbn [tbp proc tokens d_state d_button] in E. assert (E' : c' = Config D (Shared tb (set_at pr j (nth j r 0%Z)) tk) t (Dsp D st bt (if Nat.eqb (S j) N then DIdle else DWrite (S j) r))) by congruence. subst c'. cbn [c_dsp d_button]. split; auto. split; auto. discriminate.
Qed.
(** A step of the processing changes nothing the transport thread uses, unless a block is finished. *)
Lemma dsp_step c c' o Bs bl : step N D process c StepD = Some (c', o) -> dsp_inv c Bs bl -> sized c Bs bl ->
  o = [] /\ c_transport D c' = c_transport D c /\
  ((dsp_inv c' Bs bl /\ sized c' Bs bl /\ busy c' = true) \/ exists b B, busy c = true /\ busy c' = false /\ Bs = map snd bl ++ [B] /\ length B = N /\ dsp_inv c' Bs (bl ++ [(b, B)]) /\ sized c' Bs (bl ++ [(b, B)]) /\ b = d_button D (c_dsp D c)).
Proof.
  destruct c as [[tb pr tk] t [st bt ph]]. intros H I (Z1 & Z2 & Z3 & Z4 & Z5 & Z6). cbn [c_transport c_shared c_dsp tbp proc tokens] in *.
  inversion I as [Hp Ht HB Hs Hpr|B Hp Ht HB Hs Hpr Htb HL|B acc Hp Ht HB Hs Hpr Htb HL Ha Hl|B j b r Hp Ht HB HL Hb Hr Hs HLp Hf Hj]; cbn [c_transport c_shared c_dsp tbp proc tokens d_phase d_state d_button] in *; subst ph; cbn [step d_phase c_shared tokens] in H.
  - rewrite Ht in H. discriminate.
  - rewrite Ht in H. injection H as <- <-. split; [auto|split; [reflexivity|left]]. split; [|split; [unfold sized; cbn; auto 10|reflexivity]].
    apply (inv_read _ _ _ B []); cbn; auto.
  - cbn [tbp] in H. rewrite app_length in H. cbn [length] in H.
    assert (Hacc : acc ++ [nth (length acc) tb 0%Z] = firstn (S (length acc)) B) by (rewrite (firstn_S_snoc _ B _ 0%Z) by lia; rewrite <- Ha, Htb; reflexivity).
    destruct (Nat.eqb_spec (length acc + 1) N) as [E|E].
    + rewrite Hacc in H. rewrite firstn_all2 in H by lia. cbn [d_button d_state] in H. destruct (process bt st B) as [st' r] eqn:P. injection H as <- <-. split; [auto|split; [reflexivity|left]]. split; [|split; [unfold sized; cbn; auto 10|reflexivity]].
      apply (inv_write _ _ _ B 0 bt r); cbn; auto.
      * rewrite <- Hs, P. reflexivity.
      * rewrite state_app, <- Hs, P. reflexivity.
    + injection H as <- <-. split; [auto|split; [reflexivity|left]]. split; [|split; [unfold sized; cbn; auto 10|reflexivity]].
      apply (inv_read _ _ _ B (acc ++ [nth (length acc) tb 0%Z])); cbn; auto.
      * rewrite app_length. cbn [length]. replace (length acc + 1) with (S (length acc)) by lia. exact Hacc.
      * rewrite app_length. cbn [length]. lia.
  - cbn [tbp proc tokens d_button d_state] in H.
    assert (HLr : length r = N) by (subst r; apply process_length; auto).
    assert (Hf' : firstn (S j) (set_at pr j (nth j r 0%Z)) = firstn (S j) r) by (rewrite firstn_set by lia; rewrite Hf; symmetry; apply firstn_S_snoc; lia).
    destruct (Nat.eqb_spec (S j) N) as [E|E]; injection H as <- <-; (split; [auto|split; [reflexivity|]]).
    + right. exists bt, B. split; [reflexivity|]. split; [reflexivity|]. split; [auto|]. split; [auto|].
      assert (Hset : set_at pr j (nth j r 0%Z) = r) by (rewrite E, !firstn_all2 in Hf' by (rewrite ?set_at_length; lia); exact Hf').
      split; [|split; [unfold sized; cbn; rewrite set_at_length; repeat (split; auto); apply Forall_app; split; auto|reflexivity]].
      subst b. apply inv_idle; cbn [c_shared c_dsp d_phase d_state tokens proc]; auto.
      * rewrite map_app. cbn. exact HB.
      * rewrite results_app, last_snoc, Hset. exact Hr.
    + left. split; [|split; [unfold sized; cbn; rewrite set_at_length; auto 10|reflexivity]].
      apply (inv_write _ _ _ B (S j) bt r); cbn; auto; try lia; try (subst b; auto); rewrite ?set_at_length; auto.
Qed.
Lemma map_snd_length (bl : list (Z * list Z)) : length (map snd bl) = length bl.
Proof. apply map_length. Qed.
(** What has been sent does not depend on blocks finished later. *)
Lemma outs_prefix bl b B k : k <= length (outs bl) -> firstn k (outs (bl ++ [(b, B)])) = firstn k (outs bl).
Proof. intros H. rewrite outs_app, firstn_app. replace (k - length (outs bl)) with 0 by lia. cbn [firstn]. apply app_nil_r. Qed.
Lemma cur_prefix bl b B k : k < length (outs bl) -> cur k (bl ++ [(b, B)]) = cur k bl.
Proof. intros H. unfold cur. rewrite outs_app. apply app_nth1. exact H. Qed.
Lemma t_inv_dsp c c' xs os Bs bl : c_transport D c' = c_transport D c -> (t_phase (c_transport D c) = TFrame \/ t_phase (c_transport D c) = TIn 0) -> length Bs < length (outs bl) ->
  t_inv c xs os Bs bl -> dsp_inv c' Bs bl -> t_inv c' xs os Bs bl.
Proof.
  intros E P L H I. destruct H as [H1 H2 H3 H4 H5 H6 H7|H1 H2 H3 H4 H5 H6|j H1 H2 H3 H4 H5 H6 H7|j H1 H2 H3 H4 H5 H6 H7 H8|H1 H2 H3 H4 H5 H6 H7].
  - apply inv_frame; rewrite ?E; auto.
  - apply inv_in0; rewrite ?E; auto.
  - exfalso. rewrite H1 in P. destruct P as [P|P]; [discriminate|]. injection P as ->. lia.
  - exfalso. rewrite H1 in P. destruct P; discriminate.
  - exfalso. rewrite H1 in P. destruct P; discriminate.
Qed.
Lemma t_inv_grow c c' xs os Bs bl b B : c_transport D c' = c_transport D c -> (t_phase (c_transport D c) = TFrame \/ t_phase (c_transport D c) = TIn 0) -> Bs = map snd bl ++ [B] ->
  t_inv c xs os Bs bl -> dsp_inv c' Bs (bl ++ [(b, B)]) -> t_inv c' xs os Bs (bl ++ [(b, B)]).
Proof.
  intros E P EB H I. assert (L : length Bs < length (outs bl)) by (rewrite EB, app_length, map_length, outs_length; cbn; lia).
  assert (L' : length Bs < length (outs (bl ++ [(b, B)]))) by (rewrite outs_app, app_length; lia).
  destruct H as [H1 H2 H3 H4 H5 H6 H7|H1 H2 H3 H4 H5 H6|j H1 H2 H3 H4 H5 H6 H7|j H1 H2 H3 H4 H5 H6 H7 H8|H1 H2 H3 H4 H5 H6 H7].
  - apply inv_frame; rewrite ?E; auto; rewrite ?outs_prefix, ?cur_prefix by lia; auto.
  - apply inv_in0; rewrite ?E; auto. rewrite outs_prefix by lia. auto.
  - exfalso. rewrite H1 in P. destruct P as [P|P]; [discriminate|]. injection P as ->. lia.
  - exfalso. rewrite H1 in P. destruct P; discriminate.
  - exfalso. rewrite H1 in P. destruct P; discriminate.
Qed.
Lemma dsp_blocks c Bs bl : dsp_inv c Bs bl -> length Bs < length (outs bl).
Proof. rewrite outs_length. intros [? ? E|? ? ? E|? ? ? ? E|? ? ? ? ? ? E]; rewrite E, ?app_length, map_length; cbn; lia. Qed.

(** [b]: the value sent last; [used]: the values when the blocks began. *)
Definition buttons_ok (c : config D) (bl : list (Z * list Z)) (b : Z) (used : list Z) : Prop :=
  d_button D (c_dsp D c) = b /\ used = map fst bl ++ (match d_phase D (c_dsp D c) with DIdle => [] | _ => [b] end).
Definition first_words (o : list Z) : list Z := match o with [] => [] | x :: _ => [x] end.
Definition frame_shape (o : list Z) : Prop := o = [] \/ exists x, o = repeat x 16.

Lemma step_inv c a c' o xs os Bs bl b0 used : step N D process c a = Some (c', o) -> (a = StepT -> copying (t_phase (c_transport D c)) -> rests c) ->
  Inv c xs os Bs bl -> buttons_ok c bl b0 used ->
  frame_shape o /\ exists Bs' bl', Inv c' (xs ++ samples [a]) (os ++ first_words o) Bs' bl' /\ buttons_ok c' bl' (now_pressed b0 a) (used ++ if begins c a then [b0] else []).
Proof.
  intros H T (I & Sz) (B1 & B2). destruct a as [ws| | |v].
  - (* a frame *)
    destruct c as [s t d]. cbn [step] in H. destruct (t_phase t) eqn:P; try discriminate. destruct ws as [|x ws]; [discriminate|].
    destruct I as [H1 H2 H3 H4 H5 H6 H7|H1 H2 H3 H4 H5 H6|j H1 H2 H3 H4 H5 H6 H7|j H1 H2 H3 H4 H5 H6 H7 H8|H1 H2 H3 H4 H5 H6 H7]; cbn [c_transport c_shared c_dsp] in *; try congruence.
    destruct Sz as (Z1 & Z2 & Z3 & Z4 & Z5 & Z6). cbn [c_transport c_shared c_dsp] in *. cbn [samples now_pressed]. rewrite app_nil_r.
    assert (HC : length (cur (length Bs) bl) = N). { unfold cur. pose proof (outs_sized bl Z6) as F. rewrite Forall_forall in F. apply F. apply nth_In. exact H6. }
    assert (Hx : nth (t_frame t) (t_out t) 0%Z = nth (t_frame t) (cur (length Bs) bl) 0%Z) by (apply skipn_nth; exact H5).
    assert (HI : firstn (S (t_frame t)) (set_at (t_in t) (t_frame t) x) = firstn (t_frame t) (t_in t) ++ [x]) by (apply firstn_set; lia).
    assert (HO : firstn (S (t_frame t)) (cur (length Bs) bl) = firstn (t_frame t) (cur (length Bs) bl) ++ [nth (t_frame t) (cur (length Bs) bl) 0%Z]) by (apply firstn_S_snoc; lia).
    assert (Hd : forall t', dsp_inv (Config D s t' d) Bs bl).
    { clear B1 B2. intros t'. destruct H7 as [? ? ? ? ?|B ? ? ? ? ? ? ?|B acc ? ? ? ? ? ? ? ?|B j b r ? ? ? ? ? ? ? ? ?]; [eapply inv_idle|eapply inv_wait|eapply inv_read|eapply inv_write]; cbn in *; eauto. }
    destruct (Nat.eqb_spec (S (t_frame t)) N) as [E|E]; injection H as <- <-; (split; [right; eexists; reflexivity|]); exists Bs, bl; (split; [split|split; [exact B1|cbn in B2 |- *; rewrite ?app_nil_r; exact B2]]); cbn [first_words repeat].
    + apply inv_in0; cbn [c_transport t_phase t_frame t_in t_out]; auto.
      * rewrite H3, <- app_assoc. f_equal. rewrite <- HI. rewrite E. apply firstn_all2. rewrite set_at_length. lia.
      * rewrite H4, Hx, <- app_assoc. rewrite <- HO, E, (firstn_all2 (cur (length Bs) bl)) by lia. rewrite (firstn_S_snoc _ (outs bl) _ []) by exact H6. rewrite concat_app. cbn. rewrite app_nil_r. reflexivity.
    + unfold sized; cbn. rewrite !set_at_length. auto 10.
    + apply inv_frame; cbn [c_transport t_phase t_frame t_in t_out]; auto; try lia.
      * rewrite H3, <- app_assoc, HI. reflexivity.
      * rewrite H4, Hx, <- app_assoc, HO. reflexivity.
      * rewrite skipn_set by lia. apply skipn_S. exact H5.
    + unfold sized; cbn. rewrite !set_at_length. auto 10.
  - (* the transport thread *)
    specialize (T eq_refl). destruct c as [[tb pr tk] t d]. cbn [step] in H. cbn [samples now_pressed]. rewrite !app_nil_r.
    destruct Sz as (Z1 & Z2 & Z3 & Z4 & Z5 & Z6). cbn [c_transport c_shared c_dsp tbp proc tokens] in *.
    destruct (t_phase t) as [|j|j|] eqn:P; [discriminate| | |].
    + (* memcpy in *)
      specialize (T Logic.I). destruct T as (T1 & T2). cbn in T1, T2.
      assert (ID : idle_inv (Config D (Shared tb pr tk) t d) Bs bl /\ os = concat (firstn (S (length Bs)) (outs bl)) /\ xs = concat Bs ++ t_in t /\ t_frame t = 0 /\ firstn j tb = firstn j (t_in t) /\ j < N).
      { destruct I as [H1 H2 H3 H4 H5 H6 H7|H1 H2 H3 H4 H5 H6|j' H1 H2 H3 H4 H5 H6 H7|j' H1 H2 H3 H4 H5 H6 H7 H8|H1 H2 H3 H4 H5 H6 H7]; cbn [c_transport c_shared c_dsp tbp] in *; try congruence.
        - rewrite P in H1. injection H1 as ->. split; [inversion H6; cbn in *; try congruence; unfold idle_inv; cbn; auto 10|]. auto 10.
        - rewrite P in H1. injection H1 as ->. split; [auto|]. split; [auto|]. split; [auto|]. split; [auto|]. split; [auto|]. lia. }
      destruct ID as ((J1 & J2 & J3 & J4 & J5) & K1 & K2 & K3 & K4 & K5). cbn in J1, J2, J4, J5.
      assert (HI : firstn (S j) (set_at tb j (nth j (t_in t) 0%Z)) = firstn (S j) (t_in t)) by (rewrite firstn_set by lia; rewrite K4; symmetry; apply firstn_S_snoc; lia).
      remember (Nat.eqb (S j) N) as q eqn:Eq. injection H as <- <-. split; [left; auto|]. exists Bs, bl. cbn [first_words]. rewrite app_nil_r. split; [split|split; auto].
      * destruct (Nat.eqb_spec (S j) N) as [E|E]; subst q.
        -- apply (inv_out _ _ _ _ _ 0); cbn [c_transport c_shared t_phase t_frame t_in t_out tbp]; auto; try (unfold idle_inv; cbn; auto 10).
           rewrite E, !firstn_all2 in HI by (rewrite ?set_at_length; lia). exact HI.
        -- apply (inv_in _ _ _ _ _ (S j)); cbn [c_transport c_shared t_phase t_frame t_in t_out tbp]; auto; try lia. unfold idle_inv; cbn; auto 10.
      * unfold sized; cbn. rewrite set_at_length. auto 10.
    + (* memcpy out *)
      destruct I as [H1 H2 H3 H4 H5 H6 H7|H1 H2 H3 H4 H5 H6|j' H1 H2 H3 H4 H5 H6 H7|j' H1 H2 H3 H4 H5 H6 H7 H8|H1 H2 H3 H4 H5 H6 H7]; cbn [c_transport c_shared c_dsp tbp proc] in *; try congruence.
      rewrite P in H1. injection H1 as ->.
      assert (HI : firstn (S j') (set_at (t_out t) j' (nth j' pr 0%Z)) = firstn (S j') pr) by (rewrite firstn_set by lia; rewrite H8; symmetry; apply firstn_S_snoc; lia).
      remember (Nat.eqb (S j') N) as q eqn:Eq. injection H as <- <-. split; [left; auto|]. exists Bs, bl. cbn [first_words]. rewrite app_nil_r. split; [split|split; auto].
      * destruct (Nat.eqb_spec (S j') N) as [E|E]; subst q.
        -- apply inv_send; cbn [c_transport c_shared t_phase t_frame t_in t_out tbp]; auto.
           rewrite E, !firstn_all2 in HI by (rewrite ?set_at_length; lia). exact HI.
        -- apply (inv_out _ _ _ _ _ (S j')); cbn [c_transport c_shared t_phase t_frame t_in t_out tbp]; auto; try lia.
      * unfold sized; cbn. rewrite set_at_length. auto 10.
    + (* the token *)
      destruct I as [H1 H2 H3 H4 H5 H6 H7|H1 H2 H3 H4 H5 H6|j' H1 H2 H3 H4 H5 H6 H7|j' H1 H2 H3 H4 H5 H6 H7 H8|H1 H2 H3 H4 H5 H6 H7]; cbn [c_transport c_shared c_dsp tbp proc] in *; try congruence.
      destruct H5 as (J1 & J2 & J3 & J4 & J5). cbn in J1, J2, J4, J5.
      injection H as <- <-. split; [left; auto|]. exists (Bs ++ [tb]), bl. cbn [first_words]. rewrite app_nil_r. split; [split|split; auto].
      * apply inv_frame; cbn [c_transport c_shared t_phase t_frame t_in t_out tbp]; auto.
        -- rewrite H2. exact Npos.
        -- rewrite H2. cbn [firstn]. rewrite app_nil_r, concat_app. cbn. rewrite app_nil_r, <- H6 in *. exact H3.
        -- rewrite H2. cbn [firstn]. rewrite app_nil_r, app_length. cbn [length]. rewrite Nat.add_1_r. exact H4.
        -- rewrite H2. cbn [skipn]. rewrite app_length. cbn [length]. rewrite H7, J5. unfold cur, outs. rewrite J3, map_length, Nat.add_1_r.
           cbn [nth]. rewrite <- (results_length d0 bl). symmetry. apply nth_last.
        -- rewrite outs_length, app_length, J3, map_length. cbn. lia.
        -- apply (inv_wait _ _ _ tb); cbn; auto. congruence.
      * unfold sized; cbn. repeat (split; auto). apply Forall_app. split; auto.
  - (* the processing *)
    cbn [samples now_pressed]. rewrite !app_nil_r.
    assert (P : t_phase (c_transport D c) = TFrame \/ t_phase (c_transport D c) = TIn 0).
    { destruct I as [H1 H2 H3 H4 H5 H6 H7|H1 H2 H3 H4 H5 H6|j' H1 H2 H3 H4 H5 H6 H7|j' H1 H2 H3 H4 H5 H6 H7 H8|H1 H2 H3 H4 H5 H6 H7]; auto; exfalso; destruct c as [s t d]; cbn [step] in H; cbn [c_transport c_shared c_dsp] in *;
      (let K := match goal with K : idle_inv _ _ _ |- _ => K end in destruct K as (J1 & J2 & _); cbn in J1, J2; rewrite J1, J2 in H; discriminate). }
    assert (DI : dsp_inv c Bs bl).
    { destruct I as [H1 H2 H3 H4 H5 H6 H7|H1 H2 H3 H4 H5 H6|j' H1 H2 H3 H4 H5 H6 H7|j' H1 H2 H3 H4 H5 H6 H7 H8|H1 H2 H3 H4 H5 H6 H7]; auto; exfalso; rewrite H1 in P; destruct P as [P|P]; try discriminate. injection P as ->. lia. }
    destruct (dsp_step c c' o Bs bl H DI Sz) as (-> & ET & [(DI' & Sz' & Bc')|(b & B & Bc & Bc' & EB & LB & DI' & Sz' & Eb)]); (split; [left; auto|]); cbn [first_words]; rewrite app_nil_r.
    + exists Bs, bl. split; [split; auto; apply (t_inv_dsp c); auto; apply (dsp_blocks c); auto|]. destruct (dsp_phase c c' [] H) as (Q1 & Q2 & Q3).
      split; [rewrite Q1; exact B1|]. rewrite B2, Q2. unfold busy in *. destruct (d_phase D (c_dsp D c')); [discriminate| |]; destruct (d_phase D (c_dsp D c)); cbn [negb]; rewrite ?app_nil_r; auto.
    + exists Bs, (bl ++ [(b, B)]). destruct (dsp_phase c c' [] H) as (Q1 & Q2 & Q3). split; [split; auto|].
      * apply (t_inv_grow c); auto.
      * split; [rewrite Q1; exact B1|]. rewrite B2, Q2, Bc. cbn [negb]. rewrite app_nil_r. unfold busy in *. destruct (d_phase D (c_dsp D c')); [|discriminate..]. rewrite map_app, app_nil_r. cbn [map fst]. rewrite Eb, B1. destruct (d_phase D (c_dsp D c)); [discriminate|reflexivity..].
  - (* a button *)
    cbn [samples now_pressed]. destruct c as [s t [st bt ph]]. cbn [step d_phase] in H. destruct ph; try discriminate. injection H as <- <-. split; [left; auto|]. exists Bs, bl. cbn [first_words]. rewrite !app_nil_r.
    assert (Hd : forall Bs bl, dsp_inv (Config D s t (Dsp D st bt DIdle)) Bs bl -> dsp_inv (Config D s t (Dsp D st v DIdle)) Bs bl).
    { intros Bs' bl' [? ? ? ? ?|B ? ? ? ? ? ? ?|B acc ? ? ? ? ? ? ? ?|B j b r ? ? ? ? ? ? ? ? ?]; cbn in *; try discriminate; [eapply inv_idle|eapply inv_wait]; cbn; eauto. }
    split; [split; [|exact Sz]|].
    + destruct I as [H1 H2 H3 H4 H5 H6 H7|H1 H2 H3 H4 H5 H6|j' H1 H2 H3 H4 H5 H6 H7|j' H1 H2 H3 H4 H5 H6 H7 H8|H1 H2 H3 H4 H5 H6 H7]; cbn [c_transport c_shared c_dsp] in *;
        [apply inv_frame|apply inv_in0|apply (inv_in _ _ _ _ _ j')|apply (inv_out _ _ _ _ _ j')|apply inv_send]; cbn [c_transport c_shared]; auto.
    + split; [reflexivity|]. cbn in B2 |- *. rewrite ?app_nil_r in *. exact B2.
Qed.

Lemma run_inv l : forall c xs os Bs bl b used c' o, run N D process c l = Some (c', o) -> timely c l -> Inv c xs os Bs bl -> buttons_ok c bl b used ->
  exists os' Bs' bl', o = concat (map (fun x => repeat x 16) os') /\ Inv c' (xs ++ samples l) (os ++ os') Bs' bl' /\ exists b', buttons_ok c' bl' b' (used ++ buttons b c l).
Proof.
  induction l as [|a l IH]; intros c xs os Bs bl b used c' o H T I B.
  - cbn in H. injection H as <- <-. exists [], Bs, bl. cbn. rewrite !app_nil_r. eauto.
  - cbn [run] in H. destruct (step N D process c a) as [(c1 & o1)|] eqn:E; [|discriminate]. destruct (run N D process c1 l) as [(c2 & o2)|] eqn:R; [|discriminate]. injection H as <- <-.
    cbn [timely] in T. rewrite E in T. destruct T as (T1 & T2).
    destruct (step_inv c a c1 o1 xs os Bs bl b used E T1 I B) as (F & Bs1 & bl1 & I1 & B1).
    destruct (IH c1 _ _ Bs1 bl1 _ _ c2 o2 R T2 I1 B1) as (os' & Bs' & bl' & Eo & I' & b' & B').
    exists (first_words o1 ++ os'), Bs', bl'. rewrite <- (app_assoc xs), <- (app_assoc os) in I'. rewrite <- (app_assoc used) in B'. split; [|split].
    + rewrite map_app, concat_app, <- Eo. f_equal. destruct F as [->|(x & ->)]; [reflexivity|]. cbn. reflexivity.
    + replace (samples (a :: l)) with (samples [a] ++ samples l); [exact I'|]. destruct a as [[|x ws]| | |v]; reflexivity.
    + exists b'. cbn [AudioSpec.buttons]. rewrite E. exact B'.
Qed.

Lemma concat_length (A : Type) (l : list (list A)) : Forall (fun x => length x = N) l -> length (concat l) = length l * N.
Proof. induction 1 as [|x l H F IH]; auto. cbn [concat length]. rewrite app_length. lia. Qed.
Lemma firstn_concat (A : Type) (l : list (list A)) k f : Forall (fun x => length x = N) l -> k < length l -> f <= N -> firstn (k * N + f) (concat l) = concat (firstn k l) ++ firstn f (nth k l []).
Proof.
  intros F. revert k. induction F as [|x l H F IH]; intros k L Hf; [cbn in L; lia|]. destruct k as [|k].
  - cbn [firstn concat Nat.mul Nat.add nth app]. rewrite firstn_app. replace (f - length x) with 0 by lia. cbn [firstn]. apply app_nil_r.
  - cbn [firstn concat nth]. rewrite <- app_assoc, <- IH by (cbn in L; lia). replace (S k * N + f) with (length x + (k * N + f)) by (cbn; lia). rewrite firstn_app_2. reflexivity.
Qed.
Lemma inv_result c xs os Bs bl : Inv c xs os Bs bl ->
  os = firstn (length xs) (concat (outs bl)) /\ length xs <= length (concat (outs bl)) /\ concat (map snd bl) = firstn (length bl * N) xs /\ Forall (fun p => length (snd p) = N) bl.
Proof.
  intros (I & (Z1 & Z2 & Z3 & Z4 & Z5 & Z6)). pose proof (outs_sized bl Z6) as FO. pose proof (concat_length _ _ FO) as LO. pose proof (concat_length _ _ Z5) as LB.
  assert (PB : exists B, Bs = map snd bl ++ B /\ length B <= 1).
  { destruct I as [H1 H2 H3 H4 H5 H6 H7|H1 H2 H3 H4 H5 H6|j H1 H2 H3 H4 H5 H6 H7|j H1 H2 H3 H4 H5 H6 H7 H8|H1 H2 H3 H4 H5 H6 H7];
      try (destruct H7 as [? ? E|? ? ? E|? ? ? ? E|? ? ? ? ? ? E]; [exists []; rewrite app_nil_r; auto|eexists; split; [exact E|cbn; lia]..]);
      try (destruct H6 as [? ? E|? ? ? E|? ? ? ? E|? ? ? ? ? ? E]; [exists []; rewrite app_nil_r; auto|eexists; split; [exact E|cbn; lia]..]);
      try (destruct H6 as (_ & _ & E & _); exists []; rewrite app_nil_r; auto); try (destruct H5 as (_ & _ & E & _); exists []; rewrite app_nil_r; auto). }
  assert (XS : exists r, xs = concat Bs ++ r) by (destruct I; eauto). destruct PB as (B & EB & LB1). destruct XS as (r & EX).
  assert (C3 : concat (map snd bl) = firstn (length bl * N) xs).
  { rewrite EX, EB, concat_app, <- app_assoc, firstn_app.
    assert (L : length (concat (map snd bl)) = length bl * N). { rewrite concat_length; [rewrite map_length; auto|]. clear - Z6. induction Z6; cbn; auto. }
    rewrite <- L, Nat.sub_diag, firstn_all. cbn. rewrite app_nil_r. reflexivity. }
  assert (LT : length Bs < length (outs bl)) by (rewrite EB, app_length, map_length, outs_length; lia).
  assert (KEY : forall f, f <= N -> length xs = length Bs * N + f -> os = concat (firstn (length Bs) (outs bl)) ++ firstn f (cur (length Bs) bl) -> os = firstn (length xs) (concat (outs bl)) /\ length xs <= length (concat (outs bl))).
  { intros f Hf L E. split; [rewrite L, firstn_concat by auto; exact E|]. rewrite LO, L. nia. }
  assert (LS : forall L, length xs = length Bs * N + L -> L = N -> os = concat (firstn (S (length Bs)) (outs bl)) -> os = firstn (length xs) (concat (outs bl)) /\ length xs <= length (concat (outs bl))).
  { intros L E1 -> E2. apply (KEY N); auto. rewrite E2, (firstn_S_snoc _ (outs bl) _ []) by exact LT. rewrite concat_app. cbn [concat]. rewrite app_nil_r. f_equal. symmetry. apply firstn_all2.
    assert (HC : length (nth (length Bs) (outs bl) []) = N) by (rewrite Forall_forall in FO; apply FO; apply nth_In; exact LT). unfold cur. lia. }
  enough (os = firstn (length xs) (concat (outs bl)) /\ length xs <= length (concat (outs bl))) by tauto.
  destruct I as [H1 H2 H3 H4 H5 H6 H7|H1 H2 H3 H4 H5 H6|j H1 H2 H3 H4 H5 H6 H7|j H1 H2 H3 H4 H5 H6 H7 H8|H1 H2 H3 H4 H5 H6 H7].
  - apply (KEY (t_frame (c_transport D c))); auto; [lia|]. rewrite H3, app_length, LB, firstn_length. lia.
  - apply (LS (length (t_in (c_transport D c)))); auto. rewrite H3, app_length, LB. reflexivity.
  - apply (LS (length (t_in (c_transport D c)))); auto. rewrite H4, app_length, LB. reflexivity.
  - apply (LS (length (t_in (c_transport D c)))); auto. rewrite H4, app_length, LB. reflexivity.
  - apply (LS (length (t_in (c_transport D c)))); auto. rewrite H3, app_length, LB. reflexivity.
Qed.
End Inv.
End Threads.
