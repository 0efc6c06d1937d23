(** C107: what the host reads over USB is what the TFLite function returns. *)
From Coq Require Import Relations Permutation.
From Verif Require Import Base NdSpec MemPlanModel MemPlanSpec MemExecSpec MemExecProofs MemPlanBuild MemPlanMain MemPlanExtra MemPlanProps.
From Verif Require Import FunModel FunSpec ArenasModel ArenasSpec ArenasProofs ArenasProps StackSpec StackProps HostModel HostSpec HostProofs HostProps ServeModel ServeSpec.
Local Open Scope Z_scope.

Lemma nth_f2 {A B} (R : A -> B -> Prop) l l' : Forall2 R l l' -> forall i y, nth_error l' i = Some y -> exists x, nth_error l i = Some x /\ R x y.
Proof. induction 1 as [|x y l l' Hxy F IH]; intros [|i] z Hz; cbn in *; try discriminate; [injection Hz as <-; eauto|apply IH; auto]. Qed.
Lemma nth_f2' {A B} (R : A -> B -> Prop) l l' : Forall2 R l l' -> forall i x, nth_error l i = Some x -> exists y, nth_error l' i = Some y /\ R x y.
Proof. induction 1 as [|x y l l' Hxy F IH]; intros [|i] z Hz; cbn in *; try discriminate; [injection Hz as <-; eauto|apply IH; auto]. Qed.

Lemma f2_length {A B} (R : A -> B -> Prop) l l' : Forall2 R l l' -> length l = length l'.
Proof. induction 1; cbn; auto. Qed.

Lemma serve_all_cons N pad e es m m' r rs : serve N pad e m = Some (m', r) -> serve_all N pad es m' = Some rs -> serve_all N pad (e :: es) m = Some (r ++ rs).
Proof. intros H1 H2. cbn [serve_all]. rewrite H1, H2. reflexivity. Qed.

Section Device.
Variables (f : func) (N : net).
Hypothesis CF : compiled_from f N.
Hypothesis RA : results_in_arena N.
Let C : compiled N := proj1 (compiled_from_facts f N CF).

Lemma arg_param i p : nth_error (f_params f) i = Some p -> exists v, nth_error (g_args (n_graph N)) i = Some (v, Z.of_nat (tsize (snd p))).
Proof.
  intros H. set (ins := map (fun p : nat * ty => repeat 0 (tsize (snd p))) (f_params f)).
  assert (S : sized (f_params f) ins).
  { unfold sized, ins. clear. induction (f_params f) as [|q l IH]; cbn; constructor; auto. apply repeat_length. }
  destruct (proj2 (compiled_from_facts f N CF) ins S) as (F & _). unfold fits in F.
  assert (Hi : nth_error ins i = Some (repeat 0 (tsize (snd p)))).
  { unfold ins. rewrite nth_error_map, H. reflexivity. }
  destruct (nth_f2' _ _ _ F i _ Hi) as ((v & s) & Hv & Es). cbn in Es. rewrite repeat_length in Es. subst s. eauto.
Qed.
Lemma args_length : length (g_args (n_graph N)) = length (f_params f).
Proof.
  set (ins := map (fun p : nat * ty => repeat 0 (tsize (snd p))) (f_params f)).
  assert (S : sized (f_params f) ins).
  { unfold sized, ins. clear. induction (f_params f) as [|q l IH]; cbn; constructor; auto. apply repeat_length. }
  destruct (proj2 (compiled_from_facts f N CF) ins S) as (F & _). unfold fits in F. apply f2_length in F.
  unfold ins in F. rewrite map_length in F. auto.
Qed.

Lemma arg_place i v s : nth_error (g_args (n_graph N)) i = Some (v, s) ->
  exists z, net_locs N v = Some (n_base N + z, s) /\ offset_of (n_graph N) (n_offs N) v z.
Proof.
  intros H. apply nth_error_In in H. assert (A : arena_tensor (n_graph N) v s) by (left; auto).
  pose proof (compiled_placed N C) as P. pose proof (pl_complete _ P) as Cp. pose proof Cp as (_ & _ & C3 & _).
  destruct (C3 v s A) as [z Hz]. exists z. split; auto.
  unfold net_locs. rewrite (offset_locs _ _ _ _ _ (pl_wf _ P) Cp A Hz (tensors_nodup _ (pl_wf _ P))). reflexivity.
Qed.

Lemma args_apart i j v w s t y z : i <> j ->
  nth_error (g_args (n_graph N)) i = Some (v, s) -> nth_error (g_args (n_graph N)) j = Some (w, t) ->
  net_locs N v = Some (y, s) -> net_locs N w = Some (z, t) -> disjoint_ranges y s z t.
Proof.
  intros Hij Hv Hw Ly Lz.
  destruct (arg_place _ _ _ Hv) as (y' & Ly' & Oy). destruct (arg_place _ _ _ Hw) as (z' & Lz' & Oz).
  rewrite Ly' in Ly. injection Ly as <-. rewrite Lz' in Lz. injection Lz as <-.
  pose proof C as (W & WO & CG & (iter & garbage & ma & I & PM & E & _) & _).
  assert (Ne : v <> w).
  { intros ->. pose proof (wf_nodup _ W) as ND. unfold all_names in ND. apply nodup_split in ND. destruct ND as (ND & _ & _).
    unfold arg_names in ND. apply Hij. rewrite NoDup_nth_error in ND. apply ND.
    - rewrite map_length. apply nth_error_Some. rewrite Hv. discriminate.
    - rewrite !nth_error_map, Hv, Hw. reflexivity. }
  assert (Iv : In v (arg_names (n_graph N))) by (apply in_map_iff; exists (v, s); split; auto; eapply nth_error_In; eauto).
  assert (Iw : In w (arg_names (n_graph N))) by (apply in_map_iff; exists (w, t); split; auto; eapply nth_error_In; eauto).
  assert (Av : arena_tensor (n_graph N) v s) by (left; eapply nth_error_In; eauto).
  assert (Aw : arena_tensor (n_graph N) w t) by (left; eapply nth_error_In; eauto).
  assert (D : disjoint_ranges y' s z' t).
  { destruct (plan_memory_spec iter _ garbage ma PM) as (pw & pn & G1 & G2 & _ & _ & [[Eo _]|[Eo _]]); rewrite E, Eo in Oy, Oz.
    - exact (proj2 (C06_overlap_keeps_apart iter _ garbage pw I W WO CG G1 v s y' w t z' Ne Av Aw Oy Oz) Iv Iw).
    - exact (C01_live_tensors_disjoint iter _ _ pn I W G2 v s y' w t z' Ne Av Aw Oy Oz (or_intror (conj Iv Iw))). }
  intros x Hx. apply (D (x - n_base N)). lia.
Qed.

(** ** What is in the memory *)
Definition holds (m : memory) (i : nat) (d : bytes) : Prop :=
  exists v s z, nth_error (g_args (n_graph N)) i = Some (v, s) /\ net_locs N v = Some (z, s) /\ Z.of_nat (length d) = s /\ read m z (length d) = d.

Lemma holds_write m i d v s z : nth_error (g_args (n_graph N)) i = Some (v, s) -> net_locs N v = Some (z, s) -> Z.of_nat (length d) = s ->
  holds (write m z d) i d.
Proof. intros. exists v, s, z. repeat split; auto. apply read_write_same. Qed.
Lemma holds_other m i d v s z j d' : nth_error (g_args (n_graph N)) i = Some (v, s) -> net_locs N v = Some (z, s) -> Z.of_nat (length d) = s ->
  i <> j -> holds m j d' -> holds (write m z d) j d'.
Proof.
  intros Hv Lv Sv Hij (w & t & y & Hw & Lw & St & R). exists w, t, y. repeat split; auto. rewrite read_write_other; auto.
  rewrite Sv, St. eapply args_apart; eauto.
Qed.

Lemma write_present m z b : read m z (length b) = b -> forall x, write m z b x = m x.
Proof.
  intros R x. unfold write. destruct (_ && _) eqn:E; auto. apply andb_prop in E. destruct E as [E1 E2].
  rewrite <- R at 1. unfold read.
  assert (L : (Z.to_nat (x - z) < length b)%nat) by lia.
  rewrite nth_indep with (d' := (fun i => m (z + Z.of_nat i)) 0%nat) by (rewrite map_length, seq_length; auto).
  rewrite map_nth with (f := fun i => m (z + Z.of_nat i)), seq_nth by auto. f_equal. lia.
Qed.
Lemma read_ext m m' z n : (forall x, m x = m' x) -> read m z n = read m' z n.
Proof. intros H. unfold read. apply map_ext. auto. Qed.

Lemma store_present m : forall rs bs, Forall2 (fun b r => exists z s, net_locs N (fst r) = Some (z, s) /\ read m z (length b) = b) bs rs ->
  forall a, (forall x, a_mem a x = m x) -> forall x, a_mem (store_all (net_locs N) a rs bs) x = m x.
Proof.
  induction rs as [|[v r] rs IH]; intros bs F a Ha x; inversion F as [|b0 r0 bs' rs' P F']; subst; cbn [store_all]; auto. destruct P as (z & s & L & R). cbn [fst] in L. rewrite L.
  apply IH; auto. intros y. cbn [a_mem]. rewrite write_present; auto. rewrite (read_ext _ m) by auto. exact R.
Qed.

Lemma all_some_nth {A} (l : list (option A)) : forall xs, all_some l = Some xs -> length xs = length l /\ forall i x, nth_error xs i = Some x -> nth_error l i = Some (Some x).
Proof.
  induction l as [|[a|] l IH]; intros xs E; cbn in E; try discriminate.
  - injection E as <-. split; auto. intros [|i] x H; discriminate.
  - destruct (all_some l) as [ys|]; [|discriminate]. injection E as <-. destruct (IH ys eq_refl) as (L & K). split; [cbn; lia|].
    intros [|i] x H; cbn in *; [congruence|auto].
Qed.
Lemma put_at_length {A} (l : list A) : forall i x, length (put_at l i x) = length l.
Proof. induction l as [|y l IH]; intros [|i] x; cbn; auto. Qed.
Lemma put_at_nth {A} (l : list A) : forall i x j z, nth_error (put_at l i x) j = Some z -> (j = i /\ z = x) \/ (j <> i /\ nth_error l j = Some z).
Proof.
  induction l as [|y l IH]; intros [|i] x [|j] z H; cbn in *; try discriminate; auto.
  - injection H as <-. auto.
  - destruct (IH i x j z H) as [(-> & ->)|(Hn & Hz)]; auto.
Qed.

Lemma f2_intro {A B} (R : A -> B -> Prop) : forall l l', length l = length l' ->
  (forall i x y, nth_error l i = Some x -> nth_error l' i = Some y -> R x y) -> Forall2 R l l'.
Proof.
  induction l as [|x l IH]; intros [|y l'] L H; cbn in L; try discriminate; constructor.
  - apply (H 0%nat); reflexivity.
  - apply IH; [lia|]. intros i a b Ha Hb. apply (H (S i)); auto.
Qed.

Definition good (m : memory) (written : list (option bytes)) (results : option (list bytes)) : Prop :=
  length written = length (f_params f) /\
  (forall i d, nth_error written i = Some (Some d) -> holds m i d) /\
  (forall rs, results = Some rs -> ArenasModel.outputs N m = rs /\ exists inputs r, sized (f_params f) inputs /\ evaluate f inputs = Some r /\ rs = map snd r).

Lemma invoked m written results inputs r : good m written results -> all_some written = Some inputs -> evaluate f inputs = Some r ->
  sized (f_params f) inputs /\ ArenasModel.outputs N (ArenasModel.step (fun _ => N) m (Invoke 0)) = map snd r.
Proof.
  intros (L & Hh & _) Ea Er. destruct (all_some_nth _ _ Ea) as (La & Ka).
  assert (S : sized (f_params f) inputs).
  { unfold sized. apply f2_intro; [lia|]. intros i p b Hp Hb. destruct (Hh i b (Ka i b Hb)) as (v & s & z & Hv & _ & Sb & _).
    destruct (arg_param i p Hp) as (v' & Hv'). rewrite Hv in Hv'. injection Hv' as -> ->. lia. }
  destruct (proj2 (compiled_from_facts f N CF) inputs S) as (F & r' & Er' & Ep). rewrite Er in Er'. injection Er' as <-.
  destruct (compiled_from_returns f N CF RA) as (outs & Ro). split; [exact S|].
  rewrite (invoke_outputs (fun _ => N) 0 outs inputs m m C Ro F); [exact Ep|].
  intros x _. symmetry. cbn [step]. apply store_present; auto.
  unfold arg_rs. apply f2_intro; [rewrite map_length, args_length; lia|].
  intros i b [v o] Hb Hr. rewrite nth_error_map in Hr. destruct (nth_error (g_args (n_graph N)) i) as [[v' s']|] eqn:Hv; [|discriminate].
  cbn in Hr. injection Hr as <- <-. destruct (Hh i b (Ka i b Hb)) as (w & s & z & Hw & Lw & _ & R). rewrite Hv in Hw. injection Hw as <- <-.
  exists z, s'. auto.
Qed.

Variables (pad : Z -> bytes) (send : bytes -> list (list Z)) (shapes : Z -> list nat).
Hypothesis SH : shapes_match f shapes.
Hypothesis SEND : forall d, is_transfer (send d) d.

Lemma session_answers calls : forall m written results answers, good m written results -> ideal f calls written results = Some answers ->
  exists rs, serve_all N pad (map expected calls) m = Some rs /\ host_results shapes calls (flat_map send rs) = Some answers.
Proof.
  induction calls as [|c calls IH]; intros m written results answers G E.
  - cbn in E. injection E as <-. exists []. auto.
  - destruct c as [model t d|model t| |]; cbn [ideal] in E; try discriminate.
    + destruct (nth_error (f_params f) (Z.to_nat t)) as [p|] eqn:Hp; [|discriminate].
      destruct ((model =? 0) && (0 <=? t) && Nat.eqb (length d) (tsize (snd p)) && negb (Nat.eqb (length d) 0)) eqn:B; [|discriminate].
      apply andb_prop in B. destruct B as [B B4]. apply andb_prop in B. destruct B as [B B3]. apply andb_prop in B. destruct B as [B1 B2].
      apply Nat.eqb_eq in B3. destruct (arg_param _ p Hp) as (v & Hv). destruct (arg_place _ _ _ Hv) as (z & Lv & _).
      assert (Sd : Z.of_nat (length d) = Z.of_nat (tsize (snd p))) by lia.
      destruct (IH (write m (n_base N + z) d) (put_at written (Z.to_nat t) (Some d)) None answers) as (rs & S1 & S2); auto.
      { destruct G as (L & Hh & _). repeat split; [rewrite put_at_length; auto| |discriminate|discriminate].
        intros i d' Hi. destruct (put_at_nth _ _ _ _ _ Hi) as [(-> & Ed)|(Hn & Hz)].
        - injection Ed as ->. eapply holds_write; eauto.
        - eapply holds_other; eauto. }
      exists rs. split; auto. cbn [map expected]. apply (serve_all_cons _ _ _ _ _ (write m (n_base N + z) d) [] rs); auto.
      unfold serve. rewrite B1. cbn [negb Z.eqb Pos.eqb]. unfold store_input. rewrite Hv, B2.
      replace (Z.of_nat (length d) =? Z.of_nat (tsize (snd p))) with true by lia. cbn [andb]. rewrite Lv. reflexivity.
    + destruct results as [rs0|]; [|discriminate]. destruct (nth_error rs0 (Z.to_nat t)) as [b|] eqn:Hb; [|discriminate].
      destruct ((model =? 0) && (0 <=? t)) eqn:B; [|discriminate]. apply andb_prop in B. destruct B as [B1 B2].
      destruct (ideal f calls written (Some rs0)) as [as'|] eqn:E'; [|discriminate]. injection E as <-.
      destruct (IH m written (Some rs0) as' G E') as (rs & S1 & S2).
      destruct G as (_ & _ & Gr). destruct (Gr rs0 eq_refl) as (Go & inputs & r & Sz & Er & ->).
      exists ((b ++ pad t) :: rs). split.
      * cbn [map expected]. apply (serve_all_cons _ _ _ _ _ m [b ++ pad t] rs); auto. unfold serve. rewrite B1. cbn [negb Z.eqb Pos.eqb].
        replace (t <? 0) with false by lia. rewrite Go. match goal with |- context [@nth_error ?A ?l ?k] => assert (EE : @nth_error A l k = Some b) by exact Hb; rewrite EE end. reflexivity.
      * cbn [flat_map host_results]. rewrite (C40_upload (send (b ++ pad t)) (flat_map send rs) (b ++ pad t)) by apply SEND.
        rewrite C40_bytes_to_arr by (eapply SH; eauto). rewrite S2. reflexivity.
    + destruct (all_some written) as [inputs|] eqn:Ea; [|discriminate]. destruct (evaluate f inputs) as [r|] eqn:Er; [|discriminate].
      destruct (IH (ArenasModel.step (fun _ => N) m (Invoke 0)) (map (fun _ => None) written) (Some (map snd r)) answers) as (rs & S1 & S2); auto.
      { destruct (invoked _ _ _ _ _ G Ea Er) as (Sz & Ho). destruct G as (L & _ & _). split; [rewrite map_length; auto|]. split.
        - intros i d Hi. rewrite nth_error_map in Hi. destruct (nth_error written i); discriminate.
        - intros rs' E'. injection E' as <-. split; [exact Ho|eauto]. }
      exists rs. split; auto. cbn [map expected]. apply (serve_all_cons _ _ _ _ _ (ArenasModel.step (fun _ => N) m (Invoke 0)) [] rs); auto.
Qed.
End Device.

Lemma ideal_not_empty f calls : forall written results answers, ideal f calls written results = Some answers -> forall m t d, In (WriteInput m t d) calls -> d <> [].
Proof.
  induction calls as [|c calls IH]; intros written results answers E m t d Hin; [destruct Hin|].
  destruct c as [model t' d'|model t'| |]; cbn [ideal] in E; try discriminate.
  - destruct (nth_error _ _); [|discriminate]. destruct (_ && negb (Nat.eqb (length d') 0)) eqn:B; [|discriminate]. destruct Hin as [Hin|Hin]; [|eauto].
    injection Hin as -> -> ->. apply andb_prop in B. destruct B as [_ B]. intros ->. discriminate.
  - destruct Hin as [Hin|Hin]; [discriminate|]. destruct results; [|discriminate]. destruct (nth_error _ _); [|discriminate]. destruct (_ && _); [|discriminate].
    destruct (ideal f calls written (Some l)) eqn:E'; [|discriminate]. eauto.
  - destruct Hin as [Hin|Hin]; [discriminate|]. destruct (all_some _); [|discriminate]. destruct (evaluate _ _); [|discriminate]. eauto.
Qed.

(** Whatever the host does in a session - inputs in any order and more than once, any number of inferences, results read in any order and repeatedly -
    every array it gets is the one that the TFLite function gives for the inputs last written, whatever was in the device's memory. *)
Theorem C107_session : forall f N pad send shapes calls m answers,
  compiled_from f N -> results_in_arena N -> shapes_match f shapes -> (forall d, is_transfer (send d) d) ->
  ideal f calls (map (fun _ => None) (f_params f)) None = Some answers ->
  session N pad send shapes calls m = Some answers.
Proof.
  intros f N pad send shapes calls m answers CF RA SH SEND E. unfold session.
  rewrite (C40_session calls) by (eapply ideal_not_empty; eauto).
  destruct (session_answers f N CF RA pad send shapes SH SEND calls m (map (fun _ => None) (f_params f)) None answers) as (rs & S1 & S2); auto.
  - split; [apply map_length|]. split; [|discriminate]. intros i d Hi. rewrite nth_error_map in Hi. destruct (nth_error (f_params f) i); discriminate.
  - rewrite S1. exact S2.
Qed.
(** One round: the inputs one after another, an inference, the results one after another. *)
Definition one_round (inputs : list bytes) (results : nat) : list call :=
  map (fun p => WriteInput 0 (Z.of_nat (fst p)) (snd p)) (combine (seq 0 (length inputs)) inputs) ++ StartInference :: map (fun t => ReadOutput 0 (Z.of_nat t)) (seq 0 results).

Lemma put_at_app {A} (l : list A) y r x : put_at (l ++ y :: r) (length l) x = l ++ x :: r.
Proof. induction l; cbn; f_equal; auto. Qed.
Lemma ideal_writes f rest : forall suf pre ws, sized (f_params f) (pre ++ suf) -> Forall (fun d => d <> []) suf -> length ws = length suf ->
  ideal f (map (fun p => WriteInput 0 (Z.of_nat (fst p)) (snd p)) (combine (seq (length pre) (length suf)) suf) ++ rest) (map Some pre ++ ws) None =
  ideal f rest (map Some (pre ++ suf)) None.
Proof.
  induction suf as [|d suf IH]; intros pre ws S F L.
  - destruct ws; [|discriminate]. rewrite !app_nil_r. reflexivity.
  - destruct ws as [|w ws]; [discriminate|]. apply Forall_cons_iff in F. destruct F as (Fd & F).
    cbn [length seq combine map app ideal fst snd]. rewrite Nat2Z.id.
    assert (Hn : nth_error (pre ++ d :: suf) (length pre) = Some d) by (rewrite nth_error_app2, Nat.sub_diag by lia; reflexivity).
    destruct (nth_f2 _ _ _ S _ _ Hn) as (p & Hp & Lp). rewrite Hp.
    replace (Nat.eqb (length d) (tsize (snd p))) with true by (symmetry; apply Nat.eqb_eq; auto).
    replace (Nat.eqb (length d) 0) with false by (destruct d; [congruence|reflexivity]).
    replace (0 <=? Z.of_nat (length pre)) with true by lia. cbn [Z.eqb andb negb].
    assert (Pa : put_at (map Some pre ++ w :: ws) (length pre) (Some d) = map Some (pre ++ [d]) ++ ws).
    { rewrite <- (map_length Some pre), put_at_app, map_app, <- app_assoc. reflexivity. }
    rewrite Pa. specialize (IH (pre ++ [d]) ws). rewrite <- app_assoc in IH. cbn [app] in IH. rewrite app_length in IH. cbn [length] in IH.
    rewrite Nat.add_1_r in IH. rewrite IH; auto.
Qed.
Lemma ideal_reads f ws rs : forall suf pre, pre ++ suf = rs ->
  ideal f (map (fun t => ReadOutput 0 (Z.of_nat t)) (seq (length pre) (length suf))) ws (Some rs) = Some suf.
Proof.
  induction suf as [|b suf IH]; intros pre <-; [reflexivity|]. cbn [length seq map ideal].
  rewrite Nat2Z.id, nth_error_app2, Nat.sub_diag by lia. cbn [nth_error]. replace (0 <=? Z.of_nat (length pre)) with true by lia. cbn [Z.eqb andb].
  specialize (IH (pre ++ [b])). rewrite app_length in IH. cbn [length] in IH. rewrite Nat.add_1_r in IH.
  rewrite IH; [reflexivity|rewrite <- app_assoc; reflexivity].
Qed.
Lemma all_some_map {A} (l : list A) : all_some (map Some l) = Some l.
Proof. induction l; cbn; [reflexivity|rewrite IHl; reflexivity]. Qed.
(** In particular, round after round. *)
Theorem C107_round : forall f N pad send shapes m inputs,
  compiled_from f N -> results_in_arena N -> shapes_match f shapes -> (forall d, is_transfer (send d) d) ->
  sized (f_params f) inputs -> Forall (fun d => d <> []) inputs ->
  exists r, evaluate f inputs = Some r /\
    session N pad send shapes (one_round inputs (length r)) m = Some (map snd r).
Proof.
  intros f N pad send shapes m inputs CF RA SH SEND S NE.
  destruct (proj2 (compiled_from_facts f N CF) inputs S) as (_ & r & Er & _). exists r. split; [exact Er|].
  eapply C107_session; eauto. unfold one_round.
  pose proof (ideal_writes f (StartInference :: map (fun t => ReadOutput 0 (Z.of_nat t)) (seq 0 (length r))) inputs [] (map (fun _ => None) (f_params f)) S NE) as K.
  cbn [length map app] in K. rewrite K.
  - cbn [ideal]. rewrite all_some_map, Er.
    pose proof (ideal_reads f (map (fun _ => None) (map Some inputs)) (map snd r) (map snd r) [] eq_refl) as R. cbn [length] in R. rewrite map_length in R. exact R.
  - rewrite map_length. eapply f2_length. exact S.
Qed.

(** The host can only start model 0. *)
Theorem C107_model_zero : forall calls model t d, In (1, model, t, d) (map expected calls) -> model = 0.
Proof.
  intros calls model t d H. apply in_map_iff in H. destruct H as ([m' t' d'|m' t'| |] & E & _); cbn in E; congruence.
Qed.

(** ** A case: the accumulating function of C104, results sent in the packets that the host itself would use. *)
Definition as_host (d : bytes) : list (list Z) := match d with [] => [[]] | _ => tl (packets_of (WriteInput 0 0 d)) end.
Lemma as_host_transfer d : is_transfer (as_host d) d.
Proof.
  destruct d as [|x d].
  - exists [], []. repeat split; [constructor|cbn; lia].
  - destruct (download_is_transfer 3 0 0 (x :: d)) as (ps & E & H); [discriminate|]. unfold as_host. cbn [packets_of]. rewrite E. exact H.
Qed.
Definition acc_shapes (t : Z) : list nat := if t <=? 0 then [256%nat] else [2%nat; 64%nat].
Lemma acc_shapes_match : shapes_match acc acc_shapes.
Proof.
  intros inputs r t b _. unfold evaluate, acc. cbn [f_params f_body f_rets].
  destruct inputs as [|a [|b' inputs]]; cbn [start map combine fst snd eval_body i_args i_op i_ty i_dst lookups lookup Nat.eqb sem]; [discriminate|discriminate|].
  intros E Hb. injection E as <-. unfold acc_shapes.
  destruct (Z.to_nat t) as [|[|k]] eqn:K; cbn [map snd nth_error] in Hb; [injection Hb as <-|injection Hb as <-|destruct k; discriminate].
  - replace (t <=? 0) with true by lia. unfold add3. rewrite map_length, seq_length. reflexivity.
  - replace (t <=? 0) with false by lia. reflexivity.
Qed.
(** The second input first, and once too often; an inference; the mask, the state and the mask again; then the next frame. *)
Definition acc_calls : list call :=
  [WriteInput 0 1 (repeat 5 256); WriteInput 0 1 (repeat 0 256); WriteInput 0 0 (repeat 1 256); StartInference; ReadOutput 0 1; ReadOutput 0 0; ReadOutput 0 1;
   WriteInput 0 0 (repeat 1 256); WriteInput 0 1 (repeat 1 256); StartInference; ReadOutput 0 0].
Definition acc_answers := session (acc_net 64 1024) (fun t => repeat 0 (Z.to_nat t)) as_host acc_shapes acc_calls (fun x => x mod 7).
Example C107_concrete :
  compiled_from acc (acc_net 64 1024) /\ results_in_arena (acc_net 64 1024) /\ shapes_match acc acc_shapes /\ (forall d, is_transfer (as_host d) d) /\
  ideal acc acc_calls (map (fun _ => None) (f_params acc)) None = acc_answers /\
  option_map (map (fun l => (length l, firstn 4 l))) acc_answers =
    Some [(128%nat, [3; 1; 2; 3]); (256%nat, [1; 2; 3; 1]); (128%nat, [3; 1; 2; 3]); (256%nat, [2; 3; 4; 2])].
Proof.
  split; [apply acc_compiled; lia|]. split; [apply acc_results|]. split; [exact acc_shapes_match|]. split; [exact as_host_transfer|].
  split; vm_compute; reflexivity.
Qed.
Print Assumptions C107_session.
Print Assumptions C107_round.
Print Assumptions C107_model_zero.
Print Assumptions C107_concrete.
