(** If writing a result never touches a tensor that is still needed, running in
    the arena is the same as running with private buffers. *)
From Verif Require Import Base MemPlanModel MemPlanSpec MemPlanBuild MemExecSpec.
Local Open Scope Z_scope.

Lemma read_length m off n : length (read m off n) = n.
Proof. unfold read. rewrite map_length, seq_length. reflexivity. Qed.

Lemma read_write_same m off b : read (write m off b) off (length b) = b.
Proof.
  apply nth_error_ext. intros i.
  destruct (lt_dec i (length b)) as [H|H].
  - assert (E : nth_error (seq 0 (length b)) i = Some i).
    { rewrite nth_error_nth' with (d := 0%nat) by (rewrite seq_length; auto).
      rewrite seq_nth; auto. }
    unfold read. rewrite (map_nth_error _ _ _ E). unfold write.
    replace (_ && _) with true by lia.
    replace (Z.to_nat (off + Z.of_nat i - off)) with i by lia.
    symmetry. apply nth_error_nth'. auto.
  - rewrite (proj2 (nth_error_None _ _)) by (rewrite read_length; lia).
    symmetry. apply nth_error_None. lia.
Qed.

Lemma read_write_other m off b off' n :
  disjoint_ranges off (Z.of_nat (length b)) off' (Z.of_nat n) ->
  read (write m off b) off' n = read m off' n.
Proof.
  intros D. unfold read. apply map_ext_in. intros i Hi. apply in_seq in Hi.
  unfold write. destruct (_ && _) eqn:E; auto.
  exfalso. apply (D (off' + Z.of_nat i)). lia.
Qed.

Section Exec.
Variable g : graph.
Hypothesis W : wf_graph g.
Variable loc : locs.
Variable sem : opsem.
Hypothesis Sized : sem_sized g sem.

(** sizes in [loc] are the type sizes *)
Hypothesis loc_size : forall v off s,
  loc v = Some (off, s) -> 0 <= s /\
  (forall s', In (v, s') (g_args g) -> s' = s) /\
  (forall p o r, op_at g p o -> In (v, r) (o_res o) -> r = Some s).

(** writing a result [r] of [p] does not touch another result of [p] nor a
    value that exists before [p] and is used after [p] *)
Hypothesis clobber_free : forall p r w o1 s1 o2 s2,
  produced_at g r p -> w <> r -> loc r = Some (o1, s1) -> loc w = Some (o2, s2) ->
  (produced_at g w p \/
   ((In w (arg_names g) \/ exists q, (q < p)%nat /\ produced_at g w q) /\
    exists q, (p < q)%nat /\ used_at g w q)) ->
  disjoint_ranges o1 s1 o2 s2.

Hypothesis args_free : forall r w o1 s1 o2 s2,
  In r (arg_names g) -> In w (arg_names g) -> w <> r ->
  loc r = Some (o1, s1) -> loc w = Some (o2, s2) -> disjoint_ranges o1 s1 o2 s2.

Definition agree (e : env) (a : arena) (v : vname) : Prop := fetch loc a v = e v.

(** storing a list of results preserves/establishes agreement *)
Lemma store_all_agree rs : forall bs e a (P : vname -> Prop),
  NoDup (map fst rs) ->
  Forall2 (fun b r => Z.of_nat (length b) = match snd r with Some s => s | None => 0 end) bs rs ->
  (forall v r off s, In (v, r) rs -> loc v = Some (off, s) -> r = Some s /\ 0 <= s) ->
  (forall r w o1 s1 o2 s2, In r (map fst rs) -> w <> r -> In w (map fst rs) \/ P w ->
      loc r = Some (o1, s1) -> loc w = Some (o2, s2) -> 0 <= s2 /\ disjoint_ranges o1 s1 o2 s2) ->
  (forall v, P v -> agree e a v) ->
  forall v, P v \/ In v (map fst rs) -> agree (set_all e rs bs) (store_all loc a rs bs) v.
Proof.
  induction rs as [|[r t] rs IH]; intros bs e a P N F S D A v Hv.
  - destruct Hv as [Hv|[]]. destruct bs; cbn; auto.
  - inversion F as [|b ? l ? HL HF]; subst. cbn in N. inversion N as [|? ? HN1 HN2]; subst.
    cbn [set_all store_all]. cbn [snd] in HL.
    set (a' := match loc r with Some (off, _) => _ | None => _ end).
    set (e' := set_env e r b).
    assert (Ar : agree e' a' r).
    { unfold agree, fetch, e', a', set_env. destruct (loc r) as [[off s]|] eqn:El.
      - cbn [a_mem]. rewrite Nat.eqb_refl.
        destruct (S r t off s) as [-> Hs]; [left; auto|auto|].
        replace (Z.to_nat s) with (length b) by lia. apply read_write_same.
      - cbn. rewrite Nat.eqb_refl. auto. }
    assert (Aw : forall w, P w -> agree e' a' w).
    { intros w Hw. destruct (Nat.eq_dec w r) as [->|Hne]; auto.
      specialize (A w Hw). unfold agree, fetch, e', a', set_env in *.
      pose proof (proj2 (Nat.eqb_neq w r) Hne) as Hneb. rewrite Hneb.
      destruct (loc w) as [[offw sw]|] eqn:Ew.
      - destruct (loc r) as [[off s]|] eqn:El; cbn [a_mem]; auto.
        destruct (S r t off s) as [-> Hs]; [left; auto|auto|].
        destruct (D r w off s offw sw) as [Hsw Hd]; auto; [left; auto|].
        rewrite read_write_other; auto.
        rewrite HL, Z2Nat.id by lia. auto.
      - destruct (loc r) as [[off s]|] eqn:El; cbn [a_const]; auto.
        rewrite Hneb; auto. }
    apply (IH l e' a' (fun w => P w \/ w = r)); auto.
    + intros v' r' off s Hin. apply S. right; auto.
    + intros r' w o1 s1 o2 s2 Hr' Hne Hw. apply D; auto; [right; auto|].
      destruct Hw as [Hw|[Hw|Hw]]; [left; right; auto|right; auto|left; left; auto].
    + intros w [Hw| ->]; auto.
    + destruct Hv as [Hv|[Hv|Hv]]; auto.
Qed.

(** live before executing position [p] *)
Definition needed (p : nat) (v : vname) : Prop :=
  (In v (arg_names g) \/ exists q, (q < p)%nat /\ produced_at g v q) /\
  exists q, (p <= q)%nat /\ used_at g v q.

Lemma set_all_other rs : forall bs e v, ~ In v (map fst rs) -> set_all e rs bs v = e v.
Proof.
  induction rs as [|[r t] rs IH]; intros [|b bs] e v H; cbn; auto.
  rewrite IH by (intros C; apply H; right; auto). unfold set_env.
  destruct (Nat.eqb_spec v r); auto. exfalso. apply H. left; auto.
Qed.

Lemma res_nodup p o : op_at g p o -> NoDup (map fst (o_res o)).
Proof.
  intros Ho. pose proof (wf_nodup g W) as N. apply nodup_app_inv in N. destruct N as (_ & N & _).
  unfold op_at in Ho. revert p Ho. induction (g_ops g) as [|x l IH]; intros [|p] Ho; try discriminate;
    cbn in N; apply nodup_app_inv in N; destruct N as (N1 & N2 & _); cbn in Ho.
  - inv Ho. auto.
  - eapply IH; eauto.
Qed.

Lemma run_agree : forall os pre e a,
  g_ops g = pre ++ os ->
  (forall v, needed (length pre) v -> agree e a v) ->
  run_arena sem loc os (length pre) a = run_private sem os (length pre) e.
Proof.
  induction os as [|o os IH]; intros pre e a E A; cbn [run_arena run_private]; auto.
  assert (Ho : op_at g (length pre) o).
  { unfold op_at. rewrite E, nth_error_app2, Nat.sub_diag by lia. reflexivity. }
  assert (Ins : map (fetch loc a) (o_args o) = map e (o_args o)).
  { apply map_ext_in. intros v Hv. apply A.
    assert (U : used_at g v (length pre)) by (exists o; auto).
    split; [|exists (length pre); auto].
    destruct (wf_dominance g W _ _ U) as [?|?]; auto. }
  rewrite Ins. f_equal.
  replace (S (length pre)) with (length (pre ++ [o])) by (rewrite app_length; cbn; lia).
  apply IH.
  - rewrite <- app_assoc. auto.
  - intros v Hv.
    set (P := fun w => needed (length pre) w /\ exists q, (length pre < q)%nat /\ used_at g w q).
    apply (store_all_agree _ _ _ _ P).
    + eapply res_nodup; eauto.
    + apply Sized; auto.
    + intros w r off s Hin Hl. destruct (loc_size w off s Hl) as (L1 & _ & L3).
      split; auto. eapply L3; eauto.
    + intros r w o1 s1 o2 s2 Hr Hne Hw Hl1 Hl2. split; [apply (loc_size w o2 s2 Hl2)|].
      apply (clobber_free (length pre) r w o1 s1 o2 s2); auto.
      * exists o; auto.
      * destruct Hw as [Hw|[[Hw1 _] Hw2]].
        -- left. exists o; auto.
        -- right. auto.
    + intros w [Hw _]. auto.
    + destruct Hv as [Hd (q & Hq & Hu)]. rewrite app_length in Hq. cbn in Hq.
      destruct Hd as [Ha|(q' & Hq' & Hp')].
      * left. split; [split; auto; exists q; split; auto; lia|]. exists q; split; auto; lia.
      * rewrite app_length in Hq'. cbn in Hq'.
        destruct (Nat.eq_dec q' (length pre)) as [->|Hne].
        -- right. destruct Hp' as (o' & Ho' & Hin). unfold op_at in *.
           assert (o' = o) by congruence. subst; auto.
        -- left. split.
           ++ split; [right; exists q'; split; auto; lia|exists q; split; auto; lia].
           ++ exists q; split; auto; lia.
Qed.

Lemma exec_correct inputs garbage :
  Forall2 (fun b a => Z.of_nat (length b) = snd a) inputs (g_args g) ->
  arena_trace g sem loc garbage inputs = private_trace g sem inputs.
Proof.
  intros F. unfold arena_trace, private_trace.
  apply (run_agree (g_ops g) []); auto.
  intros v [[Ha|(q & Hq & _)] _]; [|cbn in Hq; lia].
  apply (store_all_agree _ _ _ _ (fun _ => False)).
  - unfold arg_rs. rewrite map_map. cbn [fst]. pose proof (wf_nodup g W) as N.
    apply nodup_app_inv in N. tauto.
  - unfold arg_rs. clear -F. induction F; cbn; constructor; auto.
  - intros w r off s Hin Hl. unfold arg_rs in Hin. apply in_map_iff in Hin.
    destruct Hin as ([x sx] & E & Hin). inv E. destruct (loc_size w off s Hl) as (L1 & L2 & _).
    cbn. rewrite (L2 sx Hin). auto.
  - intros r w o1 s1 o2 s2 Hr Hne [Hw|[]] Hl1 Hl2. split; [apply (loc_size w o2 s2 Hl2)|].
    unfold arg_rs in *. rewrite map_map in *. cbn [fst] in *.
    eapply (args_free r w); eauto.
  - intros w [].
  - right. unfold arg_rs. rewrite map_map. cbn [fst]. auto.
Qed.

End Exec.
