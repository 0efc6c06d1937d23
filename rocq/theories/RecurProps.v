(** Property C103: the audio example's network remembers the previous frames, and nothing else.  Vocabulary: RecurModel, RecurSpec. *)
From Verif Require Import Base MemPlanModel MemPlanSpec MemExecSpec MemPlanProps ArenasModel ArenasSpec ArenasProofs ArenasProps AudioModel RecurModel RecurSpec.
From Coq Require Import QArith Permutation.
Local Open Scope Z_scope.

Lemma state_length (nets : nat -> net) (i : nat) outs v0 tl f s (m : memory) : compiled (nets i) -> returns (nets i) outs -> outs = v0 :: tl ->
  arena_tensor (n_graph (nets i)) v0 (Z.of_nat ROW) -> fits (nets i) [f; s] ->
  length (nth 0 (private_outputs (nets i) [f; s]) []) = ROW.
Proof.
  intros C R Eo A F. rewrite <- (C102_outputs nets i outs [f; s] [] [] [] m C R F (Forall_nil _) (Forall_nil _)).
  pose proof R as ((os & k & E) & _). rewrite (outputs_last _ os k outs) by auto. rewrite Eo. cbn [map nth].
  apply compiled_placed in C. pose proof (pl_complete _ C) as P. pose proof P as (_ & _ & C3 & _).
  destruct (C3 v0 _ A) as [z Hz]. pose proof (offset_locs _ _ _ _ _ (pl_wf _ C) P A Hz (tensors_nodup _ (pl_wf _ C))) as L.
  unfold fetch, net_locs. rewrite L. unfold read. rewrite map_length, seq_length. apply Nat2Z.id.
Qed.

(** Whatever model_init leaves in the arena, and whatever runs between the calls (in the arena too): the masks of every call are those of the
    network unrolled from the zero state over the spectra of all the calls so far. *)
Theorem C103_masks : forall nets i floats ds m,
  recurrent (nets i) -> Forall (fun f => length f = ROW) (frames ds) ->
  program nets i floats ds m zero_state = map (fun p => map (mask_of (fst p)) (floats (snd p))) (combine (settings ds) (unrolled (nets i) zero_state (frames ds))).
Proof.
  intros nets i floats ds m (C & a0 & a1 & v0 & v1 & Ea & R & A) H.
  assert (L : length zero_state = ROW) by reflexivity. revert L. generalize zero_state. revert m H.
  induction ds as [|[es|junk b f] ds IH]; intros m H st L; cbn [program frames settings unrolled combine map]; auto.
  cbn [frames] in H. apply Forall_cons_iff in H. destruct H as [Lf H].
  assert (F : fits (nets i) [f; st]).
  { unfold fits. rewrite Ea. repeat constructor; cbn [snd]; congruence. }
  assert (E : outputs (nets i) (play nets [Start i junk; Put i [f; st]; Invoke i] m) = private_outputs (nets i) [f; st]).
  { apply (C102_outputs nets i [v0; v1] [f; st] [Start i junk] [] [] m); auto. }
  cbn [fst snd]. rewrite E. pose proof (state_length nets i _ _ _ f st m C R eq_refl A F) as Ls. f_equal.
  rewrite firstn_all2 by lia. apply IH; auto.
Qed.

(** Nothing of the memory matters, and a call's masks depend on the calls up to it only. *)
Theorem C103_causal : forall nets i floats ds1 ds2 ds2' m m',
  recurrent (nets i) -> Forall (fun f => length f = ROW) (frames (ds1 ++ ds2)) -> Forall (fun f => length f = ROW) (frames (ds1 ++ ds2')) ->
  firstn (length (frames ds1)) (program nets i floats (ds1 ++ ds2) m zero_state) = program nets i floats ds1 m' zero_state /\
  firstn (length (frames ds1)) (program nets i floats (ds1 ++ ds2') m' zero_state) = program nets i floats ds1 m' zero_state.
Proof.
  intros nets i floats ds1.
  assert (G : forall ds2 m m', recurrent (nets i) -> Forall (fun f => length f = ROW) (frames (ds1 ++ ds2)) ->
    firstn (length (frames ds1)) (program nets i floats (ds1 ++ ds2) m zero_state) = program nets i floats ds1 m' zero_state).
  { intros ds2 m m' R H. assert (Fa : forall l l', frames (l ++ l') = frames l ++ frames l') by (induction l as [|[|] l IHl]; intros; cbn; f_equal; auto).
    assert (Sa : forall l l', settings (l ++ l') = settings l ++ settings l') by (induction l as [|[|] l IHl]; intros; cbn; f_equal; auto).
    assert (Ls : forall l, length (settings l) = length (frames l)) by (induction l as [|[|] l IHl]; cbn; auto).
    assert (Ua : forall N l l' s, exists s', unrolled N s (l ++ l') = unrolled N s l ++ unrolled N s' l').
    { intros N l. induction l as [|f l IHl]; intros l' s; [exists s; reflexivity|]. cbn [app unrolled]. destruct (IHl l' (nth 0 (private_outputs N [f; s]) [])) as [s' E]. exists s'. rewrite E. reflexivity. }
    assert (Lu : forall N l s, length (unrolled N s l) = length l) by (intros N l; induction l as [|f l IHl]; intros s; cbn; auto).
    rewrite !C103_masks; auto; [|rewrite Fa in H; apply Forall_app in H; tauto].
    rewrite firstn_map. f_equal. rewrite Sa, Fa. destruct (Ua (nets i) (frames ds1) (frames ds2) zero_state) as [s' E]. rewrite E.
    assert (K : forall (A B : Type) (x y : list A) (u v : list B), length x = length u -> combine (x ++ y) (u ++ v) = combine x u ++ combine y v).
    { intros AA BB x y u v. revert u. induction x as [|a x IHx]; intros [|b u] E'; cbn in *; try discriminate; auto. rewrite IHx; auto. }
    rewrite K by (rewrite Ls, Lu; auto). rewrite firstn_app, firstn_all2 by (rewrite combine_length, Ls, Lu; lia).
    rewrite combine_length, Ls, Lu, Nat.min_id, Nat.sub_diag, app_nil_r. reflexivity. }
  intros ds2 ds2' m m' R H1 H2. split; apply G; auto.
Qed.

(* ------------------------------------------------------------------ *)
(** ** A concrete network: every byte of the new state is the sum of the old one and the spectrum; the output repeats the new state. *)
Definition accumulator : graph :=
  Graph [(0%nat, 256); (1%nat, 256)] [ Op KOther [0%nat; 1%nat] [(2%nat, Some 256)]; Op KOther [2%nat] [(3%nat, Some 256)]; Op KTerm [2%nat; 3%nat] [] ].
Definition fixed (l : bytes) : bytes := map (fun i => nth i l 0) (seq 0 ROW).
Definition accumulate : opsem := fun p args =>
  match p with
  | 0%nat => [map (fun q => fst q + snd q) (combine (fixed (nth 0 args [])) (fixed (nth 1 args [])))]
  | 1%nat => [fixed (nth 0 args [])]
  | _ => []
  end.
Definition accumulating (_ : nat) : net := Net accumulator accumulate [512; 0; 256; 0] 4096 768.
Lemma fixed_length l : length (fixed l) = ROW.
Proof. unfold fixed. rewrite map_length, seq_length. reflexivity. Qed.
Ltac wf2_tac :=
  constructor;
  [ cbn; repeat constructor; cbn; intuition discriminate
  | cbn; intros v s [E|[E|[]]]; injection E as <- <-; lia
  | intros p o v s H Hr; ops p H; cbn in Hr; intuition;
      match goal with E : (_, _) = (_, _) |- _ => injection E as <- <- end; lia
  | intros p v (o & H & Hv); ops p H; cbn in Hv; intuition; subst; cbn; auto; right;
    first [ exists 0%nat; split; [lia|]; eexists; split; [reflexivity|cbn; solve [auto]]
          | exists 1%nat; split; [lia|]; eexists; split; [reflexivity|cbn; solve [auto]] ]
  | intros p o H K; ops p H; cbn in K; try discriminate; auto
  | intros p o H K; ops p H; cbn in K; discriminate ].
Lemma accumulating_recurrent i : recurrent (accumulating i).
Proof.
  split; [|exists 0%nat, 1%nat, 2%nat, 3%nat; split; [reflexivity|]; split].
  - split; [wf2_tac|]. split; [wo_tac|]. split; [cg_tac|]. split.
    + exists (fun l => l), 0. eexists. split; [reflexivity|]. split; [vm_compute; reflexivity|]. split; vm_compute; [reflexivity|discriminate].
    + intros p o args H. cbn in H. ops p H; cbn [n_sem accumulating accumulate o_res]; repeat constructor; cbn [snd];
        rewrite ?map_length, ?combine_length, !fixed_length; reflexivity.
  - split.
    + exists [Op KOther [0%nat; 1%nat] [(2%nat, Some 256)]; Op KOther [2%nat] [(3%nat, Some 256)]], KTerm. reflexivity.
    + intros v [<-|[<-|[]]]; exists 256; right; [exists 0%nat, (Op KOther [0%nat; 1%nat] [(2%nat, Some 256)])|exists 1%nat, (Op KOther [2%nat] [(3%nat, Some 256)])];
        repeat split; try discriminate; cbn; auto.
  - right. exists 0%nat, (Op KOther [0%nat; 1%nat] [(2%nat, Some 256)]). repeat split; try discriminate; cbn; auto.
Qed.
(** Three calls with spectra of ones, between them the arena is overwritten: the state counts the calls; setting 6 passes through. *)
Definition ones : bytes := repeat 1 ROW.
Definition day : list doing := [Predict (fun _ => 7) 15 ones; Other [Start 0 (fun x => x)]; Predict (fun _ => 8) 15 ones; Predict (fun _ => 9) 6 ones].
Definition read4 (l : bytes) : list Q := map (fun i => Qmake (nth (Nat.mul 4 i) l 0%Z) 4) (seq 0 64).
Example C103_instance :
  Forall (fun f => length f = ROW) (frames day) /\
  map (fun l => hd None l) (program accumulating 0 read4 day (fun _ => 99) zero_state) = [mask_of 15 (1 # 4); mask_of 15 (2 # 4); Some 1073741824] /\
  mask_of 15 (1 # 4) <> mask_of 15 (2 # 4).
Proof. split; [repeat constructor|]. split; vm_compute; [reflexivity|discriminate]. Qed.

Print Assumptions C103_masks.
Print Assumptions C103_causal.
