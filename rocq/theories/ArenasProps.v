(** Property C102: networks whose tensors live in one memory.  Vocabulary: ArenasModel (events, outputs), ArenasSpec. *)
From Verif Require Import Base MemPlanModel MemPlanSpec MemExecSpec MemPlanProps ArenasModel ArenasSpec ArenasProofs.
From Coq Require Import Permutation.
Local Open Scope Z_scope.

(** Whatever happened before ([hist], from any memory), and whatever other models whose arenas are elsewhere do between the three steps and
    afterwards: storing the inputs, invoking and reading the outputs gives what the model computes from these inputs alone. *)
Theorem C102_outputs nets i outs inputs hist mid rest m0 :
  compiled (nets i) -> returns (nets i) outs -> fits (nets i) inputs ->
  Forall (elsewhere nets i) mid -> Forall (elsewhere nets i) rest ->
  outputs (nets i) (play nets (hist ++ Put i inputs :: mid ++ Invoke i :: rest) m0) = private_outputs (nets i) inputs.
Proof.
  intros C R F M Rs. unfold play. rewrite fold_left_app. cbn [fold_left]. rewrite fold_left_app. cbn [fold_left].
  set (m1 := fold_left (step nets) hist m0).
  rewrite (outputs_ext _ outs _ (step nets (fold_left (step nets) mid (step nets m1 (Put i inputs))) (Invoke i))).
  - apply (invoke_outputs nets i outs inputs m1); auto. intros x Hx. apply (play_frame nets i mid); auto.
  - apply compiled_placed; auto.
  - auto.
  - intros x Hx. apply (play_frame nets i rest); auto.
Qed.

(** Every event leaves all bytes outside the arena of its own model as they are. *)
Theorem C102_own_arena_only nets e m x :
  compiled (nets (about e)) -> legal nets e -> step nets m e x <> m x ->
  n_base (nets (about e)) <= x < n_base (nets (about e)) + n_size (nets (about e)).
Proof.
  intros C L H. destruct (Z_le_dec (n_base (nets (about e))) x), (Z_lt_dec x (n_base (nets (about e)) + n_size (nets (about e)))); try lia;
    exfalso; apply H; apply step_frame; auto; lia.
Qed.

(** app_flash_two_models_one_arena: both readings are right wherever the two arenas are; they may be the same bytes. *)
Theorem C102_one_arena nets o1 o2 j1 j2 image image2 m :
  compiled (nets 0%nat) -> compiled (nets 1%nat) -> returns (nets 0%nat) o1 -> returns (nets 1%nat) o2 ->
  fits (nets 0%nat) image -> fits (nets 1%nat) image2 ->
  nn_thread_one_arena nets j1 j2 image image2 m = (private_outputs (nets 0%nat) image, private_outputs (nets 1%nat) image2).
Proof.
  intros C1 C2 R1 R2 F1 F2. unfold nn_thread_one_arena. f_equal.
  - apply (C102_outputs nets 0 o1 image [Start 0 j1] [] [] m); auto.
  - apply (C102_outputs nets 1 o2 image2 [Start 1 j2] [] [] (play nets [Start 0 j1; Put 0 image; Invoke 0] m)); auto.
Qed.

(** app_flash_two_models: both readings are right wherever the two arenas are. *)
Theorem C102_two_arenas nets o1 o2 j1 j2 image image2 m :
  compiled (nets 0%nat) -> compiled (nets 1%nat) -> returns (nets 0%nat) o1 -> returns (nets 1%nat) o2 ->
  fits (nets 0%nat) image -> fits (nets 1%nat) image2 ->
  nn_thread_two_arenas nets j1 j2 image image2 m = (private_outputs (nets 0%nat) image, private_outputs (nets 1%nat) image2).
Proof.
  intros C1 C2 R1 R2 F1 F2. unfold nn_thread_two_arenas. f_equal.
  - apply (C102_outputs nets 0 o1 image [Start 0 j1; Start 1 j2] [] [] m); auto.
  - apply (C102_outputs nets 1 o2 image2 [] [] [] (play nets [Start 0 j1; Start 1 j2; Put 0 image; Invoke 0] m)); auto.
Qed.

(** The size given to the shared array is the largest of the sizes the models need. *)
Theorem C102_arena_size needs :
  needs <> [] ->
  exists l, largest_tensor_arena_size needs = Some l /\ In l needs /\ forall n, In n needs -> n <= l.
Proof.
  intros H. destruct needs as [|n needs]; [congruence|]. unfold largest_tensor_arena_size. cbn [fold_left include_header].
  destruct (headers_spec needs n) as (l & E & L1 & L2 & L3). exists l. split; auto. split.
  - destruct L3 as [->|]; [left|right]; auto.
  - intros x [<-|Hx]; auto.
Qed.

(** Models that all start at the beginning of the shared array never write outside it, in any history. *)
Theorem C102_array_suffices nets needs l base es m x :
  largest_tensor_arena_size needs = Some l ->
  (forall e, In e es -> compiled (nets (about e)) /\ legal nets e /\ n_base (nets (about e)) = base /\ In (n_size (nets (about e))) needs) ->
  play nets es m x <> m x -> base <= x < base + l.
Proof.
  intros E. assert (B : forall n, In n needs -> n <= l).
  { destruct needs as [|n0 needs]; [discriminate|]. destruct (C102_arena_size (n0 :: needs) ltac:(discriminate)) as (l' & E' & _ & B). intros n Hn. rewrite E in E'. injection E' as <-. auto. }
  revert m. induction es as [|e es IH]; intros m H K; [cbn in K; congruence|].
  unfold play in *. cbn [fold_left] in K.
  destruct (Z.eq_dec (step nets m e x) (m x)) as [Q|Q].
  - apply (IH (step nets m e)).
    + intros e' He'. apply H. right; auto.
    + congruence.
  - destruct (H e (or_introl eq_refl)) as (C & L & Eb & En). pose proof (C102_own_arena_only nets e m x C L Q). specialize (B _ En). lia.
Qed.

(* ------------------------------------------------------------------ *)
(** ** Concrete models: two operators each, every byte incremented once per operator; the output takes the place of the input. *)
Definition small : graph :=
  Graph [(0%nat, 2)] [ Op KOther [0%nat] [(1%nat, Some 2)]; Op KOther [1%nat] [(2%nat, Some 2)]; Op KTerm [2%nat] [] ].
Definition incr (by_ : Z) : opsem := fun p args => match p with 2%nat => [] | _ => [map (fun x => x + by_) (firstn 2 (hd [] args ++ [0; 0]))] end.
Definition small_net (by_ base : Z) : net := Net small (incr by_) [0; 8; 0] base 16.

Lemma small_compiled k base : compiled (small_net k base).
Proof.
  split; [wf_tac|]. split; [wo_tac|]. split; [cg_tac|]. split.
  - exists (fun l => l), 0. eexists. split; [reflexivity|]. split; [vm_compute; reflexivity|]. split; vm_compute; [reflexivity|discriminate].
  - intros p o args H. cbn in H. ops p H; cbn [n_sem small_net incr o_res]; repeat constructor;
      (destruct (hd [] args) as [|a [|b l]]; reflexivity).
Qed.
Lemma small_returns k base : returns (small_net k base) [2%nat].
Proof.
  split.
  - exists [Op KOther [0%nat] [(1%nat, Some 2)]; Op KOther [1%nat] [(2%nat, Some 2)]], KTerm. reflexivity.
  - intros v [<-|[]]. exists 2. right. exists 1%nat, (Op KOther [1%nat] [(2%nat, Some 2)]). repeat split; try discriminate. cbn. auto.
Qed.
Lemma small_fits k base a b : fits (small_net k base) [[a; b]].
Proof. repeat constructor. Qed.

(** Two models sharing all 16 bytes, as in app_flash_two_models_one_arena. *)
Definition shared (i : nat) : net := small_net (if Nat.eqb i 0 then 1 else 10) 0.
Example C102_instance :
  nn_thread_one_arena shared (fun _ => 77) (fun _ => 78) [[5; 6]] [[7; 8]] (fun _ => 0) = ([[7; 8]], [[27; 28]]) /\
  elsewhere (fun i => small_net 1 (16 * Z.of_nat i)) 0 (Put 1 [[3; 4]]).
Proof.
  split; [vm_compute; reflexivity|]. split; [apply small_compiled|]. split; [apply small_fits|].
  cbn. unfold disjoint_ranges. intros; lia.
Qed.

(** What the applications avoid: with a shared arena, storing the inputs of the other model before invoking, or reading the outputs after
    the other model ran, gives something else. *)
Theorem C102_shared_inputs_refuted :
  (forall i, compiled (shared i)) /\
  outputs (shared 0) (play shared [Put 0 [[5; 6]]; Put 1 [[7; 8]]; Invoke 0] (fun _ => 0)) <> private_outputs (shared 0) [[5; 6]].
Proof. split; [intros i; apply small_compiled|]. vm_compute. discriminate. Qed.
Theorem C102_shared_outputs_refuted :
  outputs (shared 0) (play shared [Put 0 [[5; 6]]; Invoke 0; Put 1 [[7; 8]]; Invoke 1] (fun _ => 0)) <> private_outputs (shared 0) [[5; 6]].
Proof. vm_compute. discriminate. Qed.

(** Nor may a model be invoked again without storing its inputs again, even alone in its arena: the inputs do not survive an invocation. *)
Theorem C102_invoked_again_refuted :
  outputs (shared 0) (play shared [Put 0 [[5; 6]]; Invoke 0; Invoke 0] (fun _ => 0)) <> private_outputs (shared 0) [[5; 6]].
Proof. vm_compute. discriminate. Qed.

Print Assumptions C102_outputs.
Print Assumptions C102_own_arena_only.
Print Assumptions C102_one_arena.
Print Assumptions C102_two_arenas.
Print Assumptions C102_arena_size.
Print Assumptions C102_array_suffices.
Print Assumptions C102_shared_inputs_refuted.
Print Assumptions C102_shared_outputs_refuted.
Print Assumptions C102_invoked_again_refuted.
