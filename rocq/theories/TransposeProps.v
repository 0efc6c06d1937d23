(** Property C20: transpose optimisation preserves the results.
    Model: TransposeModel.  Meaning of the operators: TransposeSpec. *)
From Verif Require Import Base NdSpec TransposeModel TransposeSpec TransposeProofs.
Local Open Scope nat_scope.

(** Whatever the other operators compute, any sequence of applications of the two
    patterns anywhere in a well-typed body leaves its value unchanged for every
    input, and the body well typed. *)
Theorem C20_transpose_rewrites_preserve_results A (zero : A) op args e e' :
  (forall n l, wf (op n l)) -> well_typed zero op args e -> steps args e e' ->
  well_typed zero op args e' /\
  forall env, has_types args env -> eval zero op env e' = eval zero op env e.
Proof. intros O W S. apply (steps_ok zero op O); auto. Qed.

(** With input modification allowed, the new function applied to the transposed
    input computes what the old function computed from the original input, and the
    new argument type is the type of the transposed input. *)
Theorem C20_transpose_folded_into_input A (zero : A) op i out args results args' results' :
  (forall n l, wf (op n l)) -> Forall (well_typed zero op args) results ->
  fold_to_input i out args results = Some (args', results') ->
  forall env, has_types args env ->
  let env' := set_nth i (transpose_v zero [0; 2; 3; 1] (nth i env (Value [] [zero]))) env in
  i < length args /\ has_types args' env' /\ map (eval zero op env') results' = map (eval zero op env) results.
Proof. intros O W H. apply (fold_to_input_ok zero op O i out); auto. Qed.

(** Concrete case: NHWC transpose of a padded 1x3x2x2 input, of a transposed input. *)
Definition ex_body : expr :=
  ETranspose [0; 2; 3; 1]%Z (EPad [(0, 0); (0, 0); (1, 1); (1, 1)]%Z
    (ETranspose [0; 3; 1; 2]%Z (EArg 0) [1; 3; 2; 2]) [1; 3; 4; 4]) [1; 4; 4; 3].
Definition ex_body' : expr := EPad [(0, 0); (1, 1); (1, 1); (0, 0)]%Z (EArg 0) [1; 4; 4; 3].

Example ex_steps : steps [[1; 2; 2; 3]] ex_body ex_body'.
Proof.
  eapply steps_cons; [apply step_hoist; reflexivity|].
  eapply steps_cons; [apply step_pad, step_fold; reflexivity|]. apply steps_refl.
Qed.
Example ex_typed op : well_typed 0%Z op [[1; 2; 2; 3]] ex_body.
Proof.
  assert (S : forall env, has_types [[1; 2; 2; 3]] env -> exists v : value (A := Z), env = [v] /\ vshape v = [1; 2; 2; 3] /\ wf v).
  { intros env H. inv H. inv H4. destruct H2. eexists; repeat split; eauto. }
  cbn [ex_body well_typed type_of nth length]. repeat split.
  all: try (intros env H; destruct (S env H) as (v & -> & E & _); cbn [eval transpose_v pad_v value_of vshape nth permute pad_shape map]; rewrite E; reflexivity).
  all: try (repeat (apply Forall_cons; [cbn; lia|]); apply Forall_nil).
  - lia.
  - cbn. apply perm_skip. apply (Permutation_trans (l' := [1; 3; 2])); [apply perm_swap|apply perm_skip, perm_swap].
  - cbn. apply perm_skip. apply (Permutation_trans (l' := [2; 1; 3])); [apply perm_skip, perm_swap|apply perm_swap].
Qed.
Example ex_eval : vdata (eval 0%Z (fun _ _ => Value [] [0%Z]) [Value [1; 2; 1; 2] [1; 2; 3; 4]%Z]
   (ETranspose [0; 3; 1; 2]%Z (EArg 0) [1; 2; 2; 1])) = [1; 3; 2; 4]%Z.
Proof. reflexivity. Qed.
Example ex_fold : fold_to_input 0 [1; 2; 2; 3] [[1; 3; 2; 2]] [ETranspose [0; 2; 3; 1]%Z (EArg 0) [1; 2; 2; 3]] =
  Some ([[1; 2; 2; 3]], [EArg 0]).
Proof. reflexivity. Qed.

Print Assumptions C20_transpose_rewrites_preserve_results.
Print Assumptions C20_transpose_folded_into_input.
