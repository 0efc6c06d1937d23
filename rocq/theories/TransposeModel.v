(** Model of xformer/Transforms/OptimizeTranspose.cpp. *)
From Coq Require Import List ZArith Bool Arith.
Import ListNotations.
From Verif Require Import NdSpec.
Local Open Scope Z_scope.

(** Value expressions of a function body.  A result of an operator that has several
    uses appears several times (the SSA graph is unfolded into a tree); this is
    faithful because replaceOp changes all uses of a result at once and all these
    operators are pure.  Transposes and pads carry their constant operand and their
    declared result shape; every other operator is [EOp]. *)
Inductive expr :=
| EArg (i : nat)
| ETranspose (perm : list Z) (e : expr) (out : shape)
| EPad (pads : list (Z * Z)) (e : expr) (out : shape)
| EOp (name : nat) (args : list expr) (out : shape).

(** The type of a value (declared result type; block-argument types come from the
    function type [args]). *)
Definition type_of (args : list shape) (e : expr) : shape :=
  match e with
  | EArg i => nth i args []
  | ETranspose _ _ out | EPad _ _ out | EOp _ _ out => out
  end.

(** OptimizeTranspose.cpp 46-53 (and 142-149): the permutation is 0,2,3,1. *)
Definition perm_is_0231 (perm : list Z) : bool :=
  match perm with
  | [a; b; c; d] => (a =? 0) && (b =? 2) && (c =? 3) && (d =? 1)
  | _ => false
  end.

(** OptimizeTranspose.cpp 61-67: pads are exactly 1 before and after in the last two
    dimensions.  (Lines index a 4 x 2 constant; the input of a rank-4 transpose has
    rank 4, so any other shape of the constant is ill-typed.) *)
Definition pads_last_two (pads : list (Z * Z)) : bool :=
  match pads with
  | [(a, b); (c, d); (e, f); (g, h)] =>
      (a =? 0) && (b =? 0) && (c =? 0) && (d =? 0) && (e =? 1) && (f =? 1) && (g =? 1) && (h =? 1)
  | _ => false
  end.

(** OptimizeTranspose.cpp 28-93, HoistTransposeWCHAbovePadPattern. *)
Definition hoist_above_pad (args : list shape) (e : expr) : option expr :=
  match e with
  | ETranspose perm (EPad pads inner pout) out =>
      if perm_is_0231 perm then
        if pads_last_two pads then
          match type_of args inner with
          | [s0; s1; s2; s3] =>
              Some (EPad [(0, 0); (1, 1); (1, 1); (0, 0)]
                     (ETranspose perm inner [s0; s2; s3; s1]) out)
          | _ => None
          end
        else None
      else None
  | _ => None
  end.

(** TF::AreCancellablePermutations (tensorflow/tf_ops_layout_helper, not in the
    repository): non-empty, same length and perm0[perm1[i]] = i for all i. *)
Definition are_cancellable (perm0 perm1 : list Z) : bool :=
  negb (Nat.eqb (length perm0) 0) && negb (Nat.eqb (length perm1) 0) && Nat.eqb (length perm0) (length perm1) &&
  forallb (fun i => nth (Z.to_nat (nth i perm1 (-1))) perm0 (-1) =? Z.of_nat i) (seq 0 (length perm0)).

(** OptimizeTranspose.cpp 94-126, FoldCancellableTransposePattern. *)
Definition fold_cancellable (e : expr) : option expr :=
  match e with
  | ETranspose perm0 (ETranspose perm1 inner _) _ =>
      if are_cancellable perm0 perm1 then Some inner else None
  | _ => None
  end.

(** The greedy driver (applyPatternsAndFoldGreedily, line 186) may apply either
    pattern to any operator of the body, in any order: one such application. *)
Inductive step (args : list shape) : expr -> expr -> Prop :=
| step_hoist e e' : hoist_above_pad args e = Some e' -> step args e e'
| step_fold e e' : fold_cancellable e = Some e' -> step args e e'
| step_transpose perm e e' out : step args e e' -> step args (ETranspose perm e out) (ETranspose perm e' out)
| step_pad pads e e' out : step args e e' -> step args (EPad pads e out) (EPad pads e' out)
| step_op name l e e' r out : step args e e' -> step args (EOp name (l ++ e :: r) out) (EOp name (l ++ e' :: r) out).

Inductive steps (args : list shape) : expr -> expr -> Prop :=
| steps_refl e : steps args e e
| steps_cons e1 e2 e3 : step args e1 e2 -> steps args e2 e3 -> steps args e1 e3.

(** OptimizeTranspose.cpp 127-174, FoldTransposeWCHToInput.  "The block argument has
    one use and that use is a transpose 0,2,3,1": in the unfolded tree every
    occurrence of the argument is the operand of that transpose, whose result type
    is [out].  Every such transpose is replaced by the argument, and the type of the
    argument becomes [out]. *)
Fixpoint arg_only_transposed (i : nat) (out : shape) (e : expr) : bool :=
  match e with
  | EArg j => negb (Nat.eqb i j)
  | ETranspose perm (EArg j) out' =>
      if Nat.eqb i j then perm_is_0231 perm && (if list_eq_dec Nat.eq_dec out out' then true else false) else true
  | ETranspose _ e' _ | EPad _ e' _ => arg_only_transposed i out e'
  | EOp _ l _ => forallb (arg_only_transposed i out) l
  end.

(** The matched operator itself: a transpose of argument [i] with result type [out]. *)
Fixpoint transposes_arg (i : nat) (out : shape) (e : expr) : bool :=
  match e with
  | EArg _ => false
  | ETranspose _ (EArg j) out' => Nat.eqb i j && (if list_eq_dec Nat.eq_dec out out' then true else false)
  | ETranspose _ e' _ | EPad _ e' _ => transposes_arg i out e'
  | EOp _ l _ => existsb (transposes_arg i out) l
  end.

Fixpoint drop_transpose (i : nat) (e : expr) : expr :=
  match e with
  | EArg j => EArg j
  | ETranspose perm (EArg j) out => if Nat.eqb i j then EArg j else ETranspose perm (EArg j) out
  | ETranspose perm e' out => ETranspose perm (drop_transpose i e') out
  | EPad pads e' out => EPad pads (drop_transpose i e') out
  | EOp name l out => EOp name (map (drop_transpose i) l) out
  end.

Fixpoint set_nth {A} (i : nat) (x : A) (l : list A) : list A :=
  match l, i with
  | [], _ => []
  | _ :: tl, O => x :: tl
  | y :: tl, S i' => y :: set_nth i' x tl
  end.

(** A function: argument types and the expressions of its results. *)
Definition fold_to_input (i : nat) (out : shape) (args : list shape) (results : list expr) : option (list shape * list expr) :=
  if existsb (transposes_arg i out) results && forallb (arg_only_transposed i out) results
  then Some (set_nth i out args, map (drop_transpose i) results) else None.
