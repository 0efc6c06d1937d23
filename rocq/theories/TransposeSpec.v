(** Meaning of the expressions of TransposeModel on data. *)
From Coq Require Import List ZArith Bool Arith Permutation.
Import ListNotations.
From Verif Require Import NdSpec TransposeModel.

Section S.
Context {A : Type}.
Variable zero : A.   (* the pad value (zero point of the tensor) *)

(** A value: shape and row-major data. *)
Record value := Value { vshape : shape; vdata : list A }.
Definition wf (v : value) : Prop := length (vdata v) = nelem (vshape v).

Fixpoint ravel (s : shape) (idx : index) : nat :=
  match s, idx with
  | _ :: s', i :: idx' => i * nelem s' + ravel s' idx'
  | _, _ => 0
  end.
Definition tensor_of (v : value) : tensor A := fun idx => nth (ravel (vshape v) idx) (vdata v) zero.
Definition value_of (s : shape) (t : tensor A) : value := Value s (flatten s t).

(** tf.transpose: output dimension k is input dimension perm[k], so the input index
    has idx[k] at position perm[k]. *)
Fixpoint position (j : nat) (perm : list nat) : nat :=
  match perm with
  | [] => 0
  | p :: tl => if Nat.eqb p j then 0 else S (position j tl)
  end.
Definition transpose_t (perm : list nat) (t : tensor A) : tensor A :=
  fun idx => t (map (fun j => nth (position j perm) idx 0) (seq 0 (length perm))).
Definition permute (perm : list nat) (s : shape) : shape := map (fun p => nth p s 0) perm.
Definition transpose_v (perm : list nat) (v : value) : value :=
  value_of (permute perm (vshape v)) (transpose_t perm (tensor_of v)).

(** tf.pad with the constant [zero]. *)
Definition pad_shape (pads : list (nat * nat)) (s : shape) : shape :=
  map2 (fun p d => fst p + d + snd p) pads s.
Definition pad_v (pads : list (nat * nat)) (v : value) : value :=
  value_of (pad_shape pads (vshape v)) (pad_t (map fst pads) (vshape v) zero (tensor_of v)).

(** The other operators: any function of the values of their operands. *)
Variable op : nat -> list value -> value.

Definition nats (l : list Z) : list nat := map Z.to_nat l.
Definition nats2 (l : list (Z * Z)) : list (nat * nat) := map (fun p => (Z.to_nat (fst p), Z.to_nat (snd p))) l.

Fixpoint eval (env : list value) (e : expr) : value :=
  match e with
  | EArg i => nth i env (Value [] [zero])
  | ETranspose perm e' _ => transpose_v (nats perm) (eval env e')
  | EPad pads e' _ => pad_v (nats2 pads) (eval env e')
  | EOp name l _ => op name (map (eval env) l)
  end.

(** Well-typed bodies: arguments exist, permutations are permutations of the rank,
    paddings are non-negative, and the declared type of every operator is the type
    of its value for all inputs of the declared argument types. *)
Definition has_types (args : list shape) (env : list value) : Prop :=
  Forall2 (fun s v => vshape v = s /\ wf v) args env.

Fixpoint well_typed (args : list shape) (e : expr) : Prop :=
  (forall env, has_types args env -> vshape (eval env e) = type_of args e) /\
  match e with
  | EArg i => i < length args
  | ETranspose perm e' _ =>
      well_typed args e' /\ Forall (fun p => 0 <= p)%Z perm /\
      Permutation (nats perm) (seq 0 (length (type_of args e')))
  | EPad pads e' _ =>
      well_typed args e' /\ length pads = length (type_of args e') /\
      Forall (fun p => 0 <= fst p /\ 0 <= snd p)%Z pads
  | EOp _ l _ => (fix all l := match l with [] => True | x :: tl => well_typed args x /\ all tl end) l
  end.
End S.
