(** Model of the patterns of Transforms/XCPatterns.td 193-208 that fuse a Reshape with the xcore convolution next to it.
    The body of a function is given as the expression computing a result (values used several times are repeated: the
    operators are pure). *)
From Coq Require Import List ZArith Bool Arith.
Import ListNotations.

(** A tensor value: its shape and its elements in row-major order. *)
Definition tensor_value (A : Type) : Type := list nat * list A.

(** [Reshape shape e]: tfl.reshape; the shape is that of the result type.
    [Conv p shape ws e]: xc.conv2d_v2 with attributes [p], result shape [shape], the other operands [ws] (weights,
    multipliers, partial output) and the input [e].
    [Other f args]: any other operator. *)
Inductive expr (A P : Type) :=
| Leaf (v : tensor_value A)
| Reshape (shape : list nat) (e : expr A P)
| Conv (p : P) (shape : list nat) (ws : list (list A)) (e : expr A P)
| Other (f : list (tensor_value A) -> tensor_value A) (args : list (expr A P)).
Arguments Leaf {A P}. Arguments Reshape {A P}. Arguments Conv {A P}. Arguments Other {A P}.

(** XCPatterns.td 193-200: Conv(Reshape(input)) becomes Conv(input); 202-208: Reshape(Conv(input)) becomes Conv(input), with
    the type of the value replaced. *)
Definition fuse_root {A P} (e : expr A P) : option (expr A P) :=
  match e with
  | Conv p shape ws (Reshape _ input) => Some (Conv p shape ws input)
  | Reshape shape (Conv p _ ws input) => Some (Conv p shape ws input)
  | _ => None
  end.

(** The rewrite driver applies a pattern at any place, in any order. *)
Inductive fuse_step {A P} : expr A P -> expr A P -> Prop :=
| StepRoot : forall e e', fuse_root e = Some e' -> fuse_step e e'
| StepReshape : forall shape e e', fuse_step e e' -> fuse_step (Reshape shape e) (Reshape shape e')
| StepConv : forall p shape ws e e', fuse_step e e' -> fuse_step (Conv p shape ws e) (Conv p shape ws e')
| StepOther : forall f l1 e e' l2, fuse_step e e' -> fuse_step (Other f (l1 ++ e :: l2)) (Other f (l1 ++ e' :: l2)).
