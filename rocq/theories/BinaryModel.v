(** Model of the way a quantised Add, Sub or Mul becomes an xcore operator, as rewriting of a whole network:
    Transforms/TFLPatterns.td 64-81 (fused activation taken out) and 83-106 (operands broadcast explicitly), applied by the
    TFL passes (Passes.cpp 30, 33), then Transforms/ReplaceAddSub.cpp and Transforms/ReplaceMul.cpp with
    Utils/Util.h 44-67 (checkBinaryCompatibility) (Passes.cpp 39, 41).
    A network is the expression computing one tensor (a value used several times is repeated: the operators are pure).
    Simplifications: static shapes; only 8-bit operators are distinguished (16-bit ones are C69); exact arithmetic. *)
From Coq Require Import List ZArith Bool Arith QArith.
Import ListNotations.
From Verif Require Import LutModel AddModel PatternModel NdSpec.
Local Open Scope Z_scope.

Inductive kind := KAdd | KSub | KMul.
(** TFL_AF_None, Relu, Relu1, Relu6, Tanh, Sign. *)
Inductive act := ANone | ARelu | ARelu1 | ARelu6 | ATanh | ASign.
(** A tensor type: shape, whether the elements are 8-bit quantised, scale and zero point. *)
Record bty := BTy { b_shape : list nat; b_int8 : bool; b_q : qtype }.

(** nn_mul_params_t as computed by mul_boggle (lib_nn, not in the repository), represented by its arguments, in the order of
    ReplaceMul.cpp 54-55. *)
Record mul_args := MulArgs { m_lhs : Q; m_rhs : Q; m_out : Q; m_lhs_zero : Z; m_rhs_zero : Z; m_out_zero : Z }.

Inductive net :=
| In (i : nat) (t : bty)
| BroadcastTo (e : net) (t : bty)
| Binary (k : kind) (a : act) (e1 e2 : net) (t : bty)
| Activation (a : act) (e : net) (t : bty)
| XAdd (op : add_op) (e1 e2 : net) (t : bty)
| XMul (args : mul_args) (e1 e2 : net) (t : bty)
| Other (f : list (tensor Z) -> tensor Z) (l : list net) (t : bty).
Definition type_of (e : net) : bty :=
  match e with In _ t | BroadcastTo _ t | Binary _ _ _ _ t | Activation _ _ t | XAdd _ _ _ t | XMul _ _ _ t | Other _ _ t => t end.
Definition same_shape (a b : bty) : bool := has_same_shape (map Some (b_shape a)) (map Some (b_shape b)).

Inductive tfl_root : net -> net -> Prop :=
(** TFLPatterns.td 64-81. *)
| Unfuse : forall k a e1 e2 t, b_int8 (type_of e1) = true -> b_int8 (type_of e2) = true -> a <> ANone ->
    tfl_root (Binary k a e1 e2 t) (Activation a (Binary k ANone e1 e2 t) t)
(** TFLPatterns.td 93-98; getTypeOf1WithQParamsOf0 (Utils.td): shape of the result, quantisation of the operand. *)
| BroadcastLhs : forall k a e1 e2 t, b_int8 (type_of e1) = true -> b_int8 (type_of e2) = true ->
    same_shape (type_of e1) t = false ->
    tfl_root (Binary k a e1 e2 t) (Binary k a (BroadcastTo e1 (BTy (b_shape t) (b_int8 (type_of e1)) (b_q (type_of e1)))) e2 t)
(** TFLPatterns.td 100-105. *)
| BroadcastRhs : forall k a e1 e2 t, b_int8 (type_of e1) = true -> b_int8 (type_of e2) = true ->
    same_shape (type_of e2) t = false ->
    tfl_root (Binary k a e1 e2 t) (Binary k a e1 (BroadcastTo e2 (BTy (b_shape t) (b_int8 (type_of e2)) (b_q (type_of e2)))) t).

(** Util.h 44-67. *)
Definition compatible (lhs rhs out : bty) : bool :=
  (same_shape rhs out || same_shape lhs out) && b_int8 lhs && b_int8 rhs && b_int8 out.

Inductive lower_root : net -> net -> Prop :=
(** ReplaceAddSub.cpp 31-96; the fused activation is an attribute that is not exported (TranslateToCustomOp.cpp 51-61). *)
| LowerAddSub : forall k a e1 e2 t op, compatible (type_of e1) (type_of e2) t = true -> k <> KMul ->
    replace_add_sub (b_q (type_of e1)) (b_q (type_of e2)) (b_q t) (match k with KSub => true | _ => false end) = Some op ->
    lower_root (Binary k a e1 e2 t) (XAdd op e1 e2 t)
(** ReplaceMul.cpp 34-66. *)
| LowerMul : forall a e1 e2 t, compatible (type_of e1) (type_of e2) t = true ->
    lower_root (Binary KMul a e1 e2 t)
      (XMul (MulArgs (q_scale (b_q (type_of e1))) (q_scale (b_q (type_of e2))) (q_scale (b_q t))
                     (q_zero (b_q (type_of e1))) (q_zero (b_q (type_of e2))) (q_zero (b_q t))) e1 e2 t).

(** The rewrite driver: a pattern anywhere in the network. *)
Inductive anywhere (R : net -> net -> Prop) : net -> net -> Prop :=
| AtRoot : forall e e', R e e' -> anywhere R e e'
| InBroadcast : forall e e' t, anywhere R e e' -> anywhere R (BroadcastTo e t) (BroadcastTo e' t)
| InBinary1 : forall k a e1 e1' e2 t, anywhere R e1 e1' -> anywhere R (Binary k a e1 e2 t) (Binary k a e1' e2 t)
| InBinary2 : forall k a e1 e2 e2' t, anywhere R e2 e2' -> anywhere R (Binary k a e1 e2 t) (Binary k a e1 e2' t)
| InActivation : forall a e e' t, anywhere R e e' -> anywhere R (Activation a e t) (Activation a e' t)
| InXAdd1 : forall op e1 e1' e2 t, anywhere R e1 e1' -> anywhere R (XAdd op e1 e2 t) (XAdd op e1' e2 t)
| InXAdd2 : forall op e1 e2 e2' t, anywhere R e2 e2' -> anywhere R (XAdd op e1 e2 t) (XAdd op e1 e2' t)
| InXMul1 : forall m e1 e1' e2 t, anywhere R e1 e1' -> anywhere R (XMul m e1 e2 t) (XMul m e1' e2 t)
| InXMul2 : forall m e1 e2 e2' t, anywhere R e2 e2' -> anywhere R (XMul m e1 e2 t) (XMul m e1 e2' t)
| InOther : forall f l1 e e' l2 t, anywhere R e e' -> anywhere R (Other f (l1 ++ e :: l2) t) (Other f (l1 ++ e' :: l2) t).
(** applyPatternsAndFoldGreedily: until no pattern applies. *)
Inductive run (R : net -> net -> Prop) : net -> net -> Prop :=
| Done : forall e, (forall e', ~ anywhere R e e') -> run R e e
| More : forall e e1 e', anywhere R e e1 -> run R e1 e' -> run R e e'.
Definition compile (e0 e2 : net) : Prop := exists e1, run tfl_root e0 e1 /\ run lower_root e1 e2.
