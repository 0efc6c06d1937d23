(** Executing a lowered function in the planned arena (C73). *)
From Coq Require Import List ZArith Bool Arith.
Import ListNotations.
From Verif Require Import NdSpec MemPlanModel MemExecSpec FunModel FunSpec.

(** A kernel writes exactly the bytes of its result tensor. *)
Definition fit (n : nat) (b : list Z) : list Z := firstn n (b ++ repeat 0%Z n).

(** What the operation at position [p] computes: [sem] of FunSpec on the operand bytes, with the operand types of the function;
    the return operation computes nothing. *)
Definition kernels (f : func) : opsem := fun p bs =>
  match nth_error (f_body f) p with
  | None => []
  | Some i =>
      [fit (tsize (i_ty i))
         match lookups (scope (f_params f) (firstn p (f_body f))) (i_args i) with
         | None => []
         | Some tys => match sem (i_op i) (combine tys bs) (i_ty i) with Some b => b | None => [] end
         end]
  end.

(** The outputs of an execution: the bytes the return operation reads. *)
Definition outputs (trace : list (list (list Z))) : list (list Z) := last trace [].

(** Kinds of the operators the passes leave alone: they compute, and those allowed to overlap their operand have one. *)
Definition kinds_ok (other : nat -> okind) (f : func) : Prop :=
  forall i g, In i (f_body f) -> i_op i = TOther g ->
    other (i_dst i) <> KConst /\ other (i_dst i) <> KStats /\ other (i_dst i) <> KTerm /\
    (overlappable (other (i_dst i)) = true -> i_args i <> []).
