(** A lowered function as the planner's graph (C73): MemoryPlan.cpp:30-75 build() reads a func.func of MLIR; here the function
    of FunModel is turned into the graph of MemPlanModel.  Simplification: one tensor result per operation (FunModel). *)
From Coq Require Import List ZArith Bool Arith.
Import ListNotations.
From Verif Require Import NdSpec MemPlanModel FunModel FunSpec.

(** Kind of an operation (MemoryPlan.cpp:45-61; IR/XCoreOps.td: only xc.pad and xc.lookup, among the operators of FunModel, may overlap their
    operand); [other d]: the kind of the [TOther] operation defining [d]. *)
Definition kind_of (other : nat -> okind) (i : instr) : okind :=
  match i_op i with
  | TConst _ => KConst
  | XPad _ => KPad
  | XCompute XLookup => KLookup
  | TOther _ => other (i_dst i)
  | _ => KOther
  end.
Definition op_of (other : nat -> okind) (i : instr) : op :=
  Op (kind_of other i) (i_args i) [(i_dst i, Some (Z.of_nat (tsize (i_ty i))))].
(** The function with its return operation. *)
Definition graph_of (other : nat -> okind) (f : func) : graph :=
  Graph (map (fun p => (fst p, Z.of_nat (tsize (snd p)))) (f_params f))
        (map (op_of other) (f_body f) ++ [Op KTerm (f_rets f) []]).
