(** A lowered function whose large constants have been moved to the weights file (C83): the passes ApplyLoadConstantOpPatterns and
    WriteWeights (Transforms/Passes.cpp:51-58, WriteWeights.cpp 30-136) on the functions of FunModel, and the graph the planner gets.
    The file and the load operators are those of WeightsModel.
    Simplifications: as in FunModel and WeightsModel; which constants are loaded is an arbitrary choice [chosen] (C23 models it);
    result [k] of load operator [w] is called [name w k]. *)
From Coq Require Import List ZArith Bool Arith.
Import ListNotations.
From Verif Require Import NdSpec MemPlanModel FunModel FunSpec FunArenaModel WeightsModel.

(** An operation of the new function: one of FunModel, or an XC_LoadWeightsOp with its results. *)
Inductive lop := One (i : instr) | Load (lw : load_weights) (results : list (nat * ty)).
Record lfunc := LFunc { l_params : list (nat * ty); l_ops : list lop; l_rets : list nat }.

(** The constant called [x]. *)
Fixpoint const_of (body : list instr) (x : nat) : option (list Z * ty) :=
  match body with
  | [] => None
  | i :: tl => match i_op i with
               | TConst d => if Nat.eqb (i_dst i) x then Some (d, i_ty i) else const_of tl x
               | _ => const_of tl x
               end
  end.
Definition const_data (body : list instr) (x : nat) : list Z := match const_of body x with Some (d, _) => d | None => [] end.
Definition const_ty (body : list instr) (x : nat) : ty := match const_of body x with Some (_, t) => t | None => Ty [] 0 None end.

(** LoadConstantOpPatterns.td 22-34: every use of a chosen constant becomes a use of an XC_LoadConstantOp. *)
Definition is_loaded (chosen : nat -> bool) (body : list instr) (x : nat) : bool :=
  chosen x && match const_of body x with Some _ => true | None => false end.
Definition operand_tag (chosen : nat -> bool) (body : list instr) (x : nat) : operand := if is_loaded chosen body x then OLoad x else OOther.
(** Operands of every operation, the return operation last. *)
Definition operands_of (chosen : nat -> bool) (f : func) : list (list operand) :=
  map (fun i => map (operand_tag chosen (f_body f)) (i_args i)) (f_body f) ++ [map (operand_tag chosen (f_body f)) (f_rets f)].

(** WriteWeights.cpp 98-100, 121: the operands after the pass. *)
Definition new_operand (name : nat -> nat -> nat) (p : nat * operand) : nat := match snd p with OWeight w k => name w k | _ => fst p end.
Definition new_operands (name : nat -> nat -> nat) (xs : list nat) (os : list operand) : list nat := map (new_operand name) (combine xs os).

(** WriteWeights.cpp 102, 132: the load operators placed before the operation at position [j], in order of creation (each is moved to
    just before its first user). *)
Definition load_results (name : nat -> nat -> nat) (body : list instr) (w : nat) (lw : load_weights) : list (nat * ty) :=
  map (fun p => (name w (fst p), const_ty body (snd p))) (combine (seq 0 (length (w_consts lw))) (w_consts lw)).
Definition loads_at (name : nat -> nat -> nat) (body : list instr) (loads : list load_weights) (j : nat) : list lop :=
  flat_map (fun p => if Nat.eqb (w_before (snd p)) j then [Load (snd p) (load_results name body (fst p) (snd p))] else [])
    (combine (seq 0 (length loads)) loads).

(** The operation at position [j] (constants without uses are removed by the driver). *)
Definition kept_op (name : nat -> nat -> nat) (chosen : nat -> bool) (body : list instr) (ops : list (list operand)) (j : nat) (i : instr) : list lop :=
  match i_op i with
  | TConst _ => if chosen (i_dst i) then [] else [One i]
  | _ => [One (Instr (i_dst i) (i_op i) (new_operands name (i_args i) (nth j ops [])) (i_ty i))]
  end.
(** The function and the tensors of the weights file.  [schedule]: order in which the driver visits the load operators. *)
Definition externalise (name : nat -> nat -> nat) (ext : bool) (chosen : nat -> bool) (schedule : list nat) (f : func) : lfunc * list (list Z) :=
  let body := f_body f in
  let s := run_write ext (const_data body) schedule (operands_of chosen f) in
  (LFunc (f_params f)
     (flat_map (fun p => loads_at name body (st_loads s) (fst p) ++ kept_op name chosen body (st_ops s) (fst p) (snd p)) (combine (seq 0 (length body)) body)
      ++ loads_at name body (st_loads s) (length body))
     (new_operands name (f_rets f) (nth (length body) (st_ops s) [])),
   st_tensors s).

(** The planner's graph (MemoryPlan.cpp:30-75): a load operator computes its results, in the arena, from no operands. *)
Definition lop_of (other : nat -> okind) (o : lop) : op :=
  match o with
  | One i => op_of other i
  | Load _ rs => Op KOther [] (map (fun r => (fst r, Some (Z.of_nat (tsize (snd r))))) rs)
  end.
Definition lgraph_of (other : nat -> okind) (f : lfunc) : graph :=
  Graph (map (fun p => (fst p, Z.of_nat (tsize (snd p)))) (l_params f)) (map (lop_of other) (l_ops f) ++ [Op KTerm (l_rets f) []]).
