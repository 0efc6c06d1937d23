(** Executing a function that reads constants from a weights file (C83). *)
From Coq Require Import List ZArith Bool Arith.
Import ListNotations.
From Verif Require Import NdSpec MemPlanModel MemExecSpec FunModel FunSpec FunArenaSpec WeightsModel WeightsSpec FunLoadModel.

(** The results of a load operator, read from the file ([fetch] of WeightsSpec). *)
Fixpoint read_results (file : list Z) (lw : load_weights) (k : nat) (rs : list (nat * ty)) (e : env) : option env :=
  match rs with
  | [] => Some e
  | (d, t) :: tl => match WeightsSpec.fetch file lw k with Some b => read_results file lw (S k) tl ((d, (t, b)) :: e) | None => None end
  end.
Fixpoint eval_lops (file : list Z) (ops : list lop) (e : env) : option env :=
  match ops with
  | [] => Some e
  | One i :: tl =>
      match lookups e (i_args i) with
      | Some vs => match sem (i_op i) vs (i_ty i) with Some b => eval_lops file tl ((i_dst i, (i_ty i, b)) :: e) | None => None end
      | None => None
      end
  | Load lw rs :: tl => match read_results file lw 0 rs e with Some e' => eval_lops file tl e' | None => None end
  end.
Definition evaluate_with (file : list Z) (f : lfunc) (inputs : list (list Z)) : option (list (ty * list Z)) :=
  match eval_lops file (l_ops f) (start (l_params f) inputs) with Some e => lookups e (l_rets f) | None => None end.

(** Names in scope after the operations [ops], with their types. *)
Definition results (o : lop) : list (nat * ty) := match o with One i => [(i_dst i, i_ty i)] | Load _ rs => rs end.
Definition lscope (ps : list (nat * ty)) (ops : list lop) : list (nat * ty) := rev (flat_map results ops) ++ ps.
(** What the operation at position [p] writes to the arena. *)
Definition lkernels (file : list Z) (f : lfunc) : opsem := fun p bs =>
  match nth_error (l_ops f) p with
  | None => []
  | Some (One i) =>
      [fit (tsize (i_ty i))
         match lookups (lscope (l_params f) (firstn p (l_ops f))) (i_args i) with
         | None => []
         | Some tys => match sem (i_op i) (combine tys bs) (i_ty i) with Some b => b | None => [] end
         end]
  | Some (Load lw rs) =>
      map (fun p => fit (tsize (snd (snd p))) match WeightsSpec.fetch file lw (fst p) with Some b => b | None => [] end)
        (combine (seq 0 (length rs)) rs)
  end.

(** Names for the results of load operators that occur nowhere else. *)
Definition new_names (name : nat -> nat -> nat) (f : func) : Prop :=
  (forall w k w' k', name w k = name w' k' -> w = w' /\ k = k') /\ forall w k, ~ mentioned f (name w k).
