(** Specification vocabulary for memory plans, independent of the planner:
    well-formed single-block SSA functions, tensors, liveness, byte ranges.
    Only the graph datatype is shared with the model. *)
From Coq Require Import List ZArith Bool Arith.
Import ListNotations.
From Verif Require Import MemPlanModel.
Local Open Scope Z_scope.

(** Names defined by the function, in program order. *)
Definition arg_names (g : graph) : list vname := map fst (g_args g).
Definition res_names (o : op) : list vname := map fst (o_res o).
Definition all_names (g : graph) : list vname :=
  arg_names g ++ flat_map res_names (g_ops g).

Definition op_at (g : graph) (p : nat) (o : op) : Prop := nth_error (g_ops g) p = Some o.

Definition used_at (g : graph) (v : vname) (p : nat) : Prop :=
  exists o, op_at g p o /\ In v (o_args o).

(** [v] is produced by the op at position [p]. *)
Definition produced_at (g : graph) (v : vname) (p : nat) : Prop :=
  exists o, op_at g p o /\ In v (res_names o).

(** Well-formed SSA block: names are defined once, sizes are not negative, every
    operand is an argument or the result of an earlier op, constants have no
    operands, statistics ops have been removed (they are, before planning). *)
Record wf_graph (g : graph) : Prop := {
  wf_nodup : NoDup (all_names g);
  wf_arg_sizes : forall v s, In (v, s) (g_args g) -> 0 <= s;
  wf_res_sizes : forall p o v s, op_at g p o -> In (v, Some s) (o_res o) -> 0 <= s;
  wf_dominance : forall p v, used_at g v p ->
      In v (arg_names g) \/ exists q, (q < p)%nat /\ produced_at g v q;
  wf_const_args : forall p o, op_at g p o -> o_kind o = KConst -> o_args o = [];
  wf_no_stats : forall p o, op_at g p o -> o_kind o <> KStats
}.

(** An op that does something at run time (or returns the outputs). *)
Definition executes (g : graph) (p : nat) : Prop :=
  exists o, op_at g p o /\ o_kind o <> KConst /\ o_kind o <> KStats.

(** A tensor of the arena: function input, or result of a computing op. *)
Definition computing (k : okind) : Prop :=
  k <> KConst /\ k <> KStats /\ k <> KTerm.

Definition arena_tensor (g : graph) (v : vname) (s : Z) : Prop :=
  In (v, s) (g_args g) \/
  exists p o, op_at g p o /\ computing (o_kind o) /\ In (v, Some s) (o_res o).

(** A tensor that lives in the model file (result of a constant op). *)
Definition constant_tensor (g : graph) (v : vname) : Prop :=
  exists p o s, op_at g p o /\ (o_kind o = KConst \/ o_kind o = KTerm) /\
                In (v, Some s) (o_res o).

(** [v] holds meaningful data while the op at position [p] executes: it exists
    (it is an input, or is produced at or before [p]) and it is being produced
    by [p], or is used by [p] or later. *)
Definition live_at (g : graph) (v : vname) (p : nat) : Prop :=
  (In v (arg_names g) \/ exists q, (q <= p)%nat /\ produced_at g v q) /\
  (produced_at g v p \/ exists q, (p <= q)%nat /\ used_at g v q).

(** Needed at the same time: while some op executes, or as two inputs. *)
Definition live_together (g : graph) (v w : vname) : Prop :=
  (exists p, executes g p /\ live_at g v p /\ live_at g w p) \/
  (In v (arg_names g) /\ In w (arg_names g)).

(** The tensors of the function in id order (NoneType results are not tensors). *)
Definition tensor_res (o : op) : list vname :=
  flat_map (fun r => match snd r with Some _ => [fst r] | None => [] end) (o_res o).
Definition tensors (g : graph) : list vname :=
  arg_names g ++ flat_map tensor_res (g_ops g).

(** Offset given to tensor [v] by a vector of offsets in id order. *)
Definition offset_of (g : graph) (offs : list Z) (v : vname) (z : Z) : Prop :=
  exists i, nth_error (tensors g) i = Some v /\ nth_error offs i = Some z.

(** No byte belongs to both ranges. *)
Definition disjoint_ranges (o1 s1 o2 s2 : Z) : Prop :=
  forall b, ~ (o1 <= b < o1 + s1 /\ o2 <= b < o2 + s2).

Definition round_up8 (s s' : Z) : Prop := s <= s' < s + 8 /\ (8 | s').

(* ------------------------------------------------------------------ *)
(** In-place overlapping *)

(** Typing facts of the overlappable operators (IR/XCoreOps.td): exactly one
    result, which is a tensor, and all operands are tensors. *)
Record wf_overlap (g : graph) : Prop := {
  wo_res : forall p o, op_at g p o -> overlappable (o_kind o) = true ->
      exists r s, o_res o = [(r, Some s)];
  wo_args : forall p o v, op_at g p o -> overlappable (o_kind o) = true ->
      In v (o_args o) -> In v (tensors g);
  wo_some_arg : forall p o, op_at g p o -> overlappable (o_kind o) = true -> o_args o <> []
}.

(** When the result of an overlappable op feeds another overlappable op, the
    second one's result is not smaller (true of pad, pad_3_to_4, add, mul,
    lookup and activations fed through their data operand; not checked by the
    planner for the last op of a chain). *)
Definition chain_grows (g : graph) : Prop :=
  forall p o r s q o' r' s',
    op_at g p o -> overlappable (o_kind o) = true -> o_res o = [(r, Some s)] ->
    op_at g q o' -> overlappable (o_kind o') = true -> o_res o' = [(r', Some s')] ->
    In r (o_args o') -> s <= s'.

(** No result of an overlappable op is dead (unused pure ops are removed by the
    canonicaliser before planning). *)
Definition results_used (g : graph) : Prop :=
  forall p o r s, op_at g p o -> overlappable (o_kind o) = true -> o_res o = [(r, Some s)] ->
    exists q, used_at g r q.

(** The arena tensors with their byte sizes. *)
Definition sized_res (o : op) : list (vname * Z) :=
  flat_map (fun r => match snd r with Some s => [(fst r, s)] | None => [] end) (o_res o).
Definition computing_op (o : op) : bool :=
  match o_kind o with KConst | KStats | KTerm => false | _ => true end.
Definition arena_list (g : graph) : list (vname * Z) :=
  g_args g ++ flat_map sized_res (filter computing_op (g_ops g)).

(** Smallest multiple of 8 not below [s]. *)
Definition up8 (s : Z) : Z := s + (- s) mod 8.
Definition sum_up8 (l : list (vname * Z)) : Z := fold_right (fun x n => up8 (snd x) + n) 0 l.

(** Every function input is read by some op. *)
Definition args_used (g : graph) : Prop :=
  forall v, In v (arg_names g) -> exists p, used_at g v p.

(** The in-place exception: [v] is consumed for the last (and only) time by the
    overlappable op at [p] which produces [w]. *)
Definition consumed_in_place (g : graph) (p : nat) (v w : vname) : Prop :=
  exists o, op_at g p o /\ overlappable (o_kind o) = true /\
    In v (o_args o) /\ (forall q, used_at g v q -> q = p) /\ produced_at g w p.
