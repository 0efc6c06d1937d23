(** Vocabulary for networks that live in one memory, independent of the proofs. *)
From Coq Require Import List ZArith Bool Arith Permutation.
Import ListNotations.
From Verif Require Import MemPlanModel MemPlanSpec MemExecSpec MemPlanProps ArenasModel.
Local Open Scope Z_scope.

(** A model as the compiler leaves it: a well formed function whose offsets are those the compiler wrote into the model, with
    operators that produce as many bytes as their types say, in an arena that is at least as large as the compiler reported. *)
Definition compiled (N : net) : Prop :=
  wf_graph (n_graph N) /\ wf_overlap (n_graph N) /\ chain_grows (n_graph N) /\
  (exists iter garbage ma, (forall l, Permutation (iter l) l) /\
     plan_memory iter true false (n_graph N) garbage = Some (Some ma) /\
     n_offs N = ma_offsets ma /\ ma_peakusage ma <= n_size N) /\
  sem_sized (n_graph N) (n_sem N).

(** The function ends with its terminator, which produces nothing; every output is a tensor of the arena. *)
Definition returns (N : net) (outs : list vname) : Prop :=
  (exists os k, g_ops (n_graph N) = os ++ [Op k outs []]) /\
  forall v, In v outs -> exists s, arena_tensor (n_graph N) v s.

(** Inputs of the right sizes. *)
Definition fits (N : net) (inputs : list bytes) : Prop :=
  Forall2 (fun b a => Z.of_nat (length b) = snd a) inputs (g_args (n_graph N)).

Definition about (e : event) : nat := match e with Start i _ => i | Put i _ => i | Invoke i => i end.
Definition legal (nets : nat -> net) (e : event) : Prop :=
  match e with Put i inputs => fits (nets i) inputs | _ => True end.

(** The event concerns a compiled model whose arena shares no byte with the arena of model [i]. *)
Definition elsewhere (nets : nat -> net) (i : nat) (e : event) : Prop :=
  compiled (nets (about e)) /\ legal nets e /\
  disjoint_ranges (n_base (nets i)) (n_size (nets i)) (n_base (nets (about e))) (n_size (nets (about e))).

(** What the model computes from the inputs with private buffers: the operands of its last operator. *)
Definition private_outputs (N : net) (inputs : list bytes) : list bytes :=
  last (private_trace (n_graph N) (n_sem N) inputs) [].
