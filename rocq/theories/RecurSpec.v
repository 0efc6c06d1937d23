(** Vocabulary for C103: a network with a state. *)
From Coq Require Import List ZArith QArith Bool Arith.
Import ListNotations.
From Verif Require Import MemPlanModel MemPlanSpec MemExecSpec ArenasModel ArenasSpec AudioModel RecurModel.
Local Open Scope Z_scope.

(** The network run frame by frame, each time on the spectrum and the state that it computed itself for the frame before. *)
Fixpoint unrolled (N : net) (state : bytes) (frames : list bytes) : list bytes :=
  match frames with
  | [] => []
  | f :: tl => let out := private_outputs N [f; state] in nth 1 out [] :: unrolled N (nth 0 out []) tl
  end.

(** The spectra and the settings of the calls. *)
Fixpoint frames (ds : list doing) : list bytes := match ds with [] => [] | Other _ :: tl => frames tl | Predict _ _ f :: tl => f :: frames tl end.
Fixpoint settings (ds : list doing) : list Z := match ds with [] => [] | Other _ :: tl => settings tl | Predict _ b _ :: tl => b :: settings tl end.

(** A compiled network with two inputs and two outputs; the second input and the first output are the state. *)
Definition recurrent (N : net) : Prop :=
  compiled N /\
  exists a0 a1 v0 v1, g_args (n_graph N) = [(a0, Z.of_nat ROW); (a1, Z.of_nat ROW)] /\ returns N [v0; v1] /\
    arena_tensor (n_graph N) v0 (Z.of_nat ROW).
