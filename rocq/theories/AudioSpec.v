(** What C90 says of the two threads of the audio example. *)
From Coq Require Import List ZArith.
From Verif Require Import AudioModel.
Import ListNotations.
Local Open Scope nat_scope.

Section Threads.
Variable N : nat.
Variable D : Type.
Variable process : Z -> D -> list Z -> D * list Z.
(** The results of processing blocks, each with the state of the buttons then. *)
Fixpoint results (d : D) (bl : list (Z * list Z)) : list (list Z) :=
  match bl with [] => [] | (b, l) :: tl => let '(d', r) := process b d l in r :: results d' tl end.
Fixpoint state_after (d : D) (bl : list (Z * list Z)) : D :=
  match bl with [] => d | (b, l) :: tl => state_after (fst (process b d l)) tl end.
(** A schedule meets the deadlines when the processing rests whenever the transport thread copies. *)
Definition copying (p : tphase) : Prop := match p with TIn _ | TOut _ => True | _ => False end.
Definition rests (c : config D) : Prop := d_phase D (c_dsp D c) = DIdle /\ tokens (c_shared D c) = 0.
Fixpoint timely (c : config D) (l : list action) : Prop :=
  match l with
  | [] => True
  | a :: tl => (a = StepT -> copying (t_phase (c_transport D c)) -> rests c) /\
               match step N D process c a with None => True | Some (c', _) => timely c' tl end
  end.
(** The samples that come in, first word of each frame. *)
Fixpoint samples (l : list action) : list Z := match l with [] => [] | Frame (x :: _) :: tl => x :: samples tl | _ :: tl => samples tl end.
(** The button state when each block begins to be processed: the value sent last. *)
Definition now_pressed (b : Z) (a : action) : Z := match a with Button v => v | _ => b end.
Definition begins (c : config D) (a : action) : bool := match a, d_phase D (c_dsp D c), tokens (c_shared D c) with StepD, DIdle, S _ => true | _, _, _ => false end.
Fixpoint buttons (b : Z) (c : config D) (l : list action) : list Z :=
  match l with
  | [] => []
  | a :: tl => (if begins c a then [b] else []) ++ match step N D process c a with None => [] | Some (c', _) => buttons (now_pressed b a) c' tl end
  end.
End Threads.
