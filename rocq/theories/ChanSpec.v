(** Vocabulary for C97. *)
From Verif Require Import Base ChanModel.
Local Open Scope Z_scope.

(** No thread is about to read a token of the wrong kind. *)
Definition no_trap (s : net) : Prop :=
  ~ traps (a_todo (n_audio s)) (n_down s) /\
  (m_hand (n_mover s) = false -> ~ traps (m_todo (n_mover s)) (n_up s)) /\
  (forall todo, n_work s = Handling todo -> ~ traps todo (n_press s)) /\
  ~ traps (n_button s) (n_ack s).

(** The i-th call of the audio thread and the i-th frame of the transport thread are the same exchange: the frame took the
    first word of the call, and the call got the value of the frame in all its 16 words. *)
Definition same_exchange (call : list Z * list Z) (frame : Z * Z) : Prop :=
  fst frame = hd 0 (fst call) /\ snd call = repeat (snd frame) 16.
Definition in_step (s : net) : Prop :=
  let calls := a_calls (n_audio s) in let frames := m_frames (n_mover s) in
  (forall i c f, nth_error calls i = Some c -> nth_error frames i = Some f -> same_exchange c f) /\
  (length calls <= S (length frames))%nat /\ (length frames <= S (length calls))%nat.

(** Runs, with the number of steps and how many of them are changes of a button. *)
Inductive moves (cap go_cap press_cap block steps : nat) : nat -> nat -> net -> net -> Prop :=
| MovesNone : forall s, moves cap go_cap press_cap block steps 0 0 s s
| MovesStep : forall n p s l t u, move cap go_cap press_cap block steps s l t -> l <> LPress -> moves cap go_cap press_cap block steps n p t u -> moves cap go_cap press_cap block steps (S n) p s u
| MovesPress : forall n p s t u, move cap go_cap press_cap block steps s LPress t -> moves cap go_cap press_cap block steps n p t u -> moves cap go_cap press_cap block steps (S n) (S p) s u.
