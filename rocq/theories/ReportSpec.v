(** What a reader of the memory plan report relies on.  Vocabulary: MemPlanSpec. *)
From Coq Require Import Ascii String List ZArith Bool Arith.
Import ListNotations.
From Verif Require Import MemPlanModel MemPlanSpec.
Local Open Scope list_scope.
Local Open Scope Z_scope.

(** The character of the i-th arena tensor. *)
Definition label (i : nat) : ascii :=
  nth i (list_ascii_of_string "0123456789abcdefghijklmnopqrstuvwxyzABCDEFGHIJKLMNOPQRSTUVWXYZ") "*"%char.

(** The op at position p is the t-th that runs. *)
Definition runs (o : op) : bool := match o_kind o with KConst | KStats => false | _ => true end.
Definition step_number (g : graph) (p t : nat) : Prop :=
  executes g p /\ t = length (filter runs (firstn p (g_ops g))).

(** With the arena of [M] bytes drawn on 60 columns, the bytes z..z+s reach the end of
    column n (which is byte (n+1)*M/60). *)
Definition reaches (M z s : Z) (n : nat) : Prop :=
  60 * z < (Z.of_nat n + 1) * M <= 60 * (z + s).

(** The tensors needed while the op at [p] runs. *)
Definition needed_at (g : graph) (p : nat) (live : list (vname * Z)) : Prop :=
  NoDup (map fst live) /\ forall v s, In (v, s) live <-> arena_tensor g v s /\ live_at g v p.

(** [k] kilobytes: bytes rounded up. *)
Definition kilobytes (bytes k : Z) : Prop := 1024 * (k - 1) < bytes <= 1024 * k.

Definition faithful_line (g : graph) (offs : list Z) (M : Z) (p : nat)
           (cols : list ascii) (used top : Z) : Prop :=
  length cols = 60%nat /\
  (forall n c, nth_error cols n = Some c ->
     (exists i v s z, nth_error (arena_list g) i = Some (v, s) /\ live_at g v p /\
        offset_of g offs v z /\ reaches M z (up8 s) n /\ c = label i) \/
     (c = "."%char /\ forall v s z, arena_tensor g v s -> live_at g v p -> offset_of g offs v z ->
        ~ reaches M z (up8 s) n)) /\
  exists live, needed_at g p live /\
    kilobytes (sum_up8 live) used /\
    exists e, kilobytes e top /\
      (forall v s z, In (v, s) live -> offset_of g offs v z -> z + up8 s <= e) /\
      (live = [] /\ e = 0 \/ exists v s z, In (v, s) live /\ offset_of g offs v z /\ z + up8 s = e).
