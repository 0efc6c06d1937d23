(** Vocabulary for "exactly when" a slice, pad or broadcast becomes a copy operator:
    which axes of a tensor an operator changes.  No reference to the model. *)
From Coq Require Import List Arith.
Import ListNotations.
Local Open Scope nat_scope.

(** Axis [i] of the operand and of the result have different sizes. *)
Definition changed (ins outs : list nat) (i : nat) : Prop := nth i ins 1 <> nth i outs 1.

(** Only axis [i] changes. *)
Definition changes_one (ins outs : list nat) : Prop :=
  exists i, forall j, changed ins outs j <-> j = i.

(** Two axes [i < k] change, and every axis before [i] has size one. *)
Definition changes_two (ins outs : list nat) : Prop :=
  exists i k, i < k /\ (forall j, changed ins outs j <-> j = i \/ j = k) /\
    forall j, j < i -> nth j ins 1 = 1.

(** Some axis of size other than one comes before the first changed axis [i]. *)
Definition repeats (ins outs : list nat) : Prop :=
  exists j, nth j ins 1 <> 1 /\ forall i, changed ins outs i -> j < i.

(** The block of a row-major tensor that starts at the last changed axis. *)
Definition last_changed (ins outs : list nat) (k : nat) : Prop :=
  changed ins outs k /\ forall j, k < j -> ~ changed ins outs j.
