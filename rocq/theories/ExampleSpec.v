(** What the example applications are expected to do; independent of ExampleModel. *)
From Coq Require Import List ZArith.
Import ListNotations.
Local Open Scope Z_scope.

Definition int8s (l : list Z) : Prop := forall x, In x l -> -128 <= x <= 127.
Definition uint8s (l : list Z) : Prop := forall x, In x l -> 0 <= x <= 255.
(** A stored byte as an int8. *)
Definition as_int8 (b : Z) : Z := if b <? 128 then b else b - 256.
(** The input the network is to be given. *)
Definition centred (image : list Z) : list Z := map (fun x => x - 128) image.

(** [k] is the class with the greatest output, the first of them if there are several. *)
Definition winner (out : list Z) (k : nat) : Prop :=
  (k < length out)%nat /\ (forall j, (j < length out)%nat -> nth j out 0 <= nth k out 0) /\ (forall j, (j < k)%nat -> nth j out 0 < nth k out 0).
(** [k] is a class with the greatest output after [w]. *)
Definition runner_up (out : list Z) (w k : nat) : Prop :=
  (k < length out)%nat /\ k <> w /\ forall j, (j < length out)%nat -> j <> w -> nth j out 0 <= nth k out 0.
