(** What passing the acceptance test should mean (C101). *)
From Coq Require Import List ZArith QArith Qabs.
Import ListNotations.
Local Open Scope Z_scope.

(** Values of a signed type. *)
Definition in_type (bits v : Z) : Prop := - 2 ^ (bits - 1) <= v < 2 ^ (bits - 1).
(** The true difference of a pair of outputs (reference, compiled). *)
Definition difference (p : Z * Z) : Z := fst p - snd p.
Definition total (f : Z * Z -> Z) (l : list (Z * Z)) : Z := fold_right (fun p n => f p + n) 0 l.
(** The outputs are accurate: no difference above [m], their average and the average of their
    absolute values within [a] and [b]. *)
Definition accurate (m : Z) (a b : Q) (l : list (Z * Z)) : Prop :=
  let n := inject_Z (Z.of_nat (length l)) in
  (forall p, In p l -> Z.abs (difference p) <= m) /\
  (Qabs (inject_Z (total difference l)) <= a * n)%Q /\
  (inject_Z (total (fun p => Z.abs (difference p)) l) <= b * n)%Q.
(** All outputs of the first [t] runs. *)
Fixpoint outputs (runs : nat -> list (Z * Z)) (t : nat) : list (Z * Z) :=
  match t with O => [] | S t => outputs runs t ++ runs t end.
(** The fewest runs that give enough outputs. *)
Definition compared (required : Z) (runs : nat -> list (Z * Z)) (t : nat) : Prop :=
  required <= Z.of_nat (length (outputs runs t)) /\
  forall i, (i < t)%nat -> Z.of_nat (length (outputs runs i)) < required.
