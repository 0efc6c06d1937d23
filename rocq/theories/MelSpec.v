(** The filter banks of mel.h (C85). *)
From Coq Require Import List ZArith QArith Qabs Arith.
Import ListNotations.
Local Open Scope Q_scope.

Fixpoint qsum (n : nat) (f : nat -> Q) : Q := match n with O => 0 | S k => qsum k f + f k end.
Definition zabs_sum (l : list Z) : Z := fold_right (fun x a => (Z.abs x + a)%Z) 0%Z l.

(** A filter bank with [rows] rows and [cols] columns (mel.h 8-15): entries between 0 and 1; every column adds up to 1; at most two entries of a column
    are not zero, they are in consecutive rows, the first in row [first c]; from a column to the next, the first row is the same or the next.
    The first column starts in the first row. *)
Record filter_bank (rows cols : nat) (bank : nat -> nat -> Q) (first : nat -> nat) : Prop := {
  fb_entries : forall r c, (r < rows)%nat -> (c < cols)%nat -> 0 <= bank r c /\ bank r c <= 1;
  fb_columns : forall c, (c < cols)%nat -> qsum rows (fun r => bank r c) == 1;
  fb_first : forall c, (c < cols)%nat -> (first c < rows)%nat /\ ~ bank (first c) c == 0;
  fb_two : forall r c, (r < rows)%nat -> (c < cols)%nat -> r <> first c -> r <> S (first c) -> bank r c == 0;
  fb_start : first 0%nat = 0%nat;
  fb_step : forall c, (S c < cols)%nat -> first (S c) = first c \/ first (S c) = S (first c) }.

(** The product of the filter bank and a spectrum, row r; of its transpose and mel values, column c. *)
Definition product (cols : nat) (bank : nat -> nat -> Q) (x : nat -> Q) (r : nat) : Q := qsum cols (fun c => bank r c * x c).
Definition product_t (rows : nat) (bank : nat -> nat -> Q) (m : nat -> Q) (c : nat) : Q := qsum rows (fun r => bank r c * m r).
Definition vector (l : list Z) (i : nat) : Q := inject_Z (nth i l 0%Z).
(** Columns that reach row r. *)
Definition reaching (cols : nat) (first : nat -> nat) (r : nat) : nat :=
  length (filter (fun c => orb (Nat.eqb (first c) r) (Nat.eqb (S (first c)) r)) (seq 0 cols)).
(** Error of a coefficient: 6 decimals, then 30 bits. *)
Definition delta : Q := (1 # 2000000) + (1 # 2147483648).
