(** What the options of the operation-splitting pass ask for (C75). *)
From Coq Require Import List ZArith Bool Arith.
Import ListNotations.
From Verif Require Import LabelModel.
Local Open Scope Z_scope.

(** Number of the operation at position [p]: operations other than constants and terminators, counted from 0. *)
Definition counted (o : opkind) : bool := match o with NotCounted => false | _ => true end.
Definition number (ops : list opkind) (p : nat) : Z := Z.of_nat (length (filter counted (firstn p ops))).

(** One request: (bottom, top, number of bands). *)
Definition request : Type := Z * Z * Z.
Definition requests (bottoms tops nums : list Z) : list request := combine (combine bottoms tops) nums.
(** Operation number [k] is the bottom, or between top and bottom (the bottom excluded). *)
Definition is_bottom (r : request) (k : Z) : Prop := let '(b, _, _) := r in k = b.
Definition is_inner (r : request) (k : Z) : Prop := let '(b, t, _) := r in t <= k < b.
Definition bands_of (r : request) : Z := snd r.

(** The bottom operations are not slices. *)
Definition plain_bottoms (rs : list request) (ops : list opkind) : Prop :=
  forall r p d, In r rs -> nth_error ops p = Some (SliceOf d) -> ~ is_bottom r (number ops p).
(** No operation concerns two requests. *)
Definition separate (rs : list request) : Prop :=
  forall i j r s k, nth_error rs i = Some r -> nth_error rs j = Some s -> i <> j ->
    (is_bottom r k \/ is_inner r k) -> ~ (is_bottom s k \/ is_inner s k).

(** ** Bottoms that are slices *)
(** Because of request [r] the operation at position [q] is to be raised: it lies between top and bottom, or it is a slice which
    is the bottom itself, or it defines the input of such a slice. *)
Definition to_raise (ops : list opkind) (r : request) (q : nat) : Prop :=
  (exists o, nth_error ops q = Some o /\ counted o = true /\ is_inner r (number ops q)) \/
  (exists p d, nth_error ops p = Some (SliceOf (Some d)) /\ is_bottom r (number ops p) /\ (q = p \/ q = d)).
(** Because of [r] the operation at [q] starts a split. *)
Definition to_split (ops : list opkind) (r : request) (q : nat) : Prop :=
  nth_error ops q = Some OtherOp /\ is_bottom r (number ops q).
(** [r] gives the operation at [q] its number of bands. *)
Definition numbers (ops : list opkind) (r : request) (q : nat) : Prop :=
  to_split ops r q \/ exists o, nth_error ops q = Some o /\ counted o = true /\ is_inner r (number ops q).
(** The number of bands of an operation: that of the last request giving it one. *)
Fixpoint last_number (ops : list opkind) (rs : list request) (q : nat) (v : option Z) (w : option Z) : Prop :=
  match rs with
  | [] => w = v
  | r :: rs' => exists u, last_number ops rs' q u w /\ (numbers ops r q -> u = Some (bands_of r)) /\ (~ numbers ops r q -> u = v)
  end.
(** The input of a bottom that is a slice is not the result of an operation. *)
Definition slice_of_argument (ops : list opkind) (rs : list request) : Prop :=
  exists r p, In r rs /\ nth_error ops p = Some (SliceOf None) /\ is_bottom r (number ops p).
