(** Shared tactics and small list lemmas. *)
From Coq Require Export List ZArith Bool Arith Lia Permutation.
From Coq Require Export ZifyBool ZifyNat ZifyN.
Export ListNotations.

Global Arguments Z.add : simpl never.
Global Arguments Z.sub : simpl never.
Global Arguments Z.mul : simpl never.
Global Arguments Z.opp : simpl never.
Global Arguments Z.div : simpl never.
Global Arguments Z.modulo : simpl never.
Global Arguments Z.quot : simpl never.
Global Arguments Z.rem : simpl never.
Global Arguments Z.max : simpl never.
Global Arguments Z.min : simpl never.
Global Arguments Z.of_nat : simpl never.
Global Arguments Z.to_nat : simpl never.
Global Arguments Z.leb : simpl never.
Global Arguments Z.ltb : simpl never.
Global Arguments Z.geb : simpl never.
Global Arguments Z.gtb : simpl never.
Global Arguments Z.eqb : simpl never.
Global Arguments Z.pow : simpl never.

Ltac inv H := inversion H; subst; clear H.

Lemma nth_error_ext {A} (l1 l2 : list A) :
  (forall i, nth_error l1 i = nth_error l2 i) -> l1 = l2.
Proof.
  revert l2; induction l1 as [|x l1 IH]; intros [|y l2] H; auto.
  - specialize (H 0%nat); discriminate.
  - specialize (H 0%nat); discriminate.
  - f_equal.
    + specialize (H 0%nat); simpl in H; congruence.
    + apply IH; intros i; exact (H (S i)).
Qed.

Lemma nodup_app_inv {A} (l1 l2 : list A) :
  NoDup (l1 ++ l2) -> NoDup l1 /\ NoDup l2 /\ (forall x, In x l1 -> In x l2 -> False).
Proof.
  induction l1 as [|x l1 IH]; simpl; intros H.
  - repeat split; auto. constructor.
  - inv H. destruct (IH H3) as (N1 & N2 & N3). repeat split; auto.
    + constructor; auto. intro; apply H2; apply in_or_app; auto.
    + intros y [->|Hy] H2'; [apply H2; apply in_or_app; auto | eauto].
Qed.

Lemma nodup_app {A} (l1 l2 : list A) :
  NoDup l1 -> NoDup l2 -> (forall x, In x l1 -> In x l2 -> False) -> NoDup (l1 ++ l2).
Proof.
  induction l1 as [|x l1 IH]; simpl; intros N1 N2 D; auto.
  inv N1. constructor.
  - intro H; apply in_app_or in H; destruct H; eauto.
  - apply IH; eauto.
Qed.

Lemma in_nth_error {A} (l : list A) x : In x l -> exists i, nth_error l i = Some x.
Proof. apply In_nth_error. Qed.

Lemma map_nth_error_inv {A B} (f : A -> B) l i y :
  nth_error (map f l) i = Some y -> exists x, nth_error l i = Some x /\ f x = y.
Proof.
  revert i; induction l as [|x l IH]; intros [|i] H; simpl in *; try discriminate.
  - inv H; eauto.
  - eauto.
Qed.
