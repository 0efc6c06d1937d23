(** C70: fusing reshapes with convolutions. *)
From Coq Require Import List ZArith Bool Arith Lia Relation_Operators.
Import ListNotations.
From Verif Require Import FuseModel.

(** Meaning: a reshape keeps the elements in row-major order; the convolution kernel (lib_tflite_micro, not in the
    repository) is ASSUMED to work on the memory of its operands and its attributes only, not on their declared shapes. *)
Fixpoint eval {A P} (kernel : P -> list (list A) -> list A -> list A) (e : expr A P) : tensor_value A :=
  match e with
  | Leaf v => v
  | Reshape shape e => (shape, snd (eval kernel e))
  | Conv p shape ws e => (shape, kernel p ws (snd (eval kernel e)))
  | Other f args => f (map (eval kernel) args)
  end.

(** Number of reshapes. *)
Fixpoint reshapes {A P} (e : expr A P) : nat :=
  match e with
  | Leaf _ => 0
  | Reshape _ e => S (reshapes e)
  | Conv _ _ _ e => reshapes e
  | Other _ args => list_sum (map reshapes args)
  end.

(** Shapes and elements of the result are unchanged by any sequence of fusions. *)
Theorem C70_fusion_preserves : forall A P (kernel : P -> list (list A) -> list A -> list A) (e e' : expr A P),
  clos_refl_trans _ fuse_step e e' -> eval kernel e' = eval kernel e.
Proof.
  intros A P kernel e e' H.
  induction H as [e e' H|e|e1 e2 e3 _ IH1 _ IH2]; [|reflexivity|congruence].
  induction H as [e e' H|shape e e' _ IH|p shape ws e e' _ IH|f l1 e e' l2 _ IH]; cbn [eval].
  - destruct e as [v|shape [v|s e|p s ws e|f args]|p shape ws [v|s e|p' s ws' e|f args]|f args]; cbn in H; inversion H; subst;
      reflexivity.
  - now rewrite IH.
  - now rewrite IH.
  - now rewrite !map_app, !map_cons, IH.
Qed.
Print Assumptions C70_fusion_preserves.

(** Each fusion removes exactly one reshape, so that fusing ends after at most as many steps as there are reshapes. *)
Theorem C70_fusion_removes_a_reshape : forall A P (e e' : expr A P), fuse_step e e' -> reshapes e = S (reshapes e').
Proof.
  intros A P e e' H.
  induction H as [e e' H|shape e e' _ IH|p shape ws e e' _ IH|f l1 e e' l2 _ IH]; cbn [reshapes].
  - destruct e as [v|shape [v|s e|p s ws e|f args]|p shape ws [v|s e|p' s ws' e|f args]|f args]; cbn in H; inversion H; subst;
      reflexivity.
  - now rewrite IH.
  - exact IH.
  - rewrite !map_app, !map_cons, !list_sum_app. cbn [list_sum fold_right].
    change (fold_right Nat.add 0 (map reshapes l2)) with (list_sum (map reshapes l2)). lia.
Qed.
Print Assumptions C70_fusion_removes_a_reshape.

(** When no fusion applies any more, no reshape is next to a convolution. *)
Fixpoint next_to_conv {A P} (e : expr A P) : bool :=
  match e with
  | Leaf _ => false
  | Reshape _ e => match e with Conv _ _ _ _ => true | _ => next_to_conv e end
  | Conv _ _ _ e => match e with Reshape _ _ => true | _ => next_to_conv e end
  | Other _ args => existsb next_to_conv args
  end.

Fixpoint size {A P} (e : expr A P) : nat :=
  match e with
  | Leaf _ => 0
  | Reshape _ e => S (size e)
  | Conv _ _ _ e => S (size e)
  | Other _ args => S (list_sum (map size args))
  end.

Lemma fusion_complete_size : forall A P n (e : expr A P), size e <= n -> next_to_conv e = true -> exists e', fuse_step e e'.
Proof.
  intros A P. induction n as [|n IH]; intros e Hn H.
  { destruct e; cbn [size] in Hn; try lia. discriminate. }
  destruct e as [v|shape e|p shape ws e|f args]; cbn [next_to_conv size] in H, Hn.
  - discriminate.
  - assert (Hc : (exists p s ws e2, e = Conv p s ws e2) \/ next_to_conv e = true) by (destruct e; eauto 6).
    destruct Hc as [[p [s [ws [e2 ->]]]]|Hc].
    + exists (Conv p shape ws e2). now apply StepRoot.
    + destruct (IH e) as [e' He']; [lia | exact Hc|]. exists (Reshape shape e'). now apply StepReshape.
  - assert (Hc : (exists s e2, e = Reshape s e2) \/ next_to_conv e = true) by (destruct e; eauto 6).
    destruct Hc as [[s [e2 ->]]|Hc].
    + exists (Conv p shape ws e2). now apply StepRoot.
    + destruct (IH e) as [e' He']; [lia | exact Hc|]. exists (Conv p shape ws e'). now apply StepConv.
  - apply existsb_exists in H. destruct H as [a [Hin Ha]].
    apply in_split in Hin. destruct Hin as [l1 [l2 ->]].
    rewrite map_app, map_cons, list_sum_app in Hn. cbn [list_sum fold_right] in Hn.
    destruct (IH a) as [a' Ha']; [lia | exact Ha|]. exists (Other f (l1 ++ a' :: l2)). now apply StepOther.
Qed.

Theorem C70_fusion_complete : forall A P (e : expr A P), next_to_conv e = true -> exists e', fuse_step e e'.
Proof. intros A P e. exact (fusion_complete_size A P (size e) e (le_n _)). Qed.
Print Assumptions C70_fusion_complete.

(** A reshaped input and a reshaped result, fused in two steps. *)
Example C70_concrete : forall (v : tensor_value Z) p ws,
  clos_refl_trans _ (@fuse_step Z nat) (Reshape [2; 3] (Conv p [1; 1; 1; 6] ws (Reshape [1; 1; 1; 4] (Leaf v))))
    (Conv p [2; 3] ws (Leaf v)).
Proof.
  intros v p ws. apply rt_trans with (Conv p [2; 3] ws (Reshape [1; 1; 1; 4] (Leaf v))); apply rt_step; now apply StepRoot.
Qed.
