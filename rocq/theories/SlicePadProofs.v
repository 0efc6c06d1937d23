From Verif Require Import Base NdSpec NdBase SlicePadModel CopyKernels.

(** * A general per-axis gather *)
Record gax := Gax { gd : nat; go : nat; gf : nat -> option nat }.

Fixpoint glookup (L : list gax) (idx : index) : option index :=
  match L, idx with
  | a :: L', i :: r => match gf a i with Some j => option_map (cons j) (glookup L' r) | None => None end
  | _, _ => Some []
  end.

Definition gather {A} (L : list gax) (z : A) (t : tensor A) : tensor A :=
  fun idx => match glookup L idx with Some j => t j | None => z end.

Definition gins L := map gd L.
Definition gouts L := map go L.

Section G.
Context {A : Type}.

Definition geq (L L' : list gax) : Prop :=
  nelem (gouts L) = nelem (gouts L') /\
  exists F : tensor A -> tensor A, forall z t,
    flatten (gins L) t = flatten (gins L') (F t) /\
    flatten (gouts L) (gather L z t) = flatten (gouts L') (gather L' z (F t)) /\
    (forall P : A -> Prop, (forall idx, P (t idx)) -> forall idx, P (F t idx)).

Lemma geq_refl L : geq L L.
Proof. split; auto. exists (fun t => t). auto. Qed.

Lemma geq_trans L1 L2 L3 : geq L1 L2 -> geq L2 L3 -> geq L1 L3.
Proof.
  intros [E1 [F1 H1]] [E2 [F2 H2]]. split; [congruence|]. exists (fun t => F2 (F1 t)). intros z t.
  destruct (H1 z t) as (A1 & B1 & C1), (H2 z (F1 t)) as (A2 & B2 & C2). split; [congruence|]. split; [congruence|].
  intros P HP. apply C2. apply C1. auto.
Qed.

Lemma geq_cons a L L' : geq L L' -> geq (a :: L) (a :: L').
Proof.
  intros [E [F H]]. split.
  - cbn [gouts map nelem fold_right]. fold (nelem (gouts L)) (nelem (gouts L')). unfold gouts, nelem in *. lia.
  - exists (fun t idx => match idx with i :: r => F (fun r' => t (i :: r')) r | [] => t [] end).
    intros z t. split; [|split].
    + cbn [gins map flatten]. apply flat_map_ext_in. intros i _. apply (H z (fun r => t (i :: r))).
    + cbn [gouts map flatten]. apply flat_map_ext_in. intros i _. unfold gather. cbn [glookup].
      destruct (gf a i) as [j|].
      * transitivity (flatten (gouts L) (gather L z (fun r => t (j :: r)))).
        { apply flatten_ext. intros idx. unfold gather. destruct (glookup L idx); auto. }
        etransitivity; [apply (H z (fun r => t (j :: r)))|].
        apply flatten_ext. intros idx. unfold gather. destruct (glookup L' idx); auto.
      * fold (gouts L) (gouts L'). rewrite !flatten_const, E. auto.
    + intros P HP [|i r]; auto. apply (H z (fun r' => t (i :: r'))). auto.
Qed.

Lemma geq_app pre L L' : geq L L' -> geq (pre ++ L) (pre ++ L').
Proof. intros H. induction pre as [|a pre IH]; cbn [app]; auto. apply geq_cons. auto. Qed.

(** the second axis is the identity *)
Definition gmerge (a b : gax) : gax :=
  Gax (gd a * gd b) (go a * gd b) (fun k => option_map (fun j => j * gd b + k mod gd b) (gf a (k / gd b))).

Lemma geq_merge a b L : gd b = go b -> (forall i, i < go b -> gf b i = Some i) ->
  geq (a :: b :: L) (gmerge a b :: L).
Proof.
  intros E Hid. split.
  - cbn [gouts map nelem fold_right gmerge go]. rewrite E. lia.
  - exists (merge2 (gd b)). intros z t. split; [|split].
    + cbn [gins map gmerge gd]. apply flatten_merge2.
    + cbn [gouts map]. rewrite flatten_merge2. cbn [gmerge go gd]. rewrite <- E.
      apply flatten_ext_in. intros idx Hx. inversion Hx as [|k d r s Hk Hr]; subst.
      unfold merge2 at 1. unfold gather. cbn [glookup gmerge gf gd].
      assert (0 < gd b) by (destruct (gd b); lia).
      assert (Hm : k mod gd b < gd b) by (apply Nat.mod_upper_bound; lia).
      destruct (gf a (k / gd b)) as [j|]; cbn [option_map]; auto.
      rewrite Hid by lia. destruct (glookup L r) as [r'|]; cbn [option_map]; auto.
      unfold merge2. rewrite (Nat.add_comm (j * gd b)).
      rewrite Nat.div_add, (Nat.div_small (k mod gd b)), Nat.mod_add, (Nat.mod_small (k mod gd b)) by lia. auto.
    + intros P HP [|k r]; cbn; auto.
Qed.

Lemma geq_drop a L : gd a = 1 -> go a = 1 -> gf a 0 = Some 0 -> geq (a :: L) L.
Proof.
  intros E1 E2 E3. split.
  - cbn [gouts map nelem fold_right]. rewrite E2. fold (nelem (map go L)). unfold gouts, nelem. lia.
  - exists (fun t idx => t (0 :: idx)). intros z t. split; [|split].
    + cbn [gins map]. rewrite E1. apply flatten_one.
    + cbn [gouts map]. rewrite E2, flatten_one. apply flatten_ext. intros idx. unfold gather. cbn [glookup].
      rewrite E3. destruct (glookup L idx); auto.
    + auto.
Qed.

(** * mergeAxes *)
Variable rep : axis -> gax -> Prop.
Hypothesis rep_dims : forall a g, rep a g -> a_in a = Z.of_nat (gd g) /\ a_out a = Z.of_nat (go g).
Hypothesis rep_id : forall a g, rep a g -> a_in a = a_out a -> forall i, i < go g -> gf g i = Some i.
Hypothesis rep_fold : forall a g a' g', rep a g -> rep a' g' -> a_in a' = a_out a' -> rep (fold_axis a a') (gmerge g g').

Lemma merge_loop_ok before : forall cur gcur gbefore post, rep cur gcur -> Forall2 rep before gbefore ->
  exists gl, Forall2 rep (merge_loop cur before) gl /\
    geq (rev gbefore ++ gcur :: post) (rev gl ++ post).
Proof.
  induction before as [|prev before IH]; intros cur gcur gbefore post Hc Hb; inversion Hb as [|? gp ? gb Hp Hb']; subst; cbn [merge_loop].
  - exists [gcur]. split; auto. apply geq_refl.
  - destruct (Z.eqb_spec (a_in cur) (a_out cur)) as [E|E].
    + destruct (IH (fold_axis prev cur) (gmerge gp gcur) gb post) as (gl & R & Q); auto.
      exists gl. split; auto. eapply geq_trans; [|exact Q].
      cbn [rev]. rewrite <- app_assoc. cbn [app]. apply geq_app. destruct (rep_dims _ _ Hc).
      apply geq_merge; [lia|]. eauto.
    + destruct (IH prev gp gb (gcur :: post) Hp Hb') as (gl & R & Q).
      exists (gcur :: gl). split; [constructor; auto|].
      cbn [rev]. rewrite <- !app_assoc. cbn [app]. exact Q.
Qed.

Lemma forall2_rev {X Y} (R : X -> Y -> Prop) l l' : Forall2 R l l' -> Forall2 R (rev l) (rev l').
Proof. induction 1; cbn; [constructor|]. apply Forall2_app; auto. Qed.

Lemma merge_loop_nonempty before cur : merge_loop cur before <> [].
Proof. revert cur. induction before; intros cur; cbn [merge_loop]; [discriminate|]. destruct (_ =? _)%Z; [auto|discriminate]. Qed.

Lemma merge_axes_ok axes gs : axes <> [] -> Forall2 rep axes gs ->
  exists axes' gs', merge_axes axes = Some axes' /\ Forall2 rep axes' gs' /\ geq gs gs' .
Proof.
  intros Hne R. unfold merge_axes. pose proof (forall2_rev _ _ _ R) as RR.
  destruct (rev axes) as [|last before] eqn:Er.
  { destruct Hne. rewrite <- (rev_involutive axes), Er. auto. }
  inversion RR as [|? gl ? gb Hl Hb Q1 Q2]; subst.
  destruct (merge_loop_ok before last gl gb [] Hl Hb) as (gm & Rm & Qm).
  assert (Eg : gs = rev gb ++ [gl]) by (rewrite <- (rev_involutive gs), <- Q2; auto).
  rewrite Eg. pose proof (forall2_rev _ _ _ Rm) as Rr.
  destruct (rev (merge_loop last before)) as [|first rest] eqn:E2.
  { destruct (merge_loop_nonempty before last). rewrite <- (rev_involutive (merge_loop _ _)), E2. auto. }
  rewrite app_nil_r in Qm.
  inversion Rr as [|? gf1 ? grest Hf Hrest Q3 Q4]; subst.
  destruct (_ && _) eqn:Eb.
  - exists rest, grest. split; auto. split; auto. eapply geq_trans; [exact Qm|]. rewrite <- Q4.
    apply andb_prop in Eb. destruct Eb as [Eb1 Eb2]. destruct (rep_dims _ _ Hf). 
    apply geq_drop; try lia. apply (rep_id _ _ Hf); lia.
  - exists (first :: rest), (gf1 :: grest). split; auto. split; [auto|]. rewrite Q4. auto.
Qed.

End G.
