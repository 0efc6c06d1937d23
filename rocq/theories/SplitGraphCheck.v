(** A decision procedure for the verifier and a player of schedules, used for the concrete cases of C95. *)
From Verif Require Import Base ConvSpec OpSplitModel OpSplitSpec SplitNetModel SplitNetSpec SplitGraphModel SplitGraphSpec SplitGraphProofs SplitGraphProofs4.
Local Open Scope Z_scope.

Section Check.
Context {P : Type}.
Definition bcast (a t : Z) : bool := (a =? 1) || (a =? t).
Definition typesb (o : gop P) (args : list gty) (t : gty) : bool :=
  (1 <=? g_h t) && (1 <=? g_w t) &&
  match o, args with
  | OConv same fh fw sH sW _ _, [a] => (1 <=? fh)%nat && (1 <=? fw)%nat && (1 <=? sH) && (1 <=? sW) &&
      (same || ((Z.of_nat fh <=? g_h a) && (Z.of_nat fw <=? g_w a))) &&
      (g_h t =? conv_out same (g_h a) (Z.of_nat fh) sH) && (g_w t =? conv_out same (g_w a) (Z.of_nat fw) sW)
  | OConv _ _ _ _ _ _ _, _ => false
  | OPad top bottom lft rgt _, [a] => (0 <=? top) && (0 <=? bottom) && (0 <=? lft) && (0 <=? rgt) &&
      type_eqb t (GTy (top + g_h a + bottom) (lft + g_w a + rgt) (g_c a))
  | OPad _ _ _ _ _, _ => false
  | OBin _, [a; b] => bcast (g_h a) (g_h t) && bcast (g_h b) (g_h t) && bcast (g_w a) (g_w t) && bcast (g_w b) (g_w t)
  | OBin _, _ => false
  | OSlice b n, [a] => (0 <=? b) && (1 <=? n) && (b + n <=? g_h a) && type_eqb t (GTy n (g_w a) (g_c a))
  | OSlice _ _, _ => false
  | OConcat _, [] => false
  | OConcat _, _ => forallb (fun a => (g_w a =? g_w t) && (g_c a =? g_c t)) args && (g_h t =? fold_right Z.add 0 (map g_h args))
  | OFake _, [a] => type_eqb a t
  | OFake _, _ => false
  | OMean _, [a] => (g_h t =? 1) && (g_w t =? 1) && (g_c t =? g_c a)
  | OMean _, _ => false
  | OUnary _, [a] => true
  | OUnary _, _ => false
  | OConst _, [] => true
  | OConst _, _ => false
  | OOther _, _ => true
  end.
Lemma bcast_ok a t : bcast a t = true -> broadcasts a t.
Proof. unfold bcast. intros E. apply orb_true_iff in E. unfold broadcasts. destruct E as [E|E]; [left|right]; lia. Qed.
Lemma typesb_ok o args t : typesb o args t = true -> types_check o args t.
Proof.
  unfold typesb. intros E. apply andb_true_iff in E. destruct E as [E0 E]. apply andb_true_iff in E0. destruct E0 as [E1 E2].
  split; [lia|]. split; [lia|].
  destruct o as [same fh fw sH sW G z|top bottom lft rgt z|q|b n|z|bands|m|u|img|q].
  - destruct args as [|a [|]]; try discriminate. exists a. rewrite !andb_true_iff in E. destruct E as [[[[[[A B] C] D] E] F] K].
    split; [reflexivity|]. apply Nat.leb_le in A, B. split; [lia|]. split; [lia|]. split; [lia|]. split; [lia|]. split; [|lia].
    intros ->. cbn [orb] in E. rewrite andb_true_iff in E. lia.
  - destruct args as [|a [|]]; try discriminate. exists a. rewrite !andb_true_iff in E. destruct E as [[[[A B] C] D] K]. apply type_eqb_eq in K.
    split; [reflexivity|]. do 4 (split; [lia|]). exact K.
  - destruct args as [|a [|b [|]]]; try discriminate. exists a, b. rewrite !andb_true_iff in E. destruct E as [[[A B] C] D]. repeat split; auto using bcast_ok.
  - destruct args as [|a [|]]; try discriminate. exists a. rewrite !andb_true_iff in E. destruct E as [[[A B] C] D]. apply type_eqb_eq in D.
    split; [reflexivity|]. do 3 (split; [lia|]). exact D.
  - destruct args as [|a args]; [discriminate|]. apply andb_true_iff in E. destruct E as [A B]. split; [discriminate|]. split; [|lia].
    rewrite forallb_forall in A. apply Forall_forall. intros y Hy. specialize (A y Hy). apply andb_true_iff in A. lia.
  - destruct args as [|a [|]]; try discriminate. apply type_eqb_eq in E. subst. reflexivity.
  - destruct args as [|a [|]]; try discriminate. exists a. rewrite !andb_true_iff in E. split; [reflexivity|]. lia.
  - destruct args as [|a [|]]; try discriminate. exists a. reflexivity.
  - destruct args; [reflexivity|discriminate].
  - exact I.
Qed.
Definition memb (x : nat) (l : list nat) : bool := existsb (Nat.eqb x) l.
Lemma memb_in x l : memb x l = true <-> In x l.
Proof. unfold memb. rewrite existsb_exists. split; [intros (y & I & E); apply Nat.eqb_eq in E; subst; auto|intros I; exists x; rewrite Nat.eqb_refl; auto]. Qed.
Fixpoint orderb (scope : list nat) (body : list (node P)) : bool :=
  match body with
  | [] => true
  | n :: tl => forallb (fun a => memb a scope) (n_args n) && negb (memb (n_dst n) scope) && orderb (n_dst n :: scope) tl
  end.
Lemma orderb_ok body : forall scope, orderb scope body = true <-> in_order scope body.
Proof.
  induction body as [|n tl IH]; intros scope; cbn [orderb in_order]; [split; auto|]. rewrite !andb_true_iff, IH, negb_true_iff. unfold incl.
  rewrite forallb_forall. assert (K : memb (n_dst n) scope = false <-> ~ In (n_dst n) scope).
  { rewrite <- memb_in. destruct (memb (n_dst n) scope); split; intros; try discriminate; try congruence. }
  rewrite K. split; [intros [[A B] C]|intros (A & B & C)]; repeat split; auto; intros a Ha; [apply memb_in|apply memb_in]; auto.
Qed.
Fixpoint nodupb (l : list nat) : bool := match l with [] => true | x :: tl => negb (memb x tl) && nodupb tl end.
Lemma nodupb_ok l : nodupb l = true -> NoDup l.
Proof.
  induction l as [|x l IH]; intros E; constructor; cbn [nodupb] in E; apply andb_true_iff in E; destruct E as [A B]; auto.
  intros J. apply memb_in in J. rewrite J in A. discriminate.
Qed.
Definition verifiedb (f : graph P) : bool :=
  nodupb (map fst (g_params f)) && forallb (fun p => (1 <=? g_h (snd p)) && (1 <=? g_w (snd p))) (g_params f) &&
  orderb (map fst (g_params f)) (g_body f) && forallb (fun r => memb r (map fst (g_params f) ++ map n_dst (g_body f))) (g_rets f) &&
  forallb (fun n => typesb (n_op n) (map (type_of f) (n_args n)) (n_ty n)) (g_body f).
Lemma verifiedb_ok f : verifiedb f = true -> verified f.
Proof.
  unfold verifiedb. rewrite !andb_true_iff. intros [[[[A B] C] D] E]. rewrite forallb_forall in B, D, E. split; [apply nodupb_ok; auto|]. split.
  - intros p Hp. specialize (B p Hp). apply andb_true_iff in B. lia.
  - split; [apply orderb_ok; auto|]. split; [intros r Hr; apply memb_in; auto|]. intros n Hn. apply typesb_ok. auto.
Qed.
Definition fineb (f : graph P) (n : node P) : bool :=
  negb (n_label n || n_start n) ||
  match n_op n with
  | OPad top bottom lft rgt _ => (top =? (top + bottom) / 2) && (lft =? (lft + rgt) / 2)
  | OBin _ => forallb (fun a => type_eqb (type_of f a) (n_ty n) || (g_h (type_of f a) =? 1)) (n_args n)
  | _ => true
  end.
Lemma limits_ok f : forallb (fineb f) (g_body f) = true -> within_limits f.
Proof.
  rewrite forallb_forall. intros K n I SN. specialize (K n I). unfold fineb in K.
  assert (Q : n_label n || n_start n = true) by (apply orb_true_iff; exact SN). rewrite Q in K. cbn [negb orb] in K.
  destruct (n_op n); auto.
  - apply andb_true_iff in K. lia.
  - rewrite forallb_forall in K. intros a Ha. specialize (K a Ha). apply orb_true_iff in K. destruct K as [K|K]; [left; apply type_eqb_eq; auto|right; lia].
Qed.

(** Schedules: which operation is visited next. *)
Inductive choice := CSplit (x : nat) | CSlice (x pick : nat) | CFake (x : nat) | CDead (x : nat).
Definition step_of (z : P) (f : graph P) (c : choice) : attempt P :=
  match c with
  | CSplit x => match def_of f x with Some d => split_node z f d | None => NoMatch end
  | CSlice x pick => match def_of f x with Some d => rewrite_slice f d pick | None => NoMatch end
  | CFake x => match def_of f x with Some d => rewrite_fake z f d | None => NoMatch end
  | CDead x => match def_of f x with Some d => if unused f x then Rewritten (replace f x []) else NoMatch | None => NoMatch end
  end.
Lemma step_of_phase z f c g : step_of z f c = Rewritten g -> split_phase z f g \/ raise_phase z f g.
Proof.
  destruct c as [x|x pick|x|x]; cbn [step_of]; destruct (def_of f x) as [d|] eqn:D; try discriminate; destruct (def_of_in f x d D) as [I E].
  - intros S. left. eapply SplitNode; eauto.
  - intros S. right. eapply RaiseSlice; eauto.
  - intros S. right. eapply RaiseFake; eauto.
  - destruct (unused f x) eqn:U; [|discriminate]. intros S. injection S as <-. right. rewrite <- E. eapply RaiseDead; eauto.
Qed.
(** No fake slice stands below a mean. *)
Definition mean_fakeb (f : graph P) (k : node P) : bool :=
  match n_op k, n_args k with
  | OFake _, [a] => match def_of f a with Some d => match n_op d with OMean _ => true | _ => false end | None => false end
  | _, _ => false
  end.
Definition other_size (z : P) (f : graph P) (k : node P) (g : graph P) : bool :=
  match rewrite_fake z f k with Rewritten g' => negb (Nat.eqb (length (g_body g')) (length (g_body g))) | _ => true end.
Fixpoint play (z : P) (f : graph P) (cs : list choice) : option (graph P) :=
  match cs with
  | [] => Some f
  | c :: tl => match step_of z f c with
               | Rewritten g => if verifiedb g && forallb (fun k => negb (mean_fakeb f k) || other_size z f k g) (g_body f) then play z g tl else None
               | _ => None
               end
  end.
Lemma play_run z cs : forall f g, play z f cs = Some g -> pass_run z f g.
Proof.
  induction cs as [|c tl IH]; intros f g E; cbn [play] in E; [injection E as <-; constructor|].
  destruct (step_of z f c) as [|h|] eqn:S; try discriminate. destruct (verifiedb h && forallb _ _) eqn:V; [|discriminate].
  apply andb_true_iff in V. destruct V as [V1 V2]. rewrite forallb_forall in V2. eapply PassStep; [eapply step_of_phase; eauto|apply verifiedb_ok; auto| |apply IH; auto].
  intros k Ik RK bands a d m a' OK AK DA OD AD. specialize (V2 k Ik). unfold other_size in V2. rewrite RK, Nat.eqb_refl in V2.
  unfold mean_fakeb in V2. rewrite OK, AK, DA, OD in V2. discriminate.
Qed.
End Check.

Section Done.
Context {P : Type}.
(** Functions on which no pattern matches any more. *)
Definition donb (z : P) (f : graph P) : bool :=
  forallb (fun n => match split_node z f n with NoMatch => true | _ => false end &&
                    match rewrite_slice f n 0 with NoMatch => true | _ => false end &&
                    match rewrite_fake z f n with NoMatch => true | _ => false end && negb (unused f (n_dst n))) (g_body f).
Lemma any_pick (f : graph P) s pick : rewrite_slice f s 0 = NoMatch -> rewrite_slice f s pick = NoMatch.
Proof.
  unfold rewrite_slice. destruct (n_op s); auto. destruct (n_args s) as [|x [|]]; auto. destruct (def_of f x) as [d|]; auto.
  destruct (n_op d) eqn:OD; auto; destruct (is_raisable f s d); auto; destruct (containing f s begin size x); auto; intros QQ; cbn [nth_error] in QQ; discriminate QQ.
Qed.
Lemma donb_ok z f : donb z f = true -> forall g, ~ split_phase z f g /\ ~ raise_phase z f g.
Proof.
  unfold donb. rewrite forallb_forall. intros K g.
  assert (K' : forall n, In n (g_body f) -> split_node z f n = NoMatch /\ rewrite_slice f n 0 = NoMatch /\ rewrite_fake z f n = NoMatch /\ unused f (n_dst n) = false).
  { intros n I. specialize (K n I). rewrite !andb_true_iff, negb_true_iff in K. destruct K as [[[A B] C] D].
    destruct (split_node z f n); try discriminate. destruct (rewrite_slice f n 0); try discriminate. destruct (rewrite_fake z f n); try discriminate. auto. }
  split; intros ST; inversion ST; subst;
    match goal with I : In ?n (g_body f) |- _ => destruct (K' n I) as (A & B & C & D) end; try congruence.
  match goal with E : rewrite_slice _ _ ?p = _ |- _ => rewrite (any_pick _ _ p B) in E; discriminate E end.
Qed.
End Done.
