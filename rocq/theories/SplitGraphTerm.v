(** Operation splitting ends (C96): a bound on the number of rewrites that are still to come. *)
From Coq Require Import Relations Permutation.
From Verif Require Import Base NdSpec ConvSpec OpSplitModel OpSplitSpec SplitGraphModel SplitGraphSpec SplitGraphProofs SplitGraphProofs2 SplitGraphProofs3 SplitGraphProofs4 SplitGraphProofs5 SplitGraphProofs6 SplitGraphAccept SplitGraphAccept2 SplitGraphAccept3.
Local Open Scope nat_scope.

Section Term.
Context {P : Type}.

(** For a value: how often a labelled slice of it can be raised, and how often a fake slice of it. *)
Definition rank : Type := nat * nat.
Definition rle (a b : rank) : Prop := fst a <= fst b /\ snd a <= snd b.
Definition cost (r : rank) : nat := fst r + 2 * snd r.
Definition weigh (o : gop P) (lab : bool) (args : list rank) : rank :=
  let a := nth 0 args (0, 0) in let b := nth 1 args (0, 0) in
  match o with
  | OConv _ _ _ _ _ _ _ | OPad _ _ _ _ _ => (if lab then 1 + fst a else 0, 0)
  | OBin _ => (if lab then 1 + cost a + cost b else 0, 0)
  | OSlice _ _ => (if lab then fst a else 0, 0)
  | OFake _ => (0, snd a)
  | OMean _ => (0, 1 + fst a)
  | OUnary _ => (0, 1 + snd a)
  | OConst _ => (0, 1)
  | OConcat _ | OOther _ => (0, 0)
  end.
Definition weight (V : nat -> rank) (n : node P) : rank := weigh (n_op n) (n_label n) (map V (n_args n)).
Definition put (V : nat -> rank) (x : nat) (r : rank) : nat -> rank := fun y => if Nat.eqb y x then r else V y.
Definition ranks (body : list (node P)) (V : nat -> rank) : nat -> rank := fold_left (fun V n => put V (n_dst n) (weight V n)) body V.
Definition rank_of (f : graph P) : nat -> rank := ranks (g_body f) (fun _ => (0, 0)).
(** What an operation can still cause. *)
Definition load (V : nat -> rank) (n : node P) : nat :=
  match n_op n with
  | OSlice _ _ => if n_label n then fst (V (nth 0 (n_args n) 0)) else 0
  | OFake bands => S (length bands) * snd (V (nth 0 (n_args n) 0))
  | _ => 0
  end.
Definition total_load (V : nat -> rank) (body : list (node P)) : nat := fold_right (fun n k => load V n + k) 0 body.
Definition pending (f : graph P) : nat := total_load (rank_of f) (g_body f).

Lemma rle_refl a : rle a a. Proof. split; lia. Qed.
Lemma rle_trans a b c : rle a b -> rle b c -> rle a c. Proof. unfold rle. lia. Qed.
Lemma nth_rle l l' i : Forall2 rle l l' -> rle (nth i l (0, 0)) (nth i l' (0, 0)).
Proof. intros F. revert i. induction F as [|a b l l' H F IH]; intros [|i]; cbn [nth]; auto using rle_refl. Qed.
Lemma weigh_mono o lab l l' : Forall2 rle l l' -> rle (weigh o lab l) (weigh o lab l').
Proof.
  intros F. assert (A := nth_rle l l' 0 F). assert (B := nth_rle l l' 1 F). unfold weigh, rle, cost in *. destruct o; destruct lab; cbn [fst snd]; lia.
Qed.
Lemma forall2_map_rle (V W : nat -> rank) l : (forall a, In a l -> rle (V a) (W a)) -> Forall2 rle (map V l) (map W l).
Proof. induction l as [|a l IH]; intros K; cbn [map]; constructor; [apply K; left; auto|apply IH; intros; apply K; right; auto]. Qed.
Lemma weight_mono V W n : (forall a, In a (n_args n) -> rle (V a) (W a)) -> rle (weight V n) (weight W n).
Proof. intros K. apply weigh_mono. apply forall2_map_rle. auto. Qed.
Lemma put_other V x r y : y <> x -> put V x r y = V y.
Proof. intros N. unfold put. destruct (Nat.eqb_spec y x); congruence. Qed.
Lemma put_same V x r : put V x r x = r.
Proof. unfold put. rewrite Nat.eqb_refl. reflexivity. Qed.
Lemma ranks_other body : forall V x, ~ In x (map n_dst body) -> ranks body V x = V x.
Proof.
  induction body as [|n body IH]; intros V x N; [reflexivity|]. cbn [map] in N. change (ranks (n :: body) V) with (ranks body (put V (n_dst n) (weight V n))).
  rewrite IH by (intros I; apply N; right; auto). apply put_other. intros ->. apply N. left. auto.
Qed.
Lemma ranks_solves body : forall scope V, in_order scope body -> forall n, In n body -> ranks body V (n_dst n) = weight (ranks body V) n.
Proof.
  induction body as [|n body IH]; intros scope V W m Hm; [destruct Hm|]. cbn [in_order] in W. destruct W as (A & B & C).
  change (ranks (n :: body) V) with (ranks body (put V (n_dst n) (weight V n))). destruct Hm as [<-|Hm]; [|eapply IH; eauto].
  assert (ND : forall y, In y (n_dst n :: scope) -> ~ In y (map n_dst body)) by (intros y Hy I; apply (in_order_dsts _ _ C y I Hy)).
  rewrite ranks_other by (apply ND; left; auto). rewrite put_same. unfold weight. f_equal. apply map_ext_in. intros a Ha. apply A in Ha.
  rewrite ranks_other by (apply ND; right; auto). rewrite put_other; [auto|]. intros ->. auto.
Qed.
Lemma ranks_below body : forall scope V W, in_order scope body -> (forall x, In x scope -> rle (V x) (W x)) ->
  (forall n, In n body -> rle (weight W n) (W (n_dst n))) -> forall x, In x (scope ++ map n_dst body) -> rle (ranks body V x) (W x).
Proof.
  induction body as [|n body IH]; intros scope V W O K S x Hx; cbn [map] in Hx.
  - rewrite app_nil_r in Hx. apply K. auto.
  - cbn [in_order] in O. destruct O as (A & B & C). change (ranks (n :: body) V) with (ranks body (put V (n_dst n) (weight V n))).
    apply (IH (n_dst n :: scope)); auto.
    + intros y [<-|Hy].
      * rewrite put_same. eapply rle_trans; [|apply S; left; auto]. apply weight_mono. auto.
      * rewrite put_other; [auto|]. intros ->. auto.
    + intros m Hm. apply S. right. auto.
    + rewrite in_app_iff in *. cbn [In] in *. tauto.
Qed.
Lemma rank_solves (f : graph P) n : verified f -> In n (g_body f) -> rank_of f (n_dst n) = weight (rank_of f) n.
Proof. intros (_ & _ & O & _) I. apply (ranks_solves _ _ _ O n I). Qed.
Lemma rank_below (g : graph P) W : verified g -> (forall n, In n (g_body g) -> rle (weight W n) (W (n_dst n))) -> forall x, In x (names g) -> rle (rank_of g x) (W x).
Proof. intros (_ & _ & O & _) K. apply (ranks_below _ _ _ W O); auto. intros x _. split; cbn [fst snd]; lia. Qed.

Lemma load_mono V W n : (forall a, In a (n_args n) -> rle (V a) (W a)) -> n_args n <> [] -> load V n <= load W n.
Proof.
  intros K NE. assert (Q : rle (V (nth 0 (n_args n) 0)) (W (nth 0 (n_args n) 0))) by (apply K; apply nth_In; destruct (n_args n); [congruence|cbn [length]; lia]).
  destruct Q. unfold load. destruct (n_op n); try lia; [destruct (n_label n); lia|nia].
Qed.
Lemma slice_args (g : graph P) n : verified g -> In n (g_body g) -> n_args n = [] -> forall V, load V n = 0.
Proof.
  intros VG I E V. assert (T : types_check (n_op n) (map (type_of g) (n_args n)) (n_ty n)) by (apply VG; auto). rewrite E in T. unfold load. destruct (n_op n); auto; destruct T as (_ & _ & T).
  - destruct T as (a & Q & _). discriminate.
  - discriminate.
Qed.
Lemma total_mono V W body : (forall n, In n body -> load V n <= load W n) -> total_load V body <= total_load W body.
Proof. induction body as [|n body IH]; intros K; cbn [total_load fold_right]; [lia|]. assert (Q := K n (or_introl eq_refl)). assert (R : total_load V body <= total_load W body) by (apply IH; intros m Hm; apply K; right; auto). unfold total_load in R. lia. Qed.
Lemma total_app V l l' : total_load V (l ++ l') = total_load V l + total_load V l'.
Proof. induction l as [|n l IH]; [reflexivity|]. cbn [app total_load fold_right] in *. unfold total_load in *. lia. Qed.

(** The load of the new function is at most that computed with any ranks that are large enough. *)
Lemma pending_below (g : graph P) W : verified g -> (forall n, In n (g_body g) -> rle (weight W n) (W (n_dst n))) -> pending g <= total_load W (g_body g).
Proof.
  intros VG K. apply total_mono. intros n I. destruct (n_args n) as [|a l] eqn:E; [rewrite !(slice_args g n VG I E); auto|].
  apply load_mono; [|congruence]. intros b Hb. apply rank_below; auto. eapply verified_args; eauto.
Qed.
Lemma total_ext V W (f : graph P) : verified f -> (forall x, In x (names f) -> V x = W x) -> forall l, incl l (g_body f) -> total_load V l = total_load W l.
Proof.
  intros VF K l IL. induction l as [|n l IH]; [reflexivity|]. cbn [total_load fold_right]. unfold total_load in IH. rewrite IH by (intros y Hy; apply IL; right; auto). f_equal.
  assert (I : In n (g_body f)) by (apply IL; left; auto). destruct (n_args n) as [|a as_] eqn:E; [rewrite !(slice_args f n VF I E); auto|].
  unfold load. rewrite E. cbn [nth]. rewrite K by (apply (verified_args f n); auto; rewrite E; left; auto). reflexivity.
Qed.
Lemma weight_ext V W (n : node P) : (forall a, In a (n_args n) -> V a = W a) -> weight V n = weight W n.
Proof. intros K. unfold weight. f_equal. apply map_ext_in. auto. Qed.

(** ** replacing *)
Lemma nodup_body (f : graph P) d news : NoDup (map n_dst (g_body f)) -> In d (g_body f) -> exists l1 l2, g_body f = l1 ++ d :: l2 /\ g_body (replace f (n_dst d) news) = l1 ++ news ++ l2.
Proof.
  intros W I. destruct (in_split _ _ I) as (l1 & l2 & EB). exists l1, l2. split; [auto|]. rewrite EB, map_app in W. cbn [map] in W. apply NoDup_remove_2 in W. rewrite in_app_iff in W.
  unfold replace. cbn [g_body]. rewrite EB, flat_map_app. cbn [flat_map]. rewrite Nat.eqb_refl.
  assert (K : forall l, ~ In (n_dst d) (map n_dst l) -> flat_map (fun n => if Nat.eqb (n_dst n) (n_dst d) then news else [n]) l = l).
  { induction l as [|n l IH]; intros N; [reflexivity|]. cbn [flat_map map In] in *. destruct (Nat.eqb_spec (n_dst n) (n_dst d)); [tauto|]. cbn [app]. rewrite IH; tauto. }
  rewrite !K by tauto. reflexivity.
Qed.
Lemma total_replace W (f : graph P) d news : NoDup (map n_dst (g_body f)) -> In d (g_body f) ->
  total_load W (g_body (replace f (n_dst d) news)) + load W d = total_load W (g_body f) + total_load W news.
Proof.
  intros N I. destruct (nodup_body f d news N I) as (l1 & l2 & E1 & E2). rewrite E2, E1, !total_app. cbn [total_load fold_right]. unfold total_load. lia.
Qed.
Lemma length_replace (f : graph P) d news : NoDup (map n_dst (g_body f)) -> In d (g_body f) -> S (length (g_body (replace f (n_dst d) news))) = length (g_body f) + length news.
Proof. intros N I. destruct (nodup_body f d news N I) as (l1 & l2 & E1 & E2). rewrite E2, E1, !app_length. cbn [length]. lia. Qed.
Lemma verified_nodup (f : graph P) : verified f -> NoDup (map n_dst (g_body f)).
Proof. intros (_ & _ & O & _). eapply in_order_nodup; eauto. Qed.

(** One operation replaced by others, none of which weighs more. *)
Lemma replace_pending (f g : graph P) d news W : verified f -> verified g -> In d (g_body f) -> g = replace f (n_dst d) news ->
  (forall x, In x (names f) -> W x = rank_of f x) -> (forall m, In m news -> rle (weight W m) (W (n_dst m))) ->
  pending g + load W d <= pending f + total_load W news.
Proof.
  intros VF VG I EG KW KN. assert (T := total_replace W f d news (verified_nodup f VF) I). rewrite <- EG in T.
  assert (Q : total_load W (g_body f) = pending f) by (apply (total_ext W (rank_of f) f VF KW); apply incl_refl).
  assert (B : pending g <= total_load W (g_body g)).
  { apply pending_below; auto. intros n Hn. rewrite EG in Hn. apply in_replace in Hn. destruct Hn as [[Hn _]|Hn]; [|auto].
    rewrite KW by (apply names_node; auto). rewrite (rank_solves f n VF Hn). rewrite (weight_ext W (rank_of f)); [apply rle_refl|]. intros a Ha. apply KW. eapply verified_args; eauto. }
  lia.
Qed.
(** The same for a label or the bands of a fake slice. *)
Lemma mark_pending (f : graph P) d : verified f -> In d (g_body f) -> pending (mark_raised f d) <= pending f /\ forall x, In x (names f) -> rle (rank_of (mark_raised f d) x) (rank_of f x).
Proof.
  intros VF I. assert (VM := mark_verified f d VF I). split.
  - assert (Q := replace_pending f (mark_raised f d) d [mark d] (rank_of f) VF VM I eq_refl (fun x _ => eq_refl)). cbn [total_load fold_right] in Q.
    assert (L : load (rank_of f) (mark d) = load (rank_of f) d) by reflexivity. rewrite L in Q. enough (X : forall m, In m [mark d] -> rle (weight (rank_of f) m) (rank_of f (n_dst m))) by (specialize (Q X); lia).
    intros m [<-|[]]. cbn [mark n_dst]. rewrite (rank_solves f d VF I). apply rle_refl.
  - intros x Hx. apply rank_below; auto; [|apply mark_names; auto]. intros n Hn. unfold mark_raised in Hn. apply in_replace in Hn. destruct Hn as [[Hn _]|[<-|[]]].
    + rewrite (rank_solves f n VF Hn). apply rle_refl.
    + cbn [mark n_dst]. rewrite (rank_solves f d VF I). apply rle_refl.
Qed.
End Term.
