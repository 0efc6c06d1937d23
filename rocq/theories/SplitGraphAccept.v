(** The verifier accepts what the patterns make, under conditions on the bands (C95). *)
From Coq Require Import Relations Permutation.
From Verif Require Import Base NdSpec ConvSpec OpSplitModel OpSplitSpec OpSplitProofs OpSplitProps SplitNetModel SplitNetSpec SplitNetProps SplitGraphModel SplitGraphSpec SplitGraphProofs SplitGraphProofs2 SplitGraphProofs3 SplitGraphProofs4 SplitGraphProofs5 SplitGraphProofs6.
Local Open Scope Z_scope.

Section Accept.
Context {P : Type}.

(** ** order *)
Lemma in_order_split (l1 l2 : list (node P)) : forall scope, in_order scope (l1 ++ l2) -> in_order scope l1 /\ in_order (rev (map n_dst l1) ++ scope) l2.
Proof.
  induction l1 as [|n l1 IH]; intros scope W; [split; [exact I|exact W]|]. cbn [in_order app map rev] in *. destruct W as (A & B & C).
  destruct (IH _ C) as [D E]. split; [auto|]. rewrite <- app_assoc. exact E.
Qed.
Lemma in_order_change (l : list (node P)) : forall scope scope', in_order scope l ->
  (forall n a, In n l -> In a (n_args n) -> In a scope -> In a scope') -> (forall n, In n l -> ~ In (n_dst n) scope') -> in_order scope' l.
Proof.
  induction l as [|n l IH]; intros scope scope' W K D; [exact I|]. cbn [in_order] in *. destruct W as (A & B & C).
  split; [intros a Ha; apply (K n a); auto; left; auto|]. split; [apply D; left; auto|].
  apply (IH (n_dst n :: scope)); auto.
  - intros m a Hm Ha [<-|Hs]; [left; auto|right; apply (K m a); auto; right; auto].
  - intros m Hm [E|Hs]; [|apply (D m); auto; right; auto]. apply (in_order_dsts l _ C (n_dst m)); [apply in_map; auto|left; auto].
Qed.
Lemma in_order_rename (x y : nat) (l : list (node P)) : forall scope scope', in_order scope l -> In y scope' ->
  (forall a, In a scope -> a <> x -> In a scope') -> (forall n, In n l -> ~ In (n_dst n) scope') -> ~ In x (map n_dst l) ->
  in_order scope' (map (fun n => Node (n_dst n) (n_op n) (map (rename_to x y) (n_args n)) (n_ty n) (n_label n) (n_start n) (n_num n)) l).
Proof.
  induction l as [|n l IH]; intros scope scope' W Y K D NX; [exact I|]. cbn [in_order map n_args n_dst] in *. destruct W as (A & B & C).
  split; [|split; [apply D; left; auto|]].
  - intros b Hb. apply in_map_iff in Hb. destruct Hb as (a & <- & Ha). unfold rename_to. destruct (Nat.eqb_spec a x); auto.
  - apply (IH (n_dst n :: scope)); auto.
    + right. auto.
    + intros a [<-|Ha] NE; [left; auto|right; auto].
    + intros m Hm [E|Hs]; [|apply (D m); auto; right; auto]. apply (in_order_dsts l _ C (n_dst m)); [apply in_map; auto|left; auto].
    + intros Q. apply NX. right. auto.
Qed.
Definition scope_of (f : graph P) (l1 : list (node P)) : list nat := rev (map n_dst l1) ++ map fst (g_params f).
Lemma position (f : graph P) s : In s (g_body f) -> exists l1 l2, g_body f = l1 ++ s :: l2.
Proof. apply in_split. Qed.
Section Position.
Variables (f : graph P) (s : node P) (l1 l2 : list (node P)).
Hypothesis VF : verified f. Hypothesis EB : g_body f = l1 ++ s :: l2.
Lemma pos_order : in_order (map fst (g_params f)) l1 /\ incl (n_args s) (scope_of f l1) /\ ~ In (n_dst s) (scope_of f l1) /\ in_order (n_dst s :: scope_of f l1) l2.
Proof. destruct VF as (_ & _ & W & _). rewrite EB in W. apply in_order_split in W. cbn [in_order] in W. tauto. Qed.
Lemma scope_names x : In x (scope_of f l1) -> In x (names f).
Proof. unfold scope_of, names. rewrite EB, map_app, !in_app_iff, <- in_rev. tauto. Qed.
Lemma names_scope x : In x (names f) -> In x (n_dst s :: scope_of f l1) \/ In x (map n_dst l2).
Proof. unfold scope_of, names. rewrite EB, map_app. cbn [map In]. rewrite !in_app_iff, <- in_rev. cbn [In]. tauto. Qed.
Lemma before_args d : In d (g_body f) -> In (n_dst d) (scope_of f l1) -> incl (n_args d) (scope_of f l1).
Proof.
  intros ID I. assert (ND : In d l1).
  { destruct VF as (_ & _ & W & _). unfold scope_of in I. rewrite in_app_iff, <- in_rev in I. destruct I as [I|I].
    - apply in_map_iff in I. destruct I as (d' & E & I). replace d with d'; auto.
      assert (I' : In d' (g_body f)) by (rewrite EB; apply in_or_app; auto).
      assert (F1 := verified_def f d' VF I'). assert (F2 := verified_def f d VF ID). rewrite E, F2 in F1. congruence.
    - exfalso. apply (in_order_dsts _ _ W (n_dst d)); [apply in_map; auto|auto]. }
  destruct pos_order as (W & _). intros a Ha. unfold scope_of. rewrite in_app_iff, <- in_rev.
  assert (Q := in_order_args _ _ W d ND a Ha). rewrite in_app_iff in Q. tauto.
Qed.
Lemma body_replace news : g_body (replace f (n_dst s) news) = l1 ++ news ++ l2.
Proof.
  destruct VF as (_ & _ & W & _). apply in_order_nodup in W. rewrite EB, map_app in W. cbn [map] in W. apply NoDup_remove_2 in W. rewrite in_app_iff in W.
  unfold replace. cbn [g_body]. rewrite EB, flat_map_app. cbn [flat_map]. rewrite Nat.eqb_refl.
  assert (K : forall l, ~ In (n_dst s) (map n_dst l) -> flat_map (fun n => if Nat.eqb (n_dst n) (n_dst s) then news else [n]) l = l).
  { induction l as [|n l IH]; intros N; [reflexivity|]. cbn [flat_map map In] in *. destruct (Nat.eqb_spec (n_dst n) (n_dst s)); [tauto|]. cbn [app]. rewrite IH; tauto. }
  rewrite !K by tauto. reflexivity.
Qed.
End Position.

(** ** types without the checks *)
Definition shaped (f : graph P) : Prop := NoDup (map fst (g_params f)) /\ in_order (map fst (g_params f)) (g_body f).
Lemma verified_shaped f : verified f -> shaped f.
Proof. intros (A & _ & B & _). split; auto. Qed.
Lemma shaped_type f n : shaped f -> In n (g_body f) -> type_of f (n_dst n) = n_ty n.
Proof.
  intros [A W] I. unfold type_of, def_of. rewrite find_absent.
  - rewrite find_unique; auto. eapply in_order_nodup; eauto.
  - intros J. apply (in_order_dsts _ _ W (n_dst n)); [apply in_map; auto|auto].
Qed.
Lemma shaped_keep f g : shaped f -> shaped g -> g_params g = g_params f ->
  (forall m, In m (g_body g) -> In (n_dst m) (names f) -> n_ty m = type_of f (n_dst m)) ->
  forall x, In x (names f) -> In x (names g) -> type_of g x = type_of f x.
Proof.
  intros SF SG EP K x Hf Hg. unfold names in Hg. apply in_app_or in Hg. destruct Hg as [Hg|Hg].
  - rewrite EP in Hg. apply in_map_iff in Hg. destruct Hg as (p & <- & Ip). unfold type_of. rewrite EP.
    destruct SF as [A _]. rewrite (find_unique fst) by auto. reflexivity.
  - apply in_map_iff in Hg. destruct Hg as (m & <- & Im). rewrite (shaped_type g m) by auto. apply K; auto.
Qed.

(** ** one operation replaced *)
Lemma replace_ok (f : graph P) s pre last l1 l2 : verified f -> g_body f = l1 ++ s :: l2 -> n_dst last = n_dst s -> n_ty last = n_ty s ->
  in_order (scope_of f l1) pre -> (forall m, In m pre -> ~ In (n_dst m) (names f)) -> incl (n_args last) (rev (map n_dst pre) ++ scope_of f l1) ->
  (forall ty, (forall x, In x (names f) -> ty x = type_of f x) -> (forall m, In m pre -> ty (n_dst m) = n_ty m) ->
    forall m, In m (pre ++ [last]) -> types_check (n_op m) (map ty (n_args m)) (n_ty m)) ->
  verified (replace f (n_dst s) (pre ++ [last])).
Proof.
  intros VF EB EL ET W NP AL TC. set (g := replace f (n_dst s) (pre ++ [last])).
  assert (BG : g_body g = l1 ++ (pre ++ [last]) ++ l2) by (apply body_replace; auto).
  destruct (pos_order f s l1 l2 VF EB) as (O1 & O2 & O3 & O4).
  assert (IS : In s (g_body f)) by (rewrite EB; apply in_elt).
  assert (OG : in_order (map fst (g_params f)) (g_body g)).
  { rewrite BG. apply in_order_app; [exact O1|]. fold (scope_of f l1). rewrite <- app_assoc. apply in_order_app; [exact W|]. cbn [app in_order].
    split; [exact AL|]. assert (NL : ~ In (n_dst last) (rev (map n_dst pre) ++ scope_of f l1)).
    { rewrite EL, in_app_iff, <- in_rev. intros [Q|Q]; [|auto]. apply in_map_iff in Q. destruct Q as (m & E & Im). apply (NP m Im). rewrite E. apply names_node; auto. }
    split; [exact NL|]. apply (in_order_change l2 (n_dst s :: scope_of f l1)); auto.
    - intros n a _ _ [<-|Ha]; [left; auto|right; apply in_or_app; auto].
    - intros n In2 [E|Q].
      + rewrite EL in E. apply (in_order_dsts l2 _ O4 (n_dst n)); [apply in_map; auto|left; auto].
      + rewrite in_app_iff, <- in_rev in Q. destruct Q as [Q|Q].
        * apply in_map_iff in Q. destruct Q as (m & E & Im). apply (NP m Im). rewrite E. apply names_node. rewrite EB. apply in_or_app. right. right. auto.
        * apply (in_order_dsts l2 _ O4 (n_dst n)); [apply in_map; auto|right; auto]. }
  assert (SG : shaped g) by (split; [apply VF|exact OG]).
  assert (NG : incl (names f) (names g)).
  { intros x Hx. unfold names in *. rewrite BG, !map_app, !in_app_iff. rewrite EB, map_app, !in_app_iff in Hx. cbn [map In] in *. rewrite EL. tauto. }
  assert (TK : forall x, In x (names f) -> type_of g x = type_of f x).
  { intros x Hx. apply (shaped_keep f g); auto using verified_shaped. intros m Im Nm. rewrite BG, !in_app_iff in Im.
    assert (OLD : In m (g_body f) -> n_ty m = type_of f (n_dst m)) by (intros Q; symmetry; apply verified_type; auto).
    destruct Im as [Im|[[Im|[<-|[]]]|Im]].
    - apply OLD. rewrite EB. apply in_or_app. auto.
    - exfalso. apply (NP m Im Nm).
    - rewrite EL, ET. symmetry. apply verified_type; auto.
    - apply OLD. rewrite EB. apply in_or_app. right. right. auto. }
  assert (V := VF). destruct V as (A & B & C & D & E). split; [exact A|]. split; [exact B|]. split; [exact OG|].
  split; [intros r Hr; apply NG; apply D; exact Hr|].
  intros n Hn. assert (OLD : In n (g_body f) -> types_check (n_op n) (map (type_of g) (n_args n)) (n_ty n)).
  { intros Q. replace (map (type_of g) (n_args n)) with (map (type_of f) (n_args n)); [apply E; auto|]. apply map_ext_in. intros a Ha. symmetry. apply TK. eapply verified_args; eauto. }
  rewrite BG in Hn. rewrite !in_app_iff in Hn. destruct Hn as [Hn|[Hn|Hn]].
  - apply OLD. rewrite EB. apply in_or_app. auto.
  - apply TC; auto; [|apply in_or_app; exact Hn]. intros m Im. apply shaped_type; auto. rewrite BG. rewrite !in_app_iff. auto.
  - apply OLD. rewrite EB. apply in_or_app. right. right. auto.
Qed.
(** ** operations erased, values renamed *)
Lemma erase_ok (f : graph P) s : verified f -> In s (g_body f) -> unused f (n_dst s) = true -> verified (replace f (n_dst s) []).
Proof.
  intros VF IS U. destruct (position f s IS) as (l1 & l2 & EB). destruct (pos_order f s l1 l2 VF EB) as (O1 & O2 & O3 & O4).
  assert (BG := body_replace f s l1 l2 VF EB []). cbn [app] in BG. set (g := replace f (n_dst s) []) in *.
  unfold unused in U. destruct (users f (n_dst s)) eqn:US; [|discriminate].
  assert (NU : forall n, In n (g_body f) -> ~ In (n_dst s) (n_args n)).
  { intros n In_ Q. assert (X : In n (users f (n_dst s))) by (apply filter_In; split; auto; apply existsb_exists; exists (n_dst s); rewrite Nat.eqb_refl; auto). rewrite US in X. destruct X. }
  assert (NR : ~ In (n_dst s) (g_rets f)).
  { intros Q. apply negb_true_iff in U. unfold returned in U. assert (X : existsb (Nat.eqb (n_dst s)) (g_rets f) = true) by (apply existsb_exists; exists (n_dst s); rewrite Nat.eqb_refl; auto). congruence. }
  assert (OG : in_order (map fst (g_params f)) (g_body g)).
  { rewrite BG. apply in_order_app; [exact O1|]. apply (in_order_change l2 (n_dst s :: scope_of f l1)); auto.
    - intros n a Hn Ha [<-|Q]; auto. exfalso. apply (NU n); auto. rewrite EB. apply in_or_app. right. right. auto.
    - intros n Hn Q. apply (in_order_dsts l2 _ O4 (n_dst n)); [apply in_map; auto|right; exact Q]. }
  assert (SG : shaped g) by (split; [apply VF|exact OG]).
  assert (OLD : forall m, In m (g_body g) -> In m (g_body f)) by (intros m; rewrite BG, EB, !in_app_iff; cbn [In]; tauto).
  assert (NG : forall x, In x (names f) -> x <> n_dst s -> In x (names g)).
  { intros x Hx NE. unfold names in *. rewrite BG, !map_app, !in_app_iff. rewrite EB, map_app, !in_app_iff in Hx. cbn [map In] in *. intuition congruence. }
  assert (TK : forall x, In x (names f) -> x <> n_dst s -> type_of g x = type_of f x).
  { intros x Hx NE. apply (shaped_keep f g); auto using verified_shaped. intros m Im _. symmetry. apply verified_type; auto. }
  assert (V := VF). destruct V as (A & B & C & D & E). split; [exact A|]. split; [exact B|]. split; [exact OG|].
  split; [intros r Hr; apply NG; [apply D; exact Hr|]; intros ->; auto|].
  intros n Hn. specialize (OLD n Hn). replace (map (type_of g) (n_args n)) with (map (type_of f) (n_args n)); [apply E; auto|].
  apply map_ext_in. intros a Ha. symmetry. apply TK; [eapply verified_args; eauto|]. intros ->. apply (NU n OLD Ha).
Qed.
Lemma forward_ok (f : graph P) s y l1 l2 : verified f -> g_body f = l1 ++ s :: l2 -> In y (scope_of f l1) -> type_of f y = n_ty s -> verified (forward f (n_dst s) y).
Proof.
  intros VF EB Y TY. destruct (pos_order f s l1 l2 VF EB) as (O1 & O2 & O3 & O4). assert (IS : In s (g_body f)) by (rewrite EB; apply in_elt).
  set (ren := fun n : node P => Node (n_dst n) (n_op n) (map (rename_to (n_dst s) y) (n_args n)) (n_ty n) (n_label n) (n_start n) (n_num n)).
  assert (BG : g_body (forward f (n_dst s) y) = map ren l1 ++ map ren l2).
  { unfold forward. cbn [g_body]. rewrite (body_replace f s l1 l2 VF EB []). cbn [app]. apply map_app. }
  set (g := forward f (n_dst s) y) in *.
  assert (DST : forall l, map n_dst (map ren l) = map n_dst l) by (intros l; rewrite map_map; reflexivity).
  assert (N1 : ~ In (n_dst s) (map n_dst l1)) by (intros Q; apply O3; unfold scope_of; rewrite in_app_iff, <- in_rev; auto).
  assert (N2 : ~ In (n_dst s) (map n_dst l2)) by (intros Q; apply (in_order_dsts l2 _ O4 (n_dst s)); [auto|left; auto]).
  assert (NP : ~ In (n_dst s) (map fst (g_params f))) by (intros Q; apply O3; unfold scope_of; rewrite in_app_iff; auto).
  assert (REN1 : map ren l1 = l1).
  { transitivity (map (fun n : node P => n) l1); [|apply map_id]. apply map_ext_in. intros n Hn. unfold ren. destruct n as [nd no na nt nl ns nn]. cbn [n_dst n_op n_args n_ty n_label n_start n_num]. f_equal.
    transitivity (map (fun a : nat => a) na); [|apply map_id]. apply map_ext_in. intros a Ha. unfold rename_to. destruct (Nat.eqb_spec a (n_dst s)) as [->|]; [|auto].
    exfalso. assert (Q := in_order_args _ _ O1 _ Hn (n_dst s) Ha). rewrite in_app_iff in Q. tauto. }
  assert (OG : in_order (map fst (g_params f)) (g_body g)).
  { rewrite BG, REN1. apply in_order_app; [exact O1|]. fold (scope_of f l1). apply (in_order_rename _ _ l2 (n_dst s :: scope_of f l1)); auto.
    - intros a [<-|Ha] NE; [congruence|auto].
    - intros n Hn Q. apply (in_order_dsts l2 _ O4 (n_dst n)); [apply in_map; auto|right; exact Q]. }
  assert (SG : shaped g) by (split; [apply VF|exact OG]).
  assert (OLD : forall m, In m (g_body g) -> exists m0, In m0 (g_body f) /\ m = ren m0).
  { intros m. rewrite BG, <- map_app. intros Im. apply in_map_iff in Im. destruct Im as (m0 & <- & Im). exists m0. split; [|auto]. rewrite EB, in_app_iff in *. cbn [In]. tauto. }
  assert (NG : forall x, In x (names f) -> x <> n_dst s -> In x (names g)).
  { intros x Hx NE. unfold names in *. rewrite BG, map_app, !DST, !in_app_iff. rewrite EB, map_app, !in_app_iff in Hx. cbn [map In] in *. change (g_params g) with (g_params f). intuition congruence. }
  assert (TK : forall x, In x (names f) -> x <> n_dst s -> type_of g x = type_of f x).
  { intros x Hx NE. apply (shaped_keep f g); auto using verified_shaped. intros m Im _. destruct (OLD m Im) as (m0 & I0 & ->). cbn [ren n_ty n_dst]. symmetry. apply verified_type; auto. }
  assert (Yf : In y (names f)) by (apply (scope_names f s l1 l2); auto). assert (Ys : y <> n_dst s) by (intros ->; auto).
  assert (REN : forall a, In a (names f) -> In (rename_to (n_dst s) y a) (names g) /\ type_of g (rename_to (n_dst s) y a) = type_of f a).
  { intros a Ha. unfold rename_to. destruct (Nat.eqb_spec a (n_dst s)) as [->|NE]; [|auto]. split; [auto|]. rewrite TK, TY by auto. symmetry. apply verified_type; auto. }
  assert (V := VF). destruct V as (A & B & C & D & E). split; [exact A|]. split; [exact B|]. split; [exact OG|]. split.
  - intros r Hr. unfold g, forward in Hr. cbn [g_rets replace] in Hr. apply in_map_iff in Hr. destruct Hr as (r0 & <- & Hr). apply REN. apply D. exact Hr.
  - intros n Hn. destruct (OLD n Hn) as (m & Im & ->). cbn [ren n_op n_args n_ty]. rewrite map_map.
    replace (map (fun a => type_of g (rename_to (n_dst s) y a)) (n_args m)) with (map (type_of f) (n_args m)); [apply E; auto|].
    apply map_ext_in. intros a Ha. symmetry. apply REN. eapply verified_args; eauto.
Qed.
End Accept.
