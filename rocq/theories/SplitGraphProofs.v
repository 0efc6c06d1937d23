(** Proof machinery for C95: a verified function has one solution. *)
From Coq Require Import Relations Permutation.
From Verif Require Import Base NdSpec ConvSpec OpSplitModel OpSplitSpec OpSplitProofs OpSplitProps SplitNetModel SplitNetSpec SplitNetProps SplitGraphModel SplitGraphSpec.
Local Open Scope Z_scope.

Lemma same_value_refl {P} (v : value P) : same_value v v.
Proof. split; auto. Qed.
Lemma same_value_sym {P} (v w : value P) : same_value v w -> same_value w v.
Proof. intros [T V]. split; [auto|]. rewrite <- T. intros. symmetry. auto. Qed.
Lemma same_value_trans {P} (u v w : value P) : same_value u v -> same_value v w -> same_value u w.
Proof. intros [T V] [T' V']. split; [congruence|]. intros. rewrite V by auto. apply V'; rewrite <- T; auto. Qed.

Lemma pixels_same {P} (v w : value P) : same_value v w -> pixels (fst v) (snd v) = pixels (fst w) (snd w).
Proof.
  intros [T V]. rewrite <- T. unfold pixels. rewrite !flat_map_concat_map. f_equal. apply map_ext_in. intros y Hy. apply in_seq in Hy.
  apply map_ext_in. intros x Hx. apply in_seq in Hx. apply V; lia.
Qed.

Lemma stack_same {P} (z : P) w (l1 l2 : list (value P)) : Forall2 same_value l1 l2 -> Forall (fun v => g_w (fst v) = w) l1 ->
  forall y x, 0 <= y < fold_right Z.add 0 (map (fun v => g_h (fst v)) l1) -> 0 <= x < w ->
  stack z (map (fun v => (g_h (fst v), snd v)) l1) y x = stack z (map (fun v => (g_h (fst v), snd v)) l2) y x.
Proof.
  intros F. induction F as [|v1 v2 l1 l2 [T V] F IH]; intros FW y x Hy Hx; [reflexivity|].
  inversion FW as [|? ? W1 FW']; subst. cbn [map stack fold_right] in *. rewrite <- T.
  destruct (Z.ltb_spec y (g_h (fst v1))); [apply V; auto; lia|]. apply IH; auto. lia.
Qed.

Lemma forall2_single {A B} (R : A -> B -> Prop) a l : Forall2 R [a] l -> exists b, l = [b] /\ R a b.
Proof. intros F. inversion F as [|? b ? l' Rab F']; subst. inversion F'; subst. eauto. Qed.

Lemma broadcast_same {P} (t : gty) (v w : value P) y x : same_value v w ->
  broadcasts (g_h (fst v)) (g_h t) -> broadcasts (g_w (fst v)) (g_w t) -> 0 <= y < g_h t -> 0 <= x < g_w t ->
  broadcast_at v y x = broadcast_at w y x.
Proof.
  intros [T V] BH BW Hy Hx. unfold broadcast_at. rewrite <- T. apply V.
  - destruct (Z.eqb_spec (g_h (fst v)) 1); [lia|]. destruct BH; lia.
  - destruct (Z.eqb_spec (g_w (fst v)) 1); [lia|]. destruct BW; lia.
Qed.

Lemma map1 {A B} (f : A -> B) l b : map f l = [b] -> exists a, l = [a] /\ f a = b.
Proof. destruct l as [|a [|]]; cbn; try discriminate. intros E. injection E as <-. eauto. Qed.
Lemma map2 {A B} (f : A -> B) l b c : map f l = [b; c] -> exists a a', l = [a; a'] /\ f a = b /\ f a' = c.
Proof. destruct l as [|a [|a' [|]]]; cbn; try discriminate. intros E. injection E as <- <-. eauto. Qed.

Lemma eval_op_cong {P} (dz : P) o t args args' : types_check o (map fst args) t -> Forall2 same_value args args' ->
  same_value (t, eval_op dz o args) (t, eval_op dz o args').
Proof.
  intros (H1 & H2 & TC) F. split; [reflexivity|]. cbn [fst snd]. intros y x Hy Hx.
  destruct o as [same fh fw sH sW G z|top bottom lft rgt z|f|b n|z|bands|m|u|img|f]; cbn [types_check] in TC.
  - destruct TC as (a & E & _). apply map1 in E. destruct E as (v & -> & <-). apply forall2_single in F. destruct F as (v' & -> & [T V]).
    cbn [eval_op]. rewrite <- T. apply original_conv_ext. auto.
  - destruct TC as (a & E & _). apply map1 in E. destruct E as (v & -> & <-). apply forall2_single in F. destruct F as (v' & -> & [T V]).
    cbn [eval_op]. rewrite <- T. unfold pad_image. apply zpad_ext. auto.
  - destruct TC as (a & b & E & BA & BB & WA & WB). apply map2 in E. destruct E as (v & w & -> & <- & <-).
    inversion F as [|? v' ? l' Sv F']; subst. apply forall2_single in F'. destruct F' as (w' & -> & Sw).
    cbn [eval_op]. f_equal; eapply broadcast_same; eauto.
  - destruct TC as (a & E & A1 & A2 & A3 & ->). apply map1 in E. destruct E as (v & -> & <-). apply forall2_single in F. destruct F as (v' & -> & [T V]).
    cbn [eval_op]. unfold slice_image. cbn [g_h g_w] in *. apply V; lia.
  - destruct TC as (_ & FW & EH). cbn [eval_op]. apply stack_same with (w := g_w t); auto.
    + apply Forall_map in FW. eapply Forall_impl; [|exact FW]. tauto.
    + rewrite map_map in EH. rewrite <- EH. auto.
  - apply map1 in TC. destruct TC as (v & -> & <-). apply forall2_single in F. destruct F as (v' & -> & [T V]).
    cbn [eval_op]. apply V; auto.
  - destruct TC as (a & E & _). apply map1 in E. destruct E as (v & -> & <-). apply forall2_single in F. destruct F as (v' & -> & S).
    cbn [eval_op]. rewrite (pixels_same v v' S). reflexivity.
  - destruct TC as (a & E). apply map1 in E. destruct E as (v & -> & <-). apply forall2_single in F. destruct F as (v' & -> & S).
    cbn [eval_op]. rewrite (pixels_same v v' S). reflexivity.
  - reflexivity.
  - cbn [eval_op]. assert (E : map (fun v : value P => pixels (fst v) (snd v)) args = map (fun v : value P => pixels (fst v) (snd v)) args').
    { clear - F. induction F; cbn [map]; auto. rewrite (pixels_same x y H), IHF. reflexivity. }
    unfold value in E. rewrite E. reflexivity.
Qed.

(** ** execution solves the equations *)
Lemma set_other {P} (e : nat -> value P) x v y : y <> x -> set e x v y = e y.
Proof. intros N. unfold set. destruct (Nat.eqb_spec y x); congruence. Qed.
Lemma set_same {P} (e : nat -> value P) x v : set e x v x = v.
Proof. unfold set. rewrite Nat.eqb_refl. reflexivity. Qed.
Lemma node_value_ext {P} (dz : P) e e' n : (forall a, In a (n_args n) -> e a = e' a) -> node_value dz e n = node_value dz e' n.
Proof. intros E. unfold node_value. f_equal. f_equal. apply map_ext_in. auto. Qed.

Lemma execute_other {P} (dz : P) body : forall e x, ~ In x (map n_dst body) -> execute dz body e x = e x.
Proof.
  induction body as [|n body IH]; intros e x N; [reflexivity|]. cbn [map] in N. change (execute dz (n :: body) e) with (execute dz body (set e (n_dst n) (node_value dz e n))).
  rewrite IH by (intros I; apply N; right; auto). apply set_other. intros ->. apply N. left. auto.
Qed.
Lemma in_order_dsts {P} (body : list (node P)) : forall scope, in_order scope body -> forall x, In x (map n_dst body) -> ~ In x scope.
Proof.
  induction body as [|n body IH]; intros scope W x Hx; [destruct Hx|]. cbn [map] in Hx. cbn [in_order] in W. destruct W as (A & B & C).
  destruct Hx as [<-|Hx]; [auto|]. intros I. apply (IH _ C x Hx). right. auto.
Qed.
Lemma in_order_nodup {P} (body : list (node P)) : forall scope, in_order scope body -> NoDup (map n_dst body).
Proof.
  induction body as [|n body IH]; intros scope W; [constructor|]. cbn [map]. cbn [in_order] in W. destruct W as (A & B & C).
  constructor; [|eapply IH; eauto]. intros I. apply (in_order_dsts _ _ C _ I). left. auto.
Qed.
Lemma execute_solves {P} (dz : P) body : forall scope e, in_order scope body ->
  forall n, In n body -> execute dz body e (n_dst n) = node_value dz (execute dz body e) n.
Proof.
  induction body as [|n body IH]; intros scope e W m Hm; [destruct Hm|]. cbn [in_order] in W. destruct W as (A & B & C).
  change (execute dz (n :: body) e) with (execute dz body (set e (n_dst n) (node_value dz e n))). destruct Hm as [<-|Hm]; [|eapply IH; eauto].
  assert (ND : forall y, In y (n_dst n :: scope) -> ~ In y (map n_dst body)).
  { intros y Hy I. apply (in_order_dsts _ _ C y I Hy). }
  rewrite execute_other by (apply ND; left; auto). rewrite set_same. apply node_value_ext. intros a Ha. apply A in Ha.
  rewrite execute_other by (apply ND; right; auto). rewrite set_other; [auto|]. intros ->. auto.
Qed.
Lemma in_order_args {P} (body : list (node P)) : forall scope, in_order scope body -> forall n, In n body ->
  forall a, In a (n_args n) -> In a (scope ++ map n_dst body).
Proof.
  induction body as [|m body IH]; intros scope W n Hn a Ha; [destruct Hn|]. cbn [in_order] in W. destruct W as (A & B & C).
  destruct Hn as [<-|Hn]; [apply in_or_app; left; auto|].
  specialize (IH _ C n Hn a Ha). cbn [app map In] in IH. rewrite in_app_iff in *. cbn [map In]. tauto.
Qed.

Definition names {P} (f : graph P) : list nat := map fst (g_params f) ++ map n_dst (g_body f).
Definition final {P} (dz : P) (f : graph P) (imgs : nat -> image P) : nat -> value P :=
  execute dz (g_body f) (inputs dz (g_params f) imgs).
Definition solves {P} (dz : P) (V : nat -> value P) (body : list (node P)) : Prop :=
  forall n, In n body -> same_value (V (n_dst n)) (node_value dz V n).

Lemma find_unique {A} (key : A -> nat) l x : NoDup (map key l) -> In x l -> find (fun y => Nat.eqb (key y) (key x)) l = Some x.
Proof.
  induction l as [|y l IH]; intros ND Hx; [destruct Hx|]. cbn [map] in ND. inversion ND as [|? ? N ND']; subst. cbn [find].
  destruct Hx as [->|Hx]; [rewrite Nat.eqb_refl; reflexivity|]. destruct (Nat.eqb_spec (key y) (key x)) as [E|E]; [|auto].
  exfalso. apply N. rewrite E. apply in_map. auto.
Qed.
Lemma find_absent {A} (key : A -> nat) l x : ~ In x (map key l) -> find (fun y => Nat.eqb (key y) x) l = None.
Proof.
  intros N. destruct (find _ l) as [y|] eqn:F; [|reflexivity]. apply find_some in F. destruct F as [I E]. apply Nat.eqb_eq in E.
  exfalso. apply N. rewrite <- E. apply in_map. auto.
Qed.
Lemma def_of_in {P} (f : graph P) x d : def_of f x = Some d -> In d (g_body f) /\ n_dst d = x.
Proof. intros F. unfold def_of in F. apply find_some in F. destruct F as [I E]. apply Nat.eqb_eq in E. auto. Qed.

Section Verified.
Context {P : Type}.
Lemma verified_def (f : graph P) n : verified f -> In n (g_body f) -> def_of f (n_dst n) = Some n.
Proof. intros (ND & _ & W & _) I. apply find_unique with (key := n_dst); auto. eapply in_order_nodup; eauto. Qed.
Lemma verified_type (f : graph P) n : verified f -> In n (g_body f) -> type_of f (n_dst n) = n_ty n.
Proof.
  intros VF I. unfold type_of. rewrite (find_absent fst); [rewrite verified_def; auto|].
  destruct VF as (_ & _ & W & _). eapply in_order_dsts; eauto. apply in_map. auto.
Qed.
Lemma verified_param (f : graph P) p : verified f -> In p (g_params f) -> type_of f (fst p) = snd p.
Proof. intros (ND & _) I. unfold type_of. rewrite (find_unique fst); auto. Qed.
Lemma inputs_param (dz : P) (f : graph P) imgs p : verified f -> In p (g_params f) -> inputs dz (g_params f) imgs (fst p) = (snd p, imgs (fst p)).
Proof. intros (ND & _) I. unfold inputs. rewrite (find_unique fst); auto. Qed.
Lemma verified_args (f : graph P) n a : verified f -> In n (g_body f) -> In a (n_args n) -> In a (names f).
Proof. intros (_ & _ & W & _) I. eapply in_order_args; eauto. Qed.
Lemma final_solves (dz : P) (f : graph P) imgs n : verified f -> In n (g_body f) ->
  final dz f imgs (n_dst n) = node_value dz (final dz f imgs) n.
Proof. intros (_ & _ & W & _) I. eapply execute_solves; eauto. Qed.
Lemma final_param (dz : P) (f : graph P) imgs p : verified f -> In p (g_params f) -> final dz f imgs (fst p) = (snd p, imgs (fst p)).
Proof.
  intros VF I. unfold final. rewrite execute_other; [apply inputs_param; auto|]. destruct VF as (_ & _ & W & _).
  intros J. apply (in_order_dsts _ _ W _ J). apply in_map. auto.
Qed.

(** Any solution is what execution gives. *)
Lemma solution_scan (dz : P) (f : graph P) imgs V : verified f ->
  (forall p, In p (g_params f) -> same_value (snd p, imgs (fst p)) (V (fst p))) -> solves dz V (g_body f) ->
  forall post pre e, g_body f = pre ++ post -> in_order (rev (map n_dst pre) ++ map fst (g_params f)) post ->
  (forall x, In x (rev (map n_dst pre) ++ map fst (g_params f)) -> same_value (e x) (V x) /\ fst (e x) = type_of f x) ->
  forall x, In x (names f) -> same_value (execute dz post e x) (V x) /\ fst (execute dz post e x) = type_of f x.
Proof.
  intros VF PV SV. induction post as [|n post IH]; intros pre e EB W E x Hx.
  - cbn [execute fold_left]. apply E. unfold names in Hx. rewrite app_nil_r in EB. rewrite EB in Hx. rewrite in_app_iff, <- in_rev. rewrite in_app_iff in Hx. tauto.
  - change (execute dz (n :: post) e) with (execute dz post (set e (n_dst n) (node_value dz e n))). assert (I : In n (g_body f)) by (rewrite EB; apply in_elt).
    cbn [in_order] in W. destruct W as (A & B & C). apply (IH (pre ++ [n])); auto.
    + rewrite EB, <- app_assoc. reflexivity.
    + rewrite map_app, rev_app_distr. cbn [map rev app]. exact C.
    + rewrite map_app, rev_app_distr. cbn [map rev app]. intros y [<-|Hy].
      * rewrite set_same. split; [|cbn [node_value fst]; symmetry; apply verified_type; auto].
        eapply same_value_trans; [|apply same_value_sym; apply SV; auto]. unfold node_value. destruct VF as (_ & _ & _ & _ & TC).
        apply eval_op_cong.
        -- rewrite map_map. replace (map (fun a => fst (e a)) (n_args n)) with (map (type_of f) (n_args n)); [apply TC; auto|].
           apply map_ext_in. intros a Ha. symmetry. apply E. apply A. auto.
        -- clear - E A. induction (n_args n) as [|a l IHl]; cbn [map]; constructor.
           ++ apply E. apply A. left. auto.
           ++ apply IHl. intros b Hb. apply A. right. auto.
      * rewrite set_other by (intros ->; auto). apply E. auto.
Qed.
Lemma solution (dz : P) (f : graph P) imgs V : verified f ->
  (forall p, In p (g_params f) -> same_value (snd p, imgs (fst p)) (V (fst p))) -> solves dz V (g_body f) ->
  forall x, In x (names f) -> same_value (final dz f imgs x) (V x).
Proof.
  intros VF PV SV x Hx. refine (proj1 (solution_scan dz f imgs V VF PV SV (g_body f) [] (inputs dz (g_params f) imgs) eq_refl _ _ x Hx)).
  - apply VF.
  - cbn [map rev app]. intros y Hy. apply in_map_iff in Hy. destruct Hy as (p & <- & Ip). rewrite inputs_param by auto. split; [auto|].
    cbn [fst]. symmetry. apply verified_param; auto.
Qed.
Lemma final_type (dz : P) (f : graph P) imgs x : verified f -> In x (names f) -> fst (final dz f imgs x) = type_of f x.
Proof.
  intros VF Hx. unfold names in Hx. apply in_app_or in Hx. destruct Hx as [Hx|Hx].
  - apply in_map_iff in Hx. destruct Hx as (p & <- & Ip). rewrite final_param, verified_param; auto.
  - apply in_map_iff in Hx. destruct Hx as (n & <- & In_). rewrite final_solves, verified_type; auto.
Qed.

(** A function whose equations are solved by an extension of the values of [f] has the results of [f]. *)
Definition same_results (dz : P) (f g : graph P) : Prop := forall imgs, Forall2 same_value (results dz f imgs) (results dz g imgs).
Definition agrees (dz : P) (f g : graph P) : Prop :=
  same_results dz f g /\ forall x, In x (names f) -> In x (names g) -> type_of g x = type_of f x.
Lemma by_solution (dz : P) (f g : graph P) : verified f -> verified g -> g_params g = g_params f ->
  (forall imgs, exists V, (forall x, In x (names f) -> V x = final dz f imgs x) /\ solves dz V (g_body g) /\
     Forall2 (fun r r' => same_value (V r) (V r')) (g_rets f) (g_rets g)) -> agrees dz f g.
Proof.
  intros VF VG EP K.
  assert (S : forall imgs V, (forall x, In x (names f) -> V x = final dz f imgs x) -> solves dz V (g_body g) ->
     forall x, In x (names g) -> same_value (final dz g imgs x) (V x)).
  { intros imgs V EV SV. apply solution; auto. intros p Ip. rewrite EP in Ip. rewrite EV by (unfold names; apply in_or_app; left; apply in_map; auto).
    rewrite final_param by auto. apply same_value_refl. }
  split.
  2:{ intros x Nf Ng. destruct (K (fun _ _ _ => dz)) as (V & EV & SV & _). destruct (S _ V EV SV x Ng) as [E _].
      rewrite final_type, EV, final_type in E by auto. exact E. }
  intros imgs. destruct (K imgs) as (V & EV & SV & RV). unfold results. fold (final dz f imgs) (final dz g imgs). specialize (S imgs V EV SV).
  assert (RF : incl (g_rets f) (names f)) by apply VF. assert (RG : incl (g_rets g) (names g)) by apply VG.
  clear K. revert RF RG. induction RV as [|r r' l l' RR RV IH]; intros RF RG; cbn [map]; constructor.
  - rewrite <- EV by (apply RF; left; auto). eapply same_value_trans; [exact RR|]. apply same_value_sym. apply S. apply RG. left. auto.
  - apply IH; intros y Hy; [apply RF|apply RG]; right; auto.
Qed.
Lemma rets_same (V : nat -> value P) l : Forall2 (fun r r' => same_value (V r) (V r')) l l.
Proof. induction l; constructor; auto. apply same_value_refl. Qed.

(** Old equations hold for extensions. *)
Lemma old_node (dz : P) (f : graph P) imgs V n : verified f -> (forall x, In x (names f) -> V x = final dz f imgs x) ->
  In n (g_body f) -> V (n_dst n) = node_value dz V n.
Proof.
  intros VF EV I. rewrite EV by (unfold names; apply in_or_app; right; apply in_map; auto). rewrite final_solves by auto.
  apply node_value_ext. intros a Ha. symmetry. apply EV. eapply verified_args; eauto.
Qed.

(** New names. *)
Lemma max_le l : forall x, In x l -> (x <= fold_right Nat.max 0 l)%nat.
Proof. induction l as [|y l IH]; intros x Hx; [destruct Hx|]. cbn [fold_right]. destruct Hx as [->|Hx]; [lia|]. specialize (IH x Hx). lia. Qed.
Lemma fresh_new (f : graph P) k : ~ In (fresh f k) (names f).
Proof.
  intros I. unfold fresh in I. 
  assert (L : (S (fold_right Nat.max 0 (map fst (g_params f) ++ map n_dst (g_body f) ++ flat_map n_args (g_body f) ++ g_rets f)) + k <=
           fold_right Nat.max 0 (map fst (g_params f) ++ map n_dst (g_body f) ++ flat_map n_args (g_body f) ++ g_rets f))%nat).
  { apply max_le. unfold names in I. rewrite !in_app_iff in *. tauto. }
  lia.
Qed.
Lemma fresh_inj (f : graph P) j k : fresh f j = fresh f k -> j = k.
Proof. unfold fresh. lia. Qed.

(** Extension of the values by new operations. *)
Lemma extend (dz : P) (f : graph P) imgs pre : in_order (names f) pre ->
  (forall x, In x (names f) -> execute dz pre (final dz f imgs) x = final dz f imgs x) /\
  (forall n, In n pre -> execute dz pre (final dz f imgs) (n_dst n) = node_value dz (execute dz pre (final dz f imgs)) n).
Proof.
  intros W. split.
  - intros x Hx. apply execute_other. intros I. apply (in_order_dsts _ _ W x I Hx).
  - intros n I. eapply execute_solves; eauto.
Qed.

Lemma in_replace (f : graph P) x news n : In n (g_body (replace f x news)) ->
  (In n (g_body f) /\ n_dst n <> x) \/ In n news.
Proof.
  unfold replace. cbn [g_body]. rewrite in_flat_map. intros (m & Im & H). destruct (Nat.eqb_spec (n_dst m) x); [right; auto|].
  destruct H as [<-|[]]. left. auto.
Qed.
Lemma replace_in (f : graph P) x news n : In n (g_body f) -> n_dst n <> x -> In n (g_body (replace f x news)).
Proof. intros I N. unfold replace. cbn [g_body]. apply in_flat_map. exists n. split; auto. destruct (Nat.eqb_spec (n_dst n) x); [congruence|left; auto]. Qed.

(** One operation replaced by others that compute the same. *)
Lemma replace_same (dz : P) (f : graph P) x pre last : verified f -> verified (replace f x (pre ++ [last])) ->
  in_order (names f) pre -> n_dst last = x -> 
  (forall imgs V, (forall y, In y (names f) -> V y = final dz f imgs y) -> (forall n, In n pre -> V (n_dst n) = node_value dz V n) ->
    (forall n, In n (g_body f) -> V (n_dst n) = node_value dz V n) ->
    same_value (V x) (node_value dz V last)) ->
  agrees dz f (replace f x (pre ++ [last])).
Proof.
  intros VF VG W EL K. apply by_solution; auto. intros imgs.
  destruct (extend dz f imgs pre W) as [E1 E2]. exists (execute dz pre (final dz f imgs)).
  split; [auto|]. split; [|apply rets_same].
  intros n In_. apply in_replace in In_. destruct In_ as [[In_ _]|In_].
  - rewrite (old_node dz f imgs _ n) at 1 by auto. apply same_value_refl.
  - apply in_app_or in In_. destruct In_ as [In_|[<-|[]]].
    + rewrite E2 at 1 by auto. apply same_value_refl.
    + rewrite EL. apply (K imgs); auto. intros n Hn. apply (old_node dz f imgs); auto.
Qed.
End Verified.
