(** Binary operators, splitting, fake slices and means (C95). *)
From Coq Require Import Relations Permutation.
From Verif Require Import Base NdSpec ConvSpec OpSplitModel OpSplitSpec OpSplitProofs OpSplitProps SplitNetModel SplitNetSpec SplitNetProps SplitGraphModel SplitGraphSpec SplitGraphProofs SplitGraphProofs2 SplitGraphProofs3.
Local Open Scope Z_scope.

Lemma same_type_eq a b : same_type a b = true -> a = b.
Proof. unfold same_type. rewrite !andb_true_iff, !Z.eqb_eq. destruct a as [h w c], b as [h2 w2 c2]; cbn [g_h g_w g_c]. intros [[-> ->] ->]. reflexivity. Qed.
Lemma type_eqb_eq a b : type_eqb a b = true -> a = b.
Proof. exact (same_type_eq a b). Qed.

Section Patterns.
Context {P : Type}.
Variable dz : P.

Definition exact (V : nat -> value P) (body : list (node P)) : Prop := forall n, In n body -> V (n_dst n) = node_value dz V n.

(** ** binary operators *)
Section Binary.
Variables (f : graph P) (s d : node P) (b n : Z) (x : nat) (op : P -> P -> P) (a1 a2 : nat).
Hypothesis VF : verified f. Hypothesis WL : within_limits f. Hypothesis LD : n_label d = true.
Hypothesis IS : In s (g_body f). Hypothesis OS : n_op s = OSlice b n. Hypothesis AS : n_args s = [x].
Hypothesis DX : def_of f x = Some d. Hypothesis OD : n_op d = OBin op. Hypothesis EA : n_args d = [a1; a2].

Lemma bin_facts : In d (g_body f) /\ n_dst d = x /\ 0 <= b /\ 1 <= n /\ b + n <= g_h (n_ty d) /\ n_ty s = GTy n (g_w (n_ty d)) (g_c (n_ty d)) /\
  In a1 (names f) /\ In a2 (names f) /\ n_dst d <> n_dst s.
Proof.
  destruct (def_of_in f x d DX) as [ID ED].
  assert (TS : types_check (n_op s) (map (type_of f) (n_args s)) (n_ty s)) by (apply VF; auto).
  rewrite OS, AS in TS. cbn [map] in TS. destruct TS as (S1 & S2 & a0 & E & S3 & S4 & S5 & S6). injection E as <-.
  assert (TX : type_of f x = n_ty d) by (rewrite <- ED; apply verified_type; auto). rewrite TX in S5, S6.
  repeat split; auto; try (eapply verified_args; eauto; rewrite EA; cbn [In]; auto).
  assert (LT : (pos (g_body f) (n_dst d) < pos (g_body f) (n_dst s))%nat) by (apply before; auto; rewrite AS, ED; left; auto).
  intros EQ. rewrite EQ in LT. lia.
Qed.

(** What a raised operand must be. *)
Definition operand_ok (V : nat -> value P) (a : nat) (v' : value P) : Prop :=
  forall y w, 0 <= y < n -> 0 <= w < g_w (n_ty d) -> broadcast_at v' y w = broadcast_at (V a) (b + y) (0 + w).
Lemma sliced_ok V a : fst (V a) = n_ty d -> operand_ok V a (n_ty s, slice_image b 0 (snd (V a))).
Proof.
  destruct bin_facts as (_ & _ & B1 & B2 & B3 & -> & _). intros T y w Hy Hw. unfold broadcast_at. rewrite T. cbn [fst snd g_h g_w]. unfold slice_image. f_equal.
  destruct (Z.eqb_spec n 1); destruct (Z.eqb_spec (g_h (n_ty d)) 1); lia.
Qed.
Lemma unsliced_ok V a : g_h (fst (V a)) = 1 -> operand_ok V a (V a).
Proof. intros T y w _ _. unfold broadcast_at. rewrite T. cbn. destruct (g_w (fst (V a)) =? 1); f_equal; lia. Qed.
Lemma last_ok V x1 x2 : exact V (g_body f) -> operand_ok V a1 (V x1) -> operand_ok V a2 (V x2) ->
  same_value (V (n_dst s)) (node_value dz V (Node (n_dst s) (OBin op) [x1; x2] (n_ty s) (n_label d) (n_start d) (n_num d))).
Proof.
  destruct bin_facts as (ID & ED & B1 & B2 & B3 & TS & _). intros EX O1 O2. rewrite (EX s IS). unfold node_value. cbn [n_ty n_op n_args]. rewrite OS, AS. cbn [map eval_op].
  rewrite <- ED, (EX d ID). unfold node_value. rewrite OD, EA. cbn [map eval_op snd]. split; [reflexivity|]. cbn [fst snd]. rewrite TS. cbn [g_h g_w].
  intros y w Hy Hw. unfold slice_image. rewrite (O1 y w Hy Hw), (O2 y w Hy Hw). reflexivity.
Qed.

Lemma type_left a : In a [a1; a2] -> same_type (type_of f a) (n_ty d) = false -> g_h (type_of f a) = 1.
Proof.
  intros I ST. destruct bin_facts as (ID & _). specialize (WL d ID (or_introl LD)). rewrite OD, EA in WL. destruct (WL a I) as [E|E]; [|auto].
  exfalso. rewrite E in ST. unfold same_type in ST. rewrite !Z.eqb_refl in ST. discriminate.
Qed.

Lemma raise_bin_same g : raise_over_bin f s d b n = Rewritten g -> verified g -> agrees dz f g.
Proof.
  destruct bin_facts as (ID & ED & B1 & B2 & B3 & TS & N1 & N2 & DS).
  assert (F01 : fresh f 1 <> fresh f 0) by (intros E; apply fresh_inj in E; discriminate).
  assert (MB : forall V k bands t, n_op k = OFake bands -> V (n_dst k) = node_value dz V k -> V (n_dst (more_bands k bands b t)) = node_value dz V (more_bands k bands b t)).
  { intros V k bands t OK EK. cbn [more_bands n_dst]. rewrite EK. unfold node_value. cbn [more_bands n_ty n_op n_args]. rewrite OK. reflexivity. }
  (* the operand on the left *)
  assert (RIGHT : forall h pre1 x1, g_params h = g_params f -> g_rets h = g_rets f ->
      (forall a, type_of h a = type_of f a) ->
      (forall V, exact V (g_body f) -> exact V (g_body h)) ->
      (pre1 = [] \/ pre1 = [slice_of s (fresh f 0) b n a1]) ->
      (forall V imgs, (forall y, In y (names f) -> V y = final dz f imgs y) -> exact V (g_body f) -> exact V pre1 -> operand_ok V a1 (V x1)) ->
      forall g', match operand h d a2 with
        | KSlice => Rewritten (replace h (n_dst s) ((pre1 ++ [slice_of s (fresh f 1) b n a2]) ++ [Node (n_dst s) (OBin op) [x1; fresh f 1] (n_ty s) (n_label d) (n_start d) (n_num d)]))
        | KFake k bands => Rewritten (replace (replace h (n_dst k) [more_bands k bands b (n_ty s)]) (n_dst s) (pre1 ++ [Node (n_dst s) (OBin op) [x1; a2] (n_ty s) (n_label d) (n_start d) (n_num d)]))
        | KNew => Rewritten (replace (replace h (n_dst d) [Node (fresh f 1) (OFake [(b, n_ty s)]) [a2] (type_of f a2) false false None; with_args d [a1; fresh f 1]]) (n_dst s)
                    (pre1 ++ [Node (n_dst s) (OBin op) [x1; fresh f 1] (n_ty s) (n_label d) (n_start d) (n_num d)]))
        end = Rewritten g' -> verified g' -> agrees dz f g').
  { intros h pre1 x1 HP HR HT HX P1 O1 g' E VG.
    assert (W1 : in_order (names f) pre1).
    { destruct P1 as [->| ->]; cbn [in_order slice_of n_args n_dst]; [auto|]. split; [intros y [<-|[]]; auto|]. split; [apply fresh_new|auto]. }
    assert (W2 : forall nd, n_dst nd = fresh f 1 -> n_args nd = [a2] -> in_order (names f) (pre1 ++ [nd])).
    { intros nd ND NA. destruct P1 as [->| ->]; cbn [app in_order slice_of n_args n_dst]; rewrite ND, NA.
      - split; [intros y [<-|[]]; auto|]. split; [apply fresh_new|auto].
      - split; [intros y [<-|[]]; auto|]. split; [apply fresh_new|]. split; [intros y [<-|[]]; right; auto|].
        split; [|auto]. intros [Q|Q]; [auto|apply (fresh_new f 1 Q)]. }
    unfold operand in E. rewrite HT in E. destruct (same_type (type_of f a2) (n_ty d)) eqn:ST.
    - injection E as <-. apply same_type_eq in ST. set (s2 := slice_of s (fresh f 1) b n a2) in *.
      apply (rewrite_same dz f _ (pre1 ++ [s2])); auto.
      intros imgs V E1 ET E2 E3 m Im. apply in_replace in Im. destruct Im as [[Im _]|Im].
      + right. right. rewrite (HX V E3 m Im) at 1. apply same_value_refl.
      + rewrite <- app_assoc in Im. rewrite app_assoc in Im. apply in_app_or in Im. destruct Im as [Im|[<-|[]]]; [auto|]. right. right.
        apply last_ok; auto.
        * apply (O1 V imgs); auto. intros y Hy. apply E2. apply in_or_app. auto.
        * assert (S2 := E2 s2 (in_elt _ _ _)). change (n_dst s2) with (fresh f 1) in S2. rewrite S2. unfold node_value. cbn [s2 slice_of n_ty n_op n_args map eval_op].
          apply sliced_ok. rewrite ET; auto.
    - assert (H1 : g_h (type_of f a2) = 1) by (apply type_left; [right; left; auto|auto]).
      assert (KN : Rewritten (replace (replace h (n_dst d) [Node (fresh f 1) (OFake [(b, n_ty s)]) [a2] (type_of f a2) false false None; with_args d [a1; fresh f 1]]) (n_dst s)
                    (pre1 ++ [Node (n_dst s) (OBin op) [x1; fresh f 1] (n_ty s) (n_label d) (n_start d) (n_num d)])) = Rewritten g' -> agrees dz f g').
      { intros EE. injection EE as <-. set (fk := Node (fresh f 1) (OFake [(b, n_ty s)]) [a2] (type_of f a2) false false None) in *.
        apply (rewrite_same dz f _ (pre1 ++ [fk])); auto.
        intros imgs V E1 ET E2 E3 m Im.
        assert (S2 : V (fresh f 1) = V a2).
        { assert (S2 := E2 fk (in_elt _ _ _)). change (n_dst fk) with (fresh f 1) in S2. rewrite S2. unfold node_value. cbn [fk n_ty n_op n_args map eval_op].
          rewrite <- (ET a2 N2). destruct (V a2). reflexivity. }
        apply in_replace in Im. destruct Im as [[Im _]|Im].
        - apply in_replace in Im. destruct Im as [[Im _]|[<-|[<-|[]]]].
          + right. right. rewrite (HX V E3 m Im) at 1. apply same_value_refl.
          + right. left. apply in_or_app. right. left. auto.
          + right. right. change (n_dst (with_args d [a1; fresh f 1])) with (n_dst d). rewrite (E3 d ID). unfold node_value. cbn [with_args n_ty n_op n_args map]. rewrite EA. cbn [map]. rewrite S2. apply same_value_refl.
        - apply in_app_or in Im. destruct Im as [Im|[<-|[]]]; [right; left; apply in_or_app; auto|]. right. right. apply last_ok; auto.
          + apply (O1 V imgs); auto. intros y Hy. apply E2. apply in_or_app. auto.
          + rewrite S2. apply unsliced_ok. rewrite ET; auto. }
      destruct (def_of h a2) as [k|] eqn:DK; [|auto]. destruct (n_op k) as [ | | | | |bands| | | | ] eqn:OK; auto.
      injection E as <-. destruct (def_of_in h a2 k DK) as [IK EK].
      apply (rewrite_same dz f _ pre1); auto.
      intros imgs V E1 ET E2 E3 m Im. apply in_replace in Im. destruct Im as [[Im _]|Im].
      + right. right. apply in_replace in Im. destruct Im as [[Im _]|[<-|[]]].
        * rewrite (HX V E3 m Im) at 1. apply same_value_refl.
        * rewrite (MB V k bands (n_ty s) OK (HX V E3 k IK)) at 1. apply same_value_refl.
      + apply in_app_or in Im. destruct Im as [Im|[<-|[]]]; [auto|]. right. right. apply last_ok; auto.
        * apply (O1 V imgs); auto.
        * apply unsliced_ok. rewrite ET; auto. }
  unfold raise_over_bin. rewrite OD, EA. intros E VG. unfold operand at 1 in E. destruct (same_type (type_of f a1) (n_ty d)) eqn:ST.
  - apply same_type_eq in ST. apply (RIGHT f [slice_of s (fresh f 0) b n a1] (fresh f 0)) with (g' := g); auto.
    intros V imgs E1 E3 E2. assert (S1 := E2 _ (or_introl eq_refl)). cbn [slice_of n_dst] in S1. rewrite S1. unfold node_value. cbn [n_ty n_op n_args map eval_op].
    apply sliced_ok. rewrite E1 by auto. rewrite final_type; auto.
  - assert (H1 : g_h (type_of f a1) = 1) by (apply type_left; [left; auto|auto]).
    destruct (def_of f a1) as [k|] eqn:DK; [|discriminate]. destruct (n_op k) as [ | | | | |bands| | | | ] eqn:OK; try discriminate.
    destruct (def_of_in f a1 k DK) as [IK EK].
    apply (RIGHT (replace f (n_dst k) [more_bands k bands b (n_ty s)]) [] a1) with (g' := g); auto.
    + intros a. apply (update_type f k (more_bands k bands b (n_ty s))); auto.
    + intros V EX m Im. apply in_replace in Im. destruct Im as [[Im _]|[<-|[]]]; [auto|]. apply MB; auto.
    + intros V imgs E1 _ _. apply unsliced_ok. rewrite E1 by auto. rewrite final_type; auto.
Qed.
End Binary.
End Patterns.
