(** The verifier accepts the result of raising a slice over a binary operator (C95). *)
From Coq Require Import Relations Permutation.
From Verif Require Import Base NdSpec ConvSpec OpSplitModel OpSplitSpec OpSplitProofs OpSplitProps SplitNetModel SplitNetSpec SplitNetProps SplitGraphModel SplitGraphSpec SplitGraphProofs SplitGraphProofs2 SplitGraphProofs3 SplitGraphProofs4 SplitGraphProofs5 SplitGraphProofs6 SplitGraphAccept SplitGraphAccept2.
Local Open Scope Z_scope.

Section Accept.
Context {P : Type}.

Lemma in_order_flat (l : list (node P)) : forall scope, NoDup (map n_dst l) -> (forall m, In m l -> incl (n_args m) scope /\ ~ In (n_dst m) scope) -> in_order scope l.
Proof.
  induction l as [|m l IH]; intros scope ND K; [exact I|]. cbn [in_order map] in *. apply NoDup_cons_iff in ND. destruct ND as [N1 N2].
  destruct (K m (or_introl eq_refl)) as [K1 K2]. split; [auto|]. split; [auto|]. apply IH; auto. intros m' Hm. destruct (K m' (or_intror Hm)) as [K3 K4].
  split; [intros a Ha; right; auto|]. intros [Q|Q]; [|auto]. apply N1. rewrite Q. apply in_map; auto.
Qed.

Lemma bin_last (h : graph P) s d b n x op pre x1 x2 lb st nm : verified h -> In s (g_body h) -> n_op s = OSlice b n -> n_args s = [x] -> def_of h x = Some d ->
  NoDup (map n_dst pre) ->
  (forall m, In m pre -> ~ In (n_dst m) (names h) /\ exists q y, m = slice_of s q b n y /\ In y (n_args d) /\ type_of h y = n_ty d) ->
  (forall y, y = x1 \/ y = x2 -> In y (map n_dst pre) \/ (In y (n_args d) /\ g_h (type_of h y) = 1 /\ broadcasts (g_w (type_of h y)) (g_w (n_ty d)))) ->
  verified (replace h (n_dst s) (pre ++ [Node (n_dst s) (OBin op) [x1; x2] (n_ty s) lb st nm])).
Proof.
  intros VF IS OS AS DX ND KP KX. destruct (slice_facts h s d b n x VF IS OS AS DX) as (ID & ED & B1 & B2 & B3 & TS & TD). destruct (position h s IS) as (l1 & l2 & EB).
  destruct (in_scope h s d x l1 l2 VF EB) as [SA SX]; [rewrite AS; left; auto|auto|]. clear SX.
  assert (PW : 1 <= g_w (n_ty d)). { destruct (positive h (n_dst d) VF (names_node h d ID)) as [_ Q]. rewrite verified_type in Q by auto. exact Q. }
  apply (replace_ok h s pre (Node (n_dst s) (OBin op) [x1; x2] (n_ty s) lb st nm) l1 l2 VF EB); [reflexivity|reflexivity| | | |].
  - apply in_order_flat; auto. intros m Hm. destruct (KP m Hm) as (K1 & q & y & -> & K2 & K3). cbn [slice_of n_args n_dst] in *. split.
    + intros a [<-|[]]. auto.
    + intros Q. apply K1. apply (scope_names h s l1 l2); auto.
  - intros m Hm. apply KP; auto.
  - cbn [n_args]. intros y Hy. assert (Y : y = x1 \/ y = x2) by (cbn [In] in Hy; intuition congruence). apply in_or_app. destruct (KX y Y) as [Q|[Q _]]; [left; rewrite <- in_rev; auto|right; auto].
  - intros ty T1 T2 m Hm. apply in_app_or in Hm. destruct Hm as [Hm|[<-|[]]].
    + destruct (KP m Hm) as (K1 & q & y & -> & K2 & K3). cbn [slice_of n_args n_op n_ty map]. rewrite T1 by (eapply verified_args; eauto). rewrite K3, TS.
      split; [cbn [g_h]; lia|]. split; [cbn [g_w]; lia|]. exists (n_ty d). repeat split; auto.
    + cbn [n_op n_args n_ty map].
      assert (OP : forall y, y = x1 \/ y = x2 -> broadcasts (g_h (ty y)) (g_h (n_ty s)) /\ broadcasts (g_w (ty y)) (g_w (n_ty s))).
      { intros y Y. destruct (KX y Y) as [Q|(Q1 & Q2 & Q3)].
        - apply in_map_iff in Q. destruct Q as (m & <- & Hm). rewrite T2 by auto. destruct (KP m Hm) as (_ & q & y' & -> & _). cbn [slice_of n_ty]. split; right; auto.
        - rewrite T1 by (eapply verified_args; eauto). rewrite TS. cbn [g_h g_w]. split; [left; auto|auto]. }
      rewrite TS in OP |- *. destruct (OP x1 (or_introl eq_refl)) as [P1 P2]. destruct (OP x2 (or_intror eq_refl)) as [P3 P4].
      split; [cbn [g_h]; lia|]. split; [cbn [g_w]; lia|]. exists (ty x1), (ty x2). auto.
Qed.

Lemma update_names (f : graph P) d d' : verified f -> In d (g_body f) -> n_dst d' = n_dst d -> forall y, In y (names (replace f (n_dst d) [d'])) <-> In y (names f).
Proof.
  intros VF ID ED y. destruct (position f d ID) as (l1 & l2 & EB). unfold names. rewrite (body_replace f d l1 l2 VF EB), EB. cbn [app replace g_params].
  rewrite !map_app. cbn [map]. rewrite ED. reflexivity.
Qed.

Lemma bin_accept f s d b n x op a1 a2 g : verified f -> within_limits f -> n_label d = true -> In s (g_body f) -> n_op s = OSlice b n -> n_args s = [x] ->
  def_of f x = Some d -> n_op d = OBin op -> n_args d = [a1; a2] -> raise_over_bin f s d b n = Rewritten g -> verified (P := P) g.
Proof.
  intros VF WL LD IS OS AS DX OD EA E.
  destruct (slice_facts f s d b n x VF IS OS AS DX) as (ID & ED & B1 & B2 & B3 & TS & TD). rewrite OD, EA in TD. cbn [map] in TD.
  destruct TD as (PH & PW & t1 & t2 & E12 & H1 & H2 & W1 & W2). injection E12 as <- <-.
  assert (TL : forall a, In a [a1; a2] -> same_type (type_of f a) (n_ty d) = false -> g_h (type_of f a) = 1).
  { intros a I ST. specialize (WL d ID (or_introl LD)). rewrite OD, EA in WL. destruct (WL a I) as [Q|Q]; [|auto].
    exfalso. rewrite Q in ST. unfold same_type in ST. rewrite !Z.eqb_refl in ST. discriminate. }
  assert (TW : forall a, In a [a1; a2] -> broadcasts (g_w (type_of f a)) (g_w (n_ty d))) by (intros a [<-|[<-|[]]]; auto).
  assert (A2 : In a2 (names f)) by (apply (verified_args f d); auto; rewrite EA; right; left; auto).
  assert (RIGHT : forall (h : graph P) pre1 x1, verified h -> (forall a, type_of h a = type_of f a) -> In s (g_body h) -> def_of h x = Some d -> (forall y, In y (names h) <-> In y (names f)) ->
      ((pre1 = [slice_of s (fresh f 0) b n a1] /\ x1 = fresh f 0 /\ type_of f a1 = n_ty d) \/ (pre1 = [] /\ x1 = a1 /\ g_h (type_of f a1) = 1)) ->
      match operand h d a2 with
        | KSlice => Rewritten (replace h (n_dst s) ((pre1 ++ [slice_of s (fresh f 1) b n a2]) ++ [Node (n_dst s) (OBin op) [x1; fresh f 1] (n_ty s) (n_label d) (n_start d) (n_num d)]))
        | KFake k bands => Rewritten (replace (replace h (n_dst k) [more_bands k bands b (n_ty s)]) (n_dst s) (pre1 ++ [Node (n_dst s) (OBin op) [x1; a2] (n_ty s) (n_label d) (n_start d) (n_num d)]))
        | KNew => Rewritten (replace (replace h (n_dst d) [Node (fresh f 1) (OFake [(b, n_ty s)]) [a2] (type_of f a2) false false None; with_args d [a1; fresh f 1]]) (n_dst s)
                    (pre1 ++ [Node (n_dst s) (OBin op) [x1; fresh f 1] (n_ty s) (n_label d) (n_start d) (n_num d)]))
        end = Rewritten g -> verified g).
  { intros h pre1 x1 VH HT HS HD HN HX EG. destruct (def_of_in h x d HD) as [IDh _].
    assert (F0 : ~ In (fresh f 0) (names h)) by (rewrite HN; apply fresh_new). assert (F1 : ~ In (fresh f 1) (names h)) by (rewrite HN; apply fresh_new).
    assert (F01 : fresh f 0 <> fresh f 1) by (intros Q; apply fresh_inj in Q; discriminate).
    unfold operand in EG. rewrite HT in EG. destruct (same_type (type_of f a2) (n_ty d)) eqn:ST.
    - apply same_type_eq in ST. apply (f_equal (fun q => match q with Rewritten w => w | _ => f end)) in EG. rewrite <- EG. clear EG.
      apply (bin_last h s d b n x); auto.
      + destruct HX as [(-> & _ & _)|(-> & _ & _)]; cbn [app map slice_of n_dst]; repeat constructor; cbn [In]; intuition congruence.
      + intros m Hm. apply in_app_or in Hm. destruct Hm as [Hm|[<-|[]]].
        * destruct HX as [(-> & _ & T1)|(-> & _ & _)]; [|destruct Hm]. destruct Hm as [<-|[]]. split; [exact F0|]. exists (fresh f 0), a1. rewrite EA, HT. cbn [In]. auto.
        * split; [exact F1|]. exists (fresh f 1), a2. rewrite EA, HT. cbn [In]. auto.
      + intros y [->| ->]; [|left; rewrite map_app; apply in_or_app; right; left; auto].
        destruct HX as [(-> & -> & _)|(-> & -> & T1)]; [left; left; auto|]. right. rewrite EA, HT. split; [left; auto|]. split; [auto|]. apply TW. left. auto.
    - assert (T2 := TL a2 (or_intror (or_introl eq_refl)) ST).
      assert (KN : Rewritten (replace (replace h (n_dst d) [Node (fresh f 1) (OFake [(b, n_ty s)]) [a2] (type_of f a2) false false None; with_args d [a1; fresh f 1]]) (n_dst s)
                    (pre1 ++ [Node (n_dst s) (OBin op) [x1; fresh f 1] (n_ty s) (n_label d) (n_start d) (n_num d)])) = Rewritten g -> verified g).
      { intros E'. apply (f_equal (fun q => match q with Rewritten w => w | _ => f end)) in E'. rewrite <- E'. clear E' EG.
        set (fk := Node (fresh f 1) (OFake [(b, n_ty s)]) [a2] (type_of f a2) false false None). set (d' := with_args d [a1; fresh f 1]).
        set (h' := replace h (n_dst d) [fk; d']).
        destruct (position h d IDh) as (m1 & m2 & EBd). destruct (pos_order h d m1 m2 VH EBd) as (_ & SA & _). rewrite EA in SA.
        assert (VH' : verified h').
        { apply (replace_ok h d [fk] d' m1 m2 VH EBd); [reflexivity|reflexivity| | | |].
          - cbn [in_order fk n_args n_dst]. split; [intros y [<-|[]]; apply SA; right; left; auto|]. split; [|exact I]. intros Q. apply F1. apply (scope_names h d m1 m2); auto.
          - intros m [<-|[]]. exact F1.
          - cbn [d' with_args n_args map rev app fk n_dst]. intros y [<-|[<-|[]]]; [right; apply SA; left; auto|left; auto].
          - intros ty Q1 Q2 m [<-|[<-|[]]]; cbn [fk d' with_args n_op n_args n_ty map].
            + rewrite Q1 by (rewrite HN; auto). rewrite HT. destruct (positive f a2 VF A2). split; [auto|]. split; [auto|reflexivity].
            + rewrite OD. assert (Q := Q2 fk (or_introl eq_refl)). cbn [fk n_dst n_ty] in Q. rewrite Q.
              assert (Q3 : ty a1 = type_of f a1) by (rewrite <- HT; apply Q1; apply (verified_args h d); auto; rewrite EA; left; auto). rewrite Q3.
              split; [auto|]. split; [auto|]. exists (type_of f a1), (type_of f a2). auto. }
        assert (DS : n_dst s <> n_dst d) by (intros Q; apply (slice_not_op f s d x b n); auto).
        assert (HS' : In s (g_body h')) by (apply replace_in; auto).
        assert (ID' : In d' (g_body h')) by (apply replace_news; auto; right; left; auto).
        assert (IF' : In fk (g_body h')) by (apply replace_news; auto; left; auto).
        assert (DX' : def_of h' x = Some d') by (rewrite <- ED; change (n_dst d) with (n_dst d'); apply verified_def; auto).
        assert (BN : forall y, In y (names h') -> y = fresh f 1 \/ In y (names h)).
        { intros y. unfold h', names. rewrite (body_replace h d m1 m2 VH EBd), EBd. cbn [replace g_params app]. rewrite !map_app, !in_app_iff. cbn [map In fk d' with_args n_dst]. intuition. }
        assert (TK : forall y, In y (names h) -> type_of h' y = type_of h y).
        { intros y Hy. apply (shaped_keep h h'); auto using verified_shaped.
          - intros m Hm Nm. unfold h' in Hm. apply in_replace in Hm. destruct Hm as [[Hm _]|[<-|[<-|[]]]].
            + symmetry. apply verified_type; auto.
            + exfalso. apply F1. exact Nm.
            + cbn [d' with_args n_ty n_dst]. symmetry. apply verified_type; auto.
          - unfold h', names in *. rewrite (body_replace h d m1 m2 VH EBd). rewrite EBd in Hy. cbn [replace g_params app]. rewrite !map_app, !in_app_iff in *. cbn [map In fk d' with_args n_dst] in *. intuition. }
        assert (A1h : In a1 (names h)) by (apply (verified_args h d); auto; rewrite EA; left; auto).
        apply (bin_last h' s d' b n x); auto.
        - destruct HX as [(-> & _ & _)|(-> & _ & _)]; cbn [map slice_of n_dst]; repeat constructor; auto.
        - intros m Hm. destruct HX as [(-> & _ & T1)|(-> & _ & _)]; [|destruct Hm]. destruct Hm as [<-|[]]. split.
          + cbn [slice_of n_dst]. intros Q. destruct (BN _ Q); auto.
          + exists (fresh f 0), a1. split; [reflexivity|]. split; [left; auto|]. rewrite TK by auto. rewrite HT. exact T1.
        - intros y [->| ->].
          + destruct HX as [(-> & -> & _)|(-> & -> & T1)]; [left; left; auto|]. right. split; [left; auto|]. rewrite TK, HT by auto. split; [auto|]. apply TW. left. auto.
          + right. split; [right; left; auto|]. change (fresh f 1) with (n_dst fk). rewrite verified_type by auto. cbn [fk n_ty]. split; [auto|]. apply TW. right. left. auto. }
      destruct (def_of h a2) as [k|] eqn:DK; [|auto]. destruct (n_op k) as [ | | | | |bands| | | | ] eqn:OK; auto. clear KN.
      apply (f_equal (fun q => match q with Rewritten w => w | _ => f end)) in EG. rewrite <- EG. clear EG. destruct (def_of_in h a2 k DK) as [IK EK].
      set (k' := more_bands k bands b (n_ty s)). set (h' := replace h (n_dst k) [k']).
      assert (EO : forall args t, types_check (n_op k) args t -> types_check (n_op k') args t) by (intros args t; rewrite OK; auto).
      assert (VH' : verified h') by (apply (update_verified h k k'); auto).
      assert (SK : n_dst s <> n_dst k).
      { intros Q. assert (X := verified_def h k VH IK). rewrite <- Q, (verified_def h s VH HS) in X. injection X as X. rewrite X, OK in OS. discriminate. }
      assert (DK' : n_dst d <> n_dst k).
      { intros Q. assert (X := verified_def h k VH IK). rewrite <- Q, (verified_def h d VH IDh) in X. injection X as X. rewrite X, OK in OD. discriminate. }
      assert (TK : forall y, type_of h' y = type_of f y) by (intros y; rewrite <- HT; apply (update_type h k k'); auto).
      assert (DX' : def_of h' x = Some d) by (rewrite <- ED; apply verified_def; [auto|apply replace_in; auto]).
      assert (NK : forall y, In y (names h') <-> In y (names h)) by (apply update_names; auto).
      apply (bin_last h' s d b n x); auto.
      + apply replace_in; auto.
      + destruct HX as [(-> & _ & _)|(-> & _ & _)]; cbn [map slice_of n_dst]; repeat constructor; auto.
      + intros m Hm. destruct HX as [(-> & _ & T1)|(-> & _ & _)]; [|destruct Hm]. destruct Hm as [<-|[]]. split; [rewrite NK; exact F0|].
        exists (fresh f 0), a1. split; [reflexivity|]. split; [rewrite EA; left; auto|]. rewrite TK. exact T1.
      + intros y [->| ->].
        * destruct HX as [(-> & -> & _)|(-> & -> & T1)]; [left; left; auto|]. right. rewrite EA. split; [left; auto|]. rewrite TK. split; [auto|]. apply TW. left. auto.
        * right. rewrite EA. split; [right; left; auto|]. rewrite TK. split; [auto|]. apply TW. right. left. auto. }
  unfold raise_over_bin in E. rewrite OD, EA in E. unfold operand at 1 in E. destruct (same_type (type_of f a1) (n_ty d)) eqn:ST.
  - apply (RIGHT f [slice_of s (fresh f 0) b n a1] (fresh f 0)); auto; [intros; reflexivity|]. left. apply same_type_eq in ST. auto.
  - destruct (def_of f a1) as [k|] eqn:DK; [|discriminate]. destruct (n_op k) as [ | | | | |bands| | | | ] eqn:OK; try discriminate.
    destruct (def_of_in f a1 k DK) as [IK EK]. set (k' := more_bands k bands b (n_ty s)) in *.
    assert (EO : forall args t, types_check (n_op k) args t -> types_check (n_op k') args t) by (intros args t; rewrite OK; auto).
    assert (SK : n_dst s <> n_dst k).
    { intros Q. assert (X := verified_def f k VF IK). rewrite <- Q, (verified_def f s VF IS) in X. injection X as X. rewrite X, OK in OS. discriminate. }
    assert (DK' : n_dst d <> n_dst k).
    { intros Q. assert (X := verified_def f k VF IK). rewrite <- Q, (verified_def f d VF ID) in X. injection X as X. rewrite X, OK in OD. discriminate. }
    assert (VH : verified (replace f (n_dst k) [k'])) by (apply (update_verified f k k'); auto).
    apply (RIGHT (replace f (n_dst k) [k']) [] a1); auto.
    + intros a. apply (update_type f k k'); auto.
    + apply replace_in; auto.
    + rewrite <- ED. apply verified_def; [auto|]. apply replace_in; auto.
    + apply update_names; auto.
    + right. split; [auto|]. split; [auto|]. apply TL; [left; auto|auto].
Qed.
End Accept.
