(** The end of operation splitting: binary operators, and all steps together (C96). *)
From Coq Require Import Relations Permutation Wf_nat.
From Verif Require Import Base NdSpec ConvSpec OpSplitModel OpSplitSpec SplitGraphModel SplitGraphSpec SplitGraphProofs SplitGraphProofs2 SplitGraphProofs3 SplitGraphProofs4 SplitGraphProofs5 SplitGraphProofs6 SplitGraphAccept SplitGraphAccept2 SplitGraphAccept3 SplitGraphTerm SplitGraphTerm2.
Local Open Scope nat_scope.

Section Term.
Context {P : Type}.

(** Several replacements one after the other. *)
Definition changed (f : graph P) (W : nat -> rank) (h : graph P) (extra : nat) : Prop :=
  NoDup (map n_dst (g_body h)) /\ (forall n, In n (g_body h) -> rle (weight W n) (W (n_dst n))) /\ total_load W (g_body h) <= pending f + extra.
Lemma changed_start (f : graph P) W : verified f -> (forall x, In x (names f) -> W x = rank_of f x) -> changed f W f 0.
Proof.
  intros VF KW. split; [apply verified_nodup; auto|]. split.
  - intros n Hn. rewrite KW by (apply names_node; auto). rewrite (rank_solves f n VF Hn). rewrite (weight_ext W (rank_of f)); [apply rle_refl|]. intros a Ha. apply KW. eapply verified_args; eauto.
  - rewrite Nat.add_0_r. rewrite (total_ext W (rank_of f) f VF KW); [unfold pending; lia|apply incl_refl].
Qed.
Lemma nodup_replace (h : graph P) d pre last : NoDup (map n_dst (g_body h)) -> In d (g_body h) -> n_dst last = n_dst d -> NoDup (map n_dst pre) ->
  (forall m, In m pre -> ~ In (n_dst m) (map n_dst (g_body h))) -> NoDup (map n_dst (g_body (replace h (n_dst d) (pre ++ [last])))).
Proof.
  intros N I EL NP KP. destruct (nodup_body h d (pre ++ [last]) N I) as (l1 & l2 & E1 & E2). rewrite E2. rewrite E1 in N, KP. rewrite !map_app in *. cbn [map] in *. rewrite EL.
  apply (Permutation_NoDup (l := map n_dst pre ++ (map n_dst l1 ++ n_dst d :: map n_dst l2))).
  - rewrite <- app_assoc. cbn [app]. rewrite !app_assoc. apply Permutation_app_tail with (tl := n_dst d :: map n_dst l2). apply Permutation_app_comm.
  - clear E1 E2 I EL. induction pre as [|m pre IH]; cbn [map app]; [exact N|]. cbn [map] in NP. apply NoDup_cons_iff in NP. destruct NP as [N1 N2]. constructor.
    + rewrite in_app_iff. intros [Q|Q]; [auto|]. apply (KP m); [left; auto|exact Q].
    + apply IH; auto. intros m' Hm. apply KP. right. auto.
Qed.
Lemma changed_replace (f : graph P) W h extra d pre last extra' : changed f W h extra -> In d (g_body h) -> n_dst last = n_dst d -> NoDup (map n_dst pre) ->
  (forall m, In m pre -> ~ In (n_dst m) (map n_dst (g_body h))) -> (forall m, In m (pre ++ [last]) -> rle (weight W m) (W (n_dst m))) ->
  extra + total_load W (pre ++ [last]) <= extra' + load W d -> changed f W (replace h (n_dst d) (pre ++ [last])) extra'.
Proof.
  intros (N & K & T) I EL NP KP KN TE. split; [apply nodup_replace; auto|]. split.
  - intros n Hn. apply in_replace in Hn. destruct Hn as [[Hn _]|Hn]; auto.
  - assert (Q := total_replace W h d (pre ++ [last]) N I). lia.
Qed.
Lemma changed_last (f : graph P) W h extra s news : changed f W h extra -> In s (g_body h) -> verified (replace h (n_dst s) news) ->
  (forall m, In m news -> rle (weight W m) (W (n_dst m))) -> extra + total_load W news < load W s -> pending (replace h (n_dst s) news) < pending f.
Proof.
  intros (N & K & T) I VG KN TE. assert (Q := total_replace W h s news N I).
  assert (B : pending (replace h (n_dst s) news) <= total_load W (g_body (replace h (n_dst s) news))).
  { apply pending_below; auto. intros n Hn. apply in_replace in Hn. destruct Hn as [[Hn _]|Hn]; auto. }
  lia.
Qed.

Lemma bin_pending f s d b n x op a1 a2 g : verified f -> In s (g_body f) -> n_op s = OSlice b n -> n_args s = [x] -> def_of f x = Some d -> n_label s = true -> n_label d = true ->
  n_op d = OBin op -> n_args d = [a1; a2] -> raise_over_bin f s d b n = Rewritten g -> verified (P := P) g -> pending g < pending f.
Proof.
  intros VF IS OS AS DX LS LD OD EA E VG. destruct (sliced f s d b n x VF IS OS AS DX LS) as (ID & NX & RX & RS & LW). destruct (def_of_in f x d DX) as [_ ED].
  set (V := rank_of f) in *. assert (WD : weight V d = (1 + cost (V a1) + cost (V a2), 0)) by (unfold weight; rewrite OD, LD, EA; reflexivity). rewrite WD in *. cbn [fst] in RS, LW.
  assert (A1 : In a1 (names f)) by (apply (verified_args f d); auto; rewrite EA; left; auto). assert (A2 : In a2 (names f)) by (apply (verified_args f d); auto; rewrite EA; right; left; auto).
  assert (DS : n_dst s <> n_dst d) by (intros Q; apply (slice_not_op f s d x b n); auto).
  assert (NS : In (n_dst s) (names f)) by (apply names_node; auto). assert (NDd : In (n_dst d) (names f)) by (apply names_node; auto).
  assert (F01 : fresh f 0 <> fresh f 1) by (intros Q; apply fresh_inj in Q; discriminate).
  assert (RIGHT : forall (h : graph P) pre1 x1 extra (W : nat -> rank), (forall y, In y (names f) -> W y = V y) -> W (fresh f 1) = (if same_type (type_of f a2) (n_ty d) then (fst (V a2), 0) else (0, snd (V a2))) ->
      changed f W h extra -> (forall a, type_of h a = type_of f a) -> In s (g_body h) -> In d (g_body h) -> (forall y, In y (map n_dst (g_body h)) -> In y (names f)) ->
      (forall k bands, In k (g_body h) -> n_op k = OFake bands -> snd (W (nth 0 (n_args k) 0)) = snd (W (n_dst k))) ->
      (forall m, In m pre1 -> rle (weight W m) (W (n_dst m))) -> extra + total_load W pre1 <= cost (V a1) -> cost (W x1) <= cost (V a1) ->
      match operand h d a2 with
        | KSlice => Rewritten (replace h (n_dst s) ((pre1 ++ [slice_of s (fresh f 1) b n a2]) ++ [Node (n_dst s) (OBin op) [x1; fresh f 1] (n_ty s) (n_label d) (n_start d) (n_num d)]))
        | KFake k bands => Rewritten (replace (replace h (n_dst k) [more_bands k bands b (n_ty s)]) (n_dst s) (pre1 ++ [Node (n_dst s) (OBin op) [x1; a2] (n_ty s) (n_label d) (n_start d) (n_num d)]))
        | KNew => Rewritten (replace (replace h (n_dst d) [Node (fresh f 1) (OFake [(b, n_ty s)]) [a2] (type_of f a2) false false None; with_args d [a1; fresh f 1]]) (n_dst s)
                    (pre1 ++ [Node (n_dst s) (OBin op) [x1; fresh f 1] (n_ty s) (n_label d) (n_start d) (n_num d)]))
        end = Rewritten g -> pending g < pending f).
  { intros h pre1 x1 extra W KW W1 CH HT HS HD HN HF KP TP CX EG.
    assert (LWs : load W s = 1 + cost (V a1) + cost (V a2)) by (apply LW; auto).
    assert (F1 : ~ In (fresh f 1) (map n_dst (g_body h))) by (intros Q; apply (fresh_new f 1); auto).
    assert (LAST : forall x2, cost (W x2) <= cost (V a2) -> rle (weight W (Node (n_dst s) (OBin op) [x1; x2] (n_ty s) (n_label d) (n_start d) (n_num d))) (W (n_dst s))).
    { intros x2 C2. cbn [weight n_op n_label n_args map weigh nth]. rewrite (KW _ NS). rewrite LD. unfold V in RS. fold V in RS. rewrite RS. split; cbn [fst snd]; lia. }
    unfold operand in EG. rewrite HT in EG. destruct (same_type (type_of f a2) (n_ty d)) eqn:ST.
    - apply (f_equal (fun q => match q with Rewritten w => w | _ => f end)) in EG. rewrite <- EG in *. clear EG.
      assert (C2 : cost (W (fresh f 1)) <= cost (V a2)) by (rewrite W1; unfold cost; cbn [fst snd]; lia).
      apply (changed_last f W h extra s); auto.
      + intros m Hm. rewrite !in_app_iff in Hm. destruct Hm as [[Hm|[<-|[]]]|[<-|[]]]; [auto| |cbn [n_dst]; auto].
        cbn [weight slice_of n_op n_label n_args n_dst map weigh nth]. rewrite LS, W1, (KW _ A2). apply rle_refl.
      + rewrite !total_app. cbn [total_load fold_right load slice_of n_op n_label n_args nth]. rewrite LS, (KW _ A2), LWs. unfold cost in *. lia.
    - assert (KN : Rewritten (replace (replace h (n_dst d) [Node (fresh f 1) (OFake [(b, n_ty s)]) [a2] (type_of f a2) false false None; with_args d [a1; fresh f 1]]) (n_dst s)
                    (pre1 ++ [Node (n_dst s) (OBin op) [x1; fresh f 1] (n_ty s) (n_label d) (n_start d) (n_num d)])) = Rewritten g -> pending g < pending f).
      { intros E'. apply (f_equal (fun q => match q with Rewritten w => w | _ => f end)) in E'. rewrite <- E' in *. clear E' EG.
        set (fk := Node (fresh f 1) (OFake [(b, n_ty s)]) [a2] (type_of f a2) false false None) in *. set (d' := with_args d [a1; fresh f 1]) in *.
        assert (C2 : cost (W (fresh f 1)) <= cost (V a2)) by (rewrite W1; unfold cost; cbn [fst snd]; lia).
        apply (changed_last f W (replace h (n_dst d) [fk; d']) (extra + 2 * snd (V a2)) s); auto.
        - apply (changed_replace f W h extra d [fk] d'); auto.
          + cbn [map fk n_dst]. repeat constructor; auto.
          + intros m [<-|[]]. exact F1.
          + intros m [<-|[<-|[]]]; cbn [fk d' with_args weight n_op n_label n_args n_dst map weigh nth].
            * rewrite W1, (KW _ A2). apply rle_refl.
            * unfold d', weight. cbn [with_args n_op n_label n_args n_dst]. rewrite OD, LD. cbn [map weigh nth]. rewrite ED, (KW x NX). unfold V at 1 in RX. fold V in RX. rewrite RX. rewrite (KW _ A1). split; cbn [fst snd]; lia.
          + assert (LD' : load W d' = 0) by (unfold load, d'; cbn [with_args n_op]; rewrite OD; reflexivity). cbn [app total_load fold_right]. rewrite LD'. cbn [load fk n_op n_args nth length]. assert (LDd : load W d = 0) by (unfold load; rewrite OD; reflexivity). rewrite LDd, (KW _ A2). lia.
        - apply replace_in; auto.
        - intros m Hm. apply in_app_or in Hm. destruct Hm as [Hm|[<-|[]]]; [auto|cbn [n_dst]; auto].
        - rewrite total_app. cbn [total_load fold_right load n_op]. rewrite LWs. unfold cost in *. lia. }
      destruct (def_of h a2) as [k|] eqn:DK; [|auto]. destruct (n_op k) as [ | | | | |bands| | | | ] eqn:OK; auto. clear KN.
      apply (f_equal (fun q => match q with Rewritten w => w | _ => f end)) in EG. rewrite <- EG in *. clear EG. destruct (def_of_in h a2 k DK) as [IK EK].
      assert (SK : n_dst s <> n_dst k).
      { intros Q. destruct CH as (N & _). assert (X := find_unique n_dst (g_body h) k N IK). rewrite <- Q in X. rewrite (find_unique n_dst (g_body h) s N HS) in X. injection X as X. rewrite X, OK in OS. discriminate. }
      assert (PK := HF k bands IK OK). rewrite EK, (KW _ A2) in PK.
      set (k' := more_bands k bands b (n_ty s)) in *.
      apply (changed_last f W (replace h (n_dst k) [k']) (extra + snd (V a2)) s); auto.
      + apply (changed_replace f W h extra k [] k'); auto.
        * constructor.
        * destruct CH as (_ & CH & _). intros m [<-|[]]. specialize (CH k IK). unfold weight in CH |- *. rewrite OK in CH. exact CH.
        * cbn [app total_load fold_right load k' more_bands n_op n_args]. assert (LK : load W k = S (length bands) * snd (V a2)) by (unfold load; rewrite OK, PK; reflexivity). rewrite LK, PK, app_length. cbn [length]. lia.
      + apply replace_in; auto.
      + intros m Hm. apply in_app_or in Hm. destruct Hm as [Hm|[<-|[]]]; [auto|cbn [n_dst]; apply LAST]. rewrite (KW _ A2). lia.
      + rewrite total_app. cbn [total_load fold_right load n_op]. rewrite LWs. unfold cost in *. lia. }
  assert (NB : forall y, In y (map n_dst (g_body f)) -> In y (names f)) by (intros y Hy; unfold names; apply in_or_app; auto).
  set (W := with_fresh f (fst (V a1), 0) (if same_type (type_of f a2) (n_ty d) then (fst (V a2), 0) else (0, snd (V a2)))).
  assert (KW : forall y, In y (names f) -> W y = V y) by (intros; apply with_old; auto). assert (W0 : W (fresh f 0) = (fst (V a1), 0)) by apply with_0.
  assert (FK : forall k bands, In k (g_body f) -> n_op k = OFake bands -> snd (W (nth 0 (n_args k) 0)) = snd (W (n_dst k))).
  { intros k bands IK OK. assert (TK : types_check (n_op k) (map (type_of f) (n_args k)) (n_ty k)) by (apply VF; auto). rewrite OK in TK. destruct TK as (_ & _ & TK). apply map1 in TK. destruct TK as (y & AK & _).
    rewrite AK. cbn [nth]. rewrite (KW y) by (apply (verified_args f k); auto; rewrite AK; left; auto). rewrite (KW (n_dst k)) by (apply names_node; auto). unfold V. rewrite (rank_solves f k VF IK). unfold weight. rewrite OK, AK. reflexivity. }
  unfold raise_over_bin in E. rewrite OD, EA in E. unfold operand at 1 in E. destruct (same_type (type_of f a1) (n_ty d)) eqn:ST.
  - apply (RIGHT f [slice_of s (fresh f 0) b n a1] (fresh f 0) 0 W); auto.
    + apply with_1.
    + apply changed_start; auto.
    + intros m [<-|[]]. cbn [weight slice_of n_op n_label n_args n_dst map weigh nth]. rewrite LS, W0, (KW _ A1). apply rle_refl.
    + cbn [total_load fold_right load slice_of n_op n_label n_args nth]. rewrite LS, (KW _ A1). unfold cost. lia.
    + rewrite W0. unfold cost. cbn [fst snd]. lia.
  - destruct (def_of f a1) as [k|] eqn:DK; [|discriminate]. destruct (n_op k) as [ | | | | |bands| | | | ] eqn:OK; try discriminate.
    destruct (def_of_in f a1 k DK) as [IK EK]. set (k' := more_bands k bands b (n_ty s)) in *.
    assert (SK : n_dst s <> n_dst k).
    { intros Q. assert (X := verified_def f k VF IK). rewrite <- Q, (verified_def f s VF IS) in X. injection X as X. rewrite X, OK in OS. discriminate. }
    assert (DK' : n_dst d <> n_dst k).
    { intros Q. assert (X := verified_def f k VF IK). rewrite <- Q, (verified_def f d VF ID) in X. injection X as X. rewrite X, OK in OD. discriminate. }
    assert (PK := FK k bands IK OK). rewrite EK, (KW _ A1) in PK.
    apply (RIGHT (replace f (n_dst k) [k']) [] a1 (snd (V a1)) W); auto.
    + apply with_1.
    + apply (changed_replace f W f 0 k [] k'); auto.
      * apply changed_start; auto.
      * constructor.
      * assert (CS : changed f W f 0) by (apply changed_start; auto). destruct CS as (_ & CS & _). intros m [<-|[]]. specialize (CS k IK). unfold weight in CS |- *. rewrite OK in CS. exact CS.
      * cbn [app total_load fold_right load k' more_bands n_op n_args]. assert (LK : load W k = S (length bands) * snd (V a1)) by (unfold load; rewrite OK, PK; reflexivity). rewrite LK, PK, app_length. cbn [length]. lia.
    + intros a. apply (update_type f k k'); auto.
    + apply replace_in; auto.
    + apply replace_in; auto.
    + intros y Hy. apply in_map_iff in Hy. destruct Hy as (m & <- & Hm). apply in_replace in Hm. destruct Hm as [[Hm _]|[<-|[]]]; [apply names_node; auto|]. cbn [k' more_bands n_dst]. apply names_node; auto.
    + intros k0 bands0 I0 O0. apply in_replace in I0. destruct I0 as [[I0 _]|[<-|[]]]; [eapply FK; eauto|]. cbn [k' more_bands n_dst n_args]. rewrite PK, EK, (KW _ A1). reflexivity.
    + intros m [].
    + cbn [total_load fold_right]. unfold cost. lia.
    + rewrite (KW _ A1). auto.
Qed.

Lemma slice_pending (f g : graph P) s pick : verified f -> In s (g_body f) -> rewrite_slice f s pick = Rewritten g -> verified g -> pending g < pending f.
Proof.
  intros VF IS E VG.
  unfold rewrite_slice in E. destruct (n_op s) as [ | | |b n| | | | | | ] eqn:OS; try discriminate. destruct (n_args s) as [|x [|]] eqn:AS; try discriminate.
  destruct (def_of f x) as [d|] eqn:DX; [|discriminate]. destruct (def_of_in f x d DX) as [ID ED].
  assert (NE := slice_not_op f s d x b n VF IS OS AS DX).
  assert (IS1 : In s (g_body (mark_raised f d))) by (unfold mark_raised; apply replace_in; auto).
  assert (VM := mark_verified f d VF ID). assert (DM := mark_def f d x VF ID DX). destruct (mark_pending f d VF ID) as [PM RM].
  assert (IDM : In (mark d) (g_body (mark_raised f d))) by (apply (def_of_in _ _ _ DM)).
  assert (COMB : forall cands, is_raisable f s d = true -> 1 <= fst (weight (rank_of (mark_raised f d)) (mark d)) -> (forall cb cn, n_op d <> OSlice cb cn) -> containing f s b n x = cands ->
     match nth_error cands pick with Some c => Rewritten (combine_with (mark_raised f d) s b n c) | None => NoMatch end = Rewritten g -> pending g < pending f).
  { intros cands RS WD ND EC EE. destruct (nth_error cands pick) as [c|] eqn:NT; [|discriminate].
    apply (f_equal (fun q => match q with Rewritten w => w | _ => f end)) in EE. rewrite <- EE in *.
    assert (IC : In c (containing f s b n x)) by (rewrite EC; eapply nth_error_In; eauto).
    unfold is_raisable in RS. rewrite !andb_true_iff in RS. destruct RS as [[[[LS LD] LU] _] _].
    assert (LC : n_label c = true).
    { rewrite forallb_forall in LU. unfold containing in IC. apply filter_In in IC. destruct IC as [IC _]. rewrite <- ED in IC. specialize (LU c IC). unfold labelled_slice in LU. destruct (n_op c); try discriminate. exact LU. }
    eapply Nat.lt_le_trans; [|exact PM]. apply (combine_pending (mark_raised f d) s (mark d) c b n x); auto. apply mark_containing; auto. }
  destruct (n_op d) as [same fh fw sH sW G z0|top bottom lft rgt z0|op| | | | | | | ] eqn:OD; try discriminate.
  - destruct (is_raisable f s d) eqn:RS; [|discriminate]. assert (RS' := RS). unfold is_raisable in RS'. rewrite !andb_true_iff in RS'. destruct RS' as [[[[LS LD] _] _] _].
    destruct (containing f s b n x) as [|c0 cs] eqn:CT; [|apply (COMB (c0 :: cs)); auto; [unfold weight; cbn [mark n_op n_label n_args]; rewrite OD, LD; cbn [weigh fst]; lia|discriminate]].
    apply (f_equal (fun q => match q with Rewritten w => w | _ => f end)) in E. rewrite <- E in *. eapply Nat.lt_le_trans; [|exact PM].
    apply (conv_pending _ s (mark d) b n x); auto. cbn [mark n_op]. rewrite OD. repeat eexists.
  - destruct (n_label s && n_label d) eqn:LL; [|discriminate]. apply andb_true_iff in LL. destruct LL as [LS LD].
    apply (f_equal (fun q => match q with Rewritten w => w | _ => f end)) in E. rewrite <- E in *. apply (pad_pending f s d b n x); auto. rewrite OD. repeat eexists.
  - destruct (is_raisable f s d) eqn:RS; [|discriminate]. assert (RS' := RS). unfold is_raisable in RS'. rewrite !andb_true_iff in RS'. destruct RS' as [[[[LS LD] _] _] _].
    destruct (containing f s b n x) as [|c0 cs] eqn:CT; [|apply (COMB (c0 :: cs)); auto; [unfold weight; cbn [mark n_op n_label n_args]; rewrite OD, LD; cbn [weigh fst]; lia|discriminate]].
    assert (TD : types_check (n_op d) (map (type_of f) (n_args d)) (n_ty d)) by (apply VF; auto). rewrite OD in TD.
    destruct TD as (_ & _ & t1 & t2 & EA & _). apply map2 in EA. destruct EA as (a1 & a2 & EA & _ & _). eapply Nat.lt_le_trans; [|exact PM].
    apply (bin_pending (mark_raised f d) s (mark d) b n x op a1 a2); auto.
Qed.
Lemma dead_pending (f : graph P) d : verified f -> In d (g_body f) -> verified (replace f (n_dst d) []) ->
  pending (replace f (n_dst d) []) <= pending f /\ length (g_body (replace f (n_dst d) [])) < length (g_body f).
Proof.
  intros VF I VG. split.
  - assert (Q := replace_pending f _ d [] (rank_of f) VF VG I eq_refl (fun _ _ => eq_refl)). cbn [total_load fold_right] in Q. enough (X : forall m : node P, In m [] -> rle (weight (rank_of f) m) (rank_of f (n_dst m))) by (specialize (Q X); lia). intros m [].
  - assert (Q := length_replace f d [] (verified_nodup f VF) I). cbn [length] in Q. lia.
Qed.
Lemma raise_pending (z : P) f g : verified f -> raise_phase z f g -> verified g ->
  pending g < pending f \/ (pending g <= pending f /\ length (g_body g) < length (g_body f)).
Proof.
  intros VF ST VG. inversion ST as [f0 g0 s pick IS E|f0 g0 k IK E|f0 d ID U]; subst.
  - left. eapply slice_pending; eauto.
  - left. eapply fake_pending; eauto.
  - right. apply dead_pending; auto.
Qed.

(** ** the first phase *)
Definition starts (f : graph P) : nat := length (filter (fun d => n_start d && negb (n_label d) && is_split_op (n_op d)) (g_body f)).
Lemma split_starts (z : P) f g : verified f -> split_phase z f g -> starts g < starts f \/ (starts g <= starts f /\ length (g_body g) < length (g_body f)).
Proof.
  intros VF ST. inversion ST as [f0 g0 d I E|f0 d I U]; subst.
  - left. unfold split_node in E. destruct (n_start d && negb (n_label d) && is_split_op (n_op d)) eqn:C; [|discriminate]. destruct (n_num d) as [num|]; [|discriminate].
    destruct (op_split (g_h (n_ty d)) (Z.to_nat num)) as [bands|]; [|discriminate]. apply (f_equal (fun q => match q with Rewritten w => w | _ => f end)) in E. rewrite <- E. unfold starts.
    match goal with |- context [replace f (n_dst d) ?l] => destruct (nodup_body f d l (verified_nodup f VF) I) as (l1 & l2 & E1 & E2); set (news := l) in * end. rewrite E2, E1, !filter_app, !app_length. cbn [filter]. rewrite C. cbn [length].
    assert (Z0 : filter (fun d => n_start d && negb (n_label d) && is_split_op (n_op d)) news = []); [|rewrite Z0; cbn [length]; lia].
    assert (K : forall m, In m news -> n_start m && negb (n_label m) && is_split_op (n_op m) = false).
    { intros m [<-|Hm]; [cbn [n_start n_label]; rewrite andb_false_r; reflexivity|]. apply in_app_or in Hm. destruct Hm as [Hm|[<-|[]]]; [|reflexivity].
      unfold slice_nodes in Hm. apply in_map_iff in Hm. destruct Hm as (p & <- & _). reflexivity. }
    clear - K. induction news as [|m l IH]; [reflexivity|]. cbn [filter]. rewrite K by (left; auto). apply IH. intros q Hq. apply K. right. auto.
  - right. destruct (nodup_body f d [] (verified_nodup f VF) I) as (l1 & l2 & E1 & E2). cbn [app] in E2. unfold starts. rewrite E2, E1, !filter_app, !app_length. cbn [filter length].
    destruct (n_start d && negb (n_label d) && is_split_op (n_op d)); cbn [length]; lia.
Qed.

(** Lexicographic order. *)
Lemma lex_acc {A} (m1 m2 : A -> nat) (R : A -> A -> Prop) (inv : A -> Prop) :
  (forall a b, inv a -> R a b -> inv b /\ (m1 b < m1 a \/ (m1 b <= m1 a /\ m2 b < m2 a))) -> forall a, inv a -> Acc (fun b a => inv a /\ R a b) a.
Proof.
  intros K. assert (H : forall n1 n2 a, inv a -> m1 a <= n1 -> m2 a <= n2 -> Acc (fun b a => inv a /\ R a b) a).
  { induction n1 as [n1 IH1] using lt_wf_ind. induction n2 as [n2 IH2] using lt_wf_ind. intros a IA L1 L2. constructor. intros b [_ RB].
    destruct (K a b IA RB) as [IB [L|[L L']]].
    - apply (IH1 (m1 b) ltac:(lia) (m2 b)); auto.
    - apply (IH2 (m2 b) ltac:(lia)); auto. lia. }
  intros a IA. apply (H (m1 a) (m2 a)); auto.
Qed.
End Term.
