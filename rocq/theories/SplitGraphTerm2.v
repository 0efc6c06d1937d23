(** Every rewrite of the second phase of operation splitting brings its end nearer (C96). *)
From Coq Require Import Relations Permutation.
From Verif Require Import Base NdSpec ConvSpec OpSplitModel OpSplitSpec SplitGraphModel SplitGraphSpec SplitGraphProofs SplitGraphProofs2 SplitGraphProofs3 SplitGraphProofs4 SplitGraphProofs5 SplitGraphProofs6 SplitGraphAccept SplitGraphAccept2 SplitGraphAccept3 SplitGraphTerm.
Local Open Scope nat_scope.

Section Term.
Context {P : Type}.

Definition with_fresh (f : graph P) (r0 r1 : rank) : nat -> rank := put (put (rank_of f) (fresh f 0) r0) (fresh f 1) r1.
Lemma with_old f r0 r1 x : In x (names f) -> with_fresh f r0 r1 x = rank_of f x.
Proof. intros I. unfold with_fresh. rewrite !put_other; auto; intros ->; eapply fresh_new; eauto. Qed.
Lemma with_0 f r0 r1 : with_fresh f r0 r1 (fresh f 0) = r0.
Proof. unfold with_fresh. rewrite put_other, put_same; auto. intros E. apply fresh_inj in E. discriminate. Qed.
Lemma with_1 f r0 r1 : with_fresh f r0 r1 (fresh f 1) = r1.
Proof. apply put_same. Qed.

Lemma sliced (f : graph P) s d b n x : verified f -> In s (g_body f) -> n_op s = OSlice b n -> n_args s = [x] -> def_of f x = Some d -> n_label s = true ->
  In d (g_body f) /\ In x (names f) /\ rank_of f x = weight (rank_of f) d /\ rank_of f (n_dst s) = (fst (weight (rank_of f) d), 0) /\
  forall W, W x = rank_of f x -> load W s = fst (weight (rank_of f) d).
Proof.
  intros VF IS OS AS DX LS. destruct (def_of_in f x d DX) as [ID ED]. assert (RX : rank_of f x = weight (rank_of f) d) by (rewrite <- ED; apply rank_solves; auto).
  split; [auto|]. split; [rewrite <- ED; apply names_node; auto|]. split; [exact RX|]. split.
  - rewrite (rank_solves f s VF IS). unfold weight at 1. rewrite OS, LS, AS. cbn [map weigh nth]. rewrite RX. reflexivity.
  - intros W EW. unfold load. rewrite OS, LS, AS. cbn [nth]. rewrite EW, RX. reflexivity.
Qed.

Lemma conv_pending (f : graph P) s d b n x : verified f -> In s (g_body f) -> n_op s = OSlice b n -> n_args s = [x] -> def_of f x = Some d -> n_label s = true -> n_label d = true ->
  (exists same fh fw sH sW G z, n_op d = OConv same fh fw sH sW G z) -> verified (raise_over_conv f s d b n) -> pending (raise_over_conv f s d b n) < pending f.
Proof.
  intros VF IS OS AS DX LS LD (same & fh & fw & sH & sW & G & z & OD) VG. destruct (sliced f s d b n x VF IS OS AS DX LS) as (ID & NX & RX & RS & LW).
  assert (TD : types_check (n_op d) (map (type_of f) (n_args d)) (n_ty d)) by (apply VF; auto). rewrite OD in TD. destruct TD as (_ & _ & t & EA & _). apply map1 in EA. destruct EA as (a & EA & _).
  unfold raise_over_conv in *. rewrite OD, EA in *.
  assert (NA : In a (names f)) by (apply (verified_args f d); auto; rewrite EA; left; auto).
  assert (WD : weight (rank_of f) d = (1 + fst (rank_of f a), 0)) by (unfold weight; rewrite OD, LD, EA; reflexivity). rewrite WD in *. cbn [fst] in RS, LW.
  set (W := with_fresh f (fst (rank_of f a), 0) (0, 0)). assert (KW : forall y, In y (names f) -> W y = rank_of f y) by (intros; apply with_old; auto).
  assert (NS : In (n_dst s) (names f)) by (apply names_node; auto).
  assert (LS' : load W s = 1 + fst (rank_of f a)) by (apply LW; auto).
  destruct (r_pad _) as [[[[pt pb] pl] pr]|] in *.
  - match type of VG with verified (replace f (n_dst s) ?l) => assert (Q := replace_pending f _ s l W VF VG IS eq_refl KW); set (news := l) in * end.
    assert (T : total_load W news = fst (rank_of f a)) by (unfold news; cbn [total_load fold_right load n_op n_label n_args nth]; rewrite (KW a NA); lia).
    rewrite T, LS' in Q. assert (K : forall m, In m news -> rle (weight W m) (W (n_dst m))); [|specialize (Q K); lia]. clear Q T VG.
    intros m [<-|[<-|[<-|[]]]]; cbn [weight n_op n_label n_args n_dst map weigh nth].
    + rewrite (KW a NA). unfold W. rewrite with_0. apply rle_refl.
    + unfold W. rewrite with_1. apply rle_refl.
    + rewrite (KW _ NS), RS. unfold W. rewrite with_1. unfold rle. cbn [fst snd]. destruct (n_label d); lia.
  - match type of VG with verified (replace f (n_dst s) ?l) => assert (Q := replace_pending f _ s l W VF VG IS eq_refl KW); set (news := l) in * end.
    assert (T : total_load W news = fst (rank_of f a)) by (unfold news; cbn [total_load fold_right load n_op n_label n_args nth]; rewrite (KW a NA); lia).
    rewrite T, LS' in Q. assert (K : forall m, In m news -> rle (weight W m) (W (n_dst m))); [|specialize (Q K); lia]. clear Q T VG.
    intros m [<-|[<-|[]]]; cbn [weight n_op n_label n_args n_dst map weigh nth].
    + rewrite (KW a NA). unfold W. rewrite with_0. apply rle_refl.
    + rewrite (KW _ NS), RS. unfold W. rewrite with_0. unfold rle. cbn [fst snd]. destruct (n_label d); lia.
Qed.
Lemma pad_pending (f : graph P) s d b n x : verified f -> In s (g_body f) -> n_op s = OSlice b n -> n_args s = [x] -> def_of f x = Some d -> n_label s = true -> n_label d = true ->
  (exists top bottom lft rgt z, n_op d = OPad top bottom lft rgt z) -> verified (raise_over_pad f s d b n) -> pending (raise_over_pad f s d b n) < pending f.
Proof.
  intros VF IS OS AS DX LS LD (top & bottom & lft & rgt & z & OD) VG. destruct (sliced f s d b n x VF IS OS AS DX LS) as (ID & NX & RX & RS & LW).
  assert (TD : types_check (n_op d) (map (type_of f) (n_args d)) (n_ty d)) by (apply VF; auto). rewrite OD in TD. destruct TD as (_ & _ & t & EA & _). apply map1 in EA. destruct EA as (a & EA & _).
  unfold raise_over_pad in *. rewrite OD, EA in *.
  assert (NA : In a (names f)) by (apply (verified_args f d); auto; rewrite EA; left; auto).
  assert (WD : weight (rank_of f) d = (1 + fst (rank_of f a), 0)) by (unfold weight; rewrite OD, LD, EA; reflexivity). rewrite WD in *. cbn [fst] in RS, LW.
  set (W := with_fresh f (fst (rank_of f a), 0) (0, 0)). assert (KW : forall y, In y (names f) -> W y = rank_of f y) by (intros; apply with_old; auto).
  assert (NS : In (n_dst s) (names f)) by (apply names_node; auto).
  assert (LS' : load W s = 1 + fst (rank_of f a)) by (apply LW; auto).
  match type of VG with verified (replace f (n_dst s) ?l) => assert (Q := replace_pending f _ s l W VF VG IS eq_refl KW); set (news := l) in * end.
  assert (T : total_load W news = fst (rank_of f a)) by (unfold news; cbn [total_load fold_right load n_op n_label n_args nth]; rewrite (KW a NA); lia).
  rewrite T, LS' in Q. assert (K : forall m, In m news -> rle (weight W m) (W (n_dst m))); [|specialize (Q K); lia]. clear Q T VG.
  intros m [<-|[<-|[]]]; cbn [weight n_op n_label n_args n_dst map weigh nth].
  + rewrite (KW a NA). unfold W. rewrite with_0. apply rle_refl.
  + rewrite (KW _ NS), RS. unfold rle. cbn [fst snd]. lia.
Qed.

(** ** values renamed *)
Lemma forward_pending (f : graph P) s y : verified f -> In s (g_body f) -> In y (names f) -> verified (forward f (n_dst s) y) -> rle (rank_of f y) (rank_of f (n_dst s)) ->
  pending (forward f (n_dst s) y) + load (rank_of f) s <= pending f.
Proof.
  intros VF IS NY VG RY. set (V := rank_of f). set (ren := fun n : node P => Node (n_dst n) (n_op n) (map (rename_to (n_dst s) y) (n_args n)) (n_ty n) (n_label n) (n_start n) (n_num n)).
  destruct (nodup_body f s [] (verified_nodup f VF) IS) as (l1 & l2 & E1 & E2). cbn [app] in E2.
  assert (BG : g_body (forward f (n_dst s) y) = map ren (l1 ++ l2)) by (unfold forward; cbn [g_body]; rewrite E2; reflexivity).
  assert (RN : forall a, rle (V (rename_to (n_dst s) y a)) (V a)) by (intros a; unfold rename_to; destruct (Nat.eqb_spec a (n_dst s)) as [->|]; [exact RY|apply rle_refl]).
  assert (B : pending (forward f (n_dst s) y) <= total_load V (map ren (l1 ++ l2))).
  { rewrite <- BG. apply pending_below; auto. intros m Hm. rewrite BG in Hm. apply in_map_iff in Hm. destruct Hm as (m0 & <- & Hm). cbn [ren n_dst].
    assert (I0 : In m0 (g_body f)) by (rewrite E1; rewrite in_app_iff in *; cbn [In]; tauto). unfold V at 2. rewrite (rank_solves f m0 VF I0). fold V. unfold weight. cbn [ren n_op n_label n_args]. apply weigh_mono. rewrite map_map.
    induction (n_args m0) as [|a l IH]; cbn [map]; constructor; auto. }
  assert (C : total_load V (map ren (l1 ++ l2)) <= total_load V (l1 ++ l2)).
  { assert (IL : incl (l1 ++ l2) (g_body f)) by (intros m Hm; rewrite E1; rewrite in_app_iff in *; cbn [In]; tauto). revert IL. generalize (l1 ++ l2). clear - VF RN.
    induction l as [|m l IH]; intros IL; cbn [map total_load fold_right]; [lia|]. unfold total_load in IH. specialize (IH (fun q Hq => IL q (or_intror Hq))).
    assert (Q : load V (ren m) <= load V m); [|lia]. assert (I : In m (g_body f)) by (apply IL; left; auto).
    destruct (n_args m) as [|a as_] eqn:E.
    - rewrite (slice_args f m VF I E). unfold load. cbn [ren n_op n_args n_label]. rewrite E. assert (T : types_check (n_op m) (map (type_of f) (n_args m)) (n_ty m)) by (apply VF; auto). rewrite E in T.
      destruct (n_op m); auto; destruct T as (_ & _ & T); [destruct T as (? & Q & _); discriminate|discriminate].
    - unfold load. cbn [ren n_op n_args n_label]. rewrite E. cbn [map nth]. destruct (RN a). destruct (n_op m); try lia; [destruct (n_label m); lia|nia]. }
  unfold pending at 2. fold V. rewrite E1, (total_app V l1 (s :: l2)). rewrite (total_app V l1 l2) in C. change (total_load V (s :: l2)) with (load V s + total_load V l2). lia.
Qed.

Lemma combine_pending (f : graph P) s d c b n x : verified f -> In s (g_body f) -> n_op s = OSlice b n -> n_args s = [x] -> def_of f x = Some d -> n_label s = true ->
  1 <= fst (weight (rank_of f) d) -> In c (containing f s b n x) -> n_label c = true -> verified (combine_with f s b n c) -> pending (combine_with f s b n c) < pending f.
Proof.
  intros VF IS OS AS DX LS WD IC LC VG. destruct (sliced f s d b n x VF IS OS AS DX LS) as (ID & NX & RX & RS & LW).
  unfold containing, users in IC. apply filter_In in IC. destruct IC as [IC KC]. apply filter_In in IC. destruct IC as [IC UX].
  unfold combine_with in *. destruct (n_op c) as [ | | |cb cn| | | | | | ] eqn:OC; try discriminate.
  assert (TC : types_check (n_op c) (map (type_of f) (n_args c)) (n_ty c)) by (apply VF; auto). rewrite OC in TC. destruct TC as (_ & _ & a0 & E & _). apply map1 in E. destruct E as (x' & AC & _).
  assert (x' = x). { rewrite AC in UX. cbn [existsb] in UX. rewrite orb_false_r in UX. apply Nat.eqb_eq in UX. congruence. } subst x'.
  assert (RC : rank_of f (n_dst c) = rank_of f (n_dst s)).
  { rewrite RS, (rank_solves f c VF IC). unfold weight at 1. rewrite OC, LC, AC. cbn [map weigh nth]. rewrite RX. reflexivity. }
  assert (L := LW (rank_of f) eq_refl).
  destruct ((b =? cb)%Z && (n =? cn)%Z).
  - assert (Q := forward_pending f s (n_dst c) VF IS (names_node f c IC) VG). rewrite RC in Q. specialize (Q (rle_refl _)). lia.
  - match type of VG with verified (replace f (n_dst s) ?l) => assert (Q := replace_pending f _ s l (rank_of f) VF VG IS eq_refl (fun y _ => eq_refl)) end.
    cbn [total_load fold_right load n_op n_label] in Q. assert (K : forall m : node P, In m [Node (n_dst s) (OSlice (b - cb)%Z n) [n_dst c] (n_ty s) false false None] -> rle (weight (rank_of f) m) (rank_of f (n_dst m))).
    { intros m [<-|[]]. cbn [weight n_op n_label weigh n_dst]. unfold rle. cbn [fst snd]. lia. }
    specialize (Q K). lia.
Qed.

(** ** fake slices *)
Lemma mean_total (W : nat -> rank) (f : graph P) (d : node P) a m bands : total_load W (mean_nodes f d a m bands) = length bands * fst (W a).
Proof.
  unfold mean_nodes. assert (K : forall bb j, total_load W (flat_map (fun p => [Node (fresh f (2 * fst p)) (OSlice (fst (snd p)) (g_h (snd (snd p)))) [a] (snd (snd p)) true false None;
                      Node (fresh f (2 * fst p + 1)) (OMean m) [fresh f (2 * fst p)] (n_ty d) (n_label d) (n_start d) (n_num d)]) (combine (seq j (length bb)) bb)) = length bb * fst (W a)).
  { induction bb as [|p bb IH]; intros j; [reflexivity|]. cbn [length seq combine flat_map]. rewrite total_app, IH. cbn [total_load fold_right load n_op n_label n_args nth app]. lia. }
  apply K.
Qed.
Lemma fake_pending (z : P) f k g : verified f -> In k (g_body f) -> rewrite_fake z f k = Rewritten g -> verified g -> pending g < pending f.
Proof.
  intros VF IK E VG. unfold rewrite_fake in E. destruct (n_op k) as [ | | | | |bands| | | | ] eqn:OK; try discriminate.
  destruct (n_args k) as [|a [|]] eqn:AK; try discriminate. destruct (def_of f a) as [d|] eqn:DA; [|discriminate].
  destruct (def_of_in f a d DA) as [ID ED]. assert (RA : rank_of f a = weight (rank_of f) d) by (rewrite <- ED; apply rank_solves; auto).
  assert (NAa : In a (names f)) by (rewrite <- ED; apply names_node; auto).
  assert (RK : rank_of f (n_dst k) = (0, snd (weight (rank_of f) d))) by (rewrite (rank_solves f k VF IK); unfold weight at 1; rewrite OK, AK; cbn [map weigh nth]; rewrite RA; reflexivity).
  assert (LK : forall W, W a = rank_of f a -> load W k = S (length bands) * snd (weight (rank_of f) d)) by (intros W EW; unfold load; rewrite OK, AK; cbn [nth]; rewrite EW, RA; reflexivity).
  assert (NK : In (n_dst k) (names f)) by (apply names_node; auto).
  destruct (n_op d) as [ | | | | | |m|u|img| ] eqn:OD; try discriminate.
  - (* mean *)
    destruct (n_args d) as [|a' [|]] eqn:AD; try discriminate. unfold raise_to_means in E. destruct bands as [|p0 tl] eqn:EBN; [discriminate|]. rewrite <- EBN in *. destruct p0 as [b0 t0].
    destruct (n_label d && forallb (fun p => type_eqb (snd p) t0) tl); [|discriminate]. clear EBN.
    assert (WD : weight (rank_of f) d = (0, 1 + fst (rank_of f a'))) by (unfold weight; rewrite OD, AD; reflexivity). rewrite WD in *. cbn [fst snd] in RK, LK.
    assert (NA : In a' (names f)) by (eapply verified_args; eauto; rewrite AD; left; auto).
    apply (f_equal (fun q => match q with Rewritten w => w | _ => f end)) in E.
    set (news := mean_nodes f d a' m bands ++ [Node (fresh f (2 * length bands)) (OConcat z) (map (fun i => fresh f (2 * i + 1)) (seq 0 (length bands))) (GTy (Z.of_nat (length bands)) 1 (g_c (n_ty d))) false false None;
      Node (n_dst k) (OMean m) [fresh f (2 * length bands)] (n_ty d) (n_label d) (n_start d) (n_num d)]) in *.
    (* slices at the even new names, means at the odd ones, the concatenation at the last *)
    set (W := fun y => if existsb (Nat.eqb y) (names f) then rank_of f y else if Nat.eqb y (fresh f (2 * length bands)) then (0, 0) else
      (fst (rank_of f a'), 1 + fst (rank_of f a'))).
    assert (KW : forall y, In y (names f) -> W y = rank_of f y).
    { intros y Hy. unfold W. assert (X : existsb (Nat.eqb y) (names f) = true) by (apply existsb_exists; exists y; rewrite Nat.eqb_refl; auto). rewrite X. reflexivity. }
    assert (NW : forall j, W (fresh f j) = if Nat.eqb (fresh f j) (fresh f (2 * length bands)) then (0, 0) else (fst (rank_of f a'), 1 + fst (rank_of f a'))).
    { intros j. unfold W. destruct (existsb (Nat.eqb (fresh f j)) (names f)) eqn:X; [|reflexivity]. apply existsb_exists in X. destruct X as (y & I & Q). apply Nat.eqb_eq in Q. subst y. exfalso. eapply fresh_new; eauto. }
    assert (NW' : forall j, j < 2 * length bands -> W (fresh f j) = (fst (rank_of f a'), 1 + fst (rank_of f a'))).
    { intros j Hj. rewrite NW. destruct (Nat.eqb_spec (fresh f j) (fresh f (2 * length bands))) as [Q|]; [apply fresh_inj in Q; lia|reflexivity]. }
    assert (Q := replace_pending f g k news W VF VG IK (eq_sym E) KW). rewrite (LK W) in Q by (apply KW; auto).
    assert (T : total_load W news = length bands * fst (rank_of f a')).
    { unfold news. rewrite total_app. cbn [total_load fold_right load n_op]. rewrite Nat.add_0_r. rewrite mean_total, (KW a' NA). reflexivity. }
    rewrite T in Q. assert (K : forall nd, In nd news -> rle (weight W nd) (W (n_dst nd))); [|specialize (Q K); nia]. clear Q T VG E.
    intros nd Hnd. unfold news in Hnd. apply in_app_or in Hnd. destruct Hnd as [Hnd|[<-|[<-|[]]]].
    + unfold mean_nodes in Hnd. apply in_flat_map in Hnd. destruct Hnd as ([i p] & I & Hnd). apply in_combine_l in I. apply in_seq in I. cbn [fst snd] in Hnd.
      destruct Hnd as [<-|[<-|[]]]; cbn [weight n_op n_label n_args n_dst map weigh nth].
      * rewrite NW' by lia. rewrite (KW a' NA). unfold rle. cbn [fst snd]. lia.
      * rewrite !NW' by lia. unfold rle. cbn [fst snd]. lia.
    + cbn [weight n_op weigh]. unfold rle. cbn [fst snd]. lia.
    + cbn [weight n_op n_label n_args n_dst map weigh nth]. rewrite (KW _ NK), RK, NW, Nat.eqb_refl. unfold rle. cbn [fst snd]. lia.
  - (* FullyConnected, Logistic *)
    destruct (n_args d) as [|a' [|]] eqn:AD; try discriminate. destruct (n_num d) as [num|]; [|discriminate].
    destruct ((Z.of_nat (length bands) =? num)%Z && n_label d); [|discriminate]. apply (f_equal (fun q => match q with Rewritten w => w | _ => f end)) in E.
    assert (WD : weight (rank_of f) d = (0, 1 + snd (rank_of f a'))) by (unfold weight; rewrite OD, AD; reflexivity). rewrite WD in *. cbn [fst snd] in RK, LK.
    assert (NA : In a' (names f)) by (eapply verified_args; eauto; rewrite AD; left; auto).
    set (W := with_fresh f (0, snd (rank_of f a')) (0, 0)). assert (KW : forall y, In y (names f) -> W y = rank_of f y) by (intros; apply with_old; auto).
    match type of E with replace f _ ?l = _ => assert (Q := replace_pending f g k l W VF VG IK (eq_sym E) KW); set (news := l) in * end.
    rewrite (LK W) in Q by (apply KW; auto).
    assert (T : total_load W news = S (length bands) * snd (rank_of f a')) by (unfold news; cbn [total_load fold_right load n_op n_label n_args nth]; rewrite (KW a' NA); lia).
    rewrite T in Q. assert (K : forall nd, In nd news -> rle (weight W nd) (W (n_dst nd))); [|specialize (Q K); nia]. clear Q T VG E.
    intros nd [<-|[<-|[]]]; cbn [weight n_op n_label n_args n_dst map weigh nth].
    + rewrite (KW a' NA). unfold W. rewrite with_0. apply rle_refl.
    + rewrite (KW _ NK), RK. unfold W. rewrite with_0. apply rle_refl.
  - (* constant *)
    assert (E' : Rewritten (forward f (n_dst k) a) = Rewritten g) by (destruct (n_args d) as [|? [|]]; exact E).
    apply (f_equal (fun q => match q with Rewritten w => w | _ => f end)) in E'. rewrite <- E' in *. clear E E'.
    assert (WD : weight (rank_of f) d = (0, 1)) by (unfold weight; rewrite OD; reflexivity). rewrite WD in *. cbn [fst snd] in RK, LK.
    assert (Q := forward_pending f k a VF IK NAa VG). rewrite RK, RA in Q. specialize (Q (rle_refl _)). rewrite (LK (rank_of f) eq_refl) in Q. lia.
Qed.
End Term.
