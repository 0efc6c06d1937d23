(** The verifier accepts the result of each step under the conditions of [sound_step] (C95). *)
From Coq Require Import Relations Permutation.
From Verif Require Import Base NdSpec ConvSpec LowerSpec OpSplitModel OpSplitSpec OpSplitProofs OpSplitProps SplitNetModel SplitNetSpec SplitNetProps SplitGraphModel SplitGraphSpec SplitGraphProofs SplitGraphProofs2 SplitGraphProofs3 SplitGraphProofs4 SplitGraphProofs5 SplitGraphProofs6 SplitGraphAccept SplitGraphAccept2 SplitGraphAccept3.
Local Open Scope Z_scope.

Section Accept.
Context {P : Type}.

Lemma in_slice_nodes (f : graph P) src t k bands m : In m (slice_nodes f src t k bands) ->
  exists i p, In p bands /\ m = Node (fresh f (k + i)) (OSlice (fst p) (snd p)) [src] (GTy (snd p) (g_w t) (g_c t)) true false None.
Proof.
  unfold slice_nodes. intros I. apply in_map_iff in I. destruct I as ([i p] & <- & I). exists i, p. split; [|reflexivity]. apply in_combine_r in I. exact I.
Qed.
Lemma slice_nodes_heights (f : graph P) src t k bands : map (fun m => g_h (n_ty m)) (slice_nodes f src t k bands) = map snd bands.
Proof.
  unfold slice_nodes. rewrite map_map. cbn [n_ty g_h]. assert (K : forall j, map (fun p => snd (snd p)) (combine (seq j (length bands)) bands) = map snd bands).
  { induction bands as [|b bands IH]; intros j; [reflexivity|]. cbn [length seq combine map snd]. rewrite IH. reflexivity. }
  apply K.
Qed.
Lemma band_sum bands : fold_right Z.add 0 (map snd (map zpair bands)) = Z.of_nat (sum_n (map snd bands)).
Proof. induction bands as [|[b n] bands IH]; [reflexivity|]. unfold sum_n in *. cbn [map fold_right zpair snd] in *. rewrite IH. cbn [snd fst]. lia. Qed.

Lemma split_accept (z : P) f d g num : verified f -> In d (g_body f) -> n_num d = Some num -> 1 <= num <= g_h (n_ty d) -> split_node z f d = Rewritten g -> verified g.
Proof.
  intros VF ID NUM HN E. unfold split_node in E. destruct (n_start d && negb (n_label d) && is_split_op (n_op d)); [|discriminate].
  rewrite NUM in E. destruct (op_split (g_h (n_ty d)) (Z.to_nat num)) as [bands|] eqn:OSP; [|discriminate].
  apply (f_equal (fun q => match q with Rewritten w => w | _ => f end)) in E. rewrite <- E. clear E.
  set (cl := Node (fresh f 0) (n_op d) (n_args d) (n_ty d) true (n_start d) (Some num)). set (sls := slice_nodes f (fresh f 0) (n_ty d) 1 bands).
  set (cc := Node (n_dst d) (OConcat z) (map n_dst sls) (n_ty d) false false None).
  change (cl :: sls ++ [cc]) with ((cl :: sls) ++ [cc]).
  assert (TD : types_check (n_op d) (map (type_of f) (n_args d)) (n_ty d)) by (apply VF; auto).
  assert (PD : 1 <= g_h (n_ty d) /\ 1 <= g_w (n_ty d)) by (destruct TD as (? & ? & _); auto).
  set (H := Z.to_nat (g_h (n_ty d))). assert (EH : g_h (n_ty d) = Z.of_nat H) by (unfold H; lia).
  destruct (op_split_ok H (Z.to_nat num)) as (bs & E & L & C & F); [lia|]. rewrite EH, E in OSP. injection OSP as OSP.
  assert (ROWS : (1 <= H / Z.to_nat num)%nat) by (apply Nat.div_le_lower_bound; lia).
  assert (BD : forall p, In p bands -> 0 <= fst p /\ 1 <= snd p /\ fst p + snd p <= g_h (n_ty d)).
  { intros p Hp. rewrite <- OSP in Hp. apply in_map_iff in Hp. destruct Hp as (q & <- & Hq). rewrite Forall_forall in F. assert (F' := F q Hq). cbn beta in F'.
    destruct (consecutive_le bs 0 H C) as [_ Q]. rewrite Forall_forall in Q. specialize (Q q Hq). cbn [zpair fst snd]. lia. }
  assert (BN : bands <> []) by (rewrite <- OSP; destruct bs; [cbn [length] in L; lia|discriminate]).
  destruct (position f d ID) as (l1 & l2 & EB). destruct (pos_order f d l1 l2 VF EB) as (_ & SA & _).
  assert (FS : forall j, ~ In (fresh f j) (scope_of f l1)) by (intros j Q; apply (fresh_new f j); apply (scope_names f d l1 l2); auto).
  apply (replace_ok f d (cl :: sls) cc l1 l2 VF EB); [reflexivity|reflexivity| | | |].
  - cbn [in_order cl n_args n_dst]. split; [exact SA|]. split; [apply FS|].
    unfold sls, slice_nodes. destruct (slice_nodes_order f (fresh f 0) (n_ty d) bands 1 (fresh f 0 :: scope_of f l1)) as [W|W]; [left; auto| |exact W|discriminate].
    intros j Hj [Q|Q]; [apply fresh_inj in Q; lia|apply (FS j Q)].
  - intros m [<-|Hm]; [apply fresh_new|]. apply in_slice_nodes in Hm. destruct Hm as (i & p & _ & ->). apply fresh_new.
  - cbn [cc n_args]. intros y Hy. apply in_or_app. left. rewrite <- in_rev. right. exact Hy.
  - intros ty T1 T2 m Hm. change ((cl :: sls) ++ [cc]) with (cl :: (sls ++ [cc])) in Hm. destruct Hm as [<-|Hm]; [|apply in_app_or in Hm; destruct Hm as [Hm|[<-|[]]]].
    + cbn [cl n_op n_args n_ty]. replace (map ty (n_args d)) with (map (type_of f) (n_args d)); [exact TD|]. apply map_ext_in. intros a Ha. symmetry. apply T1. eapply verified_args; eauto.
    + apply in_slice_nodes in Hm. destruct Hm as (i & p & Hp & ->). cbn [n_op n_args n_ty map]. assert (Q := T2 cl (or_introl eq_refl)). cbn [cl n_dst n_ty] in Q. rewrite Q.
      destruct (BD p Hp) as (P1 & P2 & P3). split; [cbn [g_h]; lia|]. split; [cbn [g_w]; lia|]. exists (n_ty d). repeat split; auto.
    + cbn [cc n_op n_args n_ty]. split; [lia|]. split; [lia|].
      assert (TY : map ty (map n_dst sls) = map n_ty sls) by (rewrite map_map; apply map_ext_in; intros m Hm; apply T2; right; auto). rewrite TY. split; [|split].
      * unfold sls, slice_nodes. destruct bands as [|p bands]; [congruence|]. discriminate.
      * apply Forall_map. apply Forall_forall. intros m Hm. apply in_slice_nodes in Hm. destruct Hm as (i & p & _ & ->). cbn [n_ty g_w g_c]. auto.
      * rewrite map_map. unfold sls. rewrite slice_nodes_heights, <- OSP, band_sum. assert (Q := consecutive_sum bs 0 H C). lia.
Qed.

Lemma follow_in bs : forall pos stop b t, follow pos bs stop -> In (b, t) bs -> pos <= b /\ 1 <= g_h t /\ b + g_h t <= stop.
Proof.
  assert (LE : forall bs pos stop, follow pos bs stop -> pos <= stop).
  { clear. induction bs as [|[b t] bs IH]; intros pos stop F; cbn [follow] in F; [lia|]. destruct F as (_ & H & F). apply IH in F. lia. }
  induction bs as [|[b0 t0] bs IH]; intros pos stop b t F I; [destruct I|]. cbn [follow] in F. destruct F as (-> & H & F). destruct I as [E|I].
  - injection E as -> ->. apply LE in F. lia.
  - destruct (IH _ _ _ _ F I). lia.
Qed.
Lemma in_mean_nodes (f : graph P) (d : node P) a m bands nd : In nd (mean_nodes f d a m bands) -> exists i p, In (i, p) (combine (seq 0 (length bands)) bands) /\
  (nd = Node (fresh f (2 * i)) (OSlice (fst p) (g_h (snd p))) [a] (snd p) true false None \/
   nd = Node (fresh f (2 * i + 1)) (OMean m) [fresh f (2 * i)] (n_ty d) (n_label d) (n_start d) (n_num d)).
Proof.
  unfold mean_nodes. intros I. apply in_flat_map in I. destruct I as ([i p] & I & [<-|[<-|[]]]); exists i, p; auto.
Qed.
Lemma mean_nodes_in (f : graph P) (d : node P) a m bands i p : In (i, p) (combine (seq 0 (length bands)) bands) ->
  In (Node (fresh f (2 * i)) (OSlice (fst p) (g_h (snd p))) [a] (snd p) true false None) (mean_nodes f d a m bands) /\
  In (Node (fresh f (2 * i + 1)) (OMean m) [fresh f (2 * i)] (n_ty d) (n_label d) (n_start d) (n_num d)) (mean_nodes f d a m bands).
Proof. unfold mean_nodes. intros I. split; apply in_flat_map; exists (i, p); (split; [exact I|]); cbn [fst snd In]; auto. Qed.
Lemma combine_seq {A} (l : list A) i : In i (seq 0 (length l)) -> exists p, In (i, p) (combine (seq 0 (length l)) l).
Proof.
  assert (K : forall j, In i (seq j (length l)) -> exists p, In (i, p) (combine (seq j (length l)) l)).
  { induction l as [|a l IH]; intros j I; [destruct I|]. cbn [length seq combine] in *. destruct I as [->|I]; [exists a; left; auto|]. destruct (IH _ I) as (p & Q). exists p. right. auto. }
  apply K.
Qed.
Lemma sum_ones l : fold_right Z.add 0 (map (fun _ : nat => 1) l) = Z.of_nat (length l).
Proof. induction l as [|a l IH]; [reflexivity|]. cbn [map fold_right length]. lia. Qed.

Lemma fake_accept (z : P) f k g : verified f -> In k (g_body f) -> mean_covered f k -> mean_bands f k -> rewrite_fake z f k = Rewritten g -> verified g.
Proof.
  intros VF IK MC MB E. unfold rewrite_fake in E. destruct (n_op k) as [ | | | | |bands| | | | ] eqn:OK; try discriminate.
  destruct (n_args k) as [|a [|]] eqn:AK; try discriminate. destruct (def_of f a) as [d|] eqn:DA; [|discriminate].
  destruct (def_of_in f a d DA) as [ID ED].
  assert (TK : types_check (n_op k) (map (type_of f) (n_args k)) (n_ty k)) by (apply VF; auto). rewrite OK, AK in TK. cbn [map] in TK. destruct TK as (K1 & K2 & TK). injection TK as TK.
  assert (TA : type_of f a = n_ty d) by (rewrite <- ED; apply verified_type; auto). assert (KD : n_ty k = n_ty d) by congruence.
  destruct (position f k IK) as (l1 & l2 & EB). destruct (in_scope f k d a l1 l2 VF EB) as [SA SX]; [rewrite AK; left; auto|auto|].
  assert (FS : forall j, ~ In (fresh f j) (scope_of f l1)) by (intros j Q; apply (fresh_new f j); apply (scope_names f k l1 l2); auto).
  assert (TD : types_check (n_op d) (map (type_of f) (n_args d)) (n_ty d)) by (apply VF; auto).
  destruct (n_op d) as [ | | | | | |m|u|img| ] eqn:OD; try discriminate.
  - destruct (n_args d) as [|a' [|]] eqn:AD; try discriminate.
    destruct (MC bands a d m a' OK AK DA OD AD) as [_ (bs & PB & FB & FWB)]. assert (CB := MB bands a d m a' OK AK DA OD AD).
    unfold raise_to_means in E. destruct bands as [|[b0 t0] tl] eqn:EBN; [discriminate|]. rewrite <- EBN in *. assert (BN : bands <> []) by (rewrite EBN; discriminate).
    destruct (n_label d && forallb (fun p => type_eqb (snd p) t0) tl); [|discriminate]. clear EBN.
    apply (f_equal (fun q => match q with Rewritten w => w | _ => f end)) in E. rewrite <- E. clear E.
    set (mn := mean_nodes f d a' m bands) in *.
    set (cc := Node (fresh f (2 * length bands)) (OConcat z) (map (fun i => fresh f (2 * i + 1)) (seq 0 (length bands))) (GTy (Z.of_nat (length bands)) 1 (g_c (n_ty d))) false false None) in *.
    set (lm := Node (n_dst k) (OMean m) [fresh f (2 * length bands)] (n_ty d) (n_label d) (n_start d) (n_num d)) in *.
    replace (mn ++ [cc; lm]) with ((mn ++ [cc]) ++ [lm]) by (rewrite <- app_assoc; reflexivity).
    destruct TD as (D1 & D2 & t & Et & D3 & D4 & D5). cbn [map] in Et. injection Et as <-. set (t := type_of f a') in *.
    assert (NA : In a' (names f)) by (eapply verified_args; eauto; rewrite AD; left; auto). destruct (positive f a' VF NA) as [PA1 PA2]. fold t in PA1, PA2.
    assert (BD : forall p, In p bands -> 0 <= fst p /\ 1 <= g_h (snd p) /\ fst p + g_h (snd p) <= g_h t /\ snd p = GTy (g_h (snd p)) (g_w t) (g_c t)).
    { intros [b t1] Hp. assert (Hq : In (b, t1) bs) by (apply (Permutation_in _ PB); auto). destruct (follow_in bs _ _ _ _ FB Hq) as (Q1 & Q2 & Q3).
      rewrite Forall_forall in FWB, CB. assert (Q4 := FWB _ Hq). assert (Q5 := CB _ Hp). cbn [fst snd] in *. repeat split; auto. fold t in Q5. destruct t1 as [h1 w1 c1]. cbn [g_h g_w g_c] in *. congruence. }
    destruct (mean_order f d a' m bands 0 (scope_of f l1)) as [W1 W2]; [apply SA; left; auto|intros j _; apply FS|]. fold (mean_nodes f d a' m bands) in W1, W2. fold mn in W1, W2.
    apply (replace_ok f k (mn ++ [cc]) lm l1 l2 VF EB); [reflexivity|exact (eq_sym KD)| | | |].
    + apply in_order_app; [exact W1|]. cbn [in_order cc n_args n_dst]. split; [|split; [|exact I]].
      * intros y Hy. apply in_or_app. left. rewrite <- in_rev. apply in_map_iff in Hy. destruct Hy as (i & <- & Hi). destruct (combine_seq bands i Hi) as (p & Hp).
        destruct (mean_nodes_in f d a' m bands i p Hp) as [_ Q]. apply (in_map n_dst) in Q. exact Q.
      * rewrite in_app_iff, <- in_rev. intros [Q|Q]; [|apply (FS _ Q)]. destruct (W2 _ Q) as (j & EJ & Hj). apply fresh_inj in EJ. lia.
    + intros nd Hnd. apply in_app_or in Hnd. destruct Hnd as [Hnd|[<-|[]]]; [|apply fresh_new]. destruct (W2 (n_dst nd) (in_map _ _ _ Hnd)) as (j & -> & _). apply fresh_new.
    + cbn [lm n_args]. intros y [<-|[]]. apply in_or_app. left. rewrite map_app, <- in_rev. apply in_or_app. right. left. reflexivity.
    + intros ty T1 T2 nd Hnd. rewrite !in_app_iff in Hnd. destruct Hnd as [[Hnd|[<-|[]]]|[<-|[]]].
      * assert (Hn := Hnd). apply in_mean_nodes in Hnd. destruct Hnd as (i & p & Hp & [->| ->]); cbn [n_op n_args n_ty map].
        -- rewrite T1 by auto. fold t. assert (Hp' := in_combine_r _ _ _ _ Hp). destruct (BD p Hp') as (P1 & P2 & P3 & P4).
           split; [auto|]. split; [rewrite P4; exact PA2|]. exists t. repeat split; auto.
        -- destruct (mean_nodes_in f d a' m bands i p Hp) as [Q _]. assert (Q' := T2 _ (in_or_app _ _ _ (or_introl Q))). cbn [n_dst n_ty] in Q'. rewrite Q'.
           split; [auto|]. split; [auto|]. exists (snd p). repeat split; auto. assert (Hp' := in_combine_r _ _ _ _ Hp). destruct (BD p Hp') as (P1 & P2 & P3 & P4). rewrite P4. exact D5.
      * cbn [cc n_op n_args n_ty]. assert (LB : (1 <= length bands)%nat) by (destruct bands; [congruence|cbn [length]; lia]).
        split; [cbn [g_h]; lia|]. split; [cbn [g_w]; lia|].
        assert (TY : map ty (map (fun i => fresh f (2 * i + 1)) (seq 0 (length bands))) = map (fun _ => n_ty d) (seq 0 (length bands))).
        { rewrite map_map. apply map_ext_in. intros i Hi. destruct (combine_seq bands i Hi) as (p & Hp). destruct (mean_nodes_in f d a' m bands i p Hp) as [_ Q].
          assert (Q' := T2 _ (in_or_app _ _ _ (or_introl Q))). exact Q'. }
        rewrite TY. split; [|split].
        -- destruct bands; [congruence|discriminate].
        -- apply Forall_map. apply Forall_forall. intros i _. cbn [g_w g_c]. auto.
        -- rewrite map_map, D3, sum_ones, seq_length. reflexivity.
      * cbn [lm n_op n_args n_ty map]. assert (Q : ty (n_dst cc) = n_ty cc) by (apply T2; apply in_or_app; right; left; reflexivity). cbn [cc n_dst n_ty] in Q. rewrite Q.
        split; [auto|]. split; [auto|]. eexists. split; [reflexivity|]. cbn [g_c]. auto.
  - destruct (n_args d) as [|a' [|]] eqn:AD; try discriminate. destruct (n_num d) as [num|] eqn:NUM; [|discriminate].
    destruct ((Z.of_nat (length bands) =? num) && n_label d); [|discriminate].
    apply (f_equal (fun q => match q with Rewritten w => w | _ => f end)) in E. rewrite <- E. clear E.
    set (fk := Node (fresh f 0) (OFake bands) [a'] (type_of f a') (n_label k) (n_start k) (n_num k)) in *.
    assert (NA : In a' (names f)) by (eapply verified_args; eauto; rewrite AD; left; auto). destruct (positive f a' VF NA) as [PA1 PA2].
    match goal with |- verified (replace f _ [_; ?l]) => apply (replace_ok f k [fk] l l1 l2 VF EB); [reflexivity|exact (eq_sym KD)| | | |] end.
    + cbn [in_order fk n_args n_dst]. split; [intros y [<-|[]]; apply SA; left; auto|]. split; [apply FS|exact I].
    + intros y [<-|[]]. apply fresh_new.
    + cbn [n_args map rev app fk n_dst]. intros y [<-|[]]. left. auto.
    + intros ty T1 T2 nd [<-|[<-|[]]]; cbn [fk n_op n_args n_ty map].
      * rewrite T1 by auto. split; [auto|]. split; [auto|reflexivity].
      * destruct TD as (D1 & D2 & _). split; [auto|]. split; [auto|]. eauto.
  - assert (E' : Rewritten (forward f (n_dst k) a) = Rewritten g) by (destruct (n_args d) as [|? [|]]; exact E).
    apply (f_equal (fun q => match q with Rewritten w => w | _ => f end)) in E'. rewrite <- E'. apply (forward_ok f k a l1 l2); auto. 
Qed.

Lemma fits_mark (f : graph P) d b n : verified f -> In d (g_body f) -> fits f d b n -> fits (mark_raised f d) (mark d) b n.
Proof.
  intros VF ID. unfold fits. cbn [mark n_op n_args n_ty]. destruct (n_op d) as [same fh fw sH sW G z0|top bottom lft rgt z0| | | | | | | | ]; auto; destruct (n_args d) as [|a [|]]; auto.
  - destruct same; auto. unfold mark_raised. rewrite (update_type f d (mark d)); auto.
  - unfold mark_raised. rewrite (update_type f d (mark d)); auto.
Qed.
Lemma precedes_mark (f : graph P) d c s : verified f -> In d (g_body f) -> c <> d -> s <> d -> precedes f c s -> precedes (mark_raised f d) c s.
Proof.
  intros VF ID NC NS (l1 & l2 & l3 & EB). unfold precedes, mark_raised. change (n_dst d) with (n_dst (mark d)). rewrite replace_one, EB.
  assert (K : forall n, In n (g_body f) -> n <> d -> upd (mark d) n = n).
  { intros n Hn NE. destruct (upd_old f d (mark d) VF ID eq_refl n Hn) as [Q|[Q _]]; [auto|congruence]. }
  exists (map (upd (mark d)) l1), (map (upd (mark d)) l2), (map (upd (mark d)) l3). rewrite map_app. cbn [map]. rewrite map_app. cbn [map].
  rewrite (K c), (K s); auto; rewrite EB; rewrite !in_app_iff; cbn [In]; rewrite ?in_app_iff; cbn [In]; tauto.
Qed.

Variable dz : P.
Lemma slice_accept (f g : graph P) s pick : verified f -> within_limits f -> In s (g_body f) -> rewrite_slice f s pick = Rewritten g -> slice_sound f s pick -> verified g.
Proof.
  intros VF WL IS E SS.
  unfold rewrite_slice in E. destruct (n_op s) as [ | | |b n| | | | | | ] eqn:OS; try discriminate. destruct (n_args s) as [|x [|]] eqn:AS; try discriminate.
  destruct (def_of f x) as [d|] eqn:DX; [|discriminate]. destruct (def_of_in f x d DX) as [ID ED].
  assert (NE := slice_not_op f s d x b n VF IS OS AS DX). specialize (SS b n x d OS AS DX).
  assert (IS1 : In s (g_body (mark_raised f d))) by (unfold mark_raised; apply replace_in; auto).
  assert (VM := mark_verified f d VF ID). assert (LM := mark_limits dz f d VF ID WL). assert (DM := mark_def f d x VF ID DX).
  assert (COMB : forall cands, (forall cb cn, n_op d <> OSlice cb cn) -> containing f s b n x = cands -> (forall c, nth_error cands pick = Some c -> precedes f c s) ->
     match nth_error cands pick with Some c => Rewritten (combine_with (mark_raised f d) s b n c) | None => NoMatch end = Rewritten g -> verified g).
  { intros cands ND EC PR EE. destruct (nth_error cands pick) as [c|] eqn:NT; [|discriminate].
    apply (f_equal (fun q => match q with Rewritten w => w | _ => f end)) in EE. rewrite <- EE.
    assert (IC : In c (containing f s b n x)) by (rewrite EC; eapply nth_error_In; eauto).
    apply (combine_accept _ s c b n x); auto; [apply mark_containing; auto|]. apply precedes_mark; auto; [|congruence].
    intros ->. unfold containing in IC. apply filter_In in IC. destruct IC as [_ IC]. destruct (n_op d) as [ | | |cb cn| | | | | | ] eqn:OD'; try discriminate; apply (ND cb cn); auto. }
  destruct (n_op d) as [same fh fw sH sW G z0|top bottom lft rgt z0|op| | | | | | | ] eqn:OD; try discriminate.
  - destruct (is_raisable f s d) eqn:RS; [|discriminate]. destruct (containing f s b n x) as [|c0 cs] eqn:CT; [|apply (COMB (c0 :: cs)); auto; discriminate].
    apply (f_equal (fun q => match q with Rewritten w => w | _ => f end)) in E. rewrite <- E.
    apply (conv_accept _ s (mark d) b n x); auto; [cbn [mark n_op]; rewrite OD; repeat eexists|]. apply fits_mark; auto.
  - destruct (n_label s && n_label d) eqn:LL; [|discriminate]. apply andb_true_iff in LL. destruct LL as [_ LD].
    apply (f_equal (fun q => match q with Rewritten w => w | _ => f end)) in E. rewrite <- E.
    apply (pad_accept f s d b n x); auto. rewrite OD. repeat eexists.
  - destruct (is_raisable f s d) eqn:RS; [|discriminate]. destruct (containing f s b n x) as [|c0 cs] eqn:CT; [|apply (COMB (c0 :: cs)); auto; discriminate].
    unfold is_raisable in RS. rewrite !andb_true_iff in RS. destruct RS as [[[[_ LD] _] _] _].
    assert (TD : types_check (n_op d) (map (type_of f) (n_args d)) (n_ty d)) by (apply VF; auto). rewrite OD in TD.
    destruct TD as (_ & _ & t1 & t2 & EA & _). apply map2 in EA. destruct EA as (a1 & a2 & EA & _ & _).
    apply (bin_accept (mark_raised f d) s (mark d) b n x op a1 a2); auto.
Qed.

Lemma sound_accept (z : P) (f g : graph P) : verified f -> within_limits f -> sound_step z f g -> verified g.
Proof.
  intros VF WL ST. destruct ST as [d num ID NUM HN E|s pick IS E SS|k IK E MC MB|d ID U ->].
  - eapply split_accept; eauto.
  - eapply slice_accept; eauto.
  - eapply fake_accept; eauto.
  - apply erase_ok; auto.
Qed.
Lemma sound_same (z : P) (f g : graph P) : verified f -> within_limits f -> sound_step z f g -> agrees dz f g /\ within_limits g.
Proof.
  intros VF WL ST. assert (VG := sound_accept z f g VF WL ST). destruct ST as [d num ID NUM HN E|s pick IS E SS|k IK E MC MB|d ID U ->].
  - eapply split_step; eauto.
  - eapply slice_step; eauto.
  - eapply fake_step; eauto.
  - apply dead_step; auto.
Qed.
Lemma sound_run_same (z : P) (f g : graph P) : sound_run z f g -> verified f -> within_limits f -> verified g /\ within_limits g /\ same_results dz f g.
Proof.
  induction 1 as [f|f g h ST RUN IH]; intros VF WL; [split; [auto|split; auto]; apply same_results_refl|].
  assert (VG := sound_accept z f g VF WL ST). destruct (sound_same z f g VF WL ST) as [[AG _] WG]. destruct (IH VG WG) as (VH & WH & SH). split; [auto|]. split; [auto|]. eapply same_results_trans; eauto.
Qed.
End Accept.
