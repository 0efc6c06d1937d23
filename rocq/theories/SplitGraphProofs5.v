(** Splitting, fake slices and means; every step of the pass (C95). *)
From Coq Require Import Relations Permutation.
From Verif Require Import Base NdSpec ConvSpec OpSplitModel OpSplitSpec OpSplitProofs OpSplitProps SplitNetModel SplitNetSpec SplitNetProps SplitGraphModel SplitGraphSpec SplitGraphProofs SplitGraphProofs2 SplitGraphProofs3 SplitGraphProofs4.
Local Open Scope Z_scope.

Lemma pixels_column {P} (z : P) c vs : pixels (GTy (Z.of_nat (length vs)) 1 c) (stack z (map (fun v => (1, fun _ _ : Z => v)) vs)) = vs.
Proof.
  unfold pixels. cbn [g_h g_w]. rewrite Nat2Z.id. change (Z.to_nat 1) with 1%nat. cbn [seq map].
  assert (K : forall vs k img, (forall i, (i < length vs)%nat -> img (Z.of_nat (k + i)) 0 = nth i vs z) ->
    flat_map (fun y => [img (Z.of_nat y) 0]) (seq k (length vs)) = vs).
  { clear vs. induction vs as [|v vs IH]; intros k img K; [reflexivity|]. cbn [length seq flat_map app]. f_equal.
    - specialize (K 0%nat ltac:(cbn [length]; lia)). rewrite Nat.add_0_r in K. exact K.
    - apply IH. intros i Hi. specialize (K (S i) ltac:(cbn [length]; lia)). cbn [nth] in K. rewrite <- K. f_equal. lia. }
  apply (K vs 0%nat (stack z (map (fun v => (1, fun _ _ : Z => v)) vs))). clear K. induction vs as [|v vs IH]; intros i Hi; [cbn in Hi; lia|].
  cbn [map stack]. destruct i as [|i]; [reflexivity|]. destruct (Z.ltb_spec (Z.of_nat (0 + S i)) 1); [lia|]. cbn [nth]. rewrite <- IH by (cbn [length] in Hi; lia). f_equal. lia.
Qed.
Lemma pixels_length {P} t (img : image P) : length (pixels t img) = (Z.to_nat (g_h t) * Z.to_nat (g_w t))%nat.
Proof.
  unfold pixels. generalize 0%nat at 2. induction (Z.to_nat (g_h t)) as [|h IH]; intros k; [reflexivity|]. cbn [seq flat_map]. rewrite app_length, map_length, seq_length, IH. lia.
Qed.
Lemma pixels_bands {P} w c (img : image P) bs : forall lo hi, 0 <= lo -> follow lo bs hi -> Forall (fun p => g_w (snd p) = w) bs ->
  lo <= hi /\ concat (map (fun p => pixels (snd p) (slice_image (fst p) 0 img)) bs) = pixels (GTy (hi - lo) w c) (slice_image lo 0 img).
Proof.
  induction bs as [|[b t] bs IH]; intros lo hi L F FW; cbn [follow] in F.
  - subst hi. split; [lia|]. unfold pixels. cbn [g_h]. replace (lo - lo) with 0 by lia. reflexivity.
  - destruct F as (-> & H1 & F). inversion FW as [|? ? W1 FW']; subst. destruct (IH (lo + g_h t) hi ltac:(lia) F FW') as [LE E]. split; [lia|].
    cbn [map concat fst snd]. rewrite E. unfold pixels. cbn [g_h g_w]. cbn [snd].
    replace (Z.to_nat (hi - lo)) with (Z.to_nat (g_h t) + Z.to_nat (hi - (lo + g_h t)))%nat by lia. rewrite seq_app, flat_map_app. f_equal.
    rewrite Nat.add_0_l. assert (SH : forall (A : Type) (g : nat -> list A) k m, flat_map g (seq k m) = flat_map (fun i => g (k + i)%nat) (seq 0 m)).
    { intros A g k m. revert k. induction m as [|m IHm]; intros k; [reflexivity|]. cbn [seq flat_map]. rewrite Nat.add_0_r. f_equal. rewrite IHm.
      rewrite (IHm 1%nat) at 1 || idtac. rewrite <- seq_shift. rewrite flat_map_concat_map, flat_map_concat_map, map_map. f_equal. apply map_ext. intros i. f_equal. lia. }
    rewrite (SH P _ (Z.to_nat (g_h t))). rewrite !flat_map_concat_map. f_equal. apply map_ext. intros i. apply map_ext. intros k. unfold slice_image. f_equal. lia.
Qed.

Section Patterns.
Context {P : Type}.
Variable dz : P.

(** ** splitting *)
Lemma slice_nodes_order (f : graph P) src t bands : forall k scope, In src scope -> (forall j, (k <= j)%nat -> ~ In (fresh f j) scope) ->
  in_order scope (map (fun p => Node (fresh f (1 + fst p)) (OSlice (fst (snd p)) (snd (snd p)) : gop P) [src] (GTy (snd (snd p)) (g_w t) (g_c t)) true false None)
      (combine (seq (k - 1) (length bands)) bands)) \/ (k = 0)%nat.
Proof.
  induction bands as [|b bands IH]; intros k scope HS HF; [left; cbn; auto|]. destruct k as [|k]; [auto|]. left. cbn [Nat.sub length]. rewrite Nat.sub_0_r. cbn [seq combine map in_order n_args n_dst fst snd].
  split; [intros y [<-|[]]; auto|]. split; [apply HF; lia|].
  destruct (IH (S (S k)) (fresh f (1 + k) :: scope)) as [W|W]; [right; auto| |exact W|discriminate].
  intros j Hj [E|I]; [apply fresh_inj in E; lia|]. apply (HF j ltac:(lia) I).
Qed.

Lemma split_same (z : P) f d g : verified f -> In d (g_body f) -> split_node z f d = Rewritten g -> verified g -> agrees dz f g.
Proof.
  intros VF ID E VG. unfold split_node in E. destruct (n_start d && negb (n_label d) && is_split_op (n_op d)); [|discriminate].
  destruct (n_num d) as [num|] eqn:NUM; [|discriminate]. destruct (op_split (g_h (n_ty d)) (Z.to_nat num)) as [bands|] eqn:OSP; [|discriminate].
  injection E as <-. set (cl := Node (fresh f 0) (n_op d) (n_args d) (n_ty d) true (n_start d) (Some num)) in *.
  set (sls := slice_nodes f (fresh f 0) (n_ty d) 1 bands) in *.
  set (cc := Node (n_dst d) (OConcat z) (map n_dst sls) (n_ty d) false false None) in *.
  change (cl :: sls ++ [cc]) with ((cl :: sls) ++ [cc]) in VG |- *.
  apply (replace_same dz f (n_dst d) (cl :: sls) cc); auto.
  - cbn [in_order cl n_args n_dst]. split; [intros y Hy; eapply verified_args; eauto|]. split; [apply fresh_new|].
    unfold sls, slice_nodes. destruct (slice_nodes_order f (fresh f 0) (n_ty d) bands 1 (fresh f 0 :: names f)) as [W|W]; [left; auto| |exact W|discriminate].
    intros j Hj [Q|Q]; [apply fresh_inj in Q; lia|apply (fresh_new f j Q)].
  - intros imgs V E1 E2 E3.
    assert (EC : V (fresh f 0) = V (n_dst d)).
    { assert (Q := E2 cl (or_introl eq_refl)). change (n_dst cl) with (fresh f 0) in Q. rewrite Q, (E3 d ID). reflexivity. }
    assert (ES : map V (map n_dst sls) = map (fun p => (GTy (snd p) (g_w (n_ty d)) (g_c (n_ty d)), slice_image (fst p) 0 (snd (V (n_dst d))))) bands).
    { assert (K : forall l, incl l sls -> map V (map n_dst l) = map (fun nd => node_value dz V nd) l).
      { intros l IL. rewrite map_map. apply map_ext_in. intros nd Hnd. apply E2. right. apply IL. auto. }
      rewrite K by apply incl_refl. unfold sls, slice_nodes. rewrite map_map.
      unfold node_value. cbn [n_ty n_op n_args map eval_op]. rewrite EC. generalize 0%nat. clear. induction bands as [|b bands IH]; intros k; [reflexivity|].
      cbn [length seq combine map fst snd]. rewrite IH. reflexivity. }
    destruct (VF) as (_ & _ & _ & _ & TC). destruct (TC d ID) as (D1 & D2 & _).
    set (H := Z.to_nat (g_h (n_ty d))). assert (EH : g_h (n_ty d) = Z.of_nat H) by (unfold H; lia).
    assert (N0 : (0 < Z.to_nat num)%nat) by (destruct (Z.to_nat num); [discriminate|lia]).
    destruct (op_split_ok H (Z.to_nat num) N0) as (bs & E & L & C & F). rewrite EH, E in OSP. injection OSP as <-.
    unfold node_value. cbn [cc n_ty n_op n_args eval_op]. rewrite ES, map_map. cbn [fst snd g_h]. split; [rewrite (E3 d ID); reflexivity|].
    intros y x Hy _. cbn [snd]. rewrite (stack_bands z (snd (V (n_dst d))) bs 0 H y x C); [f_equal; lia|lia|].
    rewrite (E3 d ID) in Hy. cbn [node_value fst] in Hy. lia.
Qed.

(** ** fake slices *)
Lemma mean_order (f : graph P) (d : node P) a m (bands : list (Z * gty)) : forall k scope, In a scope -> (forall j, (2 * k <= j)%nat -> ~ In (fresh f j) scope) ->
  let l := flat_map (fun p => [Node (fresh f (2 * fst p)) (OSlice (fst (snd p)) (g_h (snd (snd p))) : gop P) [a] (snd (snd p)) true false None;
                      Node (fresh f (2 * fst p + 1)) (OMean m) [fresh f (2 * fst p)] (n_ty d) (n_label d) (n_start d) (n_num d)])
           (combine (seq k (length bands)) bands) in
  in_order scope l /\ (forall x, In x (map n_dst l) -> exists j, x = fresh f j /\ (2 * k <= j < 2 * (k + length bands))%nat).
Proof.
  induction bands as [|b bands IH]; intros k scope HS HF l; [cbn; split; auto; tauto|]. subst l. cbn [length seq combine flat_map app in_order n_args n_dst fst snd map].
  destruct (IH (S k) (fresh f (2 * k + 1) :: fresh f (2 * k) :: scope)) as [W1 W2]; [right; right; auto| |].
  { intros j Hj [E|[E|I]]; [apply fresh_inj in E; lia|apply fresh_inj in E; lia|]. apply (HF j ltac:(lia) I). }
  split.
  - split; [intros y [<-|[]]; auto|]. split; [apply HF; lia|]. split; [intros y [<-|[]]; left; auto|]. split; [|exact W1].
    intros [E|I]; [apply fresh_inj in E; lia|]. apply (HF (2 * k + 1)%nat ltac:(lia) I).
  - intros x [<-|[<-|I]]; [exists (2 * k)%nat; split; auto; lia|exists (2 * k + 1)%nat; split; auto; lia|]. destruct (W2 x I) as (j & -> & Hj). exists j. split; auto. lia.
Qed.
Lemma in_order_app (l1 l2 : list (node P)) : forall scope, in_order scope l1 -> in_order (rev (map n_dst l1) ++ scope) l2 -> in_order scope (l1 ++ l2).
Proof.
  induction l1 as [|n l1 IH]; intros scope W1 W2; [exact W2|]. cbn [in_order app map rev] in *. destruct W1 as (A & B & C). split; [auto|]. split; [auto|].
  apply IH; auto. rewrite <- app_assoc in W2. exact W2.
Qed.

Lemma fake_same (z : P) f k g : verified f -> In k (g_body f) -> mean_covered f k -> rewrite_fake z f k = Rewritten g -> verified g -> agrees dz f g.
Proof.
  intros VF IK MC E VG. unfold rewrite_fake in E. destruct (n_op k) as [ | | | | |bands| | | | ] eqn:OK; try discriminate.
  destruct (n_args k) as [|a [|]] eqn:AK; try discriminate. destruct (def_of f a) as [d|] eqn:DA; [|discriminate].
  destruct (def_of_in f a d DA) as [ID ED].
  assert (TK : types_check (n_op k) (map (type_of f) (n_args k)) (n_ty k)) by (apply VF; auto). rewrite OK, AK in TK. cbn [map] in TK. destruct TK as (K1 & K2 & TK). injection TK as TK.
  assert (TA : type_of f a = n_ty d) by (rewrite <- ED; apply verified_type; auto). assert (KD : n_ty k = n_ty d) by congruence.
  assert (NAa : In a (names f)) by (rewrite <- ED; apply names_node; auto).
  assert (VK : forall V : nat -> value P, exact dz V (g_body f) -> V (n_dst k) = V (n_dst d)).
  { intros V EX. rewrite (EX k IK), (EX d ID). unfold node_value at 1. rewrite OK, AK, KD. cbn [map eval_op]. rewrite <- ED, (EX d ID). reflexivity. }
  assert (FW : Rewritten (forward f (n_dst k) a) = Rewritten g -> agrees dz f g).
  { intros EE. injection EE as <-. apply forward_same; auto using names_node.
    - rewrite verified_type by auto. congruence.
    - intros imgs V _ E3. rewrite (VK V E3), ED. apply same_value_refl. }
  destruct (n_op d) as [ | | | | | |m|u| | ] eqn:OD; try discriminate; auto.
  - (* mean *)
    destruct (n_args d) as [|a' [|]] eqn:AD; try discriminate.
    destruct (MC bands a d m a' OK AK DA OD AD) as [[EM1 EM2] (bs & PB & FB & FWB)].
    unfold raise_to_means in E. destruct bands as [|[b0 t0] tl] eqn:EB; [discriminate|]. rewrite <- EB in *.
    destruct (n_label d && forallb (fun p => type_eqb (snd p) t0) tl) eqn:CK; [|discriminate]. injection E as <-.
    apply andb_true_iff in CK. destruct CK as [LD CK]. rewrite forallb_forall in CK.
    assert (ALL : Forall (fun p => snd p = t0) bands).
    { rewrite EB. constructor; [auto|]. apply Forall_forall. intros p Hp. apply type_eqb_eq. auto. }
    set (mn := mean_nodes f d a' m bands) in *.
    set (cc := Node (fresh f (2 * length bands)) (OConcat z) (map (fun i => fresh f (2 * i + 1)) (seq 0 (length bands))) (GTy (Z.of_nat (length bands)) 1 (g_c (n_ty d))) false false None) in *.
    set (lm := Node (n_dst k) (OMean m) [fresh f (2 * length bands)] (n_ty d) (n_label d) (n_start d) (n_num d)) in *.
    assert (AP : mn ++ [cc; lm] = (mn ++ [cc]) ++ [lm]) by (rewrite <- app_assoc; reflexivity).
    match type of VG with verified ?h => replace h with (replace f (n_dst k) ((mn ++ [cc]) ++ [lm])) in * by (rewrite <- AP; reflexivity) end.
    assert (NA : In a' (names f)) by (eapply verified_args; eauto; rewrite AD; left; auto).
    destruct (mean_order f d a' m bands 0 (names f) NA) as [W1 W2]; [intros j _; apply fresh_new|]. fold (mean_nodes f d a' m bands) in W1, W2. fold mn in W1, W2.
    assert (DM : map n_dst mn = flat_map (fun i => [fresh f (2 * i); fresh f (2 * i + 1)]) (seq 0 (length bands))).
    { unfold mn, mean_nodes. clear. assert (K : forall bb j, map n_dst (flat_map (fun p => [Node (fresh f (2 * fst p)) (OSlice (fst (snd p)) (g_h (snd (snd p)))) [a'] (snd (snd p)) true false None;
                      Node (fresh f (2 * fst p + 1)) (OMean m) [fresh f (2 * fst p)] (n_ty d) (n_label d) (n_start d) (n_num d)]) (combine (seq j (length bb)) bb)) =
          flat_map (fun i => [fresh f (2 * i); fresh f (2 * i + 1)]) (seq j (length bb))).
      { induction bb as [|b bb IH]; intros j; [reflexivity|]. cbn [length seq combine flat_map map app n_dst fst]. rewrite IH. reflexivity. }
      apply K. }
    apply (replace_same dz f (n_dst k) (mn ++ [cc]) lm); auto.
    + apply in_order_app; [exact W1|]. cbn [in_order cc n_args n_dst]. split; [|split; [|auto]].
      * intros y Hy. apply in_or_app. left. rewrite <- in_rev, DM. apply in_map_iff in Hy. destruct Hy as (i & <- & Hi). apply in_flat_map. exists i. split; auto. right. left. auto.
      * rewrite in_app_iff, <- in_rev. intros [I|I]; [|apply (fresh_new f _ I)]. destruct (W2 _ I) as (j & E & Hj). apply fresh_inj in E. lia.
    + intros imgs V E1 E2 E3. rewrite (VK V E3), (E3 d ID). unfold node_value. rewrite OD, AD. cbn [map eval_op lm n_ty n_op n_args]. split; [reflexivity|]. intros ? ? _ _. cbn [snd].
      assert (TD : types_check (n_op d) (map (type_of f) (n_args d)) (n_ty d)) by (apply VF; auto). rewrite OD, AD in TD. destruct TD as (_ & _ & a0 & EE & H1 & _). cbn [map] in EE. injection EE as <-.
      assert (ETa : fst (V a') = type_of f a') by (rewrite E1 by auto; apply final_type; auto).
      set (parts := map (fun p => pixels (snd p) (slice_image (fst p) 0 (snd (V a')))) bands).
      assert (VC : V (fresh f (2 * length bands)) = (GTy (Z.of_nat (length (map m parts))) 1 (g_c (n_ty d)), stack z (map (fun v => (1, fun _ _ : Z => v)) (map m parts)))).
      { assert (Q := E2 cc (in_elt _ _ _)). change (n_dst cc) with (fresh f (2 * length bands)) in Q. rewrite Q. unfold node_value. cbn [cc n_ty n_op n_args eval_op].
        unfold parts. rewrite !map_length, !map_map. f_equal. f_equal.
        assert (G : forall bb k0, (forall nd, In nd (flat_map (fun p => [Node (fresh f (2 * fst p)) (OSlice (fst (snd p)) (g_h (snd (snd p)))) [a'] (snd (snd p)) true false None;
                      Node (fresh f (2 * fst p + 1)) (OMean m) [fresh f (2 * fst p)] (n_ty d) (n_label d) (n_start d) (n_num d)]) (combine (seq k0 (length bb)) bb)) -> V (n_dst nd) = node_value dz V nd) ->
           map (fun i => (g_h (fst (V (fresh f (2 * i + 1)))), snd (V (fresh f (2 * i + 1))))) (seq k0 (length bb)) =
           map (fun p => (1, fun _ _ : Z => m (pixels (snd p) (slice_image (fst p) 0 (snd (V a')))))) bb).
        { induction bb as [|p bb IH]; intros k0 EX; [reflexivity|]. cbn [length seq combine map flat_map app fst snd] in EX |- *. f_equal; [|apply IH; intros nd Hnd; apply EX; right; right; auto].
          assert (Q1 := EX _ (or_introl eq_refl)). assert (Q2 := EX _ (or_intror (or_introl eq_refl))). cbn [n_dst] in Q1, Q2. rewrite Q2. unfold node_value. cbn [n_ty n_op n_args map eval_op fst snd].
          rewrite Q1. unfold node_value. cbn [n_ty n_op n_args map eval_op fst snd]. rewrite H1. reflexivity. }
        apply G. intros nd Hnd. apply E2. apply in_or_app. left. exact Hnd. }
      rewrite VC. cbn [fst snd]. rewrite pixels_column. 
      assert (PN : parts <> []) by (unfold parts; rewrite EB; discriminate).
      destruct (pixels_bands (g_w (type_of f a')) (g_c (type_of f a')) (snd (V a')) bs 0 (g_h (type_of f a')) ltac:(lia) FB FWB) as [_ PX].
      assert (T0 : 1 <= g_h t0 /\ 1 <= g_w t0).
      { assert (IB : In (b0, t0) bs) by (apply (Permutation_in _ PB); rewrite EB; left; auto). split.
        - clear - FB IB. revert FB. generalize 0. induction bs as [|[b t] bs IH]; intros p0 FB; [destruct IB|]. cbn [follow] in FB. destruct FB as (_ & H & FB). destruct IB as [E|IB]; [injection E as -> ->; auto|eauto].
        - rewrite Forall_forall in FWB. specialize (FWB _ IB). cbn [snd] in FWB. rewrite FWB. apply positive; auto. }
      rewrite (EM2 (Z.to_nat (g_h t0) * Z.to_nat (g_w t0))%nat parts); auto.
      * apply EM1. rewrite ETa. unfold parts.
        transitivity (concat (map (fun p => pixels (snd p) (slice_image (fst p) 0 (snd (V a')))) bs)).
        -- rewrite PX. rewrite Z.sub_0_r. destruct (type_of f a') as [h w c]. cbn [g_h g_w g_c]. apply Permutation_refl.
        -- rewrite <- !flat_map_concat_map. apply Permutation_flat_map. symmetry. exact PB.
      * nia.
      * unfold parts. apply Forall_map. eapply Forall_impl; [|exact ALL]. cbn. intros p ->. apply pixels_length.
  - (* FullyConnected, Logistic *)
    destruct (n_args d) as [|a' [|]] eqn:AD; try discriminate. destruct (n_num d) as [num|] eqn:NUM; [|discriminate].
    destruct ((Z.of_nat (length bands) =? num) && n_label d); [|discriminate]. injection E as <-.
    set (fk := Node (fresh f 0) (OFake bands) [a'] (type_of f a') (n_label k) (n_start k) (n_num k)) in *.
    assert (NA : In a' (names f)) by (eapply verified_args; eauto; rewrite AD; left; auto).
    match goal with |- agrees dz f (replace f _ [_; ?l]) => apply (replace_same dz f (n_dst k) [fk] l) end; auto.
    + cbn [in_order fk n_args n_dst]. split; [intros y [<-|[]]; auto|]. split; [apply fresh_new|auto].
    + intros imgs V E1 E2 E3. rewrite (VK V E3), (E3 d ID). unfold node_value. rewrite OD, AD. cbn [n_ty n_op n_args map].
      assert (Q := E2 fk (or_introl eq_refl)). change (n_dst fk) with (fresh f 0) in Q. rewrite Q. unfold node_value. cbn [fk n_ty n_op n_args map eval_op fst snd].
      rewrite <- (final_type dz f imgs a') by auto. rewrite <- E1 by auto. apply same_value_refl.
Qed.

End Patterns.
