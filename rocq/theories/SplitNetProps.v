(** C71: the operation-splitting pass keeps the network's results. *)
From Coq Require Import Relations.
From Verif Require Import Base NdSpec ConvSpec OpSplitModel OpSplitSpec OpSplitProofs OpSplitProps SplitNetModel SplitNetSpec.
Local Open Scope Z_scope.

Section Ind.
Context {P : Type}.
Variable Pr : net P -> Prop.
Hypothesis HSrc : forall h w img, Pr (Src h w img).
Hypothesis HConv : forall same fh fw sH sW G z e, Pr e -> Pr (Conv same fh fw sH sW G z e).
Hypothesis HPad : forall t b l r z e, Pr e -> Pr (Pad t b l r z e).
Hypothesis HBin : forall f e1 e2, Pr e1 -> Pr e2 -> Pr (Bin f e1 e2).
Hypothesis HBinRow : forall f c e, Pr e -> Pr (BinRow f c e).
Hypothesis HSlice : forall b n e, Pr e -> Pr (Slice b n e).
Hypothesis HConcat : forall z l, Forall Pr l -> Pr (Concat z l).
Fixpoint net_ind2 (e : net P) : Pr e :=
  match e with
  | Src h w img => HSrc h w img
  | Conv same fh fw sH sW G z e => HConv same fh fw sH sW G z e (net_ind2 e)
  | Pad t b l r z e => HPad t b l r z e (net_ind2 e)
  | Bin f e1 e2 => HBin f e1 e2 (net_ind2 e1) (net_ind2 e2)
  | BinRow f c e => HBinRow f c e (net_ind2 e)
  | Slice b n e => HSlice b n e (net_ind2 e)
  | Concat z l => HConcat z l ((fix go (l : list (net P)) : Forall Pr l :=
      match l with [] => Forall_nil _ | e :: tl => Forall_cons e (net_ind2 e) (go tl) end) l)
  end.
End Ind.

Lemma fold_and_forall {A} (Q : A -> Prop) l : fold_right and True (map Q l) <-> Forall Q l.
Proof.
  induction l as [|a l IH]; cbn; [split; auto|]. rewrite IH. split.
  - intros [H1 H2]. constructor; auto.
  - intros H. inversion H; auto.
Qed.

Lemma valid_out_pos n f s : 1 <= f <= n -> 1 <= s -> 1 <= valid_out n f 1 s.
Proof. intros. unfold valid_out, eff. apply Z.div_le_lower_bound; lia. Qed.
Lemma same_out_pos n s : 1 <= n -> 1 <= s -> 1 <= same_out n s.
Proof. intros. unfold same_out. apply Z.div_le_lower_bound; lia. Qed.

Lemma sum_pos l : Forall (fun h => 1 <= h) l -> l <> [] -> 1 <= fold_right Z.add 0 l.
Proof.
  induction l as [|h l IH]; intros F N; [congruence|]. inversion F; subst. cbn [fold_right].
  destruct l as [|h2 l]; [cbn; lia|]. specialize (IH H2 ltac:(congruence)). lia.
Qed.

Lemma dims_pos {P} (e : net P) : well_typed e -> 1 <= fst (dims e) /\ 1 <= snd (dims e).
Proof.
  induction e using net_ind2; intros WT; cbn [well_typed dims fst snd] in *.
  - exact WT.
  - destruct WT as (A1 & A2 & A3 & A4 & A5 & A6). destruct (IHe A6) as [D1 D2].
    destruct same; unfold conv_out.
    + split; apply same_out_pos; lia.
    + destruct (A5 eq_refl). split; apply valid_out_pos; lia.
  - destruct WT as (A1 & A2 & A3 & A4 & A5). destruct (IHe A5). lia.
  - destruct WT as (A1 & A2 & A3). auto.
  - auto.
  - destruct WT as (A1 & A2 & A3 & A4). destruct (IHe A4). auto.
  - destruct WT as (A1 & (w & A2) & A3). apply fold_and_forall in A3.
    assert (F : Forall (fun e => 1 <= fst (dims e) /\ 1 <= snd (dims e)) l).
    { rewrite Forall_forall in *. intros e He. apply H; auto. }
    split.
    + apply sum_pos; [|destruct l; [congruence|discriminate]]. apply Forall_map. eapply Forall_impl; [|exact F]. cbn; tauto.
    + destruct l as [|e l]; [congruence|]. inversion F; tauto.
Qed.

(** ** values depend on the pixels inside the operand only *)
Lemma zpad_ext {P} H W (z : P) i1 i2 : (forall y x, 0 <= y < H -> 0 <= x < W -> i1 y x = i2 y x) ->
  forall y x, zpad H W z i1 y x = zpad H W z i2 y x.
Proof.
  intros E y x. unfold zpad. destruct (in_image H W y x) eqn:I; auto. apply E; unfold in_image in I; lia.
Qed.
Lemma original_conv_ext {P} (G : list (list P) -> P) z same fh fw sH sW H W i1 i2 :
  (forall y x, 0 <= y < H -> 0 <= x < W -> i1 y x = i2 y x) ->
  forall y x, original_conv G z same fh fw sH sW H W i1 y x = original_conv G z same fh fw sH sW H W i2 y x.
Proof.
  intros E y x. unfold original_conv, conv_at. f_equal. apply window_ext. intros. apply zpad_ext; auto.
Qed.

Definition good {P} (e e' : net P) : Prop := well_typed e' /\ same_result e e'.

Lemma conv_cong {P} same fh fw sH sW G (z : P) e e' :
  well_typed (Conv same fh fw sH sW G z e) -> good e e' ->
  good (Conv same fh fw sH sW G z e) (Conv same fh fw sH sW G z e').
Proof.
  intros WT (W' & D & V). cbn [well_typed] in WT. split; [cbn [well_typed]; rewrite D; tauto|].
  split; cbn [dims eval]; rewrite D; auto. intros y x _ _. apply original_conv_ext. auto.
Qed.
Lemma pad_cong {P} t b l r (z : P) e e' : well_typed (Pad t b l r z e) -> good e e' -> good (Pad t b l r z e) (Pad t b l r z e').
Proof.
  intros WT (W' & D & V). cbn [well_typed] in WT. split; [cbn [well_typed]; tauto|].
  split; cbn [dims eval]; rewrite D; auto. intros y x _ _. unfold pad_image. apply zpad_ext. auto.
Qed.
Lemma slice_cong {P} b n (e e' : net P) : well_typed (Slice b n e) -> good e e' -> good (Slice b n e) (Slice b n e').
Proof.
  intros WT (W' & D & V). cbn [well_typed] in WT. split; [cbn [well_typed]; rewrite D; tauto|].
  split; cbn [dims eval fst snd]; rewrite ?D; auto. intros y x Hy Hx. unfold slice_image. apply V; lia.
Qed.

Lemma stack_ext {P} (z : P) l1 l2 : 
  Forall2 (fun p q => fst p = fst q /\ 1 <= fst p /\ True) l1 l2 -> forall w,
  Forall2 (fun p q => forall y x, 0 <= y < fst p -> 0 <= x < w -> snd p y x = snd q y x) l1 l2 ->
  forall y x, 0 <= y < fold_right Z.add 0 (map fst l1) -> 0 <= x < w -> stack z l1 y x = stack z l2 y x.
Proof.
  intros F w. induction F as [|[h1 i1] [h2 i2] l1 l2 (E & Hp & _) F IH]; intros F2 y x Hy Hx; [reflexivity|].
  inversion F2 as [|? ? ? ? V F2']; subst. cbn [fst snd] in *. subst h2. cbn [stack].
  cbn [map fold_right fst] in Hy. destruct (Z.ltb_spec y h1).
  - apply V; lia.
  - apply IH; auto. lia.
Qed.

Lemma concat_cong {P} (z : P) l1 e e' l2 : well_typed (Concat z (l1 ++ e :: l2)) -> good e e' ->
  good (Concat z (l1 ++ e :: l2)) (Concat z (l1 ++ e' :: l2)).
Proof.
  intros WT (W' & D & V). cbn [well_typed] in WT. destruct WT as (_ & (w & A2) & A3).
  apply fold_and_forall in A2, A3.
  assert (DM : forall g : Z * Z -> Z, map (fun e => g (dims e)) (l1 ++ e' :: l2) = map (fun e => g (dims e)) (l1 ++ e :: l2)).
  { intros g. rewrite !map_app. cbn [map]. rewrite D. reflexivity. }
  assert (WE : snd (dims e) = w) by (rewrite Forall_forall in A2; apply A2; apply in_elt).
  split; [|split].
  - cbn [well_typed]. split; [destruct l1; discriminate|]. split.
    + exists w. apply fold_and_forall. apply Forall_app in A2. destruct A2 as [A2 B2]. inversion B2; subst.
      apply Forall_app. split; auto. constructor; auto. rewrite D. auto.
    + apply fold_and_forall. apply Forall_app in A3. destruct A3 as [A3 B3]. inversion B3; subst.
      apply Forall_app. split; auto.
  - cbn [dims]. rewrite DM. f_equal. destruct l1; cbn [app]; [rewrite D|]; reflexivity.
  - cbn [dims eval fst snd]. intros y x Hy Hx.
    assert (WX : match l1 ++ e :: l2 with [] => 0 | e0 :: _ => snd (dims e0) end = w).
    { destruct l1 as [|e0 l1]; cbn [app]; auto. inversion A2; auto. }
    rewrite WX in Hx. apply (stack_ext z) with (w := w).
    + rewrite !map_app. cbn [map]. apply Forall2_app; [|constructor; [|]].
      * assert (F : Forall well_typed l1) by (apply Forall_app in A3; tauto).
        clear - F. induction F; constructor; auto. cbn [fst]. repeat split. apply dims_pos; auto.
      * cbn [fst]. rewrite D. repeat split. apply dims_pos. rewrite Forall_forall in A3. apply A3. apply in_elt.
      * assert (F : Forall well_typed l2) by (apply Forall_app in A3; destruct A3 as [_ A3]; inversion A3; auto).
        clear - F. induction F; constructor; auto. cbn [fst]. repeat split. apply dims_pos; auto.
    + rewrite !map_app. cbn [map]. apply Forall2_app; [|constructor; [|]].
      * clear. induction l1; constructor; auto.
      * cbn [fst snd]. intros y0 x0 Hy0 Hx0. rewrite D in Hy0. apply V; [auto|]. rewrite WE. auto.
      * clear. induction l2; constructor; auto.
    + rewrite map_map. cbn [fst]. pose proof (DM fst) as DF. cbn in DF. rewrite DF. auto.
    + auto.
Qed.

(** ** splitting *)
Lemma stack_bands {P} (z : P) (img : image P) bands : forall pos stop y x,
  consecutive pos bands stop -> 0 <= y -> Z.of_nat pos + y < Z.of_nat stop ->
  stack z (map (fun b => (snd b, slice_image (fst b) 0 img)) (map zpair bands)) y x = img (Z.of_nat pos + y) x.
Proof.
  induction bands as [|[b n] bands IH]; intros pos stop y x C Hy L; cbn [consecutive] in C.
  - subst. lia.
  - destruct C as [-> C]. cbn [map stack zpair fst snd].
    destruct (Z.ltb_spec y (Z.of_nat n)).
    + unfold slice_image. f_equal; lia.
    + rewrite (IH (pos + n)%nat stop) by (auto; lia). f_equal; lia.
Qed.
Lemma sum_bands_z bands : forall pos stop, consecutive pos bands stop ->
  Z.of_nat pos + fold_right Z.add 0 (map snd (map zpair bands)) = Z.of_nat stop.
Proof.
  induction bands as [|[b n] bands IH]; intros pos stop C; cbn [consecutive] in C; cbn [map fold_right zpair snd].
  - subst; lia.
  - destruct C as [-> C]. specialize (IH _ _ C). lia.
Qed.

Lemma split_good {P} (z : P) e n bands : well_typed e -> op_split (fst (dims e)) n = Some bands -> Z.of_nat n <= fst (dims e) ->
  good e (Concat z (map (fun b => Slice (fst b) (snd b) e) bands)).
Proof.
  intros WT E Hn. destruct (dims_pos e WT) as [D1 D2].
  set (H := Z.to_nat (fst (dims e))). assert (EH : fst (dims e) = Z.of_nat H) by (unfold H; lia).
  assert (N0 : (0 < n)%nat) by (destruct n; [discriminate|lia]).
  destruct (op_split_ok H n N0) as (bs & E2 & L & C & F). rewrite EH, E2 in E. injection E as <-.
  assert (DIV : (1 <= H / n)%nat) by (apply Nat.div_le_lower_bound; lia).
  assert (FB : Forall (fun b => 0 <= fst b /\ 1 <= snd b /\ fst b + snd b <= fst (dims e)) (map zpair bs)).
  { apply Forall_map. destruct (consecutive_le _ _ _ C) as [_ F2]. rewrite Forall_forall in *. intros b Hb.
    specialize (F b Hb). specialize (F2 b Hb). unfold zpair; cbn [fst snd]. cbn in F, F2. lia. }
  split; [|split].
  - cbn [well_typed]. split; [|split].
    + destruct bs; [cbn in L; lia|discriminate].
    + exists (snd (dims e)). apply fold_and_forall. apply Forall_map. apply Forall_forall. intros; reflexivity.
    + apply fold_and_forall. apply Forall_map. eapply Forall_impl; [|exact FB]. cbn beta. intros b Hb. cbn [well_typed]. tauto.
  - cbn [dims]. rewrite map_map. cbn [dims fst].
    pose proof (sum_bands_z _ _ _ C) as S. cbn in S.
    assert (S' : fold_right Z.add 0 (map (fun x : Z * Z => snd x) (map zpair bs)) = fst (dims e)) by (rewrite EH; exact S).
    rewrite S'. destruct bs; [cbn in L; lia|]. cbn [map dims snd]. destruct (dims e); reflexivity.
  - intros y x Hy Hx. cbn [eval]. rewrite map_map. cbn [dims fst eval].
    rewrite (stack_bands z (eval e) bs 0 H) by (auto; lia). reflexivity.
Qed.

(** ** raising *)
Lemma raise_valid_good {P} fh fw sH sW G (z : P) e begin size :
  let inH := fst (dims e) in let inW := snd (dims e) in
  let r := raise_conv false inH inW (Z.of_nat fh) (Z.of_nat fw) sH sW (conv_out false inH (Z.of_nat fh) sH) begin size in
  well_typed (Slice begin size (Conv false fh fw sH sW G z e)) ->
  good (Slice begin size (Conv false fh fw sH sW G z e)) (Conv false fh fw sH sW G z (Slice (r_begin r) (r_size r) e)).
Proof.
  intros inH inW r WT. cbn [well_typed dims fst conv_out] in WT.
  destruct WT as (B1 & B2 & B3 & A1 & A2 & A3 & A4 & A5 & A6). destruct (A5 eq_refl) as [F1 F2].
  destruct (raise_valid G z fh fw inH inW sH sW begin size A1 A2 F1 F2 A3 A4 B1 B2 B3) as (R1 & R2 & R3 & R4 & R5 & R6 & R7 & R8 & V).
  change (valid_out inH (Z.of_nat fh) 1 sH) with (conv_out false inH (Z.of_nat fh) sH) in *. fold r in R1, R2, R3, R4, R5, R6, R7, R8, V.
  assert (EH : exists lost, 0 <= lost < sH /\ r_size r = size * sH - sH + Z.of_nat fh + lost).
  { clear V. unfold r, raise_conv. cbn [windowed]. destruct (begin + size =? conv_out false inH (Z.of_nat fh) sH); cbn [r_size].
    - exists (Z.rem (inH - Z.of_nat fh + sH) sH). rewrite Z.rem_mod_nonneg by (unfold inH; lia).
      pose proof (Z.mod_pos_bound (inH - Z.of_nat fh + sH) sH ltac:(lia)). lia.
    - exists 0. lia. }
  destruct EH as (lost & HL & EH).
  assert (NM : 1 * sH <= size * sH) by (apply Z.mul_le_mono_nonneg_r; lia).
  assert (VH : valid_out (r_size r) (Z.of_nat fh) 1 sH = size).
  { rewrite EH. unfold valid_out, eff. symmetry. apply Z.div_unique with lost; lia. }
  split; [|split].
  - cbn [well_typed dims fst snd]. repeat (split; [assumption|]). split; [|repeat (split; [assumption|]); assumption].
    intros _. split; [lia|exact F2].
  - cbn [dims fst snd conv_out]. rewrite VH. reflexivity.
  - cbn [dims fst snd conv_out]. intros y x Hy Hx. cbn [eval dims fst snd]. fold inH inW.
    unfold slice_image at 2. specialize (V (eval e) y x Hy Hx). unfold raised_conv in V. rewrite R4, R5, R6 in V.
    exact V.
Qed.

Lemma raise_same_good {P} fh fw sH sW G (z : P) e begin size pt pb pl pr :
  let inH := fst (dims e) in let inW := snd (dims e) in
  let r := raise_conv true inH inW (Z.of_nat fh) (Z.of_nat fw) sH sW (conv_out true inH (Z.of_nat fh) sH) begin size in
  band_supported true inH (Z.of_nat fh) sH (conv_out true inH (Z.of_nat fh) sH) begin size ->
  r_pad r = Some (pt, pb, pl, pr) ->
  well_typed (Slice begin size (Conv true fh fw sH sW G z e)) ->
  good (Slice begin size (Conv true fh fw sH sW G z e))
       (Conv false fh fw sH sW G z (Pad pt pb pl pr z (Slice (r_begin r) (r_size r) e))).
Proof.
  intros inH inW r BS RP WT. cbn [well_typed dims fst conv_out] in WT.
  destruct WT as (B1 & B2 & B3 & A1 & A2 & A3 & A4 & _ & A6). destruct (dims_pos e A6) as [D1 D2]. fold inH in D1. fold inW in D2.
  destruct (C26_same_partial P P G z fh fw inH inW sH sW begin size A1 A2 D1 D2 A3 A4 B1 B2 B3) as [FT K].
  change (same_out inH sH) with (conv_out true inH (Z.of_nat fh) sH) in FT, K. fold r in FT, K.
  destruct (proj2 FT BS) as (R1 & R2 & R3). destruct (K BS) as ((pt' & pb' & pl' & pr' & RP' & P1 & P2 & P3 & P4 & R4 & R5 & V1 & V2) & R6 & R7 & V).
  clear FT K. rewrite RP in RP'. injection RP' as <- <- <- <-.
  assert (O1 : 1 <= same_out inW sW) by (apply same_out_pos; auto).
  assert (GE : forall n f k, 1 <= f -> 1 <= k -> forall s, 1 <= s -> valid_out n f 1 s = k -> f <= n).
  { intros n f k Hf Hk s Hs. unfold valid_out, eff. intros E.
    assert (1 * s <= (n - ((f - 1) * 1 + 1) + s)).
    { pose proof (Z.mul_div_le (n - ((f - 1) * 1 + 1) + s) s ltac:(lia)). nia. }
    lia. }
  split; [|split].
  - cbn [well_typed dims fst snd]. repeat (split; [assumption|]). split; [|repeat (split; [assumption|]); assumption].
    intros _. split.
    + replace (pt + r_size r + pb) with (r_padded_h r) by lia. apply (GE _ (Z.of_nat fh) size ltac:(lia) ltac:(lia) sH); auto.
    + fold inW. replace (pl + inW + pr) with (r_padded_w r) by lia. apply (GE _ (Z.of_nat fw) _ ltac:(lia) O1 sW); auto.
  - cbn [dims fst snd conv_out]. fold inW. replace (pt + r_size r + pb) with (r_padded_h r) by lia.
    replace (pl + inW + pr) with (r_padded_w r) by lia. rewrite V1, V2. reflexivity.
  - cbn [dims fst snd conv_out]. fold inW. intros y x Hy Hx. cbn [eval dims fst snd]. fold inH inW.
    unfold slice_image at 2. specialize (V (eval e) y x Hy Hx). unfold raised_conv in V. rewrite RP in V.
    etransitivity; [|exact V]. unfold original_conv. replace (pt + r_size r + pb) with (r_padded_h r) by lia.
    replace (pl + inW + pr) with (r_padded_w r) by lia. reflexivity.
Qed.

Lemma root_good {P} (e e' : net P) : split_root e e' -> well_typed e -> good e e'.
Proof.
  intros R WT. destruct R as [z e n bands E Hn|fh fw sH sW G z e begin size inH inW r|fh fw sH sW G z e begin size pt pb pl pr inH inW r BS RP
    |top bottom lft rgt z pc e begin size inH inW outH r ST SL S1 S2 RS|f e1 e2 begin size|f c e begin size|e begin size others ch cand ins as_op HO HC].
  - eapply split_good; eauto.
  - apply raise_valid_good; auto.
  - apply raise_same_good; auto.
  - cbn [well_typed dims fst] in WT. destruct WT as (B1 & B2 & B3 & P1 & P2 & P3 & P4 & WT). destruct (dims_pos e WT) as [D1 D2].
    destruct (raise_pad_ok z inH inW top bottom lft rgt pc begin size D1 D2 P1 P2 P3 P4 ST SL B1 B2 B3)
      as (FT & _ & RL & RR & RH & _ & _ & V).
    fold outH in FT, V, RL, RR, RH. fold r in FT, V, RL, RR, RH.
    destruct (proj2 FT (conj S1 S2)) as [F1 F2].
    assert (RT : 0 <= rp_top r /\ 0 <= rp_bottom r).
    { unfold r, raise_pad. assert (Q1 : Z.quot (outH - inH) 2 = top) by (unfold outH; rewrite Z.quot_div_nonneg by lia; rewrite ST at 2; f_equal; lia).
      rewrite Q1. destruct (begin =? 0); [|destruct (begin + size =? outH)]; cbn [rp_top rp_bottom]; unfold outH; lia. }
    split; [|split].
    + cbn [well_typed dims]. rewrite RL, RR. tauto.
    + cbn [dims fst snd]. rewrite RL, RR. f_equal. lia.
    + cbn [dims fst snd eval]. intros y x Hy Hx. rewrite (V (conj S1 S2)) by exact Hy. reflexivity.
  - cbn [well_typed dims] in WT. destruct WT as (B1 & B2 & B3 & DE & W1 & W2). split; [|split].
    + cbn [well_typed dims fst snd]. rewrite DE. rewrite DE in B3. tauto.
    + reflexivity.
    + intros y x _ _. reflexivity.
  - cbn [well_typed dims] in WT. split; [|split]; [exact WT|reflexivity|].
    intros y x _ _. reflexivity.
  - cbn [well_typed] in WT. destruct WT as (B1 & B2 & B3 & WT).
    unfold combine_slice in HC. destruct (forallb _ _); [|discriminate].
    destruct (find_candidate _ _ others) as [c|] eqn:FC; [|discriminate].
    destruct (find_candidate_spec _ _ _ _ FC) as [IN K]. destruct (HO c IN) as (cb & cn & -> & C1 & C2 & C3).
    cbn [as_op create_slice sl_begin sl_size nth] in *.
    destruct ((begin =? cb) && (size =? cn)) eqn:EQ; inv HC; cbn [sl_begin sl_size nth].
    + apply andb_true_iff in EQ. destruct EQ as [E1 E2]. apply Z.eqb_eq in E1, E2. subst.
      split; [cbn [well_typed]; tauto|]. split; [reflexivity|intros; reflexivity].
    + cbn [as_op create_slice sl_begin sl_size nth]. split; [cbn [well_typed dims fst]; repeat split; auto; lia|]. split; [reflexivity|].
      intros y x _ _. cbn [eval]. unfold slice_image. f_equal. lia.
Qed.

Lemma step_good {P} (e e' : net P) : split_step e e' -> well_typed e -> good e e'.
Proof.
  induction 1 as [e e' R|same fh fw sH sW G z e e' S IH|t b l r z e e' S IH|f e1 e1' e2 S IH|f e1 e2 e2' S IH|f c e e' S IH|b n e e' S IH|z l1 e e' l2 S IH]; intros WT.
  - apply root_good; auto.
  - apply conv_cong; auto. apply IH. cbn [well_typed] in WT. tauto.
  - apply pad_cong; auto. apply IH. cbn [well_typed] in WT. tauto.
  - cbn [well_typed] in WT. destruct WT as (DE & W1 & W2). destruct (IH W1) as (W' & D & V). split; [|split].
    + cbn [well_typed]. rewrite D. auto.
    + exact D.
    + cbn [dims eval]. intros. rewrite V; auto.
  - cbn [well_typed] in WT. destruct WT as (DE & W1 & W2). destruct (IH W2) as (W' & D & V). split; [|split].
    + cbn [well_typed]. rewrite D. auto.
    + reflexivity.
    + cbn [dims eval]. intros. rewrite V; auto; rewrite <- DE; auto.
  - destruct (IH WT) as (W' & D & V). split; [exact W'|]. split; [exact D|]. cbn [dims eval]. intros. rewrite V; auto.
  - apply slice_cong; auto. apply IH. cbn [well_typed] in WT. tauto.
  - apply concat_cong; auto. apply IH. cbn [well_typed] in WT. destruct WT as (_ & _ & A). apply fold_and_forall in A.
    rewrite Forall_forall in A. apply A. apply in_elt.
Qed.

Theorem C71_splitting_preserves_partial : forall P (e e' : net P),
  clos_refl_trans _ split_step e e' -> well_typed e -> well_typed e' /\ same_result e e'.
Proof.
  intros P e e' H. induction H as [e e' H|e|e e1 e2 H1 IH1 H2 IH2]; intros WT.
  - apply step_good; auto.
  - split; auto. split; [reflexivity|auto].
  - destruct (IH1 WT) as (W1 & D1 & V1). destruct (IH2 W1) as (W2 & D2 & V2). split; auto. split; [congruence|].
    intros y x Hy Hx. rewrite V2 by (rewrite D1; auto). auto.
Qed.

(** A 3x3 SAME convolution after a VALID one, on 10 rows, split in two: 8 rows are computed as two bands of 4; each band
    needs 5 rows of the first convolution, hence 7 rows of the input. *)
Definition two_convs (G1 G2 : list (list Z) -> Z) (img : image Z) : net Z :=
  Conv true 3 3 1 1 G2 0 (Conv false 3 3 1 1 G1 0 (Src 10 6 img)).
Definition two_convs_split (G1 G2 : list (list Z) -> Z) (img : image Z) : net Z :=
  Concat 0
    [Conv false 3 3 1 1 G2 0 (Pad 1 0 1 1 0 (Conv false 3 3 1 1 G1 0 (Slice 0 7 (Src 10 6 img))));
     Conv false 3 3 1 1 G2 0 (Pad 0 1 1 1 0 (Conv false 3 3 1 1 G1 0 (Slice 3 7 (Src 10 6 img))))].
Example C71_concrete : forall G1 G2 img,
  well_typed (two_convs G1 G2 img) /\ dims (two_convs G1 G2 img) = (8, 4) /\
  clos_refl_trans _ split_step (two_convs G1 G2 img) (two_convs_split G1 G2 img).
Proof.
  intros G1 G2 img. split; [cbn; repeat split; try lia|]. split; [reflexivity|].
  set (c1 := Conv false 3 3 1 1 G1 0 (Src 10 6 img)). set (c2 := Conv true 3 3 1 1 G2 0 c1).
  assert (BS : forall b n, (b = 0 /\ n = 4) \/ (b = 4 /\ n = 4) -> band_supported true 8 3 1 8 b n).
  { intros b n H _. change (same_before 8 3 1 1) with 1. lia. }
  (* split *)
  apply rt_trans with (Concat 0 [Slice 0 4 c2; Slice 4 4 c2]).
  { apply rt_step, AtRoot. apply (@SplitOp Z 0 c2 2 [(0, 4); (4, 4)]); [reflexivity|vm_compute; discriminate]. }
  (* raise over the second convolution *)
  apply rt_trans with (Concat 0 [Conv false 3 3 1 1 G2 0 (Pad 1 0 1 1 0 (Slice 0 5 c1)); Slice 4 4 c2]).
  { apply rt_step. apply (@InConcat Z 0 [] _ _ [Slice 4 4 c2]). apply AtRoot.
    apply (@RaiseSame Z 3 3 1 1 G2 0 c1 0 4 1 0 1 1); [apply BS; auto|reflexivity]. }
  apply rt_trans with (Concat 0 [Conv false 3 3 1 1 G2 0 (Pad 1 0 1 1 0 (Slice 0 5 c1)); Conv false 3 3 1 1 G2 0 (Pad 0 1 1 1 0 (Slice 3 5 c1))]).
  { apply rt_step. apply (@InConcat Z 0 [_] _ _ []). apply AtRoot.
    apply (@RaiseSame Z 3 3 1 1 G2 0 c1 4 4 0 1 1 1); [apply BS; auto|reflexivity]. }
  (* raise over the first *)
  apply rt_trans with (Concat 0 [Conv false 3 3 1 1 G2 0 (Pad 1 0 1 1 0 (Conv false 3 3 1 1 G1 0 (Slice 0 7 (Src 10 6 img))));
                                 Conv false 3 3 1 1 G2 0 (Pad 0 1 1 1 0 (Slice 3 5 c1))]).
  { apply rt_step. apply (@InConcat Z 0 [] _ _ [_]). apply InConv, InPad, AtRoot.
    apply (@RaiseValid Z 3 3 1 1 G1 0 (Src 10 6 img) 0 5). }
  apply rt_step. apply (@InConcat Z 0 [_] _ _ []). apply InConv, InPad, AtRoot.
  apply (@RaiseValid Z 3 3 1 1 G1 0 (Src 10 6 img) 3 5).
Qed.

(** Without the restriction to supported bands the result is wrong: the rewritten network is not well typed (the whole
    output of a SAME convolution). *)
Theorem C71_refuted_unsupported : forall (img : image Z) G z,
  let e := Slice 0 4 (Conv true 3 3 1 1 G z (Src 4 4 img)) in
  let r := raise_conv true 4 4 3 3 1 1 4 0 4 in
  well_typed e /\ r_pad r = Some (1, 0, 1, 1) /\
  ~ well_typed (Conv false 3 3 1 1 G z (Pad 1 0 1 1 z (Slice (r_begin r) (r_size r) (Src 4 4 img)))).
Proof. intros img G z e r. split; [cbn; repeat split; try lia; discriminate|]. split; [reflexivity|].
  cbn [well_typed dims fst snd]. change (r_begin r) with 0. change (r_size r) with 5. intros (_ & _ & _ & _ & _ & _ & _ & _ & _ & _ & _ & K & _). lia. Qed.

Print Assumptions C71_splitting_preserves_partial.
