From Verif Require Import Base ThreadModel ThreadSpec.
Local Open Scope Z_scope.

Lemma ceil_div_spec a b : 0 < b -> a <= ceil_div a b * b < a + b.
Proof.
  intros H. unfold ceil_div. Z.to_euclidean_division_equations; nia.
Qed.

Definition sumz (l : list Z) : Z := fold_right Z.add 0 l.

(** the unit splits *)
Lemma dim_splits_unit i : forall dim stride,
  dim_splits i dim stride = map (fun a => a * stride) (dim_splits i dim 1).
Proof.
  induction i as [|i IH]; intros dim stride; cbn [dim_splits]; auto.
  cbv zeta. destruct (_ >? 0) eqn:E; cbn [map]; rewrite (IH _ stride); auto. rewrite Z.mul_1_r. auto.
Qed.

Lemma dim_splits_pos i : forall dim x, In x (dim_splits i dim 1) -> 0 < x.
Proof.
  induction i as [|i IH]; intros dim x H; cbn [dim_splits] in H; [destruct H|].
  cbv zeta in H. destruct (_ >? 0) eqn:E; [destruct H as [<-|H]|]; eauto. lia.
Qed.

Lemma dim_splits_sum i : forall dim, 0 <= dim -> (i = 0%nat -> dim = 0) -> sumz (dim_splits i dim 1) = dim.
Proof.
  induction i as [|i IH]; intros dim Hd H0; cbn [dim_splits]; [rewrite H0; auto|].
  pose proof (ceil_div_spec dim (Z.of_nat (S i)) ltac:(lia)) as C. set (sp := ceil_div _ _) in *.
  cbv zeta.
  assert (0 <= sp <= dim) by nia.
  assert (E : sumz (dim_splits i (dim - sp) 1) = dim - sp).
  { apply IH; [lia|]. intros ->. assert (Z.of_nat 1 = 1) by lia. nia. }
  destruct (sp >? 0) eqn:Es; cbn [sumz fold_right]; unfold sumz in *; lia.
Qed.

Lemma dim_splits_length i : forall dim stride, (length (dim_splits i dim stride) <= i)%nat.
Proof.
  induction i as [|i IH]; intros dim stride; cbn [dim_splits]; cbv zeta; [cbn; lia|].
  destruct (_ >? 0); cbn [length]; pose proof (IH (dim - ceil_div dim (Z.of_nat (S i))) stride); lia.
Qed.

(** balanced: all splits are floor or ceiling of dim/i *)
Lemma dim_splits_balanced i : forall dim q, 0 <= q -> q * Z.of_nat i <= dim <= (q + 1) * Z.of_nat i ->
  forall x, In x (dim_splits i dim 1) -> q <= x <= q + 1.
Proof.
  induction i as [|i IH]; intros dim q Hq Hd x H; cbn [dim_splits] in H; [destruct H|].
  pose proof (ceil_div_spec dim (Z.of_nat (S i)) ltac:(lia)) as C. set (sp := ceil_div _ _) in *.
  cbv zeta in H. rewrite Nat2Z.inj_succ in *.
  assert (q <= sp <= q + 1) by nia.
  assert (R : forall x, In x (dim_splits i (dim - sp) 1) -> q <= x <= q + 1).
  { apply IH; auto. destruct (Z.eq_dec sp q); nia. }
  destruct (sp >? 0) eqn:Es; [destruct H as [<-|H]|]; auto. lia.
Qed.

(* ---- layout ---- *)
Definition in_ival (p : Z * Z) (x : Z) : Prop := fst p <= x < fst p + snd p.

Lemma lay_out_sub D s sub : 0 < s -> 0 <= sub < s ->
  (D mod s <= sub \/ Z.odd D = true) ->
  forall us t splits, us <> [] -> (forall a, In a us -> 0 < a) -> 0 <= t -> t + sumz us = D / s ->
  (if Z.odd D then bump_last (map (fun a => a * s) us) else Some (map (fun a => a * s) us)) = Some splits ->
  (forall k, t <= k -> sub + k * s < D ->
     exists i p, nth_error (lay_out D sub (t * s) splits) i = Some p /\ in_ival p (sub + k * s) /\
       forall j p', nth_error (lay_out D sub (t * s) splits) j = Some p' -> in_ival p' (sub + k * s) -> j = i) /\
  (forall k i p, nth_error (lay_out D sub (t * s) splits) i = Some p -> in_ival p (sub + k * s) ->
      t <= k /\ sub + k * s < D) /\
  (forall i p, nth_error (lay_out D sub (t * s) splits) i = Some p -> sub + t * s <= fst p /\ 0 < snd p).
Proof.
  intros Hs Hsub Hdiv. induction us as [|a us IH]; intros t splits Hne Hpos Ht Hsum Hb; [congruence|].
  assert (Ha : 0 < a) by (apply Hpos; left; auto).
  cbn [sumz fold_right] in Hsum. fold (sumz us) in Hsum.
  assert (Hus0 : 0 <= sumz us).
  { clear -Hpos. assert (H : forall x, In x us -> 0 < x) by (intros; apply Hpos; right; auto). clear Hpos.
    induction us as [|y us IH]; cbn; [lia|]. assert (0 < y) by (apply H; left; auto).
    assert (0 <= sumz us) by (apply IH; intros; apply H; right; auto). unfold sumz in *. lia. }
  assert (HD : D = s * (D / s) + D mod s) by (apply Z.div_mod; lia).
  assert (Hm : 0 <= D mod s < s) by (apply Z.mod_pos_bound; lia).
  destruct us as [|b us].
  - (* last split *)
    cbn [sumz fold_right] in *.
    destruct (Z.odd D) eqn:Eo.
    + cbn [map bump_last] in Hb. injection Hb as <-. cbn [lay_out]. rewrite Eo, andb_true_r.
      set (sp := if _ >? D then _ else _).
      assert (Hsp : (sub + t * s + a * s + 1 <= D /\ sp = a * s + 1) \/
                    (sub + t * s + a * s + 1 > D /\ sp = a * s)).
      { subst sp. destruct (_ >? D) eqn:E; [right|left]; lia. }
      clearbody sp.
      split; [|split].
      * intros k Hk Hkd. exists 0%nat. eexists. cbn [nth_error]. split; [reflexivity|].
        split; [unfold in_ival; cbn [fst snd]|].
        { rewrite <- Hsum in HD. destruct Hsp as [[Hc ->]|[Hc ->]].
          - assert (k < t + a + 1) by nia. nia.
          - assert (k < t + a) by nia. nia. }
        intros [|j] p' Hj _; auto. cbn in Hj. destruct j; discriminate.
      * intros k [|i] p Hi Hin; [|destruct i; discriminate]. cbn in Hi. injection Hi as <-.
        unfold in_ival in Hin. cbn [fst snd] in Hin.
        assert (t <= k) by nia. split; auto. rewrite <- Hsum in HD. destruct Hsp as [[Hc ->]|[Hc ->]]; [lia|assert (k < t + a) by nia; nia].
      * intros [|i] p Hi; [|destruct i; discriminate]. cbn in Hi. injection Hi as <-. cbn [fst snd]. nia.
    + cbn [map] in Hb. injection Hb as <-. cbn [lay_out]. rewrite Eo, andb_false_r.
      destruct Hdiv as [Hdiv|?]; [|congruence].
      split; [|split].
      * intros k Hk Hkd. exists 0%nat. eexists. cbn [nth_error]. split; [reflexivity|].
        split; [unfold in_ival; cbn [fst snd]|].
        { rewrite <- Hsum in HD. assert (k < t + a) by nia. nia. }
        intros [|j] p' Hj _; auto. cbn in Hj. destruct j; discriminate.
      * intros k [|i] p Hi Hin; [|destruct i; discriminate]. cbn in Hi. injection Hi as <-.
        unfold in_ival in Hin. cbn [fst snd] in Hin.
        assert (t <= k) by nia. rewrite <- Hsum in HD. assert (k < t + a) by nia. nia.
      * intros [|i] p Hi; [|destruct i; discriminate]. cbn in Hi. injection Hi as <-. cbn [fst snd]. nia.
  - assert (Hb1 : 1 <= sumz (b :: us)).
    { cbn [sumz fold_right]. assert (Hb0 : 0 < b) by (apply Hpos; right; left; auto).
      assert (H : forall x, In x us -> 0 < x) by (intros; apply Hpos; right; right; auto).
      assert (0 <= sumz us); [|unfold sumz in *; lia]. clear -H.
      induction us as [|y us IH]; cbn; [lia|]. assert (0 < y) by (apply H; left; auto).
      assert (0 <= sumz us) by (apply IH; intros; apply H; right; auto). unfold sumz in *. lia. }
    assert (HS : exists splits', splits = a * s :: splits' /\
      (if Z.odd D then bump_last (map (fun a => a * s) (b :: us)) else Some (map (fun a => a * s) (b :: us))) = Some splits').
    { destruct (Z.odd D).
      - cbn [map] in Hb |- *. cbn [bump_last] in Hb. 
        change (match us with [] => _ | _ => _ end) with (bump_last (map (fun a0 => a0 * s) (b :: us))) in Hb || idtac.
        cbn [map] in Hb.
        destruct (bump_last (b * s :: map (fun a0 => a0 * s) us)) as [l|] eqn:E.
        + exists l. split; auto. cbn [bump_last] in E. rewrite E in Hb. congruence.
        + exfalso. cbn [bump_last] in E. rewrite E in Hb. discriminate.
      - cbn [map] in Hb |- *. injection Hb as <-. eauto. }
    destruct HS as (splits' & -> & Hb').
    cbn [lay_out].
    replace ((t * s + sub + a * s >? D) && Z.odd D) with false.
    2: { symmetry. apply andb_false_iff. left. apply Z.gtb_ltb, Z.ltb_ge || idtac. nia. }
    cbv iota. replace (t * s + a * s) with ((t + a) * s) by lia.
    destruct (IH (t + a) splits') as (I1 & I2 & I3); auto; try lia; try discriminate.
    { intros x Hx. apply Hpos. right; auto. }
    split; [|split].
    + intros k Hk Hkd. destruct (Z.lt_ge_cases k (t + a)) as [Hlt|Hge].
      * exists 0%nat. eexists. split; [reflexivity|]. split; [unfold in_ival; cbn [fst snd]; nia|].
        intros [|j] p' Hj Hin; auto. exfalso. cbn in Hj. destruct (I2 k j p' Hj Hin). lia.
      * destruct (I1 k Hge Hkd) as (i & p & Hi & Hin & Hu). exists (S i), p. split; auto. split; auto.
        intros [|j] p' Hj Hin'; [|f_equal; eapply Hu; eauto].
        exfalso. cbn in Hj. injection Hj as <-. unfold in_ival in Hin'. cbn [fst snd] in Hin'. nia.
    + intros k [|i] p Hi Hin.
      * cbn in Hi. injection Hi as <-. unfold in_ival in Hin. cbn [fst snd] in Hin. nia.
      * cbn in Hi. destruct (I2 k i p Hi Hin). lia.
    + intros [|i] p Hi.
      * cbn in Hi. injection Hi as <-. cbn [fst snd]. nia.
      * cbn in Hi. destruct (I3 i p Hi). nia.
Qed.

(** with stride 1 and no offset the laid out lengths are the splits themselves *)
Lemma lay_out_spec D s sub : 0 < s -> 0 <= sub < s ->
  (D mod s = 0 \/ Z.odd D = true) ->
  forall us t splits, us <> [] -> (forall a, In a us -> 0 < a) -> 0 <= t -> t + sumz us = D / s ->
  (if Z.odd D then bump_last (map (fun a => a * s) us) else Some (map (fun a => a * s) us)) = Some splits ->
  (forall k, t <= k -> sub + k * s < D ->
     exists i p, nth_error (lay_out D sub (t * s) splits) i = Some p /\ in_ival p (sub + k * s) /\
       forall j p', nth_error (lay_out D sub (t * s) splits) j = Some p' -> in_ival p' (sub + k * s) -> j = i) /\
  (forall k i p, nth_error (lay_out D sub (t * s) splits) i = Some p -> in_ival p (sub + k * s) ->
      t <= k /\ sub + k * s < D) /\
  (forall i p, nth_error (lay_out D sub (t * s) splits) i = Some p -> sub + t * s <= fst p /\ 0 < snd p).
Proof. intros Hs Hb [E|E]; apply lay_out_sub; auto. left. lia. Qed.

Lemma lay_out_unit D : forall us t splits, (forall a, In a us -> 0 < a) -> t + sumz us = D ->
  (if Z.odd D then bump_last us else Some us) = Some splits ->
  map snd (lay_out D 0 t splits) = us.
Proof.
  induction us as [|a us IH]; intros t splits Hpos Hsum Hb.
  - destruct (Z.odd D); cbn in Hb; [discriminate|]. injection Hb as <-. reflexivity.
  - cbn [sumz fold_right] in Hsum. fold (sumz us) in Hsum.
    destruct us as [|b us].
    + cbn [sumz fold_right] in Hsum. destruct (Z.odd D) eqn:Eo; cbn [bump_last] in Hb; injection Hb as <-;
      cbn [lay_out map snd]; rewrite Eo.
      * replace (t + 0 + (a + 1) >? D) with true by lia. cbn. f_equal. lia.
      * rewrite andb_false_r. reflexivity.
    + assert (HS : exists splits', splits = a :: splits' /\
        (if Z.odd D then bump_last (b :: us) else Some (b :: us)) = Some splits').
      { destruct (Z.odd D); [|injection Hb as <-; eauto].
        destruct (bump_last (b :: us)) as [l|] eqn:E.
        - exists l. split; auto. cbn [bump_last] in Hb, E. rewrite E in Hb. congruence.
        - exfalso. cbn [bump_last] in Hb, E. rewrite E in Hb. discriminate. }
      destruct HS as (splits' & -> & Hb').
      assert (Hb1 : 1 <= sumz (b :: us)).
      { cbn [sumz fold_right]. assert (Hb0 : 0 < b) by (apply Hpos; right; left; auto).
        assert (H : forall x, In x us -> 0 < x) by (intros; apply Hpos; right; right; auto).
        assert (0 <= sumz us); [|unfold sumz in *; lia]. clear -H.
        induction us as [|y us IH]; cbn; [lia|]. assert (0 < y) by (apply H; left; auto).
        assert (0 <= sumz us) by (apply IH; intros; apply H; right; auto). unfold sumz in *. lia. }
      cbn [lay_out]. replace (t + 0 + a >? D) with false by lia. cbn [andb map snd]. f_equal.
      apply IH; auto; [|lia]. intros x Hx. apply Hpos. right; auto.
Qed.

Lemma bump_last_some l : l <> [] -> exists l', bump_last l = Some l'.
Proof.
  induction l as [|x l IH]; intros H; [congruence|]. destruct l as [|y l]; [cbn; eauto|].
  destruct IH as [l' E]; [discriminate|]. exists (x :: l'). cbn [bump_last] in *. rewrite E. auto.
Qed.

Lemma chosen_splits D s n : 0 < s <= D -> (0 < n)%nat ->
  exists us splits, dim_splits n (D / s) s = map (fun a => a * s) us /\ us = dim_splits n (D / s) 1 /\
    us <> [] /\ (forall a, In a us -> 0 < a) /\ sumz us = D / s /\
    (if Z.odd D then bump_last (dim_splits n (D / s) s) else Some (dim_splits n (D / s) s)) = Some splits /\
    (if Z.odd D then bump_last (map (fun a => a * s) us) else Some (map (fun a => a * s) us)) = Some splits.
Proof.
  intros Hs Hn. set (us := dim_splits n (D / s) 1).
  assert (Hq : 1 <= D / s) by (apply Z.div_le_lower_bound; lia).
  assert (E : dim_splits n (D / s) s = map (fun a => a * s) us) by (apply dim_splits_unit).
  assert (Sm : sumz us = D / s) by (apply dim_splits_sum; lia).
  assert (Ne : us <> []) by (intros C; rewrite C in Sm; cbn in Sm; lia).
  assert (Hx : exists splits, (if Z.odd D then bump_last (map (fun a => a * s) us) else Some (map (fun a => a * s) us)) = Some splits).
  { destruct (Z.odd D); [|eauto]. apply bump_last_some. destruct us; [congruence|discriminate]. }
  destruct Hx as [splits Hx]. exists us, splits. rewrite E. repeat split; auto.
  intros a Ha. eapply dim_splits_pos; eauto.
Qed.

Lemma consecutive_bounds l : forall a b, consecutive a l b ->
  forall j p', nth_error l j = Some p' -> a <= fst p' /\ fst p' < snd p' /\ snd p' <= b.
Proof.
  induction l as [|[s e] l IH]; intros a b C j p' Hj; [destruct j; discriminate|].
  destruct C as (-> & C1 & C2).
  assert (Hle : forall l x y, consecutive x l y -> x <= y).
  { clear. induction l as [|[s e] l IH]; intros x y H; cbn in H; [lia|]. destruct H as (-> & H1 & H2). specialize (IH e y H2). lia. }
  destruct j as [|j]; cbn in Hj.
  - injection Hj as <-. cbn. pose proof (Hle _ _ _ C2). lia.
  - destruct (IH e b C2 j p' Hj). lia.
Qed.

Lemma consecutive_one l : forall a b, consecutive a l b -> forall c, a <= c < b ->
  exists i p, nth_error l i = Some p /\ fst p <= c < snd p /\
    forall j p', nth_error l j = Some p' -> fst p' <= c < snd p' -> j = i.
Proof.
  pose proof consecutive_bounds as Lo.
  induction l as [|[s e] l IH]; intros a b C c Hc; [cbn in C; lia|].
  destruct C as (-> & C1 & C2).
  destruct (Z.lt_ge_cases c e) as [H|H].
  - exists 0%nat, (a, e). split; auto. split; [cbn; lia|].
    intros [|j] p' Hj Hp; auto. cbn in Hj. pose proof (Lo _ _ _ C2 j p' Hj). lia.
  - destruct (IH e b C2 c ltac:(lia)) as (i & p & H1 & H2 & H3). exists (S i), p. split; auto. split; auto.
    intros [|j] p' Hj Hp; [cbn in Hj; injection Hj as <-; cbn in Hp; lia|]. f_equal. eapply H3; eauto.
Qed.

Lemma nth_error_map_inv {A B} (f : A -> B) l i y : nth_error (map f l) i = Some y ->
  exists x, nth_error l i = Some x /\ y = f x.
Proof.
  rewrite nth_error_map. destruct (nth_error l i) as [x|]; cbn; intros H; [injection H as <-; eauto|discriminate].
Qed.

Lemma chosen_tiling ds n H W D subH subW sH sW :
  (0 < n)%nat -> 1 <= H -> 1 <= W -> 0 <= subH < sH -> 0 <= subW < sW ->
  (if choose_height (Z.of_nat n) (H / sH) (W / sW) then sH <= H /\ (H mod sH <= subH \/ Z.odd H = true) else sW <= W /\ (W mod sW <= subW \/ Z.odd W = true)) ->
  consecutive 0 ds D ->
  exists rs, get_image_region_thread_splits ds n H W D subH subW sH sW = Some rs /\
    (forall y x c, in_image H W D y x c -> on_grid subH sH y -> on_grid subW sW x -> exactly_one rs y x c) /\
    (forall i r y x c, nth_error rs i = Some r -> on_grid subH sH y -> on_grid subW sW x ->
        in_region r y x c -> in_image H W D y x c).
Proof.
  intros Hn HH HW HbH HbW Hd Hds. unfold get_image_region_thread_splits.
  destruct (_ && _) eqn:E1.
  - (* 1x1 *)
    eexists; split; [reflexivity|]. split.
    + intros y x c (I1 & I2 & I3) _ _.
      destruct (consecutive_one ds 0 D Hds c I3) as (i & p & H1 & H2 & H3).
      exists i, (Region 0 0 (fst p) H W (snd p - fst p)). split; [rewrite nth_error_map, H1; auto|].
      split; [unfold in_region; cbn; lia|].
      intros j r' Hj Hin. apply nth_error_map_inv in Hj. destruct Hj as (p' & Hj & ->).
      unfold in_region in Hin. cbn in Hin. eapply H3; eauto. lia.
    + intros i r y x c Hi _ _ Hin. apply nth_error_map_inv in Hi. destruct Hi as (p & Hi & ->).
      unfold in_region in Hin. cbn in Hin. pose proof (consecutive_bounds ds 0 D Hds i p Hi).
      unfold in_image. lia.
  - cbv zeta. destruct (choose_height _ _ _); destruct Hd as [Hl Hd].
    + destruct (chosen_splits H sH n ltac:(lia) Hn) as (us & splits & X1 & X2 & X3 & X4 & X5 & X6 & X7).
      rewrite X6. eexists; split; [reflexivity|].
      destruct (lay_out_sub H sH subH ltac:(lia) HbH Hd us 0 splits X3 X4 ltac:(lia) ltac:(lia) X7) as (L1 & L2 & L3).
      rewrite Z.mul_0_l in L1, L2, L3.
      split.
      * intros y x c (I1 & I2 & I3) (k & Hk & ->) _.
        destruct (L1 k Hk ltac:(lia)) as (i & p & P1 & P2 & P3). unfold in_ival in P2.
        exists i, (Region (fst p) 0 0 (snd p) W D). split; [rewrite nth_error_map, P1; auto|].
        split; [unfold in_region; cbn; lia|].
        intros j r' Hj Hin. apply nth_error_map_inv in Hj. destruct Hj as (p' & Hj & ->).
        unfold in_region in Hin. cbn in Hin. eapply P3; eauto. unfold in_ival. lia.
      * intros i r y x c Hi (k & Hk & ->) _ Hin. apply nth_error_map_inv in Hi. destruct Hi as (p & Hi & ->).
        unfold in_region in Hin. cbn in Hin.
        destruct (L2 k i p Hi) as [Q1 Q2]; [unfold in_ival; lia|]. unfold in_image. nia.
    + destruct (chosen_splits W sW n ltac:(lia) Hn) as (us & splits & X1 & X2 & X3 & X4 & X5 & X6 & X7).
      rewrite X6. eexists; split; [reflexivity|].
      destruct (lay_out_sub W sW subW ltac:(lia) HbW Hd us 0 splits X3 X4 ltac:(lia) ltac:(lia) X7) as (L1 & L2 & L3).
      rewrite Z.mul_0_l in L1, L2, L3.
      split.
      * intros y x c (I1 & I2 & I3) _ (k & Hk & ->).
        destruct (L1 k Hk ltac:(lia)) as (i & p & P1 & P2 & P3). unfold in_ival in P2.
        exists i, (Region 0 (fst p) 0 H (snd p) D). split; [rewrite nth_error_map, P1; auto|].
        split; [unfold in_region; cbn; lia|].
        intros j r' Hj Hin. apply nth_error_map_inv in Hj. destruct Hj as (p' & Hj & ->).
        unfold in_region in Hin. cbn in Hin. eapply P3; eauto. unfold in_ival. lia.
      * intros i r y x c Hi _ (k & Hk & ->) Hin. apply nth_error_map_inv in Hi. destruct Hi as (p & Hi & ->).
        unfold in_region in Hin. cbn in Hin.
        destruct (L2 k i p Hi) as [Q1 Q2]; [unfold in_ival; lia|]. unfold in_image. nia.
Qed.

Lemma grid_tiling ds n H W D subH subW sH sW :
  (0 < n)%nat -> 0 < sH <= H -> 0 < sW <= W -> 0 <= subH < sH -> 0 <= subW < sW ->
  (H mod sH = 0 \/ Z.odd H = true) -> (W mod sW = 0 \/ Z.odd W = true) ->
  consecutive 0 ds D ->
  exists rs, get_image_region_thread_splits ds n H W D subH subW sH sW = Some rs /\
    (forall y x c, in_image H W D y x c -> on_grid subH sH y -> on_grid subW sW x -> exactly_one rs y x c) /\
    (forall i r y x c, nth_error rs i = Some r -> on_grid subH sH y -> on_grid subW sW x ->
        in_region r y x c -> in_image H W D y x c).
Proof.
  intros Hn HsH HsW HbH HbW HdH HdW Hds. apply chosen_tiling; auto; try lia. destruct (choose_height _ _ _); (split; [lia|]); [destruct HdH|destruct HdW]; auto; left; lia.
Qed.
(** The other direction: what the splits leave out. *)
Lemma lay_out_even D sub : Z.odd D = false -> forall splits top p, (forall a, In a splits -> 0 <= a) -> In p (lay_out D sub top splits) -> fst p + snd p <= sub + top + sumz splits.
Proof.
  intros E. induction splits as [|a l IH]; intros top p Hp Hi; [destruct Hi|]. cbn [lay_out] in Hi. rewrite E, andb_false_r in Hi.
  assert (S0 : 0 <= sumz l). { clear - Hp. assert (H : forall x, In x l -> 0 <= x) by (intros; apply Hp; right; auto). clear Hp. induction l as [|y l IH]; cbn; [lia|]. assert (0 <= y) by (apply H; left; auto). assert (0 <= sumz l) by (apply IH; intros; apply H; right; auto). unfold sumz in *. lia. }
  cbn [sumz fold_right]. fold (sumz l). destruct Hi as [<-|Hi]; [cbn [fst snd]; lia|]. pose proof (IH (top + a) p (fun x Hx => Hp x (or_intror Hx)) Hi). lia.
Qed.
Lemma chosen_left_out D s sub n : (0 < n)%nat -> 0 <= sub < s -> 1 <= D -> sub < D -> ~ (s <= D /\ (D mod s <= sub \/ Z.odd D = true)) ->
  match (if Z.odd D then bump_last (dim_splits n (D / s) s) else Some (dim_splits n (D / s) s)) with
  | None => True
  | Some splits => exists k, 0 <= k /\ sub + k * s < D /\ forall p, In p (lay_out D sub 0 splits) -> ~ in_ival p (sub + k * s)
  end.
Proof.
  intros Hn Hb HD Hs H. rewrite (dim_splits_unit n (D / s) s). set (us := dim_splits n (D / s) 1).
  assert (Q : 0 <= D / s) by (apply Z.div_pos; lia).
  assert (Sm : sumz us = D / s) by (apply dim_splits_sum; lia). assert (Pos : forall a, In a us -> 0 < a) by (intros a Ha; eapply dim_splits_pos; eauto).
  assert (HDm : D = s * (D / s) + D mod s) by (apply Z.div_mod; lia). assert (Hm : 0 <= D mod s < s) by (apply Z.mod_pos_bound; lia).
  destruct (Z.odd D) eqn:Eo.
  - assert (L : D < s) by (destruct (Z.lt_ge_cases D s) as [|G]; [auto|exfalso; apply H; split; [lia|right; auto]]).
    assert (us = []). { rewrite (Z.div_small D s) in Sm by lia. destruct us as [|a us]; [auto|exfalso]. cbn in Sm. assert (0 < a) by (apply Pos; left; auto).
      assert (0 <= sumz us); [|unfold sumz in *; lia]. clear - Pos. assert (H : forall x, In x us -> 0 < x) by (intros; apply Pos; right; auto). clear Pos.
      induction us as [|y us IH]; cbn; [lia|]. assert (0 < y) by (apply H; left; auto). assert (0 <= sumz us) by (apply IH; intros; apply H; right; auto). unfold sumz in *. lia. }
    rewrite H0. exact I.
  - exists (D / s). split; [lia|].
    assert (G : sub < D mod s). { destruct (Z.lt_ge_cases D s) as [L|L]; [rewrite Z.mod_small by lia; lia|]. destruct (Z.lt_ge_cases sub (D mod s)); [auto|exfalso; apply H; split; [lia|left; lia]]. }
    split; [nia|]. intros p Hp Hin. unfold in_ival in Hin.
    assert (B : fst p + snd p <= sub + 0 + sumz (map (fun a => a * s) us)).
    { apply (lay_out_even D sub Eo _ 0 p); [|exact Hp]. intros a Ha. apply in_map_iff in Ha. destruct Ha as (u & <- & Hu). apply Pos in Hu. nia. }
    assert (SM : sumz (map (fun a => a * s) us) = sumz us * s). { clear. induction us as [|a us IH]; cbn; [lia|]. unfold sumz in *. rewrite IH. cbn [fold_right]. lia. }
    rewrite SM, Sm in B. nia.
Qed.
Lemma chosen_needed ds n H W D subH subW sH sW rs :
  (0 < n)%nat -> 1 <= H -> 1 <= W -> 1 <= D -> 0 <= subH < sH -> 0 <= subW < sW -> subH < H -> subW < W ->
  get_image_region_thread_splits ds n H W D subH subW sH sW = Some rs ->
  (forall y x c, in_image H W D y x c -> on_grid subH sH y -> on_grid subW sW x -> exactly_one rs y x c) ->
  (if choose_height (Z.of_nat n) (H / sH) (W / sW) then sH <= H /\ (H mod sH <= subH \/ Z.odd H = true) else sW <= W /\ (W mod sW <= subW \/ Z.odd W = true)).
Proof.
  intros Hn HH HW HD HbH HbW LH LW E T. unfold get_image_region_thread_splits in E.
  destruct (_ && _) eqn:E1.
  - assert (H = 1 /\ W = 1 /\ sH = 1 /\ sW = 1) as (-> & -> & -> & ->) by (rewrite !andb_true_iff, !Z.eqb_eq in E1; tauto). destruct (choose_height _ _ _); split; try lia; right; reflexivity.
  - cbv zeta in E. destruct (choose_height _ _ _).
    + assert (Dec : {sH <= H /\ (H mod sH <= subH \/ Z.odd H = true)} + {~ (sH <= H /\ (H mod sH <= subH \/ Z.odd H = true))}).
      { destruct (Z_le_dec sH H); [|right; tauto]. destruct (Z_le_dec (H mod sH) subH); [left; auto|]. destruct (Z.odd H); [left; auto|right; intros [_ [?|?]]; [tauto|discriminate]]. }
      destruct Dec as [G|G]; [exact G|exfalso]. pose proof (chosen_left_out H sH subH n Hn HbH HH LH G) as X.
      destruct (if Z.odd H then _ else _) as [splits|]; [|discriminate]. injection E as <-. destruct X as (k & Hk & Lk & X).
      destruct (T (subH + k * sH) subW 0) as (i & r & Ni & Ir & _); [unfold in_image; nia|exists k; auto|exists 0; lia|].
      apply nth_error_map_inv in Ni. destruct Ni as (p & Np & ->). apply (X p (nth_error_In _ _ Np)). unfold in_region in Ir. cbn in Ir. unfold in_ival. lia.
    + assert (Dec : {sW <= W /\ (W mod sW <= subW \/ Z.odd W = true)} + {~ (sW <= W /\ (W mod sW <= subW \/ Z.odd W = true))}).
      { destruct (Z_le_dec sW W); [|right; tauto]. destruct (Z_le_dec (W mod sW) subW); [left; auto|]. destruct (Z.odd W); [left; auto|right; intros [_ [?|?]]; [tauto|discriminate]]. }
      destruct Dec as [G|G]; [exact G|exfalso]. pose proof (chosen_left_out W sW subW n Hn HbW HW LW G) as X.
      destruct (if Z.odd W then _ else _) as [splits|]; [|discriminate]. injection E as <-. destruct X as (k & Hk & Lk & X).
      destruct (T subH (subW + k * sW) 0) as (i & r & Ni & Ir & _); [unfold in_image; nia|exists 0; lia|exists k; auto|].
      apply nth_error_map_inv in Ni. destruct Ni as (p & Np & ->). apply (X p (nth_error_In _ _ Np)). unfold in_region in Ir. cbn in Ir. unfold in_ival. lia.
Qed.


Lemma lay_out_length D sub : forall l t, length (lay_out D sub t l) = length l.
Proof. induction l as [|a l IH]; intros t; cbn [lay_out length]; auto. Qed.

Lemma bump_last_length l : forall l', bump_last l = Some l' -> length l' = length l.
Proof.
  induction l as [|x l IH]; intros l' H; [discriminate|]. destruct l as [|y l].
  - injection H as <-. auto.
  - destruct (bump_last (y :: l)) as [l2|] eqn:E.
    + assert (l' = x :: l2) by (cbn [bump_last] in H, E; rewrite E in H; congruence). subst.
      cbn [length]. rewrite (IH l2 eq_refl). auto.
    + cbn [bump_last] in H, E. rewrite E in H. discriminate.
Qed.

Lemma unit_balance ds n H W D rs :
  (0 < n)%nat -> 1 <= H -> 1 <= W -> 1 <= D -> (length ds <= n)%nat -> consecutive 0 ds D ->
  get_image_region_thread_splits ds n H W D 0 0 1 1 = Some rs ->
  (length rs <= n)%nat /\
  (forall r, In r rs -> 1 <= r_rows r /\ 1 <= r_cols r /\ 1 <= r_chs r) /\
  (forall r r', In r rs -> In r' rs -> r_rows r <= r_rows r' + 1 /\ r_cols r <= r_cols r' + 1).
Proof.
  intros Hn HH HW HD Hl Hds. unfold get_image_region_thread_splits.
  destruct (_ && _) eqn:E1.
  - intros E. injection E as <-. split; [rewrite map_length; auto|]. split.
    + intros r Hr. apply in_map_iff in Hr. destruct Hr as (p & <- & Hp). cbn.
      apply In_nth_error in Hp. destruct Hp as [i Hi]. pose proof (consecutive_bounds ds 0 D Hds i p Hi). lia.
    + intros r r' Hr Hr'. apply in_map_iff in Hr, Hr'. destruct Hr as (p & <- & Hp), Hr' as (p' & <- & Hp'). cbn. lia.
  - cbv zeta. rewrite !Z.div_1_r.
    assert (Main : forall X splits, 1 <= X ->
      (if Z.odd X then bump_last (dim_splits n X 1) else Some (dim_splits n X 1)) = Some splits ->
      (length (lay_out X 0 0 splits) <= n)%nat /\
      (forall p, In p (lay_out X 0 0 splits) -> 1 <= snd p) /\
      (forall p p', In p (lay_out X 0 0 splits) -> In p' (lay_out X 0 0 splits) -> snd p <= snd p' + 1)).
    { intros X splits HX Hb.
      assert (Pos : forall a, In a (dim_splits n X 1) -> 0 < a) by (intros a; apply dim_splits_pos).
      assert (Sm : sumz (dim_splits n X 1) = X) by (apply dim_splits_sum; lia).
      pose proof (lay_out_unit X _ 0 splits Pos ltac:(lia) Hb) as Eq.
      assert (InU : forall p, In p (lay_out X 0 0 splits) -> In (snd p) (dim_splits n X 1))
        by (intros p Hp; rewrite <- Eq; apply in_map; auto).
      split; [|split].
      - rewrite <- (map_length snd), Eq. apply dim_splits_length.
      - intros p Hp. specialize (Pos _ (InU p Hp)). lia.
      - intros p p' Hp Hp'.
        assert (Q : X / Z.of_nat n * Z.of_nat n <= X <= (X / Z.of_nat n + 1) * Z.of_nat n)
          by (Z.to_euclidean_division_equations; nia).
        assert (0 <= X / Z.of_nat n) by (apply Z.div_pos; lia).
        pose proof (dim_splits_balanced n X (X / Z.of_nat n) H0 Q _ (InU p Hp)).
        pose proof (dim_splits_balanced n X (X / Z.of_nat n) H0 Q _ (InU p' Hp')). lia. }
    destruct (choose_height _ _ _).
    + destruct (if Z.odd H then _ else _) as [splits|] eqn:Eb; [|discriminate]. intros E. injection E as <-.
      destruct (Main H splits HH Eb) as (M1 & M2 & M3).
      split; [rewrite map_length; auto|]. split.
      * intros r Hr. apply in_map_iff in Hr. destruct Hr as (p & <- & Hp). cbn. specialize (M2 p Hp). lia.
      * intros r r' Hr Hr'. apply in_map_iff in Hr, Hr'. destruct Hr as (p & <- & Hp), Hr' as (p' & <- & Hp'). cbn.
        specialize (M3 p p' Hp Hp'). lia.
    + destruct (if Z.odd W then _ else _) as [splits|] eqn:Eb; [|discriminate]. intros E. injection E as <-.
      destruct (Main W splits HW Eb) as (M1 & M2 & M3).
      split; [rewrite map_length; auto|]. split.
      * intros r Hr. apply in_map_iff in Hr. destruct Hr as (p & <- & Hp). cbn. specialize (M2 p Hp). lia.
      * intros r r' Hr Hr'. apply in_map_iff in Hr, Hr'. destruct Hr as (p & <- & Hp), Hr' as (p' & <- & Hp'). cbn.
        specialize (M3 p p' Hp Hp'). lia.
Qed.
