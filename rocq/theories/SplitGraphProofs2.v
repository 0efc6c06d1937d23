(** The patterns of OpSplit.cpp preserve the values (C95): one lemma for each. *)
From Coq Require Import Relations Permutation.
From Verif Require Import Base NdSpec ConvSpec OpSplitModel OpSplitSpec OpSplitProofs OpSplitProps SplitNetModel SplitNetSpec SplitNetProps SplitGraphModel SplitGraphSpec SplitGraphProofs.
Local Open Scope Z_scope.

(** ** local lemmas, from the patterns on networks (C71) *)
Section Local.
Context {P : Type}.
Variables (fh fw : nat) (sH sW : Z) (G : list (list P) -> P) (z : P) (t : gty) (img : image P) (b n : Z) (out : gty).
Hypothesis T1 : 1 <= g_h t. Hypothesis T2 : 1 <= g_w t.
Hypothesis B1 : 0 <= b. Hypothesis B2 : 1 <= n. Hypothesis B3 : b + n <= g_h out.

Lemma valid_local : 
  types_check (OConv false fh fw sH sW G z) [t] out ->
  let r := raise_conv false (g_h t) (g_w t) (Z.of_nat fh) (Z.of_nat fw) sH sW (g_h out) b n in
  let ts := GTy (r_size r) (g_w t) (g_c t) in
  types_check (OConv false fh fw sH sW G z) [ts] (GTy (r_out_h r) (r_out_w r) (g_c out)) ->
  same_value (GTy n (g_w out) (g_c out), slice_image b 0 (original_conv G z false fh fw sH sW (g_h t) (g_w t) img))
             (GTy (r_out_h r) (r_out_w r) (g_c out), original_conv G z false fh fw sH sW (g_h ts) (g_w ts) (slice_image (r_begin r) 0 img)).
Proof.
  intros (_ & _ & TC) r ts (_ & _ & TC'). destruct TC as (a & E & C1 & C2 & C3 & C4 & C5 & C6 & C7). injection E as <-.
  destruct TC' as (a & E & _ & _ & _ & _ & _ & C6' & C7'). injection E as <-. subst ts. cbn [g_h g_w g_c] in *.
  assert (WT : well_typed (Slice b n (Conv false fh fw sH sW G z (Src (g_h t) (g_w t) img)))).
  { cbn [well_typed dims fst snd]. rewrite <- C6. tauto. }
  pose proof (root_good _ _ (RaiseValid fh fw sH sW G z (Src (g_h t) (g_w t) img) b n) WT) as GD.
  cbn [dims fst snd] in GD. rewrite <- C6 in GD. fold r in GD. destruct GD as (_ & D & EV). cbn [dims fst snd] in D, EV.
  assert (D1 := f_equal fst D). assert (D2 := f_equal snd D). cbn [fst snd] in D1, D2. split.
  - cbn [fst]. rewrite C6', C7', D1, C7. reflexivity.
  - cbn [fst snd g_h g_w]. intros y x Hy Hx. rewrite C7 in Hx. specialize (EV y x Hy Hx). cbn [eval dims fst snd] in EV. congruence.
Qed.

Lemma same_local pt pb pl pr :
  types_check (OConv true fh fw sH sW G z) [t] out ->
  let r := raise_conv true (g_h t) (g_w t) (Z.of_nat fh) (Z.of_nat fw) sH sW (g_h out) b n in
  r_pad r = Some (pt, pb, pl, pr) ->
  let ts := GTy (r_size r) (g_w t) (g_c t) in
  let tp := GTy (r_padded_h r) (r_padded_w r) (g_c t) in
  0 <= r_begin r -> 1 <= r_size r -> r_begin r + r_size r <= g_h t -> 
  types_check (OPad pt pb pl pr z) [ts] tp ->
  types_check (OConv false fh fw sH sW G z) [tp] (GTy (r_out_h r) (r_out_w r) (g_c out)) ->
  same_value (GTy n (g_w out) (g_c out), slice_image b 0 (original_conv G z true fh fw sH sW (g_h t) (g_w t) img))
             (GTy (r_out_h r) (r_out_w r) (g_c out),
              original_conv G z false fh fw sH sW (g_h tp) (g_w tp) (pad_image (g_h ts) (g_w ts) z pt pl (slice_image (r_begin r) 0 img))).
Proof.
  intros (_ & _ & TC) r RP ts tp S1 S2 S3 (_ & _ & TP) (_ & _ & TC'). destruct TC as (a & E & C1 & C2 & C3 & C4 & C5 & C6 & C7). injection E as <-.
  destruct TC' as (a & E & _ & _ & _ & _ & _ & C6' & C7'). injection E as <-.
  destruct TP as (a & E & _ & _ & _ & _ & EP). injection E as <-. subst ts tp. cbn [g_h g_w g_c] in *. injection EP as EP1 EP2.
  assert (WT : well_typed (Slice b n (Conv true fh fw sH sW G z (Src (g_h t) (g_w t) img)))).
  { cbn [well_typed dims fst snd]. rewrite <- C6. repeat split; auto; congruence. }
  assert (BS : band_supported true (g_h t) (Z.of_nat fh) sH (conv_out true (g_h t) (Z.of_nat fh) sH) b n).
  { destruct (C26_same_partial P P G z fh fw (g_h t) (g_w t) sH sW b n C1 C2 T1 T2 C3 C4 B1 B2) as [FT _].
    { change (same_out (g_h t) sH) with (conv_out true (g_h t) (Z.of_nat fh) sH). rewrite <- C6. exact B3. }
    change (same_out (g_h t) sH) with (conv_out true (g_h t) (Z.of_nat fh) sH) in FT. apply FT. rewrite <- C6. fold r. auto. }
  assert (RP' := RP). unfold r in RP'. rewrite C6 in RP'.
  pose proof (root_good _ _ (RaiseSame fh fw sH sW G z (Src (g_h t) (g_w t) img) b n pt pb pl pr BS RP') WT) as GD.
  cbn [dims fst snd] in GD. rewrite <- C6 in GD. fold r in GD. destruct GD as (_ & D & EV). cbn [dims fst snd] in D, EV.
  assert (D1 := f_equal fst D). assert (D2 := f_equal snd D). cbn [fst snd] in D1, D2. split.
  - cbn [fst]. rewrite C6', C7', EP1, EP2, D1, D2, C7. reflexivity.
  - cbn [fst snd g_h g_w]. intros y x Hy Hx. rewrite C7 in Hx. specialize (EV y x Hy Hx). cbn [eval dims fst snd] in EV. rewrite EP1, EP2. congruence.
Qed.
End Local.

Lemma pad_local {P} (z : P) (t : gty) (img : image P) top bottom lft rgt b n (out : gty) :
  1 <= g_h t -> 1 <= g_w t -> 0 <= b -> 1 <= n -> b + n <= g_h out ->
  types_check (OPad top bottom lft rgt z) [t] out -> top = (top + bottom) / 2 -> lft = (lft + rgt) / 2 ->
  let r := raise_pad (g_h t) (g_w t) (g_h out) (g_w out) (0, 0) b n in
  let ts := GTy (rp_size r) (g_w t) (g_c t) in
  0 <= rp_begin r -> rp_begin r + rp_size r <= g_h t ->
  same_value (GTy n (g_w out) (g_c out), slice_image b 0 (pad_image (g_h t) (g_w t) z top lft img))
             (GTy (rp_out_h r) (rp_out_w r) (g_c out),
              pad_image (g_h ts) (g_w ts) z (rp_top r) (rp_left r) (slice_image (rp_begin r) 0 img)).
Proof.
  intros T1 T2 B1 B2 B3 (_ & _ & TC) ST SL r ts S1 S2. destruct TC as (a & E & P1 & P2 & P3 & P4 & EO). injection E as <-.
  subst ts. cbn [g_h g_w].
  destruct (raise_pad_ok z (g_h t) (g_w t) top bottom lft rgt (0, 0) b n T1 T2 P1 P2 P3 P4 ST SL B1 B2) as (FT & _ & RL & RR & RH & RO & RW & V).
  { rewrite EO in B3. exact B3. }
  assert (ER : r = raise_pad (g_h t) (g_w t) (top + g_h t + bottom) (lft + g_w t + rgt) (0, 0) b n) by (unfold r; rewrite EO; reflexivity).
  rewrite <- ER in FT, RL, RR, RH, RO, RW, V. split.
  - cbn [fst]. rewrite RO, RW, EO. reflexivity.
  - cbn [fst snd g_h g_w]. intros y x Hy _. rewrite V by (try exact Hy; apply FT; auto). reflexivity.
Qed.

Section Patterns.
Context {P : Type}.
Variable dz : P.

(** ** operations whose attributes change *)
Definition upd (d' n : node P) : node P := if Nat.eqb (n_dst n) (n_dst d') then d' else n.
Lemma replace_one (f : graph P) d' : g_body (replace f (n_dst d') [d']) = map (upd d') (g_body f).
Proof.
  unfold replace. cbn [g_body]. induction (g_body f) as [|n l IH]; [reflexivity|]. cbn [flat_map map]. rewrite IH. unfold upd at 2.
  destruct (Nat.eqb (n_dst n) (n_dst d')); reflexivity.
Qed.
Section Update.
Variables (f : graph P) (d d' : node P).
Hypothesis VF : verified f. Hypothesis ID : In d (g_body f).
Hypothesis ED : n_dst d' = n_dst d. Hypothesis EA : n_args d' = n_args d. Hypothesis ET : n_ty d' = n_ty d.
Lemma upd_old n : In n (g_body f) -> upd d' n = n \/ (n = d /\ upd d' n = d').
Proof.
  intros I. unfold upd. destruct (Nat.eqb_spec (n_dst n) (n_dst d')); [right|left; auto]. split; [|auto].
  assert (F1 := verified_def f n VF I). assert (F2 := verified_def f d VF ID). rewrite <- ED, <- e, F1 in F2. congruence.
Qed.
Lemma update_type x : type_of (replace f (n_dst d) [d']) x = type_of f x.
Proof.
  unfold type_of. cbn [replace g_params]. destruct (find _ (g_params f)); [reflexivity|]. unfold def_of. rewrite <- ED, replace_one.
  assert (K : forall l, incl l (g_body f) -> match find (fun n => Nat.eqb (n_dst n) x) (map (upd d') l) with Some n => n_ty n | None => GTy 0 0 0 end =
                        match find (fun n => Nat.eqb (n_dst n) x) l with Some n => n_ty n | None => GTy 0 0 0 end).
  { induction l as [|n l IH]; intros IL; [reflexivity|]. cbn [map find]. destruct (upd_old n (IL n (or_introl eq_refl))) as [->|[-> ->]].
    - destruct (Nat.eqb (n_dst n) x); [reflexivity|]. apply IH. intros m Hm. apply IL. right. auto.
    - rewrite ED. destruct (Nat.eqb (n_dst d) x); [auto|]. apply IH. intros m Hm. apply IL. right. auto. }
  apply K. apply incl_refl.
Qed.
Lemma update_fresh k : fresh (replace f (n_dst d) [d']) k = fresh f k.
Proof.
  unfold fresh. cbn [replace g_params g_rets]. change (flat_map (fun n => if Nat.eqb (n_dst n) (n_dst d) then [d'] else [n]) (g_body f)) with (g_body (replace f (n_dst d) [d'])).
  rewrite <- ED, replace_one.
  assert (K : forall l, incl l (g_body f) -> map n_dst (map (upd d') l) = map n_dst l /\ flat_map n_args (map (upd d') l) = flat_map n_args l).
  { induction l as [|n l IH]; intros IL; [auto|]. cbn [map flat_map]. destruct IH as [H1 H2]; [intros m Hm; apply IL; right; auto|]. rewrite H1, H2.
    destruct (upd_old n (IL n (or_introl eq_refl))) as [->|[-> ->]]; [auto|]. rewrite ED, EA. auto. }
  destruct (K (g_body f) (incl_refl _)) as [-> ->]. reflexivity.
Qed.
End Update.

(** ** the general step *)
Lemma rewrite_same (f g : graph P) pre : verified f -> verified g -> g_params g = g_params f -> g_rets g = g_rets f ->
  in_order (names f) pre ->
  (forall imgs V, (forall y, In y (names f) -> V y = final dz f imgs y) -> (forall y, In y (names f) -> fst (V y) = type_of f y) ->
    (forall n, In n pre -> V (n_dst n) = node_value dz V n) -> (forall n, In n (g_body f) -> V (n_dst n) = node_value dz V n) ->
    forall n, In n (g_body g) -> In n (g_body f) \/ In n pre \/ same_value (V (n_dst n)) (node_value dz V n)) ->
  agrees dz f g.
Proof.
  intros VF VG EP ER W K. apply by_solution; auto. intros imgs. destruct (extend dz f imgs pre W) as [E1 E2].
  exists (execute dz pre (final dz f imgs)). split; [auto|]. split; [|rewrite ER; apply rets_same].
  intros n In_. destruct (K imgs (execute dz pre (final dz f imgs)) E1) with (n := n) as [I|[I|I]]; auto.
  - intros y Hy. rewrite E1 by auto. apply final_type; auto.
  - intros m Hm. apply (old_node dz f imgs); auto.
  - rewrite (old_node dz f imgs _ n) at 1 by auto. apply same_value_refl.
  - rewrite E2 at 1 by auto. apply same_value_refl.
Qed.
Lemma names_node (f : graph P) n : In n (g_body f) -> In (n_dst n) (names f).
Proof. intros I. unfold names. apply in_or_app. right. apply in_map. auto. Qed.
Lemma positive (f : graph P) x : verified f -> In x (names f) -> 1 <= g_h (type_of f x) /\ 1 <= g_w (type_of f x).
Proof.
  intros VF Hx. unfold names in Hx. apply in_app_or in Hx. destruct Hx as [Hx|Hx]; apply in_map_iff in Hx; destruct Hx as (p & <- & Ip).
  - rewrite verified_param by auto. apply VF. auto.
  - rewrite verified_type by auto. destruct VF as (_ & _ & _ & _ & TC). destruct (TC p Ip) as (A & B & _). auto.
Qed.

Lemma replace_news (f : graph P) s news y : In s (g_body f) -> In y news -> In y (g_body (replace f (n_dst s) news)).
Proof. intros I J. unfold replace. cbn [g_body]. apply in_flat_map. exists s. rewrite Nat.eqb_refl. auto. Qed.
Lemma replace_type (f g : graph P) a t : verified f -> verified g -> g_params g = g_params f ->
  (forall n, In n (g_body f) -> n_dst n = a -> exists n', In n' (g_body g) /\ n_dst n' = a /\ n_ty n' = n_ty n) ->
  In a (names f) -> type_of f a = t -> type_of g a = t.
Proof.
  intros VF VG EP K Ha <-. unfold names in Ha. apply in_app_or in Ha. destruct Ha as [Ha|Ha]; apply in_map_iff in Ha; destruct Ha as (p & <- & Ip).
  - rewrite (verified_param f), (verified_param g); auto. rewrite EP. auto.
  - destruct (K p Ip eq_refl) as (n' & I & E & T). rewrite (verified_type f p) by auto. rewrite <- E, (verified_type g n') by auto. exact T.
Qed.

(** ** definitions come before uses *)
Fixpoint pos (body : list (node P)) (x : nat) : nat :=
  match body with
  | [] => O
  | n :: tl => if Nat.eqb x (n_dst n) then 1%nat else match pos tl x with O => O | k => S k end
  end.
Lemma pos_out body x : ~ In x (map n_dst body) -> pos body x = O.
Proof.
  induction body as [|n l IH]; intros N; [reflexivity|]. cbn [pos]. cbn [map In] in N. destruct (Nat.eqb_spec x (n_dst n)); [exfalso; apply N; left; congruence|].
  rewrite IH; auto.
Qed.
Lemma pos_in body x : In x (map n_dst body) -> (0 < pos body x)%nat.
Proof.
  induction body as [|n l IH]; intros N; [destruct N|]. cbn [pos]. cbn [map In] in N. destruct (Nat.eqb_spec x (n_dst n)); [lia|].
  destruct N as [N|N]; [congruence|]. specialize (IH N). destruct (pos l x); lia.
Qed.
Lemma pos_lt body : forall scope, in_order scope body -> forall n a, In n body -> In a (n_args n) -> (pos body a < pos body (n_dst n))%nat.
Proof.
  induction body as [|m l IH]; intros scope W n a Hn Ha; [destruct Hn|]. assert (W0 := W). cbn [in_order] in W. destruct W as (A & B & C). cbn [pos].
  destruct Hn as [<-|Hn].
  - rewrite Nat.eqb_refl. apply A in Ha. destruct (Nat.eqb_spec a (n_dst m)); [congruence|].
    rewrite pos_out; [lia|]. intros I. apply (in_order_dsts _ _ C a I). right. auto.
  - assert (NE : n_dst n <> n_dst m).
    { intros E. apply (in_order_dsts _ _ C (n_dst n)); [apply in_map; auto|left; auto]. }
    destruct (Nat.eqb_spec (n_dst n) (n_dst m)); [congruence|]. specialize (IH _ C n a Hn Ha).
    assert (PI : (0 < pos l (n_dst n))%nat) by (apply pos_in; apply in_map; auto).
    destruct (pos l (n_dst n)) as [|k]; [lia|]. destruct (Nat.eqb_spec a (n_dst m)); [lia|]. destruct (pos l a); lia.
Qed.
Lemma before (f : graph P) n a : verified f -> In n (g_body f) -> In a (n_args n) -> (pos (g_body f) a < pos (g_body f) (n_dst n))%nat.
Proof. intros (_ & _ & W & _) I J. eapply pos_lt; eauto. Qed.

(** ** slices raised above a convolution *)
Lemma raise_conv_same f s d b n x : verified f -> In s (g_body f) -> n_op s = OSlice b n -> n_args s = [x] -> def_of f x = Some d ->
  (exists same fh fw sH sW G z, n_op d = OConv same fh fw sH sW G z) ->
  verified (raise_over_conv (mark_raised f d) s (mark d) b n) -> agrees dz f (raise_over_conv (mark_raised f d) s (mark d) b n).
Proof.
  intros VF IS OS AS DX (same & fh & fw & sH & sW & G & z & OD). destruct (def_of_in f x d DX) as [ID ED].
  unfold raise_over_conv. cbn [mark n_op n_args n_ty n_label n_start n_num]. rewrite OD.
  assert (TD : types_check (n_op d) (map (type_of f) (n_args d)) (n_ty d)) by (apply VF; auto).
  assert (TS : types_check (n_op s) (map (type_of f) (n_args s)) (n_ty s)) by (apply VF; auto).
  rewrite OD in TD. rewrite OS, AS in TS. cbn [map] in TS. destruct TS as (S1 & S2 & a0 & E & S3 & S4 & S5 & S6). injection E as <-.
  assert (TX : type_of f x = n_ty d) by (rewrite <- ED; apply verified_type; auto). rewrite TX in S5, S6.
  destruct TD as (D1 & D2 & t & E & D3). apply map1 in E. destruct E as (a & EA & <-). rewrite EA.
  assert (NA : In a (names f)) by (eapply verified_args; eauto; rewrite EA; left; auto).
  destruct (positive f a VF NA) as [PA1 PA2].
  assert (LT : (pos (g_body f) a < pos (g_body f) (n_dst d) < pos (g_body f) (n_dst s))%nat).
  { split; [apply before; auto; rewrite EA; left; auto|]. apply before; auto. rewrite AS, ED. left. auto. }
  assert (AS' : a <> n_dst s) by (intros ->; lia). assert (DS : n_dst d <> n_dst s) by (intros EQ; rewrite EQ in LT; lia).
  unfold mark_raised. rewrite (update_type f d (mark d) VF ID eq_refl eq_refl) .
  set (t := type_of f a) in *. rewrite !(update_fresh f d (mark d) VF ID eq_refl eq_refl).
  set (r := raise_conv same (g_h t) (g_w t) (Z.of_nat fh) (Z.of_nat fw) sH sW (g_h (n_ty d)) b n).
  set (g1 := replace f (n_dst d) [mark d]).
  set (sl := Node (fresh f 0) (OSlice (r_begin r) (r_size r)) [a] (GTy (r_size r) (g_w t) (g_c t)) true false None).
  assert (TC : types_check (OConv same fh fw sH sW G z) [t] (n_ty d)).
  { split; [auto|]. split; [auto|]. exists t. auto. }
  assert (IS1 : In s (g_body g1)) by (apply replace_in; auto).
  assert (TA : forall news, verified (replace g1 (n_dst s) news) -> type_of (replace g1 (n_dst s) news) a = t).
  { intros news VG. apply (replace_type f); auto. intros m Im Em. destruct (Nat.eq_dec (n_dst m) (n_dst d)) as [EQ|NQ].
    - exists (mark d). split; [|split].
      + apply replace_in; [|exact DS]. apply replace_news; auto. left. auto.
      + cbn [mark n_dst]. congruence.
      + cbn [mark n_ty]. assert (F1 := verified_def f m VF Im). assert (F2 := verified_def f d VF ID). rewrite EQ, F2 in F1. congruence.
    - exists m. split; [|auto]. apply replace_in; [|congruence]. apply replace_in; auto. }
  destruct (r_pad r) as [[[[pt pb] pl] pr]|] eqn:RP.
  - assert (SM : same = true).
    { destruct same; [auto|]. unfold r, raise_conv in RP. cbn [windowed] in RP. destruct (b + n =? g_h (n_ty d)); discriminate. }
    subst same. intros VG. set (pd := Node (fresh f 1) (OPad pt pb pl pr z) [fresh f 0] (GTy (r_padded_h r) (r_padded_w r) (g_c t)) false false None) in *.
    set (cv := Node (n_dst s) (OConv false fh fw sH sW G z) [fresh f 1] (GTy (r_out_h r) (r_out_w r) (g_c (n_ty d))) (n_label d) (n_start d) (Some (-1))) in *.
    assert (FG : forall y, In y [sl; pd; cv] -> In y (g_body (replace g1 (n_dst s) [sl; pd; cv]))) by (intros y; apply replace_news; auto).
    assert (TG : forall y, In y (g_body (replace g1 (n_dst s) [sl; pd; cv])) -> types_check (n_op y) (map (type_of (replace g1 (n_dst s) [sl; pd; cv])) (n_args y)) (n_ty y)) by (apply VG).
    assert (G0 : type_of (replace g1 (n_dst s) [sl; pd; cv]) (fresh f 0) = n_ty sl).
    { change (fresh f 0) with (n_dst sl). apply verified_type; auto. apply FG. left. auto. }
    assert (G1 : type_of (replace g1 (n_dst s) [sl; pd; cv]) (fresh f 1) = n_ty pd).
    { change (fresh f 1) with (n_dst pd). apply verified_type; auto. apply FG. right. left. auto. }
    assert (T0 := TG sl (FG _ (or_introl eq_refl))). assert (T1 := TG pd (FG _ (or_intror (or_introl eq_refl)))).
    assert (T2 := TG cv (FG _ (or_intror (or_intror (or_introl eq_refl))))).
    cbn [sl pd cv n_op n_args n_ty map] in T0, T1, T2. rewrite G0 in T1. rewrite G1 in T2. rewrite (TA _ VG) in T0. cbn [sl pd n_ty] in T1, T2.
    destruct T0 as (_ & _ & a0 & E & T01 & T02 & T03 & _). injection E as <-.
    apply (rewrite_same f _ [sl; pd]); auto.
    + cbn [in_order n_args n_dst sl pd]. split; [intros y [<-|[]]; auto|]. split; [apply fresh_new|].
      split; [intros y [<-|[]]; left; auto|]. split; [|auto]. intros [E|I]; [apply fresh_inj in E; discriminate|apply (fresh_new f 1 I)].
    + intros imgs V E1 ET E2 E3 m Im. apply in_replace in Im. destruct Im as [[Im NE]|Im].
      * apply in_replace in Im. destruct Im as [[Im _]|[<-|[]]]; [auto|]. right. right.
        change (same_value (V (n_dst d)) (node_value dz V d)). rewrite E3 at 1 by auto. apply same_value_refl.
      * destruct Im as [<-|[<-|[<-|[]]]]; [right; left; left; auto|right; left; right; left; auto|]. right. right.
        change (n_dst cv) with (n_dst s). rewrite E3 by auto.
        assert (S0 := E2 sl (or_introl eq_refl)). assert (S0' := E2 pd (or_intror (or_introl eq_refl))).
        change (n_dst sl) with (fresh f 0) in S0. change (n_dst pd) with (fresh f 1) in S0'.
        unfold node_value in S0, S0'. cbn [sl pd n_op n_args n_ty map eval_op] in S0, S0'.
        unfold node_value at 1. rewrite OS, AS, S6. cbn [map eval_op]. rewrite <- ED, (E3 d ID). unfold node_value at 1. rewrite OD, EA. cbn [map eval_op snd].
        unfold node_value. cbn [cv n_op n_args n_ty map eval_op]. rewrite S0'. cbn [fst snd]. rewrite S0. cbn [fst snd].
        rewrite (ET a NA). fold t.
        exact (same_local fh fw sH sW G z t (snd (V a)) b n (n_ty d) PA1 PA2 S3 S4 S5 pt pb pl pr TC RP T01 T02 T03 T1 T2).
  - assert (SM : same = false).
    { destruct same; [|auto]. unfold r, raise_conv in RP. cbn [windowed] in RP. destruct (b =? 0); [discriminate|]. destruct (b + n =? g_h (n_ty d)); discriminate. }
    subst same. intros VG.
    set (cv := Node (n_dst s) (OConv false fh fw sH sW G z) [fresh f 0] (GTy (r_out_h r) (r_out_w r) (g_c (n_ty d))) (n_label d) (n_start d) (Some (-1))) in *.
    assert (FG : forall y, In y [sl; cv] -> In y (g_body (replace g1 (n_dst s) [sl; cv]))) by (intros y; apply replace_news; auto).
    assert (TG : forall y, In y (g_body (replace g1 (n_dst s) [sl; cv])) -> types_check (n_op y) (map (type_of (replace g1 (n_dst s) [sl; cv])) (n_args y)) (n_ty y)) by (apply VG).
    assert (G0 : type_of (replace g1 (n_dst s) [sl; cv]) (fresh f 0) = n_ty sl).
    { change (fresh f 0) with (n_dst sl). apply verified_type; auto. apply FG. left. auto. }
    assert (T2 := TG cv (FG _ (or_intror (or_introl eq_refl)))).
    cbn [cv n_op n_args n_ty map] in T2. rewrite G0 in T2. cbn [sl n_ty] in T2.
    apply (rewrite_same f _ [sl]); auto.
    + cbn [in_order n_args n_dst sl]. split; [intros y [<-|[]]; auto|]. split; [apply fresh_new|auto].
    + intros imgs V E1 ET E2 E3 m Im. apply in_replace in Im. destruct Im as [[Im NE]|Im].
      * apply in_replace in Im. destruct Im as [[Im _]|[<-|[]]]; [auto|]. right. right.
        change (same_value (V (n_dst d)) (node_value dz V d)). rewrite E3 at 1 by auto. apply same_value_refl.
      * destruct Im as [<-|[<-|[]]]; [right; left; left; auto|]. right. right.
        change (n_dst cv) with (n_dst s). rewrite E3 by auto.
        assert (S0 := E2 sl (or_introl eq_refl)). change (n_dst sl) with (fresh f 0) in S0.
        unfold node_value in S0. cbn [sl n_op n_args n_ty map eval_op] in S0.
        unfold node_value at 1. rewrite OS, AS, S6. cbn [map eval_op]. rewrite <- ED, (E3 d ID). unfold node_value at 1. rewrite OD, EA. cbn [map eval_op snd].
        unfold node_value. cbn [cv n_op n_args n_ty map eval_op]. rewrite S0. cbn [fst snd].
        rewrite (ET a NA). fold t.
        exact (valid_local fh fw sH sW G z t (snd (V a)) b n (n_ty d) PA1 PA2 S3 S4 S5 TC T2).
Qed.
End Patterns.
