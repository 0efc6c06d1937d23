(** The verifier accepts the result of each pattern (C95). *)
From Coq Require Import Relations Permutation.
From Verif Require Import Base NdSpec ConvSpec OpSplitModel OpSplitSpec OpSplitProofs OpSplitProps SplitNetModel SplitNetSpec SplitNetProps SplitGraphModel SplitGraphSpec SplitGraphProofs SplitGraphProofs2 SplitGraphProofs3 SplitGraphProofs4 SplitGraphProofs5 SplitGraphProofs6 SplitGraphAccept.
Local Open Scope Z_scope.

Section Accept.
Context {P : Type}.

(** What is known about a slice of the result of [d]. *)
Lemma slice_facts (f : graph P) s d b n x : verified f -> In s (g_body f) -> n_op s = OSlice b n -> n_args s = [x] -> def_of f x = Some d ->
  In d (g_body f) /\ n_dst d = x /\ 0 <= b /\ 1 <= n /\ b + n <= g_h (n_ty d) /\ n_ty s = GTy n (g_w (n_ty d)) (g_c (n_ty d)) /\
  types_check (n_op d) (map (type_of f) (n_args d)) (n_ty d).
Proof.
  intros VF IS OS AS DX. destruct (def_of_in f x d DX) as [ID ED].
  assert (TS : types_check (n_op s) (map (type_of f) (n_args s)) (n_ty s)) by (apply VF; auto).
  rewrite OS, AS in TS. cbn [map] in TS. destruct TS as (S1 & S2 & a0 & E & S3 & S4 & S5 & S6). injection E as <-.
  assert (TX : type_of f x = n_ty d) by (rewrite <- ED; apply verified_type; auto). rewrite TX in S5, S6.
  repeat (split; auto); apply VF; auto.
Qed.
Lemma in_scope (f : graph P) s d x l1 l2 : verified f -> g_body f = l1 ++ s :: l2 -> In x (n_args s) -> def_of f x = Some d ->
  incl (n_args d) (scope_of f l1) /\ In x (scope_of f l1).
Proof.
  intros VF EB AS DX. destruct (def_of_in f x d DX) as [ID ED]. destruct (pos_order f s l1 l2 VF EB) as (_ & O2 & _). split; [|auto].
  apply (before_args f s l1 l2); auto. rewrite ED. auto.
Qed.

Lemma conv_accept (f : graph P) s d b n x : verified f -> In s (g_body f) -> n_op s = OSlice b n -> n_args s = [x] -> def_of f x = Some d ->
  (exists same fh fw sH sW G z, n_op d = OConv same fh fw sH sW G z) -> fits f d b n -> verified (raise_over_conv f s d b n).
Proof.
  intros VF IS OS AS DX (same & fh & fw & sH & sW & G & z & OD) FT.
  destruct (slice_facts f s d b n x VF IS OS AS DX) as (ID & ED & B1 & B2 & B3 & TS & TD). rewrite OD in TD. destruct TD as (D1 & D2 & t & EA & D3 & D4 & D5 & D6 & D7 & D8 & D9).
  apply map1 in EA. destruct EA as (a & EA & Et). unfold fits in FT. unfold raise_over_conv. rewrite OD, EA in *. rewrite <- Et in *. clear t Et. set (t := type_of f a) in *.
  destruct (position f s IS) as (l1 & l2 & EB). destruct (in_scope f s d x l1 l2 VF EB) as [SA SX]; [rewrite AS; left; auto|auto|]. rewrite EA in SA.
  assert (Sa : In a (scope_of f l1)) by (apply SA; left; auto).
  assert (NA : In a (names f)) by (apply (scope_names f s l1 l2); auto). destruct (positive f a VF NA) as [PA1 PA2]. fold t in PA1, PA2.
  destruct same.
  - cbn [conv_out] in D8, D9. rewrite D8 in FT, B3 |- *.
    destruct (C26_same_partial P P G z fh fw (g_h t) (g_w t) sH sW b n D3 D4 PA1 PA2 D5 D6 B1 B2 B3) as [IFF K].
    destruct (proj2 IFF FT) as (R1 & R2 & R3). destruct (K FT) as ((pt & pb & pl & pr & RP & P1 & P2 & P3 & P4 & R4 & R5 & R6 & R7) & R8 & R9 & _). clear IFF K.
    set (r := raise_conv true (g_h t) (g_w t) (Z.of_nat fh) (Z.of_nat fw) sH sW (same_out (g_h t) sH) b n) in *. rewrite RP.
    set (sl := Node (fresh f 0) (OSlice (r_begin r) (r_size r)) [a] (GTy (r_size r) (g_w t) (g_c t)) true false None).
    set (pd := Node (fresh f 1) (OPad pt pb pl pr z) [fresh f 0] (GTy (r_padded_h r) (r_padded_w r) (g_c t)) false false None).
    set (cv := Node (n_dst s) (OConv false fh fw sH sW G z) [fresh f 1] (GTy (r_out_h r) (r_out_w r) (g_c (n_ty d))) (n_label d) (n_start d) (n_num d)).
    apply (replace_ok f s [sl; pd] cv l1 l2); auto.
    + cbn [cv n_ty]. rewrite TS, R8, R9, D9. reflexivity.
    + cbn [in_order sl pd n_args n_dst]. split; [intros y [<-|[]]; auto|]. split; [intros Q; apply (fresh_new f 0); apply (scope_names f s l1 l2); auto|].
      split; [intros y [<-|[]]; left; auto|]. split; [|auto]. intros [Q|Q]; [apply fresh_inj in Q; discriminate|apply (fresh_new f 1); apply (scope_names f s l1 l2); auto].
    + intros m [<-|[<-|[]]]; apply fresh_new.
    + cbn [cv n_args map rev app sl pd n_dst]. intros y [<-|[]]. left. auto.
    + intros ty T1 T2 m [<-|[<-|[<-|[]]]]; cbn [sl pd cv n_op n_args n_ty map].
      * rewrite T1 by auto. fold t. split; [cbn [g_h]; lia|]. split; [exact PA2|]. exists t. repeat split; auto.
      * assert (Q := T2 sl (or_introl eq_refl)). cbn [sl n_dst n_ty] in Q. rewrite Q. split; [cbn [g_h]; lia|]. split; [cbn [g_w]; lia|]. exists (GTy (r_size r) (g_w t) (g_c t)). cbn [g_h g_w g_c].
        repeat split; auto. f_equal; lia.
      * assert (Q := T2 pd (or_intror (or_introl eq_refl))). cbn [pd n_dst n_ty] in Q. rewrite Q. split; [cbn [g_h]; lia|]. split; [cbn [g_w]; lia|]. exists (GTy (r_padded_h r) (r_padded_w r) (g_c t)). cbn [g_h g_w g_c].
        split; [reflexivity|]. split; [auto|]. split; [auto|]. split; [auto|]. split; [auto|]. cbn [conv_out]. rewrite R6, R7, R8, R9. split; [|auto].
        intros _. assert (V1 : 1 <= valid_out (r_padded_h r) (Z.of_nat fh) 1 sH) by lia. assert (V2 : 1 <= valid_out (r_padded_w r) (Z.of_nat fw) 1 sW) by lia.
        clear - V1 V2 D5 D6. unfold valid_out, eff in V1, V2. split; (destruct (Z.le_gt_cases (Z.of_nat fh) (r_padded_h r)) + idtac); Z.to_euclidean_division_equations; nia.
  - destruct (D7 eq_refl) as [F1 F2]. cbn [conv_out] in D8, D9. rewrite D8 in B3 |- *.
    destruct (C26_valid P P G z fh fw (g_h t) (g_w t) sH sW b n D3 D4 F1 F2 D5 D6 B1 B2 B3) as (R1 & R2 & R3 & RP & R4 & R5 & R6 & R7 & _).
    set (r := raise_conv false (g_h t) (g_w t) (Z.of_nat fh) (Z.of_nat fw) sH sW (valid_out (g_h t) (Z.of_nat fh) 1 sH) b n) in *. rewrite RP.
    set (sl := Node (fresh f 0) (OSlice (r_begin r) (r_size r)) [a] (GTy (r_size r) (g_w t) (g_c t)) true false None).
    set (cv := Node (n_dst s) (OConv false fh fw sH sW G z) [fresh f 0] (GTy (r_out_h r) (r_out_w r) (g_c (n_ty d))) (n_label d) (n_start d) (n_num d)).
    assert (VO : valid_out (r_size r) (Z.of_nat fh) 1 sH = n).
    { assert (Q : r_out_h r = Z.quot (r_padded_h r + sH - Z.of_nat fh) sH).
      { unfold r, raise_conv. cbn [windowed]. destruct (b + n =? _); reflexivity. }
      rewrite R6, R4 in Q. unfold valid_out, eff. clear - Q B2 D5. replace (r_size r - ((Z.of_nat fh - 1) * 1 + 1) + sH) with (r_size r + sH - Z.of_nat fh) by lia.
      rewrite <- Z.quot_div_nonneg; [auto| |lia]. destruct (Z.le_gt_cases 0 (r_size r + sH - Z.of_nat fh)) as [|L]; [auto|]. exfalso.
      assert (0 <= Z.quot (- (r_size r + sH - Z.of_nat fh)) sH) by (apply Z.quot_pos; lia). rewrite Z.quot_opp_l in H by lia. lia. }
    apply (replace_ok f s [sl] cv l1 l2); auto.
    + cbn [cv n_ty]. rewrite TS, R6, R7, D9. reflexivity.
    + cbn [in_order sl n_args n_dst]. split; [intros y [<-|[]]; auto|]. split; [intros Q; apply (fresh_new f 0); apply (scope_names f s l1 l2); auto|auto].
    + intros m [<-|[]]; apply fresh_new.
    + cbn [cv n_args map rev app sl n_dst]. intros y [<-|[]]. left. auto.
    + intros ty T1 T2 m [<-|[<-|[]]]; cbn [sl cv n_op n_args n_ty map].
      * rewrite T1 by auto. fold t. split; [cbn [g_h]; lia|]. split; [exact PA2|]. exists t. repeat split; auto.
      * assert (Q := T2 sl (or_introl eq_refl)). cbn [sl n_dst n_ty] in Q. rewrite Q. split; [cbn [g_h]; lia|]. split; [cbn [g_w]; lia|]. exists (GTy (r_size r) (g_w t) (g_c t)). cbn [g_h g_w g_c].
        split; [reflexivity|]. split; [auto|]. split; [auto|]. split; [auto|]. split; [auto|]. cbn [conv_out]. rewrite VO, R6, R7. split; [|auto].
        intros _. split; [|exact F2]. clear - VO B2 D5. unfold valid_out, eff in VO. Z.to_euclidean_division_equations. nia.
Qed.
Lemma pad_accept (f : graph P) s d b n x : verified f -> within_limits f -> n_label d = true ->
  In s (g_body f) -> n_op s = OSlice b n -> n_args s = [x] -> def_of f x = Some d ->
  (exists top bottom lft rgt z, n_op d = OPad top bottom lft rgt z) -> fits f d b n -> verified (raise_over_pad f s d b n).
Proof.
  intros VF WL LD IS OS AS DX (top & bottom & lft & rgt & z & OD) FT.
  destruct (slice_facts f s d b n x VF IS OS AS DX) as (ID & ED & B1 & B2 & B3 & TS & TD). rewrite OD in TD. destruct TD as (D1 & D2 & t & EA & D3 & D4 & D5 & D6 & D7).
  assert (BAL := WL d ID (or_introl LD)). rewrite OD in BAL. destruct BAL as [ST SL].
  apply map1 in EA. destruct EA as (a & EA & Et). unfold fits in FT. unfold raise_over_pad. rewrite OD, EA in *. rewrite <- Et in *. clear t Et. set (t := type_of f a) in *.
  destruct (position f s IS) as (l1 & l2 & EB). destruct (in_scope f s d x l1 l2 VF EB) as [SA SX]; [rewrite AS; left; auto|auto|]. rewrite EA in SA.
  assert (Sa : In a (scope_of f l1)) by (apply SA; left; auto).
  assert (NA : In a (names f)) by (apply (scope_names f s l1 l2); auto). destruct (positive f a VF NA) as [PA1 PA2]. fold t in PA1, PA2.
  rewrite D7 in FT, B3, TS |- *. cbn [g_h g_w g_c] in *. destruct FT as (FT1 & FT2 & FT3 & FT4).
  destruct (raise_pad_ok z (g_h t) (g_w t) top bottom lft rgt (0, 0) b n PA1 PA2 D3 D4 D5 D6 ST SL B1 B2 B3) as (IFF & _ & RL & RR & RH & RO & RW & _).
  destruct (proj2 IFF (conj FT1 FT2)) as [R1 R2]. clear IFF.
  assert (R3 : 1 <= rp_size (raise_pad (g_h t) (g_w t) (top + g_h t + bottom) (lft + g_w t + rgt) (0, 0) b n) /\
               0 <= rp_top (raise_pad (g_h t) (g_w t) (top + g_h t + bottom) (lft + g_w t + rgt) (0, 0) b n) /\
               0 <= rp_bottom (raise_pad (g_h t) (g_w t) (top + g_h t + bottom) (lft + g_w t + rgt) (0, 0) b n)).
  { clear R1 R2 RH RO RW RL RR. unfold raise_pad. replace (top + g_h t + bottom - g_h t) with (top + bottom) by lia. rewrite Z.quot_div_nonneg by lia. rewrite <- ST.
    destruct (Z.eqb_spec b 0); [|destruct (Z.eqb_spec (b + n) (top + g_h t + bottom))]; cbn [rp_size rp_top rp_bottom]; lia. }
  set (r := raise_pad (g_h t) (g_w t) (top + g_h t + bottom) (lft + g_w t + rgt) (0, 0) b n) in *. destruct R3 as (R3 & R4 & R5).
  set (sl := Node (fresh f 0) (OSlice (rp_begin r) (rp_size r)) [a] (GTy (rp_size r) (g_w t) (g_c t)) true false None).
  set (pd := Node (n_dst s) (OPad (rp_top r) (rp_bottom r) (rp_left r) (rp_right r) z) [fresh f 0] (GTy (rp_out_h r) (rp_out_w r) (g_c t)) false false None).
  apply (replace_ok f s [sl] pd l1 l2); auto.
  - cbn [pd n_ty]. rewrite TS, RO, RW. reflexivity.
  - cbn [in_order sl n_args n_dst]. split; [intros y [<-|[]]; auto|]. split; [intros Q; apply (fresh_new f 0); apply (scope_names f s l1 l2); auto|auto].
  - intros m [<-|[]]; apply fresh_new.
  - cbn [pd n_args map rev app sl n_dst]. intros y [<-|[]]. left. auto.
  - intros ty T1 T2 m [<-|[<-|[]]]; cbn [sl pd n_op n_args n_ty map].
    + rewrite T1 by auto. fold t. split; [cbn [g_h]; lia|]. split; [exact PA2|]. exists t. repeat split; auto.
    + assert (Q := T2 sl (or_introl eq_refl)). cbn [sl n_dst n_ty] in Q. rewrite Q. split; [cbn [g_h]; lia|]. split; [cbn [g_w]; lia|]. exists (GTy (rp_size r) (g_w t) (g_c t)). cbn [g_h g_w g_c].
      split; [reflexivity|]. split; [lia|]. split; [lia|]. split; [lia|]. split; [lia|]. f_equal; lia.
Qed.

(** Slices combined. *)
Lemma combine_accept (f : graph P) s c b n x : verified f -> In s (g_body f) -> n_op s = OSlice b n -> n_args s = [x] ->
  In c (containing f s b n x) -> precedes f c s -> verified (combine_with f s b n c).
Proof.
  intros VF IS OS AS IC (l1 & l2 & l3 & EB). unfold containing, users in IC. apply filter_In in IC. destruct IC as [IC KC]. apply filter_In in IC. destruct IC as [IC UX].
  unfold combine_with. destruct (n_op c) as [ | | |cb cn| | | | | | ] eqn:OC; try discriminate. apply andb_true_iff in KC. destruct KC as [KC K3]. apply andb_true_iff in KC. destruct KC as [K1 K2].
  assert (TS : types_check (n_op s) (map (type_of f) (n_args s)) (n_ty s)) by (apply VF; auto).
  assert (TC : types_check (n_op c) (map (type_of f) (n_args c)) (n_ty c)) by (apply VF; auto).
  rewrite OS, AS in TS. cbn [map] in TS. destruct TS as (S1 & S2 & a0 & E & S3 & S4 & S5 & S6). injection E as <-.
  rewrite OC in TC. destruct TC as (C1 & C2 & a0 & E & C3 & C4 & C5 & C6). apply map1 in E. destruct E as (x' & AC & <-).
  assert (x' = x). { rewrite AC in UX. cbn [existsb] in UX. rewrite orb_false_r in UX. apply Nat.eqb_eq in UX. congruence. } subst x'.
  assert (EB' : g_body f = (l1 ++ c :: l2) ++ s :: l3) by (rewrite EB, <- app_assoc; reflexivity).
  assert (SC : In (n_dst c) (scope_of f (l1 ++ c :: l2))).
  { unfold scope_of. rewrite in_app_iff, <- in_rev. left. apply in_map. apply in_elt. }
  destruct ((b =? cb) && (n =? cn)) eqn:EQ.
  - apply (forward_ok f s (n_dst c) _ _ VF EB'); auto. rewrite verified_type by auto. apply andb_true_iff in EQ. destruct EQ as [E1 E2]. apply Z.eqb_eq in E1, E2. congruence.
  - apply (replace_ok f s [] (Node (n_dst s) (OSlice (b - cb) n) [n_dst c] (n_ty s) false false None) _ _ VF EB'); [reflexivity|reflexivity|exact I|intros m []| |].
    + cbn [n_args map rev app]. intros y [<-|[]]. auto.
    + intros ty T1 _ m [<-|[]]. cbn [n_op n_args n_ty map]. rewrite T1 by (apply names_node; auto). rewrite verified_type by auto. rewrite S6, C6. cbn [g_h g_w g_c].
      split; [cbn [g_h]; lia|]. split; [rewrite S6 in S2; exact S2|]. exists (GTy cn (g_w (type_of f x)) (g_c (type_of f x))). cbn [g_h g_w g_c]. repeat split; auto; lia.
Qed.
End Accept.
