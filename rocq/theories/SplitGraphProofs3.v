(** The other patterns of OpSplit.cpp (C95). *)
From Coq Require Import Relations Permutation.
From Verif Require Import Base NdSpec ConvSpec OpSplitModel OpSplitSpec OpSplitProofs OpSplitProps SplitNetModel SplitNetSpec SplitNetProps SplitGraphModel SplitGraphSpec SplitGraphProofs SplitGraphProofs2.
Local Open Scope Z_scope.

Section Patterns.
Context {P : Type}.
Variable dz : P.

Lemma same_results_refl (f : graph P) : same_results dz f f.
Proof. intros imgs. induction (results dz f imgs); constructor; auto. apply same_value_refl. Qed.
Lemma same_results_trans (f g h : graph P) : same_results dz f g -> same_results dz g h -> same_results dz f h.
Proof.
  intros A B imgs. specialize (A imgs). specialize (B imgs). revert B. generalize (results dz h imgs).
  induction A as [|u v l l' S A IH]; intros k B; inversion B; subst; constructor; eauto using same_value_trans.
Qed.
Lemma agrees_trans (f g h : graph P) : incl (names f) (names g) -> agrees dz f g -> agrees dz g h -> agrees dz f h.
Proof.
  intros I [A1 A2] [B1 B2]. split; [eapply same_results_trans; eauto|]. intros x Hf Hh. rewrite B2, A2; auto.
Qed.

(** ** attributes *)
Section Update.
Variables (f : graph P) (d d' : node P).
Hypothesis VF : verified f. Hypothesis ID : In d (g_body f).
Hypothesis ED : n_dst d' = n_dst d. Hypothesis EA : n_args d' = n_args d. Hypothesis ET : n_ty d' = n_ty d.
Hypothesis EO : forall args t, types_check (n_op d) args t -> types_check (n_op d') args t.
Lemma update_in n : In n (g_body (replace f (n_dst d) [d'])) -> In n (g_body f) \/ n = d'.
Proof. intros I. apply in_replace in I. destruct I as [[I _]|[<-|[]]]; auto. Qed.
Lemma update_verified : verified (replace f (n_dst d) [d']).
Proof.
  assert (VF' := VF). destruct VF' as (A & B & C & D & E). split; [exact A|]. split; [exact B|].
  assert (K : forall l scope, incl l (g_body f) -> in_order scope l -> in_order scope (map (upd d') l) /\ map n_dst (map (upd d') l) = map n_dst l).
  { induction l as [|n l IH]; intros scope IL W; [split; auto|]. cbn [in_order] in W. destruct W as (W1 & W2 & W3). cbn [map in_order].
    destruct (upd_old f d d' VF ID ED n (IL n (or_introl eq_refl))) as [->|[-> ->]].
    - destruct (IH (n_dst n :: scope)) as [I1 I2]; auto; [intros m Hm; apply IL; right; auto|]. rewrite I2. auto.
    - destruct (IH (n_dst d :: scope)) as [I1 I2]; auto; [intros m Hm; apply IL; right; auto|]. rewrite I2, ED, EA. auto. }
  destruct (K (g_body f) (map fst (g_params f)) (incl_refl _) C) as [K1 K2].
  rewrite <- ED, replace_one. split; [exact K1|]. rewrite K2. split; [exact D|]. rewrite <- replace_one, ED. intros n I.
  replace (map (type_of (replace f (n_dst d) [d'])) (n_args n)) with (map (type_of f) (n_args n)) by (apply map_ext; intros; symmetry; apply update_type; auto).
  apply update_in in I. destruct I as [I| ->]; [auto|]. rewrite EA, ET. apply EO. apply E. auto.
Qed.
Hypothesis EV : forall args, eval_op dz (n_op d') args = eval_op dz (n_op d) args.
Lemma update_same : agrees dz f (replace f (n_dst d) [d']).
Proof.
  apply (rewrite_same dz f _ []); auto using update_verified; [cbn; auto|]. intros imgs V _ _ _ E3 n I. apply update_in in I. destruct I as [I| ->]; [auto|].
  right. right. unfold node_value. rewrite ED, EA, ET, EV, E3 by auto. unfold node_value. apply same_value_refl.
Qed.
Lemma update_limits : within_limits f -> (selected d' -> selected d) -> n_op d' = n_op d -> within_limits (replace f (n_dst d) [d']).
Proof.
  intros WL SD EO' n I SN. apply update_in in I. destruct I as [I| ->].
  - specialize (WL n I SN). destruct (n_op n); auto. intros a Ha. rewrite update_type by auto. auto.
  - specialize (WL d ID (SD SN)). rewrite EO', ET, EA. destruct (n_op d); auto. intros a Ha. rewrite update_type by auto. auto.
Qed.
Lemma update_def x : def_of (replace f (n_dst d) [d']) x = option_map (upd d') (def_of f x).
Proof.
  unfold def_of. rewrite <- ED, replace_one. assert (K : forall l, find (fun n => Nat.eqb (n_dst n) x) (map (upd d') l) = option_map (upd d') (find (fun n => Nat.eqb (n_dst n) x) l)).
  { induction l as [|n l IH]; [reflexivity|]. cbn [map find]. replace (n_dst (upd d' n)) with (n_dst n); [destruct (Nat.eqb (n_dst n) x); auto|].
    unfold upd. destruct (Nat.eqb_spec (n_dst n) (n_dst d')); auto. }
  apply K.
Qed.
End Update.
Lemma mark_verified (f : graph P) d : verified f -> In d (g_body f) -> verified (mark_raised f d).
Proof. intros VF ID. apply (update_verified f d (mark d)); auto. Qed.
Lemma mark_same (f : graph P) d : verified f -> In d (g_body f) -> agrees dz f (mark_raised f d).
Proof. intros VF ID. apply (update_same f d (mark d)); auto. Qed.

(** ** erased operations, renamed values *)
Lemma erase_same (f : graph P) x : verified f -> verified (replace f x []) -> agrees dz f (replace f x []).
Proof.
  intros VF VG. apply (rewrite_same dz f _ []); auto. { cbn; auto. } intros imgs V _ _ _ E3 n I. apply in_replace in I. destruct I as [[I _]|[]]. auto.
Qed.

Lemma forward_same (f : graph P) x y : verified f -> verified (forward f x y) -> In x (names f) -> In y (names f) -> type_of f x = type_of f y ->
  (forall imgs V, (forall y, In y (names f) -> V y = final dz f imgs y) -> (forall n, In n (g_body f) -> V (n_dst n) = node_value dz V n) -> same_value (V x) (V y)) ->
  agrees dz f (forward f x y).
Proof.
  intros VF VG Nx Ny Txy K. apply by_solution; auto. intros imgs. exists (final dz f imgs). split; [auto|].
  assert (S : same_value (final dz f imgs x) (final dz f imgs y)).
  { apply (K imgs (final dz f imgs)); auto. intros n I. apply final_solves; auto. }
  assert (R : forall a, same_value (final dz f imgs a) (final dz f imgs (rename_to x y a))).
  { intros a. unfold rename_to. destruct (Nat.eqb_spec a x) as [->|]; [auto|apply same_value_refl]. }
  split.
  - intros n I. unfold forward in I. cbn [g_body] in I. apply in_map_iff in I. destruct I as (m & <- & I). apply in_replace in I. destruct I as [[I NE]|[]].
    cbn [n_dst]. rewrite final_solves by auto. unfold node_value. cbn [n_ty n_op n_args]. apply eval_op_cong.
    + rewrite map_map. replace (map (fun a => fst (final dz f imgs a)) (n_args m)) with (map (type_of f) (n_args m)); [apply VF; auto|].
      apply map_ext_in. intros a Ha. symmetry. apply final_type; auto. eapply verified_args; eauto.
    + rewrite map_map. induction (n_args m); cbn [map]; constructor; auto.
  - unfold forward. cbn [g_rets replace]. induction (g_rets f); cbn [map]; constructor; auto.
Qed.

(** ** slices raised above a pad *)
Lemma raise_pad_same f s d b n x : verified f -> within_limits f -> n_label d = true ->
  In s (g_body f) -> n_op s = OSlice b n -> n_args s = [x] -> def_of f x = Some d ->
  (exists top bottom lft rgt z, n_op d = OPad top bottom lft rgt z) ->
  verified (raise_over_pad f s d b n) -> agrees dz f (raise_over_pad f s d b n).
Proof.
  intros VF WL LD IS OS AS DX (top & bottom & lft & rgt & z & OD). destruct (def_of_in f x d DX) as [ID ED].
  assert (BAL := WL d ID (or_introl LD)). rewrite OD in BAL. destruct BAL as [ST SL].
  unfold raise_over_pad. rewrite OD.
  assert (TD : types_check (n_op d) (map (type_of f) (n_args d)) (n_ty d)) by (apply VF; auto).
  assert (TS : types_check (n_op s) (map (type_of f) (n_args s)) (n_ty s)) by (apply VF; auto).
  rewrite OD in TD. rewrite OS, AS in TS. cbn [map] in TS. destruct TS as (S1 & S2 & a0 & E & S3 & S4 & S5 & S6). injection E as <-.
  assert (TX : type_of f x = n_ty d) by (rewrite <- ED; apply verified_type; auto). rewrite TX in S5, S6.
  destruct TD as (D1 & D2 & t & E & D3). apply map1 in E. destruct E as (a & EA & <-). rewrite EA.
  assert (NA : In a (names f)) by (eapply verified_args; eauto; rewrite EA; left; auto).
  destruct (positive f a VF NA) as [PA1 PA2].
  assert (LT : (pos (g_body f) a < pos (g_body f) (n_dst d) < pos (g_body f) (n_dst s))%nat).
  { split; [apply before; auto; rewrite EA; left; auto|]. apply before; auto. rewrite AS, ED. left. auto. }
  assert (AS' : a <> n_dst s) by (intros ->; lia). 
  set (t := type_of f a) in *.
  set (r := raise_pad (g_h t) (g_w t) (g_h (n_ty d)) (g_w (n_ty d)) (0, 0) b n).
  set (sl := Node (fresh f 0) (OSlice (rp_begin r) (rp_size r)) [a] (GTy (rp_size r) (g_w t) (g_c t)) true false None).
  set (pd := Node (n_dst s) (OPad (rp_top r) (rp_bottom r) (rp_left r) (rp_right r) z) [fresh f 0] (GTy (rp_out_h r) (rp_out_w r) (g_c (n_ty d))) false false None).
  assert (TC : types_check (OPad top bottom lft rgt z) [t] (n_ty d)).
  { split; [auto|]. split; [auto|]. exists t. auto. }
  intros VG.
  assert (TG : forall y, In y (g_body (replace f (n_dst s) [sl; pd])) -> types_check (n_op y) (map (type_of (replace f (n_dst s) [sl; pd])) (n_args y)) (n_ty y)) by (apply VG).
  assert (TA : type_of (replace f (n_dst s) [sl; pd]) a = t).
  { apply (replace_type f); auto. intros m Im Em. exists m. split; [|auto]. apply replace_in; auto. congruence. }
  assert (T0 := TG sl (replace_news f s [sl; pd] sl IS (or_introl eq_refl))). cbn [sl n_op n_args n_ty map] in T0. rewrite TA in T0.
  destruct T0 as (_ & _ & a0 & E & T01 & T02 & T03 & _). injection E as <-.
  apply (replace_same dz f (n_dst s) [sl] pd); auto.
  - cbn [in_order n_args n_dst sl]. split; [intros y [<-|[]]; auto|]. split; [apply fresh_new|auto].
  - intros imgs V E1 E2 E3.
    assert (ETa : fst (V a) = t) by (rewrite E1 by auto; apply final_type; auto).
    assert (S0 := E2 sl (or_introl eq_refl)). change (n_dst sl) with (fresh f 0) in S0.
    unfold node_value in S0. cbn [sl n_op n_args n_ty map eval_op] in S0.
    rewrite E3 by auto. unfold node_value at 1. rewrite OS, AS, S6. cbn [map eval_op]. rewrite <- ED, (E3 d ID). unfold node_value at 1. rewrite OD, EA. cbn [map eval_op snd].
    unfold node_value. cbn [pd n_op n_args n_ty map eval_op]. rewrite S0. cbn [fst snd]. rewrite ETa.
    exact (pad_local z t (snd (V a)) top bottom lft rgt b n (n_ty d) PA1 PA2 S3 S4 S5 TC ST SL T01 T03).
Qed.

(** ** a slice of an existing slice *)
Lemma combine_same f s c b n x : verified f -> In s (g_body f) -> n_op s = OSlice b n -> n_args s = [x] ->
  In c (containing f s b n x) -> verified (combine_with f s b n c) -> agrees dz f (combine_with f s b n c).
Proof.
  intros VF IS OS AS IC. unfold containing, users in IC. apply filter_In in IC. destruct IC as [IC KC]. apply filter_In in IC. destruct IC as [IC UX].
  unfold combine_with. destruct (n_op c) as [ | | |cb cn| | | | | | ] eqn:OC; try discriminate. apply andb_true_iff in KC. destruct KC as [KC K3]. apply andb_true_iff in KC. destruct KC as [K1 K2].
  assert (TS : types_check (n_op s) (map (type_of f) (n_args s)) (n_ty s)) by (apply VF; auto).
  assert (TC : types_check (n_op c) (map (type_of f) (n_args c)) (n_ty c)) by (apply VF; auto).
  rewrite OS, AS in TS. cbn [map] in TS. destruct TS as (S1 & S2 & a0 & E & S3 & S4 & S5 & S6). injection E as <-.
  rewrite OC in TC. destruct TC as (C1 & C2 & a0 & E & C3 & C4 & C5 & C6). apply map1 in E. destruct E as (x' & AC & <-).
  assert (x' = x). { rewrite AC in UX. cbn [existsb] in UX. rewrite orb_false_r in UX. apply Nat.eqb_eq in UX. congruence. } subst x'.
  destruct ((b =? cb) && (n =? cn)) eqn:EQ; intros VG.
  - apply andb_true_iff in EQ. destruct EQ as [E1 E2]. apply Z.eqb_eq in E1, E2. subst cb cn. apply forward_same; auto using names_node.
    + rewrite !verified_type by auto. congruence.
    + intros imgs V _ E3. rewrite (E3 s IS), (E3 c IC). unfold node_value. rewrite OS, OC, AS, AC, S6, C6. apply same_value_refl.
  - apply (replace_same dz f (n_dst s) []); auto; [cbn; auto|].
    intros imgs V E1 _ E3. rewrite E3 by auto. unfold node_value. cbn [n_ty n_op n_args map eval_op]. rewrite OS, AS. cbn [map eval_op]. rewrite (E3 c IC). unfold node_value. rewrite OC, AC. cbn [map eval_op snd].
    split; [reflexivity|]. cbn [fst snd]. intros y w _ _. unfold slice_image. f_equal. lia.
Qed.
End Patterns.
