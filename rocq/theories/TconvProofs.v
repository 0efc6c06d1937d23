(** Proofs for C78. *)
From Coq Require Import List ZArith Bool Arith Permutation Lia.
Import ListNotations.
From Verif Require Import ConvSpec ConvOptSpec ConvOptProofs ConvGeomModel ConvGeomSpec ConvGeomProofs ConvGeomProps ThreadModel ThreadSpec ThreadProps
  TconvModel TconvSpec.
Local Open Scope Z_scope.

(** ** Writes in any order *)
Lemma writes_other : forall order m a, (forall e, In e order -> fst e <> a) -> fold_left write order m a = m a.
Proof.
  induction order as [|e tl IH]; intros m a H; cbn [fold_left]; [reflexivity|].
  rewrite IH by (intros e' I; apply H; right; exact I). unfold write.
  destruct (Z.eqb_spec a (fst e)) as [E|E]; [|reflexivity]. exfalso. apply (H e); [left; reflexivity|congruence].
Qed.
Lemma writes_at : forall order m a v, (forall e, In e order -> fst e = a -> snd e = v) -> (exists e, In e order /\ fst e = a) ->
  fold_left write order m a = v.
Proof.
  induction order as [|e tl IH]; intros m a v H (e0 & I0 & E0); [destruct I0|]. cbn [fold_left].
  destruct (existsb (fun e => fst e =? a) tl) eqn:X.
  - apply existsb_exists in X. destruct X as (e1 & I1 & E1). apply IH; [intros e' I'; apply H; right; exact I'|].
    exists e1. split; [exact I1|]. apply Z.eqb_eq. exact E1.
  - rewrite writes_other.
    + destruct I0 as [<-|I0].
      * unfold write. rewrite E0, Z.eqb_refl. apply H; [left; reflexivity|exact E0].
      * exfalso. assert (existsb (fun e => fst e =? a) tl = true) as C; [|congruence].
        apply existsb_exists. exists e0. split; [exact I0|]. apply Z.eqb_eq. exact E0.
    + intros e' I' C. assert (existsb (fun e => fst e =? a) tl = true) as Y; [|congruence].
      apply existsb_exists. exists e'. split; [exact I'|]. apply Z.eqb_eq. exact C.
Qed.

(** ** Grid points *)
Definition on_gridb (sub stride : nat) (v : Z) : bool := (Z.of_nat sub <=? v) && ((v - Z.of_nat sub) mod Z.of_nat stride =? 0).
Lemma grid_points_in : forall first n sub stride v, In v (grid_points first n sub stride) <->
  (first <= v < first + n /\ on_gridb sub stride v = true).
Proof.
  intros first n sub stride v. unfold grid_points. rewrite filter_In, in_map_iff. unfold on_gridb. split.
  - intros [(k & <- & I) G]. apply in_seq in I. split; [lia|exact G].
  - intros [R G]. split; [|exact G]. exists (Z.to_nat (v - first)). split; [lia|]. apply in_seq. lia.
Qed.
Lemma on_gridb_on_grid : forall sub stride v, (1 <= stride)%nat -> on_gridb sub stride v = true <-> on_grid (Z.of_nat sub) (Z.of_nat stride) v.
Proof.
  intros sub stride v Hs. unfold on_gridb, on_grid. rewrite andb_true_iff, Z.leb_le, Z.eqb_eq. split.
  - intros [L M]. exists ((v - Z.of_nat sub) / Z.of_nat stride). split; [apply Z.div_pos; lia|].
    pose proof (Z.div_mod (v - Z.of_nat sub) (Z.of_nat stride) ltac:(lia)). lia.
  - intros (k & K & ->). split; [nia|]. replace (Z.of_nat sub + k * Z.of_nat stride - Z.of_nat sub) with (k * Z.of_nat stride) by lia.
    apply Z.mod_mul. lia.
Qed.
Lemma on_gridb_mod : forall sub stride v, (1 <= stride)%nat -> (sub < stride)%nat -> 0 <= v ->
  (on_gridb sub stride v = true <-> v mod Z.of_nat stride = Z.of_nat sub).
Proof.
  intros sub stride v Hs Hl Hv. rewrite on_gridb_on_grid by exact Hs. unfold on_grid. split.
  - intros (k & K & ->). rewrite Z.mod_add by lia. apply Z.mod_small. lia.
  - intros M. exists (v / Z.of_nat stride). split; [apply Z.div_pos; lia|]. pose proof (Z.div_mod v (Z.of_nat stride) ltac:(lia)). lia.
Qed.

(** ** The writes of one convolution *)
Lemma thread_writes_in : forall outW outD f v r e, In e (thread_writes outW outD f v r) <->
  exists Y X c, in_region r Y X c /\ on_gridb (f_subH f) (f_strideH f) Y = true /\ on_gridb (f_subW f) (f_strideW f) X = true /\
    e = ((Y * outW + X) * Z.of_nat outD + c,
         v c ((Y - Z.of_nat (f_subH f)) / Z.of_nat (f_strideH f)) ((X - Z.of_nat (f_subW f)) / Z.of_nat (f_strideW f))).
Proof.
  intros outW outD f v r e. unfold thread_writes, in_region. rewrite in_flat_map. split.
  - intros (Y & IY & I). apply in_flat_map in I. destruct I as (X & IX & I). apply in_map_iff in I. destruct I as (k & <- & I).
    apply in_seq in I. apply grid_points_in in IY, IX. destruct IY as [RY GY], IX as [RX GX].
    exists Y, X, (r_ch r + Z.of_nat k). split; [lia|]. split; [exact GY|]. split; [exact GX|]. reflexivity.
  - intros (Y & X & c & (RY & RX & RC) & GY & GX & ->). exists Y. split; [apply grid_points_in; split; assumption|].
    apply in_flat_map. exists X. split; [apply grid_points_in; split; assumption|].
    apply in_map_iff. exists (Z.to_nat (c - r_ch r)). split; [|apply in_seq; lia].
    replace (r_ch r + Z.of_nat (Z.to_nat (c - r_ch r))) with c by lia. reflexivity.
Qed.

Lemma address_inj : forall W D Y X c Y' X' c', 0 <= X < W -> 0 <= X' < W -> 0 <= c < D -> 0 <= c' < D ->
  (Y * W + X) * D + c = (Y' * W + X') * D + c' -> Y = Y' /\ X = X' /\ c = c'.
Proof.
  intros W D Y X c Y' X' c' HX HX' Hc Hc' E.
  assert (c = c').
  { assert (((Y * W + X) * D + c) mod D = ((Y' * W + X') * D + c') mod D) as M by (f_equal; exact E).
    rewrite (Z.add_comm _ c), (Z.add_comm _ c'), !Z.mod_add, !Z.mod_small in M by lia. exact M. }
  subst c'. assert (Y * W + X = Y' * W + X') as E2 by nia.
  assert (X = X').
  { assert ((Y * W + X) mod W = (Y' * W + X') mod W) as M by (f_equal; exact E2).
    rewrite (Z.add_comm _ X), (Z.add_comm _ X'), !Z.mod_add, !Z.mod_small in M by lia. exact M. }
  subst X'. split; [nia|]. split; reflexivity.
Qed.

Section OneConvolution.
  Variables (H W : Z) (D : nat) (f : fake) (v : Z -> Z -> Z -> Z) (rs : list region).
  Hypothesis Cover : forall Y X c, ThreadSpec.in_image H W (Z.of_nat D) Y X c ->
    on_gridb (f_subH f) (f_strideH f) Y = true -> on_gridb (f_subW f) (f_strideW f) X = true -> exists r, In r rs /\ in_region r Y X c.
  Hypothesis Inside : forall r Y X c, In r rs -> on_gridb (f_subH f) (f_strideH f) Y = true -> on_gridb (f_subW f) (f_strideW f) X = true ->
    in_region r Y X c -> ThreadSpec.in_image H W (Z.of_nat D) Y X c.
  Variables (order : list (Z * Z)) (m : memory).
  Hypothesis Perm : Permutation (flat_map (thread_writes W D f v) rs) order.

  Lemma order_in : forall e, In e order -> exists Y X c, ThreadSpec.in_image H W (Z.of_nat D) Y X c /\
    on_gridb (f_subH f) (f_strideH f) Y = true /\ on_gridb (f_subW f) (f_strideW f) X = true /\
    e = ((Y * W + X) * Z.of_nat D + c, v c ((Y - Z.of_nat (f_subH f)) / Z.of_nat (f_strideH f)) ((X - Z.of_nat (f_subW f)) / Z.of_nat (f_strideW f))).
  Proof using Inside Perm.
    clear Cover.
    intros e I. apply (Permutation_in _ (Permutation_sym Perm)) in I. apply in_flat_map in I. destruct I as (r & Ir & I).
    apply thread_writes_in in I. destruct I as (Y & X & c & R & GY & GX & ->). exists Y, X, c.
    split; [exact (Inside r Y X c Ir GY GX R)|]. split; [exact GY|]. split; [exact GX|]. reflexivity.
  Qed.
  Lemma conv_on_grid : forall Y X c, ThreadSpec.in_image H W (Z.of_nat D) Y X c ->
    on_gridb (f_subH f) (f_strideH f) Y = true -> on_gridb (f_subW f) (f_strideW f) X = true ->
    fold_left write order m ((Y * W + X) * Z.of_nat D + c) =
    v c ((Y - Z.of_nat (f_subH f)) / Z.of_nat (f_strideH f)) ((X - Z.of_nat (f_subW f)) / Z.of_nat (f_strideW f)).
  Proof using Cover Inside Perm.
    intros Y X c I GY GX. apply writes_at.
    - intros e Ie E. destruct (order_in e Ie) as (Y' & X' & c' & I' & _ & _ & ->). cbn [fst snd] in *.
      unfold ThreadSpec.in_image in *.
      destruct (address_inj W (Z.of_nat D) Y' X' c' Y X c ltac:(lia) ltac:(lia) ltac:(lia) ltac:(lia) E) as (-> & -> & ->). reflexivity.
    - destruct (Cover Y X c I GY GX) as (r & Ir & R). eexists. split.
      + apply (Permutation_in _ Perm). apply in_flat_map. exists r. split; [exact Ir|]. apply thread_writes_in.
        exists Y, X, c. split; [exact R|]. split; [exact GY|]. split; [exact GX|]. reflexivity.
      + reflexivity.
  Qed.
  Lemma conv_off_grid : forall Y X c, ThreadSpec.in_image H W (Z.of_nat D) Y X c ->
    on_gridb (f_subH f) (f_strideH f) Y && on_gridb (f_subW f) (f_strideW f) X = false ->
    fold_left write order m ((Y * W + X) * Z.of_nat D + c) = m ((Y * W + X) * Z.of_nat D + c).
  Proof using Inside Perm.
    clear Cover.
    intros Y X c I G. apply writes_other. intros e Ie E. destruct (order_in e Ie) as (Y' & X' & c' & I' & GY & GX & ->).
    cbn [fst] in E. unfold ThreadSpec.in_image in *.
    destruct (address_inj W (Z.of_nat D) Y' X' c' Y X c ltac:(lia) ltac:(lia) ltac:(lia) ltac:(lia) E) as (-> & -> & ->).
    rewrite GY, GX in G. discriminate G.
  Qed.
  Lemma conv_outside : forall a, ~ (0 <= a < H * W * Z.of_nat D) -> fold_left write order m a = m a.
  Proof using Inside Perm.
    clear Cover.
    intros a Ha. apply writes_other. intros e Ie E. destruct (order_in e Ie) as (Y & X & c & I & _ & _ & ->).
    cbn [fst] in E. unfold ThreadSpec.in_image in I. apply Ha. subst a.
    assert (0 <= Y * W + X) by nia. assert (Y * W + X < H * W) by nia. nia.
  Qed.
End OneConvolution.

(** ** The chain *)
Section Chain.
  Variables (H W : Z) (D : nat) (rg : fake -> option (list region)) (v : fake -> Z -> Z -> Z -> Z).
  Let wr := fun f r => thread_writes W D f (v f) r.
  Definition hits (f : fake) (Y X : Z) : bool := on_gridb (f_subH f) (f_strideH f) Y && on_gridb (f_subW f) (f_strideW f) X.
  Definition value (f : fake) (Y X c : Z) : Z :=
    v f c ((Y - Z.of_nat (f_subH f)) / Z.of_nat (f_strideH f)) ((X - Z.of_nat (f_subW f)) / Z.of_nat (f_strideW f)).
  Definition good_regions (f : fake) : Prop := exists rs, rg f = Some rs /\
    (forall Y X c, ThreadSpec.in_image H W (Z.of_nat D) Y X c -> hits f Y X = true -> exists r, In r rs /\ in_region r Y X c) /\
    (forall r Y X c, In r rs -> hits f Y X = true -> in_region r Y X c -> ThreadSpec.in_image H W (Z.of_nat D) Y X c).

  Lemma chain_exists : forall chain m, (forall f, In f chain -> good_regions f) -> exists m', exec (H * W * Z.of_nat D) rg wr m chain m'.
  Proof.
    induction chain as [|f tl IH]; intros m G; [exists m; apply exec_nil|].
    destruct (G f (or_introl eq_refl)) as (rs & Er & _).
    destruct (IH (fold_left write (flat_map (wr f) rs) (if f_partial f then m else m)) (fun f' I => G f' (or_intror I))) as [m' E].
    exists m'. apply (exec_cons _ _ _ m m f tl rs (flat_map (wr f) rs) m'); [intros; reflexivity|exact Er|apply Permutation_refl|exact E].
  Qed.

  Lemma chain_outside : forall m chain m', exec (H * W * Z.of_nat D) rg wr m chain m' -> (forall f, In f chain -> good_regions f) ->
    forall a, ~ (0 <= a < H * W * Z.of_nat D) -> m' a = m a.
  Proof.
    induction 1 as [m|prev garbage f tl rs order final GA Er P E IH]; intros G a Ha; [reflexivity|].
    rewrite (IH (fun f' I => G f' (or_intror I)) a Ha). destruct (G f (or_introl eq_refl)) as (rs' & Er' & Cov & Ins).
    rewrite Er in Er'. injection Er' as <-.
    rewrite (conv_outside H W D f (v f) rs).
    - destruct (f_partial f); [reflexivity|apply GA; exact Ha].
    - intros r Y X c Ir GY GX. apply Ins; [exact Ir|]. unfold hits. rewrite GY, GX. reflexivity.
    - exact P.
    - exact Ha.
  Qed.

  Lemma chain_values : forall m chain m', exec (H * W * Z.of_nat D) rg wr m chain m' -> (forall f, In f chain -> good_regions f) ->
    (forall f, In f (tl chain) -> f_partial f = true) ->
    forall Y X c, ThreadSpec.in_image H W (Z.of_nat D) Y X c ->
      (forall f, In f chain -> hits f Y X = true -> (forall f', In f' chain -> hits f' Y X = true -> f' = f) ->
         m' ((Y * W + X) * Z.of_nat D + c) = value f Y X c) /\
      (existsb (fun f => hits f Y X) chain = false -> (forall f, In f chain -> f_partial f = true) ->
         m' ((Y * W + X) * Z.of_nat D + c) = m ((Y * W + X) * Z.of_nat D + c)).
  Proof.
    induction 1 as [m|prev garbage f0 tl0 rs order final GA Er P E IH]; intros G Par Y X c I.
    - split; [intros f []|reflexivity].
    - cbn [tl] in Par. destruct (G f0 (or_introl eq_refl)) as (rs' & Er' & Cov & Ins). rewrite Er in Er'. injection Er' as <-.
      assert (Par' : forall f, In f (tl tl0) -> f_partial f = true) by (intros f If; apply Par; destruct tl0; [destruct If|right; exact If]).
      destruct (IH (fun f' I' => G f' (or_intror I')) Par' Y X c I) as [IH1 IH2].
      assert (C1 : forall Y X c, ThreadSpec.in_image H W (Z.of_nat D) Y X c -> on_gridb (f_subH f0) (f_strideH f0) Y = true ->
        on_gridb (f_subW f0) (f_strideW f0) X = true -> exists r, In r rs /\ in_region r Y X c).
      { intros Y' X' c' I' GY GX. apply Cov; [exact I'|]. unfold hits. rewrite GY, GX. reflexivity. }
      assert (C2 : forall r Y X c, In r rs -> on_gridb (f_subH f0) (f_strideH f0) Y = true -> on_gridb (f_subW f0) (f_strideW f0) X = true ->
        in_region r Y X c -> ThreadSpec.in_image H W (Z.of_nat D) Y X c).
      { intros r Y' X' c' Ir GY GX. apply Ins; [exact Ir|]. unfold hits. rewrite GY, GX. reflexivity. }
      split.
      + intros f If Hf U. destruct (existsb (fun f => hits f Y X) tl0) eqn:Xs.
        * apply existsb_exists in Xs. destruct Xs as (f' & If' & Hf'). pose proof (U f' (or_intror If') Hf') as ->.
          apply IH1; [exact If'|exact Hf'|]. intros f'' I'' H''. apply U; [right; exact I''|exact H''].
        * rewrite (IH2 eq_refl Par). destruct If as [<-|If].
          -- unfold hits in Hf. apply andb_true_iff in Hf. destruct Hf as [GY GX]. unfold value.
             exact (conv_on_grid H W D f0 (v f0) rs C1 C2 order _ P Y X c I GY GX).
          -- exfalso. assert (existsb (fun f => hits f Y X) tl0 = true); [|congruence]. apply existsb_exists. exists f. split; assumption.
      + intros Xs Pall. cbn [existsb] in Xs. apply orb_false_iff in Xs. destruct Xs as [X0 Xs].
        rewrite (IH2 Xs Par). rewrite (conv_off_grid H W D f0 (v f0) rs C2 order _ P Y X c I X0).
        rewrite (Pall f0 (or_introl eq_refl)). reflexivity.
  Qed.
End Chain.

(** ** Weights *)
Lemma sub_weights_nth : forall t w c o a b i, (o < t_outD t)%nat -> (a < skH c)%nat -> (b < skW c)%nat -> (i < t_inD t)%nat ->
  nth (((o * skH c + a) * skW c + b) * t_inD t + i)%nat (sub_weights t w c) 0 =
  nth (((o * t_kH t + fst (tap c a b)) * t_kW t + snd (tap c a b)) * t_inD t + i)%nat w 0.
Proof.
  intros t w c o a b i Ho Ha Hb Hi. unfold sub_weights.
  set (n := (((o * skH c + a) * skW c + b) * t_inD t + i)%nat).
  assert (L : (n < t_outD t * skH c * skW c * t_inD t)%nat).
  { unfold n. assert ((o * skH c + a) < t_outD t * skH c)%nat by nia.
    assert ((o * skH c + a) * skW c + b < t_outD t * skH c * skW c)%nat by nia. nia. }
  assert (N1 : (n mod t_inD t = i)%nat) by (unfold n; rewrite Nat.add_comm, Nat.mod_add by lia; apply Nat.mod_small; exact Hi).
  assert (Q1 : (n / t_inD t = (o * skH c + a) * skW c + b)%nat)
    by (unfold n; rewrite Nat.add_comm, Nat.div_add, Nat.div_small by lia; reflexivity).
  assert (N2 : (((o * skH c + a) * skW c + b) mod skW c = b)%nat) by (rewrite Nat.add_comm, Nat.mod_add by lia; apply Nat.mod_small; exact Hb).
  assert (Q2 : (((o * skH c + a) * skW c + b) / skW c = o * skH c + a)%nat) by (rewrite Nat.add_comm, Nat.div_add, Nat.div_small by lia; reflexivity).
  assert (N3 : ((o * skH c + a) mod skH c = a)%nat) by (rewrite Nat.add_comm, Nat.mod_add by lia; apply Nat.mod_small; exact Ha).
  assert (Q3 : ((o * skH c + a) / skH c = o)%nat) by (rewrite Nat.add_comm, Nat.div_add, Nat.div_small by lia; reflexivity).
  match goal with |- nth n (map ?g _) 0 = _ => set (F := g) end.
  rewrite (nth_indep (map F (seq 0 (t_outD t * skH c * skW c * t_inD t))) 0 (F 0%nat)) by (rewrite map_length, seq_length; exact L).
  rewrite map_nth, seq_nth by exact L. cbn [Nat.add]. unfold F. cbv zeta. rewrite N1, Q1, N2, Q2, N3, Q3. reflexivity.
Qed.

(** ** The members of the chain *)
Lemma make_chain_in : forall t w vp hp prev cs f, In f (make_chain t w vp hp prev cs) ->
  exists c, In c cs /\ f_kH f = skH c /\ f_kW f = skW c /\ f_weights f = sub_weights t w c /\ f_subH f = subH c /\ f_subW f = subW c /\
    f_strideH f = t_sH t /\ f_strideW f = t_sW t /\
    f_offset f = input_offset (i16_tconv t) (Z.of_nat (t_inD t)) (Z.of_nat (t_inW t)) vp hp c.
Proof.
  intros t w vp hp prev cs. revert prev. induction cs as [|c tl IH]; intros prev f I; [destruct I|]. cbn [make_chain] in I.
  destruct I as [<-|I].
  - exists c. cbn. repeat split; try reflexivity. left; reflexivity.
  - destruct (IH true f I) as (c' & I' & R). exists c'. split; [right; exact I'|exact R].
Qed.
Lemma make_chain_has : forall t w vp hp cs prev c, In c cs -> exists f, In f (make_chain t w vp hp prev cs) /\ f_subH f = subH c /\ f_subW f = subW c.
Proof.
  intros t w vp hp. induction cs as [|c0 tl IH]; intros prev c I; [destruct I|]. cbn [make_chain]. destruct I as [->|I].
  - eexists. split; [left; reflexivity|]. cbn. split; reflexivity.
  - destruct (IH true c I) as (f & If & R). exists f. split; [right; exact If|exact R].
Qed.
Lemma make_chain_partial : forall t w vp hp cs f, In f (make_chain t w vp hp true cs) -> f_partial f = true.
Proof.
  intros t w vp hp. induction cs as [|c tl IH]; intros f I; [destruct I|]. cbn [make_chain] in I. destruct I as [<-|I]; [reflexivity|auto].
Qed.
(** No two convolutions of the chain have the same sub-grid. *)
Lemma make_chain_unique : forall t w vp hp cs prev f f', NoDup (map (fun c => (subH c, subW c)) cs) ->
  In f (make_chain t w vp hp prev cs) -> In f' (make_chain t w vp hp prev cs) -> f_subH f = f_subH f' -> f_subW f = f_subW f' -> f = f'.
Proof.
  intros t w vp hp. induction cs as [|c tl IH]; intros prev f f' N I I' E1 E2; [destruct I|].
  cbn [map] in N. inversion N as [|? ? Nn N']; subst. cbn [make_chain] in I, I'.
  assert (K : forall g, In g (make_chain t w vp hp true tl) -> f_subH g = subH c -> f_subW g = subW c -> False).
  { intros g Ig G1 G2. destruct (make_chain_in _ _ _ _ _ _ _ Ig) as (c' & Ic' & _ & _ & _ & S1 & S2 & _). apply Nn.
    apply in_map_iff. exists c'. split; [|exact Ic']. f_equal; congruence. }
  destruct I as [<-|I], I' as [<-|I'].
  - reflexivity.
  - exfalso. cbn in E1, E2. apply (K f' I'); congruence.
  - exfalso. cbn in E1, E2. apply (K f I); congruence.
  - exact (IH true f f' N' I I' E1 E2).
Qed.

(** ** The accumulator of one convolution of the chain *)
Lemma zsum_ext' : forall n f g, (forall i, (i < n)%nat -> f i = g i) -> zsum f n = zsum g n.
Proof. intros n f g E. unfold zsum. f_equal. apply map_ext_in. intros i I. apply in_seq in I. apply E. lia. Qed.
