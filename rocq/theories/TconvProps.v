(** C78: the lowering of a VALID transpose convolution computes the transpose convolution. *)
From Coq Require Import List ZArith Bool Arith Permutation Lia.
Import ListNotations.
From Verif Require Import ConvSpec ConvOptSpec ConvOptProofs ConvGeomModel ConvGeomSpec ConvGeomProofs ConvGeomProps ThreadModel ThreadSpec ThreadProofs ThreadProps
  TconvModel TconvSpec TconvProofs.
Local Open Scope Z_scope.

Lemma eligible_size : forall t, eligible t = true -> t_in t = t_out t -> element_size (t_in t) = if i16_tconv t then 2 else 1.
Proof.
  intros t E S. unfold i16_tconv. rewrite <- S. unfold eligible in E. destruct (t_in t); cbn in *; [reflexivity|reflexivity|discriminate E].
Qed.

(** [pad_of]: the padding added to the input (none: 0). *)
Definition pad_of (pad : option (Z * Z)) : Z * Z := match pad with Some p => p | None => (0, 0) end.

Lemma padding_nonneg : forall cs, 0 <= fst (transpose_padding cs) /\ 0 <= snd (transpose_padding cs).
Proof.
  intros cs. pose proof (transpose_padding_max cs 0 0) as TM. cbv zeta in TM. fold (transpose_padding cs) in TM.
  destruct (transpose_padding cs). cbn [fst snd] in *. lia.
Qed.

Lemma replaced : forall t w pad chain, replace_tconv t = Replaced pad chain -> t_weights t = WQConst w ->
  eligible t = true /\ pad_of pad = transpose_padding (reorder_kernel (t_kH t) (t_kW t) (t_sH t) (t_sW t)) /\
  chain = make_chain t w (fst (pad_of pad)) (snd (pad_of pad)) false (reorder_kernel (t_kH t) (t_kW t) (t_sH t) (t_sW t)).
Proof.
  intros t w pad chain R Ew. unfold replace_tconv in R. rewrite Ew in R. destruct (eligible t); [|discriminate R].
  pose proof (padding_nonneg (reorder_kernel (t_kH t) (t_kW t) (t_sH t) (t_sW t))) as P.
  destruct (transpose_padding _) as [vp hp]. cbn [fst snd] in P. injection R as <- <-.
  destruct (Z.gtb_spec vp 0), (Z.gtb_spec hp 0); cbn [orb pad_of fst snd]; repeat split; auto.
  - f_equal; lia.
  - replace vp with 0 by lia. replace hp with 0 by lia. reflexivity.
Qed.

(** Every way of running the chain that replaces the operator, on any number of threads interleaved in any way, from any contents
    of memory, leaves in the output tensor the values of the transpose convolution, and changes nothing outside the tensor; and
    there is such a run.  Strides at most the kernel size, sizes on which the work can be divided (strides at most 2, or ...). *)
Theorem C78_transpose_conv_partial : forall ds threads t w pad chain finish img mem,
  replace_tconv t = Replaced pad chain -> t_weights t = WQConst w ->
  well_formed t -> t_in t = t_out t ->
  (t_sH t <= t_kH t)%nat -> (t_sW t <= t_kW t)%nat ->
  work_divisible threads (t_outH t) (t_outW t) (t_sH t) (t_sW t) ->
  (0 < threads)%nat -> consecutive 0 ds (Z.of_nat (t_outD t)) ->
  holds_padded t img (fst (pad_of pad)) (snd (pad_of pad)) mem ->
  (forall before, exists after, run_tconv ds threads t finish mem pad chain before after) /\
  (forall before after, run_tconv ds threads t finish mem pad chain before after ->
    (forall Y X o, 0 <= Y < t_outH t -> 0 <= X < t_outW t -> (o < t_outD t)%nat ->
      after (address (t_outW t) (t_outD t) Y X o) = finish o (tconv_accumulator t w img o Y X)) /\
    (forall a, ~ (0 <= a < t_outH t * t_outW t * Z.of_nat (t_outD t)) -> after a = before a)).
Proof.
  intros ds threads t w pad chain finish img mem R Ew WF ET SH SW DV Th Cs Hold.
  destruct (replaced t w pad chain R Ew) as (El & Ep & Ec).
  destruct WF as (WH & WW & WD & WO & WkH & WkW & WsH & WsW & EH & EW).
  pose proof (eligible_size t El ET) as Esz.
  set (cs := reorder_kernel (t_kH t) (t_kW t) (t_sH t) (t_sW t)) in *.
  set (vp := fst (pad_of pad)) in *. set (hp := snd (pad_of pad)) in *.
  assert (Wd : match pad with Some p => snd p | None => 0 end = hp) by (unfold hp, pad_of; destruct pad; reflexivity).
  unfold run_tconv. rewrite Wd. cbv zeta.
  set (v := fun (f : fake) (c y x : Z) => finish (Z.to_nat c)
      (fake_accumulator (element_size (t_in t)) (t_zx t) mem (Z.of_nat (t_inW t) + 2 * hp) (t_inD t) f (Z.to_nat c) y x)).
  assert (Sub : forall f, In f chain -> (f_subH f < t_sH t)%nat /\ (f_subW f < t_sW t)%nat /\ f_strideH f = t_sH t /\ f_strideW f = t_sW t).
  { intros f If. rewrite Ec in If. destruct (make_chain_in _ _ _ _ _ _ _ If) as (c & Ic & _ & _ & _ & S1 & S2 & S3 & S4 & _).
    destruct (in_reorder _ _ _ _ _ Ic) as [B _]. rewrite S1, S2. repeat split; try assumption; lia. }
  assert (Div : forall n s, divisible n s -> (1 <= s)%nat -> n mod Z.of_nat s = 0 \/ Z.odd n = true).
  { intros n s [L|[L|L]] Hs; [|auto|auto]. assert (s = 1 \/ s = 2)%nat as [-> | ->] by lia.
    - left. apply Z.mod_1_r.
    - destruct (Z.odd n) eqn:O; [auto|]. left. rewrite <- Z.negb_even in O. apply negb_false_iff in O. apply Z.even_spec in O.
      destruct O as [k ->]. rewrite Z.mul_comm. apply Z.mod_mul. lia. }
  assert (Good : forall f, In f chain -> good_regions (t_outH t) (t_outW t) (t_outD t) (regions ds threads t) f).
  { intros f If. destruct (Sub f If) as (B1 & B2 & S3 & S4).
    assert (FH : t_outH t >= Z.of_nat (t_sH t)) by nia. assert (FW : t_outW t >= Z.of_nat (t_sW t)) by nia.
    destruct (proj2 (C11_exactly_when ds threads (t_outH t) (t_outW t) (Z.of_nat (t_outD t)) (Z.of_nat (f_subH f)) (Z.of_nat (f_subW f))
       (Z.of_nat (t_sH t)) (Z.of_nat (t_sW t)) Th ltac:(lia) ltac:(lia) ltac:(lia) ltac:(lia) ltac:(lia) ltac:(lia) ltac:(lia) Cs))
      as (rs & Er & Cov & Ins).
    { destruct DV as [DH DW]. unfold rows_divided in DH, DW. cbv zeta in DH, DW.
      split; intros RD; [destruct (Div _ _ (DH RD) WsH)|destruct (Div _ _ (DW RD) WsW)]; (split; [lia|]); (left; assumption) || (right; lia). }
    exists rs. split; [unfold regions; rewrite S3, S4; exact Er|]. unfold hits. rewrite S3, S4. split.
    - intros Y X c I Hh. apply andb_true_iff in Hh. destruct Hh as [G1 G2]. apply on_gridb_on_grid in G1, G2; [|exact WsW|exact WsH].
      destruct (Cov Y X c I G1 G2) as (i & r & Nr & Rr & _). exists r. split; [exact (nth_error_In _ _ Nr)|exact Rr].
    - intros r Y X c Ir Hh Rr. apply andb_true_iff in Hh. destruct Hh as [G1 G2]. apply on_gridb_on_grid in G1, G2; [|exact WsW|exact WsH].
      destruct (In_nth_error _ _ Ir) as [i Ni]. exact (Ins i r Y X c Ni G1 G2 Rr). }
  split.
  { intros before. exact (chain_exists (t_outH t) (t_outW t) (t_outD t) (regions ds threads t) v chain before Good). }
  intros before after Ex. split.
  2: { intros a Ha. exact (chain_outside (t_outH t) (t_outW t) (t_outD t) (regions ds threads t) v before chain after Ex Good a Ha). }
  intros Y X o HY HX Ho.
  (* the convolution of this position *)
  set (mul := fun (p : nat -> Z) (k : nat * nat) =>
     zsum (fun i => (p i - t_zx t) * nth (((o * t_kH t + fst k) * t_kW t + snd k) * t_inD t + i)%nat w 0) (t_inD t)).
  set (im := fun (y x : Z) (i : nat) => img (Z.to_nat y) (Z.to_nat x) i).
  assert (Mz : forall k, mul (fun _ => t_zx t) k = 0) by (intros k; unfold mul; apply zsum_zero; intros i Hi; lia).
  pose proof (C34_transpose_conv_partial (nat -> Z) (fun _ => t_zx t) mul im (t_inH t) (t_inW t) (t_kH t) (t_kW t) (t_sH t) (t_sW t)
    Mz WH WW ltac:(lia) ltac:(lia)) as T.
  cbv zeta in T. fold cs in T.
  assert (Epp : transpose_padding cs = (vp, hp)) by (unfold vp, hp; rewrite <- Ep; destruct (pad_of pad); reflexivity).
  rewrite Epp in T. destruct T as [ND T].
  destruct (T Y X ltac:(lia) ltac:(lia)) as (c & Ic & MY & MX & Un & K1 & K2 & L1 & L2 & L3 & L4 & Off & Val). clear T.
  destruct (make_chain_has t w vp hp cs false c Ic) as (f & If & F1 & F2). rewrite <- Ec in If.
  assert (Fc : f_kH f = skH c /\ f_kW f = skW c /\ f_weights f = sub_weights t w c /\
     f_offset f = input_offset (i16_tconv t) (Z.of_nat (t_inD t)) (Z.of_nat (t_inW t)) vp hp c).
  { rewrite Ec in If. destruct (make_chain_in _ _ _ _ _ _ _ If) as (c' & Ic' & A1 & A2 & A3 & A4 & A5 & _ & _ & A6).
    assert (c' = c) as ->; [|auto]. apply Un; [exact Ic'| |]; congruence. }
  destruct Fc as (A1 & A2 & A3 & A4). destruct (Sub f If) as (B1 & B2 & S3 & S4).
  assert (Hf : hits f Y X = true).
  { unfold hits. rewrite S3, S4. apply andb_true_iff. split.
    - apply on_gridb_mod; [lia|lia|lia|]. rewrite MY, F1. reflexivity.
    - apply on_gridb_mod; [lia|lia|lia|]. rewrite MX, F2. reflexivity. }
  assert (Part : forall g, In g (tl chain) -> f_partial g = true).
  { intros g Ig. rewrite Ec in Ig. destruct cs as [|c0 cs']; [destruct Ig|]. cbn [make_chain tl] in Ig. exact (make_chain_partial _ _ _ _ _ _ Ig). }
  destruct (chain_values (t_outH t) (t_outW t) (t_outD t) (regions ds threads t) v before chain after Ex Good Part Y X (Z.of_nat o)
     ltac:(unfold ThreadSpec.in_image; lia)) as [V _].
  unfold address. rewrite (V f If Hf); clear V.
  2: { intros g Ig Hg. destruct (Sub g Ig) as (G1 & G2 & G3 & G4). unfold hits in Hg. rewrite G3, G4 in Hg.
       apply andb_true_iff in Hg. destruct Hg as [H1 H2]. apply on_gridb_mod in H1; [|lia|lia|lia]. apply on_gridb_mod in H2; [|lia|lia|lia].
       rewrite Ec in Ig, If. apply (make_chain_unique t w vp hp cs false g f ND Ig If); lia. }
  unfold value, v. rewrite Nat2Z.id. f_equal. rewrite S3, S4, F1, F2.
  assert (Qy : (Y - Z.of_nat (subH c)) / Z.of_nat (t_sH t) = Y / Z.of_nat (t_sH t)).
  { pose proof (Z.div_mod Y (Z.of_nat (t_sH t)) ltac:(lia)) as E. rewrite MY in E.
    replace (Y - Z.of_nat (subH c)) with (Y / Z.of_nat (t_sH t) * Z.of_nat (t_sH t)) by lia. apply Z.div_mul. lia. }
  assert (Qx : (X - Z.of_nat (subW c)) / Z.of_nat (t_sW t) = X / Z.of_nat (t_sW t)).
  { pose proof (Z.div_mod X (Z.of_nat (t_sW t)) ltac:(lia)) as E. rewrite MX in E.
    replace (X - Z.of_nat (subW c)) with (X / Z.of_nat (t_sW t) * Z.of_nat (t_sW t)) by lia. apply Z.div_mul. lia. }
  rewrite Qy, Qx. clear Qy Qx. set (y := Y / Z.of_nat (t_sH t)) in *. set (x := X / Z.of_nat (t_sW t)) in *.
  transitivity (transpose_at (t_inH t) (t_inW t) (t_kH t) (t_kW t) (Z.of_nat (t_sH t)) (Z.of_nat (t_sW t))
     (fun iy ix ky kx => mul (im (Z.of_nat iy) (Z.of_nat ix)) (ky, kx)) Y X).
  2: { unfold tconv_accumulator, transpose_at, mul, im. cbn [fst snd].
       apply zsum_ext'; intros iy _. apply zsum_ext'; intros ky _. cbv beta. destruct (_ =? Y); [|reflexivity].
       apply zsum_ext'; intros ix _. apply zsum_ext'; intros kx _. cbv beta. destruct (_ =? X); [|reflexivity].
       cbv beta. rewrite ?Nat2Z.id. apply zsum_ext'; intros i _. cbv beta. rewrite ?Nat2Z.id. reflexivity. }
  rewrite <- Val. unfold fake_accumulator, sub_conv_at. rewrite A1, A2.
  apply zsum_ext'; intros a Ha. apply zsum_ext'; intros b Hb. unfold mul. apply zsum_ext'; intros i Hi.
  rewrite A3, sub_weights_nth by assumption. f_equal. f_equal.
  rewrite A4, Off, Esz. set (y0 := vp - (Z.of_nat (skH c) - 1)) in *. set (x0 := hp - (Z.of_nat (skW c) - 1)) in *.
  assert (Y1 : 0 <= y0 + y + Z.of_nat a < Z.of_nat (t_inH t) + 2 * vp) by lia.
  assert (X1 : 0 <= x0 + x + Z.of_nat b < Z.of_nat (t_inW t) + 2 * hp) by lia.
  pose proof (Hold (y0 + y + Z.of_nat a - vp) (x0 + x + Z.of_nat b - hp) i Hi ltac:(lia) ltac:(lia)) as M. rewrite Esz in M.
  replace (_ * pixel_address _ _ _ _ _ + _) with
    ((if i16_tconv t then 2 else 1) * address (Z.of_nat (t_inW t) + 2 * hp) (t_inD t) (y0 + y + Z.of_nat a - vp + vp) (x0 + x + Z.of_nat b - hp + hp) i)
    by (unfold pixel_address, address; ring).
  rewrite M. unfold pad_image, zpad, ConvSpec.in_image, im. destruct (_ && _); reflexivity.
Qed.

(** The SAME transpose convolution, for all output sizes TFLite allows (input times stride, less at most stride - 1) that C33 shows to be
    right (all, when the output is stride times the input): the output of the original operator is the part of the
    tensor left by the chain that the slice reads. *)
Theorem C78_same_transpose_conv_partial : forall ds threads t t' slice w pad chain finish img mem rH rW,
  same_to_valid_tconv t = Some (t', slice) -> replace_tconv t' = Replaced pad chain -> t_weights t = WQConst w ->
  (1 <= t_inH t)%nat -> (1 <= t_inW t)%nat -> (1 <= t_inD t)%nat -> (1 <= t_outD t)%nat -> t_in t = t_out t ->
  (1 <= t_sH t <= t_kH t)%nat -> (1 <= t_sW t <= t_kW t)%nat ->
  t_outH t = Z.of_nat (t_inH t) * Z.of_nat (t_sH t) - rH -> t_outW t = Z.of_nat (t_inW t) * Z.of_nat (t_sW t) - rW ->
  0 <= rH < Z.of_nat (t_sH t) -> 0 <= rW < Z.of_nat (t_sW t) ->
  slice_right (Z.of_nat (t_kH t) - Z.of_nat (t_sH t)) rH -> slice_right (Z.of_nat (t_kW t) - Z.of_nat (t_sW t)) rW ->
  (t_kH t = t_sH t -> t_kW t = t_sW t -> rH = 0 /\ rW = 0) ->
  work_divisible threads (t_outH t') (t_outW t') (t_sH t) (t_sW t) ->
  (0 < threads)%nat -> consecutive 0 ds (Z.of_nat (t_outD t)) ->
  holds_padded t img (fst (pad_of pad)) (snd (pad_of pad)) mem ->
  let '(bY, bX) := match slice with Some b => b | None => (0, 0) end in
  0 <= bY /\ bY + t_outH t <= t_outH t' /\ 0 <= bX /\ bX + t_outW t <= t_outW t' /\
  (slice = None -> t_outH t' = t_outH t /\ t_outW t' = t_outW t) /\
  forall before after, run_tconv ds threads t' finish mem pad chain before after ->
    forall Y X o, 0 <= Y < t_outH t -> 0 <= X < t_outW t -> (o < t_outD t)%nat ->
      after (address (t_outW t') (t_outD t') (bY + Y) (bX + X) o) = finish o (tconv_same_accumulator t w img o Y X).
Proof.
  intros ds threads t t' slice w pad chain finish img mem rH rW Sv R Ew WH WW WD WO ET SH SW EH EW RH RW GH GW GK DV Th Cs Hold.
  unfold same_to_valid_tconv in Sv. destruct (_ && _ && _); [|discriminate Sv].
  assert (Sz : (0 <= (Z.of_nat (t_kH t) - Z.of_nat (t_sH t)) / 2)) by (apply Z.div_pos; lia).
  pose proof (C33_exactly_when (t_inH t) (t_inW t) (t_kH t) (t_kW t) (Z.of_nat (t_sH t)) (Z.of_nat (t_sW t)) rH rW
     WH WW ltac:(lia) ltac:(lia) RH RW) as C33. cbv zeta in C33. rewrite <- EH, <- EW in C33.
  assert (VH : fst (same_to_valid (Z.of_nat (t_inH t)) (Z.of_nat (t_inW t)) (Z.of_nat (t_kH t)) (Z.of_nat (t_kW t)) (Z.of_nat (t_sH t)) (Z.of_nat (t_sW t)))
     = ((Z.of_nat (t_inH t) - 1) * Z.of_nat (t_sH t) + Z.of_nat (t_kH t), (Z.of_nat (t_inW t) - 1) * Z.of_nat (t_sW t) + Z.of_nat (t_kW t))) by reflexivity.
  destruct (same_to_valid _ _ _ _ _ _) as [[vH vW] sl]. cbn [fst] in VH. injection VH as EvH EvW.
  remember (TConv (t_in t) (t_w t) (t_out t) true (t_inH t) (t_inW t) (t_inD t) vH vW (t_outD t) (t_kH t) (t_kW t) (t_sH t) (t_sW t)
            (t_weights t) (t_zx t)) as t1 eqn:E1. injection Sv as <- <-.
  destruct (match sl with Some b => b | None => (0, 0) end) as [bY bX].
  destruct C33 as (_ & _ & C33). apply proj2 in C33.
  destruct C33 as (P1 & P2 & P3 & P4 & P5 & C33); [split; [exact GH|]; split; [exact GW|]; intros; apply GK; lia|].
  split; [exact P1|]. split; [subst t1; exact P2|]. split; [exact P3|]. split; [subst t1; exact P4|].
  split. { intros Es. subst t1. cbn. destruct (P5 Es). split; congruence. }
  intros before after Run Y X o HY HX Ho.
  assert (WF : well_formed t1) by (subst t1; unfold well_formed; cbn; repeat split; lia).
  destruct (C78_transpose_conv_partial ds threads t1 w pad chain finish img mem R) as [_ V];
    try (subst t1; assumption); try (subst t1; cbn; lia).
  destruct (V before after Run) as [V1 _]. rewrite V1; [|subst t1; cbn in *; lia|subst t1; cbn in *; lia|subst t1; exact Ho].
  f_equal. unfold tconv_accumulator, tconv_same_accumulator. subst t1. cbn [t_inH t_inW t_kH t_kW t_sH t_sW t_zx t_inD].
  apply C33; assumption.
Qed.

(** ** The cases left out are wrong *)
Lemma unwritten : forall size rg wr chain A before g, 0 <= A < size ->
  match chain with [] => False | f :: _ => f_partial f = false end ->
  (forall f, In f chain -> exists rs, rg f = Some rs /\ existsb (fun e => fst e =? A) (flat_map (wr f) rs) = false) ->
  exists after, exec size rg wr before chain after /\ after A = g.
Proof.
  intros size rg wr chain A before g HA H0 H.
  assert (K : forall l m, (forall f, In f l -> exists rs, rg f = Some rs /\ existsb (fun e => fst e =? A) (flat_map (wr f) rs) = false) ->
    m A = g -> exists after, exec size rg wr m l after /\ after A = g).
  { clear chain H0 H before. induction l as [|f tl IH]; intros m H Hm; [exists m; split; [apply exec_nil|exact Hm]|].
    destruct (H f (or_introl eq_refl)) as (rs & Er & N).
    destruct (IH (fold_left write (flat_map (wr f) rs) m) (fun f' I => H f' (or_intror I))) as (after & E & V).
    { rewrite writes_other; [exact Hm|]. intros e Ie Ee. assert (existsb (fun e => fst e =? A) (flat_map (wr f) rs) = true); [|congruence].
      apply existsb_exists. exists e. split; [exact Ie|]. apply Z.eqb_eq. exact Ee. }
    exists after. split; [|exact V].
    apply (exec_cons size rg wr m m f tl rs (flat_map (wr f) rs) after); [intros; reflexivity|exact Er|apply Permutation_refl|].
    destruct (f_partial f); exact E. }
  destruct chain as [|f tl]; [destruct H0|]. destruct (H f (or_introl eq_refl)) as (rs & Er & N).
  set (garbage := fun a => if a =? A then g else before a).
  destruct (K tl (fold_left write (flat_map (wr f) rs) garbage) (fun f' I => H f' (or_intror I))) as (after & E & V).
  { rewrite writes_other; [unfold garbage; rewrite Z.eqb_refl; reflexivity|]. intros e Ie Ee.
    assert (existsb (fun e => fst e =? A) (flat_map (wr f) rs) = true); [|congruence].
    apply existsb_exists. exists e. split; [exact Ie|]. apply Z.eqb_eq. exact Ee. }
  exists after. split; [|exact V].
  apply (exec_cons size rg wr before garbage f tl rs (flat_map (wr f) rs) after).
  - intros a Ha. unfold garbage. destruct (Z.eqb_spec a A); [lia|reflexivity].
  - exact Er.
  - apply Permutation_refl.
  - rewrite H0. exact E.
Qed.

(** The regions of a sub-grid along the divided dimension, when its size is even. *)
Lemma even_pieces : forall n D s sub p, (0 < n)%nat -> 0 < s -> 0 <= D -> Z.odd D = false ->
  In p (lay_out D sub 0 (dim_splits n (D / s) s)) -> fst p + snd p <= sub + s * (D / s).
Proof.
  intros n D s sub p Hn Hs HD Ev Ip. assert (Q : 0 <= D / s) by (apply Z.div_pos; lia).
  rewrite dim_splits_unit in Ip.
  assert (Sm : sumz (dim_splits n (D / s) 1) = D / s) by (apply dim_splits_sum; lia).
  assert (SM : forall us, sumz (map (fun a => a * s) us) = sumz us * s).
  { induction us as [|a us IH]; cbn; [lia|]. unfold sumz in *. rewrite IH. cbn [fold_right]. lia. }
  assert (B : fst p + snd p <= sub + 0 + sumz (map (fun a => a * s) (dim_splits n (D / s) 1))).
  { apply (lay_out_even D sub Ev _ 0 p); [|exact Ip]. intros a Ha. apply in_map_iff in Ha. destruct Ha as (u & <- & Hu).
    apply dim_splits_pos in Hu. nia. }
  rewrite SM, Sm in B. nia.
Qed.
Lemma lay_out_start : forall D sub splits top p, Z.odd D = false -> (forall a, In a splits -> 0 <= a) ->
  In p (lay_out D sub top splits) -> top + sub <= fst p.
Proof.
  intros D sub splits. induction splits as [|a l IH]; intros top p Ev Hp Hi; [destruct Hi|]. cbn [lay_out] in Hi. rewrite Ev, andb_false_r in Hi.
  destruct Hi as [<-|Hi]; [cbn; lia|]. pose proof (Hp a (or_introl eq_refl)). pose proof (IH (top + a) p Ev (fun x Hx => Hp x (or_intror Hx)) Hi). lia.
Qed.
(** The convolutions are right on every run exactly when the work can be divided. *)
Theorem C78_exactly_when : forall ds threads t w pad chain finish img mem,
  replace_tconv t = Replaced pad chain -> t_weights t = WQConst w ->
  well_formed t -> t_in t = t_out t ->
  (t_sH t <= t_kH t)%nat -> (t_sW t <= t_kW t)%nat ->
  (0 < threads)%nat -> consecutive 0 ds (Z.of_nat (t_outD t)) ->
  holds_padded t img (fst (pad_of pad)) (snd (pad_of pad)) mem ->
  ((forall before after, run_tconv ds threads t finish mem pad chain before after ->
      forall Y X o, 0 <= Y < t_outH t -> 0 <= X < t_outW t -> (o < t_outD t)%nat ->
        after (address (t_outW t) (t_outD t) Y X o) = finish o (tconv_accumulator t w img o Y X)) <->
   work_divisible threads (t_outH t) (t_outW t) (t_sH t) (t_sW t)).
Proof.
  intros ds threads t w pad chain finish img mem R Ew WF ET SH SW Th Cs Hold. split.
  2: { intros DV before after Run. destruct (C78_transpose_conv_partial ds threads t w pad chain finish img mem R Ew WF ET SH SW DV Th Cs Hold) as [_ V]. apply (V before after Run). }
  intros A.
  destruct (replaced t w pad chain R Ew) as (El & Ep & Ec).
  destruct WF as (WH & WW & WD & WO & WkH & WkW & WsH & WsW & EH & EW).
  set (cs := reorder_kernel (t_kH t) (t_kW t) (t_sH t) (t_sW t)) in *.
  assert (Sub : forall f, In f chain -> (f_subH f < t_sH t)%nat /\ (f_subW f < t_sW t)%nat /\ f_strideH f = t_sH t /\ f_strideW f = t_sW t).
  { intros f If. rewrite Ec in If. destruct (make_chain_in _ _ _ _ _ _ _ If) as (c & Ic & _ & _ & _ & S1 & S2 & S3 & S4 & _).
    destruct (in_reorder _ _ _ _ _ Ic) as [B _]. rewrite S1, S2. repeat split; try assumption; lia. }
  assert (First : match chain with [] => False | f :: _ => f_partial f = false end).
  { rewrite Ec. assert (NE : cs <> []).
    { pose proof (C34_transpose_conv_partial Z 0 (fun _ _ => 0) (fun _ _ => 0) (t_inH t) (t_inW t) (t_kH t) (t_kW t) (t_sH t) (t_sW t)
        (fun _ => eq_refl) WH WW ltac:(lia) ltac:(lia)) as T. cbv zeta in T. fold cs in T. destruct (transpose_padding cs). destruct T as [_ T].
      destruct (T 0 0 ltac:(lia) ltac:(lia)) as (c & Ic & _). intros E. rewrite E in Ic. destruct Ic. }
    destruct cs as [|c cs']; [congruence|]. reflexivity. }
  assert (Bad : forall Y X, 0 <= Y < t_outH t -> 0 <= X < t_outW t ->
    (forall f, In f chain -> exists rs, regions ds threads t f = Some rs /\ forall r Y' X' c, In r rs -> in_region r Y' X' c ->
       on_gridb (f_subH f) (f_strideH f) Y' = true -> on_gridb (f_subW f) (f_strideW f) X' = true ->
       0 <= X' < t_outW t /\ 0 <= c < Z.of_nat (t_outD t) /\ (Y' <> Y \/ X' <> X)) -> False).
  { intros Y X HY HX Hf.
    assert (U : exists after, run_tconv ds threads t finish mem pad chain (fun _ => 0) after /\
      after (address (t_outW t) (t_outD t) Y X 0) = finish 0%nat (tconv_accumulator t w img 0 Y X) + 1).
    { unfold run_tconv. cbv zeta. apply unwritten; [|exact First|].
      { unfold address. assert (D1 : 1 <= Z.of_nat (t_outD t)) by lia. clear - HY HX D1. set (D := Z.of_nat (t_outD t)) in *. clearbody D.
        assert (0 <= Y * t_outW t + X) by nia. assert (Y * t_outW t + X + 1 <= t_outH t * t_outW t) by nia. change (Z.of_nat 0) with 0. nia. }
      intros f If. destruct (Hf f If) as (rs & Er & K). exists rs. split; [exact Er|].
      apply not_true_is_false. intros Ex. apply existsb_exists in Ex. destruct Ex as (e & Ie & Ee). apply Z.eqb_eq in Ee.
      apply in_flat_map in Ie. destruct Ie as (r & Ir & Ie). apply thread_writes_in in Ie. destruct Ie as (Y' & X' & c & Rr & G1 & G2 & ->).
      cbn [fst] in Ee. destruct (K r Y' X' c Ir Rr G1 G2) as (BX & Bc & NE). unfold address in Ee.
      destruct (address_inj (t_outW t) (Z.of_nat (t_outD t)) Y' X' c Y X 0 BX HX Bc ltac:(lia)) as (? & ? & _); [lia|]. lia. }
    destruct U as (after & Run & V). rewrite (A _ after Run Y X 0%nat HY HX ltac:(lia)) in V. lia. }
  assert (FH : Z.of_nat (t_sH t) <= t_outH t) by nia. assert (FW : Z.of_nat (t_sW t) <= t_outW t) by nia.
  assert (Dec : forall n s, divisible n s \/ ((3 <= s)%nat /\ n mod Z.of_nat s <> 0 /\ Z.odd n = false)).
  { intros n s. unfold divisible. destruct (le_lt_dec s 2); [auto|]. destruct (Z.eq_dec (n mod Z.of_nat s) 0); [auto|]. destruct (Z.odd n); auto. }
  assert (Ch : choose_height (Z.of_nat threads) (t_outH t / Z.of_nat (t_sH t)) (t_outW t / Z.of_nat (t_sW t)) = true <->
     rows_divided threads (t_outH t) (t_outW t) (t_sH t) (t_sW t)).
  { unfold choose_height, rows_divided. cbv zeta. assert (N0 : Z.of_nat threads <> 0) by lia. rewrite <- !(Z.mod_divide _ _ N0).
    destruct (Z.eqb_spec ((t_outH t / Z.of_nat (t_sH t)) mod Z.of_nat threads) 0); [tauto|].
    destruct (Z.eqb_spec ((t_outW t / Z.of_nat (t_sW t)) mod Z.of_nat threads) 0); [split; [discriminate|tauto]|].
    rewrite Z.gtb_ltb, Z.ltb_lt. tauto. }
  assert (Rg : forall f, In f chain -> (3 <= t_sH t)%nat \/ (3 <= t_sW t)%nat -> regions ds threads t f =
    let isH := choose_height (Z.of_nat threads) (t_outH t / Z.of_nat (t_sH t)) (t_outW t / Z.of_nat (t_sW t)) in
    let splits := if isH then dim_splits threads (t_outH t / Z.of_nat (t_sH t)) (Z.of_nat (t_sH t)) else dim_splits threads (t_outW t / Z.of_nat (t_sW t)) (Z.of_nat (t_sW t)) in
    match (if (if isH then Z.odd (t_outH t) else Z.odd (t_outW t)) then bump_last splits else Some splits) with
    | None => None
    | Some splits => Some (if isH then map (fun p => Region (fst p) 0 0 (snd p) (t_outW t) (Z.of_nat (t_outD t))) (lay_out (t_outH t) (Z.of_nat (f_subH f)) 0 splits)
              else map (fun p => Region 0 (fst p) 0 (t_outH t) (snd p) (Z.of_nat (t_outD t))) (lay_out (t_outW t) (Z.of_nat (f_subW f)) 0 splits))
    end).
  { intros f If H3. destruct (Sub f If) as (B1 & B2 & S3 & S4). unfold regions, get_image_region_thread_splits. rewrite S3, S4.
    destruct (_ && _) eqn:E1; [|reflexivity]. rewrite !andb_true_iff, !Z.eqb_eq in E1. lia. }
  assert (Piece : forall n s sub p v, Z.odd n = false -> 1 <= Z.of_nat s <= n -> (sub < s)%nat -> In p (lay_out n (Z.of_nat sub) 0 (dim_splits threads (n / Z.of_nat s) (Z.of_nat s))) ->
    fst p <= v < fst p + snd p -> on_gridb sub s v = true -> 0 <= v < n /\ v <> n / Z.of_nat s * Z.of_nat s).
  { intros n s sub p v Ev Hs Hsub Ip Hv G. pose proof (even_pieces threads n (Z.of_nat s) (Z.of_nat sub) p Th ltac:(lia) ltac:(lia) Ev Ip) as B.
    assert (L : 0 + Z.of_nat sub <= fst p).
    { refine (lay_out_start _ _ _ _ p Ev _ Ip). intros a Ha. rewrite dim_splits_unit in Ha. apply in_map_iff in Ha. destruct Ha as (u & <- & Hu).
      apply dim_splits_pos in Hu. nia. }
    apply on_gridb_on_grid in G; [|lia]. destruct G as (k & Hk & ->).
    pose proof (Z.div_mod n (Z.of_nat s) ltac:(lia)) as DM. pose proof (Z.mod_pos_bound n (Z.of_nat s) ltac:(lia)) as MB.
    assert (k < n / Z.of_nat s) by nia. split; nia. }
  split; intros RD.
  - destruct (Dec (t_outH t) (t_sH t)) as [D|(S3 & M & Ev)]; [exact D|exfalso]. apply Ch in RD.
    assert (P0 : 0 <= t_outH t / Z.of_nat (t_sH t) * Z.of_nat (t_sH t) < t_outH t).
    { pose proof (Z.div_mod (t_outH t) (Z.of_nat (t_sH t)) ltac:(lia)). pose proof (Z.mod_pos_bound (t_outH t) (Z.of_nat (t_sH t)) ltac:(lia)).
      assert (0 <= t_outH t / Z.of_nat (t_sH t)) by (apply Z.div_pos; lia). nia. }
    apply (Bad (t_outH t / Z.of_nat (t_sH t) * Z.of_nat (t_sH t)) 0 P0 ltac:(lia)). intros f If. destruct (Sub f If) as (B1 & B2 & S4 & S5).
    rewrite (Rg f If (or_introl S3)). cbv zeta. rewrite RD, Ev. eexists. split; [reflexivity|]. intros r Y' X' c Ir Rr G1 G2.
    apply in_map_iff in Ir. destruct Ir as (p & <- & Ip). unfold in_region in Rr. cbn in Rr. rewrite S4 in G1.
    destruct (Piece (t_outH t) (t_sH t) (f_subH f) p Y' Ev ltac:(lia) B1 Ip ltac:(lia) G1). split; [lia|]. split; [lia|]. left. assumption.
  - destruct (Dec (t_outW t) (t_sW t)) as [D|(S3 & M & Ev)]; [exact D|exfalso].
    assert (RF : choose_height (Z.of_nat threads) (t_outH t / Z.of_nat (t_sH t)) (t_outW t / Z.of_nat (t_sW t)) = false).
    { destruct (choose_height _ _ _); [|reflexivity]. exfalso. apply RD. apply Ch. reflexivity. }
    assert (P0 : 0 <= t_outW t / Z.of_nat (t_sW t) * Z.of_nat (t_sW t) < t_outW t).
    { pose proof (Z.div_mod (t_outW t) (Z.of_nat (t_sW t)) ltac:(lia)). pose proof (Z.mod_pos_bound (t_outW t) (Z.of_nat (t_sW t)) ltac:(lia)).
      assert (0 <= t_outW t / Z.of_nat (t_sW t)) by (apply Z.div_pos; lia). nia. }
    apply (Bad 0 (t_outW t / Z.of_nat (t_sW t) * Z.of_nat (t_sW t)) ltac:(lia) P0). intros f If. destruct (Sub f If) as (B1 & B2 & S4 & S5).
    rewrite (Rg f If (or_intror S3)). cbv zeta. rewrite RF, Ev. eexists. split; [reflexivity|]. intros r Y' X' c Ir Rr G1 G2.
    apply in_map_iff in Ir. destruct Ir as (p & <- & Ip). unfold in_region in Rr. cbn in Rr. rewrite S5 in G2.
    destruct (Piece (t_outW t) (t_sW t) (f_subW f) p X' Ev ltac:(lia) B2 Ip ltac:(lia) G2). split; [lia|]. split; [lia|]. right. assumption.
Qed.

(** Stride 3, kernel 5 x 3, input 2 x 3, two threads: row 6 of the 8 x 9 output is computed by no thread, and contains whatever
    was in memory. *)
Definition stride3 : tconv := TConv QI8 QI8 QI8 true 2 3 4 8 9 4 5 3 3 3 (WQConst (repeat 1 240)) 0.
Theorem C78_refuted_stride_3 : well_formed stride3 /\ exists pad chain, replace_tconv stride3 = Replaced pad chain /\
  forall finish mem before g, exists after, run_tconv [] 2 stride3 finish mem pad chain before after /\
    after (address (t_outW stride3) (t_outD stride3) 6 0 0) = g.
Proof.
  split; [cbv; repeat split; lia|]. eexists _, _. split; [vm_compute; reflexivity|]. intros finish mem before g.
  unfold run_tconv. cbv zeta. apply unwritten.
  - split; [vm_compute; discriminate|vm_compute; reflexivity].
  - reflexivity.
  - intros f If. cbn [In] in If. decompose [or] If; clear If; try contradiction; subst f; (eexists; split; [vm_compute; reflexivity|]);
      unfold thread_writes; vm_compute; reflexivity.
Qed.

(** A stride larger than the kernel: with the kernels that lib_nn is assumed to return (none for the positions that no tap
    reaches), these positions are never written, although their value is that of the bias. *)
Definition stride_over_kernel : tconv := TConv QI8 QI8 QI8 true 2 2 4 3 3 4 1 1 2 2 (WQConst (repeat 1 16)) 0.
Theorem C78_refuted_stride_over_kernel : well_formed stride_over_kernel /\ exists pad chain, replace_tconv stride_over_kernel = Replaced pad chain /\
  (forall w img, tconv_accumulator stride_over_kernel w img 0 1 1 = 0) /\
  forall finish mem before g, exists after, run_tconv [] 5 stride_over_kernel finish mem pad chain before after /\
    after (address 3 4 1 1 0) = g.
Proof.
  split; [cbv; repeat split; lia|]. eexists _, _. split; [vm_compute; reflexivity|]. split.
  { intros w img. reflexivity. }
  intros finish mem before g. unfold run_tconv. cbv zeta. apply unwritten.
  - split; [vm_compute; discriminate|vm_compute; reflexivity].
  - reflexivity.
  - intros f If. cbn [In] in If. decompose [or] If; clear If; try contradiction; subst f; (eexists; split; [vm_compute; reflexivity|]);
      unfold thread_writes; vm_compute; reflexivity.
Qed.

(** Exactly the transpose convolutions to which the pattern applies. *)
Theorem C78_applied : forall t,
  replace_tconv t <> NotApplied <->
    (t_in t = QI8 \/ t_in t = QI16) /\ t_w t = QI8 /\ (t_out t = QI8 \/ t_out t = QI16) /\ t_valid t = true /\
    (t_inD t mod 4 = 0)%nat /\ (t_outD t mod 4 = 0)%nat /\
    (t_in t = QI16 -> t_out t = QI16 -> (t_inD t mod 16 = 0)%nat /\ (t_outD t mod 16 = 0)%nat).
Proof.
  intros t. assert (E : replace_tconv t <> NotApplied <-> eligible t = true).
  { unfold replace_tconv. destruct (eligible t); [|split; congruence]. split; auto. intros _.
    destruct (t_weights t); try discriminate. destruct (transpose_padding _). discriminate. }
  rewrite E. unfold eligible, i16_tconv, is8, is16. rewrite !andb_true_iff, !Nat.eqb_eq.
  destruct (t_in t), (t_w t), (t_out t); cbn; rewrite ?andb_true_iff, ?Nat.eqb_eq; intuition congruence.
Qed.
(** ** A concrete case: input 2 x 2 x 4, kernel 3 x 3, strides 2, 5 x 5 x 4 outputs *)
Definition example_t : tconv := TConv QI8 QI8 QI8 true 2 2 4 5 5 4 3 3 2 2 (WQConst (map Z.of_nat (seq 0 144))) 7.
Example C78_concrete : well_formed example_t /\ (forall threads, work_divisible threads 5 5 2 2) /\ eligible example_t = true /\
  (exists chain, replace_tconv example_t = Replaced (Some (1, 1)) chain /\
     map (fun f => (f_partial f, f_subH f, f_subW f, f_kH f, f_kW f, f_offset f)) chain =
     [(false, 0%nat, 0%nat, 2%nat, 2%nat, 0); (true, 0%nat, 1%nat, 2%nat, 1%nat, 4);
      (true, 1%nat, 0%nat, 1%nat, 2%nat, 16); (true, 1%nat, 1%nat, 1%nat, 1%nat, 20)]) /\
  tconv_accumulator example_t (map Z.of_nat (seq 0 144)) (fun y x i => Z.of_nat (10 * y + 3 * x + i)) 1 2 2 = -180.
Proof. split; [cbv; repeat split; lia|]. split; [intros threads; split; intros _; left; lia|]. split; [reflexivity|]. split; [eexists; split; vm_compute; reflexivity|vm_compute; reflexivity]. Qed.
(** The weights must be a constant operator: anything else stops the compiler. *)
Theorem C78_crash : forall t, eligible t = true -> (forall w, t_weights t <> WQConst w) -> replace_tconv t = Crash.
Proof. intros t E N. unfold replace_tconv. rewrite E. destruct (t_weights t) as [w| |]; [exfalso; exact (N w eq_refl)|reflexivity|reflexivity]. Qed.

Print Assumptions C78_transpose_conv_partial.
Print Assumptions C78_same_transpose_conv_partial.
Print Assumptions C78_refuted_stride_3.
Print Assumptions C78_refuted_stride_over_kernel.
Print Assumptions C78_exactly_when.
Print Assumptions C78_applied.
