(** Soundness of the patterns of OptimizeConv2D in a whole function, continued (C93): the split, and every pattern. *)
From Coq Require Import Permutation QArith.
From Verif Require Import Base NdSpec NdBase LowerSpec BroadcastProofs ConcatProofs LowerProps FunOpsSpec FunOpsProofs FunModel FunSpec FunProofs FunProofs2.
From Verif Require Import FunOptModel FunOptSpec FunOptProofs FunOptProofs2 FunConvModel FunConvSpec FunConvProofs.
From Verif Require Import FunOpsModel.
From Verif Require ConvGeomModel ConvSpec ConvLowerSpec ConvRunSpec ConvLowerModel ConvLowerProps ConvOptModel ConvOptSpec ConvOptProofs.
Import ConvLowerSpec ConvLowerModel.
Local Open Scope nat_scope.

Section Split.
Variables (oh ow : Z) (e0 : nat) (r : ty) (v : Z -> Z -> Z -> Z).
Hypothesis Sr : exists od, t_shape r = image_shape (oh, ow, od).
Hypothesis Er : t_elem r = e0.
Fixpoint group_vals (from : Z) (groups : list (nat * ConvOptModel.conv_consts)) : list (ty * bytes) :=
  match groups with
  | [] => []
  | (n, _) :: tl => (Ty (set_last (t_shape r) n) (t_elem r) (t_zero r), result_bytes e0 (oh, ow, Z.of_nat n) (fun y x o => v y x (from + o)%Z)) :: group_vals (from + Z.of_nat n) tl
  end.
Lemma group_shape n : set_last (t_shape r) n = image_shape (oh, ow, Z.of_nat n).
Proof. destruct Sr as (od & ->). cbn [image_shape set_last]. rewrite Nat2Z.id. reflexivity. Qed.
Lemma groups_concat z groups : forall from i y x o, i < 1 -> y < Z.to_nat oh -> x < Z.to_nat ow -> o < sum_n (map fst groups) ->
  concat_t z 3 (map (fun w => (nth 3 (t_shape (fst w)) 0, stored (fst w) (snd w))) (group_vals from groups)) [i; y; x; o] = le_bytes e0 (v (Z.of_nat y) (Z.of_nat x) (from + Z.of_nat o)%Z).
Proof.
  induction groups as [|(n & cs) groups IH]; intros from i y x o Hi Hy Hx Ho; [cbn in Ho; lia|].
  cbn [map sum_n fold_right fst] in Ho. change (fold_right Nat.add 0 (map fst groups)) with (sum_n (map fst groups)) in Ho.
  cbn [group_vals map concat_t fst snd t_shape nth]. rewrite group_shape. cbn [image_shape nth]. rewrite Nat2Z.id.
  destruct (Nat.ltb_spec o n) as [L|L].
  - rewrite (stored_result _ e0 (oh, ow, Z.of_nat n)); [reflexivity|cbn [t_shape image_shape]; rewrite Nat2Z.id; reflexivity|cbn [t_elem]; exact Er|cbn [image_shape]; rewrite Nat2Z.id; apply in4; lia].
  - cbn [firstn skipn app]. rewrite IH by lia. replace (from + Z.of_nat n + Z.of_nat (o - n))%Z with (from + Z.of_nat o)%Z by lia. reflexivity.
Qed.
Lemma group_types groups : forall from, map t_shape (map fst (group_vals from groups)) = map (fun d => [1; Z.to_nat oh; Z.to_nat ow] ++ d :: []) (map fst groups).
Proof. induction groups as [|(n & cs) groups IH]; intros from; [reflexivity|]. cbn [group_vals map fst t_shape]. rewrite group_shape, IH. cbn [image_shape app]. rewrite Nat2Z.id. reflexivity. Qed.
Lemma group_elems groups : forall from, Forall (fun t => t_elem t = t_elem r) (map fst (group_vals from groups)).
Proof. induction groups as [|(n & cs) groups IH]; intros from; cbn [group_vals map fst]; constructor; auto. Qed.
End Split.

Lemma split_exec fresh (FI : forall j k, fresh j = fresh k -> j = k) c t q f bi x r a b oh ow od w d h :
  okB (TCompute (CConv c t q f bi)) [a] r -> is_same (c_padding c) = false -> c_out c = (oh, ow, od) -> c_in c = (h, w, d) -> length b = tsize a ->
  let v := conv_result false c t q f bi (image (elems (c_i16 c)) b w d) in
  forall groups k from convs sizes e, split_convs fresh c t q x r k from groups convs ->
    ConvOptModel.split_groups (Z.to_nat (per_channel c)) (consts f bi) (Z.to_nat from) sizes = Some groups -> Forall (fun s => 1 <= s)%Z sizes -> (0 <= from)%Z ->
    lookup e x = Some (a, b) -> (forall j, k <= j -> lookup e (fresh j) = None) ->
    exists e', exec_with okB convs e e' /\ (forall y, (forall j, k <= j -> y <> fresh j) -> lookup e' y = lookup e y) /\
      lookups e' (map fresh (seq k (length groups))) = Some (group_vals oh ow (elems (c_i16 c)) r v from groups) /\
      Forall (fun i => consts_fit (i_op i)) convs /\ Forall (fun g => 1 <= fst g) groups.
Proof.
  intros OK IS Eo Ei Lb v. 
  assert (Hr : t_shape r = image_shape (oh, ow, od) /\ t_elem r = elems (c_i16 c)).
  { cbn [op_ok_before] in OK. destruct OK as (_ & _ & _ & Sr & _ & Er). rewrite Eo in Sr. auto. }
  destruct Hr as [Sr Er].
  induction groups as [|(n & cs) groups IH]; intros k from convs sizes e SC SG FS Hf Lx NF.
  - inversion SC; subst. exists e. split; [constructor|]. split; [auto|]. split; [reflexivity|]. auto.
  - inversion SC as [|? ? ? ? ? q' tl RQ SC']; subst. destruct sizes as [|z sizes]; cbn [ConvOptModel.split_groups] in SG; [discriminate|].
    inversion FS as [|? ? F1 F2]; subst.
    destruct (ConvOptModel.range (Z.to_nat from * Z.to_nat (per_channel c)) (Z.to_nat z * Z.to_nat (per_channel c)) (ConvOptModel.c_filter (consts f bi))) as [fl|] eqn:RF; [|discriminate].
    destruct (ConvOptModel.range_opt (Z.to_nat from) (Z.to_nat z) (ConvOptModel.c_bias (consts f bi))) as [bl|] eqn:RB; [|discriminate].
    destruct (ConvOptModel.range_opt (Z.to_nat from) (Z.to_nat z) (ConvOptModel.c_fq (consts f bi))) as [fq|] eqn:RFQ; [|discriminate].
    destruct (ConvOptModel.range_opt (Z.to_nat from) (Z.to_nat z) (ConvOptModel.c_bq (consts f bi))) as [bq|] eqn:RBQ; [|discriminate].
    destruct (ConvOptModel.split_groups _ _ (Z.to_nat from + Z.to_nat z) sizes) as [gs|] eqn:SG'; [|discriminate].
    assert (Ez : n = Z.to_nat z /\ cs = ConvOptModel.Consts fl bl fq bq /\ gs = groups) by (inversion SG; auto). destruct Ez as (-> & -> & ->). clear SG.
    destruct (group_conv c t q f bi a r b (Z.to_nat z) (ConvOptModel.Consts fl bl fq bq) q' from (t_zero r) OK IS ltac:(lia) Hf RF RB RQ) as (K & CFt & Sm).
    rewrite Eo, Ei in Sm.
    assert (Lr : length (result_bytes (elems (c_i16 c)) (oh, ow, Z.of_nat (Z.to_nat z)) (fun y x0 o => v y x0 (from + o)%Z)) = tsize (Ty (set_last (t_shape r) (Z.to_nat z)) (t_elem r) (t_zero r))).
    { unfold tsize. cbn [t_shape t_elem]. rewrite result_length, Sr, Er. cbn [image_shape set_last nelem fold_right]. lia. }
    set (e1 := (fresh k, (Ty (set_last (t_shape r) (Z.to_nat z)) (t_elem r) (t_zero r), result_bytes (elems (c_i16 c)) (oh, ow, Z.of_nat (Z.to_nat z)) (fun y x0 o => v y x0 (from + o)%Z))) :: e) in *.
    assert (Nx : x <> fresh k) by (intros ->; rewrite NF in Lx by lia; discriminate).
    destruct (IH (S k) (from + Z.of_nat (Z.to_nat z))%Z tl sizes e1 SC') as (e' & E & O & Lk & CF2 & N2); auto.
    + rewrite Z2Nat.inj_add, Nat2Z.id by lia. exact SG'.
    + lia.
    + unfold e1. cbn [lookup]. destruct (Nat.eqb_spec x (fresh k)); [contradiction|exact Lx].
    + intros j Hj. unfold e1. cbn [lookup]. destruct (Nat.eqb_spec (fresh j) (fresh k)) as [Q|]; [apply FI in Q; lia|apply NF; lia].
    + exists e'. split; [|split; [|split; [|split]]].
      * eapply exec_cons with (vs := [(a, b)]); cbn [i_args i_op i_ty i_dst map fst]; [cbn [lookups]; rewrite Lx; reflexivity|exact K| |exact Lr|apply NF; lia|exact E].
        cbn [sem map snd]. exact Sm.
      * intros y Hy. rewrite O by (intros j Hj; apply Hy; lia). unfold e1. cbn [lookup]. destruct (Nat.eqb_spec y (fresh k)) as [Q|]; [exfalso; apply (Hy k); auto|reflexivity].
      * cbn [length seq map lookups group_vals]. rewrite Lk. rewrite O by (intros j Hj Q; apply FI in Q; lia). unfold e1. cbn [lookup]. rewrite Nat.eqb_refl. reflexivity.
      * constructor; auto.
      * constructor; auto. cbn [fst]. lia.
Qed.

Lemma three_gives {okp : fop -> list ty -> ty -> Prop} e o1 args1 t1 o2 t2 d o3 r vs1 b1 b2 b fresh :
  lookups e args1 = Some vs1 -> okp o1 (map fst vs1) t1 -> sem o1 vs1 t1 = Some b1 -> length b1 = tsize t1 -> lookup e (fresh 0) = None ->
  okp o2 [t1] t2 -> sem o2 [(t1, b1)] t2 = Some b2 -> length b2 = tsize t2 -> lookup e (fresh 1) = None -> fresh 0 <> fresh 1 ->
  okp o3 [t2] r -> sem o3 [(t2, b2)] r = Some b -> length b = tsize r -> lookup e d = None -> fresh 0 <> d -> fresh 1 <> d ->
  gives_with okp e [Instr (fresh 0) o1 args1 t1; Instr (fresh 1) o2 [fresh 0] t2; Instr d o3 [fresh 1] r] d r b fresh.
Proof.
  intros L1 K1 S1 Z1 N1 K2 S2 Z2 N2 Ne K3 S3 Z3 N3 Nd0 Nd1. exists ((d, (r, b)) :: (fresh 1, (t2, b2)) :: (fresh 0, (t1, b1)) :: e). split.
  - eapply exec_cons with (vs := vs1) (b := b1); cbn [i_args i_op i_ty i_dst]; eauto.
    eapply exec_cons with (vs := [(t1, b1)]) (b := b2); cbn [i_args i_op i_ty i_dst map fst]; eauto.
    + cbn [lookups lookup]. rewrite Nat.eqb_refl. reflexivity.
    + cbn [lookup]. destruct (Nat.eqb_spec (fresh 1) (fresh 0)); [congruence|auto].
    + eapply exec_cons with (vs := [(t2, b2)]) (b := b); cbn [i_args i_op i_ty i_dst map fst]; eauto; [| |constructor].
      * cbn [lookups lookup]. rewrite Nat.eqb_refl. reflexivity.
      * cbn [lookup]. destruct (Nat.eqb_spec d (fresh 1)); [congruence|]. destruct (Nat.eqb_spec d (fresh 0)); [congruence|auto].
  - intros x Hx. cbn [lookup]. destruct (Nat.eqb x d); auto. destruct (Nat.eqb_spec x (fresh 1)) as [->|]; [exfalso; apply (Hx 1); auto|].
    destruct (Nat.eqb_spec x (fresh 0)) as [->|]; [exfalso; apply (Hx 0); auto|auto].
Qed.

(** What a pattern needs of the operator beyond the verifier. *)
Definition splittable (size : Z) (o : fop) : Prop :=
  match o with
  | TCompute (CConv c _ _ _ _) => is_same (c_padding c) = false /\ (4 | out_channels c)%Z /\ (4 * per_channel c <= size)%Z
  | _ => True
  end.
Definition pattern_ready (p : phase) (o : fop) : Prop := consts_fit o /\ match p with FullyConnected | Padding => True | Splitting size => (1 <= size)%Z /\ splittable size o end.

Lemma split_sizes_ok n k size ns : (0 <= k)%Z -> (1 <= size)%Z -> (4 | n)%Z -> (1 <= n)%Z -> (4 * k <= size)%Z -> ConvOptModel.num_splits (n * k) size n = Some ns ->
  (2 <= ns)%Z /\ Forall (fun s => 4 <= s /\ (4 | s))%Z (ConvOptModel.split_sizes n ns) /\ Z.of_nat (sum_n (map Z.to_nat (ConvOptModel.split_sizes n ns))) = n /\
  length (ConvOptModel.split_sizes n ns) = Z.to_nat ns.
Proof.
  intros Hk Hsz D4 Hn K4 NS. unfold ConvOptModel.num_splits in NS. rewrite Z.quot_div_nonneg in NS by nia. rewrite Z.quot_div_nonneg in NS by lia.
  destruct (Z.ltb_spec (n * k / size) 2); [discriminate|]. destruct (Z.ltb_spec (n / 4) 2); [discriminate|]. cbn [orb] in NS. injection NS as <-.
  destruct (ConvOptProofs.split_sizes_sum (n * k / size) n ltac:(lia) ltac:(lia)) as (S1 & S2 & S3).
  assert (E4 : n = (4 * (n / 4))%Z) by (destruct D4 as (m & ->); rewrite Z.div_mul by lia; lia).
  assert (Q : (n * k / size <= n / 4)%Z).
  { apply Z.div_le_upper_bound; [lia|]. rewrite E4 at 1. pose proof (Z.div_pos n 4 ltac:(lia) ltac:(lia)). nia. }
  split; [lia|]. split; [|split; [|exact S2]].
  - eapply Forall_impl; [|exact S3]. cbn. intros s (H1 & H2). 
    assert (1 <= n / 4 / (n * k / size))%Z by (apply Z.div_le_lower_bound; lia). split; [lia|]. apply Z.rem_divide; lia.
  - change sum_n with ConvOptProofs.sumn. rewrite S1. lia.
Qed.

Lemma full_conv_ok fc t q f bi outside a r b s1 c' s2 s3 : okB (TCompute (CFull fc t q f bi)) [a] r -> consts_fit (TCompute (CFull fc t q f bi)) ->
  replace_compute outside (CFull fc t q f bi) = ByConv s1 c' s2 s3 -> length b = tsize a ->
  let a1 := Ty s1 (t_elem a) (t_zero a) in let r1 := Ty s2 (t_elem r) (t_zero r) in
  okB TReshape [a] a1 /\ okB (TCompute c') [a1] r1 /\ okB TReshape [r1] r /\ s3 = t_shape r /\ consts_fit (TCompute c') /\ is_same_conv (TCompute c') = false /\ not_full (TCompute c') /\
  (forall size, split_size_fits size (TCompute (CFull fc t q f bi)) -> split_size_fits size (TCompute c')) /\
  sem_compute c' [b] = sem_compute (CFull fc t q f bi) [b].
Proof.
  intros OK CFt R Lb a1 r1. cbn [op_ok_before] in OK. destruct OK as (OK & Za & Z8). cbn [op_ok] in OK.
  destruct (full_sound fc t q f bi outside a r b s1 c' s2 s3 OK R) as (N1 & E3 & N2 & CO & SC).
  split; [cbn [op_ok_before op_ok]; repeat split; auto|]. 
  cbn [compute_ok] in OK. destruct OK as ((lead & rows & I & O & HL & Ei & Eo & Ed & Hr & HI & HO & Hz & _) & _).
  destruct fc as [i16 fin fout fdims zp]. cbn [fl_in fl_out fl_dims fl_i16 fl_in_zp consts_fit] in *. subst fin fdims. cbn [nth] in CFt.
  assert (Sq : ConvGeomModel.fc_squeezed fout = fout /\ ConvGeomModel.fc_conv_shape fout = [1; 1; rows; O]%Z) by (destruct Eo as [-> | ->]; split; reflexivity).
  destruct Sq as [Sq Sc]. cbn [replace_compute fl_out fl_in] in R. rewrite Sq in R. unfold conv_of_full in R. cbn [fl_in fl_out fl_dims fl_i16 fl_in_zp] in R.
  rewrite conv_shape_lead, Sc in R. unfold ConvGeomModel.fc_filter_shape, image_of in R. cbn [nth] in R. injection R as <- <- <- <-.
  split; [|split; [|split; [exact E3|split; [|split; [reflexivity|split; [exact Logic.I|split; [|exact SC]]]]]]].
  - cbn [op_ok_before]. cbn [compute_ok] in CO. destruct CO as (CO & CO'). split; [|exact CO']. unfold conv_ok in CO. unfold conv_fits.
    cbn [c_in c_out c_filter c_stride c_dilation c_padding c_padding_values c_i16 c_in_zp] in *. destruct CO as (C1 & C2 & C3 & C4 & C5 & C6 & C7 & C8 & C9 & C10).
    split; [exact C1|]. split; [exact C2|]. split; [discriminate|]. split; [exact C3|]. split; [exact C4|]. split; [exact C5|]. split; [exact Hz|]. split; [intros E; destruct (C7 E); auto|].
    split; [exact C8|]. split; [exact C9|]. split; [exact C10|]. unfold a1. cbn [t_zero]. exact Za.
  - unfold r1. cbn [op_ok_before op_ok t_shape t_elem t_zero]. split; [rewrite N2, E3; reflexivity|]. split; reflexivity.
  - cbn [consts_fit c_out c_filter]. destruct CFt as (LF & LB). split; [rewrite LF; ring|exact LB].
  - intros size H. cbn [split_size_fits c_filter c_i16 fl_dims fl_i16 nth] in *. lia.
Qed.

Lemma conv_sound p fresh tys i news e vs b :
  phase_pattern p fresh tys i news -> pattern_ready p (i_op i) -> lookups e (i_args i) = Some vs -> map fst vs = tys -> okB (i_op i) tys (i_ty i) -> sem (i_op i) vs (i_ty i) = Some b ->
  length b = tsize (i_ty i) -> Forall (fun v => length (snd v) = tsize (fst v)) vs -> lookup e (i_dst i) = None ->
  (forall k, lookup e (fresh k) = None) -> (forall k, fresh k <> i_dst i) -> (forall j k, fresh j = fresh k -> j = k) ->
  gives_with okB e news (i_dst i) (i_ty i) b fresh /\ Forall (fun j => consts_fit (i_op j)) news.
Proof.
  intros X (CFt & RDY) L T K Sm Zl F N NF Ne FI. destruct p as [| |size]; cbn [phase_pattern] in X.
  - destruct X as [a d fc t q f bi x r outside s1 c' s2 s3 R]. cbn [i_op i_dst i_ty i_args] in *. destruct (singleton_types _ _ T) as (ab & ->).
    inversion F as [|? ? Fa _]; subst. cbn [fst snd] in Fa.
    destruct (full_conv_ok fc t q f bi outside a r ab s1 c' s2 s3 K CFt R Fa) as (O1 & O2 & O3 & -> & CF' & _ & _ & _ & SC).
    replace (Ty (t_shape r) (t_elem r) (t_zero r)) with r by (destruct r; reflexivity).
    split; [|repeat constructor; exact CF'].
    assert (Za : length ab = tsize (Ty s1 (t_elem a) (t_zero a))) by (destruct (before_total TReshape [(a, ab)] _ O1 F) as (b1 & S1 & Z1); cbn [sem] in S1; injection S1 as <-; exact Z1).
    destruct (before_total (TCompute c') [(Ty s1 (t_elem a) (t_zero a), ab)] _ O2 ltac:(constructor; [exact Za|constructor])) as (b2 & S2 & Z2).
    cbn [sem map snd] in S2, Sm. assert (b2 = b) as -> by congruence.
    apply (three_gives e TReshape [x] (Ty s1 (t_elem a) (t_zero a)) (TCompute c') (Ty s2 (t_elem r) (t_zero r)) d TReshape r [(a, ab)] ab b b fresh); auto; [intros Q; apply FI in Q; discriminate].
  - destruct X as [a d c t q f bi x r p cs q' PI RQ | a d c t q f bi x r p cs q' PO RQ | a d c t q f bi x r p cs q' I8 PD RQ]; cbn [i_op i_dst i_ty i_args] in *;
      destruct (singleton_types _ _ T) as (ab & ->).
    + destruct (input_padded c t q f bi a r ab p cs q' K CFt PI RQ) as (O1 & O2 & CF' & b' & S1 & S2).
      destruct (before_total _ [(a, ab)] _ O1 F) as (b1 & S3 & Z3). rewrite S1 in S3. injection S3 as <-.
      split; [|repeat constructor; exact CF']. unfold input_pad.
      eapply two_gives; eauto. cbn [sem map snd] in *. rewrite S2. exact Sm.
    + destruct (output_padded c t q f bi a r ab p cs q' K CFt PO RQ) as (O1 & CF' & O2 & b' & S1 & S2).
      destruct (before_total (TCompute _) [(a, ab)] _ O1 F) as (b1 & S3 & Z3). cbn [sem map snd] in S3. rewrite S1 in S3. injection S3 as <-.
      split; [|repeat constructor; exact CF']. unfold slice_back.
      eapply two_gives; eauto. cbn [sem map snd] in Sm. rewrite <- Sm. exact S2.
    + destruct (depthwise_op_padded c t q f bi a r ab p cs q' K CFt I8 PD RQ) as (O1 & O2 & CF' & O3 & b1 & b2 & S1 & S2 & S3).
      destruct (before_total _ [(a, ab)] _ O1 F) as (b1' & S4 & Z4). rewrite S1 in S4. injection S4 as <-.
      destruct (before_total (TCompute _) [(_, b1)] _ O2 ltac:(constructor; [exact Z4|constructor])) as (b2' & S5 & Z5). cbn [sem map snd] in S5. rewrite S2 in S5. injection S5 as <-.
      split; [|repeat constructor; exact CF']. unfold slice_back, input_pad.
      eapply three_gives; eauto; [intros Q; apply FI in Q; discriminate|]. cbn [sem map snd] in Sm. rewrite <- Sm. exact S3.
  - destruct X as [a d c t q f bi x r ns groups convs NS SG SC]. cbn [i_op i_dst i_ty i_args] in *. destruct (singleton_types _ _ T) as (ab & ->).
    destruct RDY as (Hsz & IS & D4 & K4). pose proof K as K'. cbn [op_ok_before] in K'. destruct K' as (CF & _ & Sa & Sr & Ea & Er).
    destruct (c_in c) as [[h w] dd] eqn:Ei, (c_out c) as [[oh ow] od] eqn:Eo, (c_filter c) as [[fh fw] fd] eqn:Ef.
    unfold conv_fits in CF. rewrite Ei, Eo, Ef in CF. destruct (c_stride c) as [sh sw], (c_dilation c) as [dh dw].
    destruct CF as (Pi & Po & _ & (_ & _ & Hfh & Hfw & _) & C1 & _).
    unfold out_channels, per_channel in *. rewrite Eo, Ef in *. cbn [consts_fit] in CFt. rewrite Eo, Ef in CFt. destruct CFt as (LF & LB).
    assert (Hk : (0 <= fh * fw * fd)%Z) by (rewrite (C1 eq_refl); destruct Pi as (_ & _ & Hd); nia).
    destruct Po as (Ho1 & Ho2 & Ho3). rewrite LF in NS. destruct (split_sizes_ok od (fh * fw * fd) size ns Hk Hsz D4 Ho3 K4 NS) as (Hns & FS & SS & LS).
    assert (Lx : lookup e x = Some (a, ab)) by (cbn [lookups] in L; destruct (lookup e x) as [u|]; [injection L as ->; reflexivity|discriminate]).
    inversion F as [|? ? Fa _]; subst. cbn [fst snd] in Fa.
    destruct (split_exec fresh FI c t q f bi x r a ab oh ow od w dd h K IS Eo Ei Fa groups 0 0%Z convs (ConvOptModel.split_sizes od ns) e SC) as (e' & E & O & Lk & CF2 & N2); auto.
    { unfold per_channel. rewrite Ef. exact SG. } { eapply Forall_impl; [|exact FS]. cbn. intros s (Hs & _). lia. } { lia. }
    assert (GM : map fst groups = map Z.to_nat (ConvOptModel.split_sizes od ns)).
    { clear - SG. revert SG. generalize (ConvOptModel.split_sizes od ns) as sizes. intros sizes. generalize 0 as el. revert groups. induction sizes as [|z sizes IH]; intros groups el SG; cbn [ConvOptModel.split_groups] in SG; [injection SG as <-; reflexivity|].
      destruct (ConvOptModel.split_groups _ _ _ sizes) as [gs|] eqn:E; [|repeat match type of SG with match ?u with _ => _ end = _ => destruct u; try discriminate end].
      assert (G : exists cs, groups = (Z.to_nat z, cs) :: gs) by (repeat match type of SG with match ?u with _ => _ end = _ => destruct u; try discriminate end; injection SG as <-; eexists; reflexivity).
      destruct G as (cs & ->). cbn [map fst]. f_equal. apply (IH gs (el + Z.to_nat z)). exact E. }
    assert (SO : sum_n (map fst groups) = Z.to_nat od) by (rewrite GM; lia).
    assert (Kc : okB (TConcat 3) (map fst (group_vals oh ow (elems (c_i16 c)) r (conv_result false c t q f bi (image (elems (c_i16 c)) ab w dd)) 0 groups)) r).
    { cbn [op_ok_before op_ok]. exists [1; Z.to_nat oh; Z.to_nat ow], [], (map fst groups). split; [left; reflexivity|]. split; [|split].
      - apply group_types. exists od. exact Sr.
      - rewrite Sr, SO. reflexivity.
      - apply group_elems. }
    split; [|apply Forall_app; split; [exact CF2|repeat constructor]].
    exists ((d, (r, b)) :: e'). split.
    + apply exec_app. exists e'. split; [exact E|].
      eapply exec_cons; cbn [i_args i_op i_ty i_dst]; [exact Lk|exact Kc| |exact Zl| |constructor].
      * cbn [sem]. cbn [sem map snd] in Sm. rewrite <- Sm. cbn [sem_compute]. rewrite Ei, Eo. f_equal. rewrite Sr.
        change (normal_axis 3 (length (image_shape (oh, ow, od)))) with 3. rewrite (result_image _ (oh, ow, od)). apply bytes_ext. intros idx Hi.
        apply in_shape4 in Hi. destruct Hi as (i0 & y & x0 & o & -> & H0 & Hy & Hx & Ho).
        rewrite (groups_concat oh ow (elems (c_i16 c)) r); [|exists od; exact Sr|exact Er|exact H0|exact Hy|exact Hx|lia]. reflexivity.
      * rewrite O; [exact N|]. intros k _ Q. apply (Ne k). symmetry. exact Q.
    + intros y Hy. cbn [lookup]. destruct (Nat.eqb y d); [reflexivity|]. apply O. intros k _. apply Hy.
Qed.
