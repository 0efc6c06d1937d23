(** C29, C30, C31, C47: channelwise rewrites of convolutions. *)
From Coq Require Import QArith.
From Verif Require Import Base ConvOptModel ConvOptSpec ConvOptProofs.
Local Open Scope nat_scope.

(** ** C29 *)
(** Number of output channels a multiple of 4 (the padding pattern, C31, runs first). *)
Theorem C29_channelwise_split_partial : forall W R (G : W -> list Z -> option Z -> option (Q * Z) -> option (Q * Z) -> R)
  k n c splitSize ns,
  consts_ok k n c -> n mod 4 = 0 -> (1 <= splitSize)%Z ->
  num_splits (Z.of_nat (n * k)) splitSize (Z.of_nat n) = Some ns ->
  exists groups, split_groups k c 0 (split_sizes (Z.of_nat n) ns) = Some groups /\
    length groups = Z.to_nat ns /\ 2 <= length groups /\
    Forall (fun g => consts_ok k (fst g) (snd g) /\ fst g mod 4 = 0) groups /\
    ((ns <= Z.of_nat n / 4)%Z -> Forall (fun g => 4 <= fst g) groups) /\
    forall w, concat (map (fun g => conv_channels G k (fst g) (snd g) w) groups) = conv_channels G k n c w.
Proof.
  intros W R G k n c splitSize ns HC H4 HS HN.
  assert (2 <= ns)%Z by (unfold num_splits in HN; destruct (Z.ltb_spec (Z.quot (Z.of_nat (n * k)) splitSize) 2); cbn [orb] in HN;
    [discriminate|]; destruct (Z.quot (Z.of_nat n) 4 <? 2)%Z; inv HN; lia).
  destruct (split_sizes_sum ns (Z.of_nat n) ltac:(lia) ltac:(lia)) as (S1 & S2 & S3).
  set (sizes := split_sizes (Z.of_nat n) ns) in *.
  assert (SN : sumn (map Z.to_nat sizes) = n).
  { assert (n = 4 * (n / 4)) by (pose proof (Nat.div_mod n 4); lia). lia. }
  assert (X : exists gs, split_groups k c 0 sizes = Some gs /\ map fst gs = map Z.to_nat sizes /\
    Forall (fun g => consts_ok k (fst g) (snd g)) gs).
  { destruct (split_groups_ok (fun (_ : unit) _ _ _ _ => tt) k n c tt HC sizes 0 ltac:(lia)) as (gs & E & L & F & _). eauto. }
  destruct X as (gs & E & L & F). exists gs. split; [exact E|].
  assert (LG : length gs = Z.to_nat ns) by (rewrite <- (map_length fst), L, map_length; exact S2).
  split; [exact LG|]. split; [lia|].
  assert (PS : forall g, In g gs -> exists s, In s sizes /\ fst g = Z.to_nat s).
  { intros g Hg. assert (I : In (fst g) (map Z.to_nat sizes)) by (rewrite <- L; apply in_map; auto).
    apply in_map_iff in I. destruct I as (s & Hs & I). eauto. }
  assert (D0 : (0 <= Z.of_nat n / 4 / ns)%Z) by (apply Z.div_pos; [apply Z.div_pos|]; lia).
  rewrite Forall_forall in S3.
  split; [|split].
  - apply Forall_forall. intros g Hg. rewrite Forall_forall in F. split; [apply F; auto|].
    destruct (PS g Hg) as (s & Is & ->). destruct (S3 s Is) as [S4 S5].
    rewrite Z.rem_mod_nonneg in S5 by lia. apply Nat2Z.inj. rewrite Nat2Z.inj_mod, Z2Nat.id by lia. exact S5.
  - intros HQ. apply Forall_forall. intros g Hg. destruct (PS g Hg) as (s & Is & ->). destruct (S3 s Is) as [S4 _].
    assert (1 <= Z.of_nat n / 4 / ns)%Z by (apply Z.div_le_lower_bound; lia). lia.
  - intros w. destruct (split_groups_ok G k n c w HC sizes 0 ltac:(lia)) as (gs' & E' & _ & _ & C').
    assert (gs' = gs) by congruence. subst gs'. rewrite C'. rewrite Nat.sub_0_r. reflexivity.
Qed.
(** For any number of output channels: the convolutions compute the first 4*(n/4) of
    them, in order; so nothing is lost exactly when the number is a multiple of 4. *)
Theorem C29_exactly_when : forall W R (G : W -> list Z -> option Z -> option (Q * Z) -> option (Q * Z) -> R)
  k n c splitSize ns,
  consts_ok k n c -> (1 <= splitSize)%Z ->
  num_splits (Z.of_nat (n * k)) splitSize (Z.of_nat n) = Some ns ->
  exists groups, split_groups k c 0 (split_sizes (Z.of_nat n) ns) = Some groups /\
    Forall (fun g => consts_ok k (fst g) (snd g)) groups /\
    forall w, concat (map (fun g => conv_channels G k (fst g) (snd g) w) groups) = firstn (4 * (n / 4)) (conv_channels G k n c w) /\
      (concat (map (fun g => conv_channels G k (fst g) (snd g) w) groups) = conv_channels G k n c w <-> n mod 4 = 0).
Proof.
  intros W R G k n c splitSize ns HC HS HN.
  assert (2 <= ns)%Z by (unfold num_splits in HN; destruct (Z.ltb_spec (Z.quot (Z.of_nat (n * k)) splitSize) 2); cbn [orb] in HN;
    [discriminate|]; destruct (Z.quot (Z.of_nat n) 4 <? 2)%Z; inv HN; lia).
  destruct (split_sizes_sum ns (Z.of_nat n) ltac:(lia) ltac:(lia)) as (S1 & _ & _).
  set (sizes := split_sizes (Z.of_nat n) ns) in *.
  pose proof (Nat.div_mod n 4 ltac:(lia)) as DM. pose proof (Nat.mod_upper_bound n 4 ltac:(lia)) as MB.
  assert (SN : sumn (map Z.to_nat sizes) = 4 * (n / 4)).
  { apply Nat2Z.inj. rewrite S1. rewrite Nat2Z.inj_mul, Nat2Z.inj_div. reflexivity. }
  assert (X : exists gs, split_groups k c 0 sizes = Some gs /\ Forall (fun g => consts_ok k (fst g) (snd g)) gs).
  { destruct (split_groups_le (fun (_ : unit) _ _ _ _ => tt) k n (4 * (n / 4)) c tt HC ltac:(lia) sizes 0 ltac:(lia)) as (gs & E & _ & F & _). eauto. }
  destruct X as (gs & E & F). exists gs. split; [exact E|]. split; [exact F|]. intros w.
  destruct (split_groups_le G k n (4 * (n / 4)) c w HC ltac:(lia) sizes 0 ltac:(lia)) as (gs' & E' & _ & _ & C').
  assert (gs' = gs) by congruence. subst gs'. rewrite C', Nat.sub_0_r.
  assert (FN : map (fun o => G w (chunk k o (c_filter c)) (at_opt (c_bias c) o) (at_opt (c_fq c) o) (at_opt (c_bq c) o)) (seq 0 (4 * (n / 4))) =
    firstn (4 * (n / 4)) (conv_channels G k n c w)).
  { unfold conv_channels. rewrite firstn_map. f_equal. replace n with (4 * (n / 4) + n mod 4) at 3 by lia.
    rewrite seq_app, firstn_app, seq_length, Nat.sub_diag. cbn [firstn]. rewrite app_nil_r. symmetry. apply firstn_all2. rewrite seq_length. lia. }
  split; [exact FN|]. split.
  - intros Q. apply (f_equal (@length _)) in Q. unfold conv_channels in Q. rewrite !map_length, !seq_length in Q. lia.
  - intros M. rewrite FN. apply firstn_all2. unfold conv_channels. rewrite map_length, seq_length. lia.
Qed.
Example C29_concrete : num_splits 96 40 12 = Some 2%Z /\ split_sizes 12 2 = [8; 4]%Z /\
  consts_ok 8 12 (Consts (repeat 1%Z 96) (Some (repeat 5%Z 12)) None None).
Proof. repeat split; intros l E; inv E; reflexivity. Qed.
(** 9 output channels split in two: only 8 are computed. *)
Theorem C29_refuted_not_multiple_of_4 : num_splits (9 * 8) 36 9 = Some 2%Z /\ split_sizes 9 2 = [4; 4]%Z.
Proof. split; reflexivity. Qed.
(** Three splits of 8 channels: the last convolution has no output channel. *)
Theorem C29_refuted_empty_group : num_splits (8 * 30) 80 8 = Some 3%Z /\ split_sizes 8 3 = [4; 4; 0]%Z.
Proof. split; reflexivity. Qed.

(** ** C30 *)
Theorem C30_pad_input_channels : forall i16 depth n c p c' zx zw window,
  pad_conv_input i16 depth c = Some (p, c') ->
  1 <= depth -> Forall (fun px => length px = depth) window ->
  consts_ok (length window * depth) n c ->
  (Z.rem (Z.of_nat (depth + p)) (if i16 then 16 else 4) = 0)%Z /\ (Z.of_nat p < if i16 then 16 else 4)%Z /\ 1 <= p /\
  consts_ok (length window * (depth + p)) n c' /\
  c_bias c' = c_bias c /\ c_fq c' = c_fq c /\ c_bq c' = c_bq c /\
  Forall (fun px => length px = depth + p) (pad_window p zx window) /\
  forall o, o < n ->
    accumulator (depth + p) zx zw (pad_window p zx window) (chunk (length window * (depth + p)) o (c_filter c')) =
    accumulator depth zx zw window (chunk (length window * depth) o (c_filter c)).
Proof.
  intros i16 depth n c p c' zx zw window E Hd HW (LF & LB & LQ & LR). unfold pad_conv_input in E.
  destruct (pad_size_ok (Z.of_nat depth) (alignment i16) ltac:(destruct i16; cbn; lia) ltac:(lia)) as [P1 P2].
  destruct (Z.eqb_spec (pad_size (Z.of_nat depth) (alignment i16)) 0) as [Z0|NZ]; [discriminate|].
  inversion E as [[E1 E2]]. set (q := pad_size (Z.of_nat depth) (alignment i16)) in *.
  assert (PZ : Z.of_nat (Z.to_nat q) = q) by lia.
  cbn [c_filter c_bias c_fq c_bq].
  split; [rewrite Nat2Z.inj_add, PZ; exact P2|]. split; [rewrite PZ; apply P1|]. split; [lia|].
  split.
  { destruct (pad_depth_nth depth (Z.to_nat q) (n * length window) (c_filter c) Hd ltac:(lia)) as [PL _].
    unfold consts_ok. cbn [c_filter c_bias c_fq c_bq]. rewrite PL. split; [lia|]. auto. }
  repeat (split; [reflexivity|]). split.
  { unfold pad_window. rewrite Forall_map. eapply Forall_impl; [|exact HW]. intros px Hpx. cbv beta in Hpx |- *.
    rewrite app_length, repeat_length. lia. }
  intros o Ho. apply accumulator_pad with n; auto.
Qed.
Example C30_concrete : pad_conv_input false 3 (Consts [1; 2; 3; 4; 5; 6]%Z None None None) =
  Some (1, Consts [1; 2; 3; 0; 4; 5; 6; 0]%Z None None None) /\ Forall (fun px => length px = 3) [[7; 8; 9]%Z].
Proof. split; [reflexivity|]. repeat constructor. Qed.

(** ** C31 *)
Theorem C31_pad_output_channels : forall W R (G : W -> list Z -> option Z -> option (Q * Z) -> option (Q * Z) -> R)
  i16 n k c p c',
  pad_conv_output i16 n k c = Some (p, c') -> consts_ok k n c ->
  (Z.rem (Z.of_nat (n + p)) (if i16 then 16 else 4) = 0)%Z /\ (Z.of_nat p < if i16 then 16 else 4)%Z /\ 1 <= p /\
  consts_ok k (n + p) c' /\
  forall w, firstn n (conv_channels G k (n + p) c' w) = conv_channels G k n c w.
Proof.
  intros W R G i16 n k c p c' E (LF & LB & LQ & LR). unfold pad_conv_output in E.
  destruct (pad_size_ok (Z.of_nat n) (alignment i16) ltac:(destruct i16; cbn; lia) ltac:(lia)) as [P1 P2].
  destruct (Z.eqb_spec (pad_size (Z.of_nat n) (alignment i16)) 0) as [Z0|NZ]; [discriminate|].
  inversion E as [[E1 E2]]. set (q := pad_size (Z.of_nat n) (alignment i16)) in *.
  assert (PZ : Z.of_nat (Z.to_nat q) = q) by lia.
  split; [rewrite Nat2Z.inj_add, PZ; exact P2|]. split; [rewrite PZ; apply P1|]. split; [lia|]. split.
  - unfold consts_ok, pad_batch, pad_bias, pad_q. cbn [c_filter c_bias c_fq c_bq]. rewrite app_length, repeat_length, LF.
    split; [lia|]. destruct (c_bias c) as [b|], (c_fq c) as [f|], (c_bq c) as [g|]; repeat split; intros l El; inv El;
      rewrite app_length, repeat_length; f_equal; auto.
  - intros w. unfold conv_channels. cbn [c_filter c_bias c_fq c_bq]. rewrite seq_app, map_app.
    rewrite firstn_app, map_length, seq_length, Nat.sub_diag. rewrite firstn_all2 by (rewrite map_length, seq_length; lia).
    cbn [firstn]. rewrite app_nil_r. apply map_ext_in. intros o Ho. apply in_seq in Ho.
    rewrite (chunk_pad k n) by (auto; lia). unfold pad_bias, pad_q.
    rewrite !(at_opt_pad _ _ n) by (auto; lia). reflexivity.
Qed.
Example C31_concrete : pad_conv_output false 2 2 (Consts [1; 2; 3; 4]%Z (Some [7; 8]%Z) (Some [((1 # 2)%Q, 0%Z); ((1 # 3)%Q, 0%Z)]) None) =
  Some (2, Consts [1; 2; 3; 4; 0; 0; 0; 0]%Z (Some [7; 8; 0; 0]%Z) (Some [((1 # 2)%Q, 0%Z); ((1 # 3)%Q, 0%Z); (1%Q, 0%Z); (1%Q, 0%Z)]) None).
Proof. reflexivity. Qed.

(** ** C47: depthwise *)
Theorem C47_pad_depthwise : forall R (G : list Z -> list Z -> option Z -> option (Q * Z) -> option (Q * Z) -> R)
  depth taps c p c' zx window,
  pad_depthwise depth depth c = Some (p, c') -> 1 <= depth ->
  length (c_filter c) = taps * depth ->
  (forall l, c_bias c = Some l -> length l = depth) -> (forall l, c_fq c = Some l -> length l = depth) ->
  (forall l, c_bq c = Some l -> length l = depth) ->
  Forall (fun px => length px = depth) window ->
  (Z.rem (Z.of_nat (depth + p)) 4 = 0)%Z /\ 1 <= p < 4 /\
  length (c_filter c') = taps * (depth + p) /\
  firstn depth (depthwise_channels G (depth + p) c' (pad_window p zx window)) = depthwise_channels G depth c window.
Proof.
  intros R G depth taps c p c' zx window E Hd LF LB LQ LR HW. unfold pad_depthwise in E. rewrite Nat.eqb_refl in E.
  destruct (pad_size_ok (Z.of_nat depth) 4 ltac:(lia) ltac:(lia)) as [P1 P2].
  destruct (Z.eqb_spec (pad_size (Z.of_nat depth) 4) 0) as [Z0|NZ]; [discriminate|].
  inversion E as [[E1 E2]]. set (q := pad_size (Z.of_nat depth) 4) in *.
  assert (PZ : Z.of_nat (Z.to_nat q) = q) by lia.
  split; [rewrite Nat2Z.inj_add, PZ; exact P2|]. split; [lia|].
  destruct (pad_depth_nth depth (Z.to_nat q) taps (c_filter c) Hd LF) as [PL _].
  cbn [c_filter]. split; [exact PL|].
  unfold depthwise_channels. cbn [c_filter c_bias c_fq c_bq]. rewrite seq_app, map_app.
  rewrite firstn_app, map_length, seq_length, Nat.sub_diag. rewrite firstn_all2 by (rewrite map_length, seq_length; lia).
  cbn [firstn]. rewrite app_nil_r. apply map_ext_in. intros ch Hch. apply in_seq in Hch.
  rewrite (column_pad depth (Z.to_nat q) ch taps) by (auto; lia). unfold pad_bias, pad_q.
  rewrite !(at_opt_pad _ _ depth) by (auto; lia). f_equal.
  unfold pad_window. rewrite map_map. apply map_ext_in. intros px Hpx. rewrite Forall_forall in HW.
  rewrite app_nth1; auto. rewrite (HW px Hpx). lia.
Qed.
(** The padded constants have an entry for every channel, and none is added or lost. *)
Theorem C47_constants : forall depth taps c p c',
  pad_depthwise depth depth c = Some (p, c') -> 1 <= depth -> consts_ok taps depth c ->
  consts_ok taps (depth + p) c' /\
  (c_bias c' = None <-> c_bias c = None) /\ (c_fq c' = None <-> c_fq c = None) /\ (c_bq c' = None <-> c_bq c = None).
Proof.
  intros depth taps c p c' E Hd (LF & LB & LQ & LR). unfold pad_depthwise in E. rewrite Nat.eqb_refl in E.
  destruct (_ =? 0)%Z in E; [discriminate|]. inversion E as [[E1 E2]]. rewrite E1.
  destruct (pad_depth_nth depth p taps (c_filter c) Hd ltac:(lia)) as [PL _].
  unfold consts_ok, pad_bias, pad_q. cbn [c_filter c_bias c_fq c_bq]. split.
  - split; [lia|]. destruct (c_bias c) as [b|], (c_fq c) as [f|], (c_bq c) as [g|]; repeat split; intros l El; inv El;
      rewrite app_length, repeat_length; f_equal; auto.
  - destruct (c_bias c) as [b|], (c_fq c) as [f|], (c_bq c) as [g|]; repeat split; congruence.
Qed.
Example C47_concrete : pad_depthwise 3 3 (Consts [1; 2; 3; 4; 5; 6]%Z (Some [7; 8; 9]%Z) None None) =
  Some (1, Consts [1; 2; 3; 0; 4; 5; 6; 0]%Z (Some [7; 8; 9; 0]%Z) None None).
Proof. reflexivity. Qed.

(** Which convolutions are padded: exactly those whose depth is not a multiple of the alignment. *)
Lemma pad_size_0 d al : al = 16%Z \/ al = 4%Z -> ((Z.of_nat d + al - 1) / al * al - Z.of_nat d = 0 <-> Z.of_nat d mod al = 0)%Z.
Proof. intros [-> | ->]; split; intros E; Z.to_euclidean_division_equations; lia. Qed.

Theorem C30_exactly_when : forall i16 depth c,
  pad_conv_input i16 depth c = None <-> (depth mod (if i16 then 16 else 4) = 0)%nat.
Proof.
  intros i16 depth c. unfold pad_conv_input, pad_size.
  rewrite Z.quot_div_nonneg by (unfold alignment; destruct i16; lia).
  assert (E : (depth mod (if i16 then 16 else 4) = 0)%nat <-> (Z.of_nat depth mod alignment i16 = 0)%Z).
  { unfold alignment. destruct i16; rewrite <- Nat2Z.inj_iff, Nat2Z.inj_mod; reflexivity. }
  rewrite E, <- pad_size_0 by (unfold alignment; destruct i16; auto).
  destruct (Z.eqb_spec ((Z.of_nat depth + alignment i16 - 1) / alignment i16 * alignment i16 - Z.of_nat depth)%Z 0); split; congruence.
Qed.
Theorem C31_exactly_when : forall i16 depth k c,
  pad_conv_output i16 depth k c = None <-> (depth mod (if i16 then 16 else 4) = 0)%nat.
Proof.
  intros i16 depth k c. rewrite <- (C30_exactly_when i16 depth c). unfold pad_conv_input, pad_conv_output.
  destruct (_ =? 0)%Z; split; congruence.
Qed.
Theorem C47_exactly_when : forall inDepth outDepth c,
  pad_depthwise inDepth outDepth c <> None <-> inDepth = outDepth /\ (inDepth mod 4 <> 0)%nat.
Proof.
  intros i o c. rewrite <- (C30_exactly_when false i c). unfold pad_depthwise, pad_conv_input, alignment.
  destruct (Nat.eqb_spec i o) as [->|N]; [|split; [congruence|tauto]].
  destruct (_ =? 0)%Z; (split; [intros H; split; congruence|intros [_ H]; congruence]).
Qed.

Print Assumptions C29_channelwise_split_partial.
Print Assumptions C30_pad_input_channels.
Print Assumptions C31_pad_output_channels.
Print Assumptions C47_pad_depthwise.
Print Assumptions C29_exactly_when.
Print Assumptions C30_exactly_when.
Print Assumptions C31_exactly_when.
Print Assumptions C47_exactly_when.
Print Assumptions C47_constants.
