(** C77: exporting operators to the TFLite model loses nothing. *)
From Coq Require Import String.
From Verif Require Import Base OptionsModel LowerModel ExportModel ExportSpec.
Local Open Scope string_scope.
Local Open Scope list_scope.
Local Open Scope Z_scope.

Lemma int_attr_fits v : fits v -> int_attr v = VInt v.
Proof. unfold fits, int_attr, int32. intros H. f_equal. Z.to_euclidean_division_equations; lia. Qed.
Lemma take_all {A} (l : list A) : take (length l) l = Some l.
Proof. induction l as [|x l IH]; cbn [length take]; [reflexivity|]. rewrite IH. reflexivity. Qed.
Lemma kernel_strings_all ks : kernel_strings (Z.of_nat (length ks)) ks = Some (map (fun p => p ++ dummy) ks).
Proof. unfold kernel_strings. rewrite Nat2Z.id, take_all. reflexivity. Qed.
Lemma unfill_all ks : map unfill (map (fun p => p ++ dummy) ks) = ks.
Proof.
  rewrite map_map. rewrite <- (map_id ks) at 2. apply map_ext. intros p. unfold unfill. rewrite app_length. cbn [dummy length].
  replace (length p + 2 - 2)%nat with (length p + 0)%nat by lia. rewrite firstn_app_2. cbn [firstn]. apply app_nil_r.
Qed.
Lemma index_nth s l : In s l -> forall i, exists k, index_of s l i = Some (i + Z.of_nat k) /\ nth_error l k = Some s.
Proof.
  induction l as [|x l IH]; intros I i; [destruct I|]. cbn [index_of]. destruct (String.eqb_spec s x) as [->|N].
  - exists 0%nat. split; [f_equal; lia|reflexivity].
  - destruct I as [->|I]; [congruence|]. destruct (IH I (i + 1)) as (k & E & H). exists (S k). split; [rewrite E; f_equal; lia|exact H].
Qed.

(** Every operator that is exported with legal attributes is read back by the runtime exactly as it was: its kind and all its
    attributes are determined by the code and the map. *)
Theorem C77_round_trip : forall o, legal o ->
  translated o = true /\ exists m, custom_options o = Some m /\ read_options (custom_code o) m = Some o.
Proof.
  intros o L. destruct o; cbn [legal] in L; try contradiction; (split; [reflexivity|]); cbn [custom_options];
    repeat match goal with H : _ /\ _ |- _ => destruct H end;
    repeat match goal with H : fits ?v |- _ => rewrite (int_attr_fits v H); clear H end;
    try (eexists; split; [reflexivity|]; reflexivity).
  - subst. eexists; split; reflexivity.
  - subst. rewrite kernel_strings_all. destruct (index_nth kernel_type runtime_kernels H 0) as (k & Ek & Hk).
    destruct (index_nth output_type runtime_transforms H0 0) as (t & Et & Ht).
    rewrite Z.add_0_l in Ek, Et. change runtime_kernels with conv2d_types in Ek. change runtime_transforms with ot_types in Et. rewrite Ek, Et. eexists; split; [reflexivity|].
    cbn -[nth_error Z.to_nat Z.of_nat runtime_kernels runtime_transforms unfill]. rewrite !Nat2Z.id, Hk, Ht, unfill_all, map_length. reflexivity.
  - subst. rewrite kernel_strings_all. eexists; split; [reflexivity|].
    cbn -[nth_error Z.to_nat Z.of_nat unfill]. rewrite unfill_all, map_length. reflexivity.
  - match goal with H : length sizes = _ |- _ => rename H into HL end.
    assert (TS : take CONCAT_OP_MAX_INPUTS sizes = Some sizes) by (change CONCAT_OP_MAX_INPUTS with 13%nat; rewrite <- HL; apply take_all). rewrite TS. eexists; split; reflexivity.
Qed.
Print Assumptions C77_round_trip.

(** So two operators with the same code and map are the same operator. *)
Theorem C77_injective : forall o1 o2, legal o1 -> legal o2 -> custom_code o1 = custom_code o2 -> custom_options o1 = custom_options o2 -> o1 = o2.
Proof.
  intros o1 o2 L1 L2 C E. destruct (C77_round_trip o1 L1) as (_ & m1 & E1 & R1). destruct (C77_round_trip o2 L2) as (_ & m2 & E2 & R2).
  assert (m1 = m2) by congruence. subst m2. rewrite C in R1. congruence.
Qed.
Print Assumptions C77_injective.

(** The whole function: every operation keeps its operands, its results and its place; exported operators become custom operators
    read back as what they were; TFLite operators and those without a custom form are untouched. *)
Theorem C77_function : forall V T (f : list (operation V T)),
  (forall p o, In p f -> op_kind p = Xc o -> translated o = true -> legal o) ->
  exists f', translate_function f = Some f' /\ length f' = length f /\
    forall i p, nth_error f i = Some p -> exists p', nth_error f' i = Some p' /\
      op_args p' = op_args p /\ op_results p' = op_results p /\
      (forall o, op_kind p = Xc o -> translated o = true -> exists code m, op_kind p' = Custom code m /\ read_options code m = Some o) /\
      (forall o, op_kind p = Xc o -> translated o = false -> op_kind p' = op_kind p) /\
      ((forall o, op_kind p <> Xc o) -> op_kind p' = op_kind p).
Proof.
  intros V T f. induction f as [|p f IH]; intros H.
  - exists []. split; [reflexivity|]. split; [reflexivity|]. intros [|i] p E; discriminate.
  - destruct IH as (f' & E & L & R); [intros q o I; apply H; right; exact I|].
    assert (P : exists p', translate p = Some p' /\ op_args p' = op_args p /\ op_results p' = op_results p /\
      (forall o, op_kind p = Xc o -> translated o = true -> exists code m, op_kind p' = Custom code m /\ read_options code m = Some o) /\
      (forall o, op_kind p = Xc o -> translated o = false -> op_kind p' = op_kind p) /\
      ((forall o, op_kind p <> Xc o) -> op_kind p' = op_kind p)).
    { unfold translate. destruct (op_kind p) as [o|code m|name] eqn:K.
      - destruct (translated o) eqn:TR.
        + destruct (C77_round_trip o (H p o (or_introl eq_refl) K TR)) as (_ & m & -> & R1). eexists. split; [reflexivity|]. cbn [op_args op_results op_kind].
          split; [reflexivity|]. split; [reflexivity|]. split; [|split].
          * intros o' E' _. injection E' as <-. eauto.
          * intros o' E' T'. injection E' as <-. congruence.
          * intros N. exfalso. exact (N o eq_refl).
        + exists p. repeat split; auto; congruence.
      - exists p. repeat split; auto; congruence.
      - exists p. repeat split; auto; congruence. }
    destruct P as (p' & Ep & P). cbn [translate_function]. rewrite Ep, E. exists (p' :: f'). split; [reflexivity|]. split; [cbn; lia|].
    intros [|i] q Eq; [injection Eq as <-; exists p'; split; [reflexivity|exact P]|]. exact (R i q Eq).
Qed.
Print Assumptions C77_function.

(** A lowered concatenation (C17) has the 13 sizes the export reads, whatever the stack held; the kernel gets its own. *)
Theorem C77_concat : forall dtype axis shapes outs c stack, replace_concat dtype axis shapes outs = SlicePadModel.Lowered c ->
  fits (c_copies c) -> fits (c_num c) ->
  legal (concat_attributes stack c) /\
  exists sizes, concat_attributes stack c = OConcat (c_copies c) sizes (c_num c) (c_vpu c) /\
    forall i, (i < length shapes)%nat -> nth_error sizes i = nth_error (c_sizes c) i.
Proof.
  intros dtype axis shapes outs c stack E F1 F2. split.
  - cbn [concat_attributes legal]. repeat split; try apply F1; try apply F2. 
  - eexists. split; [reflexivity|]. intros i Hi. unfold replace_concat in E.
    destruct (Nat.ltb_spec CONCAT_OP_MAX_INPUTS (length shapes)) as [|LE]; [discriminate|]. destruct (_ || _); [discriminate|]. injection E as <-. cbn [c_sizes].
    rewrite nth_error_map. rewrite (nth_error_nth' _ 0%nat) by (rewrite seq_length; lia). rewrite seq_nth by lia. cbn [option_map Nat.add].
    rewrite nth_error_map. destruct (nth_error shapes i) eqn:N; [reflexivity|]. apply nth_error_None in N. lia.
Qed.
Print Assumptions C77_concat.

Example C77_concrete :
  legal (OConv2DV2 "PaddedIndirect" [1; 2] [3] [4] "Channelwise" 64 2 [[5; 6]; [7; 8]]) /\
  custom_code (OConv2DV2 "PaddedIndirect" [1; 2] [3] [4] "Channelwise" 64 2 [[5; 6]; [7; 8]]) = "XC_conv2d_v2" /\
  custom_options (OConv2DV2 "PaddedIndirect" [1; 2] [3] [4] "Channelwise" 64 2 [[5; 6]; [7; 8]]) =
    Some [("mp", VString [1; 2]); ("a", VString [3]); ("o", VString [4]); ("p", VStrings [[5; 6; 48; 48]; [7; 8; 48; 48]]);
          ("s", VInt 64); ("k", VInt 2); ("t", VInt 1)].
Proof. split; [|split; reflexivity]. cbn. unfold fits. intuition lia. Qed.

(** The fused activation of xc.add is not exported (harmless: C76 takes it out before). *)
Theorem C77_refuted_activation : exists a1 a2 m1 m2 b s, a1 <> a2 /\ custom_options (OAdd a1 m1 m2 b s) = custom_options (OAdd a2 m1 m2 b s).
Proof. exists "NONE", "RELU", 1, 1, 0, 0. split; [discriminate|reflexivity]. Qed.
(** A convolution with more threads than kernel parameters reads past the end; one with fewer loses the others. *)
Theorem C77_refuted_threads : forall kt mp a o ot s ks,
  (forall n, Z.of_nat (length ks) < n -> custom_options (OConv2DV2 kt mp a o ot s n ks) = None) /\
  (forall k, custom_options (OMaxPool2D mp a o s (Z.of_nat (length ks)) (ks ++ [k])) = custom_options (OMaxPool2D mp a o s (Z.of_nat (length ks)) ks)).
Proof.
  intros kt mp a o ot s ks. assert (TN : forall (l : list bytes) n, (length l < n)%nat -> take n l = None).
  { induction l as [|x l IH]; intros [|n] H; cbn [length] in H; try lia; [reflexivity|]. cbn [take]. rewrite IH by lia. reflexivity. }
  split.
  - intros n H. cbn [custom_options]. unfold kernel_strings. unfold bytes in *. rewrite (TN ks (Z.to_nat n)) by lia. reflexivity.
  - intros k. cbn [custom_options]. unfold kernel_strings. rewrite Nat2Z.id. 
    replace (take (length ks) (ks ++ [k])) with (take (length ks) ks); [reflexivity|].
    clear. induction ks as [|x ks IH]; [reflexivity|]. cbn [length take app]. rewrite IH. reflexivity.
Qed.
(** The bytes of the model depend on what the stack held: compiling a concatenation of less than 13 tensors twice may give two
    different files. *)
Theorem C77_refuted_deterministic : exists c stack1 stack2, replace_concat 1 0 [[4]; [8]] [12] = SlicePadModel.Lowered c /\
  custom_options (concat_attributes stack1 c) <> custom_options (concat_attributes stack2 c).
Proof. eexists. exists (fun _ => 0), (fun _ => 1). split; [reflexivity|]. discriminate. Qed.
