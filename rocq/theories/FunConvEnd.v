(** C93: from TFLite function to the result in the arena, with fully connected layers and OptimizeConv2D; concrete functions; what goes wrong outside the hypotheses. *)
From Coq Require Import Relations Permutation QArith.
From Verif Require Import Base NdSpec MemPlanModel MemPlanSpec MemExecSpec MemExecProofs WeightsModel WeightsSpec FunOpsModel FunOpsSpec FunOpsProofs FunModel FunSpec FunProofs FunProofs2 FunProps.
From Verif Require Import FunArenaModel FunArenaSpec FunArenaProps FunLoadModel FunLoadSpec FunLoadProofs FunLoadProps.
From Verif Require Import FunOptModel FunOptSpec FunOptProofs FunOptProofs2 FunOptProps FunOptEnd FunConvModel FunConvSpec FunConvProofs FunConvProofs2 FunConvProps.
From Verif Require ConvSpec ConvLowerSpec ConvLowerModel ConvLowerProps ConvOptModel.
Import ConvLowerSpec ConvLowerModel.
Local Open Scope nat_scope.

(** ** Fully connected layers *)
Theorem C93_full_terminates : forall f, verified_before f -> all_ops consts_fit f -> Acc (fun f' f => conv_step FullyConnected f f') f.
Proof.
  set (full := fun i => match i_op i with TCompute (CFull _ _ _ _ _) => 1 | _ => 0 end).
  intros f V CF. apply (FunOptTerm.lex_acc (conv_step FullyConnected) (fun f => verified_before f /\ all_ops consts_fit f) (fun f => LowerSpec.sum_n (map full (f_body f))) (fun f => length (f_body f))); [|auto].
  clear f V CF. intros f f' (V & CF) St.
  assert (RDY : all_ops (pattern_ready FullyConnected) f) by (intros i Hi; split; [apply CF; auto|exact I]).
  destruct (conv_step_verified FullyConnected f f' V St RDY) as (V' & CF' & _). split; [auto|].
  destruct St as [ps pre i post rets tys fresh news T X Fr | ps pre i post rets M Mr]; cbn [f_body].
  - left. cbn [phase_pattern] in X. destruct X as [a d fc t q f bi x r outside s1 c' s2 s3 R]. rewrite !map_app, !sum_n_app. cbn [map]. rewrite !sum_n_cons.
    assert (F1 : full (Instr (fresh 1) (TCompute c') [fresh 0] (Ty s2 (t_elem r) (t_zero r))) = 0) by (cbn [replace_compute] in R; injection R as _ <- _ _; reflexivity).
    rewrite F1. change (full (Instr d (TCompute (CFull fc t q f bi)) [x] r)) with 1. change (LowerSpec.sum_n []) with 0. unfold full at 2 3. cbn [i_op]. lia.
  - rewrite !map_app, !sum_n_app, !app_length. cbn [map length]. rewrite sum_n_cons. lia.
Qed.
Theorem C93_no_full_left : forall f, verified_before f -> conv_finished FullyConnected f -> all_ops not_full f.
Proof.
  intros f V F i Hi. apply in_split in Hi. destruct Hi as (pre & post & E).
  destruct i as [d o args r]. cbn [i_op]. destruct o as [| | | | | | | | | |co| | | | | | | | |]; try exact I. destruct co as [fc t q f0 b| c t q f0 b| c t q f0 b| |]; try exact I.
  apply (not_finished FullyConnected f pre _ post V F E). intros fresh tys K L. cbn [i_op i_ty i_args] in K, L.
  destruct tys as [|a [|? ?]]; try (destruct K; fail). destruct args as [|x [|? ?]]; try discriminate L.
  eexists. cbn [phase_pattern]. eapply (NFull fresh a d fc t q f0 b x r (fun _ => 0%Z)). reflexivity.
Qed.

(** ** The passes up to OptimizeConv2D, in any order *)
Lemma any_step_ops (P : fop -> Prop) : (forall o, (forall c, o <> TCompute c) -> P o) ->
  (forall c t q f b, P (TCompute (CConv c t q f b)) -> P (TCompute (CConv (valid_conv c) (valid_attr t) q f b))) ->
  (forall c t q f b, P (TCompute (CDepthwise c t q f b)) -> P (TCompute (CDepthwise (valid_conv c) (valid_attr t) q f b))) ->
  (forall c t q f b, P (TCompute (CConv c t q f b)) -> P (TCompute (CConv c (with_faf RELU t) q f b))) ->
  (forall m ac si zi so zo, P (TCompute (CAct m ac si zi so zo))) ->
  forall f f', any_step f f' -> all_ops P f -> all_ops P f'.
Proof.
  intros H0 HC HD HF HA f f' (p & St) A. destruct St as [ps pre j mid i post rets tys fresh news T X Fr | ps pre i post rets tys fresh news T X Fr | ps pre j mid i post rets x X Ax | ps pre i post rets M Mr];
    intros k Hk; cbn [f_body] in Hk.
  - rewrite in_app_iff in Hk. cbn [In] in Hk. rewrite !in_app_iff in Hk.
    assert (G : In k news \/ In k (pre ++ j :: mid ++ i :: post)) by (rewrite in_app_iff; cbn [In]; rewrite in_app_iff; cbn [In]; tauto).
    destruct G as [G|G]; [|apply A; exact G].
    assert (Pj : P (i_op j)) by (apply A; cbn [f_body]; apply in_or_app; right; left; auto).
    destruct X as [a q before after x pr d perm r s0 s1 s2 s3 Hp Hl Hs | a q b1 a1 x pr d b2 a2 r inner outer Hs | tys c0 axis xs cr d fq r Hz | a q cs cv x pr d m si zi so zo r Sp | a q c0 t0 q0 f0 b0 x pr d m r Fa | a q x pr d r].
    + apply H0. intros c E. destruct G as [<-|[<-|[]]]; discriminate E.
    + apply H0. intros c E. destruct G as [<-|[<-|[]]]; discriminate E.
    + apply H0. intros c E. apply in_app_iff in G. destruct G as [G|[<-|[]]]; [|discriminate E]. apply in_map_iff in G. destruct G as (y & <- & _). discriminate E.
    + destruct G as [<-|[]]. apply HA.
    + destruct G as [<-|[]]. apply HF. exact Pj.
    + apply H0. intros c E. destruct G as [<-|[]]; discriminate E.
  - rewrite !in_app_iff in Hk. destruct Hk as [Hk|[Hk|Hk]].
    + apply A. cbn [f_body]. apply in_or_app; auto.
    + assert (Pi : P (i_op i)) by (apply A; cbn [f_body]; apply in_or_app; right; left; auto).
      destruct X as [a d c t q f0 b args r IS | a d c t q f0 b args r IS I8 | a1 a2 d f0 ac s z args r m | a1 a2 d f0 faf s z x1 x2 r U | a1 a2 d f0 faf s z x1 x2 r U]; cbn [i_op] in Pi;
        [| |destruct Hk as [<-|[<-|[]]]; [apply H0; discriminate|apply HA]|destruct Hk as [<-|[<-|[]]]; apply H0; discriminate|destruct Hk as [<-|[<-|[]]]; apply H0; discriminate].
      * destruct Hk as [<-|[<-|[]]]; [|apply HC; exact Pi]. apply H0. intros c0 E. cbn [i_op] in E. unfold same_pad_op in E. destruct (same_pads c) as [[[? ?] [? ?]] [? ?]]. discriminate E.
      * destruct Hk as [<-|[<-|[]]]; [|apply HD; exact Pi]. apply H0. intros c0 E. cbn [i_op] in E. unfold same_pad_op in E. destruct (same_pads c) as [[[? ?] [? ?]] [? ?]]. discriminate E.
    + apply A. cbn [f_body]. apply in_or_app. right; right; auto.
  - rewrite in_app_iff in Hk. cbn [In] in Hk. rewrite in_app_iff in Hk. destruct Hk as [Hk|[Hk|[Hk|Hk]]].
    + apply A. cbn [f_body]. apply in_or_app; auto.
    + apply A. cbn [f_body]. apply in_or_app. right; left; auto.
    + apply A. cbn [f_body]. apply in_or_app. right; right. apply in_or_app; auto.
    + apply in_map_iff in Hk. destruct Hk as (k' & <- & Hk). unfold rename_instr. cbn [i_op]. apply A. cbn [f_body]. apply in_or_app. right; right. apply in_or_app. right; right; auto.
  - apply A. cbn [f_body]. rewrite in_app_iff in *. cbn [In]. tauto.
Qed.
Lemma valid_conv_shapes c : in_channels (valid_conv c) = in_channels c /\ c_out (valid_conv c) = c_out c /\ c_filter (valid_conv c) = c_filter c /\ c_i16 (valid_conv c) = c_i16 c /\ c_padding (valid_conv c) = VALID.
Proof. unfold valid_conv, in_channels. destruct (c_in c) as [[h w] d], (same_pads c) as [[pt pl] [nh nw]]. cbn. auto. Qed.
Lemma any_step_keeps f f' : any_step f f' ->
  (explicit_padding f -> explicit_padding f') /\ (all_ops consts_fit f -> all_ops consts_fit f') /\ (forall size, all_ops (split_size_fits size) f -> all_ops (split_size_fits size) f') /\
  (all_ops channels_fit f -> all_ops channels_fit f') /\ (all_ops not_full f -> all_ops not_full f').
Proof.
  intros St. split; [|split; [|split; [|split]]].
  - apply (any_step_ops (fun o => is_same_conv o = false)); try solve [intros; auto].
    + intros o N. destruct o; auto. exfalso. eapply N. reflexivity.
    + intros c t q f0 b _. cbn [is_same_conv]. destruct (valid_conv_shapes c) as (_ & _ & _ & _ & ->). reflexivity.
    + intros c t q f0 b _. cbn [is_same_conv]. destruct (valid_conv_shapes c) as (_ & _ & _ & _ & ->). reflexivity.
  - apply (any_step_ops consts_fit); auto; try (intros; exact I).
    + intros o N. destruct o; try exact I. exfalso. eapply N. reflexivity.
    + intros c t q f0 b. cbn [consts_fit]. destruct (valid_conv_shapes c) as (_ & -> & -> & _). auto.
    + intros c t q f0 b. cbn [consts_fit]. destruct (valid_conv_shapes c) as (_ & -> & -> & _). auto.
  - intros size. apply (any_step_ops (split_size_fits size)); auto; try (intros; exact I).
    + intros o N. destruct o; try exact I. exfalso. eapply N. reflexivity.
    + intros c t q f0 b. cbn [split_size_fits]. destruct (valid_conv_shapes c) as (_ & _ & -> & -> & _). auto.
  - apply (any_step_ops channels_fit); auto; try (intros; exact I).
    + intros o N. destruct o; try exact I. exfalso. eapply N. reflexivity.
    + intros c t q f0 b. cbn [channels_fit]. destruct (valid_conv_shapes c) as (E & -> & _ & -> & _). unfold in_channels in E. destruct (c_in (valid_conv c)) as [[? ?] ?], (c_in c) as [[? ?] ?]. subst. auto.
    + intros c t q f0 b. cbn [channels_fit]. destruct (valid_conv_shapes c) as (E & -> & _ & -> & _). unfold in_channels in E. destruct (c_in (valid_conv c)) as [[? ?] ?], (c_in c) as [[? ?] ?]. subst. auto.
  - apply (any_step_ops not_full); auto; try (intros; exact I). intros o N. destruct o; try exact I. exfalso. eapply N. reflexivity.
Qed.
Lemma full_step_keeps f f' : verified_before f -> all_ops consts_fit f -> conv_step FullyConnected f f' ->
  (explicit_padding f -> explicit_padding f') /\ (forall size, all_ops (split_size_fits size) f -> all_ops (split_size_fits size) f').
Proof.
  intros V CF St.
  assert (G : forall fresh tys i news, phase_pattern FullyConnected fresh tys i news -> op_ok_before (i_op i) tys (i_ty i) -> In i (f_body f) -> forall j, In j news ->
    is_same_conv (i_op j) = false /\ forall size, split_size_fits size (i_op i) -> split_size_fits size (i_op j)).
  { intros fresh tys i news X K Hi j Hj. pose proof (CF i Hi) as CFi. cbn [phase_pattern] in X. destruct X as [a d fc t q f0 bi x r outside s1 c' s2 s3 R]. cbn [i_op i_ty] in *.
    destruct (full_conv_ok fc t q f0 bi outside a r (repeat 0%Z (tsize a)) s1 c' s2 s3 K CFi R (repeat_length _ _)) as (_ & _ & _ & _ & _ & IS & _ & SF & _).
    destruct Hj as [<-|[<-|[<-|[]]]]; cbn [i_op]; split; auto; intros; exact I. }
  split.
  - intros EP. apply (step_ops FullyConnected (fun o => is_same_conv o = false) f f' V St EP). intros. eapply G; eauto.
  - intros size SF. apply (step_ops FullyConnected (split_size_fits size) f f' V St SF). intros. eapply G; eauto.
Qed.

Definition pre_step (f f' : func) : Prop := any_step f f' \/ conv_step FullyConnected f f'.
Lemma pre_steps size f f' : clos_refl_trans _ pre_step f f' -> verified_before f -> all_ops consts_fit f -> all_ops (split_size_fits size) f ->
  verified_before f' /\ all_ops consts_fit f' /\ all_ops (split_size_fits size) f' /\ f_params f' = f_params f /\
  forall inputs, sized (f_params f) inputs -> exists r, evaluate f inputs = Some r /\ evaluate f' inputs = Some r.
Proof.
  intros St. induction St as [f f' St|f|f f1 f2 _ IH1 _ IH2]; intros V CF SF.
  - destruct (zeros_sized (f_params f)) as (zs & Sz). destruct St as [St|St].
    + destruct (any_step_keeps f f' St) as (_ & K2 & K3 & _). destruct (C88_passes_preserve f f' zs V (rt_step _ _ _ _ St) Sz) as (V' & Ep & _).
      split; [exact V'|]. split; [auto|]. split; [auto|]. split; [exact Ep|]. intros inputs Sz'. apply (C88_passes_preserve f f' inputs V (rt_step _ _ _ _ St) Sz').
    + assert (RDY : all_ops (pattern_ready FullyConnected) f) by (intros i Hi; split; [apply CF; auto|exact I]).
      destruct (conv_step_verified FullyConnected f f' V St RDY) as (V' & CF' & Ep). destruct (full_step_keeps f f' V CF St) as (_ & K3).
      split; [exact V'|]. split; [exact CF'|]. split; [auto|]. split; [exact Ep|]. intros inputs Sz'. destruct (before_runs f inputs V Sz') as (r & R).
      destruct (conv_step_preserves FullyConnected f f' St RDY) as (_ & Pr). destruct (Pr inputs r Sz' R) as (R' & _). exists r. split; apply run_before_evaluate; auto.
  - split; [auto|]. split; [auto|]. split; [auto|]. split; [auto|]. intros inputs Sz. destruct (before_runs f inputs V Sz) as (r & R). exists r. split; apply run_before_evaluate; auto.
  - destruct (IH1 V CF SF) as (V1 & CF1 & SF1 & E1 & R1). destruct (IH2 V1 CF1 SF1) as (V2 & CF2 & SF2 & E2 & R2). split; [auto|]. split; [auto|]. split; [auto|]. split; [congruence|].
    intros inputs Sz. destruct (R1 inputs Sz) as (r & Ra & Rb). destruct (R2 inputs) as (r' & Rc & Rd); [rewrite E1; exact Sz|]. exists r. split; [exact Ra|congruence].
Qed.

(** ** The whole compilation *)
(** The passes before OptimizeConv2D until no convolution has SAME padding, OptimizeConv2D, the passes after it. *)
Definition optimised (size : Z) (f f0 f1 f2 f3 f4 : func) : Prop :=
  clos_refl_trans _ pre_step f f0 /\ explicit_padding f0 /\
  clos_refl_trans _ (conv_step Padding) f0 f1 /\ conv_finished Padding f1 /\ clos_refl_trans _ (conv_step (Splitting size)) f1 f2 /\ clos_refl_trans _ (conv_step Padding) f2 f3 /\
  clos_refl_trans _ any_step f3 f4.
Lemma any_steps_keep f f' : clos_refl_trans _ any_step f f' -> (explicit_padding f -> explicit_padding f') /\ (all_ops channels_fit f -> all_ops channels_fit f') /\ (all_ops not_full f -> all_ops not_full f').
Proof.
  induction 1 as [f f' St|f|f f1 f2 _ (A1 & A2 & A3) _ (B1 & B2 & B3)]; [|auto|split; [auto|split; auto]]. destruct (any_step_keeps f f' St) as (K1 & _ & _ & K4 & K5). auto.
Qed.
Lemma optimised_facts size f f0 f1 f2 f3 f4 : (1 <= size)%Z -> verified_before f -> all_ops consts_fit f -> all_ops (split_size_fits size) f -> optimised size f f0 f1 f2 f3 f4 ->
  verified_before f4 /\ explicit_padding f4 /\ f_params f4 = f_params f /\ verified_before f3 /\ verified_before f0 /\
  forall inputs, sized (f_params f) inputs -> exists r, evaluate f inputs = Some r /\ evaluate f4 inputs = Some r.
Proof.
  intros Hsz V CF SF (S0 & EP & S1 & F1 & S2 & S3 & S4). destruct (pre_steps size f f0 S0 V CF SF) as (V0 & CF0 & SF0 & E0 & R0).
  assert (G : forall inputs, sized (f_params f) inputs -> verified_before f3 /\ explicit_padding f3 /\ f_params f3 = f_params f /\ verified_before f4 /\ f_params f4 = f_params f /\ exists r, evaluate f inputs = Some r /\ evaluate f4 inputs = Some r).
  { intros inputs Sz. destruct (C93_optimize_conv size f0 f1 f2 f3 inputs Hsz V0 EP CF0 SF0) as (V3 & EP3 & CF3 & E3 & _ & r & Ra & Rb); auto; [rewrite E0; exact Sz|].
    destruct (C88_passes_preserve f3 f4 inputs V3 S4) as (V4 & E4 & r' & Rc & Rd); [rewrite E3, E0; exact Sz|]. destruct (R0 inputs Sz) as (r0 & Rx & Ry).
    split; [auto|]. split; [auto|]. split; [congruence|]. split; [auto|]. split; [congruence|]. exists r0. split; [exact Rx|congruence]. }
  destruct (zeros_sized (f_params f)) as (zs & Sz). destruct (G zs Sz) as (V3 & EP3 & E3 & V4 & E4 & _).
  split; [exact V4|]. split; [apply (any_steps_keep f3 f4 S4); exact EP3|]. split; [exact E4|]. split; [exact V3|]. split; [exact V0|]. intros inputs Sz'. apply (G inputs Sz').
Qed.
Theorem C93_compilation : forall size f f0 f1 f2 f3 f4 f' inputs,
  (1 <= size)%Z -> verified_before f -> all_ops consts_fit f -> all_ops (split_size_fits size) f ->
  optimised size f f0 f1 f2 f3 f4 -> clos_refl_trans _ lower_step f4 f' -> sized (f_params f) inputs ->
  exists r, evaluate f inputs = Some r /\ evaluate f' inputs = Some r.
Proof.
  intros size f f0 f1 f2 f3 f4 f' inputs Hsz V CF SF OP LS Sz. destruct (optimised_facts size f f0 f1 f2 f3 f4 Hsz V CF SF OP) as (V4 & EP4 & E4 & _ & _ & R). destruct (R inputs Sz) as (r & Ra & Rb).
  destruct (C72_lowering_preserves f4 f' inputs (C88_ready_for_lowering f4 V4 EP4) LS) as (r' & R2 & R3); [rewrite E4; exact Sz|]. exists r. split; [exact Ra|congruence].
Qed.
(** The same when the kernels run in the arena the compiler planned, constants read from the weights file. *)
Theorem C93_end_to_end : forall size f f0 f1 f2 f3 f4 f' inputs name ext chosen schedule lf ts other iter peak0 ma garbage,
  (1 <= size)%Z -> verified_before f -> all_ops consts_fit f -> all_ops (split_size_fits size) f ->
  optimised size f f0 f1 f2 f3 f4 -> clos_refl_trans _ lower_step f4 f' -> sized (f_params f) inputs -> new_names name f' ->
  (forall x, chosen x = true -> In x schedule) -> externalise name ext chosen schedule f' = (lf, ts) ->
  kinds_ok other f' -> chain_grows (lgraph_of other lf) ->
  (forall m, Permutation (iter m) m) -> plan_memory iter true false (lgraph_of other lf) peak0 = Some (Some ma) ->
  exists r, evaluate f inputs = Some r /\
    outputs (arena_trace (lgraph_of other lf) (lkernels (flash_file ts) lf) (plan_locs (lgraph_of other lf) (ma_offsets ma)) garbage inputs) = map snd r.
Proof.
  intros size f f0 f1 f2 f3 f4 f' inputs name ext chosen schedule lf ts other iter peak0 ma garbage Hsz V CF SF OP LS Sz NN SC E KO CG IT PM.
  destruct (optimised_facts size f f0 f1 f2 f3 f4 Hsz V CF SF OP) as (V4 & EP4 & E4 & _ & _ & R). destruct (R inputs Sz) as (r & Ra & Rb).
  destruct (C83_end_to_end f4 f' inputs name ext chosen schedule lf ts other iter peak0 ma garbage (C88_ready_for_lowering f4 V4 EP4) LS) as (r' & R2 & R3); auto; [rewrite E4; exact Sz|].
  exists r. split; [exact Ra|]. congruence.
Qed.

(** ** What remains for the TFLite runtime *)
Lemma lower_step_ops f f' : lower_step f f' -> all_ops channels_fit f -> all_ops not_full f -> all_ops channels_fit f' /\ all_ops not_full f'.
Proof.
  intros St A B. set (P := fun o => channels_fit o /\ not_full o). assert (C : all_ops P f) by (intros i Hi; split; [apply A|apply B]; auto).
  enough (D : all_ops P f') by (split; intros i Hi; apply D; auto). clear A B.
  destruct St as [ps pre i post rets tys fresh news T X FI Fr | ps pre i post rets tys a T X Ax | ps pre i post rets M Mr]; intros k Hk; cbn [f_body] in Hk.
  - rewrite !in_app_iff in Hk. destruct Hk as [Hk|[Hk|Hk]].
    + apply C. cbn [f_body]. apply in_or_app; auto.
    + assert (Pi : P (i_op i)) by (apply C; cbn [f_body]; apply in_or_app; right; left; auto).
      destruct X as [ic a d bg sz args r o R | ic a d bf af args r o R | ic a d args r o R | tys d axis args r o R | tys d axis args r s first rest R | a d bm em sm bg st sd args r b s R
        | a d bm em sm bg st sd args r b s n R | a d axes g args r o R | outside a d c args r x ts R | outside a d c args r c1 c2 R | outside a d c args r s1 c' s2 s3 R];
        try (repeat (destruct Hk as [<-|Hk]; [split; exact I|]); destruct Hk; fail).
      * apply in_app_iff in Hk. destruct Hk as [Hk|[<-|[]]]; [|split; exact I]. unfold const_instrs in Hk. apply in_map_iff in Hk. destruct Hk as (y & <- & _). split; exact I.
      * cbn [i_op] in Pi. destruct c as [fc t q f0 b| c t q f0 b| c t q f0 b| |]; cbn [replace_compute] in R.
        -- discriminate R.
        -- destruct (negb (c_i16 c) && is_relu (at_faf t) && negb (q_zp q =? -128)%Z); [|destruct (replace_conv2d _ _ _ _); discriminate R].
           injection R as <- <-. destruct Hk as [<-|[<-|[]]]; [split; [exact (proj1 Pi)|exact I]|split; exact I].
        -- destruct (replace_conv2d _ _ _ _); discriminate R.
        -- discriminate R.
        -- destruct (LutModel.lookup_table _ _ _ _ _ _); discriminate R.
      * cbn [i_op] in Pi. destruct c as [fc t q f0 b| c t q f0 b| c t q f0 b| |]; cbn [replace_compute] in R.
        -- destruct Pi as (_ & []).
        -- destruct (negb (c_i16 c) && is_relu (at_faf t) && negb (q_zp q =? -128)%Z); [discriminate R|destruct (replace_conv2d _ _ _ _); discriminate R].
        -- destruct (replace_conv2d _ _ _ _); discriminate R.
        -- discriminate R.
        -- destruct (LutModel.lookup_table _ _ _ _ _ _); discriminate R.
    + apply C. cbn [f_body]. apply in_or_app. right; right; auto.
  - rewrite in_app_iff in Hk. destruct Hk as [Hk|Hk]; [apply C; cbn [f_body]; apply in_or_app; auto|].
    apply in_map_iff in Hk. destruct Hk as (k' & <- & Hk). unfold rename_instr. cbn [i_op]. apply C. cbn [f_body]. apply in_or_app. right; right; auto.
  - apply C. cbn [f_body]. rewrite in_app_iff in *. cbn [In]. tauto.
Qed.
Lemma conv_steps_not_full p f f' : p <> FullyConnected -> clos_refl_trans _ (conv_step p) f f' -> all_ops not_full f -> all_ops not_full f'.
Proof.
  intros Np St. induction St as [f f' St|f|f f1 f2 _ IH1 _ IH2]; [|auto|auto]. intros A.
  destruct St as [ps pre i post rets tys fresh news T X Fr | ps pre i post rets M Mr]; intros k Hk; cbn [f_body] in Hk.
  - rewrite !in_app_iff in Hk. destruct Hk as [Hk|[Hk|Hk]].
    + apply A. cbn [f_body]. apply in_or_app; auto.
    + destruct p as [| |size]; [congruence| |]; cbn [phase_pattern] in X.
      * destruct X; repeat (destruct Hk as [<-|Hk]; [exact I|]); destruct Hk.
      * destruct X as [a d c t q f bi x r ns groups convs NS SG SC]. apply in_app_iff in Hk. destruct Hk as [Hk|[<-|[]]]; [|exact I].
        apply (Forall2_in_l _ _ _ (split_convs_ops fresh c t q x r groups 0 0%Z convs SC)) in Hk. destruct Hk as (g & _ & q' & f0 & b' & ->). exact I.
    + apply A. cbn [f_body]. apply in_or_app. right; right; auto.
  - apply A. cbn [f_body]. rewrite in_app_iff in *. cbn [In]. tauto.
Qed.
(** When every pass has finished, the only convolutions, fully connected layers, poolings and activations left to TFLite are 8-bit convolutions both of whose error estimates exceed the threshold. *)
Definition above_threshold (o : fop) : Prop :=
  match o with
  | TCompute (CConv cv _ q _ _) | TCompute (CDepthwise cv _ q _ _) => c_i16 cv = false /\ (q_threshold q < fst (q_errors q))%Q /\ (q_threshold q < snd (q_errors q))%Q
  | TCompute _ => False
  | _ => True
  end.
Theorem C93_all_lowered : forall size f f0 f1 f2 f3 f4 f',
  (1 <= size)%Z -> verified_before f -> all_ops consts_fit f -> all_ops (split_size_fits size) f ->
  optimised size f f0 f1 f2 f3 f4 -> conv_finished FullyConnected f0 -> conv_finished Padding f3 ->
  clos_refl_trans _ lower_step f4 f' -> (forall g, ~ lower_step f' g) -> all_ops above_threshold f'.
Proof.
  intros size f f0 f1 f2 f3 f4 f' Hsz V CF SF OP FF FP LS NL. destruct (optimised_facts size f f0 f1 f2 f3 f4 Hsz V CF SF OP) as (V4 & EP4 & E4 & V3 & V0 & _).
  destruct OP as (S0 & EP & S1 & F1 & S2 & S3 & S4).
  pose proof (C93_no_full_left f0 V0 FF) as N0.
  assert (N3 : all_ops not_full f3).
  { apply (conv_steps_not_full Padding f2 f3); [discriminate|auto|]. apply (conv_steps_not_full (Splitting size) f1 f2); [discriminate|auto|]. apply (conv_steps_not_full Padding f0 f1); [discriminate|auto|exact N0]. }
  pose proof (C93_channels_fit f3 V3 FP) as C3. destruct (any_steps_keep f3 f4 S4) as (_ & K2 & K3).
  assert (G : all_ops channels_fit f' /\ all_ops not_full f').
  { specialize (K2 C3). specialize (K3 N3). clear - LS K2 K3. induction LS as [g g' St|g|g g1 g2 _ IH1 _ IH2]; [apply (lower_step_ops g g' St); auto|auto|]. destruct (IH1 K2 K3). auto. }
  destruct G as (C' & N').
  pose proof (C72_normal_form f4 f' (C88_ready_for_lowering f4 V4 EP4) LS NL) as NF. rewrite Forall_forall in NF.
  intros i Hi. specialize (NF i Hi). specialize (C' i Hi). specialize (N' i Hi). unfold left_over in NF. destruct (i_op i) as [| | | | | | | | | |co| | | | | | | | |]; try exact I.
  assert (R0 : forall k n, (0 < k)%Z -> (k | n)%Z -> Z.rem n k = 0%Z) by (intros k n Hk D; apply Z.rem_divide; [lia|exact D]).
  assert (R4 : forall n, (16 | n)%Z -> (4 | n)%Z) by (intros n (m & ->); exists (m * 4)%Z; ring).
  assert (M4 : forall i16 n, multiple i16 n -> (4 | n)%Z) by (intros [|] n; unfold multiple; auto).
  destruct co as [fc t q f5 b| c t q f5 b| c t q f5 b| |]; cbn [not_lowered above_threshold channels_fit not_full] in *; try contradiction;
    destruct (c_in c) as [[h w] dd], (c_out c) as [[oh ow] od]; destruct C' as (C1 & C2);
    (destruct NF as [NF|[NF|[(I16 & NF)|NF]]]; [exfalso; apply NF, R0; [lia|eapply M4; eauto]|exfalso; apply NF, R0; [lia|eapply M4; eauto]|exfalso; rewrite I16 in C1, C2; unfold multiple in *; destruct NF as [NF|NF]; apply NF, R0; auto; lia|exact NF]).
Qed.

(** ** A fully connected layer: 3 inputs padded to 4, 8 outputs in two groups *)
Definition fc8 : fully := Full false [2; 3]%Z [2; 8]%Z [8; 3]%Z (-5).
Definition filter24 : list Z := map (fun i => Z.of_nat i mod 7 - 3)%Z (seq 0 24).
Definition bias8 : list Z := [10; -20; 30; -40; 5; 6; 7; 8]%Z.
Definition scale8 (o acc : Z) : Z := (acc * (o + 2) / 16)%Z.
Definition q8 (th : Q) : quant := Quant (-128) 127 0 20 10 (-10) (1 # 20) scale8 th (1 # 10, 0)%Q [] [] (fun _ _ => (filter24, bias8, scale8)).
Definition ft (s : list nat) : ty := Ty s 1 (Some (-5)%Z).
Definition fr (s : list nat) : ty := Ty s 1 (Some 0%Z).
Definition at1 : attributes := mk_attr 1 1 NONE VALID 1 1 1.
Definition cv38 : conv := mk_conv false (1, 2, 3)%Z (1, 2, 8)%Z (1, 1, 3)%Z VALID [] (1, 1)%Z (1, 1)%Z (-5).
Definition dense : func := Func [(0, ft [2; 3])] [Instr 1 (TCompute (CFull fc8 NONE (q8 (1 # 4)) filter24 bias8)) [0] (fr [2; 8])] [1].
Definition r10 : instr := Instr 10 TReshape [0] (ft [1; 1; 2; 3]).
Definition r1 : instr := Instr 1 TReshape [11] (fr [2; 8]).
Definition dense0 : func := Func [(0, ft [2; 3])] [r10; Instr 11 (TCompute (CConv cv38 at1 (q8 (1 # 4)) filter24 bias8)) [10] (fr [1; 1; 2; 8]); r1] [1].
Definition cs4 : ConvOptModel.conv_consts := match ConvOptModel.pad_conv_input false 3 (consts filter24 bias8) with Some (_, c) => c | None => consts [] [] end.
Definition q4 : quant := on_constants (q8 (1 # 4)) 0 cs4.
Definition filter32 : list Z := ConvOptModel.c_filter cs4.
Definition p20 : instr := Instr 20 (TPad [0; 0; 0; 0] [0; 0; 0; 1]) [10] (ft [1; 1; 2; 4]).
Definition dense1 : func := Func [(0, ft [2; 3])] [r10; p20; Instr 11 (TCompute (CConv (pad_inputs cv38 1) at1 q4 filter32 bias8)) [20] (fr [1; 1; 2; 8]); r1] [1].
Definition parts : list (nat * ConvOptModel.conv_consts) := match ConvOptModel.split_groups 4 (consts filter32 bias8) 0 (ConvOptModel.split_sizes 8 2) with Some g => g | None => [] end.
Definition part (k : nat) : ConvOptModel.conv_consts := snd (nth k parts (0, consts [] [])).
Definition conv_part (k : nat) : instr :=
  Instr (30 + k) (TCompute (CConv (split_conv (pad_inputs cv38 1) 4) at1 (on_constants q4 (4 * Z.of_nat k) (part k)) (ConvOptModel.c_filter (part k)) (bias_of (part k)))) [20] (fr [1; 1; 2; 4]).
Definition dense2 : func := Func [(0, ft [2; 3])] [r10; p20; conv_part 0; conv_part 1; Instr 11 (TConcat 3) [30; 31] (fr [1; 1; 2; 8]); r1] [1].
Definition dense_input : bytes := [1; 250; 17; 130; 77; 3]%Z.

Lemma dense_verified : verified_before dense.
Proof.
  unfold dense, verified_before. cbn [f_params f_body f_rets map fst]. split; [repeat constructor; auto|]. split; [|intros x [<-|[]]; eexists; reflexivity].
  cbn [verified_body_before i_dst i_args i_op i_ty]. split; [reflexivity|]. split; [eexists; split; [reflexivity|]|exact I].
  cbn [op_ok_before op_ok compute_ok]. split; [|split; [reflexivity|cbn; lia]]. split; [|split; [reflexivity|repeat split]].
  exists [], 2%Z, 3%Z, 8%Z. split; [constructor|]. split; [reflexivity|]. split; [left; reflexivity|]. split; [reflexivity|]. split; [lia|]. split; [lia|]. split; [lia|]. split; [discriminate|].
  split; [intros _; split; reflexivity|]. split; [vm_compute; repeat split; intros; discriminate|]. split; [left; reflexivity|reflexivity].
Qed.
Lemma dense_fits : all_ops consts_fit dense /\ all_ops (split_size_fits 16) dense.
Proof. split; intros i [<-|[]]; cbn; [split; [reflexivity|right; reflexivity]|lia]. Qed.
Lemma full_finished f : all_ops not_full f -> all_used (f_body f) (f_rets f) = true -> conv_finished FullyConnected f.
Proof.
  intros N U f' St. destruct St as [ps pre i post rets tys fresh news T X Fr | ps pre i post rets M Mr]; cbn [f_body f_rets] in *; [|eapply used_kept; eauto].
  assert (Hi : not_full (i_op i)) by (apply N; cbn [f_body]; apply in_or_app; right; left; auto). cbn [phase_pattern] in X. destruct X. exact Hi.
Qed.
Lemma new_add f n : forallb (fun x => x <? n) (map fst (f_params f) ++ flat_map (fun i => i_dst i :: i_args i) (f_body f) ++ f_rets f) = true -> new_name (Nat.add n) f.
Proof. apply new_from. Qed.
Lemma dense_full : conv_step FullyConnected dense dense0.
Proof.
  apply (Rewritten FullyConnected [(0, ft [2; 3])] [] _ [] [1] [ft [2; 3]] (Nat.add 10) [_; _; _]); [reflexivity| |apply new_add; reflexivity].
  cbn [phase_pattern]. apply (NFull (Nat.add 10) (ft [2; 3]) 1 fc8 NONE (q8 (1 # 4)) filter24 bias8 0 (fr [2; 8]) (fun _ => 0%Z)). reflexivity.
Qed.
Lemma dense_pad : conv_step Padding dense0 dense1.
Proof.
  apply (Rewritten Padding [(0, ft [2; 3])] [r10] _ [r1] [1] [ft [1; 1; 2; 3]] (Nat.add 20) [_; _]); [reflexivity| |apply new_add; reflexivity].
  cbn [phase_pattern]. apply (NInput (Nat.add 20) (ft [1; 1; 2; 3]) 11 cv38 at1 (q8 (1 # 4)) filter24 bias8 10 (fr [1; 1; 2; 8]) 1 cs4 q4); [vm_compute; reflexivity|apply on_constants_ok].
Qed.
Lemma dense_split : conv_step (Splitting 16) dense1 dense2.
Proof.
  apply (Rewritten (Splitting 16) [(0, ft [2; 3])] [r10; p20] _ [r1] [1] [ft [1; 1; 2; 4]] (Nat.add 30) [conv_part 0; conv_part 1; Instr 11 (TConcat 3) [30; 31] (fr [1; 1; 2; 8])]); [reflexivity| |apply new_add; reflexivity].
  cbn [phase_pattern]. apply (NSplit 16 (Nat.add 30) (ft [1; 1; 2; 4]) 11 (pad_inputs cv38 1) at1 q4 filter32 bias8 20 (fr [1; 1; 2; 8]) 2 [(4, part 0); (4, part 1)] [conv_part 0; conv_part 1]); [vm_compute; reflexivity|vm_compute; reflexivity|].
  apply SplitCons; [apply on_constants_ok|]. apply SplitCons; [apply on_constants_ok|]. apply SplitNil.
Qed.
(** The hypotheses of the theorems hold of this function, and so does what they promise. *)
Example C93_concrete :
  verified_before dense /\ all_ops consts_fit dense /\ all_ops (split_size_fits 16) dense /\ ~ all_ops not_full dense /\ ~ all_ops channels_fit dense0 /\
  optimised 16 dense dense0 dense1 dense2 dense2 dense2 /\ conv_finished FullyConnected dense0 /\ conv_finished Padding dense2 /\ all_ops channels_fit dense2 /\
  splitting_state 16 dense1 /\ splitting_state 16 dense2 /\ sized (f_params dense) [dense_input] /\
  option_map (map snd) (evaluate dense [dense_input]) = option_map (map snd) (evaluate dense2 [dense_input]) /\
  option_map (fun l => firstn 6 (concat (map snd l))) (evaluate dense [dense_input]) = Some [252; 4; 1; 248; 236; 253]%Z.
Proof.
  destruct dense_fits as (CF & SF). pose proof dense_verified as V.
  assert (S0 : clos_refl_trans _ pre_step dense dense0) by (apply rt_step; right; exact dense_full).
  assert (EP : explicit_padding dense0) by (intros i [<-|[<-|[<-|[]]]]; reflexivity).
  destruct (pre_steps 16 dense dense0 S0 V CF SF) as (V0 & CF0 & SF0 & _).
  destruct (padding_step (eq 16%Z) dense0 dense1) as ((V1 & EP1 & CF1 & SF1) & _); [split; [auto|split; [auto|split; [auto|intros s <-; auto]]]|exact dense_pad|].
  assert (F1 : conv_finished Padding dense1) by (apply padding_finished; [exact V1|vm_compute; reflexivity|reflexivity]).
  assert (SS1 : splitting_state 16 dense1) by (split; [auto|split; [auto|split; [auto|apply fitted_splittable; auto; apply C93_channels_fit; auto]]]).
  destruct (splitting_step 16 dense1 dense2 ltac:(lia) SS1 dense_split) as (SS2 & _).
  assert (F2 : conv_finished Padding dense2) by (apply padding_finished; [apply SS2|vm_compute; reflexivity|reflexivity]).
  split; [exact V|]. split; [exact CF|]. split; [exact SF|]. split; [intros H; apply (H _ (or_introl eq_refl))|].
  split; [intros H; destruct (H _ (or_intror (or_introl eq_refl))) as ((m & D) & _); cbn in D; lia|].
  split. { split; [exact S0|]. split; [exact EP|]. split; [apply rt_step, dense_pad|]. split; [exact F1|]. split; [apply rt_step, dense_split|]. split; apply rt_refl. }
  split; [apply full_finished; [intros i [<-|[<-|[<-|[]]]]; exact I|reflexivity]|]. split; [exact F2|]. split; [apply C93_channels_fit; [apply SS2|exact F2]|].
  split; [exact SS1|]. split; [exact SS2|]. split; [constructor; [reflexivity|constructor]|]. split; vm_compute; reflexivity.
Qed.

(** ** Outside the hypotheses: when four filters are larger than the split size there are more splits than groups of four channels, and the pass makes convolutions (and operands of the
    concatenation) with no output channel at all. *)
Lemma split_loop_zero : forall n r, (0 <= r)%Z -> (r < Z.of_nat n)%Z -> In 0%Z (ConvOptModel.split_sizes_loop n 0 r).
Proof.
  induction n as [|n IH]; intros r R L; [lia|]. cbn [ConvOptModel.split_sizes_loop]. destruct (Z.gtb_spec r 0).
  - right. apply IH; lia.
  - left. reflexivity.
Qed.
Lemma split_convs_all fresh c t q x r : forall groups k from convs, split_convs fresh c t q x r k from groups convs -> forall n cs, In (n, cs) groups ->
  exists d q', In (Instr d (TCompute (CConv (split_conv c (Z.of_nat n)) (valid_attr t) q' (ConvOptModel.c_filter cs) (bias_of cs))) [x] (Ty (set_last (t_shape r) n) (t_elem r) (t_zero r))) convs.
Proof.
  induction 1 as [k from|k from n0 cs0 groups q' tl R St IH]; intros n cs Hin; [destruct Hin|]. destruct Hin as [E|Hin].
  - injection E as -> ->. do 2 eexists. left. reflexivity.
  - destruct (IH n cs Hin) as (d & q'' & I0). do 2 eexists. right. exact I0.
Qed.
Theorem C93_empty_convolution_refuted : forall size fresh a d c t q f b x r news, (1 <= size)%Z -> (0 <= out_channels c)%Z ->
  split_output size fresh [a] (Instr d (TCompute (CConv c t q f b)) [x] r) news -> (size * (out_channels c / 4 + 1) <= Z.of_nat (length f))%Z ->
  exists d' c' q', In (Instr d' (TCompute (CConv c' (valid_attr t) q' [] [])) [x] (Ty (set_last (t_shape r) 0) (t_elem r) (t_zero r))) news /\ out_channels c' = 0%Z.
Proof.
  intros size fresh a d c t q f b x r news Hs Ho Sp Hf. inversion Sp as [a' d' c' t' q' f' b' x' r' ns groups convs NS G SC]; subst.
  unfold ConvOptModel.num_splits in NS. destruct (_ || _) eqn:Cond in NS; [discriminate|]. apply orb_false_iff in Cond. destruct Cond as (C1 & C2). apply Z.ltb_ge in C1, C2.
  assert (Ens : ns = Z.quot (Z.of_nat (length f)) size) by congruence.
  rewrite Z.quot_div_nonneg in Ens, C1 by lia. rewrite Z.quot_div_nonneg in C2 by lia.
  assert (Hns : (out_channels c / 4 + 1 <= ns)%Z) by (subst ns; apply Z.div_le_lower_bound; lia).
  assert (Hz : In 0%Z (ConvOptModel.split_sizes (out_channels c) ns)).
  { unfold ConvOptModel.split_sizes. assert (T : (0 <= out_channels c / 4 < ns)%Z) by lia. rewrite (Z.quot_div_nonneg (out_channels c) 4) by lia.
    rewrite Z.quot_small, Z.rem_small by exact T. apply split_loop_zero; [|rewrite Z2Nat.id]; lia. }
  assert (Hg : exists cs, In (0, cs) groups /\ ConvOptModel.c_filter cs = [] /\ bias_of cs = []).
  { cut (forall sizes el gs, ConvOptModel.split_groups (Z.to_nat (per_channel c)) (consts f b) el sizes = Some gs -> In 0%Z sizes -> exists cs, In (0, cs) gs /\ ConvOptModel.c_filter cs = [] /\ bias_of cs = []);
      [intros H; exact (H _ _ _ G Hz)|]. clear. intros sizes. induction sizes as [|z sizes IH]; intros el gs G Hz; [destruct Hz|].
    cbn [ConvOptModel.split_groups] in G.
    destruct (ConvOptModel.range _ _ (ConvOptModel.c_filter _)) as [fl|] eqn:R1 in G; [|discriminate]. destruct (ConvOptModel.range_opt _ _ (ConvOptModel.c_bias _)) as [bo|] eqn:R2 in G; [|discriminate].
    destruct (ConvOptModel.range_opt _ _ (ConvOptModel.c_fq _)) as [fq|] eqn:R3 in G; [|discriminate]. destruct (ConvOptModel.range_opt _ _ (ConvOptModel.c_bq _)) as [bq|] eqn:R4 in G; [|discriminate].
    destruct (ConvOptModel.split_groups _ _ _ sizes) as [gs'|] eqn:Gs in G; [|discriminate].
    assert (Eg : gs = (Z.to_nat z, ConvOptModel.Consts fl bo fq bq) :: gs') by congruence. clear G. subst gs. destruct Hz as [->|Hz].
    - exists (ConvOptModel.Consts fl bo fq bq). split; [left; reflexivity|]. cbn [ConvOptModel.c_filter]. unfold bias_of. cbn [ConvOptModel.c_bias].
      unfold ConvOptModel.range in R1. unfold ConvOptModel.range_opt in R2. change (Z.to_nat 0) with 0 in *. rewrite Nat.mul_0_l in R1. destruct (_ <=? _) in R1; [|discriminate]. cbn [firstn] in R1.
      split; [congruence|]. destruct (ConvOptModel.c_bias (consts f b)) as [l|]; [|assert (bo = None) by congruence; subst bo; reflexivity].
      unfold ConvOptModel.range in R2. destruct (_ <=? _) in R2; [|discriminate]. cbn [firstn] in R2. assert (bo = Some []) by congruence. subst bo. reflexivity.
    - destruct (IH _ _ Gs Hz) as (cs & I0 & E1 & E2). exists cs. split; [right; auto|auto]. }
  destruct Hg as (cs & Hin & E1 & E2). destruct (split_convs_all _ _ _ _ _ _ _ _ _ _ SC 0 cs Hin) as (d1 & q1 & I1). rewrite E1, E2 in I1.
  exists d1, (split_conv c (Z.of_nat 0)), q1. split; [apply in_or_app; left; exact I1|apply split_conv_in].
Qed.
(** With the default split size: a 3x3 convolution of 4096 input and 16 output channels.  (And the pass applies, with hypotheses met, on a small case.) *)
Example C93_empty_concrete :
  (let n := 16 * (3 * 3 * 4096) in ConvOptModel.num_splits n 100000 16 = Some 5 /\ ConvOptModel.split_sizes 16 5 = [4; 4; 4; 4; 0] /\ 100000 * (16 / 4 + 1) <= n)%Z /\
  (exists news, split_output 8 (Nat.add 30) [ft [1; 1; 2; 4]] (Instr 11 (TCompute (CConv (pad_inputs cv38 1) at1 q4 filter32 bias8)) [20] (fr [1; 1; 2; 8])) news) /\
  (8 * (out_channels (pad_inputs cv38 1) / 4 + 1) <= Z.of_nat (length filter32))%Z.
Proof.
  split; [vm_compute; intuition congruence|]. split; [|vm_compute; discriminate].
  destruct (ConvOptModel.split_groups (Z.to_nat (per_channel (pad_inputs cv38 1))) (consts filter32 bias8) 0 (ConvOptModel.split_sizes (out_channels (pad_inputs cv38 1)) 4)) as [gs|] eqn:G; [|vm_compute in G; discriminate].
  destruct (split_convs_exist (Nat.add 30) (pad_inputs cv38 1) at1 q4 20 (fr [1; 1; 2; 8]) gs 0 0) as (convs & SC).
  eexists. apply (NSplit 8 (Nat.add 30) (ft [1; 1; 2; 4]) 11 (pad_inputs cv38 1) at1 q4 filter32 bias8 20 (fr [1; 1; 2; 8]) 4 gs convs); [vm_compute; reflexivity|exact G|exact SC].
Qed.

Print Assumptions C93_padding_preserves.
Print Assumptions C93_splitting_preserves.
Print Assumptions C93_channels_fit.
Print Assumptions C93_filters_small.
Print Assumptions C93_padding_terminates.
Print Assumptions C93_splitting_terminates.
Print Assumptions C93_padding_finishes.
Print Assumptions C93_optimize_conv.
Print Assumptions C93_full_terminates.
Print Assumptions C93_no_full_left.
Print Assumptions C93_compilation.
Print Assumptions C93_end_to_end.
Print Assumptions C93_all_lowered.
Print Assumptions C93_concrete.
Print Assumptions C93_empty_convolution_refuted.
