(** C93: OptimizeConv2D keeps the results of a whole function; what it leaves; it terminates. *)
From Coq Require Import Relations Wellfounded Permutation QArith.
From Verif Require Import Base NdSpec NdBase LowerSpec FunOpsSpec FunOpsProofs FunModel FunSpec FunProofs FunProofs2 FunProps.
From Verif Require Import FunOptModel FunOptSpec FunOptProofs FunOptProofs2 FunOptProps FunOptTerm FunConvModel FunConvSpec FunConvProofs FunConvProofs2.
From Verif Require ConvSpec ConvLowerSpec ConvLowerModel ConvOptModel ConvOptProofs.
Import ConvLowerSpec ConvLowerModel.
Local Open Scope nat_scope.

Lemma conv_step_preserves p f f' : conv_step p f f' -> all_ops (pattern_ready p) f -> f_params f' = f_params f /\
  forall inputs r, sized (f_params f) inputs -> run_before f inputs r -> run_before f' inputs r /\ all_ops consts_fit f'.
Proof.
  intros St RDY. destruct St as [ps pre i post rets tys fresh news T P Fr | ps pre i post rets M Mr];
    cbn [f_params f_body f_rets]; (split; [reflexivity|]); intros inputs r Sz (e' & E & L); cbn [f_params f_body f_rets] in *;
    apply exec_app in E; destruct E as (e1 & E1 & E2).
  - inversion E2 as [|i' tl e vs b e'' Lv K Sm Zl N E3]; subst.
    pose proof (exec_sized _ _ _ E1 (start_sized _ _ Sz)) as Sz1. pose proof (lookups_sized _ _ _ Sz1 Lv) as Fv.
    pose proof (env_types ps pre inputs e1 (i_args i) vs Sz E1 Lv tys T) as Tv. rewrite Tv in K.
    assert (NF : forall k, lookup e1 (fresh k) = None).
    { apply (new_not_bound ps pre inputs e1 fresh _ Sz E1 Fr eq_refl). cbn [f_body]. intros y Hy. apply in_or_app. auto. }
    destruct Fr as [FI Fr].
    assert (Nd : forall k, fresh k <> i_dst i).
    { intros k Ek. apply (Fr k). right; left. cbn [f_body]. apply Exists_app. right. constructor. left; auto. }
    assert (RI : pattern_ready p (i_op i)) by (apply RDY; cbn [f_body]; apply in_or_app; right; left; auto).
    destruct (conv_sound p fresh tys i news e1 vs b P RI Lv Tv K Sm Zl Fv N NF Nd FI) as ((en & En & An) & CFn). split.
    2:{ intros j Hj. cbn [f_body] in Hj. rewrite !in_app_iff in Hj. destruct Hj as [Hj|[Hj|Hj]].
        - apply RDY. cbn [f_body]. apply in_or_app. auto.
        - rewrite Forall_forall in CFn. apply CFn; auto.
        - apply RDY. cbn [f_body]. apply in_or_app. right; right; auto. }
    destruct (sim (fun x => exists k, fresh k = x) (fun x => x) _ _ _ E3 en) as (e2' & X & Y).
    + intros x Hx. symmetry. apply An. intros k Ek. apply Hx. exists k. auto.
    + intros y _ _ x. tauto.
    + intros i0 x Hj Hm (k & <-). apply (Fr k). right; left. cbn [f_body]. apply Exists_app. right. apply Exists_cons_tl, Exists_exists. exists i0. auto.
    + rewrite rename_id in X. exists e2'. cbn [f_body f_params f_rets]. split.
      * apply exec_app. exists e1. split; auto. apply exec_app. exists en. auto.
      * rewrite <- (map_id rets). rewrite (agree_lookups (fun x => exists k, fresh k = x) (fun x => x) e' e2' Y); auto.
        intros x Hx (k & <-). apply (Fr k). right; right. auto.
  - inversion E2 as [|i' tl e vs b e'' Lv K Sm Zl N E3]; subst. set (d := i_dst i) in *. split.
    2:{ intros j Hj. cbn [f_body] in Hj. apply RDY. cbn [f_body]. rewrite in_app_iff in *. cbn [In]. tauto. }
    destruct (sim (eq d) (fun x => x) _ _ _ E3 e1) as (e2' & X & Y).
    + intros x Hx. cbn [lookup]. destruct (Nat.eqb_spec x d); [congruence|auto].
    + intros y _ _ x. tauto.
    + intros j x Hj Hm <-. apply (M j); auto.
    + rewrite rename_id in X. exists e2'. cbn [f_body f_params f_rets]. split; [apply exec_app; exists e1; auto|].
      rewrite <- (map_id rets). rewrite (agree_lookups (eq d) (fun x => x) e' e2' Y); auto. intros x Hx <-. auto.
Qed.
Lemma conv_step_verified p f f' : verified_before f -> conv_step p f f' -> all_ops (pattern_ready p) f -> verified_before f' /\ all_ops consts_fit f' /\ f_params f' = f_params f.
Proof.
  intros V St RDY. destruct (conv_step_preserves p f f' St RDY) as [Ep Pr]. destruct (zeros_sized (f_params f)) as (inputs & Sz).
  destruct (before_runs f inputs V Sz) as (r & R). destruct (Pr inputs r Sz R) as (R' & CF). split; [|auto].
  apply (run_verified f' inputs r); auto; [rewrite Ep; apply V|rewrite Ep; exact Sz].
Qed.

(** ** Properties of the operators kept by the steps *)
Lemma Forall2_in_l {A B} (R : A -> B -> Prop) l l' : Forall2 R l l' -> forall x, In x l -> exists y, In y l' /\ R x y.
Proof. induction 1 as [|x y l l' H F IH]; intros z []; [subst; exists y; split; [left; auto|auto]|]. destruct (IH z) as (w & Hw & Rw); auto. exists w. split; [right; auto|auto]. Qed.
Lemma step_ops p (P : fop -> Prop) f f' : verified_before f -> conv_step p f f' -> all_ops P f ->
  (forall fresh tys i news, phase_pattern p fresh tys i news -> op_ok_before (i_op i) tys (i_ty i) -> In i (f_body f) -> forall j, In j news -> P (i_op j)) ->
  all_ops P f'.
Proof.
  intros V St A H. destruct St as [ps pre i post rets tys fresh news T X Fr | ps pre i post rets M Mr]; intros j Hj; cbn [f_body] in Hj.
  - rewrite !in_app_iff in Hj. destruct Hj as [Hj|[Hj|Hj]].
    + apply A. cbn [f_body]. apply in_or_app; auto.
    + destruct (instr_facts ps pre i post rets V) as (_ & tys' & T' & K). assert (tys' = tys) as -> by congruence.
      apply (H fresh tys i news X K); auto. cbn [f_body]. apply in_or_app. right; left; auto.
    + apply A. cbn [f_body]. apply in_or_app. right; right; auto.
  - apply A. cbn [f_body]. rewrite in_app_iff in *. cbn [In]. tauto.
Qed.

Lemma pad_size_mod n al : (0 < al)%Z -> (1 <= n)%Z -> ConvOptModel.pad_size n al = ((- n) mod al)%Z.
Proof. intros Ha Hn. unfold ConvOptModel.pad_size. rewrite Z.quot_div_nonneg by lia.
  pose proof (Z.div_mod (- n) al ltac:(lia)) as E. pose proof (Z.mod_pos_bound (- n) al Ha) as B.
  rewrite <- (Z.div_unique (n + al - 1) al (- ((- n) / al)) (al - 1 - (- n) mod al)); lia.
Qed.
Lemma align_pos i16 : (0 < ConvOptModel.alignment i16)%Z.
Proof. destruct i16; reflexivity. Qed.
Lemma neg_mod_add n al : (0 < al -> (- (n + (- n) mod al)) mod al = 0)%Z.
Proof. intros H. replace (- (n + (- n) mod al))%Z with (((- n) / al) * al)%Z by (pose proof (Z.div_mod (- n) al); lia). apply Z.mod_mul; lia. Qed.
Lemma neg_mod_zero n al : (0 < al -> (- n) mod al = 0 <-> (al | n))%Z.
Proof. intros H. rewrite Z.mod_divide by lia. apply Z.divide_opp_r. Qed.

Lemma conv_dims dw c t q a r f bi : op_ok_before (TCompute (conv_op dw c t q f bi)) [a] r ->
  let '(h, w, d) := c_in c in let '(oh, ow, od) := c_out c in let '(fh, fw, fd) := c_filter c in
  (1 <= d)%Z /\ (1 <= od)%Z /\ (1 <= fh)%Z /\ (1 <= fw)%Z /\ fd = d /\ (dw = true -> od = d /\ c_i16 c = false).
Proof.
  intros K. destruct (proj1 (conv_op_ok dw c t q f bi a r) K) as (CF & _). unfold conv_fits in CF.
  destruct (c_in c) as [[h w] d], (c_out c) as [[oh ow] od], (c_filter c) as [[fh fw] fd], (c_stride c) as [sh sw], (c_dilation c) as [dh dw'].
  destruct CF as ((_ & _ & Hd) & (_ & _ & Ho) & _ & (_ & _ & Hfh & Hfw & _) & C1 & C2 & _). do 4 (split; [lia|]).
  destruct dw; [destruct (C2 eq_refl) as (E1 & E2 & E3); auto|split; [auto|intros E; discriminate E]].
Qed.

(** Padding keeps explicit padding and the bound on the split size. *)
Lemma padding_ops fresh tys i news : pad_conv fresh tys i news -> op_ok_before (i_op i) tys (i_ty i) -> forall j, In j news ->
  (is_same_conv (i_op i) = false -> is_same_conv (i_op j) = false) /\ (forall size, split_size_fits size (i_op i) -> split_size_fits size (i_op j)).
Proof.
  intros X K j Hj. destruct X as [a d c t q f bi x r p cs q' PI RQ | a d c t q f bi x r p cs q' PO RQ | a d c t q f bi x r p cs q' I8 PD RQ]; cbn [i_op i_ty] in *.
  - pose proof (conv_dims false c t q a r f bi K) as CD. destruct Hj as [<-|[<-|[]]]; [split; auto; intros; exact I|]. cbn [i_op is_same_conv split_size_fits].
    unfold pad_inputs. destruct c as [i16 ci co cf pd pv st di zp]. unfold in_channels in PI. cbn [c_in c_out c_filter c_padding c_i16] in *. destruct ci as [[h w] dd], co as [[oh ow] od], cf as [[fh fw] fd].
    cbn [c_padding c_filter c_i16]. split; [auto|]. intros size. destruct CD as (H1 & H2 & H3 & H4 & -> & _).
    unfold ConvOptModel.pad_conv_input in PI. rewrite Z2Nat.id, pad_size_mod in PI by (try apply align_pos; lia). destruct (Z.eqb_spec ((- dd) mod ConvOptModel.alignment i16) 0); [discriminate|].
    assert (Ep : Z.of_nat p = ((- dd) mod ConvOptModel.alignment i16)%Z) by (injection PI as <- _; apply Z2Nat.id, Z.mod_pos_bound, align_pos). rewrite Ep.
    change (if i16 then 16%Z else 4%Z) with (ConvOptModel.alignment i16). rewrite neg_mod_add by apply align_pos. rewrite Z.add_0_r. auto.
  - destruct Hj as [<-|[<-|[]]]; [|split; auto; intros; exact I]. cbn [i_op is_same_conv split_size_fits].
    unfold with_outputs. destruct c as [i16 ci co cf pd pv st di zp]. cbn [c_in c_out c_filter c_padding c_i16] in *. destruct co as [[oh ow] od]. cbn [c_padding c_filter c_i16]. auto.
  - destruct Hj as [<-|[<-|[<-|[]]]]; [split; auto; intros; exact I| |split; auto; intros; exact I]. cbn [i_op is_same_conv split_size_fits].
    unfold with_outputs, pad_inputs. destruct c as [i16 ci co cf pd pv st di zp]. cbn [c_in c_out c_filter c_padding c_i16] in *. destruct ci as [[h w] dd], co as [[oh ow] od], cf as [[fh fw] fd]. cbn [c_padding c_filter c_i16 c_out]. auto.
Qed.

(** The convolutions of a split. *)
Lemma split_convs_ops fresh c t q x r : forall groups k from convs, split_convs fresh c t q x r k from groups convs ->
  Forall2 (fun i g => exists q' f b, i_op i = TCompute (CConv (split_conv c (Z.of_nat (fst g))) (valid_attr t) q' f b)) convs groups.
Proof. induction groups as [|(n & cs) groups IH]; intros k from convs SC; inversion SC; subst; constructor; eauto. cbn [fst]. do 3 eexists. reflexivity. Qed.
Lemma split_groups_sizes k c : forall sizes el groups, ConvOptModel.split_groups k c el sizes = Some groups -> map fst groups = map Z.to_nat sizes.
Proof.
  induction sizes as [|z sizes IH]; intros el groups SG; cbn [ConvOptModel.split_groups] in SG; [injection SG as <-; reflexivity|].
  destruct (ConvOptModel.split_groups _ _ _ sizes) as [gs|] eqn:E; [|repeat match type of SG with match ?u with _ => _ end = _ => destruct u; try discriminate end].
  assert (G : exists cs, groups = (Z.to_nat z, cs) :: gs) by (repeat match type of SG with match ?u with _ => _ end = _ => destruct u; try discriminate end; injection SG as <-; eexists; reflexivity).
  destruct G as (cs & ->). cbn [map fst]. f_equal. apply (IH _ _ E).
Qed.
Lemma splitting_ops size fresh tys i news : split_output size fresh tys i news -> op_ok_before (i_op i) tys (i_ty i) -> pattern_ready (Splitting size) (i_op i) ->
  exists c t q f b groups convs r args, i_op i = TCompute (CConv c t q f b) /\ news = convs ++ [Instr (i_dst i) (TConcat 3) args r] /\
    Forall2 (fun j g => exists q' f' b', i_op j = TCompute (CConv (split_conv c (Z.of_nat g)) (valid_attr t) q' f' b')) convs groups /\
    2 <= length groups /\ Forall (fun g => 4 <= g /\ (4 | Z.of_nat g)%Z) groups /\ Z.of_nat (sum_n groups) = out_channels c.
Proof.
  intros X K (CFt & Hsz & SP). destruct X as [a d c t q f bi x r ns groups convs NS SG SC]. cbn [i_op i_dst i_ty i_args] in *.
  exists c, t, q, f, bi, (map fst groups), convs, r, (map fresh (seq 0 (length groups))). split; [reflexivity|]. split; [reflexivity|].
  pose proof (conv_dims false c t q a r f bi K) as CD. cbn [consts_fit splittable] in *. unfold out_channels, per_channel in *.
  destruct (c_in c) as [[h w] dd], (c_out c) as [[oh ow] od] eqn:Eo, (c_filter c) as [[fh fw] fd]. destruct SP as (IS & D4 & K4). destruct CFt as (LF & _). destruct CD as (H1 & H2 & H3 & H4 & -> & _).
  rewrite LF in NS. destruct (split_sizes_ok od (fh * fw * dd) size ns ltac:(nia) Hsz D4 H2 K4 NS) as (Hns & FS & SS & LS).
  pose proof (split_groups_sizes _ _ _ _ _ SG) as GM. split; [|split; [|split]].
  - pose proof (split_convs_ops fresh c t q x r groups 0 0%Z convs SC) as F2. clear - F2. induction F2; cbn [map]; constructor; auto.
  - rewrite GM, map_length, LS. lia.
  - rewrite GM. rewrite Forall_map. eapply Forall_impl; [|exact FS]. cbn. intros s (Hs1 & Hs2). rewrite Z2Nat.id by lia. split; [lia|auto].
  - rewrite GM. exact SS.
Qed.
Lemma split_conv_in c n : c_in (split_conv c n) = c_in c /\ c_filter (split_conv c n) = c_filter c /\ c_i16 (split_conv c n) = c_i16 c /\ c_padding (split_conv c n) = VALID /\ out_channels (split_conv c n) = n.
Proof. unfold split_conv, out_channels. destruct c as [i16 ci co cf pd pv st di zp]. cbn. destruct co as [[oh ow] od]. cbn. auto. Qed.

(** ** Any number of steps of a phase *)
Definition padding_state (sizes : Z -> Prop) (f : func) : Prop :=
  verified_before f /\ explicit_padding f /\ all_ops consts_fit f /\ forall size, sizes size -> all_ops (split_size_fits size) f.
Lemma padding_step sizes f f' : padding_state sizes f -> conv_step Padding f f' -> padding_state sizes f' /\ f_params f' = f_params f.
Proof.
  intros (V & EP & CF & SF) St.
  assert (RDY : all_ops (pattern_ready Padding) f) by (intros i Hi; split; [apply CF; auto|exact I]).
  destruct (conv_step_verified _ f f' V St RDY) as (V' & CF' & Ep). split; [|exact Ep]. split; [exact V'|]. split; [|split; [exact CF'|]].
  - apply (step_ops Padding (fun o => is_same_conv o = false) f f' V St EP). intros fresh tys i news X K Hi j Hj. apply (padding_ops fresh tys i news X K j Hj). apply EP; auto.
  - intros size Hs. apply (step_ops Padding (split_size_fits size) f f' V St (SF size Hs)). intros fresh tys i news X K Hi j Hj. apply (padding_ops fresh tys i news X K j Hj). apply (SF size Hs); auto.
Qed.
Definition splitting_state (size : Z) (f : func) : Prop :=
  verified_before f /\ explicit_padding f /\ all_ops consts_fit f /\ all_ops (splittable size) f.
Lemma splitting_step size f f' : (1 <= size)%Z -> splitting_state size f -> conv_step (Splitting size) f f' -> splitting_state size f' /\ f_params f' = f_params f.
Proof.
  intros Hsz (V & EP & CF & SP) St.
  assert (RDY : all_ops (pattern_ready (Splitting size)) f) by (intros i Hi; split; [apply CF; auto|split; [exact Hsz|apply SP; auto]]).
  destruct (conv_step_verified _ f f' V St RDY) as (V' & CF' & Ep). split; [|exact Ep]. split; [exact V'|]. split; [|split; [exact CF'|]].
  - apply (step_ops (Splitting size) (fun o => is_same_conv o = false) f f' V St EP). intros fresh tys i news X K Hi j Hj.
    destruct (splitting_ops size fresh tys i news X K (RDY i Hi)) as (c & t & q & f0 & b & groups & convs & r & args & Ei & -> & F2 & _).
    apply in_app_or in Hj. destruct Hj as [Hj|[<-|[]]]; [|reflexivity]. apply (Forall2_in_l _ _ _ F2) in Hj. destruct Hj as (g & _ & q' & f1 & b' & ->). cbn [is_same_conv].
    destruct (split_conv_in c (Z.of_nat g)) as (_ & _ & _ & -> & _). reflexivity.
  - apply (step_ops (Splitting size) (splittable size) f f' V St SP). intros fresh tys i news X K Hi j Hj.
    destruct (splitting_ops size fresh tys i news X K (RDY i Hi)) as (c & t & q & f0 & b & groups & convs & r & args & Ei & -> & F2 & _ & F4 & _).
    apply in_app_or in Hj. destruct Hj as [Hj|[<-|[]]]; [|exact I]. apply (Forall2_in_l _ _ _ F2) in Hj. destruct Hj as (g & Hg & q' & f1 & b' & ->). cbn [splittable].
    pose proof (SP i Hi) as Si. rewrite Ei in Si. cbn [splittable] in Si. destruct Si as (_ & _ & K4).
    destruct (split_conv_in c (Z.of_nat g)) as (E1 & E2 & E3 & -> & ->). rewrite Forall_forall in F4. destruct (F4 g Hg) as (_ & D4).
    unfold per_channel in *. rewrite E2. auto.
Qed.
Lemma steps_state (Q : func -> Prop) (R : func -> func -> Prop) : (forall f f', Q f -> R f f' -> Q f' /\ f_params f' = f_params f) ->
  forall f f', clos_refl_trans _ R f f' -> Q f -> Q f' /\ f_params f' = f_params f.
Proof. intros H f f' St. induction St as [f f' St|f|f f1 f2 _ IH1 _ IH2]; intros HQ; [auto|auto|]. destruct (IH1 HQ) as [Q1 E1]. destruct (IH2 Q1) as [Q2 E2]. split; [auto|congruence]. Qed.
Lemma steps_keep (Q : func -> Prop) p : (forall f f', Q f -> conv_step p f f' -> Q f' /\ f_params f' = f_params f) -> (forall f, Q f -> all_ops (pattern_ready p) f) ->
  forall f f', clos_refl_trans _ (conv_step p) f f' -> Q f -> forall inputs r, sized (f_params f) inputs -> run_before f inputs r -> run_before f' inputs r.
Proof.
  intros H HR f f' St. induction St as [f f' St|f|f f1 f2 S1 IH1 S2 IH2]; intros HQ inputs r Sz R; [|exact R|].
  - destruct (conv_step_preserves p f f' St (HR f HQ)) as [_ Pr]. apply (Pr inputs r Sz R).
  - destruct (steps_state Q (conv_step p) H f f1 S1 HQ) as [Q1 E1]. apply IH2; auto. rewrite E1; exact Sz.
Qed.

(** Padding the channels, anywhere, any number of times. *)
Theorem C93_padding_preserves : forall f f' inputs, verified_before f -> all_ops consts_fit f -> clos_refl_trans _ (conv_step Padding) f f' -> sized (f_params f) inputs ->
  verified_before f' /\ all_ops consts_fit f' /\ f_params f' = f_params f /\ exists r, evaluate f inputs = Some r /\ evaluate f' inputs = Some r.
Proof.
  intros f f' inputs V CF St Sz.
  set (Q := fun f => verified_before f /\ all_ops consts_fit f).
  assert (HR : forall f, Q f -> all_ops (pattern_ready Padding) f) by (intros g (_ & CG) i Hi; split; [apply CG; auto|exact I]).
  assert (H : forall f f', Q f -> conv_step Padding f f' -> Q f' /\ f_params f' = f_params f).
  { intros g g' QG SG. destruct (conv_step_verified Padding g g' (proj1 QG) SG (HR g QG)) as (V' & C' & E'). split; [split; auto|auto]. }
  destruct (steps_state Q _ H f f' St (conj V CF)) as ((V' & C') & E'). split; [exact V'|]. split; [exact C'|]. split; [exact E'|].
  destruct (before_runs f inputs V Sz) as (r & R). pose proof (steps_keep Q Padding H HR f f' St (conj V CF) inputs r Sz R) as R'.
  exists r. split; apply run_before_evaluate; auto.
Qed.
(** Splitting, when the padding is explicit and output channels come in multiples of 4, 4 of them no larger than the split size. *)
Theorem C93_splitting_preserves : forall size f f' inputs, (1 <= size)%Z -> splitting_state size f -> clos_refl_trans _ (conv_step (Splitting size)) f f' -> sized (f_params f) inputs ->
  splitting_state size f' /\ f_params f' = f_params f /\ exists r, evaluate f inputs = Some r /\ evaluate f' inputs = Some r.
Proof.
  intros size f f' inputs Hsz SS St Sz.
  assert (HR : forall f, splitting_state size f -> all_ops (pattern_ready (Splitting size)) f) by (intros g (_ & _ & CG & SG) i Hi; split; [apply CG; auto|split; [exact Hsz|apply SG; auto]]).
  destruct (steps_state _ _ (fun f f' => splitting_step size f f' Hsz) f f' St SS) as (SS' & E'). split; [exact SS'|]. split; [exact E'|].
  destruct (before_runs f inputs (proj1 SS) Sz) as (r & R). pose proof (steps_keep _ _ (fun f f' => splitting_step size f f' Hsz) HR f f' St SS inputs r Sz R) as R'.
  exists r. split; apply run_before_evaluate; auto.
Qed.

(** ** What is left when a phase has finished *)
Definition conv_finished (p : phase) (f : func) : Prop := forall f', ~ conv_step p f f'.
(** The operator on given constants. *)
Definition on_constants (q : quant) (from : Z) (cs : ConvOptModel.conv_consts) : quant :=
  Quant (q_lo q) (q_hi q) (q_zp q) (q_6 q) (q_1 q) (q_m1 q) (q_step q) (fun o acc => q_scale q (from + o)%Z acc) (q_threshold q) (q_errors q) [] []
    (fun _ _ => (ConvOptModel.c_filter cs, bias_of cs, fun o acc => q_scale q (from + o)%Z acc)).
Lemma on_constants_ok q n from cs : requantised q (on_constants q from cs) n from cs.
Proof. unfold requantised, on_constants. cbn. repeat split. Qed.
Lemma not_finished p f pre i post : verified_before f -> conv_finished p f -> f_body f = pre ++ i :: post ->
  (forall fresh tys, op_ok_before (i_op i) tys (i_ty i) -> length tys = length (i_args i) -> exists news, phase_pattern p fresh tys i news) -> False.
Proof.
  intros V F E H. destruct f as [ps body rets]. cbn [f_body] in E. subst body.
  destruct (instr_facts ps pre i post rets V) as (_ & tys & T & K). destruct (new_name_exists (Func ps (pre ++ i :: post) rets)) as (fresh & Fr).
  destruct (H fresh tys K (lookups_length _ _ _ T)) as (news & X). eapply F. eapply Rewritten; eauto.
Qed.
Lemma multiple_zero i16 n : ((- n) mod ConvOptModel.alignment i16 = 0)%Z -> multiple i16 n.
Proof. intros H. apply (neg_mod_zero n) in H; [|apply align_pos]. destruct i16; exact H. Qed.
Theorem C93_channels_fit : forall f, verified_before f -> conv_finished Padding f -> all_ops channels_fit f.
Proof.
  intros f V F i Hi. apply in_split in Hi. destruct Hi as (pre & post & E).
  destruct i as [d o args r]. cbn [i_op]. destruct o as [| | | | | | | | | |co| | | | | | | | |]; try exact I. destruct co as [| c t q f0 b| c t q f0 b| |]; try exact I.
  - assert (N := not_finished Padding f pre _ post V F E). cbn [i_op i_args i_ty phase_pattern] in N. cbn [channels_fit].
    destruct f as [ps body rets]. cbn [f_body] in E. subst body. destruct (instr_facts ps pre _ post rets V) as (_ & tys & T & K). cbn [i_op i_ty i_args] in K, T.
    assert (TA : exists a, tys = [a]) by (destruct tys as [|a [|? ?]]; try (destruct K; fail); eauto). destruct TA as (a & ->).
    pose proof (conv_dims false c t q a r f0 b K) as CD. destruct (c_in c) as [[h w] dd] eqn:Ei, (c_out c) as [[oh ow] od] eqn:Eo, (c_filter c) as [[fh fw] fd]. destruct CD as (H1 & H2 & _).
    split; apply multiple_zero.
    + destruct (Z.eq_dec ((- dd) mod ConvOptModel.alignment (c_i16 c)) 0) as [|Ne]; [auto|exfalso]. apply N. intros fresh tys' K' L'.
      destruct tys' as [|a' [|? ?]]; try (destruct K'; fail). destruct args as [|x [|? ?]]; try discriminate L'.
      eexists. eapply NInput; [|apply on_constants_ok]. unfold ConvOptModel.pad_conv_input, in_channels. rewrite Ei, Z2Nat.id, pad_size_mod by (try apply align_pos; lia).
      destruct (Z.eqb_spec ((- dd) mod ConvOptModel.alignment (c_i16 c)) 0); [contradiction|reflexivity].
    + destruct (Z.eq_dec ((- od) mod ConvOptModel.alignment (c_i16 c)) 0) as [|Ne]; [auto|exfalso]. apply N. intros fresh tys' K' L'.
      destruct tys' as [|a' [|? ?]]; try (destruct K'; fail). destruct args as [|x [|? ?]]; try discriminate L'.
      eexists. eapply NOutput; [|apply on_constants_ok]. unfold ConvOptModel.pad_conv_output, out_channels. rewrite Eo, Z2Nat.id, pad_size_mod by (try apply align_pos; lia).
      destruct (Z.eqb_spec ((- od) mod ConvOptModel.alignment (c_i16 c)) 0); [contradiction|reflexivity].
  - assert (N := not_finished Padding f pre _ post V F E). cbn [i_op i_args i_ty phase_pattern] in N. cbn [channels_fit].
    destruct f as [ps body rets]. cbn [f_body] in E. subst body. destruct (instr_facts ps pre _ post rets V) as (_ & tys & T & K). cbn [i_op i_ty i_args] in K, T.
    assert (TA : exists a, tys = [a]) by (destruct tys as [|a [|? ?]]; try (destruct K; fail); eauto). destruct TA as (a & ->).
    pose proof (conv_dims true c t q a r f0 b K) as CD. destruct (c_in c) as [[h w] dd] eqn:Ei, (c_out c) as [[oh ow] od] eqn:Eo, (c_filter c) as [[fh fw] fd]. destruct CD as (H1 & H2 & _ & _ & _ & CD).
    destruct (CD eq_refl) as (-> & I8). rewrite I8. enough (X : multiple false dd) by (split; exact X). apply multiple_zero.
    destruct (Z.eq_dec ((- dd) mod ConvOptModel.alignment false) 0) as [|Ne]; [auto|exfalso]. apply N. intros fresh tys' K' L'.
    destruct tys' as [|a' [|? ?]]; try (destruct K'; fail). destruct args as [|x [|? ?]]; try discriminate L'.
    eexists. eapply NDepthwise; [exact I8| |apply on_constants_ok]. unfold ConvOptModel.pad_depthwise, in_channels, out_channels. rewrite Ei, Eo, Nat.eqb_refl, Z2Nat.id, pad_size_mod by lia.
    change 4%Z with (ConvOptModel.alignment false). destruct (Z.eqb_spec ((- dd) mod ConvOptModel.alignment false) 0); [contradiction|reflexivity].
Qed.

(** After the split no filter has twice the split size. *)
Definition filter_below (n : Z) (o : fop) : Prop := match o with TCompute (CConv _ _ _ f _) => (Z.of_nat (length f) < n)%Z | _ => True end.
Lemma split_convs_exist fresh c t q x r : forall groups k from, exists convs, split_convs fresh c t q x r k from groups convs.
Proof.
  induction groups as [|(n & cs) groups IH]; intros k from; [eexists; constructor|]. destruct (IH (S k) (from + Z.of_nat n)%Z) as (tl & H).
  eexists. eapply SplitCons; [apply on_constants_ok|exact H].
Qed.
Theorem C93_filters_small : forall size f, (1 <= size)%Z -> splitting_state size f -> conv_finished (Splitting size) f -> all_ops (filter_below (2 * size)) f.
Proof.
  intros size f Hsz SS F i Hi. destruct SS as (V & EP & CF & SP). pose proof (CF i Hi) as CFi. pose proof (SP i Hi) as SPi.
  apply in_split in Hi. destruct Hi as (pre & post & E).
  destruct i as [d o args r]. cbn [i_op] in *. destruct o as [| | | | | | | | | |co| | | | | | | | |]; try exact I. destruct co as [| c t q f0 b| c t q f0 b| |]; try exact I.
  assert (N := not_finished (Splitting size) f pre _ post V F E). cbn [i_op i_args i_ty phase_pattern] in N. cbn [filter_below].
  destruct f as [ps body rets]. cbn [f_body] in E. subst body. destruct (instr_facts ps pre _ post rets V) as (_ & tys & T & K). cbn [i_op i_ty i_args] in K, T.
  assert (TA : exists a, tys = [a]) by (destruct tys as [|a [|? ?]]; try (destruct K; fail); eauto). destruct TA as (a & ->).
  pose proof (conv_dims false c t q a r f0 b K) as CD. cbn [consts_fit splittable] in CFi, SPi. unfold out_channels, per_channel in SPi. destruct (c_in c) as [[h w] dd] eqn:Ei, (c_out c) as [[oh ow] od] eqn:Eo, (c_filter c) as [[fh fw] fd] eqn:Ef.
  destruct CD as (H1 & H2 & H3 & H4 & -> & _). destruct SPi as (_ & D4 & K4). destruct CFi as (LF & LB).
  destruct (Z.lt_ge_cases (Z.of_nat (length f0)) (2 * size)) as [|Ge]; [auto|exfalso]. apply N. intros fresh tys' K' L'.
  destruct tys' as [|a' [|? ?]]; try (destruct K'; fail). destruct args as [|x [|? ?]]; try discriminate L'.
  assert (NS : exists ns, ConvOptModel.num_splits (Z.of_nat (length f0)) size od = Some ns).
  { unfold ConvOptModel.num_splits. rewrite !Z.quot_div_nonneg by lia. destruct (Z.ltb_spec (Z.of_nat (length f0) / size) 2) as [L|_].
    { assert (2 <= Z.of_nat (length f0) / size)%Z by (apply Z.div_le_lower_bound; lia). lia. }
    destruct (Z.ltb_spec (od / 4) 2) as [L|_]; [|eexists; reflexivity]. exfalso. destruct D4 as (m & ->). rewrite Z.div_mul in L by lia. nia. }
  destruct NS as (ns & NS). pose proof NS as NS'. rewrite LF in NS'.
  destruct (split_sizes_ok od (fh * fw * dd) size ns ltac:(nia) Hsz D4 H2 K4 NS') as (Hns & FS & S0 & LS).
  assert (CO : ConvOptSpec.consts_ok (Z.to_nat (fh * fw * dd)) (Z.to_nat od) (consts f0 b)).
  { unfold ConvOptSpec.consts_ok, consts. cbn [ConvOptModel.c_filter ConvOptModel.c_bias ConvOptModel.c_fq ConvOptModel.c_bq]. split; [apply Nat2Z.inj; rewrite Nat2Z.inj_mul, !Z2Nat.id by nia; lia|].
    split; [intros l El; destruct b; [discriminate|injection El as <-; destruct LB as [LB|LB]; [discriminate|lia]]|]. split; intros l El; discriminate. }
  destruct (ConvOptProofs.split_groups_ok (fun (_ : unit) _ _ _ _ => tt) _ _ _ tt CO (ConvOptModel.split_sizes od ns) 0) as (gs & SG & _).
  { change ConvOptProofs.sumn with sum_n. lia. }
  destruct (split_convs_exist fresh c t q x r gs 0 0%Z) as (convs & SC).
  eexists. apply (NSplit size fresh a' d c t q f0 b x r ns gs convs); [unfold out_channels; rewrite Eo; exact NS| |exact SC].
  unfold per_channel, out_channels. rewrite Ef, Eo. exact SG.
Qed.

(** ** Both phases terminate *)
Definition uneven (i16 : bool) (n : Z) : nat := if ((- n) mod ConvOptModel.alignment i16 =? 0)%Z then 0 else 1.
Definition to_pad (i : instr) : nat :=
  match i_op i with
  | TCompute (CConv c _ _ _ _) => uneven (c_i16 c) (in_channels c) + uneven (c_i16 c) (out_channels c)
  | TCompute (CDepthwise c _ _ _ _) => uneven (c_i16 c) (in_channels c)
  | _ => 0
  end.
Lemma sum_n_app a b : sum_n (a ++ b) = sum_n a + sum_n b.
Proof. unfold sum_n. induction a as [|x a IH]; cbn [app fold_right]; lia. Qed.
Lemma sum_n_cons x a : sum_n (x :: a) = x + sum_n a.
Proof. reflexivity. Qed.
Lemma uneven_padded i16 n p : (1 <= n)%Z -> ConvOptModel.pad_size (Z.of_nat (Z.to_nat n)) (ConvOptModel.alignment i16) <> 0%Z ->
  p = Z.to_nat (ConvOptModel.pad_size (Z.of_nat (Z.to_nat n)) (ConvOptModel.alignment i16)) -> uneven i16 (n + Z.of_nat p) = 0 /\ uneven i16 n = 1.
Proof.
  intros Hn NZ Ep. rewrite (Z2Nat.id n) in NZ, Ep by lia. rewrite pad_size_mod in NZ, Ep by (try apply align_pos; lia). subst p. rewrite Z2Nat.id by (apply Z.mod_pos_bound, align_pos).
  unfold uneven. rewrite neg_mod_add by apply align_pos. cbn [Z.eqb]. split; [reflexivity|]. destruct (Z.eqb_spec ((- n) mod ConvOptModel.alignment i16) 0); [contradiction|reflexivity].
Qed.
Lemma pad_conv_decreases fresh tys i news : pad_conv fresh tys i news -> op_ok_before (i_op i) tys (i_ty i) -> sum_n (map to_pad news) < to_pad i.
Proof.
  intros X K. destruct X as [a d c t q f bi x r p cs q' PI RQ | a d c t q f bi x r p cs q' PO RQ | a d c t q f bi x r p cs q' I8 PD RQ]; cbn [i_op i_ty] in *;
    unfold input_pad, slice_back; cbn [map]; rewrite ?sum_n_cons; change (sum_n []) with 0; unfold to_pad; cbn [i_op].
  - pose proof (conv_dims false c t q a r f bi K) as CD. unfold pad_inputs, in_channels, out_channels in *. destruct c as [i16 ci co cf pd pv st di zp]. cbn [c_in c_out c_filter c_i16] in *.
    destruct ci as [[h w] dd], co as [[oh ow] od], cf as [[fh fw] fd]. cbn [c_in c_out c_filter c_i16] in *. destruct CD as (H1 & _).
    unfold ConvOptModel.pad_conv_input in PI. destruct (Z.eqb_spec (ConvOptModel.pad_size (Z.of_nat (Z.to_nat dd)) (ConvOptModel.alignment i16)) 0) as [|NZ]; [discriminate|].
    destruct (uneven_padded i16 dd p H1 NZ) as (-> & ->); [congruence|]. lia.
  - pose proof (conv_dims false c t q a r f bi K) as CD. unfold with_outputs, in_channels, out_channels in *. destruct c as [i16 ci co cf pd pv st di zp]. cbn [c_in c_out c_filter c_i16] in *.
    destruct ci as [[h w] dd], co as [[oh ow] od], cf as [[fh fw] fd]. cbn [c_in c_out c_filter c_i16] in *. destruct CD as (_ & H1 & _).
    unfold ConvOptModel.pad_conv_output in PO. destruct (Z.eqb_spec (ConvOptModel.pad_size (Z.of_nat (Z.to_nat od)) (ConvOptModel.alignment i16)) 0) as [|NZ]; [discriminate|].
    destruct (uneven_padded i16 od p H1 NZ) as (-> & ->); [congruence|]. lia.
  - pose proof (conv_dims true c t q a r f bi K) as CD. unfold with_outputs, pad_inputs, in_channels, out_channels in *. destruct c as [i16 ci co cf pd pv st di zp]. cbn [c_in c_out c_filter c_i16] in *. subst i16.
    destruct ci as [[h w] dd], co as [[oh ow] od], cf as [[fh fw] fd]. cbn [c_in c_out c_filter c_i16] in *. destruct CD as (H1 & _).
    unfold ConvOptModel.pad_depthwise in PD. destruct (Nat.eqb (Z.to_nat dd) (Z.to_nat od)); [|discriminate]. destruct (Z.eqb_spec (ConvOptModel.pad_size (Z.of_nat (Z.to_nat dd)) 4) 0) as [|NZ]; [discriminate|].
    destruct (uneven_padded false dd p H1 NZ) as (-> & ->); [change (ConvOptModel.alignment false) with 4%Z; congruence|]. lia.
Qed.
Theorem C93_padding_terminates : forall f, verified_before f -> all_ops consts_fit f -> Acc (fun f' f => conv_step Padding f f') f.
Proof.
  intros f V CF. apply (lex_acc (conv_step Padding) (fun f => verified_before f /\ all_ops consts_fit f) (fun f => sum_n (map to_pad (f_body f))) (fun f => length (f_body f))); [|auto].
  clear f V CF. intros f f' (V & CF) St.
  assert (RDY : all_ops (pattern_ready Padding) f) by (intros i Hi; split; [apply CF; auto|exact I]).
  destruct (conv_step_verified Padding f f' V St RDY) as (V' & CF' & _). split; [auto|].
  destruct St as [ps pre i post rets tys fresh news T X Fr | ps pre i post rets M Mr]; cbn [f_body].
  - left. destruct (instr_facts ps pre i post rets V) as (_ & tys' & T' & K). assert (tys' = tys) as -> by congruence.
    pose proof (pad_conv_decreases fresh tys i news X K). rewrite !map_app, !sum_n_app. cbn [map]. rewrite sum_n_cons. lia.
  - rewrite !map_app, !sum_n_app, !app_length. cbn [map length]. rewrite sum_n_cons. lia.
Qed.
Definition to_split (i : instr) : nat := match i_op i with TCompute (CConv c _ _ _ _) => Z.to_nat (out_channels c) - 1 | _ => 0 end.
Theorem C93_splitting_terminates : forall size f, (1 <= size)%Z -> splitting_state size f -> Acc (fun f' f => conv_step (Splitting size) f f') f.
Proof.
  intros size f Hsz SS. apply (lex_acc (conv_step (Splitting size)) (splitting_state size) (fun f => sum_n (map to_split (f_body f))) (fun f => length (f_body f))); [|auto].
  clear f SS. intros f f' SS St. split; [apply (splitting_step size f f' Hsz SS St)|]. destruct SS as (V & EP & CF & SP).
  destruct St as [ps pre i post rets tys fresh news T X Fr | ps pre i post rets M Mr]; cbn [f_body].
  - left. destruct (instr_facts ps pre i post rets V) as (_ & tys' & T' & K). assert (tys' = tys) as -> by congruence.
    assert (Hi : In i (pre ++ i :: post)) by (apply in_or_app; right; left; auto).
    destruct (splitting_ops size fresh tys i news X K (conj (CF i Hi) (conj Hsz (SP i Hi)))) as (c & t & q & f0 & b & groups & convs & r & args & Ei & -> & F2 & L2 & F4 & SS).
    rewrite !map_app, !sum_n_app. cbn [map]. rewrite !sum_n_cons. assert (TI : to_split i = Z.to_nat (out_channels c) - 1) by (unfold to_split; rewrite Ei; reflexivity). rewrite TI.
    change (to_split (Instr (i_dst i) (TConcat 3) args r)) with 0. change (sum_n []) with 0. rewrite <- SS, Nat2Z.id.
    enough (sum_n (map to_split convs) + length groups = sum_n groups) by lia. clear - F2 F4. induction F2 as [|j g convs groups (q' & f' & b' & E) F IH]; [reflexivity|].
    cbn [map length]. rewrite !sum_n_cons. inversion F4 as [|? ? (G4 & _) F4']; subst. specialize (IH F4').
    unfold to_split at 1. rewrite E. destruct (split_conv_in c (Z.of_nat g)) as (_ & _ & _ & _ & ->). rewrite Nat2Z.id. lia.
  - rewrite !map_app, !sum_n_app, !app_length. cbn [map length]. rewrite sum_n_cons. lia.
Qed.

(** ** The padding always finishes *)
Lemma pad_applies fresh tys i : op_ok_before (i_op i) tys (i_ty i) -> length tys = length (i_args i) -> to_pad i <> 0 -> exists news, pad_conv fresh tys i news.
Proof.
  destruct i as [d o args r]. cbn [i_op i_ty i_args]. intros K L NZ. unfold to_pad in NZ. cbn [i_op] in NZ. destruct o as [| | | | | | | | | |co| | | | | | | | |]; try (exfalso; apply NZ; reflexivity).
  destruct co as [| c t q f0 b| c t q f0 b| |]; try (exfalso; apply NZ; reflexivity); destruct tys as [|a [|? ?]]; try (destruct K; fail); destruct args as [|x [|? ?]]; try discriminate L.
  - pose proof (conv_dims false c t q a r f0 b K) as CD. unfold in_channels, out_channels in NZ. destruct (c_in c) as [[h w] dd] eqn:Ei, (c_out c) as [[oh ow] od] eqn:Eo, (c_filter c) as [[fh fw] fd]. destruct CD as (H1 & H2 & _).
    unfold uneven in NZ. destruct (Z.eqb_spec ((- dd) mod ConvOptModel.alignment (c_i16 c)) 0) as [Z1|N1].
    + destruct (Z.eqb_spec ((- od) mod ConvOptModel.alignment (c_i16 c)) 0) as [Z2|N2]; [exfalso; apply NZ; reflexivity|].
      eexists. eapply NOutput; [|apply on_constants_ok]. unfold ConvOptModel.pad_conv_output, out_channels. rewrite Eo, Z2Nat.id, pad_size_mod by (try apply align_pos; lia).
      destruct (Z.eqb_spec ((- od) mod ConvOptModel.alignment (c_i16 c)) 0); [contradiction|reflexivity].
    + eexists. eapply NInput; [|apply on_constants_ok]. unfold ConvOptModel.pad_conv_input, in_channels. rewrite Ei, Z2Nat.id, pad_size_mod by (try apply align_pos; lia).
      destruct (Z.eqb_spec ((- dd) mod ConvOptModel.alignment (c_i16 c)) 0); [contradiction|reflexivity].
  - pose proof (conv_dims true c t q a r f0 b K) as CD. unfold in_channels in NZ. destruct (c_in c) as [[h w] dd] eqn:Ei, (c_out c) as [[oh ow] od] eqn:Eo, (c_filter c) as [[fh fw] fd]. destruct CD as (H1 & H2 & _ & _ & _ & CD).
    destruct (CD eq_refl) as (-> & I8). rewrite I8 in NZ. unfold uneven in NZ. destruct (Z.eqb_spec ((- dd) mod ConvOptModel.alignment false) 0) as [Z1|N1]; [exfalso; apply NZ; reflexivity|].
    eexists. eapply NDepthwise; [exact I8| |apply on_constants_ok]. unfold ConvOptModel.pad_depthwise, in_channels, out_channels. rewrite Ei, Eo, Nat.eqb_refl, Z2Nat.id, pad_size_mod by lia.
    change 4%Z with (ConvOptModel.alignment false). destruct (Z.eqb_spec ((- dd) mod ConvOptModel.alignment false) 0); [contradiction|reflexivity].
Qed.
(** Every result is used. *)
Fixpoint all_used (body : list instr) (rets : list nat) : bool :=
  match body with
  | [] => true
  | i :: tl => (existsb (Nat.eqb (i_dst i)) rets || existsb (fun j => existsb (Nat.eqb (i_dst i)) (i_dst j :: i_args j)) tl) && all_used tl rets
  end.
Lemma existsb_in x l : existsb (Nat.eqb x) l = true <-> In x l.
Proof. rewrite existsb_exists. split; [intros (y & Hy & E); apply Nat.eqb_eq in E; subst; auto|intros H; exists x; split; [auto|apply Nat.eqb_refl]]. Qed.
Lemma used_cases body rets : all_used body rets = true \/ exists pre i post, body = pre ++ i :: post /\ (forall j, In j post -> ~ mentions j (i_dst i)) /\ ~ In (i_dst i) rets.
Proof.
  induction body as [|i tl IH]; [left; reflexivity|]. cbn [all_used].
  destruct (existsb (Nat.eqb (i_dst i)) rets || existsb (fun j => existsb (Nat.eqb (i_dst i)) (i_dst j :: i_args j)) tl) eqn:E.
  - destruct IH as [IH|(pre & k & post & -> & H)]; [left; rewrite IH; reflexivity|right; exists (i :: pre), k, post; auto].
  - right. exists [], i, tl. split; [reflexivity|]. apply orb_false_elim in E. destruct E as (E1 & E2). split.
    + intros j Hj M. enough (existsb (fun j => existsb (Nat.eqb (i_dst i)) (i_dst j :: i_args j)) tl = true) by congruence. apply existsb_exists. exists j. split; [exact Hj|]. apply existsb_in. destruct M as [M|M]; [left; auto|right; auto].
    + intros H. apply existsb_in in H. congruence.
Qed.
Lemma used_kept body rets : all_used body rets = true -> forall pre i post, body = pre ++ i :: post -> (forall j, In j post -> ~ mentions j (i_dst i)) -> ~ In (i_dst i) rets -> False.
Proof.
  revert rets. induction body as [|k tl IH]; intros rets U pre i post E M N; [destruct pre; discriminate|]. cbn [all_used] in U. apply andb_prop in U. destruct U as (U1 & U2).
  destruct pre as [|k' pre]; injection E as -> ->; [|eapply IH; eauto]. apply orb_prop in U1. destruct U1 as [U1|U1]; [apply existsb_in in U1; contradiction|].
  apply existsb_exists in U1. destruct U1 as (j & Hj & U1). apply existsb_in in U1. apply (M j Hj). destruct U1 as [U1|U1]; [left; auto|right; auto].
Qed.
Lemma padding_finished f : verified_before f -> sum_n (map to_pad (f_body f)) = 0 -> all_used (f_body f) (f_rets f) = true -> conv_finished Padding f.
Proof.
  intros V S0 U f' St. destruct St as [ps pre i post rets tys fresh news T X Fr | ps pre i post rets M Mr]; cbn [f_body f_rets] in *.
  - destruct (instr_facts ps pre i post rets V) as (_ & tys' & T' & K). assert (tys' = tys) as -> by congruence.
    pose proof (pad_conv_decreases fresh tys i news X K). rewrite map_app, sum_n_app in S0. cbn [map] in S0. rewrite sum_n_cons in S0. lia.
  - eapply used_kept; eauto.
Qed.
Theorem C93_padding_finishes : forall f, verified_before f -> all_ops consts_fit f -> exists f', clos_refl_trans _ (conv_step Padding) f f' /\ conv_finished Padding f'.
Proof.
  intros f V CF. pose proof (C93_padding_terminates f V CF) as A. induction A as [f _ IH].
  assert (ST : (exists f', conv_step Padding f f') \/ conv_finished Padding f).
  { destruct (used_cases (f_body f) (f_rets f)) as [U|(pre & i & post & E & H1 & H2)].
    2:{ left. destruct f as [ps body rets]. cbn [f_body f_rets] in *. subst body. eexists. eapply Removed; eauto. }
    destruct (existsb (fun i => negb (Nat.eqb (to_pad i) 0)) (f_body f)) eqn:E.
    - left. apply existsb_exists in E. destruct E as (i & Hi & E). apply negb_true_iff, Nat.eqb_neq in E. apply in_split in Hi. destruct Hi as (pre & post & Eb).
      destruct f as [ps body rets]. cbn [f_body] in *. subst body.
      destruct (instr_facts ps pre i post rets V) as (_ & tys & T & K). destruct (new_name_exists (Func ps (pre ++ i :: post) rets)) as (fresh & Fr).
      destruct (pad_applies fresh tys i K (lookups_length _ _ _ T) E) as (news & X). eexists. eapply (Rewritten Padding); eauto.
    - right. apply padding_finished; auto. clear - E. induction (f_body f) as [|i tl IHt]; [reflexivity|]. cbn [existsb map] in *. apply orb_false_elim in E. destruct E as (E1 & E2).
      rewrite sum_n_cons, IHt by exact E2. apply negb_false_iff, Nat.eqb_eq in E1. lia. }
  destruct ST as [(f' & St)|F]; [|exists f; split; [apply rt_refl|exact F]].
  assert (RDY : all_ops (pattern_ready Padding) f) by (intros i Hi; split; [apply CF; auto|exact I]).
  destruct (conv_step_verified Padding f f' V St RDY) as (V' & CF' & _). destruct (IH f' St V' CF') as (f2 & S2 & F2). exists f2. split; [eapply rt_trans; [apply rt_step; exact St|exact S2]|exact F2].
Qed.

(** ** The whole pass *)
Lemma fitted_splittable size f : verified_before f -> explicit_padding f -> all_ops channels_fit f -> all_ops (split_size_fits size) f -> all_ops (splittable size) f.
Proof.
  intros V EP CH SF i Hi. pose proof (EP i Hi) as E1. pose proof (CH i Hi) as E2. pose proof (SF i Hi) as E3. apply in_split in Hi. destruct Hi as (pre & post & E).
  destruct i as [d o args r]. cbn [i_op] in *. destruct o as [| | | | | | | | | |co| | | | | | | | |]; try exact I. destruct co as [| c t q f0 b| c t q f0 b| |]; try exact I.
  cbn [splittable is_same_conv channels_fit split_size_fits] in *. split; [exact E1|].
  destruct f as [ps body rets]. cbn [f_body] in E. subst body. destruct (instr_facts ps pre _ post rets V) as (_ & tys & T & K). cbn [i_op i_ty i_args] in K, T.
  assert (TA : exists a, tys = [a]) by (destruct tys as [|a [|? ?]]; try (destruct K; fail); eauto). destruct TA as (a & ->).
  pose proof (conv_dims false c t q a r f0 b K) as CD. unfold out_channels, per_channel. destruct (c_in c) as [[h w] dd], (c_out c) as [[oh ow] od], (c_filter c) as [[fh fw] fd]. destruct CD as (_ & _ & _ & _ & -> & _).
  destruct E2 as (E2 & E4). unfold multiple in *. split.
  - destruct (c_i16 c); [|exact E4]. destruct E4 as (m & ->). exists (m * 4)%Z. ring.
  - apply neg_mod_zero in E2; [|destruct (c_i16 c); lia]. rewrite E2, Z.add_0_r in E3. exact E3.
Qed.
(** 832-851: padding until no pattern applies, splitting, padding again.  The results are the same, byte for byte, for every input; the channels fit. *)
Theorem C93_optimize_conv : forall size f f1 f2 f3 inputs,
  (1 <= size)%Z -> verified_before f -> explicit_padding f -> all_ops consts_fit f -> all_ops (split_size_fits size) f -> sized (f_params f) inputs ->
  clos_refl_trans _ (conv_step Padding) f f1 -> conv_finished Padding f1 ->
  clos_refl_trans _ (conv_step (Splitting size)) f1 f2 ->
  clos_refl_trans _ (conv_step Padding) f2 f3 ->
  verified_before f3 /\ explicit_padding f3 /\ all_ops consts_fit f3 /\ f_params f3 = f_params f /\
  (conv_finished Padding f3 -> all_ops channels_fit f3) /\
  exists r, evaluate f inputs = Some r /\ evaluate f3 inputs = Some r.
Proof.
  intros size f f1 f2 f3 inputs Hsz V EP CF SF Sz S1 F1 S2 S3.
  destruct (steps_state _ _ (padding_step (eq size)) f f1 S1) as ((V1 & EP1 & CF1 & SF1) & P1); [split; [auto|split; [auto|split; [auto|intros s <-; auto]]]|].
  specialize (SF1 size eq_refl). pose proof (fitted_splittable size f1 V1 EP1 (C93_channels_fit f1 V1 F1) SF1) as SP1.
  destruct (C93_padding_preserves f f1 inputs V CF S1 Sz) as (_ & _ & _ & r & R0 & R1).
  destruct (C93_splitting_preserves size f1 f2 inputs Hsz (conj V1 (conj EP1 (conj CF1 SP1))) S2) as ((V2 & EP2 & CF2 & _) & P2 & r1 & R1' & R2); [rewrite P1; exact Sz|].
  destruct (C93_padding_preserves f2 f3 inputs V2 CF2 S3) as (V3 & CF3 & P3 & r2 & R2' & R3); [rewrite P2, P1; exact Sz|].
  destruct (steps_state _ _ (padding_step (fun _ => False)) f2 f3 S3) as ((_ & EP3 & _ & _) & _); [split; [auto|split; [auto|split; [auto|intros s []]]]|].
  split; [exact V3|]. split; [exact EP3|]. split; [exact CF3|]. split; [congruence|]. split; [intros F3; apply C93_channels_fit; auto|].
  exists r. split; [exact R0|]. congruence.
Qed.
