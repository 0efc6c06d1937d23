(** Soundness of the patterns of the passes before the lowering, continued (C88). *)
From Coq Require Import Permutation QArith.
From Verif Require Import Base NdSpec NdBase LowerSpec BroadcastProofs ConcatProofs LowerProps TransposeSpec TransposeProofs FunOpsSpec FunOpsProofs FunModel FunSpec FunProofs FunProofs2.
From Verif Require Import FunOptModel FunOptSpec FunOptProofs.
From Verif Require PatternModel PatternProps TransposeModel LutModel LutSpec LutProofs LutProps ConvRunSpec ConvLowerSpec ConvLowerModel.
Local Open Scope nat_scope.

Lemma inside_in before : forall s idx, inside before s idx = true -> length before = length s -> length idx = length s -> in_shape s (map2 Nat.sub idx before).
Proof.
  induction before as [|b before IH]; intros [|d s] [|i idx] H L1 L2; try discriminate; [constructor|].
  cbn [inside] in H. rewrite !andb_true_iff in H. destruct H as [[H1 H2] H]. cbn [map2]. constructor; [lia|]. apply IH; auto.
Qed.

(** ** Element-wise operators *)
Lemma bytes_of_one s (g : tensor Z) : bytes_of s (fun idx => le_bytes 1 (g idx)) = map (fun k => (g (unravel s k) mod 256)%Z) (seq 0 (nelem s)).
Proof.
  change (fun idx => le_bytes 1 (g idx)) with (fun idx => [(g idx mod 256)%Z]). unfold bytes_of. rewrite flatten_unravel. induction (seq 0 (nelem s)) as [|k l IH]; [reflexivity|]. cbn [map concat app]. rewrite IH. reflexivity.
Qed.
Lemma bytes_int8 s (g : tensor Z) k : (forall idx, LutSpec.int8 (g idx)) -> k < nelem s -> int_at 1 (bytes_of s (fun idx => le_bytes 1 (g idx))) k = g (unravel s k).
Proof.
  intros H Hk. rewrite bytes_of_one, int_at_one, nth_map_seq by exact Hk. cbv zeta. rewrite Z.mod_mod by lia. apply signed8_of. apply H.
Qed.
Lemma act_fused m ac s z v : ac = LutModel.Relu \/ ac = LutModel.Relu6 -> (0 < s)%Q -> LutSpec.int8 z ->
  act_value m ac s z s z (Z.min 127 (Z.max (-128) v)) = LutModel.fused_clamp ac s z v /\
  forall x, LutSpec.int8 x -> (Qabs.Qabs (LutSpec.act_real m ac (LutSpec.dequantised s z x) / s) <= inject_Z (2 ^ 31 - 256))%Q.
Proof.
  intros Ha Hs Hz.
  assert (B : forall x, LutSpec.int8 x -> (Qabs.Qabs (LutSpec.act_real m ac (LutSpec.dequantised s z x) / s) <= inject_Z (2 ^ 31 - 256))%Q).
  { destruct Ha as [-> | ->]; [apply relu_bound; assumption|]. intros x Hx. rewrite <- LutProofs.apply_activation_real. unfold LutSpec.dequantised. cbn [LutModel.apply_activation].
    rewrite (LutProps.relu6_scaled s (x - z) Hs).
    assert (H6 : (0 <= 6 / s)%Q) by (apply Qle_shift_div_l; [exact Hs|]; rewrite Qmult_0_l; discriminate).
    assert (H0 : (0 <= inject_Z (Z.max (x - z) 0))%Q) by (change 0%Q with (inject_Z 0); rewrite <- Zle_Qle; lia).
    rewrite Qabs.Qabs_pos by (apply Qminmax.Q.min_glb; assumption).
    eapply Qle_trans; [apply Qminmax.Q.le_min_l|]. rewrite <- Zle_Qle. unfold LutSpec.int8 in *. lia. }
  split; [|exact B].
  pose proof (LutProps.C50_unfuse_activation m ac s z v Ha Hs Hz) as U. unfold LutModel.unfused in U.
  destruct (LutModel.lookup_table m ac s z s z) as [t|] eqn:T; [|discriminate]. injection U as U. rewrite <- U. symmetry.
  apply (table_value m ac s z s z t Hs Hz B T). unfold LutSpec.int8. lia.
Qed.
Lemma position_lt s : forall idx, in_shape s idx -> position_of s idx < nelem s.
Proof. intros idx H. rewrite position_ravel. apply (ravel_lt (A := Z) (fun _ _ => Value [] [0%Z]) (fun _ _ => eq_refl) s idx H). Qed.
Lemma broadcast_in s outs idx : broadcasts s outs -> in_shape outs idx ->
  in_shape s (map2 (fun d i => if d =? 1 then 0 else i) s (skipn (length outs - length s) idx)).
Proof.
  intros (L & B) H. pose proof (in_shape_length _ _ H) as Li. unfold in_shape in *.
  assert (H' : Forall2 (fun i d => i < d) (skipn (length outs - length s) idx) (skipn (length outs - length s) outs)).
  { clear B L. revert outs H Li. intros outs H _. generalize (length outs - length s). intros n. revert n. induction H as [|i d idx outs H F IH]; intros [|n]; cbn [skipn]; [constructor|constructor|constructor; auto|apply IH]. }
  clear H Li. revert B H'. generalize (skipn (length outs - length s) idx) (skipn (length outs - length s) outs). clear L. induction s as [|d s IH]; intros i o B H; inversion B as [|? o1 ? o' B1 B2]; subst; cbn [map2].
  - inversion H; subst. constructor.
  - inversion H as [|i1 ? i' ? H1 H2]; subst. constructor; [|apply (IH i' o'); assumption]. destruct (Nat.eqb_spec d 1) as [->|]; [lia|]. destruct B1; lia.
Qed.
Lemma splat_nth c k : splat_127 c = true -> k < length c -> nth k c 0%Z = 127%Z.
Proof.
  unfold splat_127. rewrite andb_true_iff, forallb_forall. intros [_ H] Hk. specialize (H (nth k c 0%Z) (nth_In _ _ Hk)). lia.
Qed.
Lemma broadcast_ext s outs (u v : tensor Z) idx : (forall i, u i = v i) -> broadcast_to s outs u idx = broadcast_to s outs v idx.
Proof. intros H. unfold broadcast_to, broadcast_t. apply H. Qed.
Lemma integers_bytes t (u : tensor (list Z)) idx : (forall i, in_shape (t_shape t) i -> length (u i) = t_elem t) -> in_shape (t_shape t) idx ->
  integers t (bytes_of (t_shape t) u) idx = signed (u idx).
Proof. intros E H. unfold integers. rewrite int_stored, stored_bytes; auto. Qed.
(** Broadcasting an operand first. *)
Lemma broadcast_first a r x idx : let t' := Ty (t_shape r) (t_elem a) (t_zero a) in in_shape (t_shape r) idx ->
  broadcast_to (t_shape t') (t_shape r) (integers t' (bytes_of (t_shape r) (broadcast_to (t_shape a) (t_shape r) (stored a x)))) idx =
  broadcast_to (t_shape a) (t_shape r) (integers a x) idx.
Proof.
  intros t' H. change (t_shape t') with (t_shape r). rewrite PatternProps.broadcast_id by exact H. change (t_shape r) with (t_shape t').
  rewrite integers_bytes; [|intros i _; exact (stored_elem a x _)|exact H]. unfold broadcast_to, broadcast_t, integers. symmetry. apply int_stored.
Qed.
(** The second operation reads the first result and another operand. *)
Lemma two_gives_binary {okp : fop -> list ty -> ty -> Prop} e o1 args1 t1 d o2 args2 vs2 r vs1 b1 b fresh :
  lookups e args1 = Some vs1 -> okp o1 (map fst vs1) t1 -> sem o1 vs1 t1 = Some b1 -> length b1 = tsize t1 -> lookup e (fresh 0) = None ->
  lookups ((fresh 0, (t1, b1)) :: e) args2 = Some vs2 ->
  okp o2 (map fst vs2) r -> sem o2 vs2 r = Some b -> length b = tsize r -> lookup e d = None -> fresh 0 <> d ->
  gives_with okp e [Instr (fresh 0) o1 args1 t1; Instr d o2 args2 r] d r b fresh.
Proof.
  intros L1 K1 S1 Z1 N1 L2 K2 S2 Z2 N2 Ne. exists ((d, (r, b)) :: (fresh 0, (t1, b1)) :: e). split.
  - eapply exec_cons with (vs := vs1) (b := b1); cbn [i_args i_op i_ty i_dst]; eauto.
    eapply exec_cons with (vs := vs2) (b := b); cbn [i_args i_op i_ty i_dst map fst]; eauto; [|constructor].
    cbn [lookup]. destruct (Nat.eqb_spec d (fresh 0)); [congruence|auto].
  - intros x Hx. cbn [lookup]. destruct (Nat.eqb x d); auto. destruct (Nat.eqb_spec x (fresh 0)) as [->|]; [exfalso; apply (Hx 0); auto|auto].
Qed.

Lemma fuse_sound fresh p tys j i news e vj bj b :
  fuse fresh p tys j i news -> lookups e (i_args j) = Some vj -> map fst vj = tys -> okB (i_op j) tys (i_ty j) -> sem (i_op j) vj (i_ty j) = Some bj ->
  length bj = tsize (i_ty j) -> Forall (fun v => length (snd v) = tsize (fst v)) vj ->
  okB (i_op i) [i_ty j] (i_ty i) -> sem (i_op i) [(i_ty j, bj)] (i_ty i) = Some b -> length b = tsize (i_ty i) -> lookup e (i_dst i) = None ->
  (forall k, lookup e (fresh k) = None) -> (forall k, fresh k <> i_dst i) -> (forall j k, fresh j = fresh k -> j = k) ->
  gives_with okB e news (i_dst i) (i_ty i) b fresh.
Proof.
  intros U L T Kj Sj Zj Fj Ki Si Zi N NF Ne FI.
  destruct U as [a q before after x pr d perm r s0 s1 s2 s3 Hp Hl Hs | a q b1 a1 x pr d b2 a2 r inner outer Sw | tys c axis xs cr d f r Hz | a q cs c x pr d m si zi so zo r Hc | a q c t qq f bi x pr d m r Hn | a q x pr d r];
    cbn [i_op i_dst i_ty i_args] in *.
  - (* hoist *)
    destruct (singleton_types _ _ T) as (ab & ->). inversion Fj as [|? ? F1 _]; subst. cbn [fst snd] in *.
    cbn [op_ok_before op_ok] in Kj, Ki. destruct Kj as (J1 & J2 & J3 & J4). destruct Ki as (I1 & I2 & I3).
    destruct (fits_lengths _ _ _ _ J1) as (L1 & L2 & L3).
    apply perm_0231 in Hp. subst perm. destruct (pads_0011 before after) as [-> ->]; [congruence|exact Hl|].
    rewrite Hs in J1. apply fits4 in J1. rewrite J1 in I2. cbn in I2.
    cbn [sem] in Sj, Si. injection Sj as <-. injection Si as <-.
    set (zr := le_bytes (t_elem a) match t_zero a with Some z => z | None => 0%Z end) in *.
    destruct J3 as [E1 E2]. destruct I3 as [E3 E4].
    eapply two_gives with (vs1 := [(a, ab)]); [exact L| | | | | | | | |]; auto.
    + cbn [map fst op_ok_before op_ok]. rewrite Hs. repeat split; auto.
      rewrite Hs in L3. cbn in L3. rewrite L3 in I1. exact I1.
    + cbn [sem]. reflexivity.
    + unfold tsize; cbn [t_shape t_elem]. apply bytes_of_length. intros idx _. apply (stored_elem a ab).
    + cbn [op_ok_before op_ok t_shape t_elem t_zero]. split; [|split; [|split]].
      * rewrite I2. repeat (constructor; [lia|]). constructor.
      * rewrite Hs in J2. inversion J2 as [|? ? P0 Q0]; subst. inversion Q0 as [|? ? P1 Q1]; subst. inversion Q1 as [|? ? P2 Q2]; subst. inversion Q2 as [|? ? P3 _]; subst. auto.
      * split; [cbn; congruence|cbn; congruence].
      * exact J4.
    + cbn [sem t_shape t_elem t_zero]. f_equal. fold zr. apply bytes_ext. intros idx Hi. rewrite I2 in Hi.
      apply in_shape4 in Hi. destruct Hi as (ia & ib & ic & id & -> & Ha & Hb & Hc & Hd).
      transitivity (pad_t [0; 1; 1; 0] [s0; s2; s3; s1] zr (transpose_t [0; 2; 3; 1] (stored a ab)) [ia; ib; ic; id]).
      * unfold pad_t at 1 2. destruct (inside _ _ _) eqn:Ins; auto.
        set (t' := Ty [s0; s2; s3; s1] (t_elem a) (t_zero a)). change (bytes_of [s0; s2; s3; s1] (transpose_t [0; 2; 3; 1] (stored a ab))) with (bytes_of (t_shape t') (transpose_t [0; 2; 3; 1] (stored a ab))).
        rewrite stored_bytes; [reflexivity|intros y _; apply (stored_elem a ab)|].
        cbn [map2]. apply in4; cbn [inside] in Ins; lia.
      * rewrite <- hoisted by lia. unfold transpose_t at 1 2. cbn [length seq map position Nat.eqb nth].
        rewrite stored_bytes; [rewrite Hs; reflexivity| |rewrite J1; apply in4; lia].
        intros y _. rewrite E1. apply pad_elem; [apply le_bytes_length|intros z; apply stored_elem].
  - (* pads *)
    destruct (singleton_types _ _ T) as (ab & ->). inversion Fj as [|? ? F1 _]; subst. cbn [fst snd] in *.
    cbn [op_ok_before op_ok] in Kj, Ki. destruct Kj as (J1 & J2 & J3 & J4). destruct Ki as (I1 & I2 & I3 & I4).
    destruct (fits_lengths _ _ _ _ J1) as (L1 & L2 & L3). destruct (fits_lengths _ _ _ _ I1) as (M1 & M2 & M3).
    assert (L8 : length (pad_attr b1 a1) = 8 /\ length (pad_attr b2 a2) = 8).
    { unfold PatternModel.swap_pads, PatternModel.has_only_spatial_padding, PatternModel.has_only_channel_padding in Sw.
      destruct (Nat.eqb_spec (length (pad_attr b1 a1)) 8); [|discriminate]. destruct (Nat.eqb_spec (length (pad_attr b2 a2)) 8); [auto|].
      cbn [negb] in Sw. rewrite andb_false_r in Sw. discriminate. }
    destruct L8 as [L8 M8]. destruct (attr4 b1 a1 L8 ltac:(congruence)) as [B1 A1]. destruct (attr4 b2 a2 M8 ltac:(congruence)) as [B2 A2].
    assert (La : length (t_shape a) = 4) by (rewrite <- L1, <- B1; reflexivity).
    assert (J1' : pad_fits (PatternProps.befores (pad_attr b1 a1)) (PatternProps.afters (pad_attr b1 a1)) (t_shape pr) (t_shape a)) by (rewrite B1, A1; exact J1).
    assert (I1' : pad_fits (PatternProps.befores (pad_attr b2 a2)) (PatternProps.afters (pad_attr b2 a2)) (t_shape r) (t_shape pr)) by (rewrite B2, A2; exact I1).
    clear J1 I1. apply fits_padded in J1'; [|exact La]. apply fits_padded in I1'; [|congruence]. rename J1' into J1, I1' into I1.
    destruct (t_shape a) as [|n [|h [|w [|c [|? ?]]]]] eqn:Sa; try discriminate.
    assert (Pos : forall b a0, Forall (fun v => 0 <= v)%Z (pad_attr b a0)).
    { intros bb aa. unfold pad_attr. apply Forall_flat_map, Forall_forall. intros pp _. repeat (constructor; [lia|]). constructor. }
    cbn [sem] in Sj, Si. injection Sj as <-. injection Si as <-.
    set (zr := le_bytes (t_elem a) match t_zero a with Some z => z | None => 0%Z end) in *.
    destruct (PatternProps.C38_swap_pads (list Z) zr (pad_attr b1 a1) (pad_attr b2 a2) inner outer n h w c Sw (Pos _ _) (Pos _ _)) as (W1 & W2 & W3).
    rewrite <- J1, <- I1 in W1, W2. rewrite <- J1, <- I1 in W3.
    change (attr_before inner) with (PatternProps.befores inner). change (attr_before outer) with (PatternProps.befores outer).
    change (attr_after inner) with (PatternProps.afters inner). change (attr_after outer) with (PatternProps.afters outer).
    destruct J3 as [E1 E2]. destruct I3 as [E3 E4].
    set (t' := Ty (PatternModel.pad_channel_output_type [n; h; w; c] (t_shape r)) (t_elem a) (t_zero a)).
    assert (St : t_shape t' = PatternProps.padded inner [n; h; w; c]) by (symmetry; exact W1).
    assert (P4 : forall A s, length s = 4 -> length (PatternProps.padded A s) = 4).
    { intros A s Ls. do 4 (destruct s as [|? s]; [discriminate|]). destruct s; [reflexivity|discriminate]. }
    eapply two_gives with (vs1 := [(a, ab)]); [exact L| | | | | | | | |]; auto.
    + cbn [map fst op_ok_before op_ok]. rewrite Sa. fold t'. split; [|split; [|split]]; auto.
      * apply fits_padded; [reflexivity|]. exact St.
      * split; reflexivity.
    + cbn [sem]. rewrite Sa. reflexivity.
    + rewrite ?Sa. fold t'. unfold tsize. apply bytes_of_length. intros idx _. apply pad_elem; [apply le_bytes_length|intros z; apply (stored_elem a ab)].
    + rewrite ?Sa. fold t'. cbn [op_ok_before op_ok]. split; [|split; [|split]].
      * apply fits_padded; [rewrite St; apply P4; reflexivity|]. rewrite St, W2. reflexivity.
      * rewrite St. clear - J2. unfold PatternProps.padded, PatternProps.befores, PatternProps.afters. cbn [map map2].
        inversion J2 as [|? ? P0 Q0]; subst. inversion Q0 as [|? ? P1 Q1]; subst. inversion Q1 as [|? ? P2 Q2]; subst. inversion Q2 as [|? ? P3 _]; subst.
        repeat (constructor; [lia|]). constructor.
      * split; cbn; congruence.
      * exact J4.
    + rewrite ?Sa. fold t'. cbn [sem]. change (t_elem t') with (t_elem a). change (t_zero t') with (t_zero a). fold zr. f_equal.
      rewrite E1, E2. fold zr. apply bytes_ext. intros idx Hi.
      pose proof (W3 (stored a ab) idx Hi) as W. rewrite B1, B2 in W.
      transitivity (pad_t (PatternProps.befores outer) (PatternProps.padded inner [n; h; w; c]) zr (pad_t (PatternProps.befores inner) [n; h; w; c] zr (stored a ab)) idx).
      * unfold pad_t at 1 3. rewrite St. destruct (inside _ _ idx) eqn:Ins; auto. rewrite <- St.
        apply stored_bytes; [intros y _; apply pad_elem; [apply le_bytes_length|intros z; apply (stored_elem a ab)]|].
        apply in_shape_length in Hi. apply inside_in; [rewrite St; exact Ins|rewrite St; symmetry; apply P4; reflexivity|].
        rewrite Hi, I1, St, !P4; auto.
      * rewrite W. unfold pad_t at 1 3. destruct (inside b2 (t_shape pr) idx) eqn:Ins; auto. symmetry.
        apply stored_bytes; [intros y _; rewrite E1; apply pad_elem; [apply le_bytes_length|intros z; apply (stored_elem a ab)]|].
        apply inside_in; auto. apply in_shape_length in Hi. congruence.
  - (* quantise *)
    subst tys. cbn [op_ok_before op_ok] in Kj, Ki. destruct Kj as (pre & post & ds & K1 & K2 & K3 & K4). destruct Ki as (I1 & I2).
    assert (Ez : Forall (fun v => t_elem (fst v) = t_elem cr) vj) by (rewrite Forall_map in K4; exact K4).
    destruct (quantisers_exec fresh FI f r (t_elem cr) xs vj 0 e L Ez I2 (fun k _ => NF k)) as (e' & E & O & Lk).
    set (vs' := map (fun v => (Ty (t_shape (fst v)) (t_elem r) (t_zero r), bytes_of (t_shape (fst v)) (fun idx => f (stored (fst v) (snd v) idx)))) vj) in *.
    cbn [sem] in Sj, Si. injection Sj as <-. injection Si as <-.
    assert (Er : Ty (t_shape cr) (t_elem r) (t_zero r) = r) by (destruct r as [sr er zr]; cbn in I1 |- *; congruence).
    rewrite Er.
    destruct (parts_shapes pre post vj ds K2) as [E1 E2].
    assert (Q2 : Forall2 (fun v v' => exists d, t_shape (fst v) = pre ++ d :: post /\ t_shape (fst v') = pre ++ d :: post /\
             forall i, in_shape (pre ++ d :: post) i -> stored (fst v') (snd v') i = f (stored (fst v) (snd v) i)) vj vs').
    { unfold vs'. clear - K2 I2 Ez. revert ds K2. induction Ez as [|v vj Ev Ez IH]; intros [|d ds] K2; cbn [map] in *; try discriminate; constructor.
      - exists d. injection K2 as K2 _. cbn [fst snd t_shape]. repeat split; auto. intros i Hi. rewrite <- K2 in Hi.
        set (t' := Ty (t_shape (fst v)) (t_elem r) (t_zero r)). change (t_shape (fst v)) with (t_shape t') at 1.
        apply stored_bytes; [|exact Hi]. intros y _. apply I2. rewrite <- Ev. apply stored_elem.
      - injection K2 as _ K2. eapply IH. exact K2. }
    assert (S2 : sum_n (map (fun v => nth (length pre) (t_shape (fst v)) 0) vj) = sum_n ds).
    { f_equal. rewrite <- E2. unfold parts_of. rewrite map_map. reflexivity. }
    assert (Sr : t_shape r = pre ++ sum_n ds :: post) by congruence.
    pose proof (axis_normal axis pre post (sum_n ds) K1) as AX.
    assert (SE : sem (TConcat axis) vs' r = Some (bytes_of (t_shape r) (fun idx => f (stored cr (bytes_of (t_shape cr)
        (concat_t (repeat 0%Z (t_elem cr)) (normal_axis axis (length (t_shape cr))) (map (fun v => (nth (normal_axis axis (length (t_shape cr))) (t_shape (fst v)) 0, stored (fst v) (snd v))) vj))) idx)))).
    { cbn [sem]. f_equal. apply bytes_ext. intros idx Hi. rewrite stored_bytes.
      - rewrite K3, Sr, AX. fold (parts_of (length pre) vs'). fold (parts_of (length pre) vj). apply (concat_quantised f _ _ pre post vj vs' Q2). rewrite S2, <- Sr. exact Hi.
      - intros y _. apply concat_part_length; [|apply repeat_length]. intros pp z Hp. apply in_map_iff in Hp. destruct Hp as (v & <- & Hv). cbn [snd].
        rewrite stored_elem. rewrite Forall_forall in Ez. apply Ez; auto.
      - rewrite <- I1. exact Hi. }
    exists ((d, (r, bytes_of (t_shape r) (fun idx => f (stored cr (bytes_of (t_shape cr)
        (concat_t (repeat 0%Z (t_elem cr)) (normal_axis axis (length (t_shape cr))) (map (fun v => (nth (normal_axis axis (length (t_shape cr))) (t_shape (fst v)) 0, stored (fst v) (snd v))) vj))) idx)))) :: e').
    split.
    + apply exec_app. exists e'. split; [exact E|].
      eapply exec_cons with (vs := vs'); cbn [i_args i_op i_ty i_dst]; [exact Lk| |exact SE|exact Zi| |constructor].
      * cbn [op_ok_before op_ok]. exists pre, post, ds. split; [exact K1|]. split; [|split].
        -- rewrite <- K2. unfold vs'. rewrite !map_map. reflexivity.
        -- exact Sr.
        -- rewrite Forall_map. unfold vs'. rewrite Forall_map. apply Forall_forall. reflexivity.
      * rewrite O; [exact N|]. intros k _ Q. apply (Ne k). symmetry. exact Q.
    + intros y Hy. cbn [lookup]. destruct (Nat.eqb y d); [reflexivity|]. apply O. intros k _. apply Hy.
  - (* minimum *)
    destruct (singleton_types _ _ T) as (ab & ->). inversion Fj as [|? ? F1 _]; subst. cbn [fst snd] in *.
    cbn [op_ok_before op_ok map fst] in Kj, Ki. destruct Kj as (J1 & J2 & (J3 & J4) & J5 & J6 & J7).
    cbn [compute_ok] in Ki. destruct Ki as (I1 & I2 & I3 & I4 & I5 & I6).
    assert (Eb : bj = map (fun k => (int_at 1 ab k mod 256)%Z) (seq 0 (length ab))).
    { cbn [sem] in Sj. injection Sj as <-. rewrite J3, J2.
      transitivity (bytes_of (t_shape pr) (fun idx => le_bytes 1 (integers a ab idx))).
      - apply bytes_ext. intros idx Hi. f_equal.
        assert (E127 : broadcast_to cs (t_shape pr) (fun i => nth (position_of cs i) c 0%Z) idx = 127%Z).
        { unfold broadcast_to, broadcast_t. apply splat_nth; [exact Hc|]. rewrite J5. apply position_lt. apply broadcast_in; assumption. }
        rewrite E127. unfold integers. rewrite J2. pose proof (int_at_int8 ab (position_of (t_shape a) idx)) as H8. unfold LutSpec.int8 in H8. lia.
      - rewrite bytes_of_one. assert (Ll : length ab = nelem (t_shape pr)) by (rewrite F1; unfold tsize; rewrite J2, J1; lia). rewrite Ll.
        apply map_ext_in. intros k Hk. apply in_seq in Hk. do 2 f_equal. unfold integers. rewrite J2, <- J1. rewrite position_ravel, ravel_unravel by lia. reflexivity. }
    eapply single_gives with (vs := [(a, ab)]); [exact L| | |exact Zi|exact N].
    + cbn [map fst op_ok_before op_ok compute_ok]. repeat (split; [first [assumption | congruence]|]). assumption.
    + cbn [sem map snd sem_compute] in *. rewrite <- Si. f_equal. rewrite Eb, map_length, seq_length. apply map_ext_in. intros k Hk. apply in_seq in Hk.
      rewrite (int_at_one (map _ _)), nth_map_seq by lia. cbv zeta. rewrite Z.mod_mod by lia. rewrite signed8_of; [reflexivity|]. apply int_at_int8.
  - (* relu of a convolution *)
    destruct (singleton_types _ _ T) as (ab & ->). inversion Fj as [|? ? F1 _]; subst. cbn [fst snd] in *.
    cbn [op_ok_before op_ok map fst] in Kj, Ki. destruct Kj as (CF & RD & Sa & Sp & Ea & Ep).
    cbn [compute_ok] in Ki. destruct Ki as (I1 & I2 & I3 & I4 & I5 & I6).
    assert (N16 : ConvLowerModel.c_i16 c = false) by (destruct (ConvLowerModel.c_i16 c); [cbn [elems] in Ep; congruence|reflexivity]).
    eapply single_gives with (vs := [(a, ab)]); [exact L| | |exact Zi|exact N].
    + cbn [map fst op_ok_before]. split; [|rewrite I3, I5, N16 in *; cbn [elems] in *; auto 6].
      unfold conv_fits in *. rewrite N16 in *. cbn [negb andb ConvLowerModel.with_faf ConvLowerModel.at_faf] in *.
      destruct (ConvLowerModel.c_in c) as [[h w] dd], (ConvLowerModel.c_out c) as [[oh ow] od], (ConvLowerModel.c_filter c) as [[fh fw] fd], (ConvLowerModel.c_stride c) as [sh sw], (ConvLowerModel.c_dilation c) as [dh dw].
      destruct CF as (C1 & C2 & C3 & C4 & C5 & C6 & C7 & C8 & C9 & C10 & C11 & C12). repeat (split; [assumption|]). split; [|auto].
      unfold ConvRunSpec.activation_kept. right; left. auto.
    + cbn [sem map snd] in *. rewrite <- Si. cbn [sem_compute] in Sj |- *. unfold conv_fits in CF. destruct c as [i16 [[h w] dd] [[oh ow] od] [[fh fw] fd] pd pv [sh sw] [dh dw] zx].
      cbn [ConvLowerModel.c_in ConvLowerModel.c_out ConvLowerModel.c_filter ConvLowerModel.c_stride ConvLowerModel.c_dilation ConvLowerModel.c_padding ConvLowerModel.c_padding_values ConvLowerModel.c_i16 ConvLowerModel.c_in_zp] in *.
      subst i16. cbn [elems] in *. match type of Sj with Some ?v = Some _ => assert (Eb : bj = v) by congruence end. rewrite Eb. f_equal. rewrite result_length, Nat.mul_1_r, !result_one. symmetry.
      apply map_ext_in. intros k Hk. apply in_seq in Hk. rewrite int_at_one, nth_map_seq by lia. cbv zeta.
      destruct (unravel_of (Z.to_nat oh) (Z.to_nat ow) (Z.to_nat od) k) as (y & xx & o & ->).
      set (cv := ConvLowerModel.mk_conv false (h, w, dd) (oh, ow, od) (fh, fw, fd) pd pv (sh, sw) (dh, dw) zx) in *. unfold conv_result.
      cbn [cv ConvLowerModel.c_in ConvLowerModel.c_out ConvLowerModel.c_filter ConvLowerModel.c_stride ConvLowerModel.c_dilation ConvLowerModel.c_padding ConvLowerModel.c_padding_values ConvLowerModel.c_in_zp ConvLowerModel.with_faf ConvLowerModel.at_faf].
      set (acc := q_scale qq (Z.of_nat o) _). rewrite Hn. unfold ConvRunSpec.tflite_value. cbn [ConvLowerSpec.activation_range fst snd].
      destruct CF as (C1 & C2 & C3 & C4 & C5 & C6 & C7 & C8 & C9 & C10 & C11 & C12). destruct (C8 eq_refl) as (L8 & H8 & _). destruct C9 as (_ & Q1 & _).
      rewrite Z.mod_mod by lia. rewrite signed8_of by (unfold ConvLowerSpec.clampZ; lia). rewrite act_relu; auto.
      * f_equal. unfold ConvLowerSpec.clampZ. lia.
      * unfold LutSpec.int8, ConvLowerSpec.clampZ. lia.
  - (* reshape *)
    destruct (singleton_types _ _ T) as (ab & ->). cbn [sem] in Sj, Si. injection Sj as <-. injection Si as <-.
    cbn [op_ok_before op_ok fst map] in Kj, Ki. destruct Kj as (J1 & J2 & J3). destruct Ki as (I1 & I2 & I3).
    eapply single_gives with (vs := [(a, ab)]); [exact L| |reflexivity|exact Zi|exact N]. cbn [map fst op_ok_before op_ok]. unfold same_elem. repeat split; congruence.
Qed.

Lemma expand_sound fresh p tys i news e vs b :
  expand fresh p tys i news -> lookups e (i_args i) = Some vs -> map fst vs = tys -> okB (i_op i) tys (i_ty i) -> sem (i_op i) vs (i_ty i) = Some b ->
  length b = tsize (i_ty i) -> Forall (fun v => length (snd v) = tsize (fst v)) vs -> lookup e (i_dst i) = None ->
  (forall k, lookup e (fresh k) = None) -> (forall k, fresh k <> i_dst i) ->
  gives_with okB e news (i_dst i) (i_ty i) b fresh.
Proof.
  intros X L T K Sm Zl F N NF Ne.
  assert (G : forall dw c t q f bi a args r d, is_same (ConvLowerModel.c_padding c) = true -> tys = [a] -> i = Instr d (TCompute (conv_op dw c t q f bi)) args r ->
    gives_with okB e [Instr (fresh 0) (same_pad_op c) args (Ty (same_pad_shape c (t_shape a)) (t_elem a) (t_zero a));
       Instr d (TCompute (conv_op dw (valid_conv c) (valid_attr t) q f bi)) [fresh 0] r] d r b fresh).
  { intros dw c t q f bi a args r d IS -> ->. cbn [i_op i_dst i_ty i_args] in *. destruct (singleton_types _ _ T) as (ab & ->).
    destruct (same_conv dw c t q f bi a r ab K IS) as (O1 & O2 & b' & S1 & S2).
    destruct (before_total (same_pad_op c) [(a, ab)] _ O1 F) as (b2 & S3 & Z3). rewrite S1 in S3. injection S3 as <-.
    eapply two_gives; eauto. cbn [sem map snd] in *. rewrite S2. exact Sm. }
  destruct X as [a d c t q f bi args r IS | a d c t q f bi args r IS I8 | a1 a2 d f ac s z args r m | a1 a2 d f faf s z x1 x2 r US | a1 a2 d f faf s z x1 x2 r US]; cbn [i_dst i_ty].
  - apply (G false c t q f bi a args r d); auto.
  - apply (G true c t q f bi a args r d); auto.
  - (* unfuse *)
    clear G. cbn [i_op i_dst i_ty i_args] in *. destruct vs as [|(a & x) [|(a' & y) [|? ?]]]; try discriminate T. injection T as -> ->.
    cbn [op_ok_before op_ok] in K. destruct K as (K1 & K2 & K3 & K4 & K5 & K6 & K7 & K8).
    assert (E1 : t_elem r = 1) by (destruct K1 as [E|[_ E]]; [exact E|discriminate E]). specialize (K7 E1). specialize (K8 ac eq_refl).
    destruct (act_fused m ac s z 0%Z K8 K6 K7) as [_ B].
    cbn [sem] in Sm. injection Sm as <-. rewrite E1 in *.
    eapply two_gives with (vs1 := [(a1, x); (a2, y)]); [exact L| | | | | | | | |]; auto.
    + cbn [map fst op_ok_before op_ok]. rewrite E1. repeat (split; [auto|]). intros ? [=].
    + cbn [sem]. reflexivity.
    + unfold tsize. apply bytes_of_length. intros idx _. apply le_bytes_length.
    + cbn [op_ok_before op_ok compute_ok]. repeat (split; [auto|]). exact B.
    + cbn [sem map snd sem_compute]. f_equal. rewrite E1.
      match goal with |- map _ (seq 0 (length ?bb)) = _ => assert (Lb : length bb = nelem (t_shape r)) by (rewrite (bytes_of_length 1); [lia|intros; apply le_bytes_length]) end.
      rewrite Lb. symmetry. etransitivity; [apply bytes_of_one|]. symmetry. apply map_ext_in. intros k Hk. apply in_seq in Hk.
      rewrite bytes_int8; [|intros idx; unfold stored_value, LutSpec.int8; change (2 ^ (8 * Z.of_nat 1 - 1))%Z with 128%Z; lia|lia].
      f_equal. unfold stored_value at 1. change (2 ^ (8 * Z.of_nat 1 - 1))%Z with 128%Z. change (128 - 1)%Z with 127%Z. change (- (128))%Z with (-128)%Z.
      apply act_fused; assumption.
  - (* broadcast the first operand *)
    clear G. cbn [i_op i_dst i_ty i_args] in *. destruct vs as [|(a & x) [|(a' & y) [|? ?]]]; try discriminate T. injection T as -> ->.
    cbn [op_ok_before op_ok] in K. destruct K as (K1 & K2 & K3 & K4 & K5 & K6 & K7 & K8). 
    cbn [lookups] in L. destruct (lookup e x1) as [v1|] eqn:L1; [|discriminate]. destruct (lookup e x2) as [v2|] eqn:L2; [|discriminate]. injection L as -> ->.
    assert (N2 : x2 <> fresh 0) by (intros ->; rewrite NF in L2; discriminate).
    set (t' := Ty (t_shape r) (t_elem a1) (t_zero a1)).
    eapply two_gives_binary with (vs1 := [(a1, x)]) (b1 := bytes_of (t_shape r) (broadcast_to (t_shape a1) (t_shape r) (stored a1 x))) (vs2 := [(t', _); (a2, y)]); auto.
    + cbn [lookups]. rewrite L1. reflexivity.
    + cbn [map fst op_ok_before op_ok t' t_shape t_elem t_zero]. split; [assumption|]. split; reflexivity.
    + unfold tsize, t'. cbn [t_shape t_elem]. apply bytes_of_length. intros idx _. apply (stored_elem a1 x).
    + cbn [lookups lookup]. rewrite Nat.eqb_refl. destruct (Nat.eqb_spec x2 (fresh 0)); [contradiction|]. rewrite L2. reflexivity.
    + cbn [map fst op_ok_before op_ok]. change (t_elem t') with (t_elem a1). change (t_shape t') with (t_shape r). repeat (split; [auto|]). exact K8.
    + rewrite <- Sm. cbn [sem]. f_equal. apply bytes_ext. intros idx Hi. do 3 f_equal. apply (broadcast_first a1 r x idx Hi).
  - (* broadcast the second operand *)
    clear G. cbn [i_op i_dst i_ty i_args] in *. destruct vs as [|(a & x) [|(a' & y) [|? ?]]]; try discriminate T. injection T as -> ->.
    cbn [op_ok_before op_ok] in K. destruct K as (K1 & K2 & K3 & K4 & K5 & K6 & K7 & K8). 
    cbn [lookups] in L. destruct (lookup e x1) as [v1|] eqn:L1; [|discriminate]. destruct (lookup e x2) as [v2|] eqn:L2; [|discriminate]. injection L as -> ->.
    assert (N2 : x1 <> fresh 0) by (intros ->; rewrite NF in L1; discriminate).
    set (t' := Ty (t_shape r) (t_elem a2) (t_zero a2)).
    eapply two_gives_binary with (vs1 := [(a2, y)]) (b1 := bytes_of (t_shape r) (broadcast_to (t_shape a2) (t_shape r) (stored a2 y))) (vs2 := [(a1, x); (t', _)]); auto.
    + cbn [lookups]. rewrite L2. reflexivity.
    + cbn [map fst op_ok_before op_ok t' t_shape t_elem t_zero]. split; [assumption|]. split; reflexivity.
    + unfold tsize, t'. cbn [t_shape t_elem]. apply bytes_of_length. intros idx _. apply (stored_elem a2 y).
    + cbn [lookups lookup]. rewrite Nat.eqb_refl. destruct (Nat.eqb_spec x1 (fresh 0)); [contradiction|]. rewrite L1. reflexivity.
    + cbn [map fst op_ok_before op_ok]. change (t_elem t') with (t_elem a2). change (t_shape t') with (t_shape r). repeat (split; [auto|]). exact K8.
    + rewrite <- Sm. cbn [sem]. f_equal. apply bytes_ext. intros idx Hi. do 3 f_equal. apply (broadcast_first a2 r y idx Hi).
Qed.

Lemma cancels_sound p j i vj bj b a ab :
  cancels p j i -> vj = [(a, ab)] -> length ab = tsize a -> okB (i_op j) [a] (i_ty j) -> sem (i_op j) vj (i_ty j) = Some bj ->
  okB (i_op i) [i_ty j] (i_ty i) -> sem (i_op i) [(i_ty j, bj)] (i_ty i) = Some b -> i_ty i = a /\ b = ab /\ i_args i = [i_dst j].
Proof.
  intros C -> La Kj Sj Ki Si. destruct C as [q perm1 x pr d perm0 r C]. cbn [i_op i_dst i_ty i_args] in *.
  cbn [sem op_ok_before op_ok] in *. injection Sj as <-. injection Si as <-. destruct Kj as (P1 & S1 & E1 & Z1). destruct Ki as (P0 & S0 & E0 & Z0).
  destruct (cancelled a pr perm0 perm1 ab C La P1 S1 E1 P0) as [Q1 Q2]. rewrite S0, Q2.
  split; [apply same_ty; [congruence|split; congruence]|auto].
Qed.
