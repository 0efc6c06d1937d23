(** Soundness of the patterns of the passes before the lowering (C88). *)
From Coq Require Import Permutation.
From Verif Require Import Base NdSpec NdBase LowerSpec BroadcastProofs ConcatProofs LowerProps TransposeSpec TransposeProofs FunOpsSpec FunOpsProofs FunModel FunSpec FunProofs FunProofs2.
From Verif Require Import FunOptModel FunOptSpec.
From Verif Require PatternModel PatternProps ConvSpec ConvLowerSpec ConvRunSpec ConvLowerModel ConvLowerProps ConvGeomModel ConvGeomSpec ConvGeomProofs TransposeModel.
Local Open Scope nat_scope.

(** ** Tensors that were stored *)
Lemma concat_block k (l : list (list Z)) : forall q, (forall x, In x l -> length x = k) -> q < length l ->
  map (fun j => nth (q * k + j) (concat l) 0%Z) (seq 0 k) = nth q l [].
Proof.
  induction l as [|x l IH]; intros q Hl Hq; [cbn in Hq; lia|]. cbn [concat]. pose proof (Hl x (or_introl eq_refl)) as Hx.
  destruct q as [|q]; cbn [nth].
  - cbn [Nat.mul Nat.add]. transitivity (map (fun k => nth k x 0%Z) (seq 0 (length x))); [|apply nth_seq_map]. rewrite Hx. apply map_ext_in. intros j Hj. apply in_seq in Hj. rewrite app_nth1; auto. lia.
  - rewrite <- IH; [|intros y Hy; apply Hl; right; auto|cbn in Hq; lia]. apply map_ext. intros j.
    rewrite app_nth2 by (rewrite Hx; cbn; lia). f_equal. rewrite Hx. cbn. lia.
Qed.
Lemma stored_bytes t (u : tensor (list Z)) idx : (forall i, in_shape (t_shape t) i -> length (u i) = t_elem t) -> in_shape (t_shape t) idx ->
  stored t (bytes_of (t_shape t) u) idx = u idx.
Proof.
  intros Eu Hin. unfold stored. rewrite position_ravel.
  pose proof (nth_flatten ([] : list Z) (fun _ _ => Value [] [[]]) (fun _ _ => eq_refl) (t_shape t) u idx Hin) as Hn.
  pose proof (ravel_lt (A := Z) (fun _ _ => Value [] [0%Z]) (fun _ _ => eq_refl) (t_shape t) idx Hin) as Hr.
  unfold bytes_of. rewrite concat_block; [exact Hn| |rewrite flatten_length; auto].
  intros x Hx. pose proof (flatten_forall (fun x => length x = t_elem t) (t_shape t) u Eu) as Fa. rewrite Forall_forall in Fa. auto.
Qed.
Lemma bytes_ext s (u v : tensor (list Z)) : (forall i, in_shape s i -> u i = v i) -> bytes_of s u = bytes_of s v.
Proof. intros H. unfold bytes_of. f_equal. apply flatten_ext_in. auto. Qed.
Lemma pad_elem before s z k (u : tensor (list Z)) idx : length z = k -> (forall i, length (u i) = k) -> length (pad_t before s z u idx) = k.
Proof. intros Hz Hu. unfold pad_t. destruct (inside _ _ _); auto. Qed.

(** ** Transposes *)
Lemma perm_0231 perm : TransposeModel.perm_is_0231 (zshape perm) = true -> perm = [0; 2; 3; 1].
Proof. intros H. apply nats_0231 in H. apply zshape_inj. exact H. Qed.
Lemma pads_0011 before after : length before = length after -> TransposeModel.pads_last_two (combine (zshape before) (zshape after)) = true ->
  before = [0; 0; 1; 1] /\ after = [0; 0; 1; 1].
Proof.
  intros L H. apply nats_pads in H.
  do 4 (destruct before as [|? before]; destruct after as [|? after]; try discriminate). cbn in H.
  destruct before, after; try discriminate. injection H as H1 H2 H3 H4 H5 H6 H7 H8. split; repeat (apply f_equal2; [lia|]); reflexivity.
Qed.
Lemma fits_lengths before after outs ins : pad_fits before after outs ins -> length before = length ins /\ length after = length ins /\ length outs = length ins.
Proof. induction 1 as [|b e o d before after outs ins E H (H1 & H2 & H3)]; cbn; auto. Qed.
Lemma fits4 b0 b1 b2 b3 a0 a1 a2 a3 outs s0 s1 s2 s3 : pad_fits [b0; b1; b2; b3] [a0; a1; a2; a3] outs [s0; s1; s2; s3] ->
  outs = [b0 + s0 + a0; b1 + s1 + a1; b2 + s2 + a2; b3 + s3 + a3].
Proof.
  intros H. inversion H as [|? ? o0 ? ? ? t0 ? -> H0]; subst. inversion H0 as [|? ? o1 ? ? ? t1 ? -> H1]; subst. inversion H1 as [|? ? o2 ? ? ? t2 ? -> H2]; subst.
  inversion H2 as [|? ? o3 ? ? ? t3 ? -> H3]; subst. inversion H3; subst. auto.
Qed.
Lemma in_shape4 s0 s1 s2 s3 idx : in_shape [s0; s1; s2; s3] idx -> exists a b c d, idx = [a; b; c; d] /\ a < s0 /\ b < s1 /\ c < s2 /\ d < s3.
Proof.
  intros H. inversion H as [|a ? la ? H0 F0]; subst. inversion F0 as [|b ? lb ? H1 F1]; subst. inversion F1 as [|c ? lc ? H2 F2]; subst.
  inversion F2 as [|d ? ld ? H3 F3]; subst. inversion F3; subst. exists a, b, c, d. auto.
Qed.
Lemma in4 s0 s1 s2 s3 a b c d : a < s0 -> b < s1 -> c < s2 -> d < s3 -> in_shape [s0; s1; s2; s3] [a; b; c; d].
Proof. intros. repeat constructor; auto. Qed.

Lemma hoisted s0 s1 s2 s3 (z : list Z) (u : tensor (list Z)) a b c d : d < s1 -> a < s0 -> b < 1 + s2 + 1 -> c < 1 + s3 + 1 ->
  transpose_t [0; 2; 3; 1] (pad_t [0; 0; 1; 1] [s0; s1; s2; s3] z u) [a; b; c; d] =
  pad_t [0; 1; 1; 0] [s0; s2; s3; s1] z (transpose_t [0; 2; 3; 1] u) [a; b; c; d].
Proof.
  intros. unfold transpose_t, pad_t. cbn [length seq map position Nat.eqb nth inside map2].
  replace ((0 <=? a) && (a <? 0 + s0) && ((0 <=? d) && (d <? 0 + s1) && ((1 <=? b) && (b <? 1 + s2) && ((1 <=? c) && (c <? 1 + s3) && true))))
    with ((0 <=? a) && (a <? 0 + s0) && ((1 <=? b) && (b <? 1 + s2) && ((1 <=? c) && (c <? 1 + s3) && ((0 <=? d) && (d <? 0 + s1) && true)))) by lia.
  reflexivity.
Qed.


(** Two transposes that cancel. *)
Lemma cancelled a p perm0 perm1 ab : TransposeModel.are_cancellable (zshape perm0) (zshape perm1) = true -> length ab = tsize a ->
  Permutation perm1 (seq 0 (length (t_shape a))) -> t_shape p = permute perm1 (t_shape a) -> t_elem p = t_elem a -> Permutation perm0 (seq 0 (length (t_shape p))) ->
  permute perm0 (t_shape p) = t_shape a /\
  bytes_of (permute perm0 (t_shape p)) (transpose_t perm0 (stored p (bytes_of (t_shape p) (transpose_t perm1 (stored a ab))))) = ab.
Proof.
  intros C Lb P1 Sp Ep P0.
  assert (LO : length (t_shape p) = length (t_shape a)) by (rewrite Sp; unfold permute; rewrite map_length, (Permutation_length P1); apply seq_length).
  rewrite LO in P0.
  assert (Cn : forall i, i < length (t_shape a) -> nth (nth i perm1 0) perm0 0 = i).
  { intros i Hi. unfold TransposeModel.are_cancellable in C. rewrite !andb_true_iff in C. destruct C as [_ C]. rewrite forallb_forall in C.
    pose proof (Permutation_length P0) as L0. pose proof (Permutation_length P1) as L1. rewrite seq_length in *.
    unfold zshape in C. rewrite !map_length in C. specialize (C i ltac:(apply in_seq; lia)). apply Z.eqb_eq in C.
    rewrite (nth_indep (map Z.of_nat perm1) (-1)%Z (Z.of_nat 0)) in C by (rewrite map_length; lia). rewrite map_nth, Nat2Z.id in C.
    destruct (Nat.lt_ge_cases (nth i perm1 0) (length perm0)) as [H|H].
    - rewrite (nth_indep _ (-1)%Z (Z.of_nat 0)) in C by (rewrite map_length; lia). rewrite map_nth in C. lia.
    - rewrite nth_overflow in C by (rewrite map_length; auto). lia. }
  set (zero := [] : list Z). set (op := fun (_ : nat) (_ : list (value (A := list Z))) => Value [] [zero]). assert (W : forall n l, wf (op n l)) by (intros; reflexivity).
  set (v := value_of (t_shape a) (stored a ab)).
  pose proof (transpose_cancel zero op W perm0 perm1 v (value_of_wf (t_shape a) (stored a ab)) P1 P0 Cn) as T.
  pose proof (f_equal vshape T) as T1. pose proof (f_equal vdata T) as T2. unfold transpose_v, value_of, v in T1, T2. cbn [vshape vdata value_of] in T1, T2.
  rewrite <- Sp in T1, T2. split; [exact T1|].
  rewrite T1. etransitivity; [|apply (bytes_stored a ab Lb)]. unfold bytes_of. f_equal. rewrite <- T2, T1. apply flatten_ext_in. intros idx Hi.
  rewrite <- T1 in Hi. unfold transpose_t. fold (tidx perm0 idx).
  assert (T0 : in_shape (t_shape p) (tidx perm0 idx)) by (apply (tidx_in op W); [rewrite LO; exact P0|exact Hi]).
  assert (Tp : in_shape (t_shape a) (tidx perm1 (tidx perm0 idx))) by (apply (tidx_in op W); [exact P1|rewrite <- Sp; exact T0]).
  change (concat (flatten (t_shape p) ?u)) with (bytes_of (t_shape p) u).
  rewrite stored_bytes; [|intros i _; rewrite Ep; apply stored_elem|exact T0].
  change (Value (t_shape p) (flatten (t_shape p) ?u)) with (value_of (t_shape p) u).
  rewrite (tensor_of_value_of zero op W) by exact T0.
  fold (tidx perm1 (tidx perm0 idx)). symmetry. apply (tensor_of_value_of zero op W (t_shape a) (stored a ab)). exact Tp.
Qed.

(** ** Concatenations *)
Lemma in_mid pre n post idx : in_shape (pre ++ n :: post) idx <-> exists u i w, idx = u ++ i :: w /\ in_shape pre u /\ i < n /\ in_shape post w.
Proof.
  unfold in_shape. split.
  - intros H. apply Forall2_app_inv_r in H. destruct H as (u & l & H1 & H2 & ->). inversion H2 as [|i ? w ? Hi Hw]; subst. exists u, i, w. auto.
  - intros (u & i & w & -> & H1 & H2 & H3). apply Forall2_app; auto.
Qed.
Lemma concat_quantised (f : list Z -> list Z) z z' pre post vs vs' :
  Forall2 (fun v v' => exists d, t_shape (fst v) = pre ++ d :: post /\ t_shape (fst v') = pre ++ d :: post /\
             forall i, in_shape (pre ++ d :: post) i -> stored (fst v') (snd v') i = f (stored (fst v) (snd v) i)) vs vs' ->
  forall idx, in_shape (pre ++ sum_n (map (fun v => nth (length pre) (t_shape (fst v)) 0) vs) :: post) idx ->
  concat_t z' (length pre) (parts_of (length pre) vs') idx = f (concat_t z (length pre) (parts_of (length pre) vs) idx).
Proof.
  induction 1 as [|v v' vs vs' (d & Sv & Sv' & Hv) F IH]; intros idx Hi.
  - apply in_mid in Hi. destruct Hi as (u & i & w & _ & _ & Hi & _). cbn in Hi. lia.
  - cbn [map sum_n fold_right] in Hi. fold (sum_n (map (fun v => nth (length pre) (t_shape (fst v)) 0) vs)) in Hi. rewrite Sv, nth_mid in Hi.
    apply in_mid in Hi. destruct Hi as (u & i & w & -> & Hu & Hi & Hw).
    pose proof (in_shape_length _ _ Hu) as Lu.
    unfold parts_of. cbn [map concat_t]. rewrite Sv, Sv', nth_mid. fold (parts_of (length pre) vs). fold (parts_of (length pre) vs').
    rewrite <- Lu. rewrite nth_mid. destruct (Nat.ltb_spec i d).
    + apply Hv. apply in_mid. exists u, i, w. auto.
    + replace (skipn (S (length u)) (u ++ i :: w)) with w by (rewrite skipn_app, skipn_all2 by lia; replace (S (length u) - length u) with 1 by lia; reflexivity).
      rewrite firstn_app, Nat.sub_diag, firstn_all. cbn [firstn]. rewrite app_nil_r. rewrite Lu. apply IH. apply in_mid. exists u, (i - d), w. repeat split; auto. lia.
Qed.

(** ** SAME convolutions *)
Definition signed (l : list Z) : Z :=
  (let e := length l in let u := unsigned_le l in if u <? 2 ^ (8 * Z.of_nat e - 1) then u else u - 2 ^ (8 * Z.of_nat e))%Z.
Lemma int_stored t b idx : int_at (t_elem t) b (position_of (t_shape t) idx) = signed (stored t b idx).
Proof. unfold int_at, signed. cbv zeta. rewrite !stored_elem. reflexivity. Qed.
Lemma signed_zero_point i16 zp : (i16 = true -> zp = 0)%Z -> (i16 = false -> -128 <= zp <= 127)%Z -> signed (le_bytes (elems i16) zp) = zp.
Proof.
  intros H1 H2. destruct i16; cbn [elems].
  - rewrite H1 by auto. reflexivity.
  - specialize (H2 eq_refl). unfold signed. cbn [le_bytes length unsigned_le]. change (2 ^ (8 * Z.of_nat 1 - 1))%Z with 128%Z. change (2 ^ (8 * Z.of_nat 1))%Z with 256%Z.
    rewrite Z.mod_mod, Z.mul_0_r, Z.add_0_r by lia.
    destruct (Z.ltb_spec (zp mod 256) 128); Z.to_euclidean_division_equations; lia.
Qed.

Lemma image_stored (e : nat) z b h w d y x i : (0 <= y < h -> 0 <= x < w -> 0 <= i < d ->
  image e b w d y x i = signed (stored (Ty (image_shape (h, w, d)) e z) b [0%nat; Z.to_nat y; Z.to_nat x; Z.to_nat i]))%Z.
Proof.
  intros Hy Hx Hi. rewrite <- int_stored. unfold image. cbn [t_elem t_shape image_shape position_of]. f_equal.
  unfold nelem; cbn [fold_right]. 
  assert (E : Z.of_nat (0 * (Z.to_nat h * (Z.to_nat w * (Z.to_nat d * 1))) + (Z.to_nat y * (Z.to_nat w * (Z.to_nat d * 1)) + (Z.to_nat x * (Z.to_nat d * 1) + (Z.to_nat i * 1 + 0))))
              = ((y * w + x) * d + i)%Z) by lia.
  rewrite <- E. lia.
Qed.

Lemma padded_image i16 (z : option Z) zp b h w d top bottom lft rgt y x i :
  let nh := (h + top + bottom)%Z in let nw := (w + lft + rgt)%Z in
  let a := Ty (image_shape (h, w, d)) (elems i16) z in
  let b' := bytes_of (image_shape (nh, nw, d)) (pad_t [0; Z.to_nat top; Z.to_nat lft; 0] (t_shape a) (le_bytes (elems i16) zp) (stored a b)) in
  (0 <= top -> 0 <= bottom -> 0 <= lft -> 0 <= rgt -> 0 <= y < nh -> 0 <= x < nw -> 0 <= i < d -> 1 <= h -> 1 <= w ->
   (i16 = true -> zp = 0) -> (i16 = false -> -128 <= zp <= 127) ->
   image (elems i16) b' nw d y x i = if ConvSpec.in_image h w (y - top) (x - lft) then image (elems i16) b w d (y - top) (x - lft) i else zp)%Z.
Proof.
  intros nh nw a b' Ht Hb Hl Hr Hy Hx Hi Hh Hw Z1 Z2.
  rewrite (image_stored (elems i16) z b' nh nw d y x i Hy Hx Hi).
  set (p := Ty (image_shape (nh, nw, d)) (elems i16) z). change (image_shape (nh, nw, d)) with (t_shape p) in b'. unfold b'.
  rewrite stored_bytes.
  2:{ intros idx _. apply pad_elem; [apply le_bytes_length|intros j; exact (stored_elem a b j)]. }
  2:{ unfold p, image_shape; cbn [t_shape]. apply in4; unfold nh, nw in *; lia. }
  unfold pad_t, a. cbn [t_shape image_shape inside map2]. unfold ConvSpec.in_image.
  destruct ((0 <=? y - top)%Z && (y - top <? h)%Z && (0 <=? x - lft)%Z && (x - lft <? w)%Z) eqn:I.
  - replace ((0 <=? 0) && (0 <? 0 + 1) && ((Z.to_nat top <=? Z.to_nat y) && (Z.to_nat y <? Z.to_nat top + Z.to_nat h) && ((Z.to_nat lft <=? Z.to_nat x) && (Z.to_nat x <? Z.to_nat lft + Z.to_nat w) && ((0 <=? Z.to_nat i) && (Z.to_nat i <? 0 + Z.to_nat d) && true)))) with true by lia.
    rewrite (image_stored (elems i16) z b h w d (y - top) (x - lft) i) by lia. do 2 f_equal. repeat (apply f_equal2; [lia|]). reflexivity.
  - replace ((0 <=? 0) && (0 <? 0 + 1) && ((Z.to_nat top <=? Z.to_nat y) && (Z.to_nat y <? Z.to_nat top + Z.to_nat h) && ((Z.to_nat lft <=? Z.to_nat x) && (Z.to_nat x <? Z.to_nat lft + Z.to_nat w) && ((0 <=? Z.to_nat i) && (Z.to_nat i <? 0 + Z.to_nat d) && true)))) with false by lia.
    apply signed_zero_point; auto.
Qed.

Import ConvLowerSpec ConvLowerModel.

Definition conv_op (dw : bool) (cv : conv) t q f bi : compute := if dw then CDepthwise cv t q f bi else CConv cv t q f bi.
Lemma conv_op_ok dw cv t q f bi a r : op_ok_before (TCompute (conv_op dw cv t q f bi)) [a] r <->
  conv_fits dw cv t q a /\ q_read q (q_weights q) (q_muls q) = (f, bi, q_scale q) /\ t_shape a = image_shape (c_in cv) /\ t_shape r = image_shape (c_out cv) /\
  t_elem a = elems (c_i16 cv) /\ t_elem r = elems (c_i16 cv).
Proof. destruct dw; cbn [conv_op op_ok_before]; tauto. Qed.
Lemma conv_op_sem dw cv t q f bi b : sem_compute (conv_op dw cv t q f bi) [b] =
  (let '(_, w, d) := c_in cv in Some (result_bytes (elems (c_i16 cv)) (c_out cv) (conv_result dw cv t q f bi (image (elems (c_i16 cv)) b w d)))).
Proof. destruct dw; reflexivity. Qed.

Lemma same_conv dw cv t q f bi a r b : op_ok_before (TCompute (conv_op dw cv t q f bi)) [a] r -> is_same (c_padding cv) = true ->
  let p := Ty (same_pad_shape cv (t_shape a)) (t_elem a) (t_zero a) in
  op_ok_before (same_pad_op cv) [a] p /\
  op_ok_before (TCompute (conv_op dw (valid_conv cv) (valid_attr t) q f bi)) [p] r /\
  exists b', sem (same_pad_op cv) [(a, b)] p = Some b' /\ sem_compute (conv_op dw (valid_conv cv) (valid_attr t) q f bi) [b'] = sem_compute (conv_op dw cv t q f bi) [b].
Proof.
  intros OK IS p. apply conv_op_ok in OK. destruct OK as (CF & RD & Sa & Sr & Ea & Er).
  destruct a as [sa ea za]. cbn [t_shape t_elem t_zero] in *.
  destruct cv as [i16 ci co cf pd pv st di zp]. cbn [c_i16 c_in c_out c_filter c_padding c_padding_values c_stride c_dilation c_in_zp] in *.
  destruct ci as [[h w] d], co as [[oh ow] od], cf as [[fh fw] fd], st as [sh sw], di as [dh dw'].
  assert (pd = SAME) as -> by (destruct pd; try discriminate; reflexivity).
  unfold conv_fits in CF. cbn [c_i16 c_in c_out c_filter c_padding c_padding_values c_stride c_dilation c_in_zp] in CF.
  destruct CF as (Pi & Po & _ & G & C1 & C2 & C3 & C4 & C5 & C6 & C7 & C8).
  destruct G as (Hh & Hw & Hfh & Hfw & Hsh & Hsw & Hdh & Hdw & Hoh & How & Ht & Hb & Hl & Hr).
  cbn [before after out_size] in *.
  assert (SP : same_pads (mk_conv i16 (h, w, d) (oh, ow, od) (fh, fw, fd) SAME pv (sh, sw) (dh, dw') zp) =
    ((ConvSpec.same_before h fh dh sh, ConvSpec.same_after h fh dh sh), (ConvSpec.same_before w fw dw' sw, ConvSpec.same_after w fw dw' sw),
     (h + ConvSpec.same_before h fh dh sh + ConvSpec.same_after h fh dh sh, w + ConvSpec.same_before w fw dw' sw + ConvSpec.same_after w fw dw' sw))%Z).
  { unfold same_pads. cbn [c_in c_filter c_dilation c_stride fst snd]. unfold ConvGeomModel.conv_padding_values.
    rewrite !ConvGeomProofs.windowed_same_d by lia. reflexivity. }
  set (top := ConvSpec.same_before h fh dh sh) in *. set (bot := ConvSpec.same_after h fh dh sh) in *.
  set (lft := ConvSpec.same_before w fw dw' sw) in *. set (rgt := ConvSpec.same_after w fw dw' sw) in *.
  unfold p, same_pad_shape, same_pad_op, valid_conv. rewrite SP. cbn [c_i16 c_in c_out c_filter c_padding c_padding_values c_stride c_dilation c_in_zp]. subst sa ea. cbn [image_shape nth t_shape t_elem t_zero].
  destruct Pi as (_ & _ & Hd). destruct Po as (Po1 & Po2 & Po3).
  assert (VH : ConvSpec.valid_out (h + top + bot) fh dh sh = oh) by (rewrite Hoh; apply ConvGeomProofs.valid_of_padded; lia).
  assert (VW : ConvSpec.valid_out (w + lft + rgt) fw dw' sw = ow) by (rewrite How; apply ConvGeomProofs.valid_of_padded; lia).
  split; [|split].
  - cbn [op_ok_before op_ok t_shape t_elem t_zero image_shape]. split; [|split; [|split]].
    + repeat (constructor; [lia|]). constructor.
    + repeat (constructor; [lia|]). constructor.
    + split; reflexivity.
    + cbn [t_zero] in C8. rewrite C8. destruct i16; [right; apply C3; auto|left; reflexivity].
  - apply conv_op_ok. cbn [c_i16 c_in c_out c_filter c_padding c_padding_values c_stride c_dilation c_in_zp t_shape t_elem image_shape].
    split; [|split; [exact RD|split; [repeat (apply f_equal2; [lia|]); reflexivity|auto]]].
    unfold conv_fits. cbn [c_i16 c_in c_out c_filter c_padding c_padding_values c_stride c_dilation c_in_zp positive t_zero valid_attr at_faf].
    unfold ConvLowerProps.geometry_ok. cbn [before after out_size]. rewrite VH, VW.
    repeat (split; [first [lia | discriminate | auto; fail]|]). 
    exact C8.
  - cbn [t_zero] in C8. subst za. cbn [sem t_zero t_shape t_elem]. eexists. split; [reflexivity|].
    change [1; Z.to_nat (h + top + bot); Z.to_nat (w + lft + rgt); Z.to_nat d] with (image_shape ((h + top + bot)%Z, (w + lft + rgt)%Z, d)).
    change [1; Z.to_nat h; Z.to_nat w; Z.to_nat d] with (image_shape (h, w, d)).
    pose proof (padded_image i16 (Some zp) zp b h w d top bot lft rgt) as PI. cbv zeta in PI. cbn [t_shape] in PI.
    match type of PI with forall y x i, _ -> _ -> _ -> _ -> _ -> _ -> _ -> _ -> _ -> _ -> _ -> image _ ?bb _ _ _ _ _ = _ => set (b' := bb) in * end.
    rewrite !conv_op_sem. cbn [c_i16 c_in c_out]. f_equal. apply result_ext. intros y x o Hy Hx Ho.
    assert (EX : forall Y X i, (0 <= i < d)%Z ->
      (if ConvSpec.in_image (h + top + bot) (w + lft + rgt) Y X then image (elems i16) b' (w + lft + rgt) d Y X i - zp else 0)%Z =
      (if ConvSpec.in_image h w (Y - top) (X - lft) then image (elems i16) b w d (Y - top) (X - lft) i - zp else 0)%Z).
    { intros Y X i Hi. destruct (ConvSpec.in_image (h + top + bot) (w + lft + rgt) Y X) eqn:I.
      - unfold ConvSpec.in_image in I. rewrite PI by (first [assumption | lia | intros E; apply C3; exact E | intros E; destruct (C4 E) as (_ & _ & Z4); exact Z4]).
        destruct (ConvSpec.in_image h w (Y - top) (X - lft)); lia.
      - unfold ConvSpec.in_image in *. destruct ((0 <=? Y - top) && (Y - top <? h) && (0 <=? X - lft) && (X - lft <? w))%Z eqn:J; [exfalso; lia|reflexivity]. }
    unfold conv_result. cbn [c_in c_out c_filter c_padding c_padding_values c_stride c_dilation c_in_zp before valid_attr at_faf]. f_equal. f_equal.
    assert (SX : forall n g g', (forall k, (0 <= k < n)%Z -> g k = g' k) -> sum_to n g = sum_to n g').
    { intros n g g' H. unfold sum_to. f_equal. apply map_ext_in. intros k Hk. apply in_seq in Hk. apply H. lia. }
    fold top. fold lft.
    destruct dw.
    + unfold depthwise_acc. f_equal. apply SX. intros ky _. apply SX. intros kx _. cbv zeta. rewrite !Z.sub_0_r.
      replace (y * sh - top + ky * dh)%Z with (y * sh + ky * dh - top)%Z by lia. replace (x * sw - lft + kx * dw')%Z with (x * sw + kx * dw' - lft)%Z by lia.
      specialize (EX (y * sh + ky * dh)%Z (x * sw + kx * dw')%Z o ltac:(destruct (C2 eq_refl) as (_ & D1 & _); lia)).
      destruct (ConvSpec.in_image (h + top + bot) _ _ _), (ConvSpec.in_image h w _ _); rewrite ?EX; try reflexivity; rewrite <- ?EX; lia.
    + pose proof (C1 eq_refl) as ->. unfold conv2d_acc. f_equal. apply SX. intros ky _. apply SX. intros kx _. apply SX. intros i Hi. cbv zeta. rewrite !Z.sub_0_r.
      replace (y * sh - top + ky * dh)%Z with (y * sh + ky * dh - top)%Z by lia. replace (x * sw - lft + kx * dw')%Z with (x * sw + kx * dw' - lft)%Z by lia.
      specialize (EX (y * sh + ky * dh)%Z (x * sw + kx * dw')%Z i Hi).
      destruct (ConvSpec.in_image (h + top + bot) _ _ _), (ConvSpec.in_image h w _ _); rewrite ?EX; try reflexivity; rewrite <- ?EX; lia.
Qed.

(** ** Executions *)
Notation okB := op_ok_before.
Lemma before_total o vs r : okB o (map fst vs) r -> Forall (fun v => length (snd v) = tsize (fst v)) vs ->
  exists b, sem o vs r = Some b /\ length b = tsize r.
Proof.
  intros H F.
  assert (C : forall dw cv t q f bi, o = TCompute (conv_op dw cv t q f bi) -> exists b, sem o vs r = Some b /\ length b = tsize r).
  { intros dw cv t q f bi ->. destruct vs as [|(a & b) [|v vs]]; [destruct dw; destruct H| |destruct dw; destruct H].
    apply conv_op_ok in H. destruct H as (_ & _ & _ & Sr & _ & Er). cbn [sem map snd]. rewrite conv_op_sem. destruct (c_in cv) as [[h w] d]. eexists. split; [reflexivity|].
    destruct (c_out cv) as [[oh ow] od]. unfold tsize. rewrite result_length, Sr, Er. cbn [image_shape nelem fold_right]. lia. }
  destruct o; try (apply op_total; assumption). destruct c; try (apply op_total; assumption).
  - apply op_total; [|exact F]. destruct (map fst vs) as [|a [|? ?]]; try exact H. apply H.
  - eapply (C false). reflexivity.
  - eapply (C true). reflexivity.
Qed.
Lemma exec_keeps {okp} body e e' x v : exec_with okp body e e' -> lookup e x = Some v -> lookup e' x = Some v.
Proof.
  induction 1 as [e|i tl e vs b e' L K Sm Zl N E IH]; intros H; auto. apply IH. cbn [lookup]. destruct (Nat.eqb_spec x (i_dst i)) as [->|]; [congruence|auto].
Qed.
Lemma exec_keeps_all {okp} body e e' xs : forall vs, exec_with okp body e e' -> lookups e xs = Some vs -> lookups e' xs = Some vs.
Proof.
  induction xs as [|x xs IH]; intros vs E H; cbn [lookups] in *; auto. destruct (lookup e x) as [v|] eqn:Ex; [|discriminate].
  rewrite (exec_keeps _ _ _ _ _ E Ex). destruct (lookups e xs) as [w|]; [|discriminate]. rewrite (IH w); auto.
Qed.
Lemma two_gives {okp : fop -> list ty -> ty -> Prop} e o1 args1 t1 d o2 r vs1 b1 b fresh :
  lookups e args1 = Some vs1 -> okp o1 (map fst vs1) t1 -> sem o1 vs1 t1 = Some b1 -> length b1 = tsize t1 -> lookup e (fresh 0) = None ->
  okp o2 [t1] r -> sem o2 [(t1, b1)] r = Some b -> length b = tsize r -> lookup e d = None -> fresh 0 <> d ->
  gives_with okp e [Instr (fresh 0) o1 args1 t1; Instr d o2 [fresh 0] r] d r b fresh.
Proof.
  intros L1 K1 S1 Z1 N1 K2 S2 Z2 N2 Ne. exists ((d, (r, b)) :: (fresh 0, (t1, b1)) :: e). split.
  - eapply exec_cons with (vs := vs1) (b := b1); cbn [i_args i_op i_ty i_dst]; eauto.
    eapply exec_cons with (vs := [(t1, b1)]) (b := b); cbn [i_args i_op i_ty i_dst map fst]; eauto; [| |constructor].
    + cbn [lookups lookup]. rewrite Nat.eqb_refl. reflexivity.
    + cbn [lookup]. destruct (Nat.eqb_spec d (fresh 0)); [congruence|auto].
  - intros x Hx. cbn [lookup]. destruct (Nat.eqb x d); auto. destruct (Nat.eqb_spec x (fresh 0)) as [->|]; [exfalso; apply (Hx 0); auto|auto].
Qed.

Lemma fuse_args fresh p tys j i news : fuse fresh p tys j i news -> i_args i = [i_dst j].
Proof. intros []; reflexivity. Qed.
Lemma attr4 (b a : list nat) : length (pad_attr b a) = 8 -> length b = length a -> PatternProps.befores (pad_attr b a) = b /\ PatternProps.afters (pad_attr b a) = a.
Proof.
  intros H L. 
  assert (L4 : length b = 4).
  { unfold pad_attr in H. assert (E : forall l : list (nat * nat), length (flat_map (fun p => [Z.of_nat (fst p); Z.of_nat (snd p)]) l) = 2 * length l) by (intros l; induction l as [|x l IH]; cbn; auto; cbn in IH; lia).
    rewrite E, combine_length in H. lia. }
  do 4 (destruct b as [|? b]; [discriminate|]). destruct b; [|discriminate]. do 4 (destruct a as [|? a]; [discriminate|]). destruct a; [|discriminate].
  unfold PatternProps.befores, PatternProps.afters, PatternModel.pv, pad_attr. cbn [combine flat_map app fst snd map Nat.mul Nat.add nth]. rewrite !Nat2Z.id. auto.
Qed.
Lemma fits_padded attr ins outs : length ins = 4 -> pad_fits (PatternProps.befores attr) (PatternProps.afters attr) outs ins <-> outs = PatternProps.padded attr ins.
Proof.
  intros L. do 4 (destruct ins as [|? ins]; [discriminate|]). destruct ins; [|discriminate].
  unfold PatternProps.padded, PatternProps.befores, PatternProps.afters. cbn [map map2]. split.
  - apply fits4.
  - intros ->. repeat constructor.
Qed.

Lemma quantisers_exec (fresh : nat -> nat) (FI : forall j k, fresh j = fresh k -> j = k) f r cz : forall xs vs n e,
  lookups e xs = Some vs -> Forall (fun v => t_elem (fst v) = cz) vs -> (forall l, length l = cz -> length (f l) = t_elem r) ->
  (forall k, n <= k -> lookup e (fresh k) = None) ->
  exists e', exec_with okB (map (fun p => Instr (fresh (fst p)) (TQuantize f) [fst (snd p)] (Ty (t_shape (snd (snd p))) (t_elem r) (t_zero r))) (combine (seq n (length xs)) (combine xs (map fst vs)))) e e' /\
    (forall x, (forall k, n <= k -> x <> fresh k) -> lookup e' x = lookup e x) /\
    lookups e' (map fresh (seq n (length xs))) =
      Some (map (fun v => (Ty (t_shape (fst v)) (t_elem r) (t_zero r), bytes_of (t_shape (fst v)) (fun idx => f (stored (fst v) (snd v) idx)))) vs).
Proof.
  induction xs as [|x xs IH]; intros vs n e L Ez Hf NF; cbn [lookups] in L.
  - injection L as <-. exists e. split; [constructor|]. auto.
  - destruct (lookup e x) as [v|] eqn:Ex; [|discriminate]. destruct (lookups e xs) as [w|] eqn:Exs; [|discriminate]. injection L as <-.
    inversion Ez as [|? ? Ev Ew]; subst. cbn [length seq combine map fst snd].
    set (t' := Ty (t_shape (fst v)) (t_elem r) (t_zero r)). set (b' := bytes_of (t_shape (fst v)) (fun idx => f (stored (fst v) (snd v) idx))).
    assert (NX : forall y, In y (x :: xs) -> y <> fresh n).
    { intros y Hy ->. apply (lookups_none e (x :: xs) (v :: w) (fresh n)); [cbn [lookups]; rewrite Ex, Exs; auto|exact Hy|apply NF; lia]. }
    destruct (IH w (S n) ((fresh n, (t', b')) :: e)) as (e' & E & O & Lk); auto.
    { rewrite lookups_cons_other; auto. intros y Hy. apply NX. right; auto. }
    { intros k Hk. cbn [lookup]. destruct (Nat.eqb_spec (fresh k) (fresh n)) as [Q|]; [apply FI in Q; lia|]. apply NF. lia. }
    assert (Zb : length b' = tsize t').
    { unfold b', tsize, t'; cbn [t_shape t_elem]. apply bytes_of_length. intros idx _. apply Hf. apply stored_elem. }
    exists e'. split; [|split].
    + eapply exec_cons with (vs := [v]) (b := b'); cbn [i_args i_op i_ty i_dst fst snd map]; [cbn [lookups]; rewrite Ex; reflexivity| | |exact Zb|apply NF; lia|exact E].
      * cbn [op_ok_before op_ok t_shape t_elem]. split; [reflexivity|]. intros l Hl. apply Hf. auto.
      * destruct v as [ta ba]. reflexivity.
    + intros y Hy. rewrite O by (intros k Hk; apply Hy; lia). cbn [lookup]. destruct (Nat.eqb_spec y (fresh n)) as [Q|]; auto. exfalso. apply (Hy n); auto.
    + cbn [lookups]. rewrite Lk, O; [cbn [lookup]; rewrite Nat.eqb_refl; auto|]. intros k Hk Q. apply FI in Q. lia.
Qed.
