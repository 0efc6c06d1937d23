(** Properties C12-C19: lowering of data movement and reductions.
    Models: SlicePadModel, LowerModel.  Vocabulary: NdSpec, LowerSpec.  Meaning of
    the runtime operators: CopyKernels.  [zn] is [map Z.of_nat]. *)
From Coq Require Import QArith.
From Verif Require Import Base NdSpec NdBase SlicePadModel LowerModel LowerSpec CopyKernels
  SlicePadProofs SlicePadProofs2 PadProofs BroadcastProofs ConcatProofs MeanProofs StridedProofs.
Local Open Scope nat_scope.

(** ** C12: merging axes.  The merged description (begin', outs', ins') of the
    slice selects the same elements in the same order from the same data. *)
Theorem C12_merge_axes_same_slice A begin outs ins sizes :
  slice_fits begin outs ins -> length sizes = length ins -> ins <> [] ->
  exists axes' begin' outs' ins',
    merge_axes (zip_axes (zn begin) sizes (zn ins) (zn outs)) = Some axes' /\
    map a_begin axes' = zn begin' /\ map a_in axes' = zn ins' /\ map a_out axes' = zn outs' /\
    slice_fits begin' outs' ins' /\
    forall t : tensor A, exists t' : tensor A,
      flatten ins' t' = flatten ins t /\
      flatten outs' (slice_t begin' t') = flatten outs (slice_t begin t).
Proof.
  intros H1 H2 H3. destruct (merge_slice (A := A) begin outs ins sizes H1 H2 H3)
    as (axes' & begin' & outs' & ins' & E & B1 & B2 & B3 & B4 & B5 & F & HF).
  exists axes', begin', outs', ins'. repeat split; auto.
  intros t. exists (F t). destruct (HF t) as (U1 & U2 & _). auto.
Qed.

(** ** C13: the emitted copy parameters produce the slice, whatever the rank;
    when nothing is emitted the operand itself is the slice, or the operator is
    left alone.  The reads are in bounds ([run_slice] is bounds-checked). *)
Theorem C13_slice_lowering B is_const dtype begin outs ins sizes (t : tensor (list B)) :
  slice_fits begin outs ins -> length sizes = length ins -> elem_bytes dtype t ->
  match replace_slice is_const (Z.of_nat dtype) (zn ins) (zn outs) (zn begin) sizes with
  | Forward => bytes_of ins t = bytes_of outs (slice_t begin t)
  | Lowered op => run_slice op (bytes_of ins t) = Some (bytes_of outs (slice_t begin t))
  | NotApplied => True
  | Undefined => False
  end.
Proof.
  intros H1 H2 H3. pose proof (replace_slice_ok is_const dtype begin outs ins sizes t H1 H2 H3) as H.
  unfold zn. destruct (replace_slice _ _ _ _ _ _); tauto.
Qed.

(** 32-bit arithmetic does not overflow when the input has fewer than 2^31 bytes. *)
Theorem C13_params_bounded is_const dtype begin outs ins sizes op :
  slice_fits begin outs ins -> length sizes = length ins ->
  Forall (fun d => 0 < d) outs -> 0 < dtype ->
  replace_slice is_const (Z.of_nat dtype) (zn ins) (zn outs) (zn begin) sizes = Lowered op ->
  let total := Z.of_nat (nelem ins * dtype) in
  (0 <= s_start op < total /\ 0 < s_offset op <= total /\ 0 < s_size op <= total /\ 0 < s_copies op <= total)%Z.
Proof.
  intros H1 H2 H3 H4 E.
  pose proof (replace_slice_ok is_const dtype begin outs ins sizes (fun _ => repeat tt dtype) H1 H2
                (fun _ => repeat_length _ _)) as H.
  unfold zn in E. rewrite E in H. apply H; auto.
Qed.

(** ** C14: pad.  The padding element is the zero point (0 when not quantised) as
    a [dtype]-byte integer; TFLite quantised types wider than 8 bits have zero
    point 0 ([C14_wide_zero_point_refuted] shows the code relies on it). *)
Theorem C14_pad_lowering is_const dtype zp before after outs ins (t : tensor (list Z)) :
  pad_fits before after outs ins -> elem_bytes dtype t -> Forall (fun d => 0 < d) ins ->
  let zero := match zp with Some z => z | None => 0%Z end in
  dtype = 1 \/ zero = 0%Z ->
  match replace_pad is_const (Z.of_nat dtype) zp (zn ins) (zn outs) (zn before) (zn after) with
  | Forward => bytes_of ins t = bytes_of outs (pad_t before ins (le_bytes dtype zero) t)
  | Lowered op => run_pad op (bytes_of ins t) = Some (bytes_of outs (pad_t before ins (le_bytes dtype zero) t))
  | NotApplied => True
  | Undefined => False
  end.
Proof.
  intros H1 H2 H3 zero Hz.
  pose proof (replace_pad_ok is_const dtype zp before after outs ins t _ H1 H2 H3 eq_refl) as H.
  assert (E : le_bytes dtype zero = repeat (match zp with Some z => z mod 256 | None => 0 end)%Z dtype).
  { destruct Hz as [-> | Hz].
    - cbn [le_bytes repeat]. unfold zero. destruct zp; auto.
    - rewrite Hz. replace (match zp with Some z => (z mod 256)%Z | None => 0%Z end) with 0%Z.
      + clear. induction dtype as [|k IH]; cbn [le_bytes repeat]; auto. change (0 mod 256)%Z with 0%Z.
        change (0 / 256)%Z with 0%Z. rewrite IH. auto.
      + unfold zero in Hz. destruct zp; subst; auto. }
  rewrite E. unfold zn. exact H.
Qed.

(** A 16-bit tensor with zero point 1: the code fills with bytes 1,1 (257). *)
Theorem C14_wide_zero_point_refuted :
  exists op, replace_pad false 2 (Some 1%Z) [1%Z] [2%Z] [1%Z] [0%Z] = Lowered op /\
    run_pad op (bytes_of [1] (fun _ => [7%Z; 0%Z])) <>
    Some (bytes_of [2] (pad_t [1] [1] (le_bytes 2 1) (fun _ => [7%Z; 0%Z]))).
Proof. eexists. split; [vm_compute; reflexivity|]. vm_compute. discriminate. Qed.

(** ** C15: broadcast. *)
Theorem C15_broadcast_lowering B is_const dtype ins outs (t : tensor (list B)) :
  length ins <= length outs -> elem_bytes dtype t ->
  match replace_broadcast is_const (Z.of_nat dtype) (zn ins) (zn outs) with
  | Forward => bytes_of ins t = bytes_of outs (broadcast_to ins outs t)
  | Lowered op => run_broadcast op (bytes_of ins t) = Some (bytes_of outs (broadcast_to ins outs t))
  | NotApplied => True
  | Undefined => False
  end.
Proof. apply replace_broadcast_ok. Qed.

(** ** C16: concat of at most 13 inputs of shapes pre ++ d_j ++ post along axis
    [length pre], given as a nonnegative or negative axis. *)
Theorem C16_concat_lowering B dtype axis pre post z (parts : list (nat * tensor (list B))) :
  (forall p, In p parts -> elem_bytes dtype (snd p)) ->
  (axis = Z.of_nat (length pre) \/ axis = - Z.of_nat (S (length post)))%Z ->
  match replace_concat (Z.of_nat dtype) axis (map (fun p => zn (pre ++ fst p :: post)) parts)
          (zn (pre ++ sum_n (map fst parts) :: post)) with
  | Lowered op => length parts <= 13 /\
      run_concat op (map (fun p => bytes_of (pre ++ fst p :: post) (snd p)) parts) =
      Some (bytes_of (pre ++ sum_n (map fst parts) :: post) (concat_t z (length pre) parts))
  | NotApplied => 13 < length parts
  | _ => False
  end.
Proof. apply replace_concat_ok. Qed.

(** ** C17: splitting a wide concat.  Any number of inputs; the axis is
    nonnegative or -1 (other negative axes: [C17_negative_axis_refuted]).
    [narrows]: every concatenation has at most 13 operands and the right type;
    [ceval] is the value of a concatenation tree. *)
Theorem C17_split_concat A (z : A) pre post axis (parts : list (nat * tensor A)) :
  (axis = Z.of_nat (length pre) \/ (axis = -1 /\ post = []))%Z ->
  let ty d := zn (pre ++ d :: post) in
  let n := sum_n (map fst parts) in
  exists args ds,
    split_concat (S (length parts)) axis (ty n) (map (fun p => CInput (ty (fst p)) (snd p)) parts) = Lowered args /\
    length args <= 13 /\ narrows pre post args ds /\ sum_n ds = n /\
    forall idx, length pre < length idx ->
      ceval z pre (CConcat (ty n) args) idx = concat_t z (length pre) parts idx.
Proof.
  intros Ha ty n.
  assert (N : narrows pre post (map (fun p => CInput (ty (fst p)) (snd p)) parts) (map fst parts)).
  { clear. induction parts as [|p parts IH]; cbn [map]; constructor; auto. constructor. }
  destruct (split_ok z pre post axis n Ha (S (length parts)) _ _ N eq_refl ltac:(rewrite map_length; lia))
    as (args & ds & E & R1 & R2 & R3 & R4).
  exists args, ds. repeat split; auto. intros idx Hi. cbn [ceval].
  change (concat_t z (length pre) (map (part z pre) args) idx = concat_t z (length pre) parts idx). rewrite (R4 idx Hi).
  f_equal. rewrite map_map. clear. induction parts as [|[d t] parts IH]; cbn [map]; auto. f_equal; auto.
  unfold part, ty. cbn [cvalue_type ceval fst snd]. rewrite ty_nth', Nat2Z.id. auto.
Qed.

(** Axis -2 with 14 inputs reads the shape out of bounds. *)
Theorem C17_negative_axis_refuted :
  split_concat 20 (-2) [14%Z; 3%Z] (repeat (CInput [1%Z; 3%Z] tt) 14) = Undefined.
Proof. reflexivity. Qed.

(** ** C18: mean / sum over distinct axes 0 <= axis < rank, with any arithmetic
    [f]: accepted exactly when the axes are contiguous, and then every output
    reduces exactly the elements of the requested axes. *)
Theorem C18_mean_reduces_axes A R (f : list A -> R) s axes (t : tensor A) :
  axes <> [] -> NoDup axes -> (forall x, In x axes -> x < length s) ->
  match replace_mean true (zn s) (zn axes) with
  | Lowered op =>
      let mask := axis_mask (length s) axes in
      run_mean f op (flatten s t) = Some (flatten (kept_shape mask s) (fun o => f (reduced_elems mask s t o)))
  | NotApplied => exists x y z, In x axes /\ In z axes /\ x < y < z /\ ~ In y axes
  | _ => False
  end.
Proof. apply replace_mean_ok. Qed.

(** The affine map of the emitted mean operator (scale_mul, zero points;
    ReplaceMean.cpp:83-86, in exact arithmetic) is the quantised mean:
    with real value s_in (q - z_in) for each input, the output code q_out
    satisfies s_out (q_out - z_out) = average of the inputs.  For sum,
    scale_mul is not divided by the number of elements (ReplaceSum.cpp:85). *)
Definition sumq (l : list Q) : Q := fold_right Qplus 0%Q l.
Definition mean_kernel (scale_mul z_in z_out : Q) (l : list Q) : Q :=
  (z_out + scale_mul * sumq (map (fun q => q - z_in) l))%Q.

Lemma sumq_scale (s z : Q) (l : list Q) : (sumq (map (fun q => s * (q - z)) l) == s * sumq (map (fun q => q - z) l))%Q.
Proof. induction l as [|x l IH]; cbn [map sumq fold_right]; [ring|]. fold (sumq (map (fun q => s * (q - z))%Q l)) (sumq (map (fun q => q - z)%Q l)). rewrite IH. ring. Qed.

Theorem C18_mean_scale s_in s_out z_in z_out (l : list Q) :
  (~ s_out == 0)%Q -> l <> [] ->
  let n := inject_Z (Z.of_nat (length l)) in
  (s_out * (mean_kernel (s_in / s_out / n) z_in z_out l - z_out) == sumq (map (fun q => s_in * (q - z_in)) l) / n /\
   s_out * (mean_kernel (s_in / s_out) z_in z_out l - z_out) == sumq (map (fun q => s_in * (q - z_in)) l))%Q.
Proof.
  intros Hs Hl n. 
  assert (Hn : (~ n == 0)%Q).
  { unfold n, Qeq. cbn [Qnum Qden inject_Z]. destruct l; [congruence|]. cbn [length]. lia. }
  rewrite sumq_scale. unfold mean_kernel. split; field; auto.
Qed.

(** Duplicate axes [0; 2; 2] of a 2x3x2 tensor: axis 1 is reduced as well;
    negative axes: out of bounds access. *)
Theorem C18_duplicate_axes_refuted :
  replace_mean true [2; 3; 2]%Z [0; 2; 2]%Z = Lowered (MeanOp 1 12 1) /\
  axis_mask 3 [0; 2; 2] = [true; false; true].
Proof. split; reflexivity. Qed.
Theorem C18_negative_axis_refuted : replace_mean true [2; 3; 2]%Z [-1]%Z = Undefined.
Proof. reflexivity. Qed.

(** ** C19: unit-stride strided_slice.  Partial: bounds must be in range and a
    shrunk axis must have end = begin + 1 ([regular_axes]); otherwise the code
    differs from numpy ([C19_negative_shrink_refuted], [C19_end_clamp_refuted]). *)
Theorem C19_strided_slice_partial A begin_mask end_mask shrink_mask ins begin stop strides (t : tensor A) :
  regular_axes 0 begin_mask end_mask shrink_mask ins begin stop ->
  Forall (fun s => s = 1%Z) strides ->
  let l := np_axes 0 begin_mask end_mask shrink_mask ins begin stop in
  exists r, replace_strided_slice 0 0 begin_mask end_mask shrink_mask (zn ins) begin stop strides = Lowered r /\
    exists b s, ss_begin r = zn b /\ ss_size r = zn s /\ slice_fits b s ins /\
      flatten s (slice_t b t) = flatten (np_shape l) (strided_slice_t l t) /\
      (shrink_mask <> 0%Z -> ss_reshape r = Some (zn (np_shape l))) /\
      (shrink_mask = 0%Z -> ss_reshape r = None /\ s = np_shape l).
Proof.
  intros H Hs l. destruct (strided_axes_ok _ _ _ _ _ _ _ H) as (E & F & K). fold l in E, F, K.
  unfold replace_strided_slice.
  replace (forallb (fun s => (s =? 1)%Z) strides) with true
    by (symmetry; apply forallb_forall; rewrite Forall_forall in Hs; intros x Hx; apply Z.eqb_eq; auto).
  cbn [negb Z.eqb orb]. rewrite E. eexists. split; [reflexivity|].
  exists (map np_begin l), (map np_size l). cbn [ss_begin ss_size ss_reshape]. unfold zn. rewrite !map_map.
  split; [auto|]. split; [auto|]. split; [auto|]. split; [apply np_flatten; auto|]. split.
  - intros Hz. destruct (Z.eqb_spec shrink_mask 0); [congruence|]. f_equal.
    unfold np_shape. clear. induction l as [|a l IH]; cbn [map filter snd]; auto. destruct (np_keep a); cbn [map fst snd]; auto. f_equal. auto.
  - intros Hz. rewrite Hz, Z.eqb_refl. split; auto. 
    assert (G : forall ins i begin stop, map np_size (np_axes i begin_mask end_mask 0 ins begin stop) = np_shape (np_axes i begin_mask end_mask 0 ins begin stop)).
    { clear. unfold np_shape. induction ins as [|d ins IH]; intros i begin stop; auto. destruct begin, stop; auto.
      cbn [np_axes]. rewrite Z.testbit_0_l. cbn [negb filter map np_keep]. f_equal. apply IH. }
    unfold l. rewrite Hz. apply G.
Qed.

(** Whenever a stride differs from 1 or an ellipsis / new-axis mask is set, the
    operator is left alone, for every shape and every other parameter. *)
Theorem C19_strided_slice_left_alone em nm bm endm sm ins begin stop strides :
  Exists (fun s => s <> 1%Z) strides \/ em <> 0%Z \/ nm <> 0%Z ->
  replace_strided_slice em nm bm endm sm ins begin stop strides = NotApplied.
Proof.
  intros H. unfold replace_strided_slice.
  destruct (forallb (fun s => (s =? 1)%Z) strides) eqn:E; cbn [negb]; auto.
  rewrite forallb_forall in E. destruct H as [H|[H|H]].
  - rewrite Exists_exists in H. destruct H as (x & Hx & N). specialize (E x Hx). cbv beta in E. apply Z.eqb_eq in E. contradiction.
  - destruct (Z.eqb_spec em 0); [contradiction|]. reflexivity.
  - destruct (Z.eqb_spec nm 0); [contradiction|]. cbn [negb]. rewrite orb_true_r. reflexivity.
Qed.

(** x[-1] of a vector of 4 (begin -1, end 0, shrink): the code asks for a slice of
    size -3; numpy selects element 3. *)
Theorem C19_negative_shrink_refuted :
  replace_strided_slice 0 0 0 0 1 [4]%Z [-1]%Z [0]%Z [1]%Z = Lowered (StridedSliceResult [3]%Z [-3]%Z (Some [])) /\
  np_axes 0 0 0 1 [4] [-1]%Z [0]%Z = [NpAxis 3 1 false].
Proof. split; reflexivity. Qed.

(** x[1:100] of a vector of 4: size 99 instead of 3. *)
Theorem C19_end_clamp_refuted :
  replace_strided_slice 0 0 0 0 0 [4]%Z [1]%Z [100]%Z [1]%Z = Lowered (StridedSliceResult [1]%Z [99]%Z None) /\
  np_axes 0 0 0 0 [4] [1]%Z [100]%Z = [NpAxis 1 3 true].
Proof. split; reflexivity. Qed.

(** Examples: the hypotheses are met and operators are produced. *)
Example slice_example : slice_fits [0; 1; 2; 0] [1; 2; 3; 4] [1; 5; 6; 4] /\
  replace_slice false 1 (zn [1; 5; 6; 4]) (zn [1; 2; 3; 4]) (zn [0; 1; 2; 0]) [-1; 2; 3; 4]%Z =
    Lowered (SliceOp 32 24 12 2 true).
Proof. split; [repeat constructor|reflexivity]. Qed.
Example slice_example_3 : 
  replace_slice false 1 (zn [4; 5; 6]) (zn [1; 2; 3]) (zn [0; 1; 2]) [1; 2; 3]%Z = NotApplied.
Proof. reflexivity. Qed.
Example pad_example : pad_fits [0; 1; 2; 0] [0; 1; 1; 0] [1; 6; 8; 3] [1; 4; 5; 3] /\
  replace_pad false 1 (Some (-128)%Z) (zn [1; 4; 5; 3]) (zn [1; 6; 8; 3]) (zn [0; 1; 2; 0]) (zn [0; 1; 1; 0]) =
    Lowered (PadOp 30 9 15 3 (-2139062144) 27 false).
Proof. split; [repeat constructor|reflexivity]. Qed.
Example broadcast_example :
  replace_broadcast false 2 (zn [2; 1; 1; 3]) (zn [5; 2; 4; 7; 3]) = NotApplied /\
  replace_broadcast false 2 (zn [2; 1; 1; 3]) (zn [2; 4; 7; 3]) = Lowered (BroadcastOp 6 28 2 false).
Proof. split; reflexivity. Qed.
Example concat_example :
  replace_concat 1 (-2) [[2; 1; 4]; [2; 3; 4]]%Z [2; 4; 4]%Z = Lowered (ConcatOp 2 [4; 12]%Z 2 true).
Proof. reflexivity. Qed.
Example split_example : exists args,
  split_concat 31 (-1) [2; 30]%Z (repeat (CInput [2; 1]%Z tt) 30) = Lowered args /\ length args = 6.
Proof. eexists. split; reflexivity. Qed.
Example mean_example : replace_mean true [2; 3; 4; 5]%Z [2; 1]%Z = Lowered (MeanOp 2 12 5) /\
  replace_mean true [2; 3; 4; 5]%Z [0; 2]%Z = NotApplied.
Proof. split; reflexivity. Qed.
Example strided_example_1 : regular_axes 0 1 2 4 [4; 5; 6] [0; 1; -2]%Z [3; 0; -1]%Z /\
  replace_strided_slice 0 0 1 2 4 [4; 5; 6]%Z [0; 1; -2]%Z [3; 0; -1]%Z [1; 1; 1]%Z =
    Lowered (StridedSliceResult [0; 1; 4]%Z [3; 4; 1]%Z (Some [3; 4]%Z)).
Proof. split; [|reflexivity]. cbn. unfold regular_axis, wrap. cbn. repeat split; try lia; discriminate. Qed.

Print Assumptions C12_merge_axes_same_slice.
Print Assumptions C13_slice_lowering.
Print Assumptions C13_params_bounded.
Print Assumptions C14_pad_lowering.
Print Assumptions C15_broadcast_lowering.
Print Assumptions C16_concat_lowering.
Print Assumptions C17_split_concat.
Print Assumptions C18_mean_reduces_axes.
Print Assumptions C18_mean_scale.
Print Assumptions C19_strided_slice_partial.
Print Assumptions C19_strided_slice_left_alone.
