(** Model of the passes that rewrite a whole function before it is lowered (C88): OptimizeTranspose (OptimizeTranspose.cpp 28-126, without
    --xcore-allow-input-modification), ApplyTFLPatterns (TFLPatterns.td 41-153 and ApplyTFLPatterns.cpp 31-88, 107-155) and the combination of
    reshapes by the canonicaliser (Transforms/Passes.cpp 43-44; TFL.ReshapeOp's canonicalisation, not in the repository), applied by MLIR's greedy driver to operations anywhere in a
    single-block function.  The decisions are the functions of TransposeModel, PatternModel and ConvGeomModel.
    Not here: the patterns of TFLPatterns.td 11-39 (C51, C61), fused activations other than Relu and Relu6, and those of 16-bit operators (C50).
    Simplifications: those of FunModel; a concatenation has no fused activation and its operands are quantised as its result. *)
From Coq Require Import List ZArith Bool Arith.
Import ListNotations.
From Verif Require Import FunModel.
From Verif Require ConvLowerSpec ConvLowerModel ConvGeomModel PatternModel TransposeModel.
Import ConvLowerSpec ConvLowerModel.

(** The constant operand of a pad: rank x 2 values, row major; and back, for rank 4. *)
Definition pad_attr (before after : list nat) : list Z := flat_map (fun p => [Z.of_nat (fst p); Z.of_nat (snd p)]) (combine before after).
Definition attr_before (attr : list Z) : list nat := map (fun d => Z.to_nat (PatternModel.pv attr d 0)) [0; 1; 2; 3].
Definition attr_after (attr : list Z) : list nat := map (fun d => Z.to_nat (PatternModel.pv attr d 1)) [0; 1; 2; 3].

(** Utils.td 52-58, IsSplatAndEqualTo<127>. *)
Definition splat_127 (c : list Z) : bool := negb (Nat.eqb (length c) 0) && forallb (fun v => Z.eqb v 127) c.
(** Util.cpp 54-72 on static shapes. *)
Definition unequal_shape (a r : ty) : bool := negb (PatternModel.has_same_shape (map Some (t_shape a)) (map Some (t_shape r))).

Inductive pass := Transposes | TflPatterns | Canonicalise.

(** What a pattern puts in place of [i], an operation whose operand is the result of [j], given the types of the operands of [j]. *)
Inductive fuse (fresh : nat -> nat) : pass -> list ty -> instr -> instr -> list instr -> Prop :=
(** OptimizeTranspose.cpp 28-93 *)
| UHoist : forall a p before after x pr d perm r s0 s1 s2 s3,
    TransposeModel.perm_is_0231 (zshape perm) = true -> TransposeModel.pads_last_two (combine (zshape before) (zshape after)) = true ->
    t_shape a = [s0; s1; s2; s3] ->
    fuse fresh Transposes [a] (Instr p (TPad before after) [x] pr) (Instr d (TTranspose perm) [p] r)
      [Instr (fresh 0) (TTranspose perm) [x] (Ty [s0; s2; s3; s1] (t_elem a) (t_zero a));
       Instr d (TPad [0; 1; 1; 0] [0; 1; 1; 0]) [fresh 0] r]
(** TFLPatterns.td 108-153 *)
| USwap : forall a p b1 a1 x pr d b2 a2 r inner outer,
    PatternModel.swap_pads (pad_attr b1 a1) (pad_attr b2 a2) = Some (inner, outer) ->
    fuse fresh TflPatterns [a] (Instr p (TPad b1 a1) [x] pr) (Instr d (TPad b2 a2) [p] r)
      [Instr (fresh 0) (TPad (attr_before inner) (attr_after inner)) [x] (Ty (PatternModel.pad_channel_output_type (t_shape a) (t_shape r)) (t_elem a) (t_zero a));
       Instr d (TPad (attr_before outer) (attr_after outer)) [fresh 0] r]
(** ApplyTFLPatterns.cpp 107-155 *)
| UQuantise : forall tys c axis xs cr d f r,
    t_zero cr <> None ->
    fuse fresh TflPatterns tys (Instr c (TConcat axis) xs cr) (Instr d (TQuantize f) [c] r)
      (map (fun p => Instr (fresh (fst p)) (TQuantize f) [fst (snd p)] (Ty (t_shape (snd (snd p))) (t_elem r) (t_zero r)))
           (combine (seq 0 (length xs)) (combine xs tys)) ++
       [Instr d (TConcat axis) (map fresh (seq 0 (length xs))) (Ty (t_shape cr) (t_elem r) (t_zero r))])
(** TFLPatterns.td 55-56, Utils.td 52-58: Relu(Minimum(x, 127)) *)
| UMinimum : forall a p cs c x pr d m si zi so zo r,
    splat_127 c = true ->
    fuse fresh TflPatterns [a] (Instr p (TMinimum cs c) [x] pr) (Instr d (TCompute (CAct m LutModel.Relu si zi so zo)) [p] r)
      [Instr d (TCompute (CAct m LutModel.Relu si zi so zo)) [x] r]
(** TFLPatterns.td 58-62: Relu(Conv(x)).  Simplification: only when the two results are quantised alike (otherwise the pattern changes
    results, C51). *)
| URelu : forall a p c t q f b x pr d m r,
    at_faf t = NONE ->
    fuse fresh TflPatterns [a] (Instr p (TCompute (CConv c t q f b)) [x] pr)
      (Instr d (TCompute (CAct m LutModel.Relu (q_step q) (q_zp q) (q_step q) (q_zp q))) [p] r)
      [Instr d (TCompute (CConv c (with_faf RELU t) q f b)) [x] r]
(** a reshape of a reshape *)
| UReshape : forall a p x pr d r,
    fuse fresh Canonicalise [a] (Instr p TReshape [x] pr) (Instr d TReshape [p] r) [Instr d TReshape [x] r].

(** The convolution of TFLPatterns.td 42-48, 51-56 and ApplyTFLPatterns.cpp 31-78: VALID on the padded input, the other attributes unchanged. *)
Definition same_pads (c : conv) : (Z * Z) * (Z * Z) * (Z * Z) :=
  let '(h, w, _) := c_in c in let '(fh, fw, _) := c_filter c in
  ConvGeomModel.conv_padding_values h w fh fw (fst (c_dilation c)) (snd (c_dilation c)) (fst (c_stride c)) (snd (c_stride c)).
Definition valid_conv (c : conv) : conv :=
  let '(_, _, d) := c_in c in
  let '(_, _, (newH, newW)) := same_pads c in
  mk_conv (c_i16 c) (newH, newW, d) (c_out c) (c_filter c) VALID (c_padding_values c) (c_stride c) (c_dilation c) (c_in_zp c).
Definition valid_attr (t : attributes) : attributes := mk_attr (at_dh t) (at_dw t) (at_faf t) VALID (at_sh t) (at_sw t) (at_dm t).
(** The pad in front of it. *)
Definition same_pad_op (c : conv) : fop :=
  let '((top, bottom), (lft, rgt), _) := same_pads c in
  TPad [0; Z.to_nat top; Z.to_nat lft; 0] [0; Z.to_nat bottom; Z.to_nat rgt; 0].
Definition same_pad_shape (c : conv) (a : list nat) : list nat :=
  let '(_, _, (newH, newW)) := same_pads c in [nth 0 a 0; Z.to_nat newH; Z.to_nat newW; nth 3 a 0].
Definition is_same (p : padding) : bool := match p with SAME => true | _ => false end.
(** One operation becomes several: TFLPatterns.td 41-56 (a depthwise convolution of 16-bit values never matches). *)
Inductive expand (fresh : nat -> nat) : pass -> list ty -> instr -> list instr -> Prop :=
| ESame : forall a d c t q f b args r,
    is_same (c_padding c) = true ->
    expand fresh TflPatterns [a] (Instr d (TCompute (CConv c t q f b)) args r)
      [Instr (fresh 0) (same_pad_op c) args (Ty (same_pad_shape c (t_shape a)) (t_elem a) (t_zero a));
       Instr d (TCompute (CConv (valid_conv c) (valid_attr t) q f b)) [fresh 0] r]
| ESameDepthwise : forall a d c t q f b args r,
    is_same (c_padding c) = true -> c_i16 c = false ->
    expand fresh TflPatterns [a] (Instr d (TCompute (CDepthwise c t q f b)) args r)
      [Instr (fresh 0) (same_pad_op c) args (Ty (same_pad_shape c (t_shape a)) (t_elem a) (t_zero a));
       Instr d (TCompute (CDepthwise (valid_conv c) (valid_attr t) q f b)) [fresh 0] r]
(** TFLPatterns.td 64-79 (Relu and Relu6 on 8 bits; the others: C50) *)
| EUnfuse : forall a1 a2 d f ac s z args r m,
    expand fresh TflPatterns [a1; a2] (Instr d (TBinary f (Some ac) s z) args r)
      [Instr (fresh 0) (TBinary f None s z) args r; Instr d (TCompute (CAct m ac s z s z)) [fresh 0] r]
(** TFLPatterns.td 81-106 *)
| EBroadcastLhs : forall a1 a2 d f faf s z x1 x2 r,
    unequal_shape a1 r = true ->
    expand fresh TflPatterns [a1; a2] (Instr d (TBinary f faf s z) [x1; x2] r)
      [Instr (fresh 0) TBroadcast [x1] (Ty (t_shape r) (t_elem a1) (t_zero a1)); Instr d (TBinary f faf s z) [fresh 0; x2] r]
| EBroadcastRhs : forall a1 a2 d f faf s z x1 x2 r,
    unequal_shape a2 r = true ->
    expand fresh TflPatterns [a1; a2] (Instr d (TBinary f faf s z) [x1; x2] r)
      [Instr (fresh 0) TBroadcast [x2] (Ty (t_shape r) (t_elem a2) (t_zero a2)); Instr d (TBinary f faf s z) [x1; fresh 0] r].

(** OptimizeTranspose.cpp 94-126: the result of [i] is the operand of [j]. *)
Inductive cancels : pass -> instr -> instr -> Prop :=
| Cancels : forall p perm1 x pr d perm0 r,
    TransposeModel.are_cancellable (zshape perm0) (zshape perm1) = true ->
    cancels Transposes (Instr p (TTranspose perm1) [x] pr) (Instr d (TTranspose perm0) [p] r).

Definition new_name (fresh : nat -> nat) (f : func) : Prop := (forall j k, fresh j = fresh k -> j = k) /\ forall k, ~ mentioned f (fresh k).

(** One application of a pattern by the driver, or the removal of a dead operation. *)
Inductive opt_step (p : pass) : func -> func -> Prop :=
| Fused : forall ps pre j mid i post rets tys fresh news,
    lookups (scope ps pre) (i_args j) = Some tys -> fuse fresh p tys j i news -> new_name fresh (Func ps (pre ++ j :: mid ++ i :: post) rets) ->
    opt_step p (Func ps (pre ++ j :: mid ++ i :: post) rets) (Func ps (pre ++ j :: mid ++ news ++ post) rets)
| Expanded : forall ps pre i post rets tys fresh news,
    lookups (scope ps pre) (i_args i) = Some tys -> expand fresh p tys i news -> new_name fresh (Func ps (pre ++ i :: post) rets) ->
    opt_step p (Func ps (pre ++ i :: post) rets) (Func ps (pre ++ news ++ post) rets)
| Cancelled : forall ps pre j mid i post rets x,
    cancels p j i -> i_args j = [x] ->
    opt_step p (Func ps (pre ++ j :: mid ++ i :: post) rets)
      (Func ps (pre ++ j :: mid ++ map (rename_instr (rename (i_dst i) x)) post) (map (rename (i_dst i) x) rets))
| Unused : forall ps pre i post rets,
    (forall j, In j post -> ~ mentions j (i_dst i)) -> ~ In (i_dst i) rets ->
    opt_step p (Func ps (pre ++ i :: post) rets) (Func ps (pre ++ post) rets).
