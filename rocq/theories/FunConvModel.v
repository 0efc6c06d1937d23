(** Model of the passes ReplaceFCWithConv2D (ReplaceFCWithConv2D.cpp 28-185) and OptimizeConv2D (OptimizeConv2D.cpp 795-852) on whole functions (C93): the patterns for TFL.FullyConnectedOp, TFL.Conv2DOp and TFL.DepthwiseConv2DOp applied by MLIR's greedy driver to
    operations anywhere in a single-block function.  The constants are computed by the functions of ConvOptModel (C29-C31, C47).
    Not here: TFL.TransposeConvOp (C32, C48).
    Simplifications: those of FunOpsModel; an absent bias is the empty list; the per-channel parameters of filter and bias (C29-C31, C47 prove that they follow their channels) and what lib_nn computes from the new constants
    are the new [quant], related to the old one by [requantised]. *)
From Coq Require Import List ZArith Bool Arith.
Import ListNotations.
From Verif Require Import FunOpsModel FunModel FunOptModel.
From Verif Require ConvLowerSpec ConvLowerModel ConvOptModel.
Import ConvLowerSpec ConvLowerModel.
Local Open Scope Z_scope.

Definition consts (filter bias : list Z) : ConvOptModel.conv_consts :=
  ConvOptModel.Consts filter (match bias with [] => None | _ => Some bias end) None None.
Definition bias_of (c : ConvOptModel.conv_consts) : list Z := match ConvOptModel.c_bias c with Some l => l | None => [] end.

(** The operator on the new constants: same type of the result; channel [o] of its [n] first channels is requantised as channel [from + o] of the old operator. *)
Definition requantised (q q' : quant) (n from : Z) (c : ConvOptModel.conv_consts) : Prop :=
  q_lo q' = q_lo q /\ q_hi q' = q_hi q /\ q_zp q' = q_zp q /\ q_6 q' = q_6 q /\ q_1 q' = q_1 q /\ q_m1 q' = q_m1 q /\ q_step q' = q_step q /\
  (forall o acc, 0 <= o < n -> q_scale q' o acc = q_scale q (from + o) acc) /\
  q_read q' (q_weights q') (q_muls q') = (ConvOptModel.c_filter c, bias_of c, q_scale q').

(** The types of the operator with other channels: 219-228, 276-280 (input and filter), 385-395 (result). *)
Definition pad_inputs (c : conv) (p : Z) : conv :=
  let '(h, w, d) := c_in c in let '(fh, fw, fd) := c_filter c in
  mk_conv (c_i16 c) (h, w, d + p) (c_out c) (fh, fw, fd + p) (c_padding c) (c_padding_values c) (c_stride c) (c_dilation c) (c_in_zp c).
Definition with_outputs (c : conv) (n : Z) : conv :=
  let '(oh, ow, _) := c_out c in
  mk_conv (c_i16 c) (c_in c) (oh, ow, n) (c_filter c) (c_padding c) (c_padding_values c) (c_stride c) (c_dilation c) (c_in_zp c).
(** 186-190: the convolutions of the split have VALID padding. *)
Definition split_conv (c : conv) (n : Z) : conv :=
  let '(oh, ow, _) := c_out c in
  mk_conv (c_i16 c) (c_in c) (oh, ow, n) (c_filter c) VALID (c_padding_values c) (c_stride c) (c_dilation c) (c_in_zp c).

(** Last dimension plus [p]; the last dimension [n]. *)
Definition add_last (s : list nat) (p : nat) : list nat := match s with [a; b; c; d] => [a; b; c; (d + p)%nat] | _ => s end.
Definition set_last (s : list nat) (n : nat) : list nat := match s with [a; b; c; _] => [a; b; c; n] | _ => s end.

(** 207-228, createInputPadOp; 421-437: the slice of createPaddedConvWithSliceOp (its batch size is 1). *)
Definition input_pad (x d : nat) (a : ty) (p : nat) : instr := Instr d (TPad [0; 0; 0; 0]%nat [0; 0; 0; p]%nat) [x] (Ty (add_last (t_shape a) p) (t_elem a) (t_zero a)).
Definition slice_back (d x : nat) (r : ty) : instr :=
  Instr d (TSlice [0; 0; 0; 0]%nat [1; Z.of_nat (nth 1 (t_shape r) 0%nat); Z.of_nat (nth 2 (t_shape r) 0%nat); Z.of_nat (nth 3 (t_shape r) 0%nat)]) [x] r.

Definition out_channels (c : conv) : Z := let '(_, _, n) := c_out c in n.
Definition in_channels (c : conv) : Z := let '(_, _, n) := c_in c in n.
(** Elements of the filter of one output channel. *)
Definition per_channel (c : conv) : Z := let '(fh, fw, fd) := c_filter c in fh * fw * fd.

(** The padding patterns (frozenPatterns, 799-830). *)
Inductive pad_conv (fresh : nat -> nat) : list ty -> instr -> list instr -> Prop :=
(** 544-632, PadConv2DInputPattern *)
| NInput : forall a d c t q f b x r p cs q',
    ConvOptModel.pad_conv_input (c_i16 c) (Z.to_nat (in_channels c)) (consts f b) = Some (p, cs) -> requantised q q' (out_channels c) 0 cs ->
    pad_conv fresh [a] (Instr d (TCompute (CConv c t q f b)) [x] r)
      [input_pad x (fresh 0%nat) a p;
       Instr d (TCompute (CConv (pad_inputs c (Z.of_nat p)) t q' (ConvOptModel.c_filter cs) (bias_of cs))) [fresh 0%nat] r]
(** 634-725, PadConv2DOutputPattern *)
| NOutput : forall a d c t q f b x r p cs q',
    ConvOptModel.pad_conv_output (c_i16 c) (Z.to_nat (out_channels c)) (Z.to_nat (per_channel c)) (consts f b) = Some (p, cs) -> requantised q q' (out_channels c) 0 cs ->
    pad_conv fresh [a] (Instr d (TCompute (CConv c t q f b)) [x] r)
      [Instr (fresh 0%nat) (TCompute (CConv (with_outputs c (out_channels c + Z.of_nat p)) t q' (ConvOptModel.c_filter cs) (bias_of cs))) [x]
         (Ty (add_last (t_shape r) p) (t_elem r) (t_zero r));
       slice_back d (fresh 0%nat) r]
(** 727-793, PadTo4DepthwiseConv2DPattern *)
| NDepthwise : forall a d c t q f b x r p cs q',
    c_i16 c = false -> ConvOptModel.pad_depthwise (Z.to_nat (in_channels c)) (Z.to_nat (out_channels c)) (consts f b) = Some (p, cs) -> requantised q q' (out_channels c) 0 cs ->
    pad_conv fresh [a] (Instr d (TCompute (CDepthwise c t q f b)) [x] r)
      [input_pad x (fresh 0%nat) a p;
       Instr (fresh 1%nat) (TCompute (CDepthwise (with_outputs (pad_inputs c (Z.of_nat p)) (out_channels c + Z.of_nat p)) t q' (ConvOptModel.c_filter cs) (bias_of cs))) [fresh 0%nat]
         (Ty (add_last (t_shape r) p) (t_elem r) (t_zero r));
       slice_back d (fresh 1%nat) r].

(** 133-199: one convolution for each group of output channels; [k]: number of the group, [from]: its first channel. *)
Inductive split_convs (fresh : nat -> nat) (c : conv) (t : attributes) (q : quant) (x : nat) (r : ty) : nat -> Z -> list (nat * ConvOptModel.conv_consts) -> list instr -> Prop :=
| SplitNil : forall k from, split_convs fresh c t q x r k from [] []
| SplitCons : forall k from n cs groups q' tl,
    requantised q q' (Z.of_nat n) from cs -> split_convs fresh c t q x r (S k) (from + Z.of_nat n) groups tl ->
    split_convs fresh c t q x r k from ((n, cs) :: groups)
      (Instr (fresh k) (TCompute (CConv (split_conv c (Z.of_nat n)) (valid_attr t) q' (ConvOptModel.c_filter cs) (bias_of cs))) [x] (Ty (set_last (t_shape r) n) (t_elem r) (t_zero r)) :: tl).
(** 27-204, ChannelwiseSplitConv2DOutputPattern; [size]: --xcore-conv-channelwise-split-size (XCoreOptMain.cpp 171-175); int arithmetic. *)
Inductive split_output (size : Z) (fresh : nat -> nat) : list ty -> instr -> list instr -> Prop :=
| NSplit : forall a d c t q f b x r ns groups convs,
    ConvOptModel.num_splits (Z.of_nat (length f)) size (out_channels c) = Some ns ->
    ConvOptModel.split_groups (Z.to_nat (per_channel c)) (consts f b) 0 (ConvOptModel.split_sizes (out_channels c) ns) = Some groups ->
    split_convs fresh c t q x r 0 0 groups convs ->
    split_output size fresh [a] (Instr d (TCompute (CConv c t q f b)) [x] r)
      (convs ++ [Instr d (TConcat 3) (map fresh (seq 0 (length groups))) r]).

(** ReplaceFCWithConv2D.cpp 28-150: a 1x1 convolution between two reshapes (C35). *)
Inductive full_conv (fresh : nat -> nat) : list ty -> instr -> list instr -> Prop :=
| NFull : forall a d fc t q f b x r outside s1 c' s2 s3,
    replace_compute outside (CFull fc t q f b) = ByConv s1 c' s2 s3 ->
    full_conv fresh [a] (Instr d (TCompute (CFull fc t q f b)) [x] r)
      [Instr (fresh 0%nat) TReshape [x] (Ty s1 (t_elem a) (t_zero a));
       Instr (fresh 1%nat) (TCompute c') [fresh 0%nat] (Ty s2 (t_elem r) (t_zero r));
       Instr d TReshape [fresh 1%nat] (Ty s3 (t_elem r) (t_zero r))].

(** ReplaceFCWithConv2D; the three runs of the driver of OptimizeConv2D (832-851): [Padding] twice and [Splitting] in between. *)
Inductive phase := FullyConnected | Padding | Splitting (size : Z).
Definition phase_pattern (p : phase) (fresh : nat -> nat) : list ty -> instr -> list instr -> Prop :=
  match p with FullyConnected => full_conv fresh | Padding => pad_conv fresh | Splitting size => split_output size fresh end.
Inductive conv_step (p : phase) : func -> func -> Prop :=
| Rewritten : forall ps pre i post rets tys fresh news,
    lookups (scope ps pre) (i_args i) = Some tys -> phase_pattern p fresh tys i news -> new_name fresh (Func ps (pre ++ i :: post) rets) ->
    conv_step p (Func ps (pre ++ i :: post) rets) (Func ps (pre ++ news ++ post) rets)
| Removed : forall ps pre i post rets,
    (forall j, In j post -> ~ mentions j (i_dst i)) -> ~ In (i_dst i) rets ->
    conv_step p (Func ps (pre ++ i :: post) rets) (Func ps (pre ++ post) rets).
