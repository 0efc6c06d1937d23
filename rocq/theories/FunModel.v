(** Model of the lowering of a whole function: the passes ReplaceStridedSlice, ReplaceMean/Sum, ReplacePad,
    ReplaceSlice, ReplaceBroadcast, ReplaceConcat, ReplaceFCWithConv2D, ReplaceMaxPool2D, ReplaceConv2D and the 8-bit activations of XCPatterns
    (Transforms/Passes.cpp:34-57), run by MLIR's greedy pattern driver on
    the single-block function, with dead operators removed by the driver and the canonicaliser (Passes.cpp:36,57).
    The patterns themselves are the functions of SlicePadModel, LowerModel and FunOpsModel; here they are applied to operators of a
    function in SSA form, anywhere, in any order, any number of times.
    Simplifications: every operator has one result and no side effect; constants for begin/size/paddings are attributes;
    operators the passes leave alone are [TOther]; the canonicaliser's constant folding is not modelled. *)
From Coq Require Import List ZArith Bool Arith.
Import ListNotations.
From Verif Require Import SlicePadModel LowerModel.
From Verif Require LutModel.
From Verif Require Export FunOpsModel.

Definition zshape (l : list nat) : list Z := map Z.of_nat l.

(** Operators: TFLite's (T) and the xcore ones (X, IR/XCoreOps.td:81-201).  [TMean f]: TFL.MeanOp or TFL.SumOp on 8-bit values, [f] its
    arithmetic on the reduced values.  [TQuantize f]: TFL.QuantizeOp, [f] on the bytes of an element.  [TCompute], [XCompute]: FunOpsModel.  [TOther f]: an operator no pattern of these passes matches.
    [TBinary f faf s z]: TFL.AddOp, SubOp or MulOp; [f] the result in units of the output before saturation, [faf] the fused activation, [s], [z] scale and zero point of the
    result.  [TMinimum cs c]: TFL.MinimumOp with the constant [c] of shape [cs].  (Both are left alone by the passes of this file; their lowering is C53, C76.) *)
Inductive fop :=
| TSlice (begin : list nat) (sizes : list Z)
| TPad (before after : list nat)
| TBroadcast
| TConcat (axis : Z)
| TStridedSlice (begin_mask end_mask shrink_mask : Z) (begin stop strides : list Z)
| TMean (axes : list nat) (f : list Z -> Z)
| TReshape
| TTranspose (perm : list nat)
| TQuantize (f : list Z -> list Z)
| TConst (data : list Z)
| TCompute (c : compute)
| TBinary (f : Z -> Z -> Z) (faf : option LutModel.activation) (s : QArith_base.Q) (z : Z)
| TMinimum (cs : list nat) (c : list Z)
| TOther (f : list (list Z) -> list Z)
| XSlice (o : slice_op) | XPad (o : pad_op) | XBroadcast (o : broadcast_op) | XConcat (o : concat_op)
| XMean (o : mean_op) (f : list Z -> Z) | XCompute (x : xcompute).

(** One operation: result name, operator, operand names, result type. *)
Record instr := Instr { i_dst : nat; i_op : fop; i_args : list nat; i_ty : ty }.
Record func := Func { f_params : list (nat * ty); f_body : list instr; f_rets : list nat }.

(** Types of the values in scope after the operations [pre]. *)
Definition scope (ps : list (nat * ty)) (pre : list instr) : list (nat * ty) :=
  rev (map (fun i => (i_dst i, i_ty i)) pre) ++ ps.
Fixpoint lookup {V} (e : list (nat * V)) (x : nat) : option V :=
  match e with [] => None | (y, v) :: tl => if Nat.eqb x y then Some v else lookup tl x end.
Fixpoint lookups {V} (e : list (nat * V)) (xs : list nat) : option (list V) :=
  match xs with
  | [] => Some []
  | x :: tl => match lookup e x, lookups e tl with Some v, Some vs => Some (v :: vs) | _, _ => None end
  end.

(** The operand named by a [cvalue] that is not a new concatenation. *)
Definition input_names (l : list (cvalue nat)) : list nat :=
  flat_map (fun c => match c with CInput _ v => [v] | CConcat _ _ => [] end) l.

(** The operations a pattern creates for the operation [i] with operand types [tys]; the last one defines the same result.
    [fresh]: names of the intermediate values.  The Boolean of slice, pad and broadcast (constant input, ReplaceSlice.cpp:50,
    ReplacePad.cpp:52, ReplaceBroadcast.cpp:48) is arbitrary. *)
(** The constants [ts] under the names fresh 0, fresh 1, ... *)
Definition const_instrs (fresh : nat -> nat) (ts : list (list Z)) : list instr :=
  map (fun p => Instr (fresh (fst p)) (TConst (snd p)) [] (Ty [length (snd p)] 1 None)) (combine (seq 0 (length ts)) ts).
Inductive pattern (fresh : nat -> nat) : list ty -> instr -> list instr -> Prop :=
(** ReplaceSlice.cpp:37-106 *)
| PSlice : forall is_const a d begin sizes args r o,
    replace_slice is_const (Z.of_nat (t_elem a)) (zshape (t_shape a)) (zshape (t_shape r)) (zshape begin) sizes = Lowered o ->
    pattern fresh [a] (Instr d (TSlice begin sizes) args r) [Instr d (XSlice o) args r]
(** ReplacePad.cpp:38-121 *)
| PPad : forall is_const a d before after args r o,
    replace_pad is_const (Z.of_nat (t_elem a)) (t_zero a) (zshape (t_shape a)) (zshape (t_shape r)) (zshape before) (zshape after) = Lowered o ->
    pattern fresh [a] (Instr d (TPad before after) args r) [Instr d (XPad o) args r]
(** ReplaceBroadcast.cpp:37-107 *)
| PBroadcast : forall is_const a d args r o,
    replace_broadcast is_const (Z.of_nat (t_elem a)) (zshape (t_shape a)) (zshape (t_shape r)) = Lowered o ->
    pattern fresh [a] (Instr d TBroadcast args r) [Instr d (XBroadcast o) args r]
(** ReplaceConcat.cpp:106-158 (the element size is the output's) *)
| PConcat : forall tys d axis args r o,
    replace_concat (Z.of_nat (t_elem r)) axis (map (fun t => zshape (t_shape t)) tys) (zshape (t_shape r)) = Lowered o ->
    pattern fresh tys (Instr d (TConcat axis) args r) [Instr d (XConcat o) args r]
(** ReplaceConcat.cpp:48-104 *)
| PSplit : forall tys d axis args r s first rest,
    split_concat_step axis (zshape (t_shape r)) (map (fun p => CInput (zshape (t_shape (fst p))) (snd p)) (combine tys args))
      = Lowered (CConcat s first :: rest) ->
    pattern fresh tys (Instr d (TConcat axis) args r)
      [Instr (fresh 0) (TConcat axis) (input_names first) (Ty (map Z.to_nat s) (t_elem r) (t_zero r));
       Instr d (TConcat axis) (fresh 0 :: input_names rest) r]
(** ReplaceStridedSlice.cpp:48-143 *)
| PStrided : forall a d bm em sm begin stop strides args r b s,
    replace_strided_slice 0 0 bm em sm (zshape (t_shape a)) begin stop strides = Lowered (StridedSliceResult b s None) ->
    pattern fresh [a] (Instr d (TStridedSlice bm em sm begin stop strides) args r)
      [Instr d (TSlice (map Z.to_nat b) s) args (Ty (map Z.to_nat s) (t_elem r) (t_zero r))]
| PStridedShrink : forall a d bm em sm begin stop strides args r b s n,
    replace_strided_slice 0 0 bm em sm (zshape (t_shape a)) begin stop strides = Lowered (StridedSliceResult b s (Some n)) ->
    pattern fresh [a] (Instr d (TStridedSlice bm em sm begin stop strides) args r)
      [Instr (fresh 0) (TSlice (map Z.to_nat b) s) args (Ty (map Z.to_nat s) (t_elem r) (t_zero r));
       Instr d TReshape [fresh 0] (Ty (map Z.to_nat n) (t_elem r) (t_zero r))]
(** ReplaceMean.cpp:37-99, ReplaceSum.cpp:37-98 *)
| PMean : forall a d axes f args r o,
    replace_mean true (zshape (t_shape a)) (zshape axes) = Lowered o ->
    pattern fresh [a] (Instr d (TMean axes f) args r) [Instr d (XMean o f) args r]
(** ReplaceConv2D.cpp 49-225, ReplaceMaxPool2D.cpp 32-110, XCPatterns.td 14-25 ([outside]: see FunOpsModel) *)
| PKernel : forall outside a d c args r x ts,
    replace_compute outside c = ByKernel x ts ->
    pattern fresh [a] (Instr d (TCompute c) args r)
      (const_instrs fresh ts ++ [Instr d (XCompute x) (args ++ map fresh (seq 0 (length ts))) r])
(** ConvPatterns.td 10-17 *)
| PRelu : forall outside a d c args r c1 c2,
    replace_compute outside c = ByRelu c1 c2 ->
    pattern fresh [a] (Instr d (TCompute c) args r) [Instr (fresh 0) (TCompute c1) args r; Instr d (TCompute c2) [fresh 0] r]
(** ReplaceFCWithConv2D.cpp 28-150 *)
| PConv1x1 : forall outside a d c args r s1 c' s2 s3,
    replace_compute outside c = ByConv s1 c' s2 s3 ->
    pattern fresh [a] (Instr d (TCompute c) args r)
      [Instr (fresh 0) TReshape args (Ty s1 (t_elem a) (t_zero a));
       Instr (fresh 1) (TCompute c') [fresh 0] (Ty s2 (t_elem r) (t_zero r));
       Instr d TReshape [fresh 1] (Ty s3 (t_elem r) (t_zero r))].

(** Patterns that replace the result by the operand (same shape): ReplaceSlice.cpp:44-49, ReplacePad.cpp:45-50,
    ReplaceBroadcast.cpp:41-46. *)
Inductive forwards : list ty -> instr -> Prop :=
| FSlice : forall is_const a d begin sizes args r,
    replace_slice is_const (Z.of_nat (t_elem a)) (zshape (t_shape a)) (zshape (t_shape r)) (zshape begin) sizes = Forward ->
    forwards [a] (Instr d (TSlice begin sizes) args r)
| FPad : forall is_const a d before after args r,
    replace_pad is_const (Z.of_nat (t_elem a)) (t_zero a) (zshape (t_shape a)) (zshape (t_shape r)) (zshape before) (zshape after) = Forward ->
    forwards [a] (Instr d (TPad before after) args r)
| FBroadcast : forall is_const a d args r,
    replace_broadcast is_const (Z.of_nat (t_elem a)) (zshape (t_shape a)) (zshape (t_shape r)) = Forward ->
    forwards [a] (Instr d TBroadcast args r).

(** replaceAllUsesWith. *)
Definition rename (x y z : nat) : nat := if Nat.eqb z x then y else z.
Definition rename_instr (s : nat -> nat) (i : instr) : instr := Instr (i_dst i) (i_op i) (map s (i_args i)) (i_ty i).

Definition mentions (i : instr) (x : nat) : Prop := i_dst i = x \/ In x (i_args i).
Definition mentioned (f : func) (x : nat) : Prop :=
  In x (map fst (f_params f)) \/ Exists (fun i => mentions i x) (f_body f) \/ In x (f_rets f).

(** One application of a pattern by the driver. *)
Inductive lower_step : func -> func -> Prop :=
| Replace : forall ps pre i post rets tys fresh news,
    lookups (scope ps pre) (i_args i) = Some tys ->
    pattern fresh tys i news ->
    (forall j k, fresh j = fresh k -> j = k) -> (forall k, ~ mentioned (Func ps (pre ++ i :: post) rets) (fresh k)) ->
    lower_step (Func ps (pre ++ i :: post) rets) (Func ps (pre ++ news ++ post) rets)
| ForwardTo : forall ps pre i post rets tys a,
    lookups (scope ps pre) (i_args i) = Some tys -> forwards tys i -> i_args i = [a] ->
    lower_step (Func ps (pre ++ i :: post) rets)
               (Func ps (pre ++ map (rename_instr (rename (i_dst i) a)) post) (map (rename (i_dst i) a) rets))
| Dead : forall ps pre i post rets,
    (forall j, In j post -> ~ mentions j (i_dst i)) -> ~ In (i_dst i) rets ->
    lower_step (Func ps (pre ++ i :: post) rets) (Func ps (pre ++ post) rets).
