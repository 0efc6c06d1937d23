(** Model of xformer/Transforms/OptimizeConv2D.cpp: channelwise splitting and padding
    of the channels of convolutions. *)
From Coq Require Import List ZArith Bool Arith QArith.
Import ListNotations.
Local Open Scope Z_scope.

(** Constant operands of a convolution: the filter in row-major order (8-bit values),
    the bias when there is one, and the per-channel quantisation parameters (scale,
    zero point) of filter and bias when they are quantised per channel. *)
Record conv_consts := Consts {
  c_filter : list Z;
  c_bias : option (list Z);
  c_fq : option (list (Q * Z));
  c_bq : option (list (Q * Z)) }.

(** std::vector(begin + a, begin + a + n): outside the data is undefined behaviour. *)
Definition range {A} (a n : nat) (l : list A) : option (list A) :=
  if Nat.leb (a + n) (length l) then Some (firstn n (skipn a l)) else None.
Definition range_opt {A} (a n : nat) (o : option (list A)) : option (option (list A)) :=
  match o with
  | None => Some None
  | Some l => match range a n l with Some r => Some (Some r) | None => None end
  end.

(** OptimizeConv2D.cpp 95-104: number of splits; the quotient of integers is already
    rounded down when ceil is applied.  [None]: the pattern does not apply. *)
Definition num_splits (filterSize splitSize filterBatchSize : Z) : option Z :=
  let n := Z.quot filterSize splitSize in
  if (n <? 2) || (Z.quot filterBatchSize 4 <? 2) then None else Some n.

(** OptimizeConv2D.cpp 106-121. *)
Fixpoint split_sizes_loop (n : nat) (d r : Z) : list Z :=
  match n with
  | O => []
  | S n' => if r >? 0 then (d + 1) * 4 :: split_sizes_loop n' d (r - 1) else d * 4 :: split_sizes_loop n' d r
  end.
Definition split_sizes (filterBatchSize numSplits : Z) : list Z :=
  let tmp := Z.quot filterBatchSize 4 in
  split_sizes_loop (Z.to_nat numSplits) (Z.quot tmp numSplits) (Z.rem tmp numSplits).

(** OptimizeConv2D.cpp 133-199: the constants of the convolutions; [k] is
    filterSizeExcludingBatch, [elems] the running channel offset.  The input, strides,
    dilations and activation are those of the original; padding is VALID. *)
Fixpoint split_groups (k : nat) (c : conv_consts) (elems : nat) (sizes : list Z) : option (list (nat * conv_consts)) :=
  match sizes with
  | [] => Some []
  | z :: tl =>
      let n := Z.to_nat z in
      match range (elems * k) (n * k) (c_filter c), range_opt elems n (c_bias c),
            range_opt elems n (c_fq c), range_opt elems n (c_bq c), split_groups k c (elems + n) tl with
      | Some f, Some b, Some fq, Some bq, Some gs => Some ((n, Consts f b fq bq) :: gs)
      | _, _, _, _, _ => None
      end
  end.

(** OptimizeConv2D.cpp 281-292, createPaddedFilterOp with padDim 3: every row of
    [depth] elements is followed by [p] zeros. *)
Fixpoint pad_depth_loop (fuel : nat) (depth p : nat) (l : list Z) : list Z :=
  match fuel, l with
  | O, _ => []
  | _, [] => []
  | S fuel', _ => firstn depth l ++ repeat 0 p ++ pad_depth_loop fuel' depth p (skipn depth l)
  end.
Definition pad_depth (depth p : nat) (l : list Z) : list Z := pad_depth_loop (length l) depth p l.

(** OptimizeConv2D.cpp 293-300, padDim 0: [p] filters of [k] zeros are appended. *)
Definition pad_batch (k p : nat) (l : list Z) : list Z := l ++ repeat 0 (p * k).

(** OptimizeConv2D.cpp 230-268, getPaddedResultType: per-channel parameters are
    extended with scale 1 and zero point 0. *)
Definition pad_q (p : nat) (q : option (list (Q * Z))) : option (list (Q * Z)) :=
  match q with Some l => Some (l ++ repeat (1%Q, 0) p) | None => None end.
(** OptimizeConv2D.cpp 332-374, createPaddedBiasOp. *)
Definition pad_bias (p : nat) (b : option (list Z)) : option (list Z) :=
  match b with Some l => Some (l ++ repeat 0 p) | None => None end.

(** OptimizeConv2D.cpp 599-604, 690-695, 764: padding up to a multiple of [align]. *)
Definition pad_size (depth align : Z) : Z := Z.quot (depth + align - 1) align * align - depth.
(** 8-bit and 16-bit convolutions: 4 and 16 channels. *)
Definition alignment (i16 : bool) : Z := if i16 then 16 else 4.

(** OptimizeConv2D.cpp 544-632, PadConv2DInputPattern: the padding of the input depth and
    the new constants; the quantised dimension of the filter is 0, so its parameters are
    unchanged.  [None]: does not apply. *)
Definition pad_conv_input (i16 : bool) (depth : nat) (c : conv_consts) : option (nat * conv_consts) :=
  let p := pad_size (Z.of_nat depth) (alignment i16) in
  if p =? 0 then None
  else let p := Z.to_nat p in Some (p, Consts (pad_depth depth p (c_filter c)) (c_bias c) (c_fq c) (c_bq c)).

(** OptimizeConv2D.cpp 634-725, PadConv2DOutputPattern: number of added output channels
    and new constants; the result is sliced back to the first [outDepth] channels
    (376-454; the slice has batch size 1). *)
Definition pad_conv_output (i16 : bool) (outDepth k : nat) (c : conv_consts) : option (nat * conv_consts) :=
  let p := pad_size (Z.of_nat outDepth) (alignment i16) in
  if p =? 0 then None
  else let p := Z.to_nat p in
       Some (p, Consts (pad_batch k p (c_filter c)) (pad_bias p (c_bias c)) (pad_q p (c_fq c)) (pad_q p (c_bq c))).

(** OptimizeConv2D.cpp 727-793, PadTo4DepthwiseConv2DPattern: the quantised dimension of
    the filter is 3. *)
Definition pad_depthwise (inDepth outDepth : nat) (c : conv_consts) : option (nat * conv_consts) :=
  if Nat.eqb inDepth outDepth then
    let p := pad_size (Z.of_nat inDepth) 4 in
    if p =? 0 then None
    else let p := Z.to_nat p in
         Some (p, Consts (pad_depth inDepth p (c_filter c)) (pad_bias p (c_bias c)) (pad_q p (c_fq c)) (pad_q p (c_bq c)))
  else None.
