(** Model of the lowering of a VALID transpose convolution:
    xformer/Transforms/ReplaceTransposeConv.cpp 33-246 (the pattern), ReplaceConv2D.cpp 102-114 and
    ConvPatterns.h 293-311 (thread regions and parameters of every convolution of the chain), and of
    its execution.  lib_nn (transpose_conv_reorder_kernel_weights, the abstract kernel) and the runtime
    are not in the repository: their contracts are stated here and in ConvGeomModel. *)
From Coq Require Import List ZArith Bool Arith Permutation.
Import ListNotations.
From Verif Require Import ConvOptSpec ConvGeomModel ThreadModel.
Local Open Scope Z_scope.

(** Element types: quantised signed 8 bits, quantised signed 16 bits, anything else. *)
Inductive elt := QI8 | QI16 | OtherElt.
Definition is8 (e : elt) : bool := match e with QI8 => true | _ => false end.
Definition is16 (e : elt) : bool := match e with QI16 => true | _ => false end.
(** What defines the weights operand. *)
Inductive weights_def := WQConst (w : list Z) | WOtherOp | WArgument.

(** TFL.transpose_conv; the weights have shape [outD; kH; kW; inD]. *)
Record tconv := TConv {
  t_in : elt; t_w : elt; t_out : elt; t_valid : bool;
  t_inH : nat; t_inW : nat; t_inD : nat;
  t_outH : Z; t_outW : Z; t_outD : nat;
  t_kH : nat; t_kW : nat; t_sH : nat; t_sW : nat;
  t_weights : weights_def; t_zx : Z (* zero point of the input *) }.

(** XC.fake_conv2d with input strides 1, dilations 1, VALID (ReplaceTransposeConv.cpp 200-229).
    [f_partial]: the partial output operand is the previous convolution (otherwise none). *)
Record fake := Fake {
  f_partial : bool; f_kH : nat; f_kW : nat; f_weights : list Z;
  f_subH : nat; f_subW : nat; f_strideH : nat; f_strideW : nat; f_offset : Z }.

Inductive result := NotApplied | Crash | Replaced (pad : option (Z * Z)) (chain : list fake).

(** ReplaceTransposeConv.cpp 35-66 and 78-86. *)
Definition i16_tconv (t : tconv) : bool := is16 (t_in t) && is16 (t_out t).
Definition eligible (t : tconv) : bool :=
  (is8 (t_in t) || is16 (t_in t)) && is8 (t_w t) && (is8 (t_out t) || is16 (t_out t)) && t_valid t &&
  Nat.eqb (t_inD t mod 4) 0 && Nat.eqb (t_outD t mod 4) 0 &&
  (negb (i16_tconv t) || (Nat.eqb (t_inD t mod 16) 0 && Nat.eqb (t_outD t mod 16) 0)).

(** c.weights of transpose_conv_reorder_kernel_weights (lib_nn, contract as in ConvGeomModel.reorder_kernel):
    shape [outD; skH; skW; inD], element (o, a, b, i) is element (o, tap a b, i) of the original. *)
Definition sub_weights (t : tconv) (w : list Z) (c : sub_kernel) : list Z :=
  map (fun n =>
         let i := (n mod t_inD t)%nat in
         let b := ((n / t_inD t) mod skW c)%nat in
         let a := ((n / t_inD t / skW c) mod skH c)%nat in
         let o := (n / t_inD t / skW c / skH c)%nat in
         nth (((o * t_kH t + fst (tap c a b)) * t_kW t + snd (tap c a b)) * t_inD t + i)%nat w 0)
      (seq 0 (t_outD t * skH c * skW c * t_inD t)).

(** ReplaceTransposeConv.cpp 171-233: the chain; only the first convolution has no partial output. *)
Fixpoint make_chain (t : tconv) (w : list Z) (vp hp : Z) (prev : bool) (cs : list sub_kernel) : list fake :=
  match cs with
  | [] => []
  | c :: tl =>
      Fake prev (skH c) (skW c) (sub_weights t w c) (subH c) (subW c) (t_sH t) (t_sW t)
           (input_offset (i16_tconv t) (Z.of_nat (t_inD t)) (Z.of_nat (t_inW t)) vp hp c)
      :: make_chain t w vp hp true tl
  end.

(** ReplaceTransposeConv.cpp 33-246.  [Crash]: dyn_cast of the null defining operation of a block argument, or the
    use of the null result of dyn_cast (lines 89-93).  The pad operator (lines 119-162) pads rows and columns on
    both sides; TFLite pads with the zero point. *)
Definition replace_tconv (t : tconv) : result :=
  if eligible t then
    match t_weights t with
    | WQConst w =>
        let cs := reorder_kernel (t_kH t) (t_kW t) (t_sH t) (t_sW t) in
        let '(vp, hp) := transpose_padding cs in
        Replaced (if (vp >? 0) || (hp >? 0) then Some (vp, hp) else None) (make_chain t w vp hp false cs)
    | WOtherOp | WArgument => Crash
    end
  else NotApplied.

(** ReplaceConv2D.cpp 102-109: regions of the threads; the output geometry Y is the type of the result, which is the
    type of the transpose convolution (ReplaceTransposeConv.cpp 206, 217). *)
Definition regions (ds : list (Z * Z)) (threads : nat) (t : tconv) (f : fake) : option (list region) :=
  get_image_region_thread_splits ds threads (t_outH t) (t_outW t) (Z.of_nat (t_outD t))
    (Z.of_nat (f_subH f)) (Z.of_nat (f_subW f)) (Z.of_nat (f_strideH f)) (Z.of_nat (f_strideW f)).

(** *** Execution (contract of lib_nn's kernels, not in the repository) *)
(** Accumulator (without the bias) of channel [o] at position (y, x) of the sub-grid.  [mem a] is the element at byte
    address [a] of the input tensor, whose rows have [width] pixels of elements of [size] bytes. *)
Definition fake_accumulator (size : Z) (zx : Z) (mem : Z -> Z) (width : Z) (depth : nat) (f : fake) (o : nat) (y x : Z) : Z :=
  zsum (fun a => zsum (fun b => zsum (fun i =>
    (mem (f_offset f + size * (((y + Z.of_nat a) * width + (x + Z.of_nat b)) * Z.of_nat depth + Z.of_nat i)) - zx) *
    nth (((o * f_kH f + a) * f_kW f + b) * depth + i)%nat (f_weights f) 0) depth) (f_kW f)) (f_kH f).

(** The values first, first + 1, ... (n of them) of the sub-grid sub + k * stride. *)
Definition grid_points (first n : Z) (sub stride : nat) : list Z :=
  filter (fun v => (Z.of_nat sub <=? v) && ((v - Z.of_nat sub) mod Z.of_nat stride =? 0))
    (map (fun k => first + Z.of_nat k) (seq 0 (Z.to_nat n))).
(** The writes of one thread: (element address, value); [v o y x]: the value of channel [o] at sub-grid position (y, x). *)
Definition thread_writes (outW : Z) (outD : nat) (f : fake) (v : Z -> Z -> Z -> Z) (r : region) : list (Z * Z) :=
  flat_map (fun Y => flat_map (fun X => map (fun k =>
      let c := r_ch r + Z.of_nat k in
      (((Y * outW + X) * Z.of_nat outD + c),
       v c ((Y - Z.of_nat (f_subH f)) / Z.of_nat (f_strideH f)) ((X - Z.of_nat (f_subW f)) / Z.of_nat (f_strideW f))))
      (seq 0 (Z.to_nat (r_chs r))))
    (grid_points (r_col r) (r_cols r) (f_subW f) (f_strideW f)))
  (grid_points (r_row r) (r_rows r) (f_subH f) (f_strideH f)).
Definition memory := Z -> Z.
Definition write (m : memory) (e : Z * Z) : memory := fun a => if a =? fst e then snd e else m a.

(** The chain on the output tensor, elements 0 .. size - 1 of the memory (the rest is whatever surrounds it).  A convolution
    without partial output starts from unspecified contents of the tensor; one with a partial output starts from it (same
    buffer or copy).  The writes of the threads happen in any order. *)
Inductive exec (size : Z) (rg : fake -> option (list region)) (wr : fake -> region -> list (Z * Z)) : memory -> list fake -> memory -> Prop :=
| exec_nil : forall m, exec size rg wr m [] m
| exec_cons : forall prev garbage f tl rs order final,
    (forall a, ~ (0 <= a < size) -> garbage a = prev a) ->
    rg f = Some rs ->
    Permutation (flat_map (wr f) rs) order ->
    exec size rg wr (fold_left write order (if f_partial f then prev else garbage)) tl final ->
    exec size rg wr prev (f :: tl) final.

(** The run of a replaced transpose convolution: [finish o acc] is the output transform of channel [o] (bias, multiplier,
    activation, saturation), [pad] the padding of the input in [mem]. *)
Definition element_size (e : elt) : Z := match e with QI16 => 2 | _ => 1 end.
Definition run_tconv (ds : list (Z * Z)) (threads : nat) (t : tconv) (finish : nat -> Z -> Z) (mem : Z -> Z)
  (pad : option (Z * Z)) (chain : list fake) (before after : memory) : Prop :=
  let width := Z.of_nat (t_inW t) + 2 * match pad with Some p => snd p | None => 0 end in
  let v f c y x := finish (Z.to_nat c)
      (fake_accumulator (element_size (t_in t)) (t_zx t) mem width (t_inD t) f (Z.to_nat c) y x) in
  exec (t_outH t * t_outW t * Z.of_nat (t_outD t)) (regions ds threads t) (fun f r => thread_writes (t_outW t) (t_outD t) f (v f) r) before chain after.

(** OptimizeConv2D.cpp 456-542, SameToValidTransposeConvPattern: the VALID operator and the begin of the slice of its result, if any
    (t_valid false: SAME, the only other padding). *)
Definition same_to_valid_tconv (t : tconv) : option (tconv * option (Z * Z)) :=
  if (is8 (t_in t) || is16 (t_in t)) && (is8 (t_w t) || is16 (t_w t)) && negb (t_valid t) then
    let '((vH, vW), slice) := same_to_valid (Z.of_nat (t_inH t)) (Z.of_nat (t_inW t)) (Z.of_nat (t_kH t)) (Z.of_nat (t_kW t))
                                (Z.of_nat (t_sH t)) (Z.of_nat (t_sW t)) in
    Some (TConv (t_in t) (t_w t) (t_out t) true (t_inH t) (t_inW t) (t_inD t) vH vW (t_outD t) (t_kH t) (t_kW t) (t_sH t) (t_sW t)
            (t_weights t) (t_zx t), slice)
  else None.
