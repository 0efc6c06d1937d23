(** Model of the operation-splitting pass as rewriting of a network (Transforms/OpSplit.cpp): the patterns of OpSplitModel
    applied anywhere, any number of times, in any order.
    A network is the expression computing a tensor of batch 1: an image whose pixels hold all channels.  Operators with
    dilation 1 only (C26_refuted_dilation).  Labels (hasAttr(opSplitLabel...)) only restrict when a pattern applies; here a
    pattern may apply whenever its shape matches, which covers every labelling. *)
From Coq Require Import List ZArith Bool.
Import ListNotations.
From Verif Require Import ConvSpec OpSplitModel OpSplitSpec.
Local Open Scope Z_scope.

(** [Src]: a value computed elsewhere, of size h x w.  [Conv]: Conv2D or DepthwiseConv2D with any per-window function [G]
    (filter, bias, requantisation, activation) and the input's zero point [z] as padding.  [Bin]: Add or Mul of two values of
    the same shape.  [BinRow]: Add or Mul with an operand that is not sliced (height 1 after broadcasting): [c] gives its
    value in each column.  [Slice]: rows begin .. begin+size-1.  [Concat]: concatenation along the height ([z]: any pixel,
    not used for indices in range). *)
Inductive net (P : Type) :=
| Src (h w : Z) (img : image P)
| Conv (same : bool) (fh fw : nat) (sH sW : Z) (G : list (list P) -> P) (z : P) (e : net P)
| Pad (top bottom left right : Z) (z : P) (e : net P)
| Bin (f : P -> P -> P) (e1 e2 : net P)
| BinRow (f : P -> P -> P) (c : Z -> P) (e : net P)
| Slice (begin size : Z) (e : net P)
| Concat (z : P) (l : list (net P)).
Arguments Src {P}. Arguments Conv {P}. Arguments Pad {P}. Arguments Bin {P}. Arguments BinRow {P}. Arguments Slice {P}. Arguments Concat {P}.

(** Height and width of the result (its type). *)
Fixpoint dims {P} (e : net P) : Z * Z :=
  match e with
  | Src h w _ => (h, w)
  | Conv same fh fw sH sW _ _ e =>
      (conv_out same (fst (dims e)) (Z.of_nat fh) sH, conv_out same (snd (dims e)) (Z.of_nat fw) sW)
  | Pad t b l r _ e => (t + fst (dims e) + b, l + snd (dims e) + r)
  | Bin _ e1 _ => dims e1
  | BinRow _ _ e => dims e
  | Slice _ size e => (size, snd (dims e))
  | Concat _ l => (fold_right Z.add 0 (map (fun e => fst (dims e)) l),
                   match l with [] => 0 | e :: _ => snd (dims e) end)
  end.

(** One application of a pattern at the root.
    - OpSplit.cpp 183-261: slices of the result and their concatenation;
    - 506-692 (VALID and SAME), 694-829, 406-504: a slice is raised above its operand; for SAME a pad is inserted and the
      convolution becomes VALID; for a convolution or pad, only bands the pattern supports (C26, C27);
    - 91-181: a slice becomes (a slice of) another slice of the same value. *)
Inductive split_root {P} : net P -> net P -> Prop :=
| SplitOp : forall z e n bands,
    op_split (fst (dims e)) n = Some bands -> (Z.of_nat n <= fst (dims e)) ->
    split_root e (Concat z (map (fun b => Slice (fst b) (snd b) e) bands))
| RaiseValid : forall fh fw sH sW G z e begin size,
    let inH := fst (dims e) in let inW := snd (dims e) in
    let r := raise_conv false inH inW (Z.of_nat fh) (Z.of_nat fw) sH sW (conv_out false inH (Z.of_nat fh) sH) begin size in
    split_root (Slice begin size (Conv false fh fw sH sW G z e))
               (Conv false fh fw sH sW G z (Slice (r_begin r) (r_size r) e))
| RaiseSame : forall fh fw sH sW G z e begin size pt pb pl pr,
    let inH := fst (dims e) in let inW := snd (dims e) in
    let r := raise_conv true inH inW (Z.of_nat fh) (Z.of_nat fw) sH sW (conv_out true inH (Z.of_nat fh) sH) begin size in
    band_supported true inH (Z.of_nat fh) sH (conv_out true inH (Z.of_nat fh) sH) begin size ->
    r_pad r = Some (pt, pb, pl, pr) ->
    split_root (Slice begin size (Conv true fh fw sH sW G z e))
               (Conv false fh fw sH sW G z (Pad pt pb pl pr z (Slice (r_begin r) (r_size r) e)))
| RaisePad : forall top bottom left right z pc e begin size,
    let inH := fst (dims e) in let inW := snd (dims e) in
    let outH := top + inH + bottom in
    let r := raise_pad inH inW outH (left + inW + right) pc begin size in
    top = (top + bottom) / 2 -> left = (left + right) / 2 ->
    (begin = 0 \/ top <= begin) -> ((begin <> 0 /\ begin + size = outH) \/ begin + size <= top + inH) ->
    1 <= rp_size r ->
    split_root (Slice begin size (Pad top bottom left right z e))
               (Pad (rp_top r) (rp_bottom r) (rp_left r) (rp_right r) z (Slice (rp_begin r) (rp_size r) e))
| RaiseBin : forall f e1 e2 begin size,
    split_root (Slice begin size (Bin f e1 e2)) (Bin f (Slice begin size e1) (Slice begin size e2))
| RaiseBinRow : forall f c e begin size,
    split_root (Slice begin size (BinRow f c e)) (BinRow f c (Slice begin size e))
| CombineSlice : forall e begin size others ch cand,
    let ins := [1; fst (dims e); snd (dims e); ch] in
    let as_op b n := create_slice [0; b; 0; 0] [1; n; snd (dims e); ch] in
    (forall o, In o others -> exists b n, o = as_op b n /\ 0 <= b /\ 1 <= n /\ b + n <= fst (dims e)) ->
    combine_slice ins (as_op begin size) others = Some cand ->
    split_root (Slice begin size e)
      (match cand with
       | UseExisting c => Slice (nth 1 (sl_begin c) 0) (nth 1 (sl_size c) 0) e
       | SliceOfExisting c new =>
           Slice (nth 1 (sl_begin new) 0) (nth 1 (sl_size new) 0) (Slice (nth 1 (sl_begin c) 0) (nth 1 (sl_size c) 0) e)
       end).

(** The rewrite driver: anywhere in the network. *)
Inductive split_step {P} : net P -> net P -> Prop :=
| AtRoot : forall e e', split_root e e' -> split_step e e'
| InConv : forall same fh fw sH sW G z e e', split_step e e' -> split_step (Conv same fh fw sH sW G z e) (Conv same fh fw sH sW G z e')
| InPad : forall t b l r z e e', split_step e e' -> split_step (Pad t b l r z e) (Pad t b l r z e')
| InBin1 : forall f e1 e1' e2, split_step e1 e1' -> split_step (Bin f e1 e2) (Bin f e1' e2)
| InBin2 : forall f e1 e2 e2', split_step e2 e2' -> split_step (Bin f e1 e2) (Bin f e1 e2')
| InBinRow : forall f c e e', split_step e e' -> split_step (BinRow f c e) (BinRow f c e')
| InSlice : forall b n e e', split_step e e' -> split_step (Slice b n e) (Slice b n e')
| InConcat : forall z l1 e e' l2, split_step e e' -> split_step (Concat z (l1 ++ e :: l2)) (Concat z (l1 ++ e' :: l2)).
