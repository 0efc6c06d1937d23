(** Model of the operation-splitting pass (Transforms/OpSplit.cpp) on a function: operations in static single assignment
    form with their labels, the conditions on the uses of a value, the fake slices and the two groups of patterns.
    LabelModel is the part of the pass that sets the labels, SplitNetModel the arithmetic of the patterns.
    Simplifications: batch 1; a value is an image whose pixels hold all channels; quantised 8-bit results (lines 203-206
    reject others); convolutions with dilation 1 (C26_refuted_dilation); slices along the height only (the ones the pass makes);
    constants used for begin, size and paddings are part of the operator, so are weights. *)
From Coq Require Import List ZArith Bool Arith.
Import ListNotations.
From Verif Require Import ConvSpec OpSplitModel OpSplitSpec.
Local Open Scope Z_scope.

(** Height, width and channels of a value. *)
Record gty := GTy { g_h : Z; g_w : Z; g_c : Z }.

(** TFL operations the pass knows: Conv2D or DepthwiseConv2D with any function [G] of a window (and the zero point [z] of the
    input as padding), Pad, Add or Mul, Slice, Concatenation along the height, Mean over height and width, FullyConnected or
    Logistic, constants; [OFake] is XC_FakeSliceOp (XCoreOps.td:99) with its attributes begin and size, one pair for
    each slice; [OOther] is any other operation. *)
Inductive gop (P : Type) :=
| OConv (same : bool) (fh fw : nat) (sH sW : Z) (G : list (list P) -> P) (z : P)
| OPad (top bottom lft rgt : Z) (z : P)
| OBin (f : P -> P -> P)
| OSlice (begin size : Z)
| OConcat (z : P)
| OFake (bands : list (Z * gty))
| OMean (m : list P -> P)
| OUnary (u : list P -> Z -> Z -> P)
| OConst (img : image P)
| OOther (f : list (list P) -> Z -> Z -> P).
Arguments OConv {P}. Arguments OPad {P}. Arguments OBin {P}. Arguments OSlice {P}. Arguments OConcat {P}.
Arguments OFake {P}. Arguments OMean {P}. Arguments OUnary {P}. Arguments OConst {P}. Arguments OOther {P}.

(** An operation: its result and the result's type, operands, and the attributes opSplitLabel, opSplitLabelStartSplits and
    opSplitLabelNumSplits (OpSplit.cpp 30-32). *)
Record node (P : Type) := Node {
  n_dst : nat; n_op : gop P; n_args : list nat; n_ty : gty; n_label : bool; n_start : bool; n_num : option Z }.
Arguments Node {P}. Arguments n_dst {P}. Arguments n_op {P}. Arguments n_args {P}. Arguments n_ty {P}.
Arguments n_label {P}. Arguments n_start {P}. Arguments n_num {P}.
Record graph (P : Type) := Graph { g_params : list (nat * gty); g_body : list (node P); g_rets : list nat }.
Arguments Graph {P}. Arguments g_params {P}. Arguments g_body {P}. Arguments g_rets {P}.

(** getDefiningOp, getUses (of operations; the return is tested apart), types. *)
Definition def_of {P} (f : graph P) (x : nat) : option (node P) := find (fun n => Nat.eqb (n_dst n) x) (g_body f).
Definition users {P} (f : graph P) (x : nat) : list (node P) :=
  filter (fun n => existsb (Nat.eqb x) (n_args n)) (g_body f).
Definition returned {P} (f : graph P) (x : nat) : bool := existsb (Nat.eqb x) (g_rets f).
Definition type_of {P} (f : graph P) (x : nat) : gty :=
  match find (fun p => Nat.eqb (fst p) x) (g_params f) with
  | Some p => snd p
  | None => match def_of f x with Some n => n_ty n | None => GTy 0 0 0 end
  end.

(** replaceOp: the operation that defines [x] is replaced by [news], the last of which defines [x] again;
    replaceAllUsesWith and eraseOp when the replacement exists already. *)
Definition replace {P} (f : graph P) (x : nat) (news : list (node P)) : graph P :=
  Graph (g_params f) (flat_map (fun n => if Nat.eqb (n_dst n) x then news else [n]) (g_body f)) (g_rets f).
Definition rename_to (x y z : nat) : nat := if Nat.eqb z x then y else z.
Definition forward {P} (f : graph P) (x y : nat) : graph P :=
  let g := replace f x [] in
  Graph (g_params g)
        (map (fun n => Node (n_dst n) (n_op n) (map (rename_to x y) (n_args n)) (n_ty n) (n_label n) (n_start n) (n_num n)) (g_body g))
        (map (rename_to x y) (g_rets g)).

(** Names not used in the function. *)
Definition fresh {P} (f : graph P) (k : nat) : nat :=
  (S (fold_right Nat.max 0%nat (map fst (g_params f) ++ map n_dst (g_body f) ++ flat_map n_args (g_body f) ++ g_rets f)) + k)%nat.

(** What the driver finds when it tries the patterns on an operation: no match, the rewritten function, or undefined
    behaviour: a null definingOp is dereferenced, or an operation is used after it was erased, or a division by zero. *)
Inductive attempt (P : Type) := NoMatch | Rewritten (f : graph P) | Undefined.
Arguments NoMatch {P}. Arguments Rewritten {P}. Arguments Undefined {P}.

(** OpSplit.cpp 183-261, OpSplitPattern (Conv2D, DepthwiseConv2D, Add, Mul, Pad: 883-888).  The clone of the operation gets
    the label and a new name; the slices and the concatenation follow it. *)
Definition is_split_op {P} (o : gop P) : bool :=
  match o with OConv _ _ _ _ _ _ _ | OPad _ _ _ _ _ | OBin _ => true | _ => false end.
Definition slice_nodes {P} (f : graph P) (src : nat) (t : gty) (k : nat) (bands : list (Z * Z)) : list (node P) :=
  map (fun p => Node (fresh f (k + fst p)) (OSlice (fst (snd p)) (snd (snd p))) [src]
                     (GTy (snd (snd p)) (g_w t) (g_c t)) true false None)
      (combine (seq 0 (length bands)) bands).
Definition split_node {P} (z : P) (f : graph P) (d : node P) : attempt P :=
  if n_start d && negb (n_label d) && is_split_op (n_op d) then
    match n_num d with
    | None => Undefined
    | Some num =>
      match op_split (g_h (n_ty d)) (Z.to_nat num) with
      | None => Undefined
      | Some bands =>
        let slices := slice_nodes f (fresh f 0) (n_ty d) 1 bands in
        Rewritten (replace f (n_dst d)
          (Node (fresh f 0) (n_op d) (n_args d) (n_ty d) true (n_start d) (n_num d) ::
           slices ++ [Node (n_dst d) (OConcat z) (map n_dst slices) (n_ty d) false false None]))
      end
    end
  else NoMatch.

(** OpSplit.cpp 49-89, isRaisableSlice: the slice and its defining operation have the label, every use of the latter is a
    labelled slice, and there are enough of them. *)
Definition labelled_slice {P} (n : node P) : bool :=
  match n_op n with OSlice _ _ => n_label n | _ => false end.
Definition is_raisable {P} (f : graph P) (s d : node P) : bool :=
  n_label s && n_label d && forallb labelled_slice (users f (n_dst d)) && negb (returned f (n_dst d)) &&
  match n_num d with
  | None => false
  | Some n => (n =? -1) || negb (Z.of_nat (length (users f (n_dst d))) <? n)
  end.
(** 84: the number of splits of the defining operation becomes -1. *)
Definition mark {P} (d : node P) : node P := Node (n_dst d) (n_op d) (n_args d) (n_ty d) (n_label d) (n_start d) (Some (-1)).
Definition mark_raised {P} (f : graph P) (d : node P) : graph P := replace f (n_dst d) [mark d].

(** OpSplit.cpp 91-181, combineSliceWithExisting: the other slices of the value whose rows contain those of this one.  The
    code takes the first in the order of the uses; here [pick] chooses any. *)
Definition containing {P} (f : graph P) (s : node P) (b n : Z) (x : nat) : list (node P) :=
  filter (fun c => match n_op c with
                   | OSlice cb cn => negb (Nat.eqb (n_dst c) (n_dst s)) && (b >=? cb) && (b + n <=? cb + cn)
                   | _ => false end) (users f x).
Definition combine_with {P} (f : graph P) (s : node P) (b n : Z) (c : node P) : graph P :=
  match n_op c with
  | OSlice cb cn =>
      if (b =? cb) && (n =? cn) then forward f (n_dst s) (n_dst c)
      else replace f (n_dst s) [Node (n_dst s) (OSlice (b - cb) n) [n_dst c] (n_ty s) false false None]
  | _ => f
  end.

(** OpSplit.cpp 506-692, RaiseSlicePattern: the convolution [d] is applied to a slice of its input [a]; for SAME a pad (made
    without label) is put between. *)
Definition raise_over_conv {P} (f : graph P) (s d : node P) (b n : Z) : graph P :=
  match n_op d, n_args d with
  | OConv same fh fw sH sW G z, [a] =>
      let t := type_of f a in
      let r := raise_conv same (g_h t) (g_w t) (Z.of_nat fh) (Z.of_nat fw) sH sW (g_h (n_ty d)) b n in
      let sl := Node (fresh f 0) (OSlice (r_begin r) (r_size r)) [a] (GTy (r_size r) (g_w t) (g_c t)) true false None in
      let conv x := Node (n_dst s) (OConv false fh fw sH sW G z) [x] (GTy (r_out_h r) (r_out_w r) (g_c (n_ty d)))
                         (n_label d) (n_start d) (n_num d) in
      match r_pad r with
      | Some (pt, pb, pl, pr) =>
          replace f (n_dst s)
            [sl; Node (fresh f 1) (OPad pt pb pl pr z) [fresh f 0] (GTy (r_padded_h r) (r_padded_w r) (g_c t)) false false None;
             conv (fresh f 1)]
      | None => replace f (n_dst s) [sl; conv (fresh f 0)]
      end
  | _, _ => f
  end.

(** OpSplit.cpp 694-829, RaiseSlicePadPattern (channel padding left out). *)
Definition raise_over_pad {P} (f : graph P) (s d : node P) (b n : Z) : graph P :=
  match n_op d, n_args d with
  | OPad _ _ _ _ z, [a] =>
      let t := type_of f a in
      let r := raise_pad (g_h t) (g_w t) (g_h (n_ty d)) (g_w (n_ty d)) (0, 0) b n in
      replace f (n_dst s)
        [Node (fresh f 0) (OSlice (rp_begin r) (rp_size r)) [a] (GTy (rp_size r) (g_w t) (g_c t)) true false None;
         Node (n_dst s) (OPad (rp_top r) (rp_bottom r) (rp_left r) (rp_right r) z) [fresh f 0]
              (GTy (rp_out_h r) (rp_out_w r) (g_c (n_ty d))) false false None]
  | _, _ => f
  end.

(** OpSplit.cpp 406-504, RaiseSliceBinaryPattern.  [operand]: lines 441-487 for one operand: a slice of it (to be put before the
    new operation), or a fake slice: an existing one gets one more pair, or a new one is put before the original operation
    [d], which uses it from then on (461-478: [d] is cloned and erased). *)
Definition same_type (a b : gty) : bool := (g_h a =? g_h b) && (g_w a =? g_w b) && (g_c a =? g_c b).
Definition with_args {P} (n : node P) (args : list nat) : node P := Node (n_dst n) (n_op n) args (n_ty n) (n_label n) (n_start n) (n_num n).
Inductive operand_kind (P : Type) := KSlice | KFake (k : node P) (bands : list (Z * gty)) | KNew.
Arguments KSlice {P}. Arguments KFake {P}. Arguments KNew {P}.
Definition operand {P} (f : graph P) (d : node P) (a : nat) : operand_kind P :=
  if same_type (type_of f a) (n_ty d) then KSlice
  else match def_of f a with
       | Some k => match n_op k with OFake bands => KFake k bands | _ => KNew end
       | None => KNew
       end.
Definition more_bands {P} (k : node P) (bands : list (Z * gty)) (b : Z) (t : gty) : node P :=
  Node (n_dst k) (OFake (bands ++ [(b, t)])) (n_args k) (n_ty k) (n_label k) (n_start k) (n_num k).
Definition slice_of {P} (s : node P) (x : nat) (b n : Z) (a : nat) : node P :=
  Node x (OSlice b n) [a] (n_ty s) (n_label s) (n_start s) (n_num s).
(** The operand [a2] on the right; [pre1], [x1]: what was done for the left one. *)
Definition raise_over_bin {P} (f : graph P) (s d : node P) (b n : Z) : attempt P :=
  match n_op d, n_args d with
  | OBin op, [a1; a2] =>
      let finish (g : graph P) (pre : list (node P)) (x1 x2 : nat) :=
        Rewritten (replace g (n_dst s) (pre ++ [Node (n_dst s) (OBin op) [x1; x2] (n_ty s) (n_label d) (n_start d) (n_num d)])) in
      let right (g : graph P) (pre : list (node P)) (x1 : nat) :=
        match operand g d a2 with
        | KSlice => finish g (pre ++ [slice_of s (fresh f 1) b n a2]) x1 (fresh f 1)
        | KFake k bands => finish (replace g (n_dst k) [more_bands k bands b (n_ty s)]) pre x1 a2
        | KNew =>
            let fake := Node (fresh f 1) (OFake [(b, n_ty s)]) [a2] (type_of f a2) false false None in
            finish (replace g (n_dst d) [fake; with_args d [a1; fresh f 1]]) pre x1 (fresh f 1)
        end in
      match operand f d a1 with
      | KSlice => right f [slice_of s (fresh f 0) b n a1] (fresh f 0)
      | KFake k bands => right (replace f (n_dst k) [more_bands k bands b (n_ty s)]) [] a1
      | KNew => Undefined (* line 492: opOriginal.getRhs() after eraseOp(opOriginal), line 478 *)
      end
  | _, _ => NoMatch
  end.

(** The patterns on a slice (lines 896-900). *)
Definition rewrite_slice {P} (f : graph P) (s : node P) (pick : nat) : attempt P :=
  match n_op s, n_args s with
  | OSlice b n, [x] =>
      match def_of f x with
      | None => NoMatch
      | Some d =>
        match n_op d with
        | OConv _ _ _ _ _ _ _ | OBin _ =>
            if is_raisable f s d then
              let g := mark_raised f d in
              match containing f s b n x with
              | [] => match n_op d with
                      | OBin _ => raise_over_bin g s (mark d) b n
                      | _ => Rewritten (raise_over_conv g s (mark d) b n)
                      end
              | cands => match nth_error cands pick with
                         | Some c => Rewritten (combine_with g s b n c)
                         | None => NoMatch
                         end
              end
            else NoMatch
        | OPad _ _ _ _ _ => if n_label s && n_label d then Rewritten (raise_over_pad f s d b n) else NoMatch
        | _ => NoMatch
        end
      end
  | _, _ => NoMatch
  end.

(** OpSplit.cpp 331-403, RaiseFakeSliceToSliceMeanPattern: a mean of every recorded slice of the mean's input, and the mean of
    their concatenation.  The number of recorded slices is not compared with the number of splits. *)
Definition type_eqb (a b : gty) : bool := (g_h a =? g_h b) && (g_w a =? g_w b) && (g_c a =? g_c b).
Definition mean_nodes {P} (f : graph P) (d : node P) (a : nat) (m : list P -> P) (bands : list (Z * gty)) : list (node P) :=
  flat_map (fun p => [Node (fresh f (2 * fst p)) (OSlice (fst (snd p)) (g_h (snd (snd p)))) [a] (snd (snd p)) true false None;
                      Node (fresh f (2 * fst p + 1)) (OMean m) [fresh f (2 * fst p)] (n_ty d) (n_label d) (n_start d) (n_num d)])
           (combine (seq 0 (length bands)) bands).
Definition raise_to_means {P} (z : P) (f : graph P) (k d : node P) (m : list P -> P) (a : nat) (bands : list (Z * gty)) : attempt P :=
  match bands with
  | [] => NoMatch
  | (_, t0) :: tl =>
      if n_label d && forallb (fun p => type_eqb (snd p) t0) tl then
        let c := fresh f (2 * length bands) in
        Rewritten (replace f (n_dst k)
          (mean_nodes f d a m bands ++
           [Node c (OConcat z) (map (fun i => fresh f (2 * i + 1)) (seq 0 (length bands)))
                 (GTy (Z.of_nat (length bands)) 1 (g_c (n_ty d))) false false None;
            Node (n_dst k) (OMean m) [c] (n_ty d) (n_label d) (n_start d) (n_num d)]))
      else NoMatch
  end.

(** The patterns on a fake slice (lines 902-906): 265-312 RaiseFakeSlicePattern, 314-329 RaiseFakeSliceConstPattern, and the
    one above. *)
Definition rewrite_fake {P} (z : P) (f : graph P) (k : node P) : attempt P :=
  match n_op k, n_args k with
  | OFake bands, [a] =>
      match def_of f a with
      | None => Undefined (* line 281: definingOp->hasAttr of a function argument *)
      | Some d =>
        match n_op d, n_args d with
        | OConst _, _ => Rewritten (forward f (n_dst k) a)
        | OUnary u, [a'] =>
            match n_num d with
            | Some n =>
                if (Z.of_nat (length bands) =? n) && n_label d then
                  Rewritten (replace f (n_dst k)
                    [Node (fresh f 0) (OFake bands) [a'] (type_of f a') (n_label k) (n_start k) (n_num k);
                     Node (n_dst k) (OUnary u) [fresh f 0] (n_ty d) (n_label d) (n_start d) (n_num d)])
                else NoMatch
            | None => NoMatch
            end
        | OMean m, [a'] => raise_to_means z f k d m a' bands
        | _, _ => NoMatch
        end
      end
  | _, _ => NoMatch
  end.

(** applyPatternsAndFoldGreedily erases operations whose results are not used. *)
Definition unused {P} (f : graph P) (x : nat) : bool :=
  match users f x with [] => negb (returned f x) | _ => false end.

(** One step of the driver with the first (lines 881-888) or the second group of patterns (890-907); operations without uses
    are erased by both. *)
Inductive split_phase {P} (z : P) : graph P -> graph P -> Prop :=
| SplitNode : forall f g d, In d (g_body f) -> split_node z f d = Rewritten g -> split_phase z f g
| SplitDead : forall f d, In d (g_body f) -> unused f (n_dst d) = true -> split_phase z f (replace f (n_dst d) []).
Inductive raise_phase {P} (z : P) : graph P -> graph P -> Prop :=
| RaiseSlice : forall f g s pick, In s (g_body f) -> rewrite_slice f s pick = Rewritten g -> raise_phase z f g
| RaiseFake : forall f g k, In k (g_body f) -> rewrite_fake z f k = Rewritten g -> raise_phase z f g
| RaiseDead : forall f d, In d (g_body f) -> unused f (n_dst d) = true -> raise_phase z f (replace f (n_dst d) []).
