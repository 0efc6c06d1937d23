(** What OptimizeConv2D relies on and what it establishes (C93). *)
From Coq Require Import List ZArith Bool Arith.
Import ListNotations.
From Verif Require Import FunOpsModel FunModel.
From Verif Require ConvLowerSpec ConvLowerModel.
Import ConvLowerSpec ConvLowerModel.
Local Open Scope Z_scope.

(** The constants have the size of their types: filter O x fh x fw x I, depthwise 1 x fh x fw x O, fully connected O x I, bias O or absent. *)
Definition consts_fit (o : fop) : Prop :=
  match o with
  | TCompute (CFull fc _ _ f b) => Z.of_nat (length f) = nth 0 (fl_dims fc) 0 * nth 1 (fl_dims fc) 0 /\ (b = [] \/ Z.of_nat (length b) = nth 0 (fl_dims fc) 0)
  | TCompute (CConv c _ _ f b) =>
      let '(_, _, od) := c_out c in let '(fh, fw, fd) := c_filter c in Z.of_nat (length f) = od * (fh * fw * fd) /\ (b = [] \/ Z.of_nat (length b) = od)
  | TCompute (CDepthwise c _ _ f b) =>
      let '(_, _, od) := c_out c in let '(fh, fw, fd) := c_filter c in Z.of_nat (length f) = fh * fw * fd /\ (b = [] \/ Z.of_nat (length b) = od)
  | _ => True
  end.
(** Channels the kernels take (ReplaceConv2D.cpp): multiples of 4, of 16 for 16-bit values. *)
Definition multiple (i16 : bool) (n : Z) : Prop := (if i16 then 16 else 4 | n).
Definition channels_fit (o : fop) : Prop :=
  match o with
  | TCompute (CConv c _ _ _ _) | TCompute (CDepthwise c _ _ _ _) =>
      let '(_, _, d) := c_in c in let '(_, _, od) := c_out c in multiple (c_i16 c) d /\ multiple (c_i16 c) od
  | _ => True
  end.
(** Four filters of a convolution (4 output channels), input channels rounded up, are no larger than the split size; a fully connected layer is a 1x1 convolution. *)
Definition split_size_fits (size : Z) (o : fop) : Prop :=
  match o with
  | TCompute (CFull fc _ _ _ _) => let d := nth 1 (fl_dims fc) 0 in 4 * (d + (- d) mod (if fl_i16 fc then 16 else 4)) <= size
  | TCompute (CConv c _ _ _ _) => let '(fh, fw, fd) := c_filter c in 4 * (fh * fw * (fd + (- fd) mod (if c_i16 c then 16 else 4))) <= size
  | _ => True
  end.
(** No convolution has SAME padding (TFLPatterns runs before): FunOptSpec.explicit_padding. *)
Definition all_ops (P : fop -> Prop) (f : func) : Prop := forall i, In i (f_body f) -> P (i_op i).
(** No fully connected layer. *)
Definition not_full (o : fop) : Prop := match o with TCompute (CFull _ _ _ _ _) => False | _ => True end.
