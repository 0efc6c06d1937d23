(** Model of the labelling part of Transforms/OpSplit.cpp 831-880 (OpSplit::runOnOperation) and of the conditions of
    OpSplitPattern (183-201).
    Simplification: the function has no nested regions (func.walk visits its operations in order, then the function itself,
    which is not one of the listed operations: see [walk]). *)
From Coq Require Import List ZArith Bool Arith.
Import ListNotations.
Local Open Scope Z_scope.

(** Operations as the loop distinguishes them: terminators and constants are not counted (849-851); a slice knows the
    operation that defines its input ([None]: a block argument). *)
Inductive opkind := NotCounted | SliceOf (definer : option nat) | OtherOp.
(** The attributes set: opSplitLabel, opSplitLabelStartSplits, opSplitLabelNumSplits. *)
Record labels := Labels { l_label : bool; l_start : bool; l_num : option Z }.
Definition no_labels : labels := Labels false false None.

(** setAttr on the operation at a position. *)
Fixpoint update (p : nat) (f : labels -> labels) (st : list labels) : list labels :=
  match st, p with
  | [], _ => []
  | x :: tl, O => f x :: tl
  | x :: tl, S p' => x :: update p' f tl
  end.
Definition set_label (x : labels) : labels := Labels true (l_start x) (l_num x).
Definition set_start (n : Z) (x : labels) : labels := Labels (l_label x) true (Some n).
Definition set_range (n : Z) (x : labels) : labels := Labels true (l_start x) (Some n).

(** OpSplit.cpp 847-877: one walk, for one (bottom, top, numSplits); [k]: the counter, [p]: the position of the operation.
    [None]: a null pointer is dereferenced (858-860). *)
Fixpoint walk (bottom top num : Z) (ops : list opkind) (p : nat) (k : Z) (st : list labels) : option (list labels) :=
  match ops with
  | [] => Some st
  | NotCounted :: tl => walk bottom top num tl (S p) k st
  | o :: tl =>
      if k =? bottom then
        match o with
        | SliceOf (Some d) => walk bottom top num tl (S p) (k + 1) (update d set_label (update p set_label st))
        | SliceOf None => None
        | _ => walk bottom top num tl (S p) (k + 1) (update p (set_start num) st)
        end
      else if (k <? bottom) && (k >=? top) then walk bottom top num tl (S p) (k + 1) (update p (set_range num) st)
      else walk bottom top num tl (S p) (k + 1) st
  end.

Inductive result := Labelled (st : list labels) | PassFailure | NullPointer.
(** OpSplit.cpp 831-877. *)
Fixpoint label_pairs (bottoms tops nums : list Z) (ops : list opkind) (st : list labels) : option (list labels) :=
  match bottoms, tops, nums with
  | b :: bs, t :: ts, n :: ns =>
      match walk b t n ops 0 0 st with Some st' => label_pairs bs ts ns ops st' | None => None end
  | _, _, _ => Some st
  end.
Definition label_ops (bottoms tops nums : list Z) (ops : list opkind) : result :=
  if Nat.eqb (length bottoms) (length tops) && Nat.eqb (length tops) (length nums)
  then match label_pairs bottoms tops nums ops (map (fun _ => no_labels) ops) with
       | Some st => Labelled st
       | None => NullPointer
       end
  else PassFailure.

(** OpSplit.cpp 190-201: an operation is split when it starts a split and is not itself labelled for raising; the number is
    that of opSplitLabelNumSplits. *)
Definition splits_into (x : labels) : option Z := if l_start x && negb (l_label x) then l_num x else None.
