(** Model of xformer/Utils/ThreadSupport.cpp, getImageRegionThreadSplits.
    Simplifications: int arithmetic is unbounded; ceil(double(a)/double(b)) is the
    exact integer ceiling (true for 32-bit operands); getSmallDimSplits
    (lines 16-139) is dead code and not modelled; calculateThreadSplit, called for
    1x1 images (lines 141-156), is in lib_nn (absent from the repository): its
    (start, end) pairs are a parameter. *)
From Coq Require Import List ZArith Bool Arith.
Import ListNotations.
Local Open Scope Z_scope.

(** {topLeftRow, topLeftColumn, topLeftChannel, rows, columns, channels}. *)
Record region := Region {
  r_row : Z; r_col : Z; r_ch : Z; r_rows : Z; r_cols : Z; r_chs : Z }.

(** ceil(double(a) / double(b)), ThreadSupport.cpp:217. *)
Definition ceil_div (a b : Z) : Z := - ((- a) / b).

(** ThreadSupport.cpp:216-227: the loop over [i = numThreads .. 1]. *)
Fixpoint dim_splits (i : nat) (dim stride : Z) : list Z :=
  match i with
  | O => []
  | S i' =>
      let split := ceil_div dim (Z.of_nat i) in
      let rest := dim_splits i' (dim - split) stride in
      if split >? 0 then split * stride :: rest else rest
  end.

(** ThreadSupport.cpp:229-233: dimSplits[size - 1]++; [None]: the vector is empty
    (out of bounds). *)
Fixpoint bump_last (l : list Z) : option (list Z) :=
  match l with
  | [] => None
  | [x] => Some [x + 1]
  | x :: tl => match bump_last tl with Some tl' => Some (x :: tl') | None => None end
  end.

(** ThreadSupport.cpp:241-257, the loop that lays the splits out along the chosen
    dimension of size [size]; gives (start + sub, length) pairs. *)
Fixpoint lay_out (size sub top : Z) (splits : list Z) : list (Z * Z) :=
  match splits with
  | [] => []
  | split :: tl =>
      let split := if (top + sub + split >? size) && Z.odd size then split - 1 else split in
      (top + sub, split) :: lay_out size sub (top + split) tl
  end.

(** ThreadSupport.cpp:179-193: the dimension to split and its aligned size. *)
Definition choose_height (n alignedH alignedW : Z) : bool :=
  if alignedH mod n =? 0 then true
  else if alignedW mod n =? 0 then false
  else alignedH >? alignedW.

(** ThreadSupport.cpp:160-261. [depthSplits] are the pairs (s[i], e[i]) computed
    by lib_nn's calculateThreadSplit(numThreads, imageDepth, s, e, 16). *)
Definition get_image_region_thread_splits
  (depthSplits : list (Z * Z)) (numThreads : nat) (H W D subH subW strideH strideW : Z)
  : option (list region) :=
  if (H =? 1) && (W =? 1) && (subH =? 0) && (subW =? 0) && (strideH =? 1) && (strideW =? 1)
  then Some (map (fun se => Region 0 0 (fst se) H W (snd se - fst se)) depthSplits)
  else
    let aH := H / strideH in
    let aW := W / strideW in
    let isH := choose_height (Z.of_nat numThreads) aH aW in
    let splits := if isH then dim_splits numThreads aH strideH
                  else dim_splits numThreads aW strideW in
    let bumped := if (if isH then Z.odd H else Z.odd W) then bump_last splits else Some splits in
    match bumped with
    | None => None
    | Some splits =>
        Some (if isH
              then map (fun p => Region (fst p) 0 0 (snd p) W D) (lay_out H subH 0 splits)
              else map (fun p => Region 0 (fst p) 0 H (snd p) D) (lay_out W subW 0 splits))
    end.
