(** Model of the operation-split analysis: xformer/XCoreOptMain.cpp 206-332 and
    Analysis/MemoryPlan.cpp 426-450. *)
From Coq Require Import List ZArith Bool Arith.
Import ListNotations.
Local Open Scope Z_scope.

(** MemoryPlan.cpp 426-450, getNextBottomOpId.  [lasts]: for each element of
    nonConstantAllocatedValues, the id of the operator after which it is dead.  The
    vector is indexed with an operator id; an access outside the vector is undefined
    behaviour in C++ ([None]). *)
Definition at_index (l : list Z) (i : Z) : option Z :=
  if i <? 0 then None else nth_error l (Z.to_nat i).
Definition next_bottom (lasts : list Z) (opId : Z) : option Z :=
  match at_index lasts opId with
  | None => None
  | Some e =>
      let n := if e <? opId then -1 else if e =? opId then e + 1 else e in
      if n =? -1 then Some n
      else match at_index lasts n with
           | None => None
           | Some m => Some (if m =? n then n else m)
           end
  end.

(** XCoreOptMain.cpp 252-286: the search for the bottom operator.  [usage id]: peak
    arena usage after splitting with bottom operator [id] and 4 splits (the result of
    running the passes).  [None]: not finished after [fuel] iterations. *)
Inductive search_result := Found (lastGoodId lastGoodUsage : Z) | OutOfBounds.
Fixpoint search_bottom (fuel : nat) (usage : Z -> Z) (lasts : list Z)
  (nextId peakUsage lastGoodId lastGoodUsage : Z) (two : bool) : option search_result :=
  match fuel with
  | O => None
  | S fuel' =>
      if nextId =? -1 then Some (Found lastGoodId lastGoodUsage)
      else
        let currentUsage := peakUsage in
        let peakUsage := usage nextId in
        if (peakUsage >=? currentUsage) && two then Some (Found lastGoodId lastGoodUsage)
        else
          match next_bottom lasts nextId with
          | None => Some OutOfBounds
          | Some n =>
              if peakUsage >=? currentUsage
              then search_bottom fuel' usage lasts n peakUsage lastGoodId lastGoodUsage true
              else search_bottom fuel' usage lasts n peakUsage nextId peakUsage false
          end
  end.

(** XCoreOptMain.cpp 294-319: the search for the number of splits, entered with
    numSplits = 4 and peakUsage = lastGoodUsage. *)
Fixpoint search_splits (fuel : nat) (usage : Z -> Z) (numSplits currentUsage peakUsage good : Z) : option Z :=
  match fuel with
  | O => None
  | S fuel' =>
      if (numSplits =? 4) || (peakUsage <? currentUsage) then
        let numSplits := numSplits + 1 in
        let currentUsage := peakUsage in
        let peakUsage := usage numSplits in
        search_splits fuel' usage numSplits currentUsage peakUsage
          (if peakUsage <? currentUsage then numSplits else good)
      else Some good
  end.

(** XCoreOptMain.cpp 206-327: the suggested bottom operator and number of splits.
    [usage id n]: peak usage with bottom operator [id] and [n] splits; [peak], [peakId]:
    the usage and operator found by the memory planner without splitting. *)
Inductive suggestion := Suggest (bottom splits : Z) | BadRead.
Definition op_split_analysis (fuel : nat) (usage : Z -> Z -> Z) (lasts : list Z) (peak peakId : Z) : option suggestion :=
  match search_bottom fuel (fun id => usage id 4) lasts peakId peak 0 0 false with
  | None => None
  | Some OutOfBounds => Some BadRead
  | Some (Found id u) =>
      if id =? 0 then Some (Suggest 0 4)
      else match search_splits fuel (usage id) 4 u u 4 with
           | None => None
           | Some n => Some (Suggest id n)
           end
  end.
