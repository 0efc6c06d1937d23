(** Model of ApplyLoadConstantOpPatterns.cpp (selection of constants),
    WriteWeights.cpp (placement) and Utils/FileIO.cpp, Utils/TileRamSupport.cpp
    (emitted bytes), all under xformer/. *)
From Coq Require Import List ZArith Bool Arith.
Import ListNotations.
Local Open Scope Z_scope.

(** ** Constants *)

(** DenseElementsAttr as WriteWeights sees it: a splat stores the bytes of a single
    element. Bytes are C chars, i.e. integers in [-128, 127]. *)
Record attr := Attr { a_splat : bool; a_num : nat; a_raw : list Z }.

(** WriteWeights.cpp 37-58, getTensorData. *)
Definition get_tensor_data (a : attr) : list Z :=
  concat (repeat (a_raw a) (if a_splat a then a_num a else 1%nat)).

(** ** Graph.  An operand of an operator is a LoadConstant result (identified by the
    number of the constant), result [k] of LoadWeights operator [w], or anything
    else. Operators are listed in block order. *)
Inductive operand := OLoad (c : nat) | OWeight (w k : nat) | OOther.

(** A LoadWeights operator: its attributes, the index of the operator before
    which it is placed (moveBefore), and the constants whose types are the types of its
    results (outputTypes, WriteWeights.cpp 88 and 117). *)
Record load_weights := LoadWeights { w_address : Z; w_sizes : list Z; w_ddr : bool; w_before : nat; w_consts : list nat }.

Record state := State {
  st_ops : list (list operand);
  st_loads : list load_weights;       (* LoadWeights operators created so far *)
  st_tensors : list (list Z)          (* tensorsVec_ *)
}.

Definition is_load (c : nat) (o : operand) : bool :=
  match o with OLoad c' => Nat.eqb c c' | _ => false end.

(** Owners of the uses of constant [c], one entry per use. *)
Definition uses (c : nat) (ops : list (list operand)) : list nat :=
  flat_map (fun p => repeat (fst p) (length (filter (is_load c) (snd p)))) (combine (seq 0 (length ops)) ops).

(** WriteWeights.cpp 64-67. *)
Definition address (ts : list (list Z)) : Z := fold_left (fun a t => a + Z.of_nat (length t)) ts 0.

(** WriteWeights.cpp 80-92 and 98-100: walk the operands of the owner; every one
    that is a LoadConstant is appended and then replaced by the next result. *)
Fixpoint combine_operands (consts : nat -> list Z) (w k : nat) (l : list operand) : list operand * list (list Z) :=
  match l with
  | [] => ([], [])
  | OLoad c :: tl =>
      let (tl', ds) := combine_operands consts w (S k) tl in
      (OWeight w k :: tl', consts c :: ds)
  | o :: tl => let (tl', ds) := combine_operands consts w k tl in (o :: tl', ds)
  end.

Definition loaded (l : list operand) : list nat := flat_map (fun o => match o with OLoad c => [c] | _ => [] end) l.

Fixpoint update {A} (i : nat) (x : A) (l : list A) : list A :=
  match l, i with
  | [], _ => []
  | _ :: tl, O => x :: tl
  | y :: tl, S i' => y :: update i' x tl
  end.

(** WriteWeights.cpp 122-131: the first owner in block order. *)
Definition first_owner (us : list nat) : nat :=
  fold_left (fun cur u => if Nat.ltb u cur then u else cur) us (hd 0%nat us).

(** WriteWeights.cpp 112-114. *)
Definition to_be_padded (size : Z) : Z := ((size + 31) / 32) * 32 - size.

(** WriteWeights.cpp 59-136, matchAndRewrite on the LoadConstant of constant [c].
    [consts c] is getTensorData of that constant.  A LoadConstant without uses is
    Pure and erased by the driver before the pattern sees it.  Addresses are C ints;
    here they are unbounded (files below 2 GiB). *)
Definition write_weights (ext : bool) (consts : nat -> list Z) (c : nat) (s : state) : state :=
  match uses c (st_ops s) with
  | [] => s
  | u :: us =>
      let addr := address (st_tensors s) in
      let w := length (st_loads s) in
      if (match us with [] => true | _ => false end) && negb ext then
        let (ops', ds) := combine_operands consts w 0 (nth u (st_ops s) []) in
        State (update u ops' (st_ops s))
          (st_loads s ++ [LoadWeights addr (map (fun d => Z.of_nat (length d)) ds) false u (loaded (nth u (st_ops s) []))])
          (st_tensors s ++ [concat ds])
      else
        let d := consts c in
        let pad := if ext then repeat 0 (Z.to_nat (to_be_padded (Z.of_nat (length d)))) else [] in
        State (map (map (fun o => if is_load c o then OWeight w 0 else o)) (st_ops s))
          (st_loads s ++ [LoadWeights addr [Z.of_nat (length d)] ext (first_owner (u :: us)) [c]])
          (st_tensors s ++ [d ++ pad])
  end.

(** The greedy driver visits the LoadConstants in some order, possibly repeatedly. *)
Definition run_write (ext : bool) (consts : nat -> list Z) (schedule : list nat) (ops : list (list operand)) : state :=
  fold_left (fun s c => write_weights ext consts c s) schedule (State ops [] []).

(** ** Files *)

(** TileRamSupport.cpp 5-20. *)
Definition tile_ram_header : list Z :=
  [1; 2; Z.lnot 1; Z.lnot 2; 0; 0; 0; 0; 20; 0; 0; 0; 0; 0; 0; 0; 0; 0; 0; 0].

(** FileIO.cpp 26-89, writeWeightsToFile: the bytes of the flash file, or the
    initialisers of the C array (formatting not modelled) and WEIGHTS_SIZE. *)
Definition flash_file (ts : list (list Z)) : list Z := concat ts.
Definition array_file (in_external_memory : bool) (ts : list (list Z)) : list Z * Z :=
  let bytes := concat (if in_external_memory then ts else tile_ram_header :: ts) in
  (bytes, Z.of_nat (length bytes)).

(** ** Selection: ApplyLoadConstantOpPatterns.cpp 32-49. *)

(** Conversion of a 64-bit product to int (line 42-44), and int to unsigned. *)
Definition to_int (x : Z) : Z := let y := x mod 2 ^ 32 in if y <? 2 ^ 31 then y else y - 2 ^ 32.
Definition to_unsigned (x : Z) : Z := x mod 2 ^ 32.

(** [num * width]: elements times bits per element. Returns the new static total and
    the answer. *)
Definition should_be_loaded_externally (max threshold : Z) (total num width : Z) : Z * bool :=
  if to_unsigned total >? max then (total, false)
  else
    let bits := to_int (num * width) in
    let bytes := Z.quot bits 8 in
    (total + bytes, to_unsigned bytes >? threshold).

(** Driver: a visit of constant [c] (num, width); a constant already loaded by a
    LoadConstant is skipped (isNotUsedByLoadConstantOp, lines 51-58, tested first by
    the patterns of LoadConstantOpPatterns.td). *)
Record sel := Sel { s_total : Z; s_ext : list nat }.
Definition visit (max threshold : Z) (dims : nat -> Z * Z) (s : sel) (c : nat) : sel :=
  if existsb (Nat.eqb c) (s_ext s) then s
  else
    let '(t, b) := should_be_loaded_externally max threshold (s_total s) (fst (dims c)) (snd (dims c)) in
    Sel t (if b then c :: s_ext s else s_ext s).
Definition select (max threshold : Z) (dims : nat -> Z * Z) (total0 : Z) (visits : list nat) : sel :=
  fold_left (visit max threshold dims) visits (Sel total0 []).
