(** Two interpreters for a single-block function: with private buffers, and in
    one flat byte arena with given tensor addresses.  Specification only. *)
From Coq Require Import List ZArith Bool Arith.
Import ListNotations.
From Verif Require Import MemPlanModel MemPlanSpec.
Local Open Scope Z_scope.

Definition bytes := list Z.
Definition memory := Z -> Z.

Definition read (m : memory) (off : Z) (n : nat) : bytes :=
  map (fun i => m (off + Z.of_nat i)) (seq 0 n).

Definition write (m : memory) (off : Z) (bs : bytes) : memory :=
  fun a => if (off <=? a) && (a <? off + Z.of_nat (length bs))
           then nth (Z.to_nat (a - off)) bs 0 else m a.

(** Semantics of the op at a position: operand bytes to result bytes (constant
    ops produce their data from no operands). *)
Definition opsem := nat -> list bytes -> list bytes.

(** The semantics produces, for each result, as many bytes as its type says. *)
Definition sem_sized (g : graph) (sem : opsem) : Prop :=
  forall p o args, op_at g p o ->
    Forall2 (fun b r => Z.of_nat (length b) = match snd r with Some s => s | None => 0 end)
            (sem p args) (o_res o).

(* ---- private buffers ---- *)
Definition env := vname -> bytes.
Definition set_env (e : env) (v : vname) (b : bytes) : env :=
  fun x => if Nat.eqb x v then b else e x.

Fixpoint set_all (e : env) (rs : list (vname * option Z)) (bs : list bytes) : env :=
  match rs, bs with
  | (v, _) :: rs', b :: bs' => set_all (set_env e v b) rs' bs'
  | _, _ => e
  end.

(** The trace of operand bytes seen by each op, in order. *)
Fixpoint run_private (sem : opsem) (os : list op) (p : nat) (e : env) : list (list bytes) :=
  match os with
  | [] => []
  | o :: tl =>
      let ins := map e (o_args o) in
      ins :: run_private sem tl (S p) (set_all e (o_res o) (sem p ins))
  end.

(* ---- one arena ---- *)
(** Where a value is found: constants in the model file, tensors in the arena. *)
Record arena := Arena { a_mem : memory; a_const : env }.

(** [loc v] is [Some (offset, size)] for arena tensors, [None] otherwise. *)
Definition locs := vname -> option (Z * Z).

Definition fetch (loc : locs) (a : arena) (v : vname) : bytes :=
  match loc v with
  | Some (off, s) => read (a_mem a) off (Z.to_nat s)
  | None => a_const a v
  end.

Fixpoint store_all (loc : locs) (a : arena) (rs : list (vname * option Z)) (bs : list bytes) : arena :=
  match rs, bs with
  | (v, _) :: rs', b :: bs' =>
      store_all loc
        (match loc v with
         | Some (off, _) => Arena (write (a_mem a) off b) (a_const a)
         | None => Arena (a_mem a) (set_env (a_const a) v b)
         end) rs' bs'
  | _, _ => a
  end.

(** Every op reads all its operands, then writes all its results. *)
Fixpoint run_arena (sem : opsem) (loc : locs) (os : list op) (p : nat) (a : arena) : list (list bytes) :=
  match os with
  | [] => []
  | o :: tl =>
      let ins := map (fetch loc a) (o_args o) in
      ins :: run_arena sem loc tl (S p) (store_all loc a (o_res o) (sem p ins))
  end.

(** Initial states: the inputs are stored, everything else is arbitrary. *)
Definition arg_rs (g : graph) : list (vname * option Z) :=
  map (fun a => (fst a, Some (snd a))) (g_args g).

Definition private_trace (g : graph) (sem : opsem) (inputs : list bytes) : list (list bytes) :=
  run_private sem (g_ops g) 0 (set_all (fun _ => []) (arg_rs g) inputs).

Definition arena_trace (g : graph) (sem : opsem) (loc : locs) (garbage : memory)
           (inputs : list bytes) : list (list bytes) :=
  run_arena sem loc (g_ops g) 0
    (store_all loc (Arena garbage (fun _ => [])) (arg_rs g) inputs).

(** Locations given by a vector of offsets in id order: offset -1 means "not in
    the arena". *)
Fixpoint assoc_offset (l : list (vname * Z)) (v : vname) : option Z :=
  match l with
  | [] => None
  | (w, z) :: tl => if Nat.eqb v w then Some z else assoc_offset tl v
  end.

Fixpoint assoc_size (l : list (vname * option Z)) (v : vname) : Z :=
  match l with
  | [] => 0
  | (w, s) :: tl => if Nat.eqb v w then match s with Some s => s | None => 0 end else assoc_size tl v
  end.

Definition size_table (g : graph) : list (vname * option Z) :=
  arg_rs g ++ flat_map o_res (g_ops g).

Definition plan_locs (g : graph) (offs : list Z) : locs :=
  fun v => match assoc_offset (combine (tensors g) offs) v with
           | Some z => if z =? -1 then None else Some (z, assoc_size (size_table g) v)
           | None => None
           end.
