(** Model of xformer/Analysis/MemoryPlan.cpp, MemoryPlan.h and
    xformer/Transforms/PlanMemory.cpp (offline tensor arena planning).

    No proofs in this file: everything is executable. *)
From Coq Require Import List ZArith Bool Arith.
Import ListNotations.
Local Open Scope Z_scope.

(* ------------------------------------------------------------------ *)
(** * The single-block function the pass runs on *)

(** SSA values are named by natural numbers. *)
Notation vname := nat (only parsing).

(** Operator kinds distinguished by MemoryPlan.cpp.
    - [KStats]: quantfork::StatisticsOp, skipped (MemoryPlan.cpp:45-47);
    - [KConst]: TFL::NoValueOp / QConstOp / ConstOp / arith::ConstantOp (51-61);
    - [KTerm]: OpTrait::IsTerminator (51);
    - the operators carrying the MemoryOverlappable trait
      (IR/XCoreOps.td:126,165,203,245,261,454,464);
    - [KOther]: every other operator.
    Simplification: operators have no regions (PlanMemory.cpp:33-42 refuses
    LSTM/While/If/CallOnce). *)
Inductive okind :=
| KStats | KConst | KTerm
| KPad | KAdd | KMul | KBinaryI16 | KBetaActF32 | KLookup | KPad3To4
| KOther.

(** A result: its name and its byte size from utils::getShapedTypeSize
    (Utils/Util.cpp:25-35), [None] for NoneType results (MemoryPlan.cpp:64-66). *)
Record op := Op {
  o_kind : okind;
  o_args : list vname;
  o_res  : list (vname * option Z)
}.

Record graph := Graph {
  g_args : list (vname * Z);     (* function arguments: name, byte size *)
  g_ops  : list op               (* the operators of the block, in order *)
}.

(** IR/XCoreOps.td:126,165,203,245,261-262,454,464: ops declared with
    XC_MemoryOverlappable. *)
Definition overlappable (k : okind) : bool :=
  match k with
  | KPad | KAdd | KMul | KBinaryI16 | KBetaActF32 | KLookup | KPad3To4 => true
  | _ => false
  end.

(** MemoryPlan.cpp:49-55, [isConstantOp] (terminators count as constant). *)
Definition is_constant_op (k : okind) : bool :=
  match k with KConst | KTerm => true | _ => false end.

(** MemoryPlan.cpp:45-47 and 57-61: ops that receive an operation id. *)
Definition has_op_id (k : okind) : bool :=
  match k with KConst | KStats => false | _ => true end.

(* ------------------------------------------------------------------ *)
(** * build() *)

Record vinfo := VI {
  vi_id : nat; vi_size : Z; vi_const : bool; vi_first : Z; vi_last : Z }.

(** Zero-initialised ValueInfo: DenseMap::operator[] on a missing key. *)
Definition vinfo0 : vinfo := VI 0 0 false 0 0.

(** MemoryPlan.cpp:29-35, getAlignedValueSize: align up to a double word. *)
Definition align8 (k : Z) : Z := ((k + 7) / 8) * 8.

(** One entry of [values]: name, unaligned size, isConstant. *)
Record vdef := VD { vd_name : vname; vd_usize : Z; vd_const : bool }.

(** MemoryPlan.cpp:63-71: non-NoneType results of one op. *)
Fixpoint res_defs (c : bool) (rs : list (vname * option Z)) : list vdef :=
  match rs with
  | [] => []
  | (n, Some s) :: tl => VD n s c :: res_defs c tl
  | (_, None) :: tl => res_defs c tl
  end.

(** MemoryPlan.cpp:44-72 (walk): results of all ops but StatisticsOp. *)
Fixpoint ops_defs (os : list op) : list vdef :=
  match os with
  | [] => []
  | o :: tl =>
      match o_kind o with
      | KStats => ops_defs tl
      | k => res_defs (is_constant_op k) (o_res o) ++ ops_defs tl
      end
  end.

(** MemoryPlan.cpp:37-72: the vector [values], in insertion order; the id of a
    value is its index. *)
Definition values (g : graph) : list vdef :=
  map (fun p => VD (fst p) (snd p) false) (g_args g) ++ ops_defs (g_ops g).

(** operationIds[op] for the op at block position [p] (MemoryPlan.cpp:57-61):
    number of id-carrying ops before it; 0 when the op has no entry
    (DenseMap::operator[], lines 84-85). *)
Definition count_ids (os : list op) : Z :=
  Z.of_nat (length (filter (fun o => has_op_id (o_kind o)) os)).

Definition op_id (os : list op) (p : nat) : Z :=
  match nth_error os p with
  | Some o => if has_op_id (o_kind o) then count_ids (firstn p os) else 0
  | None => 0
  end.

(** Liveness::getStartOperation: the defining op's block position, or the front
    of the block for function arguments. *)
Definition defines (o : op) (v : vname) : bool :=
  existsb (fun r => Nat.eqb (fst r) v) (o_res o).

Fixpoint find_pos {A} (f : A -> bool) (l : list A) (p : nat) : option nat :=
  match l with
  | [] => None
  | x :: tl => if f x then Some p else find_pos f tl (S p)
  end.

Definition start_pos (os : list op) (v : vname) : nat :=
  match find_pos (fun o => defines o v) os 0 with Some p => p | None => 0 end.

(** Liveness::getEndOperation: start op, moved forward over every user. *)
Definition uses (o : op) (v : vname) : bool := existsb (Nat.eqb v) (o_args o).

Fixpoint last_use (os : list op) (v : vname) (p acc : nat) : nat :=
  match os with
  | [] => acc
  | o :: tl => last_use tl v (S p) (if uses o v then Nat.max acc p else acc)
  end.

Definition end_pos (os : list op) (v : vname) : nat :=
  last_use os v 0%nat (start_pos os v).

(** valueInfo after build() (MemoryPlan.cpp:22-87). *)
Definition vmap := vname -> vinfo.

Fixpoint build_info (os : list op) (vs : list vdef) (id : nat) : vmap :=
  match vs with
  | [] => fun _ => vinfo0
  | d :: tl =>
      let m := build_info os tl (S id) in
      fun x => if Nat.eqb x (vd_name d)
               then VI id (align8 (vd_usize d)) (vd_const d)
                       (op_id os (start_pos os (vd_name d)))
                       (op_id os (end_pos os (vd_name d)))
               else m x
  end.

Definition build (g : graph) : vmap := build_info (g_ops g) (values g) 0.

(** utils::getShapedTypeSize of a value's type (any value, constant or not;
    0 for a NoneType value, which the code never asks for). *)
Fixpoint usize_of (vs : list vdef) (v : vname) : Z :=
  match vs with
  | [] => 0
  | d :: tl => if Nat.eqb v (vd_name d) then vd_usize d else usize_of tl v
  end.

(* ------------------------------------------------------------------ *)
(** * getOffset *)

Definition alloc := list (vname * Z).   (* ValuesOrderedByOffset *)

(** MemoryPlan.cpp:119-150. *)
Fixpoint get_offset_from (info : vmap) (v : vname) (size : Z) (al : alloc) (offset : Z) : Z :=
  match al with
  | [] => offset
  | (a, aoff) :: tl =>
      if (vi_first (info a) >? vi_last (info v)) || (vi_first (info v) >? vi_last (info a))
      then get_offset_from info v size tl offset            (* continue *)
      else if aoff - offset >=? size
      then offset                                            (* break *)
      else let e := aoff + vi_size (info a) in
           get_offset_from info v size tl (if e >? offset then e else offset)
  end.

Definition get_offset (info : vmap) (v : vname) (size : Z) (al : alloc) : Z :=
  get_offset_from info v size al 0.

(* ------------------------------------------------------------------ *)
(** * getAllocatedOffsets: in-place overlap detection *)

(** Number of uses (operand slots) of a value: Value::hasOneUse is [= 1].
    Every op of the block counts, whatever its kind. *)
Definition count_uses (os : list op) (v : vname) : nat :=
  fold_right (fun o n => (count_occ Nat.eq_dec (o_args o) v + n)%nat) 0%nat os.

Definition has_one_use (os : list op) (v : vname) : bool :=
  Nat.eqb (count_uses os v) 1.

(** *v.getUsers().begin(): a user op; [None] models dereferencing the end
    iterator of an unused value (undefined behaviour).  When there are several
    users MLIR returns the most recently added one; the code only looks at it
    after having checked hasOneUse. *)
Definition first_user (os : list op) (v : vname) : option nat :=
  find_pos (fun o => uses o v) os 0.

Definition mem_nat (x : nat) (l : list nat) : bool := existsb (Nat.eqb x) l.

(** inOutMap: DenseMap<Value, pair<Value,int>>. *)
Definition iomap := list (vname * (vname * Z)).

Definition io_mem (m : iomap) (v : vname) : bool :=
  existsb (fun e => Nat.eqb v (fst e)) m.

(** inOutMap[k] = x  (overwrite or add). *)
Fixpoint io_set (m : iomap) (k : vname) (x : vname * Z) : iomap :=
  match m with
  | [] => [(k, x)]
  | e :: tl => if Nat.eqb k (fst e) then (k, x) :: tl else e :: io_set tl k x
  end.

Definition upd (m : vmap) (k : vname) (i : vinfo) : vmap :=
  fun x => if Nat.eqb x k then i else m x.

(** Result 0 of the op at block position [p]. *)
Definition result0 (os : list op) (p : nat) : option vname :=
  match nth_error os p with
  | Some o => match o_res o with (r, _) :: _ => Some r | [] => None end
  | None => None
  end.

Definition kind_at (os : list op) (p : nat) : okind :=
  match nth_error os p with Some o => o_kind o | None => KConst end.

(** MemoryPlan.cpp:199-212, the while loop that follows a chain of overlappable
    ops.  [next] is nextOp.  Returns (alreadyVisited, outVal, inputVals);
    [None] = undefined behaviour (unused outVal, no result) - or fuel exhausted,
    which is excluded because every iteration visits a new op. *)
Fixpoint chain (fuel : nat) (os : list op) (us : vname -> Z)
         (visited : list nat) (inV outV : vname) (next : nat) (inputs : list vname)
  : option (list nat * vname * list vname) :=
  if has_one_use os outV && negb (mem_nat next visited)
     && overlappable (kind_at os next) && (us outV >=? us inV)
  then match fuel with
       | O => None
       | S f =>
           match result0 os next with
           | None => None
           | Some out' =>
               match first_user os out' with
               | None => None
               | Some next' =>
                   chain f os us (next :: visited) outV out' next' (inputs ++ [outV])
               end
           end
       end
  else Some (visited, outV, inputs).

(** MemoryPlan.cpp:222-224: ((unalignedOffset + 7) / 8) * 8 on int (truncating
    division). *)
Definition rel_offset (us : vname -> Z) (outV inV : vname) : Z :=
  Z.quot (us outV - us inV + 7) 8 * 8.

(** MemoryPlan.cpp:214-231: record the chain. *)
Definition record_chain (us : vname -> Z) (info : vmap) (m : iomap)
           (outV : vname) (inputs : list vname) : vmap * iomap :=
  match inputs with
  | [] => (info, m)
  | i0 :: _ =>
      let io := info outV in
      let io := VI (vi_id io) (vi_size io) (vi_const io) (vi_first (info i0)) (vi_last io) in
      let info := upd info outV io in
      let maxNeeded :=
        fold_left (fun acc v => Z.max (vi_size (info v) + rel_offset us outV v) acc) inputs 0 in
      let m := fold_left (fun acc v => io_set acc v (outV, rel_offset us outV v)) inputs m in
      let io := info outV in
      (upd info outV (VI (vi_id io) (Z.max (vi_size io) maxNeeded) (vi_const io)
                         (vi_first io) (vi_last io)), m)
  end.

Record ostate := OS { os_visited : list nat; os_info : vmap; os_map : iomap }.

(** MemoryPlan.cpp:163-234: one iteration of the loop over [operations] for the
    op at block position [p]. *)
Definition overlap_step (os : list op) (us : vname -> Z) (s : ostate) (p : nat)
  : option ostate :=
  match nth_error os p with
  | None => Some s
  | Some o =>
    if negb (has_op_id (o_kind o)) then Some s      (* not in [operations] *)
    else if overlappable (o_kind o) && negb (mem_nat p (os_visited s)) then
      match o_args o with
      | [] => None                                   (* getOperand(0): UB *)
      | a0 :: rest =>
          let ok v := has_one_use os v && negb (vi_const (os_info s v)) in
          let sel :=
            match rest with
            | [] => if ok a0 then Some a0 else None
            | [a1] => if ok a0 then Some a0 else if ok a1 then Some a1 else None
            | _ => None
            end in
          match sel with
          | None => Some s
          | Some inV =>
              let visited := p :: os_visited s in
              match result0 os p with
              | None => None
              | Some outV =>
                  if us outV >=? us inV then
                    match first_user os outV with
                    | None => None
                    | Some next =>
                        match chain (length os) os us visited inV outV next [inV] with
                        | None => None
                        | Some (visited', outV', inputs) =>
                            let '(info', m') := record_chain us (os_info s) (os_map s) outV' inputs in
                            Some (OS visited' info' m')
                        end
                    end
                  else Some (OS visited (os_info s) (os_map s))
              end
          end
      end
    else Some s
  end.

Fixpoint overlap_loop (os : list op) (us : vname -> Z) (ps : list nat) (s : ostate)
  : option ostate :=
  match ps with
  | [] => Some s
  | p :: tl => match overlap_step os us s p with
               | None => None
               | Some s' => overlap_loop os us tl s'
               end
  end.

(** The whole overlap phase (MemoryPlan.cpp:156-235). *)
Definition overlap_phase (g : graph) (overlapOps : bool) : option ostate :=
  let s0 := OS [] (build g) [] in
  if overlapOps
  then overlap_loop (g_ops g) (usize_of (values g)) (seq 0 (length (g_ops g))) s0
  else Some s0.

(* ------------------------------------------------------------------ *)
(** * getAllocatedOffsets: greedy placement *)

(** MemoryPlan.cpp:237-244, DecreasingSizesComparator on (value,size). *)
Definition queue_less (info : vmap) (a b : vname * Z) : bool :=
  if negb (snd a =? snd b) then snd a <? snd b
  else Nat.ltb (vi_id (info (fst a))) (vi_id (info (fst b))).

(** llvm::PriorityQueue: since all pushes precede all pops, popping until empty
    enumerates the items in decreasing order.  Modelled as insertion sort. *)
Fixpoint q_insert (info : vmap) (x : vname * Z) (l : list (vname * Z)) :=
  match l with
  | [] => [x]
  | y :: tl => if queue_less info y x then x :: l else y :: q_insert info x tl
  end.

Definition q_sort (info : vmap) (l : list (vname * Z)) : list (vname * Z) :=
  fold_right (q_insert info) [] l.

(** MemoryPlan.cpp:250-255. *)
Definition queue_items (info : vmap) (m : iomap) (vs : list vdef) : list (vname * Z) :=
  map (fun d => (vd_name d, vi_size (info (vd_name d))))
      (filter (fun d => negb (io_mem m (vd_name d)) && negb (vi_const (info (vd_name d)))) vs).

(** std::multiset insert ordered by offset, after equal keys
    (MemoryPlan.h IncreasingOffsetsComparator). *)
Fixpoint ms_insert (x : vname * Z) (l : alloc) : alloc :=
  match l with
  | [] => [x]
  | y :: tl => if snd x <? snd y then x :: l else y :: ms_insert x tl
  end.

(** MemoryPlan.cpp:262-270. *)
Fixpoint place (info : vmap) (q : list (vname * Z)) (al : alloc) : alloc :=
  match q with
  | [] => al
  | (v, size) :: tl => place info tl (ms_insert (v, get_offset info v size al) al)
  end.

(** MemoryPlan.cpp:257-270; [None]: queue.top() on an empty queue (UB). *)
Definition allocate (info : vmap) (q : list (vname * Z)) : option alloc :=
  match q with
  | [] => None
  | (v, _) :: tl => Some (place info tl [(v, 0)])
  end.

Definition find_alloc (al : alloc) (v : vname) : option Z :=
  match find (fun e => Nat.eqb (fst e) v) al with Some e => Some (snd e) | None => None end.

(** MemoryPlan.cpp:272-287 (patch up overlapped buffers), in the iteration order
    of the DenseMap; [None]: assert(false). *)
Fixpoint patch (entries : iomap) (al : alloc) : option alloc :=
  match entries with
  | [] => Some al
  | (inV, (outV, off)) :: tl =>
      match find_alloc al outV with
      | Some cur => patch tl (ms_insert (inV, cur + off) al)
      | None => None
      end
  end.

(** MemoryPlan.cpp:289-294: -1 for constants (stored as size_t, converted back
    to int at line 312; its place in the order is irrelevant because of the
    re-sort by id). *)
Definition add_constants (info : vmap) (vs : list vdef) (al : alloc) : alloc :=
  fold_left (fun acc d => if vi_const (info (vd_name d)) then acc ++ [(vd_name d, -1)] else acc)
            vs al.

(** MemoryPlan.cpp:296-303: multiset ordered by id. *)
Fixpoint id_insert (info : vmap) (x : vname * Z) (l : alloc) : alloc :=
  match l with
  | [] => [x]
  | y :: tl => if Nat.ltb (vi_id (info (fst x))) (vi_id (info (fst y))) then x :: l
               else y :: id_insert info x tl
  end.

Definition sort_by_id (info : vmap) (al : alloc) : alloc :=
  fold_left (fun acc x => id_insert info x acc) al [].

(** MemoryPlan.cpp:305-329: peak and peak op id (1-based index among the
    non-constant values of the last value reaching the maximum). *)
Fixpoint peak_loop (info : vmap) (l : alloc) (maxId : Z) (peak : Z) (peakOp : Z) : Z * Z :=
  match l with
  | [] => (peak, peakOp)
  | (v, off) :: tl =>
      if vi_const (info v) then peak_loop info tl maxId peak peakOp
      else let cur := vi_size (info v) + off in
           if cur >=? peak then peak_loop info tl (maxId + 1) cur (maxId + 1)
           else peak_loop info tl (maxId + 1) peak peakOp
  end.

Record plan := Plan {
  p_offsets : list Z;                 (* the returned vector, by value id *)
  p_peak : Z;                         (* peakMemoryUsed *)
  p_peak_op : Z;                      (* peakOpId *)
  p_alloc : alloc;                    (* (value, offset) by id: internal *)
  p_info : vmap; p_map : iomap        (* internal *)
}.

(** MemoryPlan.cpp:152-336.  [iter] is the (hash dependent) iteration order of
    the DenseMap inOutMap; [peakOp0] is the value of the reference argument
    peakOpId before the call. *)
Definition get_allocated_offsets (iter : iomap -> iomap) (g : graph)
           (overlapOps : bool) (peakOp0 : Z) : option plan :=
  match overlap_phase g overlapOps with
  | None => None
  | Some s =>
      let info := os_info s in
      match allocate info (q_sort info (queue_items info (os_map s) (values g))) with
      | None => None
      | Some al =>
          match patch (iter (os_map s)) al with
          | None => None
          | Some al =>
              let al := sort_by_id info (add_constants info (values g) al) in
              let '(pk, po) := peak_loop info al 0 0 peakOp0 in
              Some (Plan (map snd al) pk po al info (os_map s))
          end
      end
  end.

(* ------------------------------------------------------------------ *)
(** * PlanMemory.cpp:28-63 *)

Record module_attrs := MA { ma_peakopid : Z; ma_peakusage : Z; ma_offsets : list Z }.

(** [Some None] : attributes not set (option off or unsupported op present);
    [None]: undefined behaviour inside the planner. *)
Definition plan_memory (iter : iomap -> iomap) (offlineOffsets unsupported : bool)
           (g : graph) (garbage : Z) : option (option module_attrs) :=
  if negb offlineOffsets || unsupported then Some None
  else
    match get_allocated_offsets iter g true garbage with
    | None => None
    | Some pw =>
        match get_allocated_offsets iter g false (p_peak_op pw) with
        | None => None
        | Some pn =>
            Some (Some (MA (p_peak_op pn) (p_peak pn)
                           (if p_peak pw <=? p_peak pn then p_offsets pw else p_offsets pn)))
        end
    end.
