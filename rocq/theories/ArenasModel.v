(** Networks whose tensors live in one memory: the applications with two models.

    Models (files under /repo):
    - examples/app_flash_two_models/src/main.cpp:33-50  [nn_thread]
    - examples/app_flash_two_models_one_arena/src/main.cpp:14,35-55  [tensor_arena, nn_thread]
    - examples/audio_network/src/model_audioi16.tflite.h:9-15  [LARGEST_TENSOR_ARENA_SIZE, the lines generated for every model]

    The function model_init (of the generated runtime, not in this repository) is known only by its documented effect
    (examples/app_flash_two_models_one_arena/README.rst:17-19): it may overwrite the arena of its model.  It is modelled by arbitrary bytes. *)
From Coq Require Import List ZArith Bool Arith.
Import ListNotations.
From Verif Require Import MemPlanModel MemPlanSpec MemExecSpec.
Local Open Scope Z_scope.

(** A compiled model at run time: the function with the semantics of its operators, the offsets of its tensors, and the part of
    the memory ([n_base], [n_size]) that is its tensor arena. *)
Record net := Net {
  n_graph : graph;
  n_sem   : opsem;
  n_offs  : list Z;
  n_base  : Z;
  n_size  : Z
}.

(** Where the tensors are: [tensor_arena + offset]
    (examples/audio_network/src/model_audioi16.tflite.cpp:13158-13159, for instance). *)
Definition net_locs (N : net) : locs :=
  fun v => match plan_locs (n_graph N) (n_offs N) v with
           | Some (z, s) => Some (n_base N + z, s)
           | None => None
           end.

(** The memory after the operators have run. *)
Fixpoint leave (sem : opsem) (loc : locs) (os : list op) (p : nat) (a : arena) : arena :=
  match os with
  | [] => a
  | o :: tl => leave sem loc tl (S p) (store_all loc a (o_res o) (sem p (map (fetch loc a) (o_args o))))
  end.

Inductive event :=
| Start (i : nat) (junk : memory)       (* model<i>_init() *)
| Put (i : nat) (inputs : list bytes)   (* memcpy(model<i>_input_ptr(k), ...), for every input k *)
| Invoke (i : nat).                     (* model<i>_invoke() *)

(** examples/app_flash_two_models_one_arena/src/main.cpp:36-51 (each statement that changes the memory). *)
Definition step (nets : nat -> net) (m : memory) (e : event) : memory :=
  match e with
  | Start i junk =>
      let N := nets i in
      fun a => if (n_base N <=? a) && (a <? n_base N + n_size N) then junk a else m a
  | Put i inputs =>
      let N := nets i in
      a_mem (store_all (net_locs N) (Arena m (fun _ => [])) (arg_rs (n_graph N)) inputs)
  | Invoke i =>
      let N := nets i in
      a_mem (leave (n_sem N) (net_locs N) (g_ops (n_graph N)) 0 (Arena m (fun _ => [])))
  end.

Definition play (nets : nat -> net) (es : list event) (m : memory) : memory := fold_left (step nets) es m.

(** The bytes behind model<i>_output_ptr(k), for every output k (main.cpp:38,40,50,53).  The terminator's operands are the outputs. *)
Definition outputs (N : net) (m : memory) : list bytes :=
  map (fetch (net_locs N) (Arena m (fun _ => []))) (flat_map o_args (skipn (length (g_ops (n_graph N)) - 1) (g_ops (n_graph N)))).

(** examples/app_flash_two_models_one_arena/src/main.cpp:35-55: what is printed is computed from these two readings.  The two
    inits may leave anything. *)
Definition nn_thread_one_arena (nets : nat -> net) (j1 j2 : memory) (image image2 : list bytes) (m : memory) : list bytes * list bytes :=
  let m1 := play nets [Start 0 j1; Put 0 image; Invoke 0] m in
  let out1 := outputs (nets 0%nat) m1 in
  let m2 := play nets [Start 1 j2; Put 1 image2; Invoke 1] m1 in
  (out1, outputs (nets 1%nat) m2).

(** examples/app_flash_two_models/src/main.cpp:33-50. *)
Definition nn_thread_two_arenas (nets : nat -> net) (j1 j2 : memory) (image image2 : list bytes) (m : memory) : list bytes * list bytes :=
  let m1 := play nets [Start 0 j1; Start 1 j2; Put 0 image; Invoke 0] m in
  let out1 := outputs (nets 0%nat) m1 in
  let m2 := play nets [Put 1 image2; Invoke 1] m1 in
  (out1, outputs (nets 1%nat) m2).

(** examples/audio_network/src/model_audioi16.tflite.h:9-15: including the header of a model whose arena needs [n] bytes.  The macro is
    undefined ([None]) before the first header. *)
Definition include_header (macro : option Z) (n : Z) : option Z :=
  match macro with
  | None => Some n
  | Some l => if l <? n then Some n else Some l
  end.
Definition largest_tensor_arena_size (needs : list Z) : option Z := fold_left include_header needs None.
