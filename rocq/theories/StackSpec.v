(** Vocabulary for C104: networks compiled from TFLite functions, in one memory. *)
From Coq Require Import List ZArith Bool Arith Permutation Relations.
Import ListNotations.
From Verif Require Import MemPlanModel MemPlanSpec MemExecSpec MemPlanProps ArenasModel FunModel FunSpec FunLoadModel FunLoadSpec FunArenaSpec WeightsModel WeightsSpec FunOptModel FunOptSpec FunConvModel FunConvSpec FunConvEnd AudioModel RecurModel.
Local Open Scope Z_scope.

(** [N] is what the compiler makes of the TFLite function [f] when it succeeds: the passes before, in and after OptimizeConv2D, the lowering, the
    constants moved to the weights file (its tensors are [ts]), the memory plan.  Where its kernels look for their weights they find [weights].  The arena
    is at least as large as reported. *)
Definition compiled_reading (f : func) (N : net) (ts : list (list Z)) (weights : list Z) : Prop :=
  exists size f0 f1 f2 f3 f4 f' name ext chosen schedule lf other iter peak0 ma,
    ((1 <= size)%Z /\ verified_before f /\ all_ops consts_fit f /\ all_ops (split_size_fits size) f) /\
    (optimised size f f0 f1 f2 f3 f4 /\ clos_refl_trans _ lower_step f4 f') /\
    (new_names name f' /\ (forall x, chosen x = true -> In x schedule) /\ externalise name ext chosen schedule f' = (lf, ts)) /\
    (kinds_ok other f' /\ chain_grows (lgraph_of other lf) /\
     (forall m, Permutation (iter m) m) /\ plan_memory iter true false (lgraph_of other lf) peak0 = Some (Some ma)) /\
    n_graph N = lgraph_of other lf /\ n_sem N = lkernels weights lf /\ n_offs N = ma_offsets ma /\ ma_peakusage ma <= n_size N.

(** The same when the kernels read the weights file that was written. *)
Definition compiled_from (f : func) (N : net) : Prop := exists ts, compiled_reading f N ts (flash_file ts).

(** What the network returns is in the arena: no result is a constant. *)
Definition results_in_arena (N : net) : Prop :=
  forall o v, nth_error (g_ops (n_graph N)) (length (g_ops (n_graph N)) - 1) = Some o -> In v (o_args o) -> exists s, arena_tensor (n_graph N) v s.

(** A function with a state: two inputs and two results, of which the second input and the first result are the state, 256 bytes each. *)
Definition recurrent_function (f : func) : Prop :=
  (exists p0 p1, f_params f = [p0; p1] /\ tsize (snd p0) = ROW /\ tsize (snd p1) = ROW) /\
  forall frame state r, length frame = ROW -> length state = ROW -> evaluate f [frame; state] = Some r ->
    exists t0 state' t1 mask, r = [(t0, state'); (t1, mask)] /\ length state' = ROW.

(** The function run frame by frame on the state that it returned for the frame before. *)
Fixpoint function_unrolled (f : func) (state : list Z) (frames : list (list Z)) : option (list (list Z)) :=
  match frames with
  | [] => Some []
  | fr :: tl =>
      match evaluate f [fr; state] with
      | Some [(_, state'); (_, mask)] => option_map (cons mask) (function_unrolled f state' tl)
      | _ => None
      end
  end.
