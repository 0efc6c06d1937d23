(** Meaning of functions over tensors stored as bytes (C72). *)
From Coq Require Import List ZArith Bool Arith.
Import ListNotations.
From Coq Require Import Permutation.
From Verif Require Import NdSpec LowerSpec SlicePadModel LowerModel CopyKernels FunOpsSpec FunModel.
From Verif Require TransposeSpec LutModel LutSpec.

Notation bytes := (list Z).
Definition tsize (t : ty) : nat := nelem (t_shape t) * t_elem t.

(** Position of a multi-index in the row-major layout. *)
Fixpoint position_of (s : shape) (idx : index) : nat :=
  match s, idx with _ :: s', i :: idx' => i * nelem s' + position_of s' idx' | _, _ => 0 end.
(** The tensor stored in [b]: the bytes of each element. *)
Definition stored (t : ty) (b : bytes) : tensor bytes :=
  fun idx => map (fun j => nth (position_of (t_shape t) idx * t_elem t + j) b 0%Z) (seq 0 (t_elem t)).

(** The integer tensor stored in [b]. *)
Definition integers (t : ty) (b : bytes) : tensor Z := fun idx => int_at (t_elem t) b (position_of (t_shape t) idx).
(** The value an element-wise operator stores for [v]: saturated to the type of [e] bytes; with a fused activation, clamped to TFLite's range. *)
Definition stored_value (e : nat) (faf : option LutModel.activation) (s : QArith_base.Q) (z v : Z) : Z :=
  match faf with
  | None => Z.min (2 ^ (8 * Z.of_nat e - 1) - 1) (Z.max (- 2 ^ (8 * Z.of_nat e - 1)) v)
  | Some ac => LutModel.fused_clamp ac s z v
  end%Z.

Definition normal_axis (axis : Z) (rank : nat) : nat := Z.to_nat (if (axis <? 0)%Z then axis + Z.of_nat rank else axis)%Z.

(** What an operator computes from its operands (type and bytes), given its result type.  The X operators run the kernels of
    CopyKernels and FunOpsSpec; [None]: the kernel reads out of bounds, or wrong number of operands. *)
Definition sem (o : fop) (vs : list (ty * bytes)) (r : ty) : option bytes :=
  match o, vs with
  | TSlice begin _, [(a, b)] => Some (bytes_of (t_shape r) (slice_t begin (stored a b)))
  | TPad before _, [(a, b)] =>
      let zero := match t_zero a with Some z => z | None => 0%Z end in
      Some (bytes_of (t_shape r) (pad_t before (t_shape a) (le_bytes (t_elem a) zero) (stored a b)))
  | TBroadcast, [(a, b)] => Some (bytes_of (t_shape r) (broadcast_to (t_shape a) (t_shape r) (stored a b)))
  | TConcat axis, _ =>
      let ax := normal_axis axis (length (t_shape r)) in
      Some (bytes_of (t_shape r)
              (concat_t (repeat 0%Z (t_elem r)) ax (map (fun v => (nth ax (t_shape (fst v)) 0, stored (fst v) (snd v))) vs)))
  | TStridedSlice bm em sm begin stop _, [(a, b)] =>
      let l := np_axes 0 bm em sm (t_shape a) begin stop in
      Some (bytes_of (np_shape l) (strided_slice_t l (stored a b)))
  | TMean axes f, [(a, b)] =>
      let mask := axis_mask (length (t_shape a)) axes in
      Some (flatten (kept_shape mask (t_shape a))
              (fun o => f (reduced_elems mask (t_shape a) (fun idx => nth (position_of (t_shape a) idx) b 0%Z) o)))
  | TReshape, [(_, b)] => Some b
  | TTranspose perm, [(a, b)] => Some (bytes_of (t_shape r) (TransposeSpec.transpose_t perm (stored a b)))
  | TQuantize f, [(a, b)] => Some (bytes_of (t_shape r) (fun idx => f (stored a b idx)))
  | TConst data, [] => Some data
  | TCompute c, _ => sem_compute c (map snd vs)
  | TBinary f faf s z, [(a, x); (b, y)] =>
      Some (bytes_of (t_shape r) (fun idx => le_bytes (t_elem r) (stored_value (t_elem r) faf s z
        (f (broadcast_to (t_shape a) (t_shape r) (integers a x) idx) (broadcast_to (t_shape b) (t_shape r) (integers b y) idx)))))
  | TMinimum cs c, [(a, x)] =>
      Some (bytes_of (t_shape r) (fun idx => le_bytes (t_elem r)
        (Z.min (integers a x idx) (broadcast_to cs (t_shape r) (fun i => nth (position_of cs i) c 0%Z) idx))))
  | TOther f, _ => Some (f (map snd vs))
  | XSlice o, [(_, b)] => run_slice o b
  | XPad o, [(_, b)] => run_pad o b
  | XBroadcast o, [(_, b)] => run_broadcast o b
  | XConcat o, _ => run_concat o (map snd vs)
  | XMean o f, [(_, b)] => run_mean f o b
  | XCompute x, (a, _) :: _ => sem_xcompute x (nelem (t_shape a)) (map snd vs)
  | _, _ => None
  end.

(** Executing a function on the bytes of its parameters. *)
Definition env := list (nat * (ty * bytes)).
Fixpoint eval_body (body : list instr) (e : env) : option env :=
  match body with
  | [] => Some e
  | i :: tl =>
      match lookups e (i_args i) with
      | Some vs => match sem (i_op i) vs (i_ty i) with
                   | Some b => eval_body tl ((i_dst i, (i_ty i, b)) :: e)
                   | None => None
                   end
      | None => None
      end
  end.
Definition start (ps : list (nat * ty)) (inputs : list bytes) : env :=
  map (fun p => (fst (fst p), (snd (fst p), snd p))) (combine ps inputs).
Definition evaluate (f : func) (inputs : list bytes) : option (list (ty * bytes)) :=
  match eval_body (f_body f) (start (f_params f) inputs) with
  | Some e => lookups e (f_rets f)
  | None => None
  end.

(** The verifier's conditions on an operator, its operand types and its result type (the element types of operands and result
    agree).  Fused activations of Add, Sub, Mul: Relu and Relu6 on 8 bits (C50).  Padding: 8-bit elements or zero point 0 (C14_wide_zero_point_refuted); strided slices with in-range bounds (C19). *)
Definition same_elem (a r : ty) : Prop := t_elem r = t_elem a /\ t_zero r = t_zero a.
(** A tensor of shape [s] can be broadcast to [outs]. *)
Definition broadcasts (s outs : list nat) : Prop := length s <= length outs /\ Forall2 (fun d o => d = 1 \/ d = o) s (skipn (length outs - length s) outs).
(** The sizes of a slice are those of its result; -1: up to the end. *)
Definition sizes_of (sizes : list Z) (s : list nat) : Prop := Forall2 (fun z n => z = Z.of_nat n \/ z = (-1)%Z) sizes s.
Definition op_ok (o : fop) (tys : list ty) (r : ty) : Prop :=
  match o, tys with
  | TSlice begin sizes, [a] => slice_fits begin (t_shape r) (t_shape a) /\ sizes_of sizes (t_shape r) /\ same_elem a r
  | TPad before after, [a] =>
      pad_fits before after (t_shape r) (t_shape a) /\ Forall (fun d => 0 < d) (t_shape a) /\ same_elem a r /\
      (t_elem a = 1 \/ match t_zero a with Some z => z | None => 0%Z end = 0%Z)
  | TBroadcast, [a] => length (t_shape a) <= length (t_shape r) /\ same_elem a r
  | TConcat axis, _ =>
      exists pre post ds,
        (axis = Z.of_nat (length pre) \/ axis = - Z.of_nat (S (length post)))%Z /\
        map t_shape tys = map (fun d => pre ++ d :: post) ds /\ t_shape r = pre ++ sum_n ds :: post /\
        Forall (fun t => t_elem t = t_elem r) tys
  | TStridedSlice bm em sm begin stop strides, [a] =>
      regular_axes 0 bm em sm (t_shape a) begin stop /\ Forall (fun s => s = 1%Z) strides /\
      t_shape r = np_shape (np_axes 0 bm em sm (t_shape a) begin stop) /\ same_elem a r
  | TMean axes f, [a] =>
      axes <> [] /\ NoDup axes /\ (forall x, In x axes -> x < length (t_shape a)) /\
      nelem (t_shape r) = nelem (kept_shape (axis_mask (length (t_shape a)) axes) (t_shape a)) /\ t_elem a = 1 /\ t_elem r = 1
  | TReshape, [a] => nelem (t_shape r) = nelem (t_shape a) /\ same_elem a r
  | TTranspose perm, [a] => Permutation perm (seq 0 (length (t_shape a))) /\ t_shape r = TransposeSpec.permute perm (t_shape a) /\ same_elem a r
  | TQuantize f, [a] => t_shape r = t_shape a /\ forall l, length l = t_elem a -> length (f l) = t_elem r
  | TConst data, [] => length data = tsize r
  | TCompute c, _ => compute_ok c tys r
  | TBinary f faf s z, [a; b] =>
      (t_elem r = 1 \/ t_elem r = 2 /\ faf = None) /\ t_elem a = t_elem r /\ t_elem b = t_elem r /\
      length (t_shape a) <= length (t_shape r) /\ length (t_shape b) <= length (t_shape r) /\
      QArith_base.Qlt (QArith_base.Qmake 0%Z 1%positive) s /\ (t_elem r = 1 -> LutSpec.int8 z) /\ (forall ac, faf = Some ac -> ac = LutModel.Relu \/ ac = LutModel.Relu6)
  | TMinimum cs c, [a] => t_shape r = t_shape a /\ t_elem a = 1 /\ same_elem a r /\ length c = nelem cs /\ Forall LutSpec.int8 c /\ broadcasts cs (t_shape r)
  | TOther f, _ => forall bs, Forall2 (fun t b => length b = tsize t) tys bs -> length (f bs) = tsize r
  | _, _ => False
  end.

(** A verified TFLite function: names defined once and before they are used, operators verified. *)
Fixpoint verified_body (sc : list (nat * ty)) (body : list instr) : Prop :=
  match body with
  | [] => True
  | i :: tl => lookup sc (i_dst i) = None /\
      (exists tys, lookups sc (i_args i) = Some tys /\ op_ok (i_op i) tys (i_ty i)) /\
      verified_body ((i_dst i, i_ty i) :: sc) tl
  end.
Definition verified (f : func) : Prop :=
  NoDup (map fst (f_params f)) /\ verified_body (f_params f) (f_body f) /\
  forall x, In x (f_rets f) -> exists t, lookup (scope (f_params f) (f_body f)) x = Some t.

(** Inputs of the right sizes. *)
Definition sized (ps : list (nat * ty)) (inputs : list bytes) : Prop :=
  Forall2 (fun p b => length b = tsize (snd p)) ps inputs.
