(** Meaning of the functions of SplitGraphModel, and what the MLIR verifier checks (C95). *)
From Coq Require Import List ZArith Bool Arith Permutation.
Import ListNotations.
From Verif Require Import ConvSpec OpSplitSpec SplitNetSpec SplitGraphModel.
Local Open Scope Z_scope.

(** The pixels of an image, row by row. *)
Definition pixels {P} (t : gty) (img : image P) : list P :=
  flat_map (fun y => map (fun x => img (Z.of_nat y) (Z.of_nat x)) (seq 0 (Z.to_nat (g_w t)))) (seq 0 (Z.to_nat (g_h t))).

(** A value: its type and pixels.  Two values are the same when the types are equal and so are the pixels inside. *)
Definition value (P : Type) : Type := gty * image P.
Definition same_value {P} (v v' : value P) : Prop :=
  fst v = fst v' /\ forall y x, 0 <= y < g_h (fst v) -> 0 <= x < g_w (fst v) -> snd v y x = snd v' y x.

(** Pixel (y, x) of an operand that is broadcast along the dimensions in which it has size 1. *)
Definition broadcast_at {P} (v : value P) (y x : Z) : P :=
  snd v (if g_h (fst v) =? 1 then 0 else y) (if g_w (fst v) =? 1 then 0 else x).

(** The image computed by an operator ([dz]: pixels of an operation with the wrong number of operands). *)
Definition eval_op {P} (dz : P) (o : gop P) (args : list (value P)) : image P :=
  match o, args with
  | OConv same fh fw sH sW G z, [v] => original_conv G z same fh fw sH sW (g_h (fst v)) (g_w (fst v)) (snd v)
  | OPad top _ lft _ z, [v] => pad_image (g_h (fst v)) (g_w (fst v)) z top lft (snd v)
  | OBin f, [v1; v2] => fun y x => f (broadcast_at v1 y x) (broadcast_at v2 y x)
  | OSlice b _, [v] => slice_image b 0 (snd v)
  | OConcat z, _ => stack z (map (fun v => (g_h (fst v), snd v)) args)
  | OFake _, [v] => snd v
  | OMean m, [v] => fun _ _ => m (pixels (fst v) (snd v))
  | OUnary u, [v] => u (pixels (fst v) (snd v))
  | OConst img, _ => img
  | OOther f, _ => f (map (fun v => pixels (fst v) (snd v)) args)
  | _, _ => fun _ _ => dz
  end.

(** Execution in order; the results for given inputs. *)
Definition node_value {P} (dz : P) (e : nat -> value P) (n : node P) : value P := (n_ty n, eval_op dz (n_op n) (map e (n_args n))).
Definition set {P} (e : nat -> value P) (x : nat) (v : value P) : nat -> value P := fun y => if Nat.eqb y x then v else e y.
Definition execute {P} (dz : P) (body : list (node P)) (e : nat -> value P) : nat -> value P :=
  fold_left (fun e n => set e (n_dst n) (node_value dz e n)) body e.
Definition inputs {P} (dz : P) (ps : list (nat * gty)) (imgs : nat -> image P) : nat -> value P :=
  fun x => match find (fun p => Nat.eqb (fst p) x) ps with Some p => (snd p, imgs x) | None => (GTy 0 0 0, fun _ _ => dz) end.
Definition results {P} (dz : P) (f : graph P) (imgs : nat -> image P) : list (value P) :=
  map (execute dz (g_body f) (inputs dz (g_params f) imgs)) (g_rets f).

(** What the operations' verifiers check: number, shapes and ranges of the operands, type of the result. *)
Definition broadcasts (a t : Z) : Prop := a = 1 \/ a = t.
Definition types_check {P} (o : gop P) (args : list gty) (t : gty) : Prop :=
  1 <= g_h t /\ 1 <= g_w t /\
  match o with
  | OConv same fh fw sH sW _ _ => exists a, args = [a] /\ (1 <= fh)%nat /\ (1 <= fw)%nat /\ 1 <= sH /\ 1 <= sW /\
      (same = false -> Z.of_nat fh <= g_h a /\ Z.of_nat fw <= g_w a) /\
      g_h t = conv_out same (g_h a) (Z.of_nat fh) sH /\ g_w t = conv_out same (g_w a) (Z.of_nat fw) sW
  | OPad top bottom lft rgt _ => exists a, args = [a] /\ 0 <= top /\ 0 <= bottom /\ 0 <= lft /\ 0 <= rgt /\
      t = GTy (top + g_h a + bottom) (lft + g_w a + rgt) (g_c a)
  | OBin _ => exists a b, args = [a; b] /\ broadcasts (g_h a) (g_h t) /\ broadcasts (g_h b) (g_h t) /\
      broadcasts (g_w a) (g_w t) /\ broadcasts (g_w b) (g_w t)
  | OSlice b n => exists a, args = [a] /\ 0 <= b /\ 1 <= n /\ b + n <= g_h a /\ t = GTy n (g_w a) (g_c a)
  | OConcat _ => args <> [] /\ Forall (fun a => g_w a = g_w t /\ g_c a = g_c t) args /\ g_h t = fold_right Z.add 0 (map g_h args)
  | OFake _ => args = [t]
  | OMean _ => exists a, args = [a] /\ g_h t = 1 /\ g_w t = 1 /\ g_c t = g_c a
  | OUnary _ => exists a, args = [a]
  | OConst _ => args = []
  | OOther _ => True
  end.

(** The verifier: every value is defined once, before its uses, with positive sizes, and the operations check. *)
Fixpoint in_order {P} (scope : list nat) (body : list (node P)) : Prop :=
  match body with
  | [] => True
  | n :: tl => incl (n_args n) scope /\ ~ In (n_dst n) scope /\ in_order (n_dst n :: scope) tl
  end.
Definition verified {P} (f : graph P) : Prop :=
  NoDup (map fst (g_params f)) /\ (forall p, In p (g_params f) -> 1 <= g_h (snd p) /\ 1 <= g_w (snd p)) /\
  in_order (map fst (g_params f)) (g_body f) /\
  incl (g_rets f) (map fst (g_params f) ++ map n_dst (g_body f)) /\
  forall n, In n (g_body f) -> types_check (n_op n) (map (type_of f) (n_args n)) (n_ty n).

(** The operations selected for splitting for which the patterns are right: pads with as much padding before as after (or one
    less), Add and Mul whose operands have the shape of the result or height 1 (C27 and C28 have the counterexamples for
    the others). *)
Definition selected {P} (n : node P) : Prop := n_label n = true \/ n_start n = true.
Definition within_limits {P} (f : graph P) : Prop := forall n, In n (g_body f) -> selected n ->
  match n_op n with
  | OPad top bottom lft rgt _ => top = (top + bottom) / 2 /\ lft = (lft + rgt) / 2
  | OBin _ => forall a, In a (n_args n) -> type_of f a = n_ty n \/ g_h (type_of f a) = 1
  | _ => True
  end.

(** An average that does not depend on the order and is the average of the averages of parts of the same size. *)
Definition exact_mean {P} (m : list P -> P) : Prop :=
  (forall l l', Permutation l l' -> m l = m l') /\
  (forall n parts, (1 <= n)%nat -> parts <> [] -> Forall (fun l => length l = n) parts -> m (map m parts) = m (concat parts)).

(** The bands, in some order, follow each other from row [pos] to row [stop] and have the width [w]. *)
Fixpoint follow (pos : Z) (bands : list (Z * gty)) (stop : Z) : Prop :=
  match bands with
  | [] => pos = stop
  | (b, t) :: tl => b = pos /\ 1 <= g_h t /\ follow (pos + g_h t) tl stop
  end.
Definition covers (bands : list (Z * gty)) (a : gty) : Prop :=
  exists bs, Permutation bands bs /\ follow 0 bs (g_h a) /\ Forall (fun p => g_w (snd p) = g_w a) bs.
(** A fake slice that stands below a mean has recorded slices that cover the mean's input (the code does not check this:
    C45_refuted_overlapping). *)
Definition mean_covered {P} (f : graph P) (k : node P) : Prop :=
  forall bands a d m a', n_op k = OFake bands -> n_args k = [a] -> def_of f a = Some d -> n_op d = OMean m -> n_args d = [a'] ->
  exact_mean m /\ covers bands (type_of f a').

(** Runs of the pass: any interleaving of the patterns, as long as the verifier accepts. *)
Inductive pass_run {P} (z : P) : graph P -> graph P -> Prop :=
| PassEnd : forall f, pass_run z f f
| PassStep : forall f g h,
    split_phase z f g \/ raise_phase z f g -> verified g ->
    (forall k, In k (g_body f) -> rewrite_fake z f k = Rewritten g -> mean_covered f k) ->
    pass_run z g h -> pass_run z f h.

(** Conditions under which the patterns make functions that the verifier accepts: the rows of a band of [d]'s result that fit
    (SAME convolutions: C26; pads: C27, and the band has at least one row of the input). *)
Definition fits {P} (f : graph P) (d : node P) (b n : Z) : Prop :=
  match n_op d, n_args d with
  | OConv true fh _ sH _ _ _, [a] => band_supported true (g_h (type_of f a)) (Z.of_nat fh) sH (g_h (n_ty d)) b n
  | OPad top _ _ _ _, [a] =>
      (b = 0 \/ top <= b) /\ ((b <> 0 /\ b + n = g_h (n_ty d)) \/ b + n <= top + g_h (type_of f a)) /\ top < b + n /\ b < top + g_h (type_of f a)
  | _, _ => True
  end.
Definition precedes {P} (f : graph P) (c s : node P) : Prop := exists l1 l2 l3, g_body f = l1 ++ c :: l2 ++ s :: l3.
Definition slice_sound {P} (f : graph P) (s : node P) (pick : nat) : Prop :=
  forall b n x d, n_op s = OSlice b n -> n_args s = [x] -> def_of f x = Some d ->
  match n_op d, containing f s b n x with
  | OPad _ _ _ _ _, _ | _, [] => fits f d b n
  | _, cands => forall c, nth_error cands pick = Some c -> precedes f c s
  end.
Definition mean_bands {P} (f : graph P) (k : node P) : Prop :=
  forall bands a d m a', n_op k = OFake bands -> n_args k = [a] -> def_of f a = Some d -> n_op d = OMean m -> n_args d = [a'] ->
  Forall (fun p => g_c (snd p) = g_c (type_of f a')) bands.
Inductive sound_step {P} (z : P) (f g : graph P) : Prop :=
| SoundSplit : forall d num, In d (g_body f) -> n_num d = Some num -> 1 <= num <= g_h (n_ty d) -> split_node z f d = Rewritten g -> sound_step z f g
| SoundSlice : forall s pick, In s (g_body f) -> rewrite_slice f s pick = Rewritten g -> slice_sound f s pick -> sound_step z f g
| SoundFake : forall k, In k (g_body f) -> rewrite_fake z f k = Rewritten g -> mean_covered f k -> mean_bands f k -> sound_step z f g
| SoundDead : forall d, In d (g_body f) -> unused f (n_dst d) = true -> g = replace f (n_dst d) [] -> sound_step z f g.
Inductive sound_run {P} (z : P) : graph P -> graph P -> Prop :=
| SoundEnd : forall f, sound_run z f f
| SoundStep : forall f g h, sound_step z f g -> sound_run z g h -> sound_run z f h.
