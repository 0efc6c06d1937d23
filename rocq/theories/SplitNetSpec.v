(** Meaning of networks of images (C71). *)
From Coq Require Import List ZArith Bool.
Import ListNotations.
From Verif Require Import ConvSpec OpSplitSpec SplitNetModel.
Local Open Scope Z_scope.

(** Concatenation along the height of images of the given heights. *)
Fixpoint stack {P} (z : P) (l : list (Z * image P)) : image P :=
  match l with
  | [] => fun _ _ => z
  | (h, img) :: tl => fun y x => if y <? h then img y x else stack z tl (y - h) x
  end.

Fixpoint eval {P} (e : net P) : image P :=
  match e with
  | Src _ _ img => img
  | Conv same fh fw sH sW G z e => original_conv G z same fh fw sH sW (fst (dims e)) (snd (dims e)) (eval e)
  | Pad t b l r z e => pad_image (fst (dims e)) (snd (dims e)) z t l (eval e)
  | Bin f e1 e2 => fun y x => f (eval e1 y x) (eval e2 y x)
  | BinRow f c e => fun y x => f (eval e y x) (c x)
  | Slice b _ e => slice_image b 0 (eval e)
  | Concat z l => stack z (map (fun e => (fst (dims e), eval e)) l)
  end.

(** Well-typed networks: non-empty images, filters inside the image for VALID, operands of equal shape, slices inside. *)
Fixpoint well_typed {P} (e : net P) : Prop :=
  match e with
  | Src h w _ => 1 <= h /\ 1 <= w
  | Conv same fh fw sH sW _ _ e =>
      (1 <= fh)%nat /\ (1 <= fw)%nat /\ 1 <= sH /\ 1 <= sW /\
      (same = false -> Z.of_nat fh <= fst (dims e) /\ Z.of_nat fw <= snd (dims e)) /\ well_typed e
  | Pad t b l r _ e => 0 <= t /\ 0 <= b /\ 0 <= l /\ 0 <= r /\ well_typed e
  | Bin _ e1 e2 => dims e1 = dims e2 /\ well_typed e1 /\ well_typed e2
  | BinRow _ _ e => well_typed e
  | Slice b n e => 0 <= b /\ 1 <= n /\ b + n <= fst (dims e) /\ well_typed e
  | Concat _ l => l <> [] /\ (exists w, fold_right and True (map (fun e => snd (dims e) = w) l)) /\
                  fold_right and True (map well_typed l)
  end.

(** Same size and the same pixels. *)
Definition same_result {P} (e e' : net P) : Prop :=
  dims e' = dims e /\ forall y x, 0 <= y < fst (dims e) -> 0 <= x < snd (dims e) -> eval e' y x = eval e y x.
