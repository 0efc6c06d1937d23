(** What a thread split must satisfy. *)
From Coq Require Import List ZArith Bool Arith.
Import ListNotations.
From Verif Require Import ThreadModel.
Local Open Scope Z_scope.

(** The pixel (row y, column x, channel c) belongs to the region. *)
Definition in_region (r : region) (y x c : Z) : Prop :=
  r_row r <= y < r_row r + r_rows r /\
  r_col r <= x < r_col r + r_cols r /\
  r_ch r <= c < r_ch r + r_chs r.

Definition in_image (H W D y x c : Z) : Prop := 0 <= y < H /\ 0 <= x < W /\ 0 <= c < D.

(** Exactly one region of the list contains the pixel. *)
Definition exactly_one (rs : list region) (y x c : Z) : Prop :=
  exists i r, nth_error rs i = Some r /\ in_region r y x c /\
    forall j r', nth_error rs j = Some r' -> in_region r' y x c -> j = i.

(** The pixels written by a (transpose) convolution that produces the sub-grid
    sub + k * stride of the output. *)
Definition on_grid (sub stride y : Z) : Prop := exists k, 0 <= k /\ y = sub + k * stride.

(** Consecutive half-open intervals covering 0 .. d: what lib_nn's
    calculateThreadSplit is documented to return. *)
Fixpoint consecutive (start : Z) (l : list (Z * Z)) (stop : Z) : Prop :=
  match l with
  | [] => start = stop
  | (s, e) :: tl => s = start /\ s < e /\ consecutive e tl stop
  end.
