(** Softmax on real vectors and 8-bit quantisation, independent of the model. *)
From Coq Require Import List ZArith Reals.
Import ListNotations.
Local Open Scope R_scope.

(** exp(v_i) / (exp(v_0) + ... + exp(v_n-1)). *)
Definition total (v : list R) : R := fold_right (fun x acc => exp x + acc) 0 v.
Definition softmax (v : list R) (i : nat) : R := exp (nth i v 0) / total v.

(** The real numbers that stored values stand for. *)
Definition real_row (scale : R) (zero : Z) (row : list Z) : list R := map (fun q => scale * IZR (q - zero)) row.

(** [v] is the stored value of the real number [y]: rounded to nearest and saturated to 8 bits. *)
Definition stored (scale : R) (zero : Z) (y : R) (v : Z) : Prop :=
  exists r : Z, IZR r - / 2 <= y / scale < IZR r + / 2 /\
    ((-128 <= r + zero <= 127)%Z /\ v = (r + zero)%Z \/ (127 < r + zero)%Z /\ v = 127%Z \/ (r + zero < -128)%Z /\ v = (-128)%Z).

Definition int8_row (row : list Z) : Prop := Forall (fun q => (-128 <= q <= 127)%Z) row.
