(** Model of the mel filter bank of examples/audio_network: src/mel.c (mel_compress, mel_expand), src/compress_mel.py (compress_mel, which
    generates src/mel_parameters.h), and the use of the masks in src/dsp.c 96-117 (dsp_apply_masks).
    Simplification: a coefficient is printed with 6 decimals (%f) and the C constant expression on it is computed exactly. *)
From Coq Require Import List ZArith QArith Bool Arith.
Import ListNotations.
Local Open Scope Z_scope.

(** Reads and writes of an int array: None, outside the array. *)
Definition get (l : list Z) (i : Z) : option Z := if i <? 0 then None else nth_error l (Z.to_nat i).
Fixpoint set_nat (l : list Z) (i : nat) (v : Z) : option (list Z) :=
  match l, i with
  | [], _ => None
  | _ :: tl, O => Some (v :: tl)
  | x :: tl, S k => option_map (cons x) (set_nat tl k v)
  end.
Definition set (l : list Z) (i v : Z) : option (list Z) := if i <? 0 then None else set_nat l (Z.to_nat i) v.
(** Signed 32-bit arithmetic: None on overflow.  Conversion of an int64_t to int: modulo 2^32. *)
Definition int_ok (z : Z) : option Z := if (-2147483648 <=? z) && (z <=? 2147483647) then Some z else None.
Definition to_int (z : Z) : Z := let r := z mod 4294967296 in if r <? 2147483648 then r else r - 4294967296.

Notation "x <- a ;; b" := (match a with Some x => b | None => None end) (at level 61, a at next level, right associativity).

(** mel.h: MEL_Q_VALUE, MEL_ONE_VALUE. *)
Definition MEL_ONE : Z := 1073741824.

(** mel.c 6-24.  [bins]: the input bins and their fractions that are left. *)
Fixpoint compress_loop (bins : list (Z * Z)) (overlap : list Z) (cur run : Z) (mel : list Z) : option (list Z) :=
  match bins with
  | [] => Some mel
  | (x, f) :: tl =>
      st <- (if run <=? 0 then
               r <- get overlap (cur + 1) ;; mel' <- set mel (cur + 1 + 1) 0 ;; Some (cur + 1, r, mel')
             else Some (cur, run, mel)) ;;
      let '(cur, run, mel) := st in
      let contribution := to_int (x * f / MEL_ONE) in
      a <- get mel cur ;; a' <- int_ok (a + contribution) ;; mel <- set mel cur a' ;;
      d <- int_ok (x - contribution) ;;
      b <- get mel (cur + 1) ;; b' <- int_ok (b + d) ;; mel <- set mel (cur + 1) b' ;;
      compress_loop tl overlap cur (run - 1) mel
  end.
(** [mel]: the contents of the output array before the call. *)
Definition mel_compress (mel input fractions overlap : list Z) : option (list Z) :=
  mel <- set mel 0 0 ;; compress_loop (combine input fractions) overlap (-1) 0 mel.

(** mel.c 26-41. *)
Fixpoint expand_loop (fractions : list Z) (mel overlap : list Z) (cur run : Z) : option (list Z) :=
  match fractions with
  | [] => Some []
  | f :: tl =>
      st <- (if run <=? 0 then r <- get overlap (cur + 1) ;; Some (cur + 1, r) else Some (cur, run)) ;;
      let '(cur, run) := st in
      a <- get mel cur ;; b <- get mel (cur + 1) ;;
      out <- expand_loop tl mel overlap cur (run - 1) ;;
      Some (to_int ((a * f + b * (MEL_ONE - f)) / MEL_ONE) :: out)
  end.
Definition mel_expand (mel fractions overlap : list Z) : option (list Z) := expand_loop fractions mel overlap (-1) 0.

(** dsp.c 104-116: a frequency times its mask. *)
Definition apply_mask (x m : Z) : Z := to_int (x * m / 1073741824).

(** compress_mel.py 3-18.  [bank r c]: row r, column c of the filter bank, which has [rows] rows.  None: IndexError. *)
Fixpoint compress_columns (rows : nat) (bank : nat -> nat -> Q) (cols : list nat) (mel run : nat) (runs : list nat) (vals : list Q) : option (list nat * list Q) :=
  match cols with
  | [] => Some (if Nat.eqb run 0 then runs else runs ++ [run], vals)
  | i :: tl =>
      if Nat.leb rows mel then None
      else
        let '(mel, run, runs) := if Qeq_bool (bank mel i) 0 then (S mel, 0%nat, runs ++ [run]) else (mel, run, runs) in
        if Nat.leb rows mel then None
        else compress_columns rows bank tl mel (S run) runs (vals ++ [bank mel i])
  end.
(** %f: the nearest multiple of 1/1000000, ties to even; then (int)(v * MEL_ONE_VALUE + 0.5), for v not negative. *)
Definition round_even (q : Q) : Z :=
  let n := Qnum q in let d := Z.pos (Qden q) in
  let lo := n / d in let r := 2 * (n mod d) in
  if r <? d then lo else if d <? r then lo + 1 else if Z.even lo then lo else lo + 1.
Definition coefficient (q : Q) : Z := (2 * round_even (q * inject_Z 1000000) * MEL_ONE + 1000000) / 2000000.
(** Lines 20-25 and the arrays of mel_parameters.h: the overlaps are filled with zeros up to the number of rows ([None]: more initialisers than elements). *)
Definition compress_mel (rows cols : nat) (bank : nat -> nat -> Q) : option (list Z * list Z) :=
  match compress_columns rows bank (seq 0 cols) 0 0 [] [] with
  | Some (runs, vals) =>
      if Nat.leb (length runs) rows then Some (map Z.of_nat runs ++ repeat 0 (rows - length runs), map coefficient vals) else None
  | None => None
  end.

(** compress_mel.py 27-46: the shipped filter bank, 64 rows and 257 columns.  The loops fill the columns from left to right: columns 0-15 in rows 0-15,
    then 2 columns for each of rows 16-31, 4 for each of rows 32-47, 10 for each of rows 48-62 (5 for the last: column 256 is the last one);
    the k-th column of n of a row has 1 - k/n in it and k/n in the next row.  Simplification: in closed form (row and weight of a column) instead of the loops. *)
Definition shipped_first (c : nat) : nat :=
  (if Nat.ltb c 16 then c else if Nat.ltb c 48 then 16 + (c - 16) / 2 else if Nat.ltb c 112 then 32 + (c - 48) / 4 else 48 + (c - 112) / 10)%nat.
Definition shipped_weight (c : nat) : Q :=
  if Nat.ltb c 16 then 1%Q
  else if Nat.ltb c 48 then (1 - (Z.of_nat ((c - 16) mod 2) # 2))%Q
  else if Nat.ltb c 112 then (1 - (Z.of_nat ((c - 48) mod 4) # 4))%Q
  else (1 - (Z.of_nat ((c - 112) mod 10) # 10))%Q.
Definition shipped (r c : nat) : Q :=
  if Nat.eqb r (shipped_first c) then shipped_weight c else if Nat.eqb r (S (shipped_first c)) then (1 - shipped_weight c)%Q else 0%Q.
(** mel_parameters.h: the tables that are compiled. *)
Definition mel_bins_in_overlap : list Z := [1; 1; 1; 1; 1; 1; 1; 1; 1; 1; 1; 1; 1; 1; 1; 1; 2; 2; 2; 2; 2; 2; 2; 2; 2; 2; 2; 2; 2; 2; 2; 2; 4; 4; 4; 4; 4; 4; 4; 4; 4; 4; 4; 4; 4; 4; 4; 4; 10; 10; 10; 10; 10; 10; 10; 10; 10; 10; 10; 10; 10; 10; 5; 0].
Definition mel_coefficients : list Z :=
  [1073741824; 1073741824; 1073741824; 1073741824; 1073741824; 1073741824; 1073741824; 1073741824; 1073741824; 1073741824; 1073741824; 1073741824; 1073741824; 1073741824; 1073741824; 1073741824; 1073741824; 536870912; 1073741824; 536870912; 1073741824; 536870912; 1073741824; 536870912; 1073741824; 536870912; 1073741824; 536870912; 1073741824; 536870912; 1073741824; 536870912; 1073741824; 536870912; 1073741824; 536870912; 1073741824; 536870912; 1073741824; 536870912; 1073741824; 536870912; 1073741824; 536870912; 1073741824; 536870912; 1073741824; 536870912; 1073741824; 805306368; 536870912; 268435456; 1073741824; 805306368; 536870912; 268435456; 1073741824; 805306368; 536870912; 268435456; 1073741824; 805306368; 536870912; 268435456; 1073741824; 805306368; 536870912; 268435456; 1073741824; 805306368; 536870912; 268435456; 1073741824; 805306368; 536870912; 268435456; 1073741824; 805306368; 536870912; 268435456; 1073741824; 805306368; 536870912; 268435456; 1073741824; 805306368; 536870912; 268435456; 1073741824; 805306368; 536870912; 268435456; 1073741824; 805306368; 536870912; 268435456; 1073741824; 805306368; 536870912; 268435456; 1073741824; 805306368; 536870912; 268435456; 1073741824; 805306368; 536870912; 268435456; 1073741824; 805306368; 536870912; 268435456; 1073741824; 966367642; 858993459; 751619277; 644245094; 536870912; 429496730; 322122547; 214748365; 107374182; 1073741824; 966367642; 858993459; 751619277; 644245094; 536870912; 429496730; 322122547; 214748365; 107374182; 1073741824; 966367642; 858993459; 751619277; 644245094; 536870912; 429496730; 322122547; 214748365; 107374182; 1073741824; 966367642; 858993459; 751619277; 644245094; 536870912; 429496730; 322122547; 214748365; 107374182; 1073741824; 966367642; 858993459; 751619277; 644245094; 536870912; 429496730; 322122547; 214748365; 107374182; 1073741824; 966367642; 858993459; 751619277; 644245094; 536870912; 429496730; 322122547; 214748365; 107374182; 1073741824; 966367642; 858993459; 751619277; 644245094; 536870912; 429496730; 322122547; 214748365; 107374182; 1073741824; 966367642; 858993459; 751619277; 644245094; 536870912; 429496730; 322122547; 214748365; 107374182; 1073741824; 966367642; 858993459; 751619277; 644245094; 536870912; 429496730; 322122547; 214748365; 107374182; 1073741824; 966367642; 858993459; 751619277; 644245094; 536870912; 429496730; 322122547; 214748365; 107374182; 1073741824; 966367642; 858993459; 751619277; 644245094; 536870912; 429496730; 322122547; 214748365; 107374182; 1073741824; 966367642; 858993459; 751619277; 644245094; 536870912; 429496730; 322122547; 214748365; 107374182; 1073741824; 966367642; 858993459; 751619277; 644245094; 536870912; 429496730; 322122547; 214748365; 107374182; 1073741824; 966367642; 858993459; 751619277; 644245094; 536870912; 429496730; 322122547; 214748365; 107374182; 1073741824; 966367642; 858993459; 751619277; 644245094].
