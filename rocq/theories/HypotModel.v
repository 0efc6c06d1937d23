(** Model of examples/audio_network/src/hypot.S, which dsp.c 70-94 calls for the magnitude of every bin of a spectrum (C94): the XS2 instructions of hypot_i (lines 14-71) and scale (lines 92-98)
    on 32-bit registers.  Instructions of one bundle {..} read the registers as they were before the bundle; a taken branch does not stop the other instruction of its bundle.
    ASSUMED: the meaning of the instructions (XMOS xCORE-200 architecture: shr/ashr shift logically/arithmetically; lss compares signed; maccu adds the 64-bit product to the pair of registers;
    ldivu divides a 64-bit value whose high word is below the divisor, and traps otherwise). *)
From Coq Require Import List ZArith Bool.
Import ListNotations.
Local Open Scope Z_scope.

Definition word (z : Z) : Z := z mod 2 ^ 32.
Definition signed (w : Z) : Z := if w <? 2 ^ 31 then w else w - 2 ^ 32.

Definition i_add (x y : Z) := word (x + y).
Definition i_sub (x y : Z) := word (x - y).
Definition i_neg (x : Z) := word (- x).
Definition i_lss (x y : Z) := if signed x <? signed y then 1 else 0.
Definition i_shr (x n : Z) := x / 2 ^ n.
Definition i_ashr (x n : Z) := word (signed x / 2 ^ n).
Definition i_shl (x n : Z) := word (x * 2 ^ n).
(** (high, low) of the sum *)
Definition i_maccu (hi lo x y : Z) : Z * Z := let s := hi * 2 ^ 32 + lo + x * y in (word (s / 2 ^ 32), word s).
(** quotient, remainder; None: exception *)
Definition i_ldivu (hi lo d : Z) : option (Z * Z) := if hi <? d then let n := hi * 2 ^ 32 + lo in Some (n / d, n mod d) else None.

Record regs := Regs { r0 : Z; r1 : Z; r2 : Z; r3 : Z; r11 : Z }.

(** 14-21, ITT(N) *)
Definition itt (n : Z) (s : regs) : regs :=
  (* {lss r3, r0, r11; ldc r2, N} *)
  let s := Regs (r0 s) (r1 s) n (i_lss (r0 s) (r11 s)) (r11 s) in
  (* {bt r3, neg; shr r3, r1, r2} *)
  let neg := negb (r3 s =? 0) in
  let s := Regs (r0 s) (r1 s) (r2 s) (i_shr (r1 s) (r2 s)) (r11 s) in
  if neg then
    (* ashr r2, r0, r2 *)
    let s := Regs (r0 s) (r1 s) (i_ashr (r0 s) (r2 s)) (r3 s) (r11 s) in
    (* {add r0, r0, r3; sub r1, r1, r2} *)
    Regs (i_add (r0 s) (r3 s)) (i_sub (r1 s) (r2 s)) (r2 s) (r3 s) (r11 s)
  else
    (* {shr r2, r0, r2; sub r0, r0, r3} *)
    let s := Regs (i_sub (r0 s) (r3 s)) (r1 s) (i_shr (r0 s) (r2 s)) (r3 s) (r11 s) in
    (* {bu next; add r1, r1, r2} *)
    Regs (r0 s) (i_add (r1 s) (r2 s)) (r2 s) (r3 s) (r11 s).
(** 24-32, ITT_FINAL(N) *)
Definition itt_final (n : Z) (s : regs) : regs :=
  let s := Regs (r0 s) (r1 s) n (i_lss (r0 s) (r11 s)) (r11 s) in
  if negb (r3 s =? 0) then
    let s := Regs (r0 s) (r1 s) (i_ashr (r0 s) (r2 s)) (r3 s) (r11 s) in
    (* {sub r1, r1, r2; ldc r3, 0} *)
    Regs (r0 s) (i_sub (r1 s) (r2 s)) (r2 s) 0 (r11 s)
  else
    (* {shr r2, r0, r2; ldc r3, 0} *)
    let s := Regs (r0 s) (r1 s) (i_shr (r0 s) (r2 s)) 0 (r11 s) in
    Regs (r0 s) (i_add (r1 s) (r2 s)) (r2 s) (r3 s) (r11 s).
(** 37-48: up to next_0 *)
Definition prologue (s : regs) : regs :=
  (* ashr r0, r0, 2;  ldc r11, 0;  lss r2, r1, r11 *)
  let s := Regs (i_ashr (r0 s) 2) (r1 s) (r2 s) (r3 s) (r11 s) in
  let s := Regs (r0 s) (r1 s) (r2 s) (r3 s) 0 in
  let s := Regs (r0 s) (r1 s) (i_lss (r1 s) (r11 s)) (r3 s) (r11 s) in
  (* {bf r2, start; lss r2, r0, r11} *)
  let y_neg := negb (r2 s =? 0) in
  let s := Regs (r0 s) (r1 s) (i_lss (r0 s) (r11 s)) (r3 s) (r11 s) in
  (* {neg r1, r1} *)
  let s := if y_neg then Regs (r0 s) (i_neg (r1 s)) (r2 s) (r3 s) (r11 s) else s in
  (* start: {bf r2, neg_0; shr r1, r1, 2} *)
  let x_neg := negb (r2 s =? 0) in
  let s := Regs (r0 s) (i_shr (r1 s) 2) (r2 s) (r3 s) (r11 s) in
  if x_neg then Regs (i_add (r0 s) (r1 s)) (i_sub (r1 s) (r0 s)) (r2 s) (r3 s) (r11 s)     (* {add r0, r0, r1; sub r1, r1, r0} *)
  else Regs (i_sub (r0 s) (r1 s)) (i_add (r1 s) (r0 s)) (r2 s) (r3 s) (r11 s).             (* {sub r0, r0, r1; add r1, r1, r0} *)
(** 50-66 *)
Definition steps : list Z := [1; 2; 3; 4; 5; 6; 7; 8; 9; 10; 11; 12; 13; 14; 15; 16; 17].
(** 4-5, g_hyp_scalar *)
Definition scalar : Z := 2608131495. (* 0x9b74eda7 *)
(** 69-71; registers on entry other than the two arguments: any values *)
Definition epilogue (s : regs) : Z :=
  (* ldw r0, cp[g_hyp_scalar]; maccu r11, r3, r1, r0; {retsp 0; shl r0, r11, 2} *)
  let '(hi, _) := i_maccu (r11 s) (r3 s) (r1 s) scalar in i_shl hi 2.
Definition hypot_word (x y t2 t3 t11 : Z) : Z :=
  epilogue (itt_final 18 (fold_left (fun s n => itt n s) steps (prologue (Regs (word x) (word y) t2 t3 t11)))).
(** hypot.h: extern int hypot_i(int x, int y) *)
Definition hypot_i (x y t2 t3 t11 : Z) : Z := signed (hypot_word x y t2 t3 t11).

(** 92-98, scale: r0, r1, r2 -> r0, r1 (None: exception) *)
Definition scale (w0 w1 d : Z) : option (Z * Z) :=
  match i_ldivu 0 w1 d with
  | None => None
  | Some (q1, rem) => match i_ldivu rem w0 d with None => None | Some (q0, _) => Some (q0, q1) end
  end.

(** dsp.c 72-86, dsp_calculate_mels up to mel_compress: the magnitudes of the 257 bins of a spectrum of [bins] = WINDOW_SIZE/2 complex numbers, in which the imaginary part of bin 0 is the real part of the last bin.
    abs of the smallest int: undefined (None).  The result is an int. *)
Definition c_abs (x : Z) : option Z := if x =? - 2 ^ 31 then None else Some (Z.abs x).
Fixpoint pairs (l : list Z) : list (Z * Z) := match l with a :: b :: tl => (a, b) :: pairs tl | _ => [] end.
Definition magnitudes (t2 t3 t11 : Z) (fft : list Z) : option (list Z) :=
  match fft with
  | dc :: nyquist :: rest =>
      match c_abs dc, c_abs nyquist with
      | Some a, Some b => Some (a :: map (fun p => hypot_i (fst p) (snd p) t2 t3 t11) (pairs rest) ++ [b])
      | _, _ => None
      end
  | _ => None
  end.
