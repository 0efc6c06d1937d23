(** What C106 says of the signal processing of the audio example: the same computation as five streams, one after the other. *)
From Coq Require Import List ZArith QArith Bool Arith.
From Verif Require Import MelModel AudioTables AudioModel DspModel.
Import ListNotations.
Local Open Scope Z_scope.

Section Streams.
Variables DS NS : Type.
Variable down : DS -> list Z -> DS * Z.
Variable forward : list Z -> list Z * (Z * Z).
Variable inverse : Z * Z -> list Z -> list Z.
Variable network : NS -> list Z -> NS * list Q.
Variables t2 t3 t11 : Z.
Variable stack : list Z.
(** The low-rate samples of k blocks. *)
Definition low_rate (ds : DS) (k : nat) (l : list Z) : list Z := snd (downs DS down ds (k * ADV) l).
(** Sample n of a signal that is zero before the first one. *)
Definition sample (l : list Z) (n : Z) : Z := if n <? 0 then 0 else nth (Z.to_nat n) l 0.
(** The windows of the low-rate samples: number j holds the 512 that end with block j. *)
Definition windows (k : nat) (low : list Z) : list (list Z) :=
  map (fun j => map (fun i => sample low (Z.of_nat ((j + 1) * ADV + i) - Z.of_nat WIN)) (seq 0 WIN)) (seq 0 k).
Definition spectra (k : nat) (low : list Z) : list (list Z * (Z * Z)) := map (fun f => forward (window raised_cosine_512 f)) (windows k low).
(** The network, with its state, sees the levels of every spectrum; its outputs and the setting of the buttons give the masks for that spectrum;
    the masked spectra go back to time. *)
Fixpoint masked (ns : NS) (settings : list Z) (sp : list (list Z * (Z * Z))) : option (list (list Z)) :=
  match settings, sp with
  | b :: bs, (s, st) :: tl =>
      match calculate_mels t2 t3 t11 stack s (fst st) with
      | None => None
      | Some levels =>
          let '(ns', outputs) := network ns levels in
          match all_masks b outputs with
          | None => None
          | Some masks => match apply_masks s masks mel_coefficients mel_bins_in_overlap, masked ns' bs tl with
                          | Some s', Some ys => Some (inverse st s' :: ys)
                          | _, _ => None
                          end
          end
      end
  | _, _ => Some []
  end.
(** The transforms give frame f back, up to e, times 4 (dsp.c 54 shifts by two more than the exponents): 1 = 4 windows of 1/4.  The spectrum is 512
    ints and no sum overflows in the mels (C94 gives a bound that suffices). *)
Definition passes (e : Z) (frame : list Z) : Prop :=
  let '(s, st) := forward (window raised_cosine_512 frame) in
  length s = WIN /\ Forall (fun x => -2147483648 <= x <= 2147483647) s /\ calculate_mels t2 t3 t11 stack s (fst st) <> None /\
  let y := inverse st s in
  length y = WIN /\ Forall (fun x => -2147483648 <= x <= 2147483647) y /\
  forall i, (i < WIN)%nat -> Z.abs (nth i y 0 - 4 * nth i (window raised_cosine_512 frame) 0) <= e.
End Streams.
(** The frames that the transforms give back, each 128 samples after the one before, added up (as ints, which wrap). *)
Fixpoint all_at (ys : list (list Z)) (n : Z) : Z := match ys with [] => 0 | y :: tl => sample y n + all_at tl (n - Z.of_nat ADV) end.
Definition added (ys : list (list Z)) : list Z := map (fun n => to_int (all_at ys (Z.of_nat n))) (seq 0 (length ys * ADV)).
(** The setting that leaves the sound as it is: the last three bits of the button word are 6 (the first button is pressed). *)
Definition pass_through (b : Z) : Prop := Z.land b 7 = 6.

(** The compiled network N as the network of the stream: it is given the bytes of the spectrum ([encode]: levels to 64 floats) and its state. *)
From Verif Require Import MemPlanModel MemExecSpec ArenasModel ArenasSpec RecurModel RecurSpec.
Definition compiled_network (N : net) (encode : list Z -> bytes) (floats : bytes -> list Q) (state : bytes) (levels : list Z) : bytes * list Q :=
  let out := ArenasSpec.private_outputs N [encode levels; state] in (nth 0 out [], floats (nth 1 out [])).
(** The levels of each spectrum. *)
Fixpoint all_levels (t2 t3 t11 : Z) (stack : list Z) (sp : list (list Z * (Z * Z))) : option (list (list Z)) :=
  match sp with
  | [] => Some []
  | (s, st) :: tl => match calculate_mels t2 t3 t11 stack s (fst st), all_levels t2 t3 t11 stack tl with Some l, Some ls => Some (l :: ls) | _, _ => None end
  end.
