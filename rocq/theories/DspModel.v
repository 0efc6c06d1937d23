(** The signal processing of examples/audio_network, one block after the other: data_path.c 127-133, with dsp.c 14-117 (dsp_time_to_freq, dsp_calculate_mels,
    dsp_apply_masks, dsp_freq_to_time) and support.cpp 121-143 (the masks), from the models of the parts (AudioModel, MelModel, HypotModel, LogModel).
    By contract (parameters): the resamplers src_ff3_96t_ds and src_ff3_96t_us with their filter states, the transforms of lib_xcore_math
    ([forward]: dsp.c 34-38, [inverse]: dsp.c 50-53, with fft_state_t), and the network with the multiplication of its inputs by a float.
    Simplification: after undefined behaviour the state is None and zeros are sent. *)
From Coq Require Import List ZArith QArith Bool Arith.
From Verif Require Import MelModel LogModel HypotModel AudioTables AudioModel.
Import ListNotations.
Local Open Scope Z_scope.

(** dsp.h: WINDOW_ADVANCE, WINDOW_SIZE, UPSAMPLED_WINDOW_ADVANCE = UPSAMPLE_RATE * WINDOW_ADVANCE. *)
Definition ADV : nat := 128.
Definition WIN : nat := 512.
Definition BLOCK : nat := 384.

Section Dsp.
Variables DS US NS : Type.                          (* state_ds, state_us, the state of the network *)
Variable down : DS -> list Z -> DS * Z.             (* three samples to one *)
Variable up : US -> Z -> US * list Z.               (* one sample to three *)
Variable forward : list Z -> list Z * (Z * Z).      (* the spectrum; exponent and headroom *)
Variable inverse : Z * Z -> list Z -> list Z.
Variable network : NS -> list Z -> NS * list Q.     (* on the levels *)
Variables t2 t3 t11 : Z.                            (* registers that hypot_i does not set *)
Variable stack : list Z.                            (* mels_int, not initialised: dsp.c 74 *)

(** dsp.c 21-24: the samples go in by three. *)
Fixpoint downs (s : DS) (n : nat) (l : list Z) : DS * list Z :=
  match n with
  | O => (s, [])
  | S k => let '(s1, x) := down s (firstn 3 l) in let '(s2, xs) := downs s1 k (skipn 3 l) in (s2, x :: xs)
  end.
(** dsp.c 63-66 *)
Fixpoint ups (s : US) (l : list Z) : US * list Z :=
  match l with
  | [] => (s, [])
  | x :: tl => let '(s1, r) := up s x in let '(s2, rs) := ups s1 tl in (s2, r ++ rs)
  end.
(** dsp.c 72-93, without the multiplication by a float. *)
Definition calculate_mels (spectrum : list Z) (gain : Z) : option (list Z) :=
  match magnitudes t2 t3 t11 spectrum with
  | None => None
  | Some l => match mel_compress stack l mel_coefficients mel_bins_in_overlap with
              | None => None
              | Some mels => Some (map (fun m => log2_16 m + gain * 1024 - 20 * 1024) (firstn 64 mels))
              end
  end.
(** support.cpp 140-143 *)
Fixpoint all_masks (b : Z) (outputs : list Q) : option (list Z) :=
  match outputs with
  | [] => Some []
  | q :: tl => match mask_of b q, all_masks b tl with Some m, Some ms => Some (m :: ms) | _, _ => None end
  end.

(** The static variables: dsp.c 15-16, 46-47, support.cpp 105. *)
Record statics := Statics { s_ds : DS; s_frame : list Z; s_out : list Z; s_us : US; s_ns : NS }.
(** data_path.c 127-133 *)
Definition block (b : Z) (d : option statics) (l : list Z) : option statics * list Z :=
  let dead := (None, repeat 0 BLOCK) in
  match d with
  | None => dead
  | Some s =>
      let '(ds, new) := downs (s_ds s) ADV l in
      let frame := slide ADV WIN (s_frame s) new in
      let '(spectrum, st) := forward (window raised_cosine_512 frame) in
      match calculate_mels spectrum (fst st) with
      | None => dead
      | Some levels =>
          let '(ns, outputs) := network (s_ns s) levels in
          match all_masks b outputs with
          | None => dead
          | Some masks =>
              match apply_masks spectrum masks mel_coefficients mel_bins_in_overlap with
              | None => dead
              | Some spectrum' =>
                  let out := overlap ADV WIN (s_out s) (inverse st spectrum') in
                  let '(us, r) := ups (s_us s) (map (fun i => nth i out 0) (seq 0 ADV)) in
                  (Some (Statics ds frame (keep ADV WIN out) us ns), r)
              end
          end
      end
  end.
(** Static memory is zero. *)
Definition at_start (ds0 : DS) (us0 : US) (ns0 : NS) : option statics := Some (Statics ds0 (repeat 0 WIN) (repeat 0 WIN) us0 ns0).
End Dsp.
