(** Model of the data path of examples/audio_network: src/data_path.c (the two threads), src/dsp.c 14-69 (windows and overlap-add),
    95-115 (masks), src/support.cpp 121-143 (the masks from the network), with the tables of src/raised_cosine.h and src/support.cpp.
    By contract (parameters): the resamplers src_ff3_96t_ds/us, the FFTs of lib_xcore_math, the network.
    Simplifications: a channel holds any number of tokens; NN_INPUT_CHANNELS and NN_OUTPUT_CHANNELS are 1, as in data_path.c 10-11. *)
From Coq Require Import List ZArith QArith Bool Arith.
From Verif Require Import MelModel AudioTables.
Import ListNotations.
Local Open Scope Z_scope.

Fixpoint set_at (l : list Z) (i : nat) (v : Z) : list Z := match l, i with [], _ => [] | _ :: tl, O => v :: tl | x :: tl, S k => x :: set_at tl k v end.

(** ** The two threads *)
Section Threads.
Variable N : nat.  (* UPSAMPLED_WINDOW_ADVANCE *)
Variable D : Type. (* the state of the signal processing *)
Variable process : Z -> D -> list Z -> D * list Z. (* data_path.c 127-133, given button_state *)

(** data_path.c 54-55: the buffers the threads share, and the end tokens under way from the one to the other *)
Record shared := Shared { tbp : list Z; proc : list Z; tokens : nat }.
(** Where the transport thread is: receiving and sending frames (80-101), in the memcpys of data_to_and_from_nn (68, 69), at 70. *)
Inductive tphase := TFrame | TIn (j : nat) | TOut (j : nat) | TSend.
Record transport := Transport { t_frame : nat; t_in : list Z; t_out : list Z; t_phase : tphase }.
(** Where the other thread is: in the select (119-122), reading data_to_be_processed (127), writing data_processed (133). *)
Inductive dphase := DIdle | DRead (acc : list Z) | DWrite (j : nat) (result : list Z).
Record dsp := Dsp { d_state : D; d_button : Z; d_phase : dphase }.
Record config := Config { c_shared : shared; c_transport : transport; c_dsp : dsp }.

(** What happens next: the other side of c_data sends a frame of 16 words and is sent one; a thread makes a step; a button changes. *)
Inductive action := Frame (words : list Z) | StepT | StepD | Button (v : Z).

(** One word per step of a memcpy, and of the reads and writes of the processing.  None: the action is not possible.  The words sent are returned. *)
Definition step (c : config) (a : action) : option (config * list Z) :=
  let '(Config s t d) := c in
  match a with
  | Frame ws => (* 81-105 *)
      match t_phase t, ws with
      | TFrame, x :: _ =>
          let f := t_frame t in
          let t_in' := set_at (t_in t) f x in
          let out := repeat (nth f (t_out t) 0) 16 in
          let t_out' := set_at (t_out t) f 0 in
          if Nat.eqb (S f) N then Some (Config s (Transport 0 t_in' t_out' (TIn 0)) d, out)
          else Some (Config s (Transport (S f) t_in' t_out' TFrame) d, out)
      | _, _ => None
      end
  | StepT =>
      match t_phase t with
      | TFrame => None
      | TIn j => (* 68 *)
          Some (Config (Shared (set_at (tbp s) j (nth j (t_in t) 0)) (proc s) (tokens s))
                       (Transport (t_frame t) (t_in t) (t_out t) (if Nat.eqb (S j) N then TOut 0 else TIn (S j))) d, [])
      | TOut j => (* 69 *)
          Some (Config s (Transport (t_frame t) (t_in t) (set_at (t_out t) j (nth j (proc s) 0)) (if Nat.eqb (S j) N then TSend else TOut (S j))) d, [])
      | TSend => (* 70 *)
          Some (Config (Shared (tbp s) (proc s) (S (tokens s))) (Transport (t_frame t) (t_in t) (t_out t) TFrame) d, [])
      end
  | StepD =>
      match d_phase d with
      | DIdle => (* 125 *)
          match tokens s with O => None | S k => Some (Config (Shared (tbp s) (proc s) k) t (Dsp (d_state d) (d_button d) (DRead [])), []) end
      | DRead acc =>
          let acc' := acc ++ [nth (length acc) (tbp s) 0] in
          if Nat.eqb (length acc') N then
            let '(st, r) := process (d_button d) (d_state d) acc' in Some (Config s t (Dsp st (d_button d) (DWrite 0 r)), [])
          else Some (Config s t (Dsp (d_state d) (d_button d) (DRead acc')), [])
      | DWrite j r =>
          Some (Config (Shared (tbp s) (set_at (proc s) j (nth j r 0)) (tokens s)) t
                       (Dsp (d_state d) (d_button d) (if Nat.eqb (S j) N then DIdle else DWrite (S j) r)), [])
      end
  | Button v => (* 136-138 *)
      match d_phase d with DIdle => Some (Config s t (Dsp (d_state d) v DIdle), []) | _ => None end
  end.
(** All the words sent on c_data. *)
Fixpoint run (c : config) (l : list action) : option (config * list Z) :=
  match l with
  | [] => Some (c, [])
  | a :: tl => match step c a with
               | None => None
               | Some (c', o) => match run c' tl with None => None | Some (c'', o') => Some (c'', o ++ o') end
               end
  end.
(** Static data is zero (data_path.c 54-55); input_data and output_data (77-78) are on the stack, not initialised; button_state 118. *)
Definition start (d0 : D) (in0 out0 : list Z) : config :=
  Config (Shared (repeat 0 N) (repeat 0 N) 0) (Transport 0 in0 out0 TFrame) (Dsp d0 15 DIdle).
End Threads.

(** ** Windows: dsp.c 14-69 *)
Section Windows.
Variables A W : nat.            (* WINDOW_ADVANCE, WINDOW_SIZE *)
Variable table : list Z.        (* raised_cosine_512 *)
Definition over : nat := W - A. (* WINDOW_OVERLAP *)
(** 20-24: memmove, then the last quarter *)
Definition slide (frame new : list Z) : list Z := firstn over (skipn A frame) ++ new.
(** 28-30 *)
Definition window (frame : list Z) : list Z := map (fun p => to_int ((fst p / 2) * snd p / 4294967296)) (combine table frame).
(** 56-61; int addition wraps on the xcore *)
Definition overlap (out y : list Z) : list Z := map (fun p => to_int (fst p + snd p)) (combine (firstn over out) (firstn over y)) ++ skipn over y.
(** 63-66 the samples that leave; 68 the memmove *)
Definition leaves (out : list Z) : list Z := firstn A out.
Definition keep (out : list Z) : list Z := firstn over (skipn A out) ++ skipn over out.
(** One call of dsp_freq_to_time (without the resampling), all the calls. *)
Definition synth (out y : list Z) : list Z * list Z := let o := overlap out y in (keep o, leaves o).
Fixpoint synths (out : list Z) (ys : list (list Z)) : list Z := match ys with [] => [] | y :: tl => let '(out', l) := synth out y in l ++ synths out' tl end.
(** The window frames of successive calls of dsp_time_to_freq. *)
Fixpoint slides (frame : list Z) (news : list (list Z)) : list (list Z) := match news with [] => [] | n :: tl => let f := slide frame n in f :: slides f tl end.
End Windows.

(** ** Masks: support.cpp 121-143.  The product of a float and 255.0 is exact in double; the conversion to int truncates.
    None: the read is outside of the row of the table. *)
Definition trunc (q : Q) : Z := Z.quot (Qnum q) (Z.pos (Qden q)).
Definition mask_row (button_state : Z) : nat := nth (Z.to_nat (Z.land button_state 7)) button_lookup 0%nat.
Definition mask_of (button_state : Z) (output : Q) : option Z :=
  let i := trunc (output * 255) in
  if (0 <=? i) && (i <? 256) then Some (to_int (nth (Z.to_nat i) (nth (mask_row button_state) output_lookup []) 0 * 4194304)) else None.
(** dsp.c 95-115 with mel.c 26-41. *)
Definition apply_masks (spectrum masks fractions overlaps : list Z) : option (list Z) :=
  match mel_expand masks fractions overlaps with
  | None => None
  | Some m => Some (map (fun i => let k := if Nat.eqb i 0 then 0%nat else if Nat.eqb i 1 then 256%nat else (i / 2)%nat in apply_mask (nth i spectrum 0) (nth k m 0)) (seq 0 512))
  end.
