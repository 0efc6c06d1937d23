(** What the reader of a flash image, the device at the other end of the USB link and the
    runtime reading the metadata do; the meaning of version triples and shapes. *)
From Coq Require Import List ZArith Bool Arith Ascii String DecimalString.
Import ListNotations.
Local Open Scope list_scope.
Local Open Scope Z_scope.

Definition is_byte (b : Z) : Prop := 0 <= b < 256.

(** * Reading a flash image *)
Definition byte_at (image : list Z) (a : Z) : Z := nth (Z.to_nat a) image 0.
(** Little-endian 32-bit word. *)
Definition word_at (image : list Z) (a : Z) : Z :=
  byte_at image a + 2 ^ 8 * byte_at image (a + 1) + 2 ^ 16 * byte_at image (a + 2) + 2 ^ 24 * byte_at image (a + 3).
(** The bytes from address [a] up to, excluding, address [b]. *)
Definition region (image : list Z) (a b : Z) : list Z :=
  firstn (Z.to_nat b - Z.to_nat a) (skipn (Z.to_nat a) image).
(** The four words of the header of engine [i], after 32 bytes of pattern and 4 of version:
    word 0, the model (a length, then the bytes); word 1, the parameters; word 2, the
    operators; word 3, the code to execute in place.  A region ends where the next starts. *)
Definition entry (image : list Z) (i w : nat) : Z := word_at image (36 + 16 * Z.of_nat i + 4 * Z.of_nat w).
Definition read_model (image : list Z) (i : nat) : list Z :=
  let a := entry image i 0 in region image (a + 4) (a + 4 + word_at image a).
Definition read_params (image : list Z) (i : nat) : list Z := region image (entry image i 1) (entry image i 2).

(** The eight words of the calibration pattern of the fast flash reader. *)
Definition calibration_pattern : list Z :=
  [0x0F0F00FF; 0x0F0F0F0F; 0x00FF00FF; 0x00FF00FF; 0x08CEF731; 0x08CEF731; 0x639C639C; 0x639C639C].

(** * The device at the other end of the USB link *)
Inductive call :=
  | WriteInput (model tensor : Z) (data : list Z)
  | ReadOutput (model tensor : Z)
  | StartInference
  | Reset.
(** What arrives: the command, its two arguments and its data. *)
Definition event := (Z * Z * Z * list Z)%type.
Definition expected (c : call) : event :=
  match c with
  | WriteInput m t d => (3, m, t, d)
  | ReadOutput m t => (2, m, t, [])
  | StartInference => (1, 0, 0, [])
  | Reset => (7, 0, 0, [])
  end.
(** A transfer ends with the first packet of less than 512 bytes. *)
Fixpoint transfer (packets : list (list Z)) : option (list Z * list (list Z)) :=
  match packets with
  | [] => None
  | p :: tl => if (List.length p <? 512)%nat then Some (p, tl)
               else match transfer tl with Some (d, rest) => Some (p ++ d, rest) | None => None end
  end.
(** A packet of three bytes is a command; all commands but 2 have data. *)
Fixpoint device (fuel : nat) (packets : list (list Z)) : option (list event) :=
  match fuel, packets with
  | _, [] => Some []
  | S n, [cmd; m; t] :: tl =>
      if cmd =? 2 then option_map (cons (cmd, m, t, [])) (device n tl)
      else match transfer tl with
           | Some (d, rest) => option_map (cons (cmd, m, t, d)) (device n rest)
           | None => None
           end
  | _, _ => None
  end.
Definition device_receives (packets : list (list Z)) : option (list event) := device (List.length packets) packets.

(** The packets of a transfer of [data]: all full but the last, which is not full. *)
Definition is_transfer (packets : list (list Z)) (data : list Z) : Prop :=
  exists full last, packets = full ++ [last] /\ Forall (fun p => List.length p = 512%nat) full /\
    (List.length last < 512)%nat /\ data = List.concat full ++ last.

(** * Metadata: signed 32-bit words *)
Definition int_at (buffer : list Z) (k : nat) : Z :=
  let u := word_at buffer (4 * Z.of_nat k) in if u <? 2 ^ 31 then u else u - 2 ^ 32.

(** * Versions: the three numbers in decimal, separated by dots. *)
Definition decimal (n : nat) : string := NilZero.string_of_uint (Nat.to_uint n).
Definition version_string (a b c : nat) : string := (decimal a ++ "." ++ decimal b ++ "." ++ decimal c)%string.
(** A runtime a.b.c can run a model made for major.minor: same major number, and same
    minor number for a 0.x version, at least the minor number otherwise. *)
Definition semver_compatible (major minor a b : nat) : Prop :=
  a = major /\ (if Nat.eqb major 0 then b = minor else (minor <= b)%nat).
