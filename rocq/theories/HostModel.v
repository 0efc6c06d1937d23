(** Model of the host-side code: python/xmos_ai_tools/xformer/flash.py,
    python/xmos_ai_tools/io_server/__init__.py, the metadata and the version check of
    xformer/XCoreOptMain.cpp, xformer/Transforms/RemoveDynamicShape.cpp.
    Bytes are numbers 0..255. *)
From Coq Require Import List ZArith Bool Arith Ascii String.
Import ListNotations.
Local Open Scope list_scope.
Local Open Scope Z_scope.

(** * flash.py *)
(** flash.py 65-71. *)
Definition tobytes (v : Z) : list Z :=
  map (fun i => Z.land (Z.shiftr v (8 * Z.of_nat i)) 255) (seq 0 4).
(** flash.py 73-75. *)
Definition swap_nibbles (x : Z) : Z :=
  Z.lor (Z.shiftl (Z.land x 15) 4) (Z.shiftr (Z.land x 240) 4).

(** One engine: flash.py 24-29 (models, params, ops, xips; the last two stay empty when
    the image is made by generate_flash). *)
Record engine := Engine { e_model : list Z; e_params : list Z; e_ops : list Z; e_xip : list Z }.
Definition len (l : list Z) : Z := Z.of_nat (List.length l).

(** flash.py 16-22. *)
Record header := Header { h_model : Z; h_params : Z; h_ops : Z; h_xip : Z; h_length : Z }.
Definition make_header (e : engine) (start : Z) : header :=
  let parameters_start := start + len (e_model e) + 4 in
  let operators_start := parameters_start + len (e_params e) in
  let xip_start := operators_start + len (e_ops e) in
  let new_start := xip_start + len (e_xip e) in
  Header start parameters_start operators_start xip_start (new_start - start).
(** flash.py 91-105. *)
Fixpoint make_headers (es : list engine) (start : Z) : list header :=
  match es with
  | [] => []
  | e :: tl => let h := make_header e start in h :: make_headers tl (start + h_length h)
  end.
(** flash.py 109-144. *)
Definition magic : list Z :=
  [255; 0; 15; 15; 15; 15; 15; 15; 255; 0; 255; 0; 255; 0; 255; 0;
   49; 247; 206; 8; 49; 247; 206; 8; 156; 99; 156; 99; 156; 99; 156; 99].
(** flash.py 4-5, 146-148. *)
Definition version_bytes : list Z := [1; 2; Z.lxor 255 1; Z.lxor 255 2].
(** flash.py 150-160. *)
Definition header_bytes (h : header) : list Z :=
  tobytes (h_model h) ++ tobytes (h_params h) ++ tobytes (h_ops h) ++ tobytes (h_xip h).
(** flash.py 162-167. *)
Definition engine_bytes (e : engine) : list Z :=
  tobytes (len (e_model e)) ++ e_model e ++ e_params e ++ e_ops e ++ e_xip e.
(** flash.py 85-168. *)
Definition flash_image (es : list engine) : list Z :=
  let start := 32 + 4 + 16 * Z.of_nat (List.length es) in
  magic ++ version_bytes ++ flat_map header_bytes (make_headers es start) ++ flat_map engine_bytes es.
(** flash.py 170-178: the bytes of the file. *)
Definition flash_file (es : list engine) : list Z := map swap_nibbles (flash_image es).
(** flash.py 31-45, 181-190.  [fs] is the file system: None, the file is not readable (a
    later len(None) raises).  None: an exception. *)
Definition read_whole_binary_file (fs : string -> option (list Z)) (name : string) : option (list Z) :=
  if String.eqb name "-" then Some [] else fs name.
Fixpoint load_engines (fs : string -> option (list Z)) (models params : list string) : option (list engine) :=
  match models, params with
  | [], [] => Some []
  | m :: ms, p :: ps =>
      match read_whole_binary_file fs m, read_whole_binary_file fs p, load_engines fs ms ps with
      | Some a, Some b, Some es => Some (Engine a b [] [] :: es)
      | _, _, _ => None
      end
  | _, _ => None
  end.
Definition generate_flash (fs : string -> option (list Z)) (models params : list string) : option (list Z) :=
  option_map flash_file (load_engines fs models params).

(** * io_server *)
(** A bulk transfer of libusb (not in the repository): packets of at most 512 bytes; a
    transfer of no bytes is one empty packet. *)
Definition block : nat := 512.
Fixpoint chunks (fuel : nat) (data : list Z) : list (list Z) :=
  match fuel, data with
  | _, [] => []
  | O, _ => []
  | S n, _ => firstn block data :: chunks n (skipn block data)
  end.
Definition usb_write (data : list Z) : list (list Z) :=
  match data with [] => [[]] | _ => chunks (List.length data) data end.
(** io_server/__init__.py 81-87: the packets of _download_data. *)
Definition download_data (cmd model tensor : Z) (data : list Z) : list (list Z) :=
  usb_write [cmd; model; tensor] ++ usb_write data ++
  (if Nat.eqb (Nat.modulo (List.length data) block) 0 then usb_write [] else []).
(** io_server/__init__.py 139-151: start_inference and reset. *)
Definition invoke_packets : list (list Z) := usb_write [1; 0; 0] ++ usb_write [].
Definition reset_packets : list (list Z) := usb_write [7; 0; 0] ++ usb_write [].
(** io_server/__init__.py 89-100: the reads of _upload_data on the stream of incoming
    packets; None: a read past the end (time-out).  [fuel]: number of packets. *)
Fixpoint read_until_short (fuel : nat) (packets : list (list Z)) : option (list Z * list (list Z)) :=
  match fuel, packets with
  | S n, p :: tl =>
      if Nat.eqb (List.length p) block
      then match read_until_short n tl with Some (d, rest) => Some (p ++ d, rest) | None => None end
      else Some (p, tl)
  | _, _ => None
  end.
Definition upload_data (packets : list (list Z)) : option (list Z * list (list Z)) :=
  read_until_short (List.length packets) packets.
(** io_server/__init__.py 50-55, bytes_to_arr with 1-byte elements: the shape's number of
    elements from the front; reshape raises when there are fewer. *)
Definition bytes_to_arr (shape : list nat) (data : list Z) : option (list Z) :=
  let n := fold_right Nat.mul 1%nat shape in
  let d := firstn n data in
  if Nat.eqb (List.length d) n then Some d else None.

(** * Metadata of the flatbuffer *)
(** XCoreOptMain.cpp 592-631: version 0, subgraph 0, count, offsets, padded to 4 words;
    each word is the 4 bytes of an int on a little-endian host. *)
Definition offline_words (offsets : list Z) : list Z :=
  let v := [0; 0; Z.of_nat (List.length offsets)] ++ offsets in
  v ++ repeat 0 ((List.length v + 3) / 4 * 4 - List.length v).
Definition offline_metadata (offsets : list Z) : list Z :=
  flat_map (fun w => tobytes (w mod 2 ^ 32)) (offline_words offsets).

(** * Version check *)
(** llvm::SplitString (not in the repository): maximal runs of other characters. *)
Fixpoint split_dots (cur : list ascii) (s : list ascii) : list (list ascii) :=
  match s with
  | [] => match cur with [] => [] | _ => [rev cur] end
  | c :: tl => if Ascii.eqb c "."%char
               then match cur with [] => split_dots [] tl | _ => rev cur :: split_dots [] tl end
               else split_dots (c :: cur) tl
  end.
Definition digit (c : ascii) : option Z :=
  let n := Z.of_nat (nat_of_ascii c) in if (48 <=? n) && (n <=? 57) then Some (n - 48) else None.
Fixpoint parse_digits (acc : Z) (s : list ascii) : option Z :=
  match s with
  | [] => Some acc
  | c :: tl => match digit c with Some d => parse_digits (10 * acc + d) tl | None => None end
  end.
(** llvm::to_integer(s, val, 10) for int (not in the repository): an optional minus sign
    and at least one digit; the value must fit. *)
Definition to_integer (s : list ascii) : option Z :=
  let r := match s with
           | [] => None
           | c :: tl => if Ascii.eqb c "-"%char
                        then match tl with [] => None | _ => option_map Z.opp (parse_digits 0 tl) end
                        else parse_digits 0 s
           end in
  match r with Some v => if (- 2 ^ 31 <=? v) && (v <? 2 ^ 31) then Some v else None | None => None end.
(** XCoreOptMain.cpp 342-371. *)
Definition is_compatible_version (version : string) (major minor patch : Z) : bool :=
  match list_ascii_of_string version with
  | [] => true
  | s => match split_dots [] s with
         | [a; b; c] =>
             match to_integer a, to_integer b, to_integer c with
             | Some p0, Some p1, Some _ =>
                 negb ((major =? 0) && (p0 =? 0) && negb (minor =? p1) || negb (major =? p0) || (minor >? p1))
             | _, _, _ => false
             end
         | _ => false
         end
  end.

(** * RemoveDynamicShape.cpp *)
Definition kDynamic : Z := - 2 ^ 63.
Definition wrap_int (v : Z) : Z := (v + 2 ^ 31) mod 2 ^ 32 - 2 ^ 31.
(** RemoveDynamicShape.cpp 31-47 (shapes of ranked tensors). *)
Definition new_shape (shape : list Z) : list Z :=
  match shape with
  | d0 :: _ :: _ => if d0 =? kDynamic then 1 :: map wrap_int (List.tl shape) else shape
  | _ => shape
  end.
(** RemoveDynamicShape.cpp 49-90: the types of the arguments, of the results of the
    function and of the results of every operation. *)
Record func_types := FuncTypes { f_args : list (list Z); f_results : list (list Z); f_values : list (list Z) }.
Definition remove_dynamic_shape (f : func_types) : func_types :=
  FuncTypes (map new_shape (f_args f)) (map new_shape (f_results f)) (map new_shape (f_values f)).
