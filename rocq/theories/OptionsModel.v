(** Model of the serialised parameters of the convolution and pooling operators (Transforms/TranslateToCustomOp.cpp 164-222)
    and of the sizes of tensors (Utils/Util.cpp 12-35). *)
From Coq Require Import List ZArith Bool Arith.
From Verif Require Import NdSpec.
Import ListNotations.

(** *** flexbuffers::Builder (flatbuffers, not in the repository; contract).  The builder only appends to a byte buffer.
    [Key]: the characters and a zero byte (the keys of one map are different here, so sharing of keys has no effect).
    [String]: the buffer is aligned to the width of the length, then the length, the bytes and a zero byte. *)
Definition bytes := list Z.
Definition width_u (len : Z) : nat :=
  if (len <? 256)%Z then 1 else if (len <? 65536)%Z then 2 else if (len <? 4294967296)%Z then 4 else 8.
Definition padding_bytes (size width : nat) : nat := Z.to_nat ((- Z.of_nat size) mod Z.of_nat width).
Definition put_key (key : bytes) (buf : bytes) : bytes := buf ++ key ++ [0%Z].
(** Result: the buffer and the position of the first byte of the string. *)
Definition put_string (s : bytes) (buf : bytes) : bytes * nat :=
  let w := width_u (Z.of_nat (length s)) in
  let head := buf ++ repeat 0%Z (padding_bytes (length buf) w) ++ le_bytes w (Z.of_nat (length s)) in
  (head ++ s ++ [0%Z], length head).

(** TranslateToCustomOp.cpp 178-193 (Conv2DV2Op) and 203-216 (MaxPool2DOp): "mp", "a", "o", then the vector "p" of the abstract
    kernel parameters of the threads, each followed by "00".  The integers and the map itself are appended afterwards. *)
Definition dummy : bytes := [48; 48]%Z.
Fixpoint put_kernel_params (ps : list bytes) (buf : bytes) : bytes * list nat :=
  match ps with
  | [] => (buf, [])
  | p :: ps' => let (buf1, loc) := put_string (p ++ dummy) buf in
                let (buf2, locs) := put_kernel_params ps' buf1 in (buf2, loc :: locs)
  end.
Definition key_mp : bytes := [109; 112]%Z.
Definition key_a : bytes := [97]%Z.
Definition key_o : bytes := [111]%Z.
Definition key_p : bytes := [112]%Z.
Definition conv_options (mp a o : bytes) (ps : list bytes) : bytes * list nat :=
  let (b1, l1) := put_string mp (put_key key_mp []) in
  let (b2, l2) := put_string a (put_key key_a b1) in
  let (b3, l3) := put_string o (put_key key_o b2) in
  let (b4, ls) := put_kernel_params ps (put_key key_p b3) in
  (b4, l1 :: l2 :: l3 :: ls).

(** *** Sizes, Utils/Util.cpp 12-35 *)
Inductive element := Quantized (storage_bits : Z) | Float (bits : Z) | Integer (bits : Z).
Definition element_bits (e : element) : Z := match e with Quantized b | Float b | Integer b => b end.
(** getTypeSize, lines 12-23. *)
Definition type_size (e : element) : Z := (element_bits e / 8)%Z.
(** Conversion to a 32-bit int. *)
Definition int32 (v : Z) : Z := ((v + 2147483648) mod 4294967296 - 2147483648)%Z.
(** getShapedTypeSize, lines 25-35; None is a dynamic dimension.  The product is computed in 64 bits and stored in an int (the
    64-bit product cannot overflow for dimensions below 2^32). *)
Definition shaped_type_size (e : element) (shape : list (option Z)) : Z :=
  fold_left (fun size dim => int32 (size * match dim with None => 1 | Some d => d end)) shape (int32 (type_size e)).
