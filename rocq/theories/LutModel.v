(** Model of the generated lookup tables (Transforms/ApplyXCPatterns.cpp) and of the
    activation patterns of Transforms/TFLPatterns.td.
    Simplification: arithmetic on double is exact (rational numbers); tanh and exp of the
    C library are arbitrary functions from numbers to numbers. *)
From Coq Require Import List ZArith Bool QArith Qround Qminmax.
Import ListNotations.
Local Open Scope Z_scope.

Inductive activation := Relu | Relu6 | Tanh | Logistic | HardSwish.
Record libm := Libm { m_tanh : Q -> Q; m_exp : Q -> Q }.

(** ApplyXCPatterns.cpp 186-190: the 256 inputs, std::iota twice. *)
Definition input_vector : list Z :=
  map Z.of_nat (seq 0 128) ++ map (fun i => -128 + Z.of_nat i) (seq 0 128).

(** ApplyXCPatterns.cpp 217-239. *)
Definition apply_activation (m : libm) (a : activation) (x : Q) : Q :=
  match a with
  | Relu => Qmax x 0
  | Relu6 => Qmin (Qmax x 0) 6
  | Tanh => m_tanh m x
  | Logistic => 1 / (1 + m_exp m (- x))
  | HardSwish => x * Qmin (Qmax (x + 3) 0) 6 / 6
  end%Q.

(** round of the C library: to nearest, halves away from zero. *)
Definition c_round (x : Q) : Z :=
  if Qle_bool 0 x then Qfloor (x + (1 # 2)) else - Qfloor (- x + (1 # 2)).

Definition wrap32 (v : Z) : Z := (v + 2 ^ 31) mod 2 ^ 32 - 2 ^ 31.
(** static_cast<int32_t> of a double: undefined outside the range. *)
Definition to_int32 (v : Z) : option Z := if (- 2 ^ 31 <=? v) && (v <? 2 ^ 31) then Some v else None.

(** ApplyXCPatterns.cpp 208-214, 242-251: one entry, as an unsigned byte. *)
Definition lut_entry (m : libm) (a : activation) (inScale : Q) (inZero : Z) (outScale : Q) (outZero n : Z) : option Z :=
  let dequantized := (inject_Z (n - inZero) * inScale)%Q in
  let y := apply_activation m a dequantized in
  match to_int32 (c_round (y / outScale)) with
  | Some r => Some (Z.max (Z.min (wrap32 (r + outZero)) 127) (-128) mod 256)
  | None => None
  end.
Fixpoint collect {A} (l : list (option A)) : option (list A) :=
  match l with
  | [] => Some []
  | Some x :: tl => match collect tl with Some r => Some (x :: r) | None => None end
  | None :: _ => None
  end.
(** ApplyXCPatterns.cpp 182-254. *)
Definition lookup_table (m : libm) (a : activation) (inScale : Q) (inZero : Z) (outScale : Q) (outZero : Z) : option (list Z) :=
  collect (map (lut_entry m a inScale inZero outScale outZero) input_vector).

(** The XC_lookup kernel (lib_tflite_micro, not in the repository): ASSUMED to use the
    input byte, unsigned, as index and to return the entry as a signed byte. *)
Definition signed8 (b : Z) : Z := if b <? 128 then b else b - 256.
Definition lookup_kernel (table : list Z) (x : Z) : Z := signed8 (nth (Z.to_nat (x mod 256)) table 0).

(** ApplyXCPatterns.cpp 42-65, getPadValue: the zero point of a quantised tensor or 0,
    on 32 bits; [bits] is the width of the storage type. *)
Definition get_pad_value (zero : option Z) (bits : Z) : Z :=
  let v := match zero with Some z => z | None => 0 end in
  if bits =? 8 then
    wrap32 (Z.lor (Z.lor (Z.lor (Z.shiftl v 24) (Z.land (Z.shiftl v 16) 16777215))
                         (Z.land (Z.shiftl v 8) 65535)) (Z.land v 255))
  else v.

(** TFLite's quantised activation range (CalculateActivationRangeQuantized, not in the
    repository): the clamp applied by an operator with a fused activation. *)
Definition activation_range (a : activation) (scale : Q) (zero : Z) : Z * Z :=
  let quantize (f : Q) := zero + c_round (f / scale) in
  match a with
  | Relu => (Z.max (-128) (quantize 0%Q), 127)
  | Relu6 => (Z.max (-128) (quantize 0%Q), Z.min 127 (quantize 6%Q))
  | _ => (-128, 127)
  end.
Definition fused_clamp (a : activation) (scale : Q) (zero v : Z) : Z :=
  let '(lo, hi) := activation_range a scale zero in Z.min hi (Z.max lo v).
(** TFLPatterns.td 64-81: the fused activation of Add, Sub, Mul becomes an operator on the
    result without activation (same type); 8-bit Relu and Relu6 then become a lookup. *)
Definition unfused (m : libm) (a : activation) (scale : Q) (zero v : Z) : option Z :=
  match lookup_table m a scale zero scale zero with
  | Some t => Some (lookup_kernel t (Z.min 127 (Z.max (-128) v)))
  | None => None
  end.

(** An operator that requantises the real number [y] (TFLite, not in the repository). *)
Definition requantize (scale : Q) (zero : Z) (y : Q) : Z := Z.min 127 (Z.max (-128) (c_round (y / scale) + zero)).
(** TFLPatterns.td 26-40, 57-61: Relu(Conv(x)) and Quantize(Conv(x)) (or Quantize(Quantize(x)))
    become one operator with the quantisation of the last result.  [y] is the real result of
    the first operator. *)
Definition relu_after (m : libm) (s1 : Q) (z1 : Z) (s2 : Q) (z2 : Z) (y : Q) : option Z :=
  match lookup_table m Relu s1 z1 s2 z2 with
  | Some t => Some (lookup_kernel t (requantize s1 z1 y))
  | None => None
  end.
Definition relu_merged (s2 : Q) (z2 : Z) (y : Q) : Z := fused_clamp Relu s2 z2 (c_round (y / s2) + z2).
Definition quantize_after (s1 : Q) (z1 : Z) (s2 : Q) (z2 : Z) (y : Q) : Z :=
  requantize s2 z2 (inject_Z (requantize s1 z1 y - z1) * s1)%Q.
Definition quantize_merged (s2 : Q) (z2 : Z) (y : Q) : Z := requantize s2 z2 y.
(** TFLPatterns.td 54-55: Relu(Minimum(x, 127)) becomes Relu(x); 8-bit stored values. *)
Definition minimum_127 (x : Z) : Z := Z.min x 127.
