(** Model of the 16-bit element-wise lowerings: Transforms/XCPatterns.td 27-38, 84-148 and
    Transforms/ApplyXCPatterns.cpp 109-180 (getLookupTableI16), 256-345 (getBinaryI16Blob, getUnaryI16Blob).
    lib_nn, which turns the scales into the bytes of a blob, is not in the repository: a blob is represented by the arguments
    it is made from.  Double arithmetic is exact (rational numbers). *)
From Coq Require Import List ZArith Bool QArith Qabs.
Import ListNotations.
Local Open Scope Z_scope.

(** Element types: float, or signed quantised with a storage width, a scale and a zero point. *)
Inductive elt := F32 | QInt (width : Z) (scale : Q) (zero : Z).
Definition is_q (w : Z) (t : elt) : bool := match t with QInt w' _ _ => w' =? w | F32 => false end.
Definition is_f32 (t : elt) : bool := match t with F32 => true | _ => false end.

Inductive tfl_op := TQuantize | TDequantize | TAdd | TSub | TMul.
(** lib_nn/api/*_int16_transform.h: the functions called, with their scale arguments. *)
Inductive blob :=
| QuantizeBlob (outputScale : Q)
| RequantizeBlob (inputScale outputScale : Q)
| DequantizeBlob (inputScale : Q)
| AddBlob (inputScale inputScale2 outputScale : Q)
| MultiplyBlob (inputScale inputScale2 outputScale : Q).

(** ApplyXCPatterns.cpp 258-287: the scale of a quantised type, 1 otherwise; the zero point is not read. *)
Definition scale_of (t : elt) : Q := match t with QInt _ s _ => s | F32 => 1%Q end.

(** ApplyXCPatterns.cpp 256-343, getBinaryI16Blob; [in2] is ignored by the unary operators (345-347).  [lib_nn_ok]: the
    function of lib_nn succeeded for these arguments. *)
Definition i16_blob_args (op : tfl_op) (in1 in2 out : elt) : blob :=
  let inputScale := scale_of in1 in
  let inputScale2 := scale_of in2 in
  let outputScale := scale_of out in
  match op with
  | TQuantize => if is_f32 in1 then QuantizeBlob outputScale else RequantizeBlob inputScale outputScale
  | TDequantize => DequantizeBlob inputScale
  | TAdd => AddBlob inputScale inputScale2 outputScale
  | TSub => AddBlob inputScale (- inputScale2) outputScale
  | TMul => MultiplyBlob inputScale inputScale2 outputScale
  end.
Definition i16_blob (lib_nn_ok : blob -> bool) (op : tfl_op) (in1 in2 out : elt) : option blob :=
  let b := i16_blob_args op in1 in2 out in
  if lib_nn_ok b then Some b else None.

(** The XC operators and their type constraint (XCoreOps.td 218-262): the results of unaryi16 and binaryi16 are 16-bit
    quantised, or float for unaryi16.  MLIR verifies the operators after the pass. *)
Inductive xc_op := UnaryI16 (kind : Z) (b : blob) | BinaryI16 (kind : Z) (b : blob).
Inductive result := Lowered (x : xc_op) | Unchanged | InvalidIR.
Definition verify (x : xc_op) (out : elt) : result :=
  match x with
  | UnaryI16 _ _ => if is_q 16 out || is_f32 out then Lowered x else InvalidIR
  | BinaryI16 _ _ => if is_q 16 out then Lowered x else InvalidIR
  end.

(** XCPatterns.td 101-148: the patterns (activation: the fused activation of a binary operator is NONE). *)
Definition lower_i16 (lib_nn_ok : blob -> bool) (op : tfl_op) (fused_none : bool) (in1 in2 out : elt) : result :=
  let unary kind :=
    match i16_blob lib_nn_ok op in1 in2 out with Some b => verify (UnaryI16 kind b) out | None => Unchanged end in
  let binary kind :=
    if is_q 16 in1 && is_q 16 in2 && fused_none then
      match i16_blob lib_nn_ok op in1 in2 out with Some b => verify (BinaryI16 kind b) out | None => Unchanged end
    else Unchanged in
  match op with
  | TQuantize => if is_f32 in1 && is_q 16 out then unary 0 else if is_q 16 in1 then unary 1 else Unchanged
  | TDequantize => if is_q 16 in1 then unary 2 else Unchanged
  | TAdd => binary 0
  | TSub => binary 0
  | TMul => binary 1
  end.

(** The value a kernel approximates, in units of the stored result, from the stored (or float) inputs (contract of lib_nn:
    the functions are given nothing but the scales). *)
Definition blob_value (b : blob) (x y : Q) : Q :=
  match b with
  | QuantizeBlob s => x / s
  | RequantizeBlob s1 s => x * s1 / s
  | DequantizeBlob s1 => x * s1
  | AddBlob s1 s2 s => (x * s1 + y * s2) / s
  | MultiplyBlob s1 s2 s => x * s1 * (y * s2) / s
  end%Q.
Definition xc_blob (x : xc_op) : blob := match x with UnaryI16 _ b => b | BinaryI16 _ b => b end.
(** The kernel is chosen by the kind attribute (XCoreOps.td 218-262: unary 0 quantize, 1 requantize, 2 dequantize; binary 0 add,
    1 multiply); a blob made for another kernel is meaningless to it (None). *)
Definition xc_value (x : xc_op) (a b : Q) : option Q :=
  match x with
  | UnaryI16 0 (QuantizeBlob _ as bl) | UnaryI16 1 (RequantizeBlob _ _ as bl) | UnaryI16 2 (DequantizeBlob _ as bl)
  | BinaryI16 0 (AddBlob _ _ _ as bl) | BinaryI16 1 (MultiplyBlob _ _ _ as bl) => Some (blob_value bl a b)
  | _ => None
  end.

(** *** 16-bit activations by quadratic approximation. *)
(** ApplyXCPatterns.cpp 109-175: the generator of lib_nn is given the function and the two scales, and reports the largest
    error (in units of the stored result) over all inputs; the table is used if it does not exceed the option. *)
Definition lookup_i16 (generator : (Q -> Q) -> Q -> Q -> (Z -> Z) * Z) (threshold : Z) (fn : Q -> Q) (inScale outScale : Q)
    : option (Z -> Z) :=
  let '(table, max_error) := generator fn inScale outScale in
  if max_error >? threshold then None else Some table.

(** A value of the graph: a block argument, or result number [k] of an operator with the given result types. *)
Inductive value := BlockArg (t : elt) | OpResult (types : list elt) (k : nat).
Definition value_type (v : value) : elt :=
  match v with BlockArg t => t | OpResult ts k => nth k ts F32 end.
(** XCPatterns.td 84-96 with ApplyXCPatterns.cpp 113-127: ELU(Dequantize(input)), the output type being that of result 0 of
    the operator defining the input.  A null operator or a null quantised type is dereferenced: Crash. *)
Inductive elu_result := EluLowered (table : Z -> Z) | EluUnchanged | EluCrash.
Definition lower_elu (generator : (Q -> Q) -> Q -> Q -> (Z -> Z) * Z) (threshold : Z) (elu : Q -> Q) (input : value) : elu_result :=
  if negb (is_q 16 (value_type input)) then EluUnchanged
  else
    match input with
    | BlockArg _ => EluCrash
    | OpResult ts _ =>
        match nth 0 ts F32 with
        | F32 => EluCrash
        | QInt _ outScale _ =>
            match lookup_i16 generator threshold elu (scale_of (value_type input)) outScale with
            | Some table => EluLowered table
            | None => EluUnchanged
            end
        end
    end.
(** The pattern's result: Dequantize(Lookup(input)), the lookup having the type of the input. *)
Definition elu_value (table : Z -> Z) (input : value) (x : Z) : Q :=
  match value_type input with
  | QInt _ s z => (inject_Z (table x - z) * s)%Q
  | F32 => 0%Q
  end.
