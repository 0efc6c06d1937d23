(** Model of what the host interpreter reports about a model (C89): python/xmos_ai_tools/xinterpreters/host_interpreter.py 380-521 (tensor details),
    607-630 (operator names), 632-653 and 549-551 (which bytes are loaded).
    ASSUMED: CPython's str() of a bytes object and str.strip; the flatbuffers accessors (Scale(0) and ZeroPoint(0) of an empty vector are 0).
    Characters are their codes.  Not modelled: sparsity_parameters; opcode2name (package tflite). *)
From Coq Require Import List ZArith Bool Arith QArith.
From Verif Require Import InterpModel.
Import ListNotations.
Local Open Scope nat_scope.

(** CPython: bytes.__repr__ (which str() calls). *)
Definition hex_digit (n : nat) : nat := if Nat.ltb n 10 then 48 + n else 87 + n.
Definition escape (quote c : nat) : list nat :=
  if Nat.eqb c quote || Nat.eqb c 92 then [92; c]
  else if Nat.eqb c 9 then [92; 116] else if Nat.eqb c 10 then [92; 110] else if Nat.eqb c 13 then [92; 114]
  else if Nat.ltb c 32 || Nat.leb 127 c then [92; 120; hex_digit (c / 16); hex_digit (c mod 16)]
  else [c].
Definition contains (c : nat) (l : list nat) : bool := existsb (Nat.eqb c) l.
Definition py_bytes (b : list nat) : list nat :=
  let quote := if contains 39 b && negb (contains 34 b) then 34 else 39 in
  98 :: quote :: flat_map (escape quote) b ++ [quote].
(** str(None) for an absent string *)
Definition py_str (o : option (list nat)) : list nat := match o with Some b => py_bytes b | None => [78; 111; 110; 101] end.
(** str.strip(chars) *)
Fixpoint lstrip (chars : list nat) (l : list nat) : list nat := match l with [] => [] | c :: tl => if contains c chars then lstrip chars tl else l end.
Definition strip (chars : list nat) (l : list nat) : list nat := rev (lstrip chars (rev (lstrip chars l))).

(** 416-419, 481-484: str(...Name())[1:].strip("'") *)
Definition tensor_name (name : option (list nat)) : list nat := strip [39] (skipn 1 (py_str name)).
(** 625: str(opcode.CustomCode()).strip("b'") *)
Definition custom_name (code : option (list nat)) : list nat := strip [98; 39] (py_str code).

(** A tensor of the model; no quantisation table: None. *)
Record tensor := Tensor { tn_name : option (list nat); tn_type : dtype; tn_shape : list nat; tn_quant : option (list Q * list Z * Z) }.
Inductive np_type := np_int8 | np_int16 | np_int32 | np_float32.
Definition supported (t : dtype) : option np_type :=
  match t with INT8 => Some np_int8 | INT16 => Some np_int16 | INT32 => Some np_int32 | FLOAT32 => Some np_float32 | OTHER _ => None end.
Record details := Details { d_name : list nat; d_index : nat; d_shape : list nat; d_dtype : np_type; d_quantization : Q * Z; d_scales : list Q; d_zero_points : list Z; d_axis : Z }.
(** 415-451, 480-516; Quantization() of a tensor without a table is None: AttributeError *)
Definition details_of (tensors : list tensor) (index : nat) (dt : np_type) : result details :=
  match nth_error tensors index with
  | None => Raise
  | Some t => match tn_quant t with
              | None => Raise
              | Some (scales, zps, axis) => Ok (Details (tensor_name (tn_name t)) index (tn_shape t) dt (nth 0 scales 0%Q, nth 0 zps 0%Z) scales zps axis)
              end
  end.
(** 396-454 *)
Fixpoint get_input_details (tensors : list tensor) (inputs : list nat) : result (list details) :=
  match inputs with
  | [] => Ok []
  | i :: tl =>
      match nth_error tensors i with
      | None => Raise
      | Some t => match supported (tn_type t) with
                  | None => Raise
                  | Some dt => match details_of tensors i dt with
                               | Ok d => match get_input_details tensors tl with Ok l => Ok (d :: l) | Raise => Raise | Undefined => Undefined end
                               | Raise => Raise | Undefined => Undefined
                               end
                  end
      end
  end.
(** 456-521: [dtype] keeps its value of the iteration before when no branch is taken; unbound in the first one *)
Fixpoint get_output_details_from (dtype : option np_type) (tensors : list tensor) (outputs : list nat) : result (list details) :=
  match outputs with
  | [] => Ok []
  | i :: tl =>
      match nth_error tensors i with
      | None => Raise
      | Some t =>
          let dtype' := match supported (tn_type t) with Some d => Some d | None => dtype end in
          match dtype' with
          | None => Raise
          | Some dt => match details_of tensors i dt with
                       | Ok d => match get_output_details_from dtype' tensors tl with Ok l => Ok (d :: l) | Raise => Raise | Undefined => Undefined end
                       | Raise => Raise | Undefined => Undefined
                       end
          end
      end
  end.
Definition get_output_details := get_output_details_from None.

(** 549-551 and 632-648: the bytes of the model and of the parameters.  [file]: contents of a path, None when it cannot be opened. *)
Definition loaded (file : list nat -> option (list nat)) (model_path model_content params_path params_content : option (list nat)) : result (list nat * list nat) :=
  let falsy (o : option (list nat)) := match o with Some (_ :: _) => false | _ => true end in
  if falsy model_path && falsy model_content then Raise else
  let read (content path : option (list nat)) : result (option (list nat)) :=
    match content, path with
    | Some c, _ => Ok (Some c)
    | None, Some p => match file p with Some c => Ok (Some c) | None => Raise end
    | None, None => Ok None
    end in
  match read model_content model_path with
  | Ok (Some m) => match read params_content params_path with
                   | Ok (Some p) => Ok (m, p)
                   | Ok None => Ok (m, [])
                   | Raise => Raise | Undefined => Undefined
                   end
  | Ok None => Raise
  | Raise => Raise | Undefined => Undefined
  end.
