(** Model of Transforms/TranslateToCustomOp.cpp: the operators of the xcore dialect (IR/XCoreOps.td) become custom operators of
    the TFLite model, with their attributes in a flexbuffers map.
    Simplifications: a map is the list of its entries in the order of the calls (the encoding as bytes is that of flexbuffers,
    see C63 for the strings of convolutions); floats are their bit patterns; the removal of dead operations and folding by the
    greedy driver is left out. *)
From Coq Require Import List ZArith Bool Arith String.
From Verif Require Import OptionsModel LowerModel.
Import ListNotations.
Local Open Scope list_scope.
Local Open Scope Z_scope.

Inductive value := VInt (z : Z) | VBool (b : bool) | VFloat (bits : Z) | VString (s : bytes) | VInts (l : list Z) | VStrings (l : list bytes).
Definition entries := list (string * value).

(** Operations of the dialect with their attributes: XCoreOps.td 82-519. *)
Inductive xop :=
| OAdd (activation : string) (multiplier1 multiplier2 bias shift : Z)
| OBsign8
| OConv2DV2 (kernel_type : string) (memcpy aggregate output : bytes) (output_type : string) (scratch threads : Z) (kernels : list bytes)
| OMaxPool2D (memcpy aggregate output : bytes) (scratch threads : Z) (kernels : list bytes)
| OLoadWeights (address : Z) (sizes : list Z) (in_ddr : bool)
| OLookup | OSoftmax | OBatchedSoftmax
| OMul (params : bytes)
| OMean (start mean end_ in_zero out_zero scale_mul : Z)
| OPad3To4 (pad_value : Z)
| OSlice (start offset size copies : Z) (vpu : bool)
| OBroadcast (size copies broadcasts : Z) (vpu : bool)
| OPad (start pad_size size copies zero_point end_ : Z) (vpu : bool)
| OConcat (copies : Z) (sizes : list Z) (inputs : Z) (vpu : bool)
| OActivationF32 (type : Z)
| OConcatF32 | OConvF32 | OTransposeConvF32 | OFcF32
| OUnaryI16 (op_type : Z) | OBinaryI16 (op_type : Z)
| OFakeScratch | OFakeSlice | OExpand8To16
(** Not translated: no RewriteToCustomOp pattern for them. *)
| OLoadConstant | OFakeConv2D | OFakeDepthwiseConv2D.

(** Mnemonics, XCoreOps.td. *)
Definition operation_name (o : xop) : string :=
  match o with
  | OAdd _ _ _ _ _ => "xc.add" | OBsign8 => "xc.bsign_8" | OConv2DV2 _ _ _ _ _ _ _ _ => "xc.conv2d_v2"
  | OMaxPool2D _ _ _ _ _ _ => "xc.maxpool2d" | OLoadWeights _ _ _ => "xc.ld_weights" | OLookup => "xc.lookup"
  | OSoftmax => "xc.softmax" | OBatchedSoftmax => "xc.batched_softmax" | OMul _ => "xc.mul" | OMean _ _ _ _ _ _ => "xc.mean"
  | OPad3To4 _ => "xc.pad_3_to_4" | OSlice _ _ _ _ _ => "xc.slice" | OBroadcast _ _ _ _ => "xc.broadcast"
  | OPad _ _ _ _ _ _ _ => "xc.pad" | OConcat _ _ _ _ => "xc.concat" | OActivationF32 _ => "xc.beta_activationf32"
  | OConcatF32 => "xc.beta_concatf32" | OConvF32 => "xc.beta_convf32" | OTransposeConvF32 => "xc.beta_transposeconvf32"
  | OFcF32 => "xc.beta_fcf32" | OUnaryI16 _ => "xc.unaryi16" | OBinaryI16 _ => "xc.binaryi16" | OFakeScratch => "xc.fake_scratch"
  | OFakeSlice => "xc.fake_slice" | OExpand8To16 => "xc.expand_8_to_16" | OLoadConstant => "xc.ld_constant"
  | OFakeConv2D => "xc.fake_conv2d" | OFakeDepthwiseConv2D => "xc.fake_depthwise_conv2d"
  end.

(** symbolizeConv2DType and symbolizeOtType (XCoreOps.td 54-80); None: .value() of an empty optional. *)
Fixpoint index_of (s : string) (l : list string) (i : Z) : option Z :=
  match l with [] => None | x :: tl => if String.eqb s x then Some i else index_of s tl (i + 1) end.
Definition conv2d_types : list string :=
  ["ValidDirect"; "ValidIndirect"; "PaddedIndirect"; "DepthwiseValidDirect"; "DepthwisePaddedIndirect"; "BNNValidDirectBinary";
   "BNNValidIndirectBinary"; "BNNValidDirectInt8"; "BNNValidIndirectInt8"; "ValidDirectI16"]%string.
Definition ot_types : list string := ["Group"; "Channelwise"]%string.

(** A getter of an I32Attr returns uint32_t; (int32_t) of it. *)
Definition int_attr (v : Z) : value := VInt (int32 (v mod 4294967296)).
(** The loops over the kernel parameters (183-192, 207-216) and the sizes of a concat (130-132): None, past the end. *)
Fixpoint take {A} (n : nat) (l : list A) : option (list A) :=
  match n, l with
  | O, _ => Some []
  | S n', x :: l' => option_map (cons x) (take n' l')
  | S _, [] => None
  end.
Definition kernel_strings (threads : Z) (kernels : list bytes) : option (list bytes) :=
  option_map (map (fun p => p ++ dummy)) (take (Z.to_nat threads) kernels).

(** buildCustomOptions, lines 14-221.  Inner option: None, undefined behaviour. *)
Definition custom_options (o : xop) : option entries :=
  match o with
  | OAdd _ m1 m2 b s => Some [("m1", int_attr m1); ("m2", int_attr m2); ("bias", int_attr b); ("shift", int_attr s)]
  | OConv2DV2 kt mp a o ot scratch threads kernels =>
      match kernel_strings threads kernels, index_of kt conv2d_types 0, index_of ot ot_types 0 with
      | Some ps, Some k, Some t =>
          Some [("mp", VString mp); ("a", VString a); ("o", VString o); ("p", VStrings ps); ("s", int_attr scratch); ("k", VInt k); ("t", VInt t)]
      | _, _, _ => None
      end
  | OMaxPool2D mp a o scratch threads kernels =>
      match kernel_strings threads kernels with
      | Some ps => Some [("mp", VString mp); ("a", VString a); ("o", VString o); ("p", VStrings ps); ("s", int_attr scratch)]
      | None => None
      end
  | OLoadWeights addr sizes ddr => Some [("addr", int_attr addr); ("sizes", VInts sizes); ("ddr", VBool ddr)]
  | OMul p => Some [("mp", VString p)]
  | OMean s m e i oz sm => Some [("s", int_attr s); ("m", int_attr m); ("e", int_attr e); ("i", VFloat i); ("o", VFloat oz); ("sm", VFloat sm)]
  | OPad3To4 v => Some [("pv", int_attr v)]
  | OSlice s o l n v => Some [("s", int_attr s); ("o", int_attr o); ("l", int_attr l); ("n", int_attr n); ("v", VBool v)]
  | OBroadcast s n b v => Some [("s", int_attr s); ("n", int_attr n); ("b", int_attr b); ("v", VBool v)]
  | OPad s p l n z e v =>
      Some [("s", int_attr s); ("p", int_attr p); ("l", int_attr l); ("n", int_attr n); ("z", int_attr z); ("e", int_attr e); ("v", VBool v)]
  | OConcat n sizes i v =>
      match take CONCAT_OP_MAX_INPUTS sizes with
      | Some l => Some [("n", int_attr n); ("s", VInts l); ("i", int_attr i); ("v", VBool v)]
      | None => None
      end
  | OActivationF32 t | OUnaryI16 t | OBinaryI16 t => Some [("type", int_attr t)]
  | _ => Some []
  end%string.

(** Lines 270-294: the operations that have a pattern. *)
Definition translated (o : xop) : bool :=
  match o with OLoadConstant | OFakeConv2D | OFakeDepthwiseConv2D => false | _ => true end.
Fixpoint drop_front (n : nat) (s : string) : string :=
  match n, s with O, _ => s | S n', String _ s' => drop_front n' s' | S _, EmptyString => EmptyString end.
Definition custom_code (o : xop) : string := ("XC_" ++ drop_front 3 (operation_name o))%string.

(** Lines 236-300: the pass on a function; [V]: values, [T]: types.  TFLite operations are untouched. *)
Inductive kind := Xc (o : xop) | Custom (code : string) (options : entries) | Tfl (name : string).
Record operation (V T : Type) := Operation { op_kind : kind; op_args : list V; op_results : list (V * T) }.
Arguments Operation {V T}. Arguments op_kind {V T}. Arguments op_args {V T}. Arguments op_results {V T}.
Definition translate {V T} (p : operation V T) : option (operation V T) :=
  match op_kind p with
  | Xc o => if translated o then option_map (fun m => Operation (Custom (custom_code o) m) (op_args p) (op_results p)) (custom_options o)
            else Some p
  | _ => Some p
  end.
Fixpoint translate_function {V T} (f : list (operation V T)) : option (list (operation V T)) :=
  match f with
  | [] => Some []
  | p :: tl => match translate p, translate_function tl with Some p', Some tl' => Some (p' :: tl') | _, _ => None end
  end.

(** ReplaceConcat.cpp 140-155: the array of sizes has 13 elements of which the first are set; [stack]: what the others hold. *)
Definition concat_attributes (stack : nat -> Z) (c : concat_op) : xop :=
  OConcat (c_copies c)
    (map (fun i => match nth_error (c_sizes c) i with Some s => s | None => stack i end) (seq 0 CONCAT_OP_MAX_INPUTS))
    (c_num c) (c_vpu c).
