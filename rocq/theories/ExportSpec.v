(** The runtime's side of a custom operator (C77): its code and a map, read by key. *)
From Coq Require Import List ZArith Bool Arith String.
From Verif Require Import OptionsModel ExportModel.
Import ListNotations.
Local Open Scope string_scope.
Local Open Scope list_scope.
Local Open Scope Z_scope.

(** A key can be read when it occurs once. *)
Definition find (k : string) (m : entries) : option value :=
  match filter (fun e => String.eqb (fst e) k) m with [e] => Some (snd e) | _ => None end.
Definition int (k : string) (m : entries) : option Z := match find k m with Some (VInt z) => Some z | _ => None end.
Definition flag (k : string) (m : entries) : option bool := match find k m with Some (VBool b) => Some b | _ => None end.
Definition float (k : string) (m : entries) : option Z := match find k m with Some (VFloat b) => Some b | _ => None end.
Definition str (k : string) (m : entries) : option bytes := match find k m with Some (VString s) => Some s | _ => None end.
Definition ints (k : string) (m : entries) : option (list Z) := match find k m with Some (VInts l) => Some l | _ => None end.
Definition strs (k : string) (m : entries) : option (list bytes) := match find k m with Some (VStrings l) => Some l | _ => None end.
Notation "x <- a ;; b" := (match a with Some x => b | None => None end) (at level 61, a at next level, right associativity).
(** Kernel parameters are followed by two bytes of filling. *)
Definition unfill (s : bytes) : bytes := firstn (List.length s - 2) s.

(** Kernel types and output transforms by their numbers, XCoreOps.td 54-80 (an interface: the runtime has its own copy of the numbers). *)
Definition runtime_kernels : list string :=
  ["ValidDirect"; "ValidIndirect"; "PaddedIndirect"; "DepthwiseValidDirect"; "DepthwisePaddedIndirect"; "BNNValidDirectBinary";
   "BNNValidIndirectBinary"; "BNNValidDirectInt8"; "BNNValidIndirectInt8"; "ValidDirectI16"]%string.
Definition runtime_transforms : list string := ["Group"; "Channelwise"]%string.

(** What the runtime makes of a custom operator. *)
Definition read_options (code : string) (m : entries) : option xop :=
  let is c := String.eqb code c in
  if is "XC_add" then
    a <- int "m1" m ;; b <- int "m2" m ;; c <- int "bias" m ;; d <- int "shift" m ;; Some (OAdd "NONE" a b c d)
  else if is "XC_bsign_8" then Some OBsign8
  else if is "XC_conv2d_v2" then
    mp <- str "mp" m ;; a <- str "a" m ;; o <- str "o" m ;; p <- strs "p" m ;; s <- int "s" m ;; k <- int "k" m ;; t <- int "t" m ;;
    kt <- nth_error runtime_kernels (Z.to_nat k) ;; ot <- nth_error runtime_transforms (Z.to_nat t) ;;
    Some (OConv2DV2 kt mp a o ot s (Z.of_nat (List.length p)) (map unfill p))
  else if is "XC_maxpool2d" then
    mp <- str "mp" m ;; a <- str "a" m ;; o <- str "o" m ;; p <- strs "p" m ;; s <- int "s" m ;;
    Some (OMaxPool2D mp a o s (Z.of_nat (List.length p)) (map unfill p))
  else if is "XC_ld_weights" then a <- int "addr" m ;; s <- ints "sizes" m ;; d <- flag "ddr" m ;; Some (OLoadWeights a s d)
  else if is "XC_lookup" then Some OLookup
  else if is "XC_softmax" then Some OSoftmax
  else if is "XC_batched_softmax" then Some OBatchedSoftmax
  else if is "XC_mul" then p <- str "mp" m ;; Some (OMul p)
  else if is "XC_mean" then
    s <- int "s" m ;; a <- int "m" m ;; e <- int "e" m ;; i <- float "i" m ;; o <- float "o" m ;; c <- float "sm" m ;; Some (OMean s a e i o c)
  else if is "XC_pad_3_to_4" then v <- int "pv" m ;; Some (OPad3To4 v)
  else if is "XC_slice" then
    s <- int "s" m ;; o <- int "o" m ;; l <- int "l" m ;; n <- int "n" m ;; v <- flag "v" m ;; Some (OSlice s o l n v)
  else if is "XC_broadcast" then s <- int "s" m ;; n <- int "n" m ;; b <- int "b" m ;; v <- flag "v" m ;; Some (OBroadcast s n b v)
  else if is "XC_pad" then
    s <- int "s" m ;; p <- int "p" m ;; l <- int "l" m ;; n <- int "n" m ;; z <- int "z" m ;; e <- int "e" m ;; v <- flag "v" m ;;
    Some (OPad s p l n z e v)
  else if is "XC_concat" then n <- int "n" m ;; s <- ints "s" m ;; i <- int "i" m ;; v <- flag "v" m ;; Some (OConcat n s i v)
  else if is "XC_beta_activationf32" then t <- int "type" m ;; Some (OActivationF32 t)
  else if is "XC_beta_concatf32" then Some OConcatF32
  else if is "XC_beta_convf32" then Some OConvF32
  else if is "XC_beta_transposeconvf32" then Some OTransposeConvF32
  else if is "XC_beta_fcf32" then Some OFcF32
  else if is "XC_unaryi16" then t <- int "type" m ;; Some (OUnaryI16 t)
  else if is "XC_binaryi16" then t <- int "type" m ;; Some (OBinaryI16 t)
  else if is "XC_fake_scratch" then Some OFakeScratch
  else if is "XC_fake_slice" then Some OFakeSlice
  else if is "XC_expand_8_to_16" then Some OExpand8To16
  else None.

(** Attributes as the dialect guarantees them: 32-bit integers, known enumerators; 13 sizes in a concat, and as many kernel
    parameters as threads. *)
Definition fits (v : Z) : Prop := -2147483648 <= v < 2147483648.
Definition legal (o : xop) : Prop :=
  match o with
  | OAdd act a b c d => act = "NONE"%string /\ fits a /\ fits b /\ fits c /\ fits d
  | OConv2DV2 kt _ _ _ ot s n ks => In kt runtime_kernels /\ In ot runtime_transforms /\ fits s /\ n = Z.of_nat (List.length ks)
  | OMaxPool2D _ _ _ s n ks => fits s /\ n = Z.of_nat (List.length ks)
  | OLoadWeights a _ _ => fits a
  | OMean s a e _ _ _ => fits s /\ fits a /\ fits e
  | OPad3To4 v => fits v
  | OSlice a b c d _ => fits a /\ fits b /\ fits c /\ fits d
  | OBroadcast a b c _ => fits a /\ fits b /\ fits c
  | OPad a b c d e f _ => fits a /\ fits b /\ fits c /\ fits d /\ fits e /\ fits f
  | OConcat n s i _ => fits n /\ fits i /\ List.length s = 13%nat
  | OActivationF32 t | OUnaryI16 t | OBinaryI16 t => fits t
  | OLoadConstant | OFakeConv2D | OFakeDepthwiseConv2D => False
  | _ => True
  end.
