(** Model of the text files with the weights (Utils/FileIO.cpp 26-76) and of the Python front end
    (python/xmos_ai_tools/xformer/__init__.py).  A text is the list of its character codes. *)
From Coq Require Import List ZArith Bool Arith Ascii String.
From Verif Require Import WeightsModel OptionsModel.
Import ListNotations.
Local Open Scope list_scope.
Local Open Scope Z_scope.

Definition text := list Z.
Definition codes (s : string) : text := map (fun c => Z.of_nat (nat_of_ascii c)) (list_ascii_of_string s).
Definition newline : text := [10].

(** operator<< for an int: decimal notation. *)
Fixpoint uint_text (u : Decimal.uint) : text :=
  match u with
  | Decimal.Nil => []
  | Decimal.D0 u => 48 :: uint_text u | Decimal.D1 u => 49 :: uint_text u | Decimal.D2 u => 50 :: uint_text u
  | Decimal.D3 u => 51 :: uint_text u | Decimal.D4 u => 52 :: uint_text u | Decimal.D5 u => 53 :: uint_text u
  | Decimal.D6 u => 54 :: uint_text u | Decimal.D7 u => 55 :: uint_text u | Decimal.D8 u => 56 :: uint_text u
  | Decimal.D9 u => 57 :: uint_text u
  end.
Definition decimal (v : Z) : text :=
  match Z.to_int v with Decimal.Pos u => uint_text u | Decimal.Neg u => 45 :: uint_text u end.

(** FileIO.cpp 46-57: every value followed by ", ", a line break after every 81 values ([line] is lineEnding). *)
Fixpoint values_text (line : nat) (bytes : list Z) : text :=
  match bytes with
  | [] => []
  | b :: tl =>
    decimal b ++ codes ", " ++
    (let line' := S line in if (80 <? Z.of_nat line') then newline ++ values_text 0 tl else values_text line' tl)
  end.
(** FileIO.cpp 30-61: the .c file.  In tile memory the tile server header comes first (lines 39-41). *)
Definition array_c_text (external : bool) (tensors : list (list Z)) : text :=
  codes "#include <stdint.h>" ++ newline ++ newline ++
  (if external then codes "__attribute__ ((section(" ++ [34] ++ codes ".ExtMem.data" ++ [34] ++ codes ")))" ++ newline else []) ++
  codes "const int8_t weights[] = {" ++ newline ++
  values_text 0 (List.concat (if external then tensors else tile_ram_header :: tensors)) ++
  codes "};" ++ newline.
(** FileIO.cpp 67-75: the .h file; weightsSize is an int. *)
Definition array_h_text (external : bool) (tensors : list (list Z)) : text :=
  codes "#ifndef WEIGHTSGEN_H" ++ newline ++ codes "#define WEIGHTSGEN_H" ++ newline ++ newline ++
  codes "#define WEIGHTS_SIZE (" ++
  decimal (int32 (Z.of_nat (List.length (List.concat (if external then tensors else tile_ram_header :: tensors))))) ++ codes "U)" ++
  newline ++ newline ++ codes "#endif // WEIGHTSGEN_H" ++ newline.

(** *** convert(), __init__.py 12-48 *)
(** Lines 19-31: the command line.  Parameters in the order of the dictionary; None and the empty string give a bare flag. *)
Definition flag (key : text) : text := (if (1 <? List.length key)%nat then codes "--" else codes "-") ++ key.
Definition argument (p : text * option text) : text :=
  match snd p with
  | None | Some [] => flag (fst p)
  | Some v => flag (fst p) ++ codes "=" ++ v
  end.
Definition convert_args (filename outfile : text) (params : list (text * option text)) : list text :=
  codes "xcore-opt" :: codes "-o" :: outfile :: map argument params ++ [filename].

(** Lines 42-43, re.sub: the first pattern is greedy, so everything up to and including the last occurrence of the marker is
    removed; a text without marker is unchanged. *)
Definition marker : text := codes "Tensor arena size :".
Fixpoint strip_prefix (p t : text) : option text :=
  match p, t with
  | [], _ => Some t
  | a :: p', b :: t' => if a =? b then strip_prefix p' t' else None
  | _, [] => None
  end.
Fixpoint after_last (t : text) : option text :=
  match t with
  | [] => None
  | _ :: t' => match after_last t' with Some r => Some r | None => strip_prefix marker t end
  end.
Definition remove_up_to_marker (t : text) : text := match after_last t with Some r => r | None => t end.
(** Line 44: everything from the first line break on is removed. *)
Fixpoint first_line (t : text) : text :=
  match t with [] => [] | c :: t' => if (c =? 10) || (c =? 13) then [] else c :: first_line t' end.
(** Line 45: strip() and int(), on ASCII text (underscores between digits and other scripts' digits, which Python also accepts, are
    not modelled). *)
Definition is_space (c : Z) : bool := (c =? 32) || ((9 <=? c) && (c <=? 13)) || ((28 <=? c) && (c <=? 31)).
Fixpoint lstrip (t : text) : text := match t with c :: t' => if is_space c then lstrip t' else t | [] => [] end.
Definition strip (t : text) : text := List.rev (lstrip (List.rev (lstrip t))).
Fixpoint digits_value (acc : Z) (t : text) : option Z :=
  match t with
  | [] => Some acc
  | c :: t' => if (48 <=? c) && (c <=? 57) then digits_value (10 * acc + (c - 48)) t' else None
  end.
Definition py_int (t : text) : option Z :=
  match t with
  | [] => None
  | 45 :: t' => match t' with [] => None | _ => option_map Z.opp (digits_value 0 t') end
  | 43 :: t' => match t' with [] => None | _ => digits_value 0 t' end
  | _ => digits_value 0 t
  end.
Definition parse_arena_size (output : text) : option Z :=
  py_int (strip (first_line (remove_up_to_marker output))).

(** The module state (lines 8-9) and one call; [run] is the outcome of the subprocess: return code and output. *)
Record module_state := State { compilation_output : text; arena_size : Z }.
Inductive convert_result := Returned (code : Z) | CalledProcessError | ValueError.
Definition initial_state : module_state := State [] 0.
Definition convert (run : list text -> Z * text) (filename outfile : text) (params : list (text * option text)) (s : module_state)
  : convert_result * module_state :=
  let (code, output) := run (convert_args filename outfile params) in
  if negb (code =? 0) then (CalledProcessError, s)
  else match parse_arena_size output with
       | None => (ValueError, State output (arena_size s))
       | Some n => (Returned code, State output n)
       end.
