(** How the generated files and the command line are read: a C compiler's view of the initialiser and of the macro, LLVM's
    command-line parser, and the line with the arena size. *)
From Coq Require Import List ZArith Bool Arith.
Import ListNotations.
Local Open Scope Z_scope.

(** An initialiser list of integer constants up to the closing brace.  [sign]: a minus sign was read; [cur]: value of the digits
    read so far.  White space may only stand between a comma and the next constant. *)
Definition signed (sign : bool) (v : Z) : Z := if sign then - v else v.
Fixpoint read_initialiser (sign : bool) (cur : option Z) (t : list Z) : option (list Z) :=
  match t with
  | [] => None
  | c :: t' =>
    if c =? 125 (* } *) then
      match cur with Some v => Some [signed sign v] | None => if sign then None else Some [] end
    else if (c =? 32) || (c =? 10) then
      match cur with None => if sign then None else read_initialiser sign cur t' | Some _ => None end
    else if c =? 45 (* - *) then
      match cur with None => if sign then None else read_initialiser true None t' | Some _ => None end
    else if c =? 44 (* , *) then
      match cur with Some v => option_map (cons (signed sign v)) (read_initialiser false None t') | None => None end
    else if (48 <=? c) && (c <=? 57) then
      read_initialiser sign (Some (match cur with Some v => 10 * v + (c - 48) | None => c - 48 end)) t'
    else None
  end.
Fixpoint after (c : Z) (t : list Z) : list Z :=
  match t with [] => [] | d :: t' => if d =? c then t' else after c t' end.
(** The array of a .c file with a single initialiser. *)
Definition read_array (t : list Z) : option (list Z) := read_initialiser false None (after 123 t).
(** The number of the macro: the digits between the first parenthesis and U. *)
Fixpoint read_unsigned (acc : Z) (t : list Z) : option Z :=
  match t with
  | [] => None
  | c :: t' => if c =? 85 (* U *) then Some acc else
               if (48 <=? c) && (c <=? 57) then read_unsigned (10 * acc + (c - 48)) t' else None
  end.
Definition read_size (t : list Z) : option Z := read_unsigned 0 (after 40 t).

(** LLVM's command-line parser: an argument that starts with a dash and is not a lone dash is an option, one or two dashes; the value
    follows an equals sign or, for options that require one, is the next argument; everything else is positional. *)
Fixpoint split_equals (t : list Z) : list Z * option (list Z) :=
  match t with
  | [] => ([], None)
  | c :: t' => if c =? 61 then ([], Some t') else let (k, v) := split_equals t' in (c :: k, v)
  end.
Fixpoint parse_command_line (needs_value : list Z -> bool) (args : list (list Z))
  : option (list (list Z * option (list Z)) * list (list Z)) :=
  match args with
  | [] => Some ([], [])
  | a :: rest =>
    let option_body := match a with
                       | 45 :: 45 :: b => Some b
                       | 45 :: c :: b => Some (c :: b)
                       | _ => None
                       end in
    match option_body with
    | None => match parse_command_line needs_value rest with Some (o, p) => Some (o, a :: p) | None => None end
    | Some b =>
      match split_equals b with
      | (k, Some v) => match parse_command_line needs_value rest with Some (o, p) => Some ((k, Some v) :: o, p) | None => None end
      | (k, None) =>
        if needs_value k then
          match rest with
          | [] => None
          | v :: rest' => match parse_command_line needs_value rest' with Some (o, p) => Some ((k, Some v) :: o, p) | None => None end
          end
        else match parse_command_line needs_value rest with Some (o, p) => Some ((k, None) :: o, p) | None => None end
      end
    end
  end.

(** [t] contains [p]. *)
Definition contains (p t : list Z) : Prop := exists a b, t = a ++ p ++ b.
