(** Model of the lifetime of the engines of the host interpreter:
    python/xmos_ai_tools/xinterpreters/host_interpreter.py 51-150, 226-259, 522-579 and
    xinterpreters/src/dll_interpreter.cc 56-113, 137-139, 159-161.
    What the tensors hold is in InterpModel; here only which engines exist, which one the
    interpreter refers to, and whether an engine that does not exist is touched.
    The engine library (lib_tflite_micro) is not in the repository: inference_engine_load_model
    is ASSUMED to succeed exactly for loadable contents and to touch nothing but the engine. *)
From Coq Require Import List ZArith Bool Arith.
Import ListNotations.

(** The model content: its size in bytes and whether the engine can load it. *)
Record content := Content { c_size : Z; c_loadable : bool }.

(** self.obj: not set before the first initialisation (51-115), None after close (244). *)
Inductive pyobj := Unset | PyNone | Handle (h : nat).
(** The heap of engines: the ones allocated so far are 0 .. h_next-1; the live ones with
    whether a model was loaded. *)
Record host := Host {
  h_next : nat; h_live : list (nat * bool); h_obj : pyobj; h_models : list (nat * content) }.
(** __init__ 51-115. *)
Definition new_host : host := Host 0 [] Unset [].

Inductive pyexn := AttributeError | ValueError | IndexError | RuntimeError.
(** Undefined: an access to memory that is not allocated. *)
Inductive res := Done (st : host) | Raise (e : pyexn) (st : host) | Undefined.

(** dll_interpreter.cc 56-95: the buffer of max_model_size bytes. *)
Definition max_model_size : Z := 50000000.

Fixpoint set_loaded (h : nat) (b : bool) (l : list (nat * bool)) : list (nat * bool) :=
  match l with
  | [] => []
  | (k, x) :: tl => if Nat.eqb k h then (k, b) :: tl else (k, x) :: set_loaded h b tl
  end.
Definition is_live (h : nat) (l : list (nat * bool)) : bool := existsb (fun e => Nat.eqb (fst e) h) l.

(** dll_interpreter.cc 104-113: copies the content into the buffer, loads, and returns
    kTfLiteOk whatever the load returned.  [None]: undefined; otherwise the status. *)
Definition initialize (h : nat) (c : content) (l : list (nat * bool)) : option (list (nat * bool) * bool) :=
  if negb (is_live h l) then None
  else if (c_size c >? max_model_size)%Z then None
  else Some (set_loaded h (c_loadable c) l, true).

(** host_interpreter.py 124-150: a new engine, then the last model of the list with that
    tile; the previous engine is not deleted. *)
Definition initialise_interpreter (st : host) (idx : nat) : res :=
  let h := h_next st in
  let st1 := Host (S h) (h_live st ++ [(h, false)]) (Handle h) (h_models st) in
  match fold_left (fun cur x => if Nat.eqb (fst x) idx then Some (snd x) else cur) (h_models st1) None with
  | None => Raise IndexError st1
  | Some c =>
      match initialize h c (h_live st1) with
      | None => Undefined
      | Some (l, ok) =>
          let st2 := Host (h_next st1) l (h_obj st1) (h_models st1) in
          if ok then Done st2 else Raise RuntimeError st2
      end
  end.
(** 522-574.  [None]: neither model_path nor model_content.  Reading the files and parsing
    the content (modelData) are not modelled. *)
Definition set_model (st : host) (idx : nat) (c : option content) : res :=
  match c with
  | None => Raise ValueError st
  | Some c =>
      let models := if existsb (fun x => Nat.eqb (fst x) idx) (h_models st) then h_models st
                    else h_models st ++ [(idx, c)] in
      initialise_interpreter (Host (h_next st) (h_live st) (h_obj st) models) idx
  end.
(** 238-245 and dll_interpreter.cc 97-102. *)
Definition close (st : host) : res :=
  match h_obj st with
  | Unset => Raise AttributeError st
  | PyNone => Done st
  | Handle h =>
      if is_live h (h_live st)
      then Done (Host (h_next st) (filter (fun e => negb (Nat.eqb (fst e) h)) (h_live st)) PyNone (h_models st))
      else Undefined
  end.
(** 226-236, 247-251, 261-263: reset, invoke, tensor_arena_size, print_memory_plan pass
    self.obj to the library, which dereferences it (None is passed as a null pointer).
    Simplification: the failures the engine itself reports are not modelled. *)
Definition use (st : host) : res :=
  match h_obj st with
  | Unset => Raise AttributeError st
  | PyNone => Undefined
  | Handle h => if is_live h (h_live st) then Done st else Undefined
  end.

(** A Python program: the calls it makes.  An exception is caught by the program (the state
    stays), so that every history is covered. *)
Inductive call := SetModel (idx : nat) (c : option content) | Close | Use.
Definition step (st : host) (c : call) : res :=
  match c with SetModel i c => set_model st i c | Close => close st | Use => use st end.
Fixpoint run (st : host) (cs : list call) : option (host * list (option pyexn)) :=
  match cs with
  | [] => Some (st, [])
  | c :: tl =>
      match step st c with
      | Undefined => None
      | Done st' => match run st' tl with Some (s, l) => Some (s, None :: l) | None => None end
      | Raise e st' => match run st' tl with Some (s, l) => Some (s, Some e :: l) | None => None end
      end
  end.
