(** Model of the host interpreter: python/xmos_ai_tools/xinterpreters/host_interpreter.py and
    xinterpreters/src/dll_interpreter.cc.  The inference engine (lib_tflite_micro, not in the
    repository) is ASSUMED to allocate one buffer of the size of the tensor per input and
    output, and to compute [m_run] on invoke. *)
From Coq Require Import List ZArith Bool Arith.
Import ListNotations.

(** Element types of tensors; only four are supported by the Python code. *)
Inductive dtype := INT8 | INT16 | INT32 | FLOAT32 | OTHER (bytes : nat).
Definition true_bytes (t : dtype) : nat :=
  match t with INT8 => 1 | INT16 => 2 | INT32 | FLOAT32 => 4 | OTHER b => b end.
(** A model (content): tensor indices of the inputs and outputs, types and shapes of the
    tensors, and what the network computes from the parameters and the inputs. *)
Record model := Model {
  m_inputs : list nat; m_outputs : list nat; m_type : nat -> dtype; m_shape : nat -> list nat;
  m_run : list Z -> list (list Z) -> list (list Z) }.
Definition elements (s : list nat) : nat := fold_right Nat.mul 1 s.

Record engine := Eng { en_model : model; en_params : list Z; en_inputs : list (list Z); en_outputs : list (list Z) }.
(** host_interpreter.py 114-115: the list of models (tile, content, params) and self.obj. *)
Record interp := Interp { i_models : list (nat * model * list Z); i_obj : option engine }.
Definition new_interp : interp := Interp [] None.

(** Undefined: memory access out of bounds. *)
Inductive result A := Ok (a : A) | Raise | Undefined.
Arguments Ok {A}. Arguments Raise {A}. Arguments Undefined {A}.

(** host_interpreter.py 284-305, 327-346, 361-379: size in bytes; raises for other types. *)
Definition py_size (m : model) (t : nat) : result nat :=
  match m_type m t with
  | INT8 => Ok (fold_left Nat.mul (m_shape m t) 1)
  | INT16 => Ok (fold_left Nat.mul (m_shape m t) 2)
  | INT32 | FLOAT32 => Ok (fold_left Nat.mul (m_shape m t) 4)
  | OTHER _ => Raise
  end.
(** 576-579: the first model of the list with that tile. *)
Definition get_model (st : interp) (idx : nat) : option (model * list Z) :=
  match find (fun x => Nat.eqb (fst (fst x)) idx) (i_models st) with
  | Some (_, m, p) => Some (m, p)
  | None => None
  end.
(** dll_interpreter.cc 56-95, 104-113 and lib_tflite_micro: a new engine with the model. *)
Definition load (m : model) (p : list Z) : engine :=
  Eng m p (map (fun t => repeat 0%Z (true_bytes (m_type m t) * elements (m_shape m t))) (m_inputs m))
          (map (fun t => repeat 0%Z (true_bytes (m_type m t) * elements (m_shape m t))) (m_outputs m)).
(** 124-150: the last model of the list with that tile. *)
Definition initialise_interpreter (st : interp) (idx : nat) : result interp :=
  match fold_left (fun cur x => if Nat.eqb (fst (fst x)) idx then Some x else cur) (i_models st) None with
  | Some (_, m, p) => Ok (Interp (i_models st) (Some (load m p)))
  | None => Raise
  end.
(** 522-574: in the loop, [model = self.modelData(...)] rebinds the loop variable only. *)
Definition set_model (st : interp) (idx : nat) (m : model) (p : list Z) : result interp :=
  let tile_found := existsb (fun x => Nat.eqb (fst (fst x)) idx) (i_models st) in
  let models := if tile_found then i_models st else i_models st ++ [(idx, m, p)] in
  initialise_interpreter (Interp models (i_obj st)) idx.

Fixpoint update {A} (k : nat) (x : A) (l : list A) : list A :=
  match l, k with
  | [], _ => []
  | _ :: tl, O => x :: tl
  | h :: tl, S k' => h :: update k' x tl
  end.
(** 152-169 and dll_interpreter.cc 141-145.  The size is looked up in the model of index 0
    (the argument is not passed on) and a mismatch is only printed. *)
Definition set_tensor (st : interp) (pos : nat) (value : list Z) : result interp :=
  match get_model st 0, i_obj st with
  | Some (m, _), Some e =>
      match nth_error (m_inputs m) pos with
      | None => Undefined
      | Some t =>
          match py_size m t with
          | Ok _ =>
              match nth_error (en_inputs e) pos with
              | None => Undefined
              | Some buf =>
                  if length value <=? length buf
                  then Ok (Interp (i_models st) (Some (Eng (en_model e) (en_params e)
                         (update pos (value ++ skipn (length value) buf) (en_inputs e)) (en_outputs e))))
                  else Undefined
              end
          | _ => Raise
          end
      end
  | _, _ => Raise
  end.
(** 230-236. *)
Definition invoke (st : interp) : result interp :=
  match i_obj st with
  | Some e => Ok (Interp (i_models st) (Some (Eng (en_model e) (en_params e) (en_inputs e) (m_run (en_model e) (en_params e) (en_inputs e)))))
  | None => Raise
  end.
(** 470-520: the dtype of every output; of an unsupported type, the previous one. *)
Fixpoint output_details (m : model) (outs : list nat) (prev : option dtype) : result (list (nat * dtype)) :=
  match outs with
  | [] => Ok []
  | t :: tl =>
      let d := match m_type m t with OTHER _ => prev | s => Some s end in
      match d with
      | None => Raise
      | Some d' => match output_details m tl d with Ok l => Ok ((t, d') :: l) | r => r end
      end
  end.
Fixpoint first_index (t : nat) (l : list (nat * dtype)) (k : nat) : option (nat * dtype) :=
  match l with
  | [] => None
  | (t', d) :: tl => if Nat.eqb t' t then Some (k, d) else first_index t tl (S k)
  end.
(** Copy [n] bytes of a buffer into an array of [size] bytes. *)
Definition memcpy_out (buf : list Z) (size n : nat) : result (list Z) :=
  if (n <=? length buf) && (n <=? size) then Ok (firstn n buf ++ repeat 0%Z (size - n)) else Undefined.
(** 171-209 and dll_interpreter.cc 153-157; [given]: the size in bytes of the array passed
    by the caller. *)
Definition get_tensor (st : interp) (t : nat) (given : option nat) : result (list Z) :=
  match get_model st 0, i_obj st with
  | Some (m, _), Some e =>
      match output_details m (m_outputs m) None with
      | Ok l =>
          match first_index t l 0 with
          | None => Raise
          | Some (count, d) =>
              match py_size m t with
              | Ok length_ =>
                  match nth_error (en_outputs e) count with
                  | None => Undefined
                  | Some buf =>
                      match given with
                      | None => memcpy_out buf (true_bytes d * elements (m_shape m t)) length_
                      | Some n => memcpy_out buf n n
                      end
                  end
              | _ => Raise
              end
          end
      | _ => Raise
      end
  | _, _ => Raise
  end.
(** 394-450: every input must have a supported type. *)
Definition inputs_supported (m : model) : bool :=
  forallb (fun t => match m_type m t with OTHER _ => false | _ => true end) (m_inputs m).
(** 211-224 and dll_interpreter.cc 147-151. *)
Definition get_input_tensor (st : interp) (pos idx : nat) : result (list Z) :=
  match get_model st idx, i_obj st with
  | Some (m, _), Some e =>
      if inputs_supported m then
        match nth_error (m_inputs m) pos with
        | None => Raise
        | Some t =>
            let n := true_bytes (m_type m t) * elements (m_shape m t) in
            match nth_error (en_inputs e) pos with
            | None => Undefined
            | Some buf => memcpy_out buf n n
            end
        end
      else Raise
  | _, _ => Raise
  end.
