(** Model of the main function of xcore-opt (XCoreOptMain.cpp 380-675): validation of the options and the order in which the
    output files are written. *)
From Coq Require Import List ZArith Bool Arith String.
From Verif Require Import TextModel.
Import ListNotations.
Local Open Scope list_scope.
Local Open Scope Z_scope.

(** The options looked at by main; [given] fields are getNumOccurrences() > 0.  The two version checks are C42. *)
Record options := mk_options {
  o_analysis : bool; o_argc : Z; o_output : text; o_mlir_io : bool; o_verify : bool;
  o_external_memory_given : bool; o_as_array_given : bool; o_if_larger_given : bool; o_weights_file : text;
  o_target_given : bool; o_bottom : list Z; o_top : list Z; o_splits : list Z;
  o_threads : Z; o_tflm_version_ok : bool; o_nn_version_ok : bool }.
Definition empty {A} (l : list A) : bool := match l with [] => true | _ => false end.

(** XCoreOptMain.cpp 447-511: true, none of the errors is reported. *)
Definition validate (o : options) : bool :=
  if o_analysis o && (3 <? o_argc o) then false
  else if o_analysis o && negb (empty (o_output o)) then false
  else if negb (o_mlir_io o) && negb (o_analysis o) && empty (o_output o) then false
  else if o_external_memory_given o && negb (o_as_array_given o) then false
  else if o_if_larger_given o && empty (o_weights_file o) then false
  else if o_target_given o && (negb (empty (o_bottom o)) || negb (empty (o_top o)) || negb (empty (o_splits o))) then false
  else if (o_threads o <? 1) || (5 <? o_threads o) then false
  else if negb (o_tflm_version_ok o) then false
  else if negb (o_nn_version_ok o) then false
  else true.

(** The rest of the world.  [w_pipeline] is the pass pipeline: the weights files written by it and whether it succeeded
    (WriteWeights.cpp 152-160 signals failure when a file cannot be written); [w_export] the flatbuffer; [w_tflmc] the result of
    the TFLM compiler on a flatbuffer: source, header and arena size, or an exception; [w_can_write] whether a file can be opened.  A
    failing write after opening ends the process (llvm's raw_fd_ostream) and is not modelled. *)
Record world := mk_world {
  w_readable : bool; w_pipeline : list (text * text) * bool; w_diagnostics_verified : bool;
  w_export : option text; w_tflmc : text -> option (text * text * Z); w_can_write : text -> bool }.
Inductive event := Wrote (name content : text) | PrintedArenaSize (n : Z).

(** XCoreOptMain.cpp 513-673.  Result: exit code and events in order. *)
Definition main (o : options) (w : world) : Z * list event :=
  if negb (validate o) then (1, [])
  else if negb (w_readable w) then (1, [])
  else
    let weights := map (fun f => Wrote (fst f) (snd f)) (fst (w_pipeline w)) in
    if (if o_verify o then negb (w_diagnostics_verified w) else negb (snd (w_pipeline w))) then (1, weights)
    else match o_output o with
    | [] => (0, weights)
    | out =>
      match w_export w with
      | None => (1, weights)
      | Some fb =>
        if negb (w_can_write w out) then (1, weights) else
        let e1 := weights ++ [Wrote out fb] in
        match w_tflmc w fb with
        | None => (1, e1)
        | Some (source, header, size) =>
          let e2 := e1 ++ [PrintedArenaSize size] in
          if negb (w_can_write w (out ++ codes ".cpp")) then (1, e2) else
          let e3 := e2 ++ [Wrote (out ++ codes ".cpp") source] in
          if negb (w_can_write w (out ++ codes ".h")) then (1, e3) else
          (0, e3 ++ [Wrote (out ++ codes ".h") header])
        end
      end
    end.
(** XCoreOptMain.cpp 579: the metadata of the model. *)
Definition required_thread_count (o : options) : Z := o_threads o.
