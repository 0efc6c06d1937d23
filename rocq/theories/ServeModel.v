(** The device of examples/app_no_flash_with_ioserver: src/support.cpp 3-12 (model_init, then model_ioserver) and src/main.xc, with the host's
    io_server/__init__.py.  model_ioserver is in lib_tflite_micro, not in the repository: by contract it carries out the commands that arrive
    (HostSpec.event: command, model, tensor, data) on the network's tensors.
    The host side (packets, transfers, arrays) is HostModel. *)
From Coq Require Import List ZArith Bool Arith.
Import ListNotations.
From Verif Require Import MemPlanModel MemPlanSpec MemExecSpec ArenasModel HostModel HostSpec HostProps.
Local Open Scope Z_scope.

(** support.cpp 5 (by contract), for io_server/__init__.py 57-63 (write_input_tensor).  Command 3: data to an input tensor.  None: no such tensor, or not its size. *)
Definition store_input (N : net) (t : Z) (data : bytes) (m : memory) : option memory :=
  match nth_error (g_args (n_graph N)) (Z.to_nat t) with
  | Some (v, s) =>
      if (0 <=? t) && (Z.of_nat (length data) =? s)
      then match net_locs N v with Some (z, _) => Some (write m z data) | None => None end
      else None
  | None => None
  end.
(** support.cpp 5 (by contract).  A command, with the memory before; the memory after and what is sent back.  [pad]: bytes after an output tensor (a multiple of four bytes is sent).
    One network: model 0. *)
Definition serve (N : net) (pad : Z -> bytes) (e : HostSpec.event) (m : memory) : option (memory * list bytes) :=
  let '(cmd, model, t, data) := e in
  if negb (model =? 0) then None
  else if cmd =? 3 then match store_input N t data m with Some m' => Some (m', []) | None => None end
  else if cmd =? 1 then Some (ArenasModel.step (fun _ => N) m (Invoke 0), [])
  else if cmd =? 2 then
    if t <? 0 then None
    else match nth_error (ArenasModel.outputs N m) (Z.to_nat t) with Some b => Some (m, [b ++ pad t]) | None => None end
  else None.
(** support.cpp 5 (by contract): one command after another. *)
Fixpoint serve_all (N : net) (pad : Z -> bytes) (es : list HostSpec.event) (m : memory) : option (list bytes) :=
  match es with
  | [] => Some []
  | e :: tl => match serve N pad e m with
               | Some (m', r) => match serve_all N pad tl m' with Some rs => Some (r ++ rs) | None => None end
               | None => None
               end
  end.
(** io_server/__init__.py 50-73: the arrays that read_output_tensor returns, from the packets that come back; [shapes]: output_details. *)
Fixpoint host_results (shapes : Z -> list nat) (calls : list call) (packets : list (list Z)) : option (list bytes) :=
  match calls with
  | [] => Some []
  | ReadOutput _ t :: tl =>
      match upload_data packets with
      | Some (data, rest) => match bytes_to_arr (shapes t) data, host_results shapes tl rest with Some a, Some l => Some (a :: l) | _, _ => None end
      | None => None
      end
  | _ :: tl => host_results shapes tl packets
  end.
(** io_server/__init__.py 50-149 and support.cpp 3-6: host and device together.  [send]: the packets of a reply. *)
Definition session (N : net) (pad : Z -> bytes) (send : bytes -> list (list Z)) (shapes : Z -> list nat) (calls : list call) (m : memory) : option (list bytes) :=
  match device_receives (flat_map packets_of calls) with
  | Some es => match serve_all N pad es m with Some rs => host_results shapes calls (flat_map send rs) | None => None end
  | None => None
  end.
