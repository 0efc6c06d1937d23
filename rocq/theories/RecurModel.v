(** The recurrent network of the audio example: examples/audio_network/src/support.cpp 105-143 (the static state, nn_predict_masks), with the
    memory of ArenasModel and the masks of AudioModel.
    Simplifications: lines 127-130 store the state first and the spectrum second, here the other way round (they are different tensors);
    how a float is stored in its four bytes is not modelled ([floats] reads them). *)
From Coq Require Import List ZArith QArith Bool Arith.
Import ListNotations.
From Verif Require Import MemPlanModel MemPlanSpec MemExecSpec ArenasModel AudioModel.
Local Open Scope Z_scope.

(** float state[64], float mels[MEL_BINS]: 64 floats each. *)
Definition ROW : nat := 256.
(** Line 105: the initial state. *)
Definition zero_state : bytes := repeat 0 ROW.

(** What happens to the program: something else runs (any events, also of networks that share the arena), or nn_predict_masks is called with
    the button state and the bytes of the spectrum; [junk] is what model_init leaves in the arena. *)
Inductive doing := Other (es : list event) | Predict (junk : memory) (button_state : Z) (mels : bytes).

(** 121-143.  The network is number [i]. *)
Fixpoint program (nets : nat -> net) (i : nat) (floats : bytes -> list Q) (ds : list doing) (m : memory) (state : bytes) : list (list (option Z)) :=
  match ds with
  | [] => []
  | Other es :: tl => program nets i floats tl (play nets es m) state
  | Predict junk b mels :: tl =>
      let m1 := play nets [Start i junk; Put i [mels; state]; Invoke i] m in
      let out := outputs (nets i) m1 in
      map (mask_of b) (floats (nth 1 out [])) :: program nets i floats tl m1 (firstn ROW (nth 0 out []))
  end.
