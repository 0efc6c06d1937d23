(** Model of the channels between the threads of examples/audio_network, token by token: the audio thread in
    nn_offload_data_to_dsp_engine (src/data_path.c 13-50, called for every sample, src/dsp_usb.c 14-17), the transport thread
    (data_path.c 76-109), the processing thread (113-143) and the button server (src/extensions/button.c 5-17), connected as in
    dsp_usb.c 22-32.
    XS2 channel ends: chanend_out_word puts four data tokens, chanend_out_end_token one control token; a thread that outputs
    to a full channel, or inputs from an empty one, waits; chanend_in_word traps on a control token, chanend_check_end_token on
    a data token.
    Simplifications: the values the transport thread sends are chosen freely (C90 says what they are); its memcpys are part of
    the step that ends a frame; a signal processing takes some number of steps. *)
From Verif Require Import Base.
Local Open Scope Z_scope.

Inductive token := Byte (b : Z) | End.
(** One token of chanend_out_word or chanend_out_end_token, of chanend_in_word, of chanend_check_end_token. *)
Inductive instr := Put (t : token) | GetByte | GetEnd.
Definition word_bytes (w : Z) : list Z := [w / 16777216 mod 256; w / 65536 mod 256; w / 256 mod 256; w mod 256].
Definition out_word (w : Z) : list instr := map (fun b => Put (Byte b)) (word_bytes w).
Definition in_word : list instr := [GetByte; GetByte; GetByte; GetByte].
Definition out_words (ws : list Z) : list instr := flat_map out_word ws ++ [Put End].
Definition in_words (n : nat) : list instr := flat_map (fun _ => in_word) (seq 0 n) ++ [GetEnd].

(** The words of bytes that were read. *)
Fixpoint words_of (bs : list Z) : list Z :=
  match bs with
  | a :: b :: c :: d :: tl => (a * 16777216 + b * 65536 + c * 256 + d) :: words_of tl
  | _ => []
  end.

(** What a thread has still to do, the channel it reads, the channel it writes, the bytes it read. *)
Inductive exec (cap : nat) : list instr -> list token -> list token -> list Z -> list instr -> list token -> list token -> list Z -> Prop :=
| ExecPut : forall t l i o got, (length o < cap)%nat -> exec cap (Put t :: l) i o got l i (o ++ [t]) got
| ExecByte : forall b l i o got, exec cap (GetByte :: l) (Byte b :: i) o got l i o (got ++ [b])
| ExecEnd : forall l i o got, exec cap (GetEnd :: l) (End :: i) o got l i o got.
Definition traps (todo : list instr) (i : list token) : Prop :=
  match todo, i with GetByte :: _, End :: _ => True | GetEnd :: _, Byte _ :: _ => True | _, _ => False end.

(** The audio thread: what the current call has still to do, the words it sends, the bytes it got; the finished calls. *)
Record audio := Audio { a_todo : list instr; a_sent : list Z; a_got : list Z; a_calls : list (list Z * list Z) }.
(** The transport thread: the rest of the frame, the bytes it got, the value it sends, the number of the frame in the block,
    whether it is at data_path.c 70; the finished frames. *)
Record mover := Mover { m_todo : list instr; m_got : list Z; m_value : Z; m_frame : nat; m_hand : bool; m_frames : list (Z * Z) }.
(** The processing thread: in the select, processing (with so many steps left), handling a button. *)
Inductive work := Waiting | Working (k : nat) | Handling (todo : list instr).
Record net := Net {
  n_audio : audio; n_mover : mover; n_work : work;
  n_button : list instr;                (* the button server *)
  n_up : list token; n_down : list token; (* c_data *)
  n_go : nat;                           (* end tokens in c_children *)
  n_press : list token; n_ack : list token (* c_button_state *)
}.

Section Steps.
Variables cap go_cap press_cap : nat. (* tokens a channel holds *)
Variable block : nat.                 (* UPSAMPLED_WINDOW_ADVANCE *)
Variable steps : nat.                 (* at most so many steps to process a block *)

(** data_path.c 15-32 and 33-49 *)
Definition call_todo (ws : list Z) : list instr := out_words ws ++ in_words 16.
(** 81-87 and 88-101, NN_OUTPUT_CHANNELS = 1 *)
Definition frame_todo (x : Z) : list instr := in_words 16 ++ out_words (repeat x 16).
(** button.c 13-15; data_path.c 136-138 *)
Definition press_todo (v : Z) : list instr := out_words [v] ++ [GetEnd].
Definition handle_todo : list instr := in_words 1 ++ [Put End].

Inductive label := LAudio | LMover | LWork | LButton | LPress.
Inductive move : net -> label -> net -> Prop :=
(** the audio thread: one token; the end of a call and the next call, with any words *)
| MoveAudio : forall todo sent got calls m w b up down go pr ack todo' down' up' got',
    exec cap todo down up got todo' down' up' got' ->
    move (Net (Audio todo sent got calls) m w b up down go pr ack) LAudio (Net (Audio todo' sent got' calls) m w b up' down' go pr ack)
| MoveCall : forall ws sent got calls m w b up down go pr ack,
    length ws = 16%nat -> Forall (fun x => 0 <= x < 4294967296) ws ->
    move (Net (Audio [] sent got calls) m w b up down go pr ack) LAudio
         (Net (Audio (call_todo ws) ws [] (calls ++ [(sent, words_of got)])) m w b up down go pr ack)
(** the transport thread: one token; the end of a frame (102-107) with or without the end of a block; 70 *)
| MoveFrame : forall a todo got x f frames w b up down go pr ack todo' up' down' got',
    exec cap todo up down got todo' up' down' got' ->
    move (Net a (Mover todo got x f false frames) w b up down go pr ack) LMover (Net a (Mover todo' got' x f false frames) w b up' down' go pr ack)
| MoveNext : forall a got x y f frames w b up down go pr ack,
    0 <= y < 4294967296 ->
    move (Net a (Mover [] got x f false frames) w b up down go pr ack) LMover
         (Net a (Mover (frame_todo y) [] y (if Nat.eqb (S f) block then 0 else S f) (Nat.eqb (S f) block) (frames ++ [(hd 0 (words_of got), x)])) w b up down go pr ack)
| MoveHand : forall a todo got x f frames w b up down go pr ack,
    (go < go_cap)%nat ->
    move (Net a (Mover todo got x f true frames) w b up down go pr ack) LMover (Net a (Mover todo got x f false frames) w b up down (S go) pr ack)
(** the processing thread: the two events of the select, the processing, the handling of a button *)
| MoveGo : forall a m b up down go pr ack k, (k <= steps)%nat ->
    move (Net a m Waiting b up down (S go) pr ack) LWork (Net a m (Working k) b up down go pr ack)
| MoveWork : forall a m k b up down go pr ack,
    move (Net a m (Working (S k)) b up down go pr ack) LWork (Net a m (Working k) b up down go pr ack)
| MoveDone : forall a m b up down go pr ack,
    move (Net a m (Working 0) b up down go pr ack) LWork (Net a m Waiting b up down go pr ack)
| MoveEvent : forall a m b up down go t pr ack,
    move (Net a m Waiting b up down go (t :: pr) ack) LButton (Net a m (Handling handle_todo) b up down go (t :: pr) ack)
| MoveHandle : forall a m todo b up down go pr ack todo' pr' ack' got got',
    exec press_cap todo pr ack got todo' pr' ack' got' ->
    move (Net a m (Handling todo) b up down go pr ack) LButton (Net a m (Handling todo') b up down go pr' ack')
| MoveHandled : forall a m b up down go pr ack,
    move (Net a m (Handling []) b up down go pr ack) LButton (Net a m Waiting b up down go pr ack)
(** the button server: a button changes; one token *)
| MovePress : forall a m w v up down go pr ack,
    move (Net a m w [] up down go pr ack) LPress (Net a m w (press_todo v) up down go pr ack)
| MoveServer : forall a m w todo up down go pr ack todo' ack' pr' got got',
    exec press_cap todo ack pr got todo' ack' pr' got' ->
    move (Net a m w todo up down go pr ack) LButton (Net a m w todo' up down go pr' ack').
(** At the start the audio thread has not called; the value of the first frame is arbitrary (output_data is not initialised). *)
Definition boot (ws : list Z) (x : Z) : net :=
  Net (Audio (call_todo ws) ws [] []) (Mover (frame_todo x) [] x 0 false []) Waiting [] [] [] 0 [] [].
Inductive reach : net -> Prop :=
| ReachBoot : forall ws x, length ws = 16%nat -> Forall (fun x => 0 <= x < 4294967296) ws -> 0 <= x < 4294967296 -> reach (boot ws x)
| ReachMove : forall s l t, reach s -> move s l t -> reach t.
End Steps.
