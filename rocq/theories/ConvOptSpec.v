(** Specification vocabulary for C29-C31 and C47: convolutions channel by channel. *)
From Coq Require Import List ZArith Bool Arith QArith.
Import ListNotations.
From Verif Require Import ConvOptModel.
Local Open Scope nat_scope.

(** Filter of output channel [o]: [k] consecutive elements. *)
Definition chunk {A} (k o : nat) (l : list A) : list A := firstn k (skipn (o * k) l).

Definition at_opt {A} (o : option (list A)) (i : nat) : option A :=
  match o with Some l => nth_error l i | None => None end.

(** The output channels of a convolution at one output pixel: channel [o] is any
    function [G] of the input window, the channel's filter, bias and quantisation
    parameters. *)
Definition conv_channels {W R} (G : W -> list Z -> option Z -> option (Q * Z) -> option (Q * Z) -> R)
  (k n : nat) (c : conv_consts) (w : W) : list R :=
  map (fun o => G w (chunk k o (c_filter c)) (at_opt (c_bias c) o) (at_opt (c_fq c) o) (at_opt (c_bq c) o)) (seq 0 n).

(** Constants of a convolution with [n] output channels and [k] filter elements per channel. *)
Definition consts_ok (k n : nat) (c : conv_consts) : Prop :=
  length (c_filter c) = n * k /\
  (forall l, c_bias c = Some l -> length l = n) /\
  (forall l, c_fq c = Some l -> length l = n) /\
  (forall l, c_bq c = Some l -> length l = n).

(** Accumulator of one output channel: window of pixels (each a list of channel values),
    filter elements in the same order; [zx], [zw] zero points. *)
Definition zsum (f : nat -> Z) (n : nat) : Z := fold_right Z.add 0%Z (map f (seq 0 n)).
Definition accumulator (depth : nat) (zx zw : Z) (window : list (list Z)) (filter : list Z) : Z :=
  zsum (fun t => zsum (fun i => (nth i (nth t window []) 0 - zx) * (nth (t * depth + i) filter 0 - zw))%Z depth) (length window).

(** The window of the input whose channels are padded with [p] times the zero point. *)
Definition pad_window (p : nat) (zx : Z) (window : list (list Z)) : list (list Z) :=
  map (fun px => px ++ repeat zx p) window.

(** Depthwise convolution, multiplier 1: output channel [ch] is a function of channel
    [ch] of the window, of the filter column [ch], and of the channel's bias and parameters. *)
Definition column (depth ch : nat) (filter : list Z) : list Z :=
  map (fun t => nth (t * depth + ch) filter 0%Z) (seq 0 (length filter / depth)).
Definition depthwise_channels {R} (G : list Z -> list Z -> option Z -> option (Q * Z) -> option (Q * Z) -> R)
  (depth : nat) (c : conv_consts) (window : list (list Z)) : list R :=
  map (fun ch => G (map (fun px => nth ch px 0%Z) window) (column depth ch (c_filter c)) (at_opt (c_bias c) ch)
                   (at_opt (c_fq c) ch) (at_opt (c_bq c) ch)) (seq 0 depth).
