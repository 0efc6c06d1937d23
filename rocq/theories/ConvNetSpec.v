(** Meaning of networks of convolutions (C74). *)
From Coq Require Import List ZArith Bool Arith QArith.
Import ListNotations.
From Verif Require Import ConvSpec ConvOptModel ConvOptSpec ConvNetModel.
Local Open Scope Z_scope.

(** One output pixel from the window: channel [o] is the filter of [o] applied to all input channels (Conv2D), or to input
    channel [o / multiplier] (DepthwiseConv2D; filter element (t, o)). *)
Definition conv_pixel (a : attrs) (c : conv_consts) (depth n : nat) (window : list pixel) : pixel :=
  if a_depthwise a then
    map (fun o => a_post a
           (zsum (fun t => (nth (o / (n / depth)) (nth t window []) 0 - a_zx a) * (nth (t * n + o) (c_filter c) 0 - a_zw a)) (length window))
           (at_opt (c_bias c) o) (at_opt (c_fq c) o) (at_opt (c_bq c) o)) (seq 0 n)
  else
    conv_channels (fun w f b fq bq => a_post a (accumulator depth (a_zx a) (a_zw a) w f) b fq bq) (taps a * depth) n c window.

(** TFLite's convolution of an image of size [s]: outside the image the zero point is read. *)
Definition conv_image (a : attrs) (c : conv_consts) (n : nat) (s : size) (img : image pixel) : image pixel :=
  conv_at (fun w => conv_pixel a c (s_c s) n (concat w)) (a_fh a) (a_fw a) (a_sh a) (a_sw a) (a_dh a) (a_dw a) (s_h s) (s_w s)
          (repeat (a_zx a) (s_c s))
          (if a_same a then same_before (s_h s) (Z.of_nat (a_fh a)) (a_dh a) (a_sh a) else 0)
          (if a_same a then same_before (s_w s) (Z.of_nat (a_fw a)) (a_dw a) (a_sw a) else 0) img.

Fixpoint eval (e : net) : image pixel :=
  match e with
  | Src _ img => img
  | Conv a c n e => conv_image a c n (size_of e) (eval e)
  | Pad t b l r z e => pad_image (s_h (size_of e)) (s_w (size_of e)) z t l (eval e)
  | PadC p z e => fun y x => eval e y x ++ repeat z p
  | SliceC n e => fun y x => firstn n (eval e y x)
  | ConcatC l => fun y x => concat (map (fun e => eval e y x) l)
  | Any _ f l => f (map eval l)
  end.

Definition inside (s : size) (y x : Z) : Prop := 0 <= y < s_h s /\ 0 <= x < s_w s.
Definition agree (s : size) (i j : image pixel) : Prop := forall y x, inside s y x -> i y x = j y x.

(** Shape of the constants. *)
Definition consts_fit (a : attrs) (c : conv_consts) (depth n : nat) : Prop :=
  if a_depthwise a then
    (n mod depth = 0)%nat /\ length (c_filter c) = (taps a * n)%nat /\
    (forall l, c_bias c = Some l -> length l = n) /\ (forall l, c_fq c = Some l -> length l = n) /\
    (forall l, c_bq c = Some l -> length l = n)
  else consts_ok (taps a * depth) n c.

(** Well-typed networks: positive sizes, filters inside the image for VALID, constants of the right size, operands of equal
    size, quantised convolutions have quantised results, other operators depend on the pixels of their operands only. *)
Fixpoint well_typed (e : net) : Prop :=
  match e with
  | Src s img => 1 <= s_h s /\ 1 <= s_w s /\ (1 <= s_c s)%nat /\ (forall y x, inside s y x -> length (img y x) = s_c s)
  | Conv a c n e => let s := size_of e in
      (1 <= a_fh a)%nat /\ (1 <= a_fw a)%nat /\ 1 <= a_sh a /\ 1 <= a_sw a /\ 1 <= a_dh a /\ 1 <= a_dw a /\
      (a_same a = false -> eff (Z.of_nat (a_fh a)) (a_dh a) <= s_h s /\ eff (Z.of_nat (a_fw a)) (a_dw a) <= s_w s) /\
      consts_fit a c (s_c s) n /\ (in_ok a = true -> out_ok a = true) /\ (1 <= s_c s)%nat /\ well_typed e
  | Pad t b l r z e => 0 <= t /\ 0 <= b /\ 0 <= l /\ 0 <= r /\ length z = s_c (size_of e) /\ well_typed e
  | PadC _ _ e => well_typed e
  | SliceC n e => (n <= s_c (size_of e))%nat /\ well_typed e
  | ConcatC l => l <> [] /\ (exists h w, fold_right and True (map (fun e => s_h (size_of e) = h /\ s_w (size_of e) = w) l)) /\
                 fold_right and True (map well_typed l)
  | Any s f l =>
      1 <= s_h s /\ 1 <= s_w s /\ fold_right and True (map well_typed l) /\
      (forall l', Forall2 (fun e i => agree (size_of e) (eval e) i) l l' -> agree s (f (map eval l)) (f l')) /\
      (forall y x, inside s y x -> length (f (map eval l) y x) = s_c s)
  end.

Definition same_result (e e' : net) : Prop := size_of e' = size_of e /\ agree (size_of e) (eval e') (eval e).

(** The convolutions of a network, each with the number of channels of its input. *)
Fixpoint convs (e : net) : list (attrs * conv_consts * nat * nat) :=
  match e with
  | Src _ _ => []
  | Conv a c n e => (a, c, n, s_c (size_of e)) :: convs e
  | Pad _ _ _ _ _ e | PadC _ _ e | SliceC _ e => convs e
  | ConcatC l => flat_map convs l
  | Any _ _ l => flat_map convs l
  end.
