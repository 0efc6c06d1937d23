(** C65: convert().  C67: the weights as C source. *)
From Coq Require Import Ascii String DecimalPos DecimalZ.
From Verif Require Import Base WeightsModel OptionsModel TextModel TextSpec.
Local Open Scope list_scope.
Local Open Scope Z_scope.

(** ** Decimal numbers *)
Definition is_digit (c : Z) : Prop := 48 <= c <= 57.
Definition tval (acc : Z) (t : list Z) : Z := fold_left (fun a c => 10 * a + (c - 48)) t acc.

Lemma uint_text_digits u : Forall is_digit (uint_text u).
Proof. induction u; cbn [uint_text]; constructor; auto; unfold is_digit; lia. Qed.
Lemma tval_acc u : forall p, tval (Z.pos p) (uint_text u) = Z.pos (Pos.of_uint_acc u p).
Proof.
  induction u; intros p; cbn [uint_text Pos.of_uint_acc]; [reflexivity|..];
    unfold tval; cbn [fold_left]; fold (tval);
    match goal with |- fold_left ?f ?l ?a = Z.pos (Pos.of_uint_acc _ ?q) => replace a with (Z.pos q) by lia; exact (IHu q) end.
Qed.
Lemma tval_uint u : tval 0 (uint_text u) = Z.of_uint u.
Proof.
  unfold Z.of_uint. induction u; cbn [uint_text Pos.of_uint]; [reflexivity|exact IHu|..];
    cbn [Z.of_N]; match goal with |- _ = Z.pos (Pos.of_uint_acc _ ?q) => exact (tval_acc u q) end.
Qed.
(** A decimal number is an optional minus sign and at least one digit, and has the value it was made from. *)
Lemma decimal_spec v : exists ds, ds <> [] /\ Forall is_digit ds /\
  ((0 <= v /\ decimal v = ds /\ tval 0 ds = v) \/ (v < 0 /\ decimal v = 45 :: ds /\ tval 0 ds = - v)).
Proof.
  pose proof (DecimalZ.of_to v) as E. unfold decimal. destruct v as [|p|p]; cbn [Z.to_int] in *.
  - exists [48]. split; [discriminate|]. split; [constructor; [unfold is_digit; lia|constructor]|]. left. repeat split; lia.
  - exists (uint_text (Pos.to_uint p)). split.
    { pose proof (Unsigned.to_uint_nonnil p) as T. destruct (Pos.to_uint p); cbn [uint_text]; congruence. }
    split; [apply uint_text_digits|]. left. split; [lia|]. split; [reflexivity|]. rewrite tval_uint. exact E.
  - exists (uint_text (Pos.to_uint p)). split.
    { pose proof (Unsigned.to_uint_nonnil p) as T. destruct (Pos.to_uint p); cbn [uint_text]; congruence. }
    split; [apply uint_text_digits|]. right. split; [lia|]. split; [reflexivity|]. rewrite tval_uint. cbn [Z.of_int] in E. lia.
Qed.

(** ** C67 *)
Lemma read_digits ds : Forall is_digit ds -> forall sign cur rest,
  (cur <> None \/ ds <> []) ->
  read_initialiser sign cur (ds ++ 44 :: rest) =
  option_map (cons (signed sign (tval (match cur with Some v => v | None => 0 end) ds))) (read_initialiser false None rest).
Proof.
  induction 1 as [|c ds Hc Hds IH]; intros sign cur rest NE; cbn [app].
  - destruct NE as [NE|NE]; [|congruence]. destruct cur as [v|]; [|congruence]. reflexivity.
  - cbn [read_initialiser]. unfold is_digit in Hc.
    destruct (Z.eqb_spec c 125); [lia|]. destruct (Z.eqb_spec c 32); [lia|]. destruct (Z.eqb_spec c 10); [lia|]. cbn [orb].
    destruct (Z.eqb_spec c 45); [lia|]. destruct (Z.eqb_spec c 44); [lia|].
    destruct (Z.leb_spec 48 c); [|lia]. destruct (Z.leb_spec c 57); [|lia]. cbn [andb].
    rewrite IH by (left; discriminate). f_equal. f_equal. f_equal. unfold tval. cbn [fold_left]. f_equal.
    destruct cur as [v|]; lia.
Qed.
Lemma read_value v rest : read_initialiser false None (decimal v ++ 44 :: rest) = option_map (cons v) (read_initialiser false None rest).
Proof.
  destruct (decimal_spec v) as (ds & NE & D & [(S & -> & V)|(S & -> & V)]).
  - rewrite read_digits by auto. cbn [signed]. rewrite V. reflexivity.
  - cbn [app read_initialiser]. change (45 =? 125) with false. change ((45 =? 32) || (45 =? 10))%bool with false.
    change (45 =? 45) with true. cbv iota. rewrite read_digits by auto. cbn [signed]. rewrite V, Z.opp_involutive. reflexivity.
Qed.
Lemma read_values : forall bytes line rest,
  read_initialiser false None (values_text line bytes ++ rest) =
  match read_initialiser false None rest with Some l => Some (bytes ++ l) | None => None end.
Proof.
  induction bytes as [|b bytes IH]; intros line rest; cbn [values_text app].
  - destruct (read_initialiser false None rest); reflexivity.
  - change (codes ", ") with [44; 32]. rewrite <- app_assoc. cbn [app]. rewrite read_value. cbn [read_initialiser].
    change (32 =? 125) with false. change ((32 =? 32) || (32 =? 10))%bool with true. cbv iota zeta.
    destruct (80 <? Z.of_nat (S line)).
    + unfold newline. cbn [app]. cbn [read_initialiser]. change (10 =? 125) with false. change ((10 =? 32) || (10 =? 10))%bool with true. cbv iota.
      rewrite IH. destruct (read_initialiser false None rest); reflexivity.
    + rewrite IH. destruct (read_initialiser false None rest); reflexivity.
Qed.
(** The array of the generated C file is exactly the bytes of the weights (after the tile server header in tile memory). *)
Theorem C67_array_text : forall external tensors,
  read_array (array_c_text external tensors) =
  Some (if external then List.concat tensors
        else [1; 2; -2; -3; 0; 0; 0; 0; 20; 0; 0; 0; 0; 0; 0; 0; 0; 0; 0; 0] ++ List.concat tensors).
Proof.
  intros external tensors. unfold read_array, array_c_text.
  set (bytes := List.concat (if external then tensors else tile_ram_header :: tensors)).
  assert (A : after 123 (codes "#include <stdint.h>" ++ newline ++ newline ++
      (if external then codes "__attribute__ ((section(" ++ [34] ++ codes ".ExtMem.data" ++ [34] ++ codes ")))" ++ newline else []) ++
      codes "const int8_t weights[] = {" ++ newline ++ values_text 0 bytes ++ codes "};" ++ newline)
    = newline ++ values_text 0 bytes ++ codes "};" ++ newline).
  { generalize (newline ++ values_text 0 bytes ++ codes "};" ++ newline). intros r. destruct external; reflexivity. }
  rewrite A. change (newline ++ values_text 0 bytes ++ codes "};" ++ newline) with (10 :: values_text 0 bytes ++ codes "};" ++ newline).
  cbn [read_initialiser]. change (10 =? 125) with false. change ((10 =? 32) || (10 =? 10))%bool with true. cbv iota.
  rewrite read_values. change (read_initialiser false None (codes "};" ++ newline)) with (Some (@nil Z)). cbv beta iota. rewrite app_nil_r.
  unfold bytes. destruct external; reflexivity.
Qed.
Lemma read_unsigned_digits ds : Forall is_digit ds -> forall acc rest, read_unsigned acc (ds ++ 85 :: rest) = Some (tval acc ds).
Proof.
  induction 1 as [|c ds Hc Hds IH]; intros acc rest; cbn [app read_unsigned]; [reflexivity|]. unfold is_digit in Hc.
  destruct (Z.eqb_spec c 85); [lia|]. destruct (Z.leb_spec 48 c); [|lia]. destruct (Z.leb_spec c 57); [|lia]. cbn [andb]. rewrite IH. reflexivity.
Qed.
(** The header states the number of bytes of that array. *)
Theorem C67_size_text : forall external tensors l,
  read_array (array_c_text external tensors) = Some l -> Z.of_nat (List.length l) < 2147483648 ->
  read_size (array_h_text external tensors) = Some (Z.of_nat (List.length l)).
Proof.
  intros external tensors l R B. rewrite C67_array_text in R. injection R as R.
  assert (L : List.length (List.concat (if external then tensors else tile_ram_header :: tensors)) = List.length l) by (subst l; destruct external; reflexivity).
  unfold read_size, array_h_text. rewrite L.
  assert (I : int32 (Z.of_nat (List.length l)) = Z.of_nat (List.length l)) by (unfold int32; rewrite Z.mod_small; lia).
  rewrite I. set (n := Z.of_nat (List.length l)) in *.
  assert (A : forall r, after 40 (codes "#ifndef WEIGHTSGEN_H" ++ newline ++ codes "#define WEIGHTSGEN_H" ++ newline ++ newline ++
    codes "#define WEIGHTS_SIZE (" ++ r) = r) by (intros r; reflexivity).
  rewrite A. change (codes "U)") with [85; 41]. destruct (decimal_spec n) as (ds & NE & D & [(S & -> & V)|(S & _)]); [|unfold n in S; lia].
  cbn [app]. rewrite read_unsigned_digits by exact D. rewrite V. reflexivity.
Qed.
Example C67_example : read_array (array_c_text true [[-128; 127]; []; [0; -1; 10]]) = Some [-128; 127; 0; -1; 10] /\
  read_size (array_h_text false [[5; 6; 7]]) = Some 23.
Proof. split; vm_compute; reflexivity. Qed.

(** ** C65: the command line *)
(** An option name: not empty, no equals sign, does not start with a dash. *)
Definition option_name (k : list Z) : Prop := k <> [] /\ ~ In 61 k /\ hd 0 k <> 45.
Lemma split_equals_name k : ~ In 61 k -> split_equals k = (k, None).
Proof.
  induction k as [|c k IH]; intros H; cbn [split_equals]; [reflexivity|].
  destruct (Z.eqb_spec c 61); [exfalso; apply H; left; congruence|]. rewrite IH by (intros I; apply H; right; exact I). reflexivity.
Qed.
Lemma split_equals_value k v : ~ In 61 k -> split_equals (k ++ 61 :: v) = (k, Some v).
Proof.
  induction k as [|c k IH]; intros H; cbn [split_equals app]; [reflexivity|].
  destruct (Z.eqb_spec c 61); [exfalso; apply H; left; congruence|]. rewrite IH by (intros I; apply H; right; exact I). reflexivity.
Qed.
Definition body (a : list Z) : option (list Z) :=
  match a with 45 :: 45 :: b => Some b | 45 :: c :: b => Some (c :: b) | _ => None end.
Lemma parse_cons needs a rest : parse_command_line needs (a :: rest) =
  match body a with
  | None => match parse_command_line needs rest with Some (o, p) => Some (o, a :: p) | None => None end
  | Some b =>
      match split_equals b with
      | (k, Some v) => match parse_command_line needs rest with Some (o, p) => Some ((k, Some v) :: o, p) | None => None end
      | (k, None) =>
        if needs k then
          match rest with
          | [] => None
          | v :: rest' => match parse_command_line needs rest' with Some (o, p) => Some ((k, Some v) :: o, p) | None => None end
          end
        else match parse_command_line needs rest with Some (o, p) => Some ((k, None) :: o, p) | None => None end
      end
  end.
Proof. reflexivity. Qed.
Lemma body_single c b : c <> 45 -> body (45 :: c :: b) = Some (c :: b).
Proof.
  intros N. unfold body. destruct c as [|p|p]; try reflexivity.
  destruct (Z.eq_dec (Z.pos p) 45) as [E|_]; [contradiction|].
  repeat (destruct p as [p|p|]; try reflexivity). exfalso. apply N. reflexivity.
Qed.
Lemma body_flag k x : option_name k -> body (flag k ++ x) = Some (k ++ x).
Proof.
  intros (NE & _ & H). unfold flag. destruct k as [|c [|d k]]; [congruence| |].
  - cbn [List.length Nat.ltb Nat.leb]. cbn [hd] in H. change (codes "-") with [45]. cbn [app]. apply body_single. exact H.
  - replace (1 <? List.length (c :: d :: k))%nat with true by reflexivity. change (codes "--") with [45; 45]. reflexivity.
Qed.
(** What xcore-opt is told to do: the output file, the parameters as given (None and "" are bare flags), the model. *)
Theorem C65_command_line_partial : forall needs_value filename outfile params,
  needs_value (codes "o") = true -> hd 0 filename <> 45 ->
  (forall k v, In (k, v) params -> option_name k /\ (v = None \/ v = Some [] -> needs_value k = false)) ->
  parse_command_line needs_value (tl (convert_args filename outfile params)) =
  Some ((codes "o", Some outfile) ::
        map (fun p => (fst p, match snd p with Some (c :: v) => Some (c :: v) | _ => None end)) params, [filename]).
Proof.
  intros needs filename outfile params NO HF HP. unfold convert_args. cbn [tl]. rewrite parse_cons.
  change (body (codes "-o")) with (Some [111]). cbv iota beta. change (split_equals [111]) with ([111], @None (list Z)). cbv iota beta.
  change (codes "o") with [111] in NO |- *. unfold text in *. rewrite NO.
  assert (G : parse_command_line needs (map argument params ++ [filename]) =
    Some (map (fun p => (fst p, match snd p with Some (c :: v) => Some (c :: v) | _ => None end)) params, [filename])).
  { induction params as [|[k v] params IH]; cbn [map app].
    - rewrite parse_cons. replace (body filename) with (@None (list Z)); [reflexivity|].
      destruct filename as [|c f]; [reflexivity|]. cbn [hd] in HF. unfold body. destruct c as [|p|p]; try reflexivity.
      repeat (destruct p as [p|p|]; try reflexivity). exfalso. apply HF. reflexivity.
    - destruct (HP k v (or_introl eq_refl)) as [ON NV]. assert (ON' := ON). destruct ON' as (_ & NI & _).
      rewrite parse_cons. rewrite IH by (intros k' v' I; apply HP; right; exact I). unfold argument. cbn [fst snd].
      destruct v as [[|c v]|].
      + rewrite <- (app_nil_r (flag k)). rewrite body_flag by exact ON. rewrite app_nil_r, split_equals_name by exact NI.
        rewrite NV by (right; reflexivity). reflexivity.
      + change (codes "=") with [61]. rewrite body_flag by exact ON. cbn [app]. rewrite split_equals_value by exact NI. reflexivity.
      + rewrite <- (app_nil_r (flag k)). rewrite body_flag by exact ON. rewrite app_nil_r, split_equals_name by exact NI.
        rewrite NV by (left; reflexivity). reflexivity. }
  cbv iota beta. unfold text in *. rewrite G. reflexivity.
Qed.
(** Exactly then: as soon as one option that requires a value is given without one, something else is parsed. *)
Theorem C65_command_line_exactly_when : forall needs_value filename outfile params,
  needs_value (codes "o") = true -> hd 0 filename <> 45 -> (forall k v, In (k, v) params -> option_name k) ->
  (parse_command_line needs_value (tl (convert_args filename outfile params)) =
   Some ((codes "o", Some outfile) ::
         map (fun p => (fst p, match snd p with Some (c :: v) => Some (c :: v) | _ => None end)) params, [filename])
   <-> forall k v, In (k, v) params -> v = None \/ v = Some [] -> needs_value k = false).
Proof.
  intros needs filename outfile params NO HF HN. split.
  2: { intros H. apply C65_command_line_partial; auto. intros k v I. split; [eapply HN; eauto|eapply H; eauto]. }
  unfold convert_args. cbn [tl]. rewrite parse_cons.
  change (body (codes "-o")) with (Some [111]). cbv iota beta. change (split_equals [111]) with ([111], @None (list Z)). cbv iota beta.
  change (codes "o") with [111] in NO |- *. unfold text in *. rewrite NO. intros H.
  assert (G : parse_command_line needs (map argument params ++ [filename]) =
    Some (map (fun p => (fst p, match snd p with Some (c :: v) => Some (c :: v) | _ => None end)) params, [filename])).
  { match type of H with match ?X with _ => _ end = _ => destruct X as [[o p]|] eqn:E; [|discriminate H] end. injection H as -> ->. exact E. }
  clear H. induction params as [|[k v] params IH]; [intros k v []|]. cbn [map app fst snd] in G. rewrite parse_cons in G.
  pose proof (HN k v (or_introl eq_refl)) as ON. assert (ON' := ON). destruct ON' as (_ & NI & _).
  assert (Tail : (parse_command_line needs (map argument params ++ [filename]) =
     Some (map (fun p => (fst p, match snd p with Some (c :: v) => Some (c :: v) | _ => None end)) params, [filename])) ->
     (v = None \/ v = Some [] -> needs k = false) ->
     forall k' v', In (k', v') ((k, v) :: params) -> v' = None \/ v' = Some [] -> needs k' = false).
  { intros T F k' v' [E|I] D; [injection E as <- <-; auto|]. apply (IH (fun a b J => HN a b (or_intror J)) T k' v' I D). }
  assert (Bare : (v = None \/ v = Some []) -> argument (k, v) = flag k) by (intros [-> | ->]; reflexivity).
  destruct v as [[|c v]|].
  1, 3: rewrite Bare in G by auto; rewrite <- (app_nil_r (flag k)), body_flag, app_nil_r, split_equals_name in G by assumption; destruct (needs k) eqn:E;
    [exfalso; destruct (map argument params ++ [filename]) as [|a rest]; [discriminate G|];
     match type of G with match ?X with _ => _ end = _ => destruct X as [[o p]|]; discriminate G end|].
  1, 2: apply Tail; auto; match type of G with match ?X with _ => _ end = _ => destruct X as [[o p]|] eqn:Q; [|discriminate G] end; injection G as -> ->; first [exact Q|reflexivity].
  unfold argument in G. cbn [fst snd] in G. change (codes "=") with [61] in G. rewrite body_flag in G by exact ON. cbn [app] in G. rewrite split_equals_value in G by exact NI.
  apply Tail; [|intros [D|D]; discriminate].
  match type of G with match ?X with _ => _ end = _ => destruct X as [[o p]|] eqn:Q; [|discriminate G] end. injection G as -> ->. first [exact Q|reflexivity].
Qed.
Example C65_command_line_example :
  map (fun a => a) (convert_args (codes "in.tflite") (codes "out") [(codes "xcore-thread-count", Some (codes "5")); (codes "h", None)]) =
  [codes "xcore-opt"; codes "-o"; codes "out"; codes "--xcore-thread-count=5"; codes "-h"; codes "in.tflite"].
Proof. vm_compute. reflexivity. Qed.
(** A value that is the empty string is lost for an option that requires a value: the option takes the next argument, here the model
    file, and no model is left. *)
Theorem C65_refuted_empty_value : exists needs, needs (codes "o") = true /\
  parse_command_line needs (tl (convert_args (codes "in.tflite") (codes "out") [(codes "xcore-weights-file", Some [])])) =
  Some ([(codes "o", Some (codes "out")); (codes "xcore-weights-file", Some (codes "in.tflite"))], []).
Proof. exists (fun _ => true). split; vm_compute; reflexivity. Qed.

(** ** C65: the arena size *)
Lemma digits_value_spec ds : Forall is_digit ds -> forall acc, digits_value acc ds = Some (tval acc ds).
Proof.
  induction 1 as [|c ds Hc Hds IH]; intros acc; cbn [digits_value]; [reflexivity|]. unfold is_digit in Hc.
  destruct (Z.leb_spec 48 c); [|lia]. destruct (Z.leb_spec c 57); [|lia]. cbn [andb]. rewrite IH. reflexivity.
Qed.
Lemma strip_prefix_app p r : strip_prefix p (p ++ r) = Some r.
Proof. induction p as [|a p IH]; cbn [strip_prefix app]; [destruct r; reflexivity|]. rewrite Z.eqb_refl. exact IH. Qed.
Lemma strip_prefix_inv p : forall t r, strip_prefix p t = Some r -> t = p ++ r.
Proof.
  induction p as [|a p IH]; intros t r H; cbn [strip_prefix] in H; [destruct t; injection H as <-; reflexivity|].
  destruct t as [|b t]; [discriminate|]. destruct (Z.eqb_spec a b); [|discriminate]. subst b. cbn [app]. f_equal. apply IH. exact H.
Qed.
Lemma after_last_none t : ~ contains marker t -> after_last t = None.
Proof.
  induction t as [|c t IH]; intros H; cbn [after_last]; [reflexivity|].
  rewrite IH.
  - destruct (strip_prefix marker (c :: t)) as [r|] eqn:E; [|reflexivity]. exfalso. apply H. exists [], r. apply strip_prefix_inv in E. exact E.
  - intros (a & b & E). apply H. exists (c :: a), b. rewrite E. reflexivity.
Qed.
Lemma after_last_app a t r : after_last t = Some r -> after_last (a ++ t) = Some r.
Proof. induction a as [|c a IH]; intros H; cbn [app after_last]; [exact H|]. rewrite IH by exact H. reflexivity. Qed.
(** Nothing that starts with another character than the first of the marker can hide an occurrence. *)
Lemma after_last_skip c t : c <> 84 -> after_last t = None -> after_last (c :: t) = None.
Proof.
  intros N H. cbn [after_last]. rewrite H. change marker with (84 :: tl marker). cbn [strip_prefix].
  destruct (Z.eqb_spec 84 c); [congruence|reflexivity].
Qed.
Lemma after_last_skips a t : Forall (fun c => c <> 84) a -> after_last t = None -> after_last (a ++ t) = None.
Proof. induction 1; intros Hn; cbn [app]; [exact Hn|]. apply after_last_skip; auto. Qed.
Lemma first_line_app a c t : Forall (fun x => x <> 10 /\ x <> 13) a -> c = 10 \/ c = 13 -> first_line (a ++ c :: t) = a.
Proof.
  intros H C. induction H as [|x a [H1 H2] Ha IH]; cbn [app first_line].
  - destruct C as [-> | ->]; reflexivity.
  - destruct (Z.eqb_spec x 10); [contradiction|]. destruct (Z.eqb_spec x 13); [contradiction|]. cbn [orb]. rewrite IH. reflexivity.
Qed.
Lemma digit_not_space c : is_digit c -> is_space c = false.
Proof. unfold is_digit, is_space. intros. destruct (Z.eqb_spec c 32); [lia|]. cbn [orb]. lia. Qed.
Lemma lstrip_digits ds : Forall is_digit ds -> lstrip ds = ds.
Proof. destruct 1 as [|c ds Hc]; [reflexivity|]. cbn [lstrip]. rewrite digit_not_space by exact Hc. reflexivity. Qed.

(** The size read is the number on the last line that announces it, whatever the compiler prints before and after. *)
Theorem C65_arena_size : forall before ds after_line, ds <> [] -> Forall is_digit ds -> ~ contains marker after_line ->
  parse_arena_size (before ++ codes "Tensor arena size : " ++ ds ++ 10 :: after_line) = Some (tval 0 ds).
Proof.
  intros pre ds post NE D NC. unfold parse_arena_size, remove_up_to_marker.
  change (codes "Tensor arena size : ") with (marker ++ [32]). rewrite <- app_assoc. cbn [app].
  set (rest := 32 :: ds ++ 10 :: post).
  assert (N : after_last rest = None).
  { unfold rest. apply after_last_skip; [lia|]. apply after_last_skips; [|apply after_last_skip; [lia|apply after_last_none; exact NC]].
    eapply Forall_impl; [|exact D]. intros c Hc. unfold is_digit in Hc. lia. }
  assert (M : after_last (marker ++ rest) = Some rest).
  { change (marker ++ rest) with (84 :: tl marker ++ rest). cbn [after_last].
    rewrite (after_last_skips (tl marker) rest); [|vm_compute; repeat constructor; discriminate|exact N].
    change (84 :: tl marker ++ rest) with (marker ++ rest). apply strip_prefix_app. }
  rewrite (after_last_app pre _ _ M).
  assert (F : first_line rest = 32 :: ds).
  { unfold rest. change (32 :: ds ++ 10 :: post) with ((32 :: ds) ++ 10 :: post). apply first_line_app; [|left; reflexivity].
    constructor; [lia|]. eapply Forall_impl; [|exact D]. intros c Hc. unfold is_digit in Hc. lia. }
  rewrite F. unfold strip. cbn [lstrip]. change (is_space 32) with true. cbv iota. rewrite (lstrip_digits ds D).
  rewrite lstrip_digits by (apply Forall_rev; exact D). rewrite rev_involutive.
  unfold py_int. destruct ds as [|c ds]; [congruence|]. assert (Hc := Forall_inv D). unfold is_digit in Hc.
  rewrite <- (digits_value_spec _ D 0).
  destruct c as [|p|p]; try lia. do 6 (destruct p as [p|p|]; try lia; try reflexivity).
Qed.
(** Blanks that Python strips from a line. *)
Definition blank (c : Z) : Prop := c = 9 \/ c = 11 \/ c = 12 \/ c = 32 \/ 28 <= c <= 31.
Lemma blank_space c : blank c -> is_space c = true.
Proof. unfold blank, is_space. intros H. rewrite !orb_true_iff, !andb_true_iff, Z.eqb_eq, !Z.leb_le. lia. Qed.
Lemma lstrip_blanks b t : Forall blank b -> lstrip (b ++ t) = lstrip t.
Proof. induction 1 as [|c b Hc Hb IH]; [reflexivity|]. cbn [app lstrip]. rewrite blank_space by exact Hc. exact IH. Qed.
(** The rest of the announcing line: any blanks, the sign, the digits, any blanks. *)
Theorem C65_arena_size_line : forall before b1 sign ds b2 after_line, ds <> [] -> Forall is_digit ds -> Forall blank b1 -> Forall blank b2 ->
  sign = [] \/ sign = [43] \/ sign = [45] -> ~ contains marker after_line ->
  parse_arena_size (before ++ codes "Tensor arena size :" ++ b1 ++ sign ++ ds ++ b2 ++ 10 :: after_line) =
  Some (if list_eq_dec Z.eq_dec sign [45] then - tval 0 ds else tval 0 ds).
Proof.
  intros pre b1 sign ds b2 post NE D B1 B2 SG NC. unfold parse_arena_size, remove_up_to_marker.
  change (codes "Tensor arena size :") with marker.
  set (rest := b1 ++ sign ++ ds ++ b2 ++ 10 :: post).
  assert (NB : forall b, Forall blank b -> Forall (fun c => c <> 84) b).
  { intros b. apply Forall_impl. intros c Hc. unfold blank in Hc. lia. }
  assert (ND : Forall (fun c => c <> 84) ds) by (eapply Forall_impl; [|exact D]; intros c Hc; unfold is_digit in Hc; lia).
  assert (N : after_last rest = None).
  { unfold rest. apply after_last_skips; [exact (NB b1 B1)|]. apply after_last_skips.
    { destruct SG as [-> | [-> | ->]]; repeat constructor; lia. }
    apply after_last_skips; [exact ND|]. apply after_last_skips; [exact (NB b2 B2)|]. apply after_last_skip; [lia|]. apply after_last_none. exact NC. }
  assert (M : after_last (marker ++ rest) = Some rest).
  { change (marker ++ rest) with (84 :: tl marker ++ rest). cbn [after_last].
    rewrite (after_last_skips (tl marker) rest); [|vm_compute; repeat constructor; discriminate|exact N].
    change (84 :: tl marker ++ rest) with (marker ++ rest). apply strip_prefix_app. }
  rewrite (after_last_app pre _ _ M).
  assert (Lb : forall b, Forall blank b -> Forall (fun x => x <> 10 /\ x <> 13) b).
  { intros b. apply Forall_impl. intros c Hc. unfold blank in Hc. lia. }
  assert (F : first_line rest = b1 ++ sign ++ ds ++ b2).
  { unfold rest. rewrite !app_assoc. rewrite first_line_app; [reflexivity| |left; reflexivity].
    rewrite !Forall_app. split; [split; [split; [exact (Lb b1 B1)|destruct SG as [-> | [-> | ->]]; repeat constructor; lia]|]|exact (Lb b2 B2)].
    eapply Forall_impl; [|exact D]. intros c Hc. unfold is_digit in Hc. lia. }
  rewrite F. unfold strip. rewrite lstrip_blanks by exact B1.
  assert (S1 : forall t, lstrip (sign ++ ds ++ t) = sign ++ ds ++ t).
  { intros t. destruct SG as [-> | [-> | ->]]; [|reflexivity|reflexivity]. cbn [app]. destruct ds as [|c ds]; [congruence|].
    cbn [app lstrip]. rewrite digit_not_space by exact (Forall_inv D). reflexivity. }
  rewrite S1. rewrite !rev_app_distr. rewrite <- app_assoc. rewrite lstrip_blanks by (apply Forall_rev; exact B2).
  assert (S2 : forall t, lstrip (List.rev ds ++ t) = List.rev ds ++ t).
  { intros t. assert (Dr := Forall_rev D). destruct (List.rev ds) as [|c l] eqn:E; [|cbn [app lstrip]; rewrite digit_not_space by exact (Forall_inv Dr); reflexivity].
    exfalso. apply NE. apply (f_equal (@List.rev Z)) in E. rewrite rev_involutive in E. exact E. }
  rewrite S2, rev_app_distr, !rev_involutive.
  destruct SG as [-> | [-> | ->]]; cbn [app].
  - destruct (list_eq_dec Z.eq_dec [] [45]) as [X|X]; [discriminate X|]. destruct ds as [|c ds]; [congruence|]. assert (Hc := Forall_inv D). unfold is_digit in Hc.
    unfold py_int. destruct c as [|p|p]; try lia.
    do 6 (destruct p as [p|p|]; try lia; try exact (digits_value_spec _ D 0)).
  - destruct (list_eq_dec Z.eq_dec [43] [45]) as [X|X]; [discriminate X|]. unfold py_int.
    destruct ds as [|c ds]; [congruence|]. exact (digits_value_spec _ D 0).
  - destruct (list_eq_dec Z.eq_dec [45] [45]) as [X|X]; [|congruence]. unfold py_int. destruct ds as [|c ds]; [congruence|].
    rewrite (digits_value_spec _ D 0). reflexivity.
Qed.
(** Anything else before the number makes the call raise. *)
Theorem C65_not_a_number : forall b c t, Forall blank b -> ~ blank c -> c <> 10 -> c <> 13 -> ~ is_digit c -> c <> 43 -> c <> 45 ->
  after_last (b ++ c :: t) = None -> parse_arena_size (marker ++ b ++ c :: t) = None.
Proof.
  intros b c t B NBc N10 N13 ND N43 N45 N. unfold parse_arena_size, remove_up_to_marker.
  assert (M : after_last (marker ++ b ++ c :: t) = Some (b ++ c :: t)).
  { change (marker ++ b ++ c :: t) with (84 :: tl marker ++ b ++ c :: t). cbn [after_last].
    rewrite (after_last_skips (tl marker)); [|vm_compute; repeat constructor; discriminate|exact N].
    change (84 :: tl marker ++ b ++ c :: t) with (marker ++ b ++ c :: t). apply strip_prefix_app. }
  rewrite M.
  assert (F : exists t', first_line (b ++ c :: t) = b ++ c :: t').
  { clear M N. induction B as [|x b Hx Hb IH].
    - cbn [app first_line]. destruct (Z.eqb_spec c 10); [lia|]. destruct (Z.eqb_spec c 13); [lia|]. cbn [orb]. eexists; reflexivity.
    - cbn [app first_line]. unfold blank in Hx. destruct (Z.eqb_spec x 10); [lia|]. destruct (Z.eqb_spec x 13); [lia|]. cbn [orb].
      destruct IH as [t' ->]. exists t'. reflexivity. }
  destruct F as [t' ->]. unfold strip. rewrite lstrip_blanks by exact B.
  assert (SC : is_space c = false).
  { unfold is_space. unfold blank in NBc. destruct (Z.eqb_spec c 32); [lia|]. cbn [orb].
    destruct (Z.leb_spec 9 c), (Z.leb_spec c 13), (Z.leb_spec 28 c), (Z.leb_spec c 31); cbn; try reflexivity; lia. }
  cbn [lstrip]. rewrite SC. cbn [List.rev].
  assert (E : exists u, lstrip (List.rev t' ++ [c]) = u ++ [c]).
  { generalize (List.rev t'). intros l. induction l as [|x l IH]; [exists []; cbn [app lstrip]; rewrite SC; reflexivity|].
    cbn [app lstrip]. destruct (is_space x); [exact IH|]. exists (x :: l). reflexivity. }
  destruct E as [u ->]. rewrite rev_app_distr. cbn [List.rev app].
  assert (V : digits_value 0 (c :: List.rev u) = None).
  { cbn [digits_value]. unfold is_digit in ND. destruct (Z.leb_spec 48 c); [|reflexivity]. destruct (Z.leb_spec c 57); [|reflexivity]. lia. }
  unfold py_int. destruct c as [|p|p]; try exact V. do 6 (destruct p as [p|p|]; try exact V; try (exfalso; lia)).
Qed.
(** The number the compiler prints is read back. *)
Corollary C65_arena_size_printed : forall before n after_line, 0 <= n -> ~ contains marker after_line ->
  parse_arena_size (before ++ codes "Tensor arena size : " ++ decimal n ++ 10 :: after_line) = Some n.
Proof.
  intros pre n post Hn NC. destruct (decimal_spec n) as (ds & NE & D & [(S & E & V)|(S & _)]); [|lia].
  rewrite E, C65_arena_size by assumption. rewrite V. reflexivity.
Qed.
(** A history of calls: [tensor_arena_size] is the size printed by the last call that did not raise, 0 when there is none. *)
Record call := Call { run : list text -> Z * text; model : text; output : text; options : list (text * option text) }.
Definition outcome (c : call) : Z * text := run c (convert_args (model c) (output c) (options c)).
Definition step (s : module_state) (c : call) : module_state := snd (convert (run c) (model c) (output c) (options c) s).
(** The compiler succeeded and printed the size [n]. *)
Definition printed (c : call) (n : Z) : Prop := 0 <= n /\ exists before after_line, ~ contains marker after_line /\
  outcome c = (0, before ++ codes "Tensor arena size : " ++ decimal n ++ 10 :: after_line).
Definition raises (c : call) : Prop := forall s k, fst (convert (run c) (model c) (output c) (options c) s) <> Returned k.
Lemma raises_keeps c s : raises c -> arena_size (step s c) = arena_size s.
Proof.
  unfold raises, step, convert. intros R. specialize (R s). destruct (run c _) as [code out]. destruct (negb (code =? 0)); [reflexivity|].
  destruct (parse_arena_size out); [|reflexivity]. exfalso. exact (R code eq_refl).
Qed.
Theorem C65_history : forall earlier later c n, printed c n -> (forall d, In d later -> raises d) ->
  (forall s, fst (convert (run c) (model c) (output c) (options c) s) = Returned 0) /\
  arena_size (fold_left step (earlier ++ c :: later) initial_state) = n.
Proof.
  intros earlier later c n (Hn & pre & post & NC & O) R. unfold outcome in O. split.
  - intros s. unfold convert. rewrite O. cbn [negb]. rewrite C65_arena_size_printed by assumption. reflexivity.
  - rewrite fold_left_app. cbn [fold_left]. generalize (fold_left step earlier initial_state). intros s.
    assert (A : arena_size (step s c) = n).
    { unfold step, convert. rewrite O. cbn [negb]. rewrite C65_arena_size_printed by assumption. reflexivity. }
    revert A. generalize (step s c). induction later as [|d later IH]; intros s' A; cbn [fold_left]; [exact A|].
    apply IH; [intros e I; apply R; right; exact I|]. rewrite raises_keeps by (apply R; left; reflexivity). exact A.
Qed.
(** A failing compilation raises; so does a successful one that does not print a size. *)
Theorem C65_raises : forall c, fst (outcome c) <> 0 \/ ~ contains marker (snd (outcome c)) /\ (forall d l, strip (first_line (snd (outcome c))) = d :: l -> ~ is_digit d /\ d <> 43 /\ d <> 45) -> raises c.
Proof.
  intros c H s k. unfold convert. unfold outcome in H. destruct (run c _) as [code out]. cbn [fst snd] in H.
  destruct (Z.eqb_spec code 0); cbn [negb]; [|discriminate]. destruct H as [H|[NC F]]; [contradiction|].
  replace (parse_arena_size out) with (@None Z); [discriminate|].
  unfold parse_arena_size, remove_up_to_marker. rewrite after_last_none by exact NC.
  destruct (strip (first_line out)) as [|d l]; [reflexivity|]. destruct (F d l eq_refl) as (F1 & F2 & F3). unfold py_int.
  assert (V : digits_value 0 (d :: l) = None).
  { cbn [digits_value]. unfold is_digit in F1. destruct (Z.leb_spec 48 d); [|reflexivity]. destruct (Z.leb_spec d 57); [|reflexivity]. lia. }
  symmetry. destruct d as [|p|p]; try exact V. do 6 (destruct p as [p|p|]; try exact V; try (exfalso; lia)).
Qed.
Example C65_example :
  let run := fun _ : list text => (0, codes "warning: 12" ++ newline ++ codes "Tensor arena size : 130048" ++ newline) in
  fold_left step [Call run (codes "a") (codes "b") []; Call (fun _ => (1, codes "Tensor arena size : 1")) (codes "a") (codes "b") []] initial_state =
  State (snd (run [])) 130048.
Proof. vm_compute. reflexivity. Qed.

Print Assumptions C65_command_line_partial.
Print Assumptions C65_command_line_exactly_when.
Print Assumptions C65_arena_size.
Print Assumptions C65_arena_size_line.
Print Assumptions C65_not_a_number.
Print Assumptions C65_history.
Print Assumptions C67_array_text.
Print Assumptions C67_size_text.
