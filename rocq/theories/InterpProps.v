(** C55, C56: the host interpreter. *)
From Coq Require Import List ZArith Bool Arith Lia.
Import ListNotations.
From Verif Require Import InterpModel.

(** * Specification *)
(** Calls of the user on an interpreter with one model. *)
Inductive op :=
  | SetTensor (pos : nat) (value : list Z)
  | Invoke
  | GetTensor (tensor : nat)
  | GetInput (pos : nat).
(** What the user sees. *)
Inductive seen := Nothing | Data (d : list Z) | Failure.

(** The network as a function, with the current inputs and the outputs of the last run. *)
Record ideal := Ideal { inputs : list (list Z); outputs : list (list Z) }.
Definition set_nth (k : nat) (v : list Z) (l : list (list Z)) : list (list Z) := firstn k l ++ v :: skipn (S k) l.
Fixpoint position (t : nat) (l : list nat) : nat :=
  match l with [] => 0 | t' :: tl => if Nat.eqb t t' then 0 else S (position t tl) end.
Definition ideal_step (m : model) (params : list Z) (s : ideal) (o : op) : ideal * seen :=
  match o with
  | SetTensor k v => (Ideal (set_nth k v (inputs s)) (outputs s), Nothing)
  | Invoke => (Ideal (inputs s) (m_run m params (inputs s)), Nothing)
  | GetTensor t => (s, Data (nth (position t (m_outputs m)) (outputs s) []))
  | GetInput k => (s, Data (nth k (inputs s) []))
  end.
Fixpoint ideal_run (m : model) (params : list Z) (s : ideal) (ops : list op) : list seen :=
  match ops with
  | [] => []
  | o :: tl => let '(s', x) := ideal_step m params s o in x :: ideal_run m params s' tl
  end.

Definition tensor_bytes (m : model) (t : nat) : nat := true_bytes (m_type m t) * elements (m_shape m t).
Definition supported (t : dtype) : Prop := match t with OTHER _ => False | _ => True end.
(** A model the Python code can handle, whose network gives outputs of the declared sizes. *)
Definition sound_model (m : model) : Prop :=
  (forall t, In t (m_inputs m ++ m_outputs m) -> supported (m_type m t)) /\
  forall p ins, map (@length Z) ins = map (tensor_bytes m) (m_inputs m) ->
                map (@length Z) (m_run m p ins) = map (tensor_bytes m) (m_outputs m).
(** Correct use: existing tensors, values of the size of the tensor. *)
Definition proper (m : model) (o : op) : Prop :=
  match o with
  | SetTensor k v => exists t, nth_error (m_inputs m) k = Some t /\ length v = tensor_bytes m t
  | Invoke => True
  | GetTensor t => In t (m_outputs m)
  | GetInput k => k < length (m_inputs m)
  end.

(** The calls on the real interpreter. *)
Definition call (st : interp) (o : op) : interp * seen :=
  match o with
  | SetTensor k v => match set_tensor st k v with Ok s => (s, Nothing) | _ => (st, Failure) end
  | Invoke => match invoke st with Ok s => (s, Nothing) | _ => (st, Failure) end
  | GetTensor t => match get_tensor st t None with Ok d => (st, Data d) | _ => (st, Failure) end
  | GetInput k => match get_input_tensor st k 0 with Ok d => (st, Data d) | _ => (st, Failure) end
  end.
Fixpoint calls (st : interp) (ops : list op) : list seen :=
  match ops with
  | [] => []
  | o :: tl => let '(s', x) := call st o in x :: calls s' tl
  end.

(** * Proofs *)
Lemma fold_mul s : forall a, fold_left Nat.mul s a = a * elements s.
Proof. unfold elements. induction s as [|x s IH]; intros a; cbn [fold_left fold_right]; [lia|]. rewrite IH. lia. Qed.
Lemma py_size_ok m t : supported (m_type m t) -> py_size m t = Ok (tensor_bytes m t).
Proof. unfold py_size, tensor_bytes. destruct (m_type m t); cbn [true_bytes supported]; intros H; [| | | |contradiction]; rewrite fold_mul; reflexivity. Qed.
Lemma update_set {k} v (l : list (list Z)) : k < length l -> update k v l = set_nth k v l.
Proof.
  unfold set_nth. revert k. induction l as [|x l IH]; intros [|k] Hk; cbn [update firstn skipn app length] in *; try lia; [reflexivity|].
  rewrite IH by lia. reflexivity.
Qed.
Lemma details_ok m outs : (forall t, In t outs -> supported (m_type m t)) -> forall prev,
  output_details m outs prev = Ok (map (fun t => (t, m_type m t)) outs).
Proof.
  induction outs as [|t outs IH]; intros H prev; cbn [output_details map]; [reflexivity|].
  assert (Hs : supported (m_type m t)) by (apply H; left; reflexivity).
  assert (E : match m_type m t with OTHER _ => prev | s => Some s end = Some (m_type m t)) by (destruct (m_type m t); try reflexivity; contradiction).
  rewrite E. rewrite IH; [reflexivity|]. intros t' Ht. apply H. right. exact Ht.
Qed.
Lemma first_index_ok m t outs : In t outs -> forall k, first_index t (map (fun t => (t, m_type m t)) outs) k = Some (k + position t outs, m_type m t).
Proof.
  induction outs as [|t' outs IH]; intros H k; [destruct H|]. cbn [map first_index position].
  rewrite Nat.eqb_sym. destruct (Nat.eqb_spec t t') as [->|Hn]; [rewrite Nat.add_0_r; reflexivity|].
  rewrite IH by (destruct H as [H|H]; [congruence|exact H]). rewrite Nat.add_succ_r. reflexivity.
Qed.
Lemma position_nth t outs : In t outs -> nth_error outs (position t outs) = Some t.
Proof.
  induction outs as [|t' outs IH]; intros H; [destruct H|]. cbn [position]. destruct (Nat.eqb_spec t t') as [->|Hn]; [reflexivity|].
  cbn [nth_error]. apply IH. destruct H as [H|H]; [congruence|exact H].
Qed.
Lemma memcpy_exact buf n : length buf = n -> memcpy_out buf n n = Ok buf.
Proof.
  intros H. unfold memcpy_out. rewrite H. rewrite !Nat.leb_refl. cbn [andb]. rewrite Nat.sub_diag. cbn [repeat]. rewrite app_nil_r, <- H, firstn_all. reflexivity.
Qed.
Lemma nth_sizes (ls : list (list Z)) m ts k t : map (@length Z) ls = map (tensor_bytes m) ts -> nth_error ts k = Some t ->
  exists buf, nth_error ls k = Some buf /\ length buf = tensor_bytes m t.
Proof.
  intros H Ht. assert (E : nth_error (map (@length Z) ls) k = Some (tensor_bytes m t)) by (rewrite H; apply map_nth_error; exact Ht).
  rewrite nth_error_map in E. destruct (nth_error ls k) as [buf|]; [|discriminate]. cbn in E. exists buf. split; congruence.
Qed.

(** C55: after loading one model into a new interpreter, any history of correct calls shows
    the user exactly the data of the ideal network: outputs of the last run on the inputs
    as last set. *)
Theorem C55_host_interpreter : forall (m : model) (params : list Z) (ops : list op) (st : interp),
  sound_model m -> set_model new_interp 0 m params = Ok st -> (forall o, In o ops -> proper m o) ->
  calls st ops = ideal_run m params (Ideal (map (fun t => repeat 0%Z (tensor_bytes m t)) (m_inputs m))
                                           (map (fun t => repeat 0%Z (tensor_bytes m t)) (m_outputs m))) ops.
Proof.
  intros m params ops st [Hsup Hrun] Hset Hops.
  unfold set_model, new_interp in Hset. cbn in Hset. injection Hset as <-. unfold load.
  change (fun t : nat => repeat 0%Z (true_bytes (m_type m t) * elements (m_shape m t))) with (fun t : nat => repeat 0%Z (tensor_bytes m t)).
  set (ins := map (fun t => repeat 0%Z (tensor_bytes m t)) (m_inputs m)). set (outs := map (fun t => repeat 0%Z (tensor_bytes m t)) (m_outputs m)).
  assert (Hi : map (@length Z) ins = map (tensor_bytes m) (m_inputs m)).
  { unfold ins. rewrite map_map. apply map_ext. intros t. apply repeat_length. }
  assert (Ho : map (@length Z) outs = map (tensor_bytes m) (m_outputs m)).
  { unfold outs. rewrite map_map. apply map_ext. intros t. apply repeat_length. }
  clearbody ins outs.
  assert (Sin : forall t, In t (m_inputs m) -> supported (m_type m t)) by (intros t Ht; apply Hsup; apply in_or_app; left; exact Ht).
  assert (Sout : forall t, In t (m_outputs m) -> supported (m_type m t)) by (intros t Ht; apply Hsup; apply in_or_app; right; exact Ht).
  revert ins outs Hi Ho. induction ops as [|o ops IH]; intros ins outs Hi Ho; [reflexivity|].
  assert (IH' := IH (fun o' H => Hops o' (or_intror H))). clear IH.
  assert (Po := Hops o (or_introl eq_refl)).
  cbn [calls ideal_run]. destruct o as [k v| |t|k]; cbn [proper call ideal_step] in *.
  - destruct Po as (t & Ht & Hv). unfold set_tensor, get_model. cbn [i_models i_obj find fst snd Nat.eqb]. rewrite Ht.
    rewrite py_size_ok by (apply Sin; eapply nth_error_In; exact Ht). cbn [en_inputs].
    destruct (nth_sizes ins m (m_inputs m) k t Hi Ht) as (buf & Hb & Lb). rewrite Hb. rewrite Hv, <- Lb, Nat.leb_refl.
    rewrite skipn_all, app_nil_r. cbn [en_model en_params en_outputs inputs outputs]. f_equal.
    assert (Hk : k < length ins) by (apply nth_error_Some; congruence).
    rewrite update_set by exact Hk. apply IH'; [|exact Ho].
    rewrite <- Hi. unfold set_nth.
    rewrite <- (firstn_skipn k ins) at 3. rewrite !map_app. f_equal. cbn [map].
    assert (Esk : skipn k ins = buf :: skipn (S k) ins).
    { clear - Hb. revert k Hb. induction ins as [|x ins IHi]; intros [|k] Hb; cbn [nth_error] in Hb; try discriminate; cbn [skipn]; [congruence|]. apply IHi. exact Hb. }
    rewrite Esk. cbn [map]. f_equal. congruence.
  - unfold invoke. cbn [i_obj i_models en_model en_params en_inputs inputs outputs]. f_equal. apply IH'; [exact Hi|]. apply Hrun. exact Hi.
  - unfold get_tensor, get_model. cbn [i_models i_obj find fst snd Nat.eqb].
    rewrite details_ok by exact Sout. rewrite first_index_ok by exact Po. cbn [Nat.add]. rewrite py_size_ok by (apply Sout; exact Po). cbn [en_outputs].
    destruct (nth_sizes outs m (m_outputs m) (position t (m_outputs m)) t Ho (position_nth t _ Po)) as (buf & Hb & Lb). rewrite Hb.
    change (true_bytes (m_type m t) * elements (m_shape m t)) with (tensor_bytes m t). rewrite memcpy_exact by exact Lb.
    cbn [outputs]. rewrite (nth_error_nth _ _ _ Hb). f_equal. apply IH'; assumption.
  - unfold get_input_tensor, get_model. cbn [i_models i_obj find fst snd Nat.eqb].
    assert (Es : inputs_supported m = true).
    { unfold inputs_supported. apply forallb_forall. intros t Ht. specialize (Sin t Ht). destruct (m_type m t); try reflexivity. contradiction. }
    rewrite Es. destruct (nth_error (m_inputs m) k) as [t|] eqn:Ht; [|apply nth_error_None in Ht; lia]. cbn [en_inputs].
    destruct (nth_sizes ins m (m_inputs m) k t Hi Ht) as (buf & Hb & Lb). rewrite Hb.
    change (true_bytes (m_type m t) * elements (m_shape m t)) with (tensor_bytes m t). rewrite memcpy_exact by exact Lb.
    cbn [inputs]. rewrite (nth_error_nth _ _ _ Hb). f_equal. apply IH'; assumption.
Qed.

(** The sizes reported for supported types are the real ones. *)
Theorem C55_sizes : forall m t, supported (m_type m t) -> py_size m t = Ok (tensor_bytes m t).
Proof. exact py_size_ok. Qed.

(** Incorrect use is not stopped: a value of the wrong size goes to memcpy. *)
Theorem C55_refuted_overflow : exists m params st v, sound_model m /\ set_model new_interp 0 m params = Ok st /\
  length v <> tensor_bytes m 0 /\ set_tensor st 0 v = Undefined.
Proof.
  exists (Model [0] [] (fun _ => INT8) (fun _ => [2]) (fun _ _ => [])), []. eexists. exists [1; 2; 3]%Z.
  split; [split; [intros t _; exact I|reflexivity]|]. split; [reflexivity|]. split; [discriminate|reflexivity].
Qed.
(** An array given by the caller that is too large is filled from beyond the buffer. *)
Theorem C55_refuted_given_array : exists m params st, sound_model m /\ set_model new_interp 0 m params = Ok st /\
  tensor_bytes m 0 = 2 /\ get_tensor st 0 (Some 3) = Undefined.
Proof.
  exists (Model [] [0] (fun _ => INT8) (fun _ => [2]) (fun _ _ => [[0; 0]%Z])), []. eexists.
  split; [split; [intros t _; exact I|intros; reflexivity]|]. split; [reflexivity|]. split; reflexivity.
Qed.
(** A shorter value leaves the rest of the previous one. *)
Theorem C55_refuted_short_value : exists m params st st', sound_model m /\ set_model new_interp 0 m params = Ok st /\
  set_tensor st 0 [5; 6; 7]%Z = Ok st' /\ exists st'', set_tensor st' 0 [1]%Z = Ok st'' /\ get_input_tensor st'' 0 0 = Ok [1; 6; 7]%Z.
Proof.
  exists (Model [0] [] (fun _ => INT8) (fun _ => [3]) (fun _ _ => [])), []. eexists. eexists.
  split; [split; [intros t _; exact I|reflexivity]|]. split; [reflexivity|]. split; [reflexivity|].
  eexists. split; reflexivity.
Qed.

(** * C56: several models *)
Definition tiles (st : interp) : list nat := map (fun x => fst (fst x)) (i_models st).
Definition running (st : interp) (m : model) (p : list Z) : Prop := exists e, i_obj st = Some e /\ en_model e = m /\ en_params e = p.
Lemma last_of idx (l : list (nat * model * list Z)) : forall cur, ~ In idx (map (fun x => fst (fst x)) l) ->
  fold_left (fun cur x => if Nat.eqb (fst (fst x)) idx then Some x else cur) l cur = cur.
Proof.
  induction l as [|x l IH]; intros cur H; [reflexivity|]. cbn [fold_left map] in *.
  destruct (Nat.eqb_spec (fst (fst x)) idx) as [E|E]; [exfalso; apply H; left; exact E|]. apply IH. intros C. apply H. right. exact C.
Qed.
(** A model given for an index that has none yet is the one that runs from then on. *)
Theorem C56_first_model_partial : forall st idx m p, ~ In idx (tiles st) ->
  exists st', set_model st idx m p = Ok st' /\ running st' m p /\ get_model st' idx = Some (m, p) /\
              (forall j, j <> idx -> get_model st' j = get_model st j).
Proof.
  intros st idx m p H. unfold set_model, initialise_interpreter.
  assert (Ef : existsb (fun x => Nat.eqb (fst (fst x)) idx) (i_models st) = false).
  { destruct (existsb _ _) eqn:E; [|reflexivity]. apply existsb_exists in E. destruct E as (x & Hx & E). apply Nat.eqb_eq in E.
    exfalso. apply H. unfold tiles. apply in_map_iff. exists x. split; assumption. }
  rewrite Ef. cbn [i_models]. rewrite fold_left_app. cbn [fold_left fst]. rewrite Nat.eqb_refl.
  eexists. split; [reflexivity|]. split; [eexists; split; [reflexivity|]; split; reflexivity|].
  assert (Hfind : forall j, find (fun x : nat * model * list Z => Nat.eqb (fst (fst x)) j) (i_models st ++ [(idx, m, p)]) =
     match find (fun x => Nat.eqb (fst (fst x)) j) (i_models st) with Some x => Some x | None => if Nat.eqb idx j then Some (idx, m, p) else None end).
  { intros j. clear. induction (i_models st) as [|x l IH]; [cbn; destruct (Nat.eqb idx j); reflexivity|].
    cbn [app find]. destruct (Nat.eqb (fst (fst x)) j); [reflexivity|exact IH]. }
  unfold get_model. cbn [i_models]. split.
  - rewrite Hfind. assert (En : find (fun x : nat * model * list Z => Nat.eqb (fst (fst x)) idx) (i_models st) = None).
    { destruct (find _ _) as [x|] eqn:E; [|reflexivity]. apply find_some in E. destruct E as (Hx & E). assert (Et : existsb (fun x : nat * model * list Z => Nat.eqb (fst (fst x)) idx) (i_models st) = true) by (apply existsb_exists; exists x; split; assumption). congruence. }
    rewrite En, Nat.eqb_refl. reflexivity.
  - intros j Hj. rewrite Hfind. destruct (find _ _) as [x|]; [reflexivity|]. destruct (Nat.eqb_spec idx j) as [E|E]; [congruence|reflexivity].
Qed.
(** Which model runs, for every history: the models are given one after the other; the one that runs then is the FIRST that was given for the
    index given last, and that is also the one whose tensors are described. *)
Fixpoint set_models (st : interp) (l : list (nat * model * list Z)) : result interp :=
  match l with
  | [] => Ok st
  | (i, m, p) :: tl => match set_model st i m p with Ok st' => set_models st' tl | r => r end
  end.
Fixpoint first_for (i : nat) (l : list (nat * model * list Z)) : option (model * list Z) :=
  match l with [] => None | (j, m, p) :: tl => if Nat.eqb j i then Some (m, p) else first_for i tl end.
Definition last_model (i : nat) (l : list (nat * model * list Z)) : option (nat * model * list Z) :=
  fold_left (fun cur x => if Nat.eqb (fst (fst x)) i then Some x else cur) l None.
Lemma first_for_app i l r : first_for i (l ++ r) = match first_for i l with Some x => Some x | None => first_for i r end.
Proof. induction l as [|[[j m] p] l IH]; cbn [app first_for]; [reflexivity|]. destruct (Nat.eqb j i); auto. Qed.
Lemma find_first_for i l : find (fun x : nat * model * list Z => Nat.eqb (fst (fst x)) i) l =
  match first_for i l with Some (m, p) => Some (i, m, p) | None => None end.
Proof. induction l as [|[[j m] p] l IH]; cbn [find first_for fst]; [reflexivity|]. destruct (Nat.eqb_spec j i) as [->|]; auto. Qed.
Lemma existsb_first_for i l : existsb (fun x : nat * model * list Z => Nat.eqb (fst (fst x)) i) l = match first_for i l with Some _ => true | None => false end.
Proof. induction l as [|[[j m] p] l IH]; cbn [existsb first_for fst]; [reflexivity|]. destruct (Nat.eqb j i); auto. Qed.

Record known (given : list (nat * model * list Z)) (st : interp) : Prop := {
  kn_first : forall i, first_for i (i_models st) = first_for i given;
  kn_last : forall i, last_model i (i_models st) = match first_for i given with Some (m, p) => Some (i, m, p) | None => None end }.
Lemma set_model_known given st i m p : known given st ->
  exists st' m' p', set_model st i m p = Ok st' /\ known (given ++ [(i, m, p)]) st' /\
    first_for i (given ++ [(i, m, p)]) = Some (m', p') /\ i_obj st' = Some (load m' p').
Proof.
  intros K. unfold set_model, initialise_interpreter. cbn [i_models i_obj].
  set (models := if existsb _ (i_models st) then _ else _).
  assert (F : forall j, first_for j models = first_for j (given ++ [(i, m, p)])).
  { intros j. unfold models. rewrite existsb_first_for, (kn_first _ _ K), first_for_app. destruct (first_for i given) as [q|] eqn:E.
    - rewrite (kn_first _ _ K). cbn [first_for]. destruct (Nat.eqb_spec i j) as [<-|]; [rewrite E; auto|]. destruct (first_for j given); auto.
    - rewrite first_for_app, (kn_first _ _ K). auto. }
  assert (L : forall j, last_model j models = match first_for j (given ++ [(i, m, p)]) with Some (m, p) => Some (j, m, p) | None => None end).
  { intros j. unfold models. rewrite existsb_first_for, (kn_first _ _ K), first_for_app. cbn [first_for]. destruct (first_for i given) as [q|] eqn:E.
    - rewrite (kn_last _ _ K). destruct (Nat.eqb_spec i j) as [<-|]; [rewrite E; auto|]. destruct (first_for j given) as [[? ?]|]; auto.
    - unfold last_model. rewrite fold_left_app. fold (last_model j (i_models st)). rewrite (kn_last _ _ K). cbn [fold_left fst].
      destruct (Nat.eqb_spec i j) as [<-|]; [rewrite E; auto|]. destruct (first_for j given) as [[? ?]|]; auto. }
  assert (exists m' p', first_for i (given ++ [(i, m, p)]) = Some (m', p')) as (m' & p' & E).
  { rewrite first_for_app. cbn [first_for]. rewrite Nat.eqb_refl. destruct (first_for i given) as [[? ?]|]; eauto. }
  fold (last_model i models). rewrite L, E. eexists. exists m', p'. split; [reflexivity|]. split; [split; auto|auto].
Qed.
Theorem C56_which_model_runs : forall l i m p, exists st m' p',
  set_models new_interp (l ++ [(i, m, p)]) = Ok st /\
  first_for i (l ++ [(i, m, p)]) = Some (m', p') /\ i_obj st = Some (load m' p') /\
  forall j, get_model st j = first_for j (l ++ [(i, m, p)]).
Proof.
  assert (G : forall l given st i m p, known given st -> exists st' m' p', set_models st (l ++ [(i, m, p)]) = Ok st' /\
    first_for i (given ++ l ++ [(i, m, p)]) = Some (m', p') /\ i_obj st' = Some (load m' p') /\ known (given ++ l ++ [(i, m, p)]) st').
  { induction l as [|[[j n] q] l IH]; intros given st i m p K; cbn [app set_models].
    - destruct (set_model_known given st i m p K) as (st' & m' & p' & -> & K' & E & O). exists st', m', p'. auto.
    - destruct (set_model_known given st j n q K) as (st' & m' & p' & -> & K' & _ & _).
      destruct (IH _ st' i m p K') as (st2 & m2 & p2 & R & E & O & K2). rewrite <- app_assoc in E, K2. exists st2, m2, p2. auto. }
  intros l i m p. destruct (G l [] new_interp i m p) as (st & m' & p' & R & E & O & K); [split; reflexivity|].
  exists st, m', p'. repeat split; auto. intros j. unfold get_model. rewrite find_first_for, (kn_first _ _ K). cbn [app].
  destruct (first_for j (l ++ [(i, m, p)])) as [[? ?]|]; auto.
Qed.
(** So the model given last runs exactly when it is the first given for its index (or is the same as the first). *)
Theorem C56_exactly_when : forall l i m p st, set_models new_interp (l ++ [(i, m, p)]) = Ok st ->
  (running st m p <-> first_for i l = None \/ first_for i l = Some (m, p)).
Proof.
  intros l i m p st H. destruct (C56_which_model_runs l i m p) as (st' & m' & p' & R & E & O & _). rewrite H in R. injection R as <-.
  unfold running. rewrite O. rewrite first_for_app in E. cbn [first_for] in E. rewrite Nat.eqb_refl in E. split.
  - intros (e & Ee & <- & <-). injection Ee as <-. cbn [load en_model en_params]. destruct (first_for i l) as [[? ?]|]; auto.
  - intros D. exists (load m' p'). split; [reflexivity|]. destruct D as [D|D]; rewrite D in E; injection E as <- <-; auto.
Qed.
(** Replacing a model has no effect: for every later model the first one runs. *)
Theorem C56_refuted_replace : forall st idx m p m' p', ~ In idx (tiles st) ->
  forall st1 st2, set_model st idx m p = Ok st1 -> set_model st1 idx m' p' = Ok st2 ->
  running st2 m p /\ get_model st2 idx = Some (m, p).
Proof.
  intros st idx m p m' p' H st1 st2 H1 H2.
  destruct (C56_first_model_partial st idx m p H) as (s & E & (e & Eo & Em & Ep) & Hg & _). rewrite H1 in E. injection E as <-.
  unfold set_model in H2.
  assert (Hm1 : i_models st1 = i_models st ++ [(idx, m, p)]).
  { unfold set_model, initialise_interpreter in H1.
    assert (Ef : existsb (fun x => Nat.eqb (fst (fst x)) idx) (i_models st) = false).
    { destruct (existsb _ _) eqn:E; [|reflexivity]. apply existsb_exists in E. destruct E as (x & Hx & E). apply Nat.eqb_eq in E.
      exfalso. apply H. unfold tiles. apply in_map_iff. exists x. split; assumption. }
    rewrite Ef in H1. cbn [i_models] in H1. destruct (fold_left _ _ _) as [[[? ?] ?]|]; [|discriminate]. injection H1 as <-. reflexivity. }
  assert (Et : existsb (fun x : nat * model * list Z => Nat.eqb (fst (fst x)) idx) (i_models st1) = true).
  { rewrite Hm1. apply existsb_exists. exists (idx, m, p). split; [apply in_or_app; right; left; reflexivity|]. cbn. apply Nat.eqb_refl. }
  rewrite Et in H2. unfold initialise_interpreter in H2. cbn [i_models] in H2. rewrite Hm1, fold_left_app in H2. cbn [fold_left fst] in H2. rewrite Nat.eqb_refl in H2.
  injection H2 as <-. split; [eexists; split; [reflexivity|]; split; reflexivity|]. unfold get_model in *. cbn [i_models]. rewrite <- Hm1. exact Hg.
Qed.
(** There is one engine: after loading a second model under another index, calls for the
    first one run the second. *)
Theorem C56_refuted_two_models : forall m0 p0 m1 p1 st0 st1 st2,
  set_model new_interp 0 m0 p0 = Ok st0 -> set_model st0 1 m1 p1 = Ok st1 -> invoke st1 = Ok st2 ->
  get_model st2 0 = Some (m0, p0) /\ running st2 m1 p1 /\
  exists e, i_obj st2 = Some e /\ en_outputs e = m_run m1 p1 (map (fun t => repeat 0%Z (tensor_bytes m1 t)) (m_inputs m1)).
Proof.
  intros m0 p0 m1 p1 st0 st1 st2 H0 H1 H2. cbn in H0. injection H0 as <-. cbn in H1. injection H1 as <-. cbn in H2. injection H2 as <-.
  split; [reflexivity|]. split; [eexists; split; [reflexivity|]; split; reflexivity|]. eexists. split; reflexivity.
Qed.

(** A concrete case: two inputs of different types, one output. *)
Definition adder : model := Model [3; 5] [7] (fun t => if Nat.eqb t 5 then INT16 else INT8) (fun t => if Nat.eqb t 7 then [1] else [1; 2])
  (fun _ ins => [[fold_right Z.add 0%Z (concat ins)]]).
Example C55_example : sound_model adder /\
  (forall o, In o [SetTensor 0 [1; 2]%Z; SetTensor 1 [3; 0; 4; 0]%Z; Invoke; GetTensor 7; GetInput 1] -> proper adder o) /\
  ideal_run adder [] (Ideal [[0; 0]; [0; 0; 0; 0]]%Z [[0]]%Z) [SetTensor 0 [1; 2]%Z; SetTensor 1 [3; 0; 4; 0]%Z; Invoke; GetTensor 7; GetInput 1]
   = [Nothing; Nothing; Nothing; Data [10]%Z; Data [3; 0; 4; 0]%Z].
Proof.
  split; [split|split].
  - intros t [<-|[<-|[<-|[]]]]; exact I.
  - reflexivity.
  - intros o [<-|[<-|[<-|[<-|[<-|[]]]]]]; cbn [proper]; try exact I; try (eexists; split; reflexivity); [left; reflexivity|cbn; lia].
  - reflexivity.
Qed.
Example C56_example : ~ In 1 (tiles (Interp [(0, adder, [])] None)).
Proof. cbn. intuition lia. Qed.

Print Assumptions C55_host_interpreter.
Print Assumptions C56_first_model_partial.
Print Assumptions C56_which_model_runs.
Print Assumptions C56_exactly_when.
Print Assumptions C56_refuted_replace.
Print Assumptions C56_refuted_two_models.
