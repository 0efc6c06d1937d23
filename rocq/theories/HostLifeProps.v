(** C80: the engines of the host interpreter.  Model: HostLifeModel. *)
From Verif Require Import Base HostLifeModel.

(** Specification, from the calls alone. *)
Inductive status := Fresh | Open | Closed.
Definition accepted (c : call) : bool := match c with SetModel _ (Some _) => true | _ => false end.
Definition status_after (s : status) (c : call) : status :=
  match c with
  | SetModel _ (Some _) => Open
  | Close => match s with Fresh => Fresh | _ => Closed end
  | _ => s
  end.
(** The documented use: contents fit, and nothing but set_model and close after close. *)
Fixpoint proper (s : status) (cs : list call) : Prop :=
  match cs with
  | [] => True
  | c :: tl =>
      match c with
      | SetModel _ (Some x) => (c_size x <= 50000000)%Z
      | Use => s <> Closed
      | _ => True
      end /\ proper (status_after s c) tl
  end.
(** Calls that create an engine, calls that delete one. *)
Definition created (cs : list call) : nat := length (filter accepted cs).
Fixpoint deleted (s : status) (cs : list call) : nat :=
  match cs with
  | [] => 0
  | c :: tl => (match c, s with Close, Open => 1 | _, _ => 0 end) + deleted (status_after s c) tl
  end.
(** The exceptions: only for a model that is not given, and before the first model. *)
Fixpoint exceptions (s : status) (cs : list call) : list (option pyexn) :=
  match cs with
  | [] => []
  | c :: tl =>
      match c, s with
      | SetModel _ None, _ => Some ValueError
      | Close, Fresh | Use, Fresh => Some AttributeError
      | _, _ => None
      end :: exceptions (status_after s c) tl
  end.

(* ---- invariant ---- *)
Definition obj_status (s : status) (st : host) : Prop :=
  match s with
  | Fresh => h_obj st = Unset
  | Closed => h_obj st = PyNone
  | Open => exists h, h_obj st = Handle h /\ In h (map fst (h_live st))
  end.
Record inv (s : status) (st : host) : Prop := {
  iv_fresh : Forall (fun e => (fst e < h_next st)%nat) (h_live st);
  iv_nodup : NoDup (map fst (h_live st));
  iv_obj : obj_status s st;
  iv_models : Forall (fun x => (c_size (snd x) <= 50000000)%Z) (h_models st) }.

Lemma is_live_in h l : is_live h l = true <-> In h (map fst l).
Proof.
  unfold is_live. rewrite existsb_exists, in_map_iff. split.
  - intros (e & A & B). apply Nat.eqb_eq in B. eauto.
  - intros (e & A & B). exists e. split; auto. apply Nat.eqb_eq. auto.
Qed.
Lemma set_loaded_names h b l : map fst (set_loaded h b l) = map fst l.
Proof. induction l as [|[k x] l IH]; cbn; auto. destruct (Nat.eqb_spec k h); cbn; congruence. Qed.
Lemma last_model_some idx (l : list (nat * content)) : forall cur,
  (existsb (fun x => Nat.eqb (fst x) idx) l = true \/ cur <> None) ->
  exists c, fold_left (fun cur x => if Nat.eqb (fst x) idx then Some (snd x) else cur) l cur = Some c /\
    (In (idx, c) l \/ cur = Some c).
Proof.
  induction l as [|[k x] l IH]; intros cur H; cbn [fold_left existsb fst snd] in *.
  - destruct H as [H|H]; [discriminate|]. destruct cur; [|congruence]. eauto.
  - destruct (Nat.eqb_spec k idx) as [->|Hk].
    + destruct (IH (Some x)) as (c & E & Q); [right; discriminate|]. exists c. split; auto.
      destruct Q as [Q|Q]; [left; right; auto|]. injection Q as ->. left; left; auto.
    + destruct (IH cur) as (c & E & Q); [destruct H; auto|]. exists c. split; auto.
      destruct Q; auto. left; right; auto.
Qed.
Lemma filter_length_remove h l : NoDup (map fst l) -> In h (map fst l) ->
  S (length (filter (fun e : nat * bool => negb (Nat.eqb (fst e) h)) l)) = length l.
Proof.
  induction l as [|[k x] l IH]; cbn; intros N H; [contradiction|]. inversion N as [|? ? N1 N2]; subst.
  destruct (Nat.eqb_spec k h) as [->|Hk]; cbn.
  - f_equal. clear IH N2 H N. induction l as [|[k y] l IH]; auto. cbn in *.
    destruct (Nat.eqb_spec k h); [tauto|]. cbn. f_equal. tauto.
  - f_equal. apply IH; auto. destruct H; [contradiction|auto].
Qed.

Lemma set_model_step s st idx c : inv s st -> (c_size c <= 50000000)%Z ->
  exists st', set_model st idx (Some c) = Done st' /\ inv Open st' /\ length (h_live st') = S (length (h_live st)) /\
    h_next st' = S (h_next st) /\ h_obj st' = Handle (h_next st) /\
    forall h, In h (map fst (h_live st)) -> In h (map fst (h_live st')).
Proof.
  intros I Hc. unfold set_model, initialise_interpreter. cbn [h_models h_next h_live h_obj].
  set (models := if existsb _ (h_models st) then _ else _).
  assert (Hm : Forall (fun x => (c_size (snd x) <= 50000000)%Z) models).
  { unfold models. destruct (existsb _ _); [apply I|]. apply Forall_app. split; [apply I|]. constructor; auto. }
  assert (He : existsb (fun x => Nat.eqb (fst x) idx) models = true).
  { unfold models. destruct (existsb (fun x => Nat.eqb (fst x) idx) (h_models st)) eqn:E; auto.
    rewrite existsb_app, E. cbn. rewrite Nat.eqb_refl. auto. }
  destruct (last_model_some idx models None (or_introl He)) as (c' & E & [Q|Q]); [|discriminate].
  rewrite E. rewrite Forall_forall in Hm. assert (Hc' := Hm _ Q). cbn in Hc'.
  unfold initialize.
  assert (L : is_live (h_next st) (h_live st ++ [(h_next st, false)]) = true).
  { apply is_live_in. rewrite map_app. apply in_or_app. right. left. auto. }
  rewrite L. cbn [negb].
  replace (c_size c' >? max_model_size)%Z with false by (unfold max_model_size; lia).
  eexists. split; [reflexivity|]. split; [|split; [|split; [|split]]]; cbn [h_live h_next h_obj h_models].
  - split; cbn [h_live h_next h_obj h_models].
    + rewrite Forall_forall. intros e Hin.
      assert (Hin' : In (fst e) (map fst (h_live st ++ [(h_next st, false)]))).
      { rewrite <- (set_loaded_names (h_next st) (c_loadable c')). apply in_map. auto. }
      rewrite map_app in Hin'. apply in_app_or in Hin'. destruct Hin' as [Hin'|[Hin'|[]]].
      * apply in_map_iff in Hin'. destruct Hin' as (e' & Ee & Hin'). pose proof (iv_fresh _ _ I) as F. rewrite Forall_forall in F.
        specialize (F e' Hin'). lia.
      * cbn in Hin'. lia.
    + rewrite set_loaded_names, map_app. apply nodup_app.
      * apply I.
      * constructor; [intros []|constructor].
      * intros x Hx [Hy|[]]. cbn in Hy. subst x. apply in_map_iff in Hx. destruct Hx as (e & Ee & Hx).
        pose proof (iv_fresh _ _ I) as F. rewrite Forall_forall in F. specialize (F e Hx). lia.
    + exists (h_next st). split; auto. cbn [h_live]. rewrite set_loaded_names, map_app. apply in_or_app. right; left; auto.
    + apply Forall_forall. auto.
  - rewrite <- (map_length fst), set_loaded_names, map_length, app_length. cbn. lia.
  - auto.
  - auto.
  - intros h Hin. rewrite set_loaded_names, map_app. apply in_or_app. auto.
Qed.

Lemma run_spec : forall cs s st, inv s st -> proper s cs ->
  exists st', run st cs = Some (st', exceptions s cs) /\
    length (h_live st') + deleted s cs = length (h_live st) + created cs /\
    inv (fold_left status_after cs s) st'.
Proof.
  induction cs as [|c cs IH]; intros s st I P; [exists st; cbn; split; auto; split; auto; lia|].
  cbn [proper] in P. destruct P as [P1 P2].
  destruct c as [i [x|]| |]; cbn [run step exceptions deleted created filter accepted length fold_left status_after] in *.
  - destruct (set_model_step s st i x I P1) as (st1 & E & I1 & L & _). rewrite E.
    destruct (IH Open st1 I1 P2) as (st' & R & N & I'). exists st'. rewrite R. split; [auto|].
    split; [unfold created in N |- *; cbn; destruct s; lia|auto].
  - cbn [set_model]. destruct (IH s st I P2) as (st' & R & N & I'). exists st'. rewrite R. split; [auto|].
    split; [unfold created in N |- *; cbn; destruct s; lia|auto].
  - pose proof (iv_obj _ _ I) as O. unfold close. destruct s; cbn [obj_status] in O.
    + rewrite O. destruct (IH Fresh st I P2) as (st' & R & N & I'). exists st'. rewrite R. split; auto.
    + destruct O as (h & O & Hh). rewrite O. rewrite (proj2 (is_live_in h _) Hh).
      set (st1 := Host _ _ _ _). assert (I1 : inv Closed st1).
      { split; cbn.
        - rewrite Forall_forall. intros e Hin. apply filter_In in Hin. pose proof (iv_fresh _ _ I) as F.
          rewrite Forall_forall in F. apply F. tauto.
        - pose proof (iv_nodup _ _ I) as N. clear -N. induction (h_live st) as [|e l IH]; auto. cbn [map] in N.
          inversion N as [|? ? N1 N2]; subst. cbn [filter]. destruct (negb _); auto. cbn [map]. constructor; auto.
          intros Hin. apply N1. apply in_map_iff in Hin. destruct Hin as (y & <- & Hy). apply filter_In in Hy. apply in_map. tauto.
        - reflexivity.
        - apply I. }
      destruct (IH Closed st1 I1 P2) as (st' & R & N & I'). exists st'. rewrite R. split; auto. split; auto.
      pose proof (filter_length_remove h (h_live st) (iv_nodup _ _ I) Hh) as FL.
      unfold st1 in N. cbn [h_live] in N. unfold created in N |- *. cbn [filter accepted] in *. lia.
    + rewrite O. destruct (IH Closed st I P2) as (st' & R & N & I'). exists st'. rewrite R. split; auto.
  - pose proof (iv_obj _ _ I) as O. unfold use. destruct s; cbn [obj_status] in O.
    + rewrite O. destruct (IH Fresh st I P2) as (st' & R & N & I'). exists st'. rewrite R. split; auto.
    + destruct O as (h & O & Hh). rewrite O. rewrite (proj2 (is_live_in h _) Hh).
      destruct (IH Open st I P2) as (st' & R & N & I'). exists st'. rewrite R. split; auto.
    + contradiction.
Qed.

Lemma inv_new : inv Fresh new_host.
Proof. split; cbn; constructor. Qed.

(** Every proper history runs without touching memory that is not there: no engine is used
    after it is deleted, none is deleted twice, closing twice is harmless, and the exceptions
    are exactly those of calls without a model. *)
Theorem C80_no_use_after_free cs : proper Fresh cs ->
  exists st, run new_host cs = Some (st, exceptions Fresh cs).
Proof. intros P. destruct (run_spec cs Fresh new_host inv_new P) as (st & R & _). eauto. Qed.

(* ---- exactly which histories are defined ---- *)
(** The model first given for an index. *)
Fixpoint first_given (i : nat) (cs : list call) : option content :=
  match cs with
  | [] => None
  | SetModel j (Some x) :: tl => if Nat.eqb i j then Some x else first_given i tl
  | _ :: tl => first_given i tl
  end.
(** A call that touches only memory that is there, after the calls [before]. *)
Definition defined_after (before : list call) (c : call) : Prop :=
  match c with
  | Use => fold_left status_after before Fresh <> Closed
  | SetModel i (Some x) => exists y, first_given i (before ++ [c]) = Some y /\ (c_size y <= 50000000)%Z
  | _ => True
  end.

Lemma first_given_app i l r : first_given i (l ++ r) = match first_given i l with Some x => Some x | None => first_given i r end.
Proof. induction l as [|[j [x|]| |] l IH]; cbn; auto. destruct (Nat.eqb i j); auto. Qed.

Record inv2 (pre : list call) (st : host) : Prop := {
  i2_fresh : Forall (fun e => (fst e < h_next st)%nat) (h_live st);
  i2_obj : obj_status (fold_left status_after pre Fresh) st;
  i2_last : forall i, fold_left (fun cur x => if Nat.eqb (fst x) i then Some (snd x) else cur) (h_models st) None = first_given i pre;
  i2_known : forall i, existsb (fun x : nat * content => Nat.eqb (fst x) i) (h_models st) = match first_given i pre with Some _ => true | None => false end }.

Lemma set_model_exact pre st i x : inv2 pre st ->
  exists y, first_given i (pre ++ [SetModel i (Some x)]) = Some y /\
    ((c_size y <= 50000000)%Z -> exists st', set_model st i (Some x) = Done st' /\ inv2 (pre ++ [SetModel i (Some x)]) st') /\
    ((50000000 < c_size y)%Z -> set_model st i (Some x) = Undefined).
Proof.
  intros I. set (c := SetModel i (Some x)).
  assert (Ec : forall j, first_given j [c] = if Nat.eqb j i then Some x else None) by (intros j; reflexivity).
  unfold set_model, initialise_interpreter. cbn [h_models h_next h_live h_obj].
  set (models := if existsb _ (h_models st) then _ else _).
  assert (Hl : forall j, fold_left (fun cur x => if Nat.eqb (fst x) j then Some (snd x) else cur) models None = first_given j (pre ++ [c])).
  { intros j. rewrite first_given_app, Ec. pose proof (i2_last _ _ I) as L. unfold models. rewrite (i2_known _ _ I i).
    destruct (first_given i pre) as [y|] eqn:E.
    - rewrite L. destruct (Nat.eqb_spec j i) as [->|]; [rewrite E; auto|destruct (first_given j pre); auto].
    - rewrite fold_left_app, L. cbn [fold_left fst snd]. rewrite Nat.eqb_sym. destruct (Nat.eqb_spec j i) as [->|]; [rewrite E; auto|].
      destruct (first_given j pre); auto. }
  assert (Hk : forall j, existsb (fun x : nat * content => Nat.eqb (fst x) j) models = match first_given j (pre ++ [c]) with Some _ => true | None => false end).
  { intros j. rewrite first_given_app, Ec. pose proof (i2_known _ _ I) as L. unfold models. rewrite (L i).
    destruct (first_given i pre) as [y|] eqn:E.
    - rewrite L. destruct (Nat.eqb_spec j i) as [->|]; [rewrite E; auto|destruct (first_given j pre); auto].
    - rewrite existsb_app, L. cbn [existsb fst]. rewrite Nat.eqb_sym. destruct (Nat.eqb_spec j i) as [->|]; [rewrite E; auto|].
      destruct (first_given j pre); auto. }
  assert (exists y, first_given i (pre ++ [c]) = Some y) as [y Ey].
  { rewrite first_given_app, Ec, Nat.eqb_refl. destruct (first_given i pre); eauto. }
  exists y. split; [exact Ey|]. rewrite (Hl i), Ey. unfold initialize.
  assert (L : is_live (h_next st) (h_live st ++ [(h_next st, false)]) = true).
  { apply is_live_in. rewrite map_app. apply in_or_app. right. left. auto. }
  rewrite L. cbn [negb]. split.
  - intros Hc. replace (c_size y >? max_model_size)%Z with false by (unfold max_model_size; lia).
    eexists. split; [reflexivity|]. split; cbn [h_live h_next h_obj h_models]; auto.
    + rewrite Forall_forall. intros e Hin.
      assert (Hin' : In (fst e) (map fst (h_live st ++ [(h_next st, false)]))).
      { rewrite <- (set_loaded_names (h_next st) (c_loadable y)). apply in_map. auto. }
      rewrite map_app in Hin'. apply in_app_or in Hin'. destruct Hin' as [Hin'|[Hin'|[]]].
      * apply in_map_iff in Hin'. destruct Hin' as (e' & Ee & Hin'). pose proof (i2_fresh _ _ I) as F. rewrite Forall_forall in F.
        specialize (F e' Hin'). lia.
      * cbn in Hin'. lia.
    + rewrite fold_left_app. cbn [fold_left status_after obj_status h_obj h_live c]. exists (h_next st). split; auto.
      rewrite set_loaded_names, map_app. apply in_or_app. right; left; auto.
  - intros Hc. replace (c_size y >? max_model_size)%Z with true by (unfold max_model_size; lia). auto.
Qed.

Lemma run_exact : forall cs pre st, inv2 pre st ->
  ((exists st' es, run st cs = Some (st', es)) <-> forall before c after, cs = before ++ c :: after -> defined_after (pre ++ before) c).
Proof.
  induction cs as [|c cs IH]; intros pre st I.
  { split; [intros _ [|? ?] ? ? E; discriminate|]. intros _. exists st, []. reflexivity. }
  assert (Shift : forall st1, inv2 (pre ++ [c]) st1 -> defined_after pre c ->
    ((exists st' es, run st1 cs = Some (st', es)) <-> forall before d after, c :: cs = before ++ d :: after -> defined_after (pre ++ before) d)).
  { intros st1 I1 D. rewrite (IH _ st1 I1). split.
    - intros H [|b before] d after E; cbn [app] in E; injection E as <- E; [rewrite app_nil_r; auto|].
      specialize (H before d after E). rewrite <- app_assoc in H. exact H.
    - intros H before d after E. rewrite <- app_assoc. apply (H (c :: before) d after). cbn [app]. congruence. }
  assert (First : (forall before d after, c :: cs = before ++ d :: after -> defined_after (pre ++ before) d) -> defined_after pre c).
  { intros H. specialize (H [] c cs eq_refl). rewrite app_nil_r in H. exact H. }
  assert (Keep : forall st1, h_models st1 = h_models st -> (forall i, first_given i [c] = None) ->
    Forall (fun e => (fst e < h_next st1)%nat) (h_live st1) -> obj_status (status_after (fold_left status_after pre Fresh) c) st1 -> inv2 (pre ++ [c]) st1).
  { intros st1 Em En F O. split; auto.
    - rewrite fold_left_app. exact O.
    - intros i. rewrite Em, first_given_app, En, (i2_last _ _ I). destruct (first_given i pre); auto.
    - intros i. rewrite Em, first_given_app, En, (i2_known _ _ I). destruct (first_given i pre); auto. }
  assert (Wrap : forall st1 x, (exists st' es, match run st1 cs with Some (q, l) => Some (q, x :: l) | None => None end = Some (st', es)) <->
    (exists st' es, run st1 cs = Some (st', es))).
  { intros st1 x. destruct (run st1 cs) as [[q l]|].
    - split; intros _; eauto.
    - split; intros (? & ? & K); discriminate. }
  pose proof (i2_obj _ _ I) as O. pose proof (i2_fresh _ _ I) as F.
  destruct c as [i [x|]| |]; cbn [run step].
  - destruct (set_model_exact pre st i x I) as (y & Ey & Ok & Bad). destruct (Z_le_gt_dec (c_size y) 50000000) as [Hc|Hc].
    + destruct (Ok Hc) as (st1 & -> & I1). rewrite Wrap. apply Shift; auto. exists y. auto.
    + rewrite Bad by lia. split; [intros (? & ? & K); discriminate|]. intros H. destruct (First H) as (y' & Ey' & Hy').
      rewrite Ey in Ey'. injection Ey' as <-. lia.
  - cbn [set_model]. rewrite Wrap. apply Shift; [|exact Logic.I]. apply Keep; auto.
  - unfold close. destruct (fold_left status_after pre Fresh) eqn:Es; cbn [obj_status status_after] in *.
    + rewrite O. rewrite Wrap. apply Shift; [|exact Logic.I]. apply Keep; auto.
    + destruct O as (h & O & Hh). rewrite O, (proj2 (is_live_in h _) Hh). rewrite Wrap. apply Shift; [|exact Logic.I]. apply Keep; cbn; auto.
      rewrite Forall_forall in *. intros e He. apply filter_In in He. apply F. tauto.
    + rewrite O. rewrite Wrap. apply Shift; [|exact Logic.I]. apply Keep; auto.
  - unfold use. destruct (fold_left status_after pre Fresh) eqn:Es; cbn [obj_status status_after] in *.
    + rewrite O. rewrite Wrap. apply Shift; [apply Keep; auto|cbn; congruence].
    + destruct O as (h & O' & Hh). rewrite O', (proj2 (is_live_in h _) Hh). rewrite Wrap. apply Shift; [apply Keep; auto; exists h; auto|cbn; congruence].
    + rewrite O. split; [intros (? & ? & K); discriminate|]. intros H. apply First in H. cbn in H. congruence.
Qed.

(** Exactly these histories: nothing is used after close (set_model opens again), and whenever a model is set, the model that was FIRST
    given for that index fits the buffer (replacing a model has no effect, so a later one that is too large does no harm). *)
Theorem C80_exactly_when cs :
  (exists st es, run new_host cs = Some (st, es)) <-> forall before c after, cs = before ++ c :: after -> defined_after before c.
Proof.
  apply (run_exact cs [] new_host). split; cbn; auto.
Qed.
Example C80_exactly_concrete :
  (forall before c after, [SetModel 0 (Some (Content 1000 true)); SetModel 0 (Some (Content 60000000 true)); Close; SetModel 0 None] = before ++ c :: after -> defined_after before c) /\
  run new_host [SetModel 1 (Some (Content 1000 true)); SetModel 0 (Some (Content 60000000 true))] = None.
Proof. split; [apply C80_exactly_when; eexists; eexists; vm_compute; reflexivity|reflexivity]. Qed.

(** The engines left over are those created less those deleted: each set_model creates one,
    each close deletes one at most. *)
Theorem C80_engines_left cs st es : proper Fresh cs -> run new_host cs = Some (st, es) ->
  length (h_live st) + deleted Fresh cs = created cs.
Proof.
  intros P R. destruct (run_spec cs Fresh new_host inv_new P) as (st' & R' & N & _).
  rewrite R in R'. injection R' as <- _. exact N.
Qed.

(** with TFLMHostInterpreter() as i: one set_model, any uses, close: nothing is left, and
    nothing is raised. *)
Theorem C80_with_statement i c n st es :
  (c_size c <= 50000000)%Z ->
  run new_host (SetModel i (Some c) :: repeat Use n ++ [Close]) = Some (st, es) ->
  h_live st = [] /\ Forall (fun e => e = None) es.
Proof.
  intros Hc R.
  assert (P : forall n, proper Open (repeat Use n ++ [Close])).
  { clear. induction n; cbn; auto. split; [discriminate|]. exact IHn. }
  assert (Pr : proper Fresh (SetModel i (Some c) :: repeat Use n ++ [Close])) by (cbn; split; auto).
  pose proof (C80_engines_left _ _ _ Pr R) as N.
  destruct (C80_no_use_after_free _ Pr) as (st' & R'). rewrite R in R'. injection R' as <- ->.
  assert (Dl : forall n, deleted Open (repeat Use n ++ [Close]) = 1) by (clear; induction n; cbn; auto).
  assert (Cr : forall n, created (repeat Use n ++ [Close]) = 0) by (clear; induction n; cbn; auto).
  assert (Ex : forall n, Forall (fun e => e = None) (exceptions Open (repeat Use n ++ [Close]))) by (clear; induction n; cbn; auto).
  cbn [deleted status_after] in N. unfold created in N, Cr. cbn [filter accepted length] in N. rewrite Dl, Cr in N.
  split; [destruct (h_live st); [auto|cbn in N; lia]|]. cbn. constructor; auto.
Qed.
Example C80_with_concrete :
  run new_host [SetModel 0 (Some (Content 1000 true)); Use; Use; Close; Close]
  = Some (Host 1 [] PyNone [(0, Content 1000 true)], [None; None; None; None; None]).
Proof. reflexivity. Qed.

(** Refuted: every engine is deleted.  A second set_model forgets the first engine
    (with its buffer of 50 MB); close deletes the second only. *)
Theorem C80_second_model_leaks_refuted m :
  (c_size m <= 50000000)%Z ->
  exists st, run new_host [SetModel 0 (Some m); SetModel 0 (Some m); Close] = Some (st, [None; None; None]) /\
    map fst (h_live st) = [0].
Proof.
  intros H. unfold run, step, set_model, initialise_interpreter, initialize, close. cbn.
  replace (c_size m >? max_model_size)%Z with false by (unfold max_model_size; lia). cbn.
  replace (c_size m >? max_model_size)%Z with false by (unfold max_model_size; lia). cbn.
  eexists. split; [reflexivity|]. reflexivity.
Qed.
(** Refuted: the with statement may be left without a model. *)
Theorem C80_close_without_model_refuted : run new_host [Close] = Some (new_host, [Some AttributeError]).
Proof. reflexivity. Qed.
(** Refuted: a use after close is reported. *)
Theorem C80_use_after_close_refuted : run new_host [SetModel 0 (Some (Content 1000 true)); Close; Use] = None.
Proof. reflexivity. Qed.
(** Refuted: a model that the engine cannot load is reported. *)
Theorem C80_unloadable_model_refuted :
  exists st, run new_host [SetModel 0 (Some (Content 1000 false)); Use] = Some (st, [None; None]) /\
    h_live st = [(0, false)].
Proof. eexists. split; reflexivity. Qed.
(** Refuted: a model larger than the buffer is refused. *)
Theorem C80_large_model_refuted : run new_host [SetModel 0 (Some (Content 50000001 true))] = None.
Proof. reflexivity. Qed.

Print Assumptions C80_no_use_after_free.
Print Assumptions C80_exactly_when.
Print Assumptions C80_engines_left.
