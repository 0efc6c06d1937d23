(** C75: which operations the splitting pass works on. *)
From Verif Require Import Base LabelModel LabelSpec.
Local Open Scope Z_scope.

Lemma nth_update f : forall st p q, nth_error (update p f st) q =
  if Nat.eqb p q then option_map f (nth_error st q) else nth_error st q.
Proof.
  induction st as [|x st IH]; intros p q; destruct p, q; cbn [update nth_error Nat.eqb option_map]; auto; try (destruct (Nat.eqb p q); reflexivity).
Qed.
Lemma length_update f : forall st p, length (update p f st) = length st.
Proof. induction st; destruct p; cbn; auto. Qed.

Lemma number_app pre ops : number (pre ++ ops) (length pre) = Z.of_nat (length (filter counted pre)).
Proof. unfold number. rewrite firstn_app, firstn_all, Nat.sub_diag. cbn. rewrite app_nil_r. reflexivity. Qed.

(** What one walk does to the labels of one operation. *)
Definition touch (r : request) (k : Z) (x : labels) : labels :=
  let '(b, t, n) := r in if k =? b then set_start n x else if (k <? b) && (k >=? t) then set_range n x else x.

Lemma walk_ok b t n ops : forall pre st,
  (forall p d, nth_error (pre ++ ops) p = Some (SliceOf d) -> (length pre <= p)%nat -> number (pre ++ ops) p <> b) ->
  length st = length (pre ++ ops) ->
  exists st', walk b t n ops (length pre) (Z.of_nat (length (filter counted pre))) st = Some st' /\ length st' = length st /\
    forall q, nth_error st' q =
      if (Nat.leb (length pre) q) && match nth_error (pre ++ ops) q with Some o => counted o | None => false end
      then option_map (touch (b, t, n) (number (pre ++ ops) q)) (nth_error st q) else nth_error st q.
Proof.
  induction ops as [|o ops IH]; intros pre st PB L.
  - exists st. split; [reflexivity|]. split; [reflexivity|]. intros q. rewrite app_nil_r.
    destruct (Nat.leb_spec (length pre) q); cbn [andb]; auto. replace (nth_error pre q) with (@None opkind); auto.
    symmetry. apply nth_error_None. lia.
  - assert (E : pre ++ o :: ops = (pre ++ [o]) ++ ops) by (rewrite <- app_assoc; reflexivity).
    assert (LP : length (pre ++ [o]) = S (length pre)) by (rewrite app_length; cbn; lia).
    assert (FC : Z.of_nat (length (filter counted (pre ++ [o]))) = Z.of_nat (length (filter counted pre)) + (if counted o then 1 else 0)).
    { rewrite filter_app, app_length. cbn [filter]. destruct (counted o); cbn [length]; lia. }
    assert (PB' : forall p d, nth_error ((pre ++ [o]) ++ ops) p = Some (SliceOf d) -> (length (pre ++ [o]) <= p)%nat -> number ((pre ++ [o]) ++ ops) p <> b).
    { intros p d. rewrite <- E. intros H1 H2. apply (PB p d); auto. lia. }
    set (k := Z.of_nat (length (filter counted pre))) in *.
    assert (NK : number (pre ++ o :: ops) (length pre) = k) by apply number_app.
    assert (NO : nth_error (pre ++ o :: ops) (length pre) = Some o) by (rewrite nth_error_app2, Nat.sub_diag by lia; reflexivity).
    (* common end: the state after this operation *)
    assert (K : forall st1, length st1 = length st ->
      (forall q, nth_error st1 q = if Nat.eqb (length pre) q && counted o then option_map (touch (b, t, n) k) (nth_error st q) else nth_error st q) ->
      exists st', walk b t n ops (S (length pre)) (k + (if counted o then 1 else 0)) st1 = Some st' /\ length st' = length st /\
      forall q, nth_error st' q =
        if (Nat.leb (length pre) q) && match nth_error (pre ++ o :: ops) q with Some o => counted o | None => false end
        then option_map (touch (b, t, n) (number (pre ++ o :: ops) q)) (nth_error st q) else nth_error st q).
    { intros st1 L1 H1. destruct (IH (pre ++ [o]) st1 PB') as (st' & W & L' & H'); [rewrite L1, L, E; reflexivity|].
      rewrite LP, FC in W. exists st'. split; [exact W|]. split; [lia|]. intros q. rewrite H', <- E, LP, H1.
      destruct (Nat.eqb_spec (length pre) q) as [<-|NQ].
      - replace (Nat.leb (S (length pre)) (length pre)) with false by (symmetry; apply Nat.leb_gt; lia).
        rewrite Nat.leb_refl, NO, NK. cbn [andb]. reflexivity.
      - cbn [andb]. destruct (Nat.leb_spec (S (length pre)) q); destruct (Nat.leb_spec (length pre) q); try lia; reflexivity. }
    destruct o as [|d|]; cbn [walk].
    + destruct (K st eq_refl) as (st' & W & R); [intros q; rewrite andb_false_r; reflexivity|]. exists st'. split; [|exact R].
      cbn [counted] in W. rewrite Z.add_0_r in W. exact W.
    + assert (NB : k <> b) by (rewrite <- NK; apply (PB (length pre) d); auto).
      destruct (Z.eqb_spec k b); [congruence|].
      destruct ((k <? b) && (k >=? t)) eqn:RG.
      * apply K; [apply length_update|]. intros q. rewrite nth_update. cbn [counted]. rewrite andb_true_r.
        destruct (Nat.eqb (length pre) q); auto. unfold touch. replace (k =? b) with false by (symmetry; apply Z.eqb_neq; auto). rewrite RG. reflexivity.
      * apply K; [reflexivity|]. intros q. cbn [counted]. rewrite andb_true_r. destruct (Nat.eqb (length pre) q); auto.
        unfold touch. replace (k =? b) with false by (symmetry; apply Z.eqb_neq; auto). rewrite RG. destruct (nth_error st q); reflexivity.
    + destruct (Z.eqb_spec k b) as [KB|KB].
      * apply K; [apply length_update|]. intros q. rewrite nth_update. cbn [counted]. rewrite andb_true_r.
        destruct (Nat.eqb (length pre) q); auto. unfold touch. rewrite (proj2 (Z.eqb_eq k b) KB). reflexivity.
      * destruct ((k <? b) && (k >=? t)) eqn:RG.
        -- apply K; [apply length_update|]. intros q. rewrite nth_update. cbn [counted]. rewrite andb_true_r.
           destruct (Nat.eqb (length pre) q); auto. unfold touch. replace (k =? b) with false by (symmetry; apply Z.eqb_neq; auto). rewrite RG. reflexivity.
        -- apply K; [reflexivity|]. intros q. cbn [counted]. rewrite andb_true_r. destruct (Nat.eqb (length pre) q); auto.
           unfold touch. replace (k =? b) with false by (symmetry; apply Z.eqb_neq; auto). rewrite RG. destruct (nth_error st q); reflexivity.
Qed.

Lemma pairs_ok ops : forall bottoms tops nums st,
  length bottoms = length tops -> length tops = length nums ->
  plain_bottoms (requests bottoms tops nums) ops -> length st = length ops ->
  exists st', label_pairs bottoms tops nums ops st = Some st' /\ length st' = length st /\
    forall q, nth_error st' q =
      if match nth_error ops q with Some o => counted o | None => false end
      then option_map (fun x => fold_left (fun x r => touch r (number ops q) x) (requests bottoms tops nums) x) (nth_error st q)
      else nth_error st q.
Proof.
  induction bottoms as [|b bs IH]; intros [|t ts] [|n ns] st L1 L2 PB L; try discriminate.
  - exists st. split; [reflexivity|]. split; [reflexivity|]. intros q. cbn.
    destruct (nth_error ops q) as [o|]; [destruct (counted o)|]; destruct (nth_error st q); reflexivity.
  - cbn [label_pairs]. destruct (walk_ok b t n ops [] st) as (st1 & W & LW & H1).
    { intros p d E _ N. apply (PB (b, t, n) p d); [left; reflexivity|exact E|exact N]. }
    { exact L. }
    cbn [length filter app] in *. change (Z.of_nat 0) with 0 in W. rewrite W.
    destruct (IH ts ns st1) as (st' & W' & L' & H'); try lia.
    { intros r p d I. apply PB. right. exact I. }
    exists st'. split; [exact W'|]. split; [lia|]. intros q. rewrite H', H1. cbn [Nat.leb andb].
    destruct (nth_error ops q) as [o|]; auto. destruct (counted o); auto. destruct (nth_error st q); reflexivity.
Qed.

(** ** exact labels *)
Lemma touch_labels : forall rs k x,
  let y := fold_left (fun x r => touch r k x) rs x in
  (l_start y = true <-> l_start x = true \/ exists r, In r rs /\ is_bottom r k) /\
  (l_label y = true <-> l_label x = true \/ exists r, In r rs /\ is_inner r k).
Proof.
  induction rs as [|[[b t] n] rs IH]; intros k x; cbn [fold_left].
  - split; split; auto; intros [H|(r & [] & _)]; auto.
  - cbn zeta in *. destruct (IH k (touch (b, t, n) k x)) as [I1 I2]. rewrite I1, I2. clear IH I1 I2.
    assert (T : (l_start (touch (b, t, n) k x) = true <-> l_start x = true \/ k = b) /\
                (l_label (touch (b, t, n) k x) = true <-> l_label x = true \/ t <= k < b)).
    { cbn [touch]. destruct (Z.eqb_spec k b).
      - cbn. split; split; intros; auto; try tauto. destruct H as [H|H]; auto. lia.
      - destruct (Z.ltb_spec k b); destruct (Z.geb_spec k t); cbn [andb set_range set_start l_start l_label]; split; split; intros H1; auto; try lia;
          try (destruct H1; [auto|lia]). }
    destruct T as [T1 T2]. rewrite T1, T2. split; split.
    + intros [[H|H]|(r & I & H)]; auto; right; [exists (b, t, n)|exists r]; split; cbn; auto.
    + intros [H|(r & [<-|I] & H)]; auto. right. eauto.
    + intros [[H|H]|(r & I & H)]; auto; right; [exists (b, t, n)|exists r]; split; cbn; auto.
    + intros [H|(r & [<-|I] & H)]; auto. right. eauto.
Qed.

(** The pass refuses lists of different lengths; otherwise, when no bottom is a slice, it never fails, and the operation at
    position [p] is labelled for raising exactly when it is strictly above the bottom and not above the top of some request,
    and as the start of a split exactly when it is some bottom; constants and terminators are never touched. *)
Theorem C75_labels : forall bottoms tops nums ops,
  (label_ops bottoms tops nums ops = PassFailure <-> ~ (length bottoms = length tops /\ length tops = length nums)) /\
  (length bottoms = length tops -> length tops = length nums -> plain_bottoms (requests bottoms tops nums) ops ->
   exists st, label_ops bottoms tops nums ops = Labelled st /\ length st = length ops /\
     forall p o, nth_error ops p = Some o -> exists x, nth_error st p = Some x /\
       (l_label x = true <-> counted o = true /\ exists r, In r (requests bottoms tops nums) /\ is_inner r (number ops p)) /\
       (l_start x = true <-> counted o = true /\ exists r, In r (requests bottoms tops nums) /\ is_bottom r (number ops p))).
Proof.
  intros bottoms tops nums ops. unfold label_ops. split.
  - destruct (Nat.eqb_spec (length bottoms) (length tops)), (Nat.eqb_spec (length tops) (length nums)); cbn [andb];
      try destruct (label_pairs _ _ _ _ _); split; intros H; try discriminate; try tauto; auto.
  - intros L1 L2 PB. rewrite L1, L2, !Nat.eqb_refl. cbn [andb].
    destruct (pairs_ok ops bottoms tops nums (map (fun _ => no_labels) ops) L1 L2 PB ltac:(apply map_length)) as (st & W & L & H).
    rewrite W. exists st. split; [reflexivity|]. split; [rewrite L; apply map_length|].
    intros p o E. specialize (H p). rewrite E in H. rewrite nth_error_map, E in H. cbn [option_map] in H.
    destruct (counted o).
    + eexists. split; [exact H|]. destruct (touch_labels (requests bottoms tops nums) (number ops p) no_labels) as [T1 T2].
      rewrite T1, T2. cbn [no_labels l_start l_label]. intuition discriminate.
    + eexists. split; [exact H|]. cbn. intuition discriminate.
Qed.
Print Assumptions C75_labels.

(** When no operation concerns two requests, every bottom is split into exactly the requested number of bands, and nothing
    else is split. *)
Lemma touch_none rs k x : (forall r, In r rs -> ~ (is_bottom r k \/ is_inner r k)) -> fold_left (fun x r => touch r k x) rs x = x.
Proof.
  revert x. induction rs as [|[[b t] n] rs IH]; intros x H; cbn [fold_left]; auto.
  assert (N := H (b, t, n) (or_introl eq_refl)). cbn in N. cbn [touch].
  destruct (Z.eqb_spec k b); [tauto|]. replace ((k <? b) && (k >=? t)) with false by lia. apply IH. intros r I. apply H. right. exact I.
Qed.
Lemma touch_one : forall rs i r k x, nth_error rs i = Some r -> 
  (forall j s, nth_error rs j = Some s -> j <> i -> ~ (is_bottom s k \/ is_inner s k)) ->
  fold_left (fun x r => touch r k x) rs x = touch r k x.
Proof.
  induction rs as [|s rs IH]; intros i r k x E H; [destruct i; discriminate|]. destruct i as [|i].
  - injection E as ->. cbn [fold_left]. apply touch_none. intros r' I. apply In_nth_error in I. destruct I as [j J].
    apply (H (S j) r'); auto.
  - cbn [fold_left]. assert (NS := H 0%nat s eq_refl ltac:(discriminate)).
    assert (TS : touch s k x = x) by (pose proof (touch_none [s] k x) as T; cbn [fold_left] in T; apply T; intros r' [<-|[]]; exact NS).
    rewrite TS. apply (IH i r k x E). intros j s' J NJ. apply (H (S j) s'); auto.
Qed.

Theorem C75_splits : forall bottoms tops nums ops,
  length bottoms = length tops -> length tops = length nums ->
  let rs := requests bottoms tops nums in
  plain_bottoms rs ops -> separate rs ->
  exists st, label_ops bottoms tops nums ops = Labelled st /\
    forall p o x, nth_error ops p = Some o -> nth_error st p = Some x ->
      (forall n, splits_into x = Some n <-> counted o = true /\ exists r, In r rs /\ is_bottom r (number ops p) /\ n = bands_of r) /\
      (l_label x = true -> exists r, In r rs /\ is_inner r (number ops p) /\ l_num x = Some (bands_of r)).
Proof.
  intros bottoms tops nums ops L1 L2 rs PB SEP. unfold label_ops. rewrite L1, L2, !Nat.eqb_refl. cbn [andb].
  destruct (pairs_ok ops bottoms tops nums (map (fun _ => no_labels) ops) L1 L2 PB ltac:(apply map_length)) as (st & W & L & H).
  fold rs in H. rewrite W. exists st. split; [reflexivity|]. intros p o x E X. specialize (H p). rewrite E, X, nth_error_map, E in H. cbn [option_map] in H.
  set (k := number ops p) in *. destruct (counted o); [|injection H as ->; split; [intros n; split; [discriminate|intros [K _]; discriminate]|discriminate]].
  injection H as H.
  assert (D : (exists i r, nth_error rs i = Some r /\ (is_bottom r k \/ is_inner r k)) \/ forall r, In r rs -> ~ (is_bottom r k \/ is_inner r k)).
  { clear. induction rs as [|[[b t] n] rs IH]; [right; intros r []|].
    destruct (Z.eq_dec k b); [left; exists 0%nat, (b, t, n); cbn; auto|].
    destruct (Z_lt_dec k b); [destruct (Z_le_dec t k); [left; exists 0%nat, (b, t, n); cbn; auto|]|].
    - destruct IH as [(i & r & E & K)|K]; [left; exists (S i), r; auto|]. right. intros r [<-|I]; [cbn; lia|auto].
    - destruct IH as [(i & r & E & K)|K]; [left; exists (S i), r; auto|]. right. intros r [<-|I]; [cbn; lia|auto]. }
  destruct D as [(i & r & Ei & Kr)|NO].
  - rewrite (touch_one rs i r k no_labels Ei) in H.
    2:{ intros j s Ej NJ. exact (SEP i j r s k Ei Ej ltac:(congruence) Kr). }
    assert (UN : forall s, In s rs -> is_bottom s k \/ is_inner s k -> s = r).
    { intros s Is Ks. apply In_nth_error in Is. destruct Is as [j Ej]. destruct (Nat.eq_dec i j) as [<-|NJ]; [congruence|].
      exfalso. exact (SEP i j r s k Ei Ej NJ Kr Ks). }
    assert (IR : In r rs) by (eapply nth_error_In; eauto).
    destruct r as [[b t] n]. cbn [touch] in H. destruct (Z.eqb_spec k b) as [KB|KB].
    + subst x. cbn [splits_into set_start l_start l_label no_labels l_num negb andb]. split; [|discriminate]. intros m. split.
      * intros M. injection M as <-. split; auto. exists (b, t, n). repeat split; auto.
      * intros (_ & s & Is & Bs & ->). rewrite (UN s Is (or_introl Bs)). reflexivity.
    + replace ((k <? b) && (k >=? t)) with true in H by (cbn in Kr; lia). subst x. cbn. split.
      * intros m. split; [discriminate|]. intros (_ & s & Is & Bs & ->). assert (s = (b, t, n)) by (apply UN; auto). subst s. cbn in Bs. congruence.
      * intros _. exists (b, t, n). cbn in *. repeat split; auto; lia.
  - rewrite touch_none in H by exact NO. subst x. cbn. split; [|discriminate]. intros m. split; [discriminate|].
    intros (_ & s & Is & Bs & _). exfalso. apply (NO s Is). auto.
Qed.
Print Assumptions C75_splits.

(** Constant, convolution 0, constant, convolution 1, add 2, return: splitting operation 2 in 3 bands up to operation 1. *)
Example C75_concrete : label_ops [2] [1] [3] [NotCounted; OtherOp; NotCounted; OtherOp; OtherOp; NotCounted] =
  Labelled [no_labels; no_labels; no_labels; Labels true false (Some 3); Labels false true (Some 3); no_labels] /\
  separate (requests [2] [1] [3]) /\ plain_bottoms (requests [2] [1] [3]) [NotCounted; OtherOp; NotCounted; OtherOp; OtherOp; NotCounted].
Proof.
  split; [reflexivity|]. split.
  - intros [|[|i]] [|[|j]] r s k E1 E2 N; try discriminate; congruence.
  - intros r p d _ E. do 7 (destruct p as [|p]; try discriminate E).
Qed.

(** Nested requests: operation 2 is the bottom of the first and inside the second, and is not split. *)
Theorem C75_refuted_nested : exists st x, label_ops [2; 4] [1; 0] [3; 2] [OtherOp; OtherOp; OtherOp; OtherOp; OtherOp] = Labelled st /\
  nth_error st 2 = Some x /\ l_start x = true /\ splits_into x = None.
Proof. eexists. eexists. split; [reflexivity|]. repeat split; reflexivity. Qed.
(** Two requests for the same bottom: the last number wins. *)
Theorem C75_refuted_same_bottom : exists st x, label_ops [1; 1] [0; 0] [3; 2] [OtherOp; OtherOp] = Labelled st /\
  nth_error st 1 = Some x /\ splits_into x = Some 2.
Proof. eexists. eexists. split; [reflexivity|]. repeat split; reflexivity. Qed.
(** A bottom that is a slice of a function argument. *)
Theorem C75_refuted_slice_of_argument : label_ops [0] [0] [2] [SliceOf None] = NullPointer.
Proof. reflexivity. Qed.
