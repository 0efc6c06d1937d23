(** Proofs for LowerWhenProps: how many axes mergeAxes leaves. *)
From Coq Require Import List ZArith Bool Arith Lia.
From Verif Require Import SlicePadModel LowerWhenSpec.
Import ListNotations.
Local Open Scope nat_scope.

Definition chg (a : axis) : bool := negb (a_in a =? a_out a)%Z.
Definition unit_ax (a : axis) : bool := ((a_in a =? 1) && (a_out a =? 1))%Z.
Definition cnt (l : list axis) : nat := length (filter chg l).
Definition pos_ax (a : axis) : Prop := (0 < a_in a /\ 0 < a_out a)%Z.

Fixpoint lead (l : list axis) : bool :=
  match l with
  | [] => true
  | a :: t => if chg a then true else if (a_in a =? 1)%Z then lead t else false
  end.

Lemma chg_fold p c : pos_ax p -> pos_ax c -> chg (fold_axis p c) = chg p.
Proof.
  intros [A B] [C D]. unfold chg, fold_axis; cbn [a_in a_out]. f_equal.
  apply eq_true_iff_eq. rewrite !Z.eqb_eq. split; intros; nia.
Qed.

Lemma pos_fold p c : pos_ax p -> pos_ax c -> pos_ax (fold_axis p c).
Proof. intros [A B] [C D]. split; cbn [fold_axis a_in a_out]; nia. Qed.

Lemma cnt_app l m : cnt (l ++ m) = cnt l + cnt m.
Proof. unfold cnt. rewrite filter_app, app_length. auto. Qed.

Definition ht (l : list axis) : nat := match l with [] => 0 | a :: _ => if chg a then 1 else 0 end.

(** the number of merged axes, before the leading unit axis is dropped *)
Lemma merge_len before : forall cur, pos_ax cur -> Forall pos_ax before ->
  length (merge_loop cur before) + ht (rev (cur :: before)) = 1 + cnt (rev (cur :: before)).
Proof.
  induction before as [|p b IH]; intros cur Pc Pb.
  - cbn. unfold cnt. cbn. destruct (chg cur); auto.
  - inversion Pb as [|? ? Pp Pb']; subst. cbn [merge_loop].
    assert (E : (a_in cur =? a_out cur)%Z = negb (chg cur)) by (unfold chg; rewrite negb_involutive; auto).
    rewrite E. destruct (chg cur) eqn:Ec; cbn [negb].
    + specialize (IH p Pp Pb'). cbn [length rev] in *. rewrite !cnt_app in *.
      assert (H : ht ((rev b ++ [p]) ++ [cur]) = ht (rev b ++ [p])) by (destruct (rev b); auto). rewrite H.
      assert (Y : cnt [cur] = 1) by (unfold cnt; cbn [filter]; rewrite Ec; auto). lia.
    + specialize (IH (fold_axis p cur) (pos_fold _ _ Pp Pc) Pb'). cbn [length rev] in *.
      rewrite !cnt_app in *.
      assert (H : ht ((rev b ++ [p]) ++ [cur]) = ht (rev b ++ [fold_axis p cur])).
      { destruct (rev b); cbn; auto. rewrite chg_fold; auto. }
      rewrite H. assert (Y : cnt [cur] = 0) by (unfold cnt; cbn [filter]; rewrite Ec; auto).
      assert (X : cnt [fold_axis p cur] = cnt [p]) by (unfold cnt; cbn [filter]; rewrite chg_fold; auto; destruct (chg p); auto).
      lia.
Qed.

Lemma lead_app l m m' : lead m = lead m' -> lead (l ++ m) = lead (l ++ m').
Proof. intros H. induction l; cbn; auto. rewrite IHl. auto. Qed.

Lemma last_cons {A} (a b : A) l d : last (a :: b :: l) d = last (b :: l) d.
Proof. auto. Qed.

Lemma merge_nonempty before : forall cur, merge_loop cur before <> [].
Proof. induction before as [|p b IH]; intros cur; cbn; [discriminate|]. destruct (_ =? _)%Z; auto. discriminate. Qed.

Lemma merge_last before : forall cur d, pos_ax cur -> Forall pos_ax before ->
  unit_ax (last (merge_loop cur before) d) = (ht (rev (cur :: before)) =? 0) && lead (rev (cur :: before)).
Proof.
  induction before as [|p b IH]; intros cur d Pc Pb.
  - cbn. unfold unit_ax, chg. destruct (a_in cur =? a_out cur)%Z eqn:E; cbn; [|destruct (a_in cur =? 1)%Z eqn:E1; cbn; auto; destruct (a_out cur =? 1)%Z eqn:E2; auto; rewrite Z.eqb_eq in *; rewrite Z.eqb_neq in E; lia].
    apply Z.eqb_eq in E. rewrite <- E. destruct (a_in cur =? 1)%Z; auto.
  - inversion Pb as [|? ? Pp Pb']; subst. cbn [merge_loop].
    assert (E : (a_in cur =? a_out cur)%Z = negb (chg cur)) by (unfold chg; rewrite negb_involutive; auto).
    rewrite E. destruct (chg cur) eqn:Ec; cbn [negb].
    + specialize (IH p d Pp Pb'). cbn [rev] in *.
      destruct (merge_loop p b) as [|x m] eqn:Em; [destruct (merge_nonempty b p Em)|]. rewrite last_cons, IH.
      assert (H : ht ((rev b ++ [p]) ++ [cur]) = ht (rev b ++ [p])) by (destruct (rev b); auto). rewrite H. f_equal.
      rewrite <- app_assoc. apply lead_app. cbn. rewrite Ec. destruct (chg p), (a_in p =? 1)%Z; auto.
    + specialize (IH (fold_axis p cur) d (pos_fold _ _ Pp Pc) Pb'). cbn [rev] in *. rewrite IH.
      assert (H : ht ((rev b ++ [p]) ++ [cur]) = ht (rev b ++ [fold_axis p cur])).
      { destruct (rev b); cbn; auto. rewrite chg_fold; auto. }
      rewrite H. f_equal. rewrite <- app_assoc. apply lead_app. cbn [app lead]. rewrite chg_fold, Ec; auto.
      destruct (chg p); auto. cbn [fold_axis a_in]. destruct Pp as [Pp _], Pc as [Pc _].
      destruct (a_in p =? 1)%Z eqn:E1; destruct (a_in cur =? 1)%Z eqn:E2; destruct (a_in p * a_in cur =? 1)%Z eqn:E3; auto;
        rewrite ?Z.eqb_eq in *; rewrite ?Z.eqb_neq in *; nia.
Qed.

Lemma lead_ht l : ht l = 1 -> lead l = true.
Proof. destruct l as [|a l]; cbn; [discriminate|]. destruct (chg a); auto. discriminate. Qed.

(** the number of axes left *)
Lemma merge_axes_len l : l <> [] -> Forall pos_ax l ->
  exists m, merge_axes l = Some m /\ length m = cnt l + (if lead l then 0 else 1).
Proof.
  intros Hne Hp. unfold merge_axes.
  destruct (rev l) as [|c b] eqn:Er. { destruct l; [congruence|]. apply (f_equal (@length _)) in Er. rewrite rev_length in Er. discriminate. }
  assert (El : l = rev (c :: b)) by (rewrite <- Er, rev_involutive; auto).
  assert (Hp' : Forall pos_ax (c :: b)) by (rewrite <- Er; apply Forall_rev; auto).
  inversion Hp' as [|? ? Pc Pb]; subst x l0. rewrite El in *.
  pose proof (merge_len b c Pc Pb) as HL. pose proof (merge_last b c (Axis 0 0 0 0) Pc Pb) as HB.
  remember (rev (c :: b)) as L eqn:EL. clear EL El Er.
  destruct (rev (merge_loop c b)) as [|f r] eqn:Em.
  { apply (f_equal (@rev _)) in Em. rewrite rev_involutive in Em. destruct (merge_nonempty b c Em). }
  assert (Em' : merge_loop c b = rev r ++ [f]) by (rewrite <- (rev_involutive (merge_loop c b)), Em; auto).
  rewrite Em' in HL, HB. rewrite last_last in HB. rewrite app_length, rev_length in HL. cbn [length] in HL.
  fold (unit_ax f). eexists. split; [reflexivity|]. rewrite HB.
  destruct (ht L) as [|[|n]] eqn:Eh.
  - cbn. destruct (lead L); cbn [length]; lia.
  - rewrite (lead_ht L Eh). cbn. lia.
  - destruct L as [|x L]; cbn in Eh; [discriminate|]. destruct (chg x); discriminate.
Qed.

(** the last merged axis: the product of the axes from the last changed one on *)
Definition prod (f : axis -> Z) (l : list axis) : Z := fold_right Z.mul 1%Z (map f l).

Lemma prod_app f l m : prod f (l ++ m) = (prod f l * prod f m)%Z.
Proof. unfold prod. rewrite map_app. induction (map f l); cbn; [destruct (fold_right Z.mul 1%Z (map f m)); auto|]. rewrite IHl0. lia. Qed.

Lemma merge_hd before : forall cur d tail, pos_ax cur -> Forall pos_ax before ->
  exists pre x post, rev before ++ cur :: tail = pre ++ x :: post ++ tail /\
    (pre = [] \/ chg x = true) /\ forallb (fun a => negb (chg a)) post = true /\ 
    a_in (hd d (merge_loop cur before)) = (prod a_in (x :: post))%Z /\ a_out (hd d (merge_loop cur before)) = (a_out x * prod a_in post)%Z.
Proof.
  induction before as [|p b IH]; intros cur d tail Pc Pb.
  - exists [], cur, []. cbn. repeat split; auto; try (unfold prod; cbn); lia.
  - inversion Pb as [|? ? Pp Pb']; subst. cbn [merge_loop].
    assert (E : (a_in cur =? a_out cur)%Z = negb (chg cur)) by (unfold chg; rewrite negb_involutive; auto).
    rewrite E. destruct (chg cur) eqn:Ec; cbn [negb].
    + exists (rev (p :: b)), cur, []. cbn. repeat split; auto; try (unfold prod; cbn); lia.
    + destruct (IH (fold_axis p cur) d tail (pos_fold _ _ Pp Pc) Pb') as (pre & x & post & E1 & E2 & E3 & E4 & E5).
      assert (D : exists post0, x :: post = post0 ++ [fold_axis p cur]).
      { change (pre ++ x :: post ++ tail) with (pre ++ (x :: post) ++ tail) in E1.
        rewrite app_assoc in E1. change (rev b ++ fold_axis p cur :: tail) with (rev b ++ [fold_axis p cur] ++ tail) in E1.
        rewrite app_assoc in E1. apply app_inv_tail in E1.
        destruct (@exists_last _ (x :: post)) as (q & y & Eq); [discriminate|]. rewrite Eq in *. exists q.
        rewrite app_assoc in E1. apply app_inj_tail in E1. destruct E1 as [_ <-]. auto. }
      destruct D as (post0 & D). destruct post0 as [|y post1].
      * injection D as -> ->. exists pre, p, [cur]. repeat split.
        -- change (pre ++ fold_axis p cur :: [] ++ tail) with (pre ++ [fold_axis p cur] ++ tail) in E1.
           rewrite app_assoc in E1. change (rev b ++ fold_axis p cur :: tail) with (rev b ++ [fold_axis p cur] ++ tail) in E1.
           rewrite app_assoc in E1. apply app_inv_tail, app_inj_tail in E1. destruct E1 as [<- _]. cbn [rev]. rewrite <- app_assoc. auto.
        -- rewrite chg_fold in E2; auto.
        -- cbn. rewrite Ec. auto.
        -- rewrite E4. unfold prod. cbn. lia.
        -- rewrite E5. unfold prod. cbn. lia.
      * injection D as -> ->. exists pre, y, (post1 ++ [p; cur]).
        rewrite forallb_app in E3. apply andb_prop in E3. destruct E3 as [E3 E3']. cbn [forallb] in E3'. rewrite andb_true_r, chg_fold in E3' by auto.
        repeat split; auto.
        -- change (pre ++ y :: (post1 ++ [fold_axis p cur]) ++ tail) with (pre ++ (y :: post1 ++ [fold_axis p cur]) ++ tail) in E1.
           rewrite app_assoc in E1. change (rev b ++ fold_axis p cur :: tail) with (rev b ++ [fold_axis p cur] ++ tail) in E1.
           rewrite app_assoc in E1. apply app_inv_tail in E1.
           change (y :: post1 ++ [fold_axis p cur]) with ((y :: post1) ++ [fold_axis p cur]) in E1. rewrite app_assoc in E1. apply app_inj_tail in E1. destruct E1 as [E1 _].
           cbn [rev]. rewrite E1, <- !app_assoc. cbn. auto.
        -- rewrite forallb_app, E3. cbn. rewrite E3', Ec. auto.
        -- rewrite E4. rewrite !app_comm_cons, !prod_app. f_equal. unfold prod. cbn. lia.
        -- rewrite E5, !prod_app. f_equal. f_equal. unfold prod. cbn. lia.
Qed.

(** ** Index forms *)
Fixpoint nch (ins outs : list nat) : nat :=
  match ins, outs with
  | d :: ins', o :: outs' => (if d =? o then 0 else 1) + nch ins' outs'
  | _, _ => 0
  end.

Fixpoint quiet (ins outs : list nat) : bool :=
  match ins, outs with
  | d :: ins', o :: outs' => if d =? o then (d =? 1) && quiet ins' outs' else true
  | _, _ => true
  end.

Lemma changed_0 d o ins outs : changed (d :: ins) (o :: outs) 0 <-> d <> o.
Proof. reflexivity. Qed.
Lemma changed_S d o ins outs i : changed (d :: ins) (o :: outs) (S i) <-> changed ins outs i.
Proof. reflexivity. Qed.

Lemma nch_0 ins : forall outs, length ins = length outs -> (nch ins outs = 0 <-> forall i, ~ changed ins outs i).
Proof.
  induction ins as [|d ins IH]; intros [|o outs] L; try discriminate.
  - split; [intros _ i H; apply H; destruct i; auto|auto].
  - injection L as L. cbn [nch]. destruct (Nat.eqb_spec d o) as [->|N].
    + cbn. rewrite (IH outs L). split; intros H i.
      * destruct i; [rewrite changed_0; congruence|rewrite changed_S; auto].
      * intros H'. apply (H (S i)). rewrite changed_S; auto.
    + split; [discriminate|]. intros H. destruct (H 0). rewrite changed_0; auto.
Qed.

Lemma nch_1 ins : forall outs, length ins = length outs -> (nch ins outs = 1 <-> changes_one ins outs).
Proof.
  induction ins as [|d ins IH]; intros [|o outs] L; try discriminate.
  - split; [discriminate|]. intros (i & H). assert (X : changed [] [] i) by (apply H; auto). destruct X. destruct i; auto.
  - injection L as L. cbn [nch]. destruct (Nat.eqb_spec d o) as [->|N].
    + cbn. rewrite (IH outs L). split; intros (i & H).
      * exists (S i). intros [|j]. { rewrite changed_0. split; intros; [congruence|discriminate]. }
        rewrite changed_S, H. split; intros; [f_equal; auto|injection H0; auto].
      * destruct i as [|i]. { destruct (proj2 (H 0) eq_refl). reflexivity. }
        exists i. intros j. rewrite <- (changed_S o o), H. split; intros E; [injection E; auto|f_equal; auto].
    + assert (E : (1 + nch ins outs = 1) <-> nch ins outs = 0) by lia. rewrite E, (nch_0 ins outs L). split.
      * intros H. exists 0. intros [|j]; [rewrite changed_0; tauto|]. rewrite changed_S. split; [intros X; destruct (H _ X)|discriminate].
      * intros (i & H) j X. assert (X0 : 0 = i) by (apply H; rewrite changed_0; auto). subst i.
        assert (X1 : S j = 0) by (apply H; rewrite changed_S; auto). discriminate.
Qed.

Lemma nch_2 ins : forall outs, length ins = length outs -> (nch ins outs = 2 /\ quiet ins outs = true <-> changes_two ins outs).
Proof.
  induction ins as [|d ins IH]; intros [|o outs] L; try discriminate.
  - split; [intros [? _]; discriminate|]. intros (i & k & _ & H & _). assert (X : changed [] [] i) by (apply H; auto). destruct X. destruct i; auto.
  - injection L as L. cbn [nch quiet]. destruct (Nat.eqb_spec d o) as [->|N].
    + cbn [Nat.add]. destruct (Nat.eqb_spec o 1) as [->|No]; cbn [andb].
      * rewrite (IH outs L). split; intros (i & k & Hik & H & H1).
        -- exists (S i), (S k). split; [lia|]. split.
           ++ intros [|j]; [rewrite changed_0; split; intros; [congruence|lia]|]. rewrite changed_S, H. lia.
           ++ intros [|j] Hj; cbn; auto. apply H1. lia.
        -- destruct i as [|i]. { destruct (proj2 (H 0) (or_introl eq_refl)). reflexivity. }
           destruct k as [|k]; [lia|]. exists i, k. split; [lia|]. split.
           ++ intros j. rewrite <- (changed_S 1 1), H. lia.
           ++ intros j Hj. apply (H1 (S j)). lia.
      * split; [intros [_ X]; discriminate|]. intros (i & k & Hik & H & H1).
        destruct i as [|i]. { destruct (proj2 (H 0) (or_introl eq_refl)). reflexivity. }
        specialize (H1 0 ltac:(lia)). cbn in H1. congruence.
    + assert (E : (1 + nch ins outs = 2 /\ true = true) <-> nch ins outs = 1) by (split; [intros [? _]|intros; split]; auto; lia).
      rewrite E, (nch_1 ins outs L). split.
      * intros (k & H). exists 0, (S k). split; [lia|]. split; [|intros; lia].
        intros [|j]; [rewrite changed_0; tauto|]. rewrite changed_S, H. lia.
      * intros (i & k & Hik & H & H1). assert (X : 0 = i \/ 0 = k) by (apply H; rewrite changed_0; auto).
        destruct X as [<-|X]; [|lia]. destruct k as [|k]; [lia|]. exists k. intros j. rewrite <- (changed_S d o), H. lia.
Qed.

Lemma quiet_repeats ins : forall outs, length ins = length outs -> (quiet ins outs = false <-> repeats ins outs).
Proof.
  induction ins as [|d ins IH]; intros [|o outs] L; try discriminate.
  - split; [discriminate|]. intros (j & H & _). destruct H. destruct j; auto.
  - injection L as L. cbn [quiet]. destruct (Nat.eqb_spec d o) as [->|N].
    + destruct (Nat.eqb_spec o 1) as [->|No]; cbn [andb].
      * rewrite (IH outs L). split; intros (j & H1 & H2).
        -- exists (S j). split; auto. intros [|i]; [rewrite changed_0; congruence|]. rewrite changed_S. intros X. specialize (H2 _ X). lia.
        -- destruct j as [|j]; [cbn in H1; congruence|]. exists j. split; auto. intros i X. specialize (H2 (S i)). rewrite changed_S in H2. specialize (H2 X). lia.
      * split; auto. intros _. exists 0. split; auto. intros [|i]; [rewrite changed_0; congruence|lia].
    + split; [discriminate|]. intros (j & _ & H). specialize (H 0). rewrite changed_0 in H. specialize (H N). lia.
Qed.

Lemma zip_cnt begin : forall sizes ins outs, length begin = length ins -> length sizes = length ins -> length outs = length ins ->
  let l := zip_axes begin sizes (map Z.of_nat ins) (map Z.of_nat outs) in
  cnt l = nch ins outs /\ lead l = quiet ins outs.
Proof.
  induction begin as [|b begin IH]; intros [|s sizes] [|d ins] [|o outs] L1 L2 L3; try discriminate; cbn [zip_axes map]; auto.
  injection L1 as L1. injection L2 as L2. injection L3 as L3. destruct (IH sizes ins outs L1 L2 L3) as [H1 H2].
  unfold cnt. cbn [filter lead nch quiet]. 
  assert (E : chg (Axis b s (Z.of_nat d) (Z.of_nat o)) = negb (d =? o)).
  { unfold chg. cbn [a_in a_out]. f_equal. apply eq_true_iff_eq. rewrite Z.eqb_eq, Nat.eqb_eq. lia. }
  rewrite E. destruct (Nat.eqb_spec d o); cbn [negb length]; (split; [unfold cnt in H1; lia|]); auto.
  cbn [a_in]. rewrite H2. replace (Z.of_nat d =? 1)%Z with (d =? 1); [destruct (d =? 1); auto|].
  apply eq_true_iff_eq. rewrite Z.eqb_eq, Nat.eqb_eq. lia.
Qed.

Lemma zip_pos begin : forall sizes ins outs, Forall (fun d => 0 < d) ins -> Forall (fun d => 0 < d) outs ->
  Forall pos_ax (zip_axes begin sizes (map Z.of_nat ins) (map Z.of_nat outs)).
Proof.
  induction begin as [|b begin IH]; intros [|s sizes] [|d ins] [|o outs] H1 H2; cbn [zip_axes map]; auto.
  inversion H1; inversion H2; subst. constructor; auto. split; cbn [a_in a_out]; lia.
Qed.

(** the number of axes left, in terms of the two shapes *)
Lemma merged_len begin sizes ins outs : ins <> [] -> length begin = length ins -> length sizes = length ins -> length outs = length ins ->
  Forall (fun d => 0 < d) ins -> Forall (fun d => 0 < d) outs ->
  exists m, merge_axes (zip_axes begin sizes (map Z.of_nat ins) (map Z.of_nat outs)) = Some m /\
    length m = nch ins outs + (if quiet ins outs then 0 else 1).
Proof.
  intros Hne L1 L2 L3 P1 P2. destruct (zip_cnt begin sizes ins outs L1 L2 L3) as [H1 H2]. rewrite <- H1, <- H2.
  apply merge_axes_len; [|apply zip_pos; auto].
  destruct begin, sizes, ins, outs; try discriminate; congruence.
Qed.

Lemma same_dims_nat ins : forall outs, same_dims (map Z.of_nat ins) (map Z.of_nat outs) = true <-> ins = outs.
Proof.
  induction ins as [|d ins IH]; intros [|o outs]; cbn; try (split; congruence).
  rewrite andb_true_iff, Z.eqb_eq, IH. split; [intros [? ->]; f_equal; lia|intros H; injection H; intros; subst; auto].
Qed.

Lemma nch_same ins : nch ins ins = 0.
Proof. induction ins; cbn; auto. rewrite Nat.eqb_refl. auto. Qed.

(** ** the last merged axis *)
Lemma zip_maps begin : forall sizes ins outs, length begin = length ins -> length sizes = length ins -> length outs = length ins ->
  let l := zip_axes begin sizes ins outs in map a_in l = ins /\ map a_out l = outs.
Proof.
  induction begin as [|b begin IH]; intros [|s sizes] [|d ins] [|o outs] L1 L2 L3; try discriminate; cbn [zip_axes map]; auto.
  injection L1 as L1. injection L2 as L2. injection L3 as L3. destruct (IH sizes ins outs L1 L2 L3) as [-> ->]. auto.
Qed.

Lemma prod_nat l : fold_right Z.mul 1%Z (map Z.of_nat l) = Z.of_nat (fold_right Nat.mul 1 l).
Proof. induction l; cbn [map fold_right]; auto. rewrite IHl. lia. Qed.

Lemma skipn_map' {A B} (f : A -> B) n : forall l, skipn n (map f l) = map f (skipn n l).
Proof. induction n; intros [|x l]; cbn; auto. Qed.

Definition ax1 := Axis 0 0 1 1.

Lemma changed_ax l ins outs i : map a_in l = map Z.of_nat ins -> map a_out l = map Z.of_nat outs ->
  changed ins outs i <-> chg (nth i l ax1) = true.
Proof.
  intros H1 H2. unfold changed, chg.
  assert (E1 : a_in (nth i l ax1) = Z.of_nat (nth i ins 1)).
  { rewrite <- (map_nth a_in), H1. cbn [ax1 a_in]. change 1%Z with (Z.of_nat 1). apply map_nth. }
  assert (E2 : a_out (nth i l ax1) = Z.of_nat (nth i outs 1)).
  { rewrite <- (map_nth a_out), H2. cbn [ax1 a_out]. change 1%Z with (Z.of_nat 1). apply map_nth. }
  rewrite E1, E2, negb_true_iff, Z.eqb_neq. lia.
Qed.

Lemma merged_inner begin sizes ins outs m a : length begin = length ins -> length sizes = length ins -> length outs = length ins ->
  Forall (fun d => 0 < d) ins -> Forall (fun d => 0 < d) outs -> nch ins outs <> 0 ->
  merge_axes (zip_axes begin sizes (map Z.of_nat ins) (map Z.of_nat outs)) = Some (m ++ [a]) ->
  exists k, last_changed ins outs k /\ a_in a = Z.of_nat (fold_right Nat.mul 1 (skipn k ins)) /\
    a_out a = Z.of_nat (fold_right Nat.mul 1 (skipn k outs)).
Proof.
  intros L1 L2 L3 P1 P2 Hn Hm.
  destruct (zip_maps begin sizes (map Z.of_nat ins) (map Z.of_nat outs)) as [M1 M2]; try (rewrite !map_length; auto).
  pose proof (zip_pos begin sizes ins outs P1 P2) as Hp.
  set (l := zip_axes begin sizes (map Z.of_nat ins) (map Z.of_nat outs)) in *. unfold merge_axes in Hm.
  destruct (rev l) as [|c b] eqn:Er; [discriminate|].
  assert (El : l = rev b ++ [c]) by (rewrite <- (rev_involutive l), Er; auto).
  assert (Hp' : Forall pos_ax (c :: b)) by (rewrite <- Er; apply Forall_rev; auto).
  inversion Hp' as [|? ? Pc Pb]; subst x l0.
  destruct (merge_hd b c ax1 [] Pc Pb) as (pre & x & post & E1 & E2 & E3 & E4 & E5). rewrite app_nil_r in E1.
  assert (Ea : hd ax1 (merge_loop c b) = a).
  { destruct (rev (merge_loop c b)) as [|f r] eqn:Em; [discriminate|].
    assert (Em' : merge_loop c b = rev (f :: r)) by (rewrite <- Em, rev_involutive; auto). rewrite Em'.
    injection Hm as Hm. destruct ((a_in f =? 1) && (a_out f =? 1))%Z.
    - subst r. cbn [rev]. rewrite rev_app_distr. auto.
    - destruct m as [|y m]; cbn [app] in Hm; injection Hm as -> ->; cbn [rev]; auto. rewrite rev_app_distr. auto. }
  rewrite Ea in E4, E5. rewrite E1 in El. 
  assert (Cx : chg x = true).
  { destruct E2 as [->|]; auto. destruct (chg x) eqn:Cx; auto. destruct Hn. apply nch_0; auto. intros i. rewrite (changed_ax l); auto. rewrite El. cbn [app].
    rewrite not_true_iff_false. destruct i as [|i]; auto. cbn [nth].
    destruct (Nat.lt_ge_cases i (length post)) as [Hi|Hi].
    - rewrite forallb_forall in E3. specialize (E3 _ (nth_In post ax1 Hi)). rewrite negb_true_iff in E3. auto.
    - rewrite nth_overflow; auto. }
  exists (length pre).
  assert (S1 : skipn (length pre) l = x :: post) by (rewrite El, skipn_app, skipn_all, Nat.sub_diag; auto).
  split; [split|split].
  - rewrite (changed_ax l); auto. rewrite El, app_nth2, Nat.sub_diag; auto.
  - intros j Hj. rewrite (changed_ax l); auto. rewrite El, app_nth2 by lia. rewrite not_true_iff_false.
    destruct (j - length pre) as [|i] eqn:Ej; [lia|]. cbn [nth].
    destruct (Nat.lt_ge_cases i (length post)) as [Hi|Hi].
    + rewrite forallb_forall in E3. specialize (E3 _ (nth_In post ax1 Hi)). rewrite negb_true_iff in E3. auto.
    + rewrite nth_overflow; auto.
  - rewrite E4. unfold prod. rewrite <- S1, <- skipn_map', M1, skipn_map'. apply prod_nat.
  - rewrite E5. rewrite <- prod_nat, <- skipn_map', <- M2, skipn_map', S1. unfold prod. cbn [map fold_right]. f_equal.
    rewrite forallb_forall in E3. f_equal. apply map_ext_in. intros y Hy. specialize (E3 _ Hy). unfold chg in E3. rewrite negb_involutive in E3. apply Z.eqb_eq in E3. auto.
Qed.

Lemma last_changed_unique ins outs k k' : last_changed ins outs k -> last_changed ins outs k' -> k = k'.
Proof. intros [A B] [C D]. destruct (Nat.lt_trichotomy k k') as [H|[H|H]]; auto; [destruct (B _ H C)|destruct (D _ H A)]. Qed.

(** ** broadcast *)
Lemma compatible_iff ins : forall outs, length ins = length outs ->
  (compatible (map Z.of_nat ins) (map Z.of_nat outs) = true <-> forall i, changed ins outs i -> nth i ins 1 = 1).
Proof.
  induction ins as [|d ins IH]; intros [|o outs] L; try discriminate; cbn [compatible map].
  - split; auto. intros _ i H. destruct i; auto.
  - injection L as L. rewrite andb_true_iff, orb_true_iff, !Z.eqb_eq, (IH outs L). split.
    + intros [H1 H2] [|i]; [rewrite changed_0; cbn [nth]; lia|]. rewrite changed_S. apply H2.
    + intros H. split; [|intros i X; apply (H (S i)); rewrite changed_S; auto].
      specialize (H 0). rewrite changed_0 in H. cbn [nth] in H. destruct (Nat.eq_dec d o); [left|right]; lia.
Qed.

Lemma loop_after ins : forall outs size c b, length ins = length outs ->
  (broadcast_loop false size c b (map Z.of_nat ins) (map Z.of_nat outs) <> None <-> forall i, ~ changed ins outs i).
Proof.
  induction ins as [|d ins IH]; intros [|o outs] size c b L; try discriminate; cbn [broadcast_loop map].
  - split; [|intros; discriminate]. intros _ i H. destruct H, i; auto.
  - injection L as L. destruct (Z.eqb_spec (Z.of_nat d) (Z.of_nat o)) as [E|N]; cbn [negb].
    + rewrite IH; auto. assert (d = o) by lia. subst o. split; intros H i.
      * destruct i; [rewrite changed_0; congruence|rewrite changed_S; auto].
      * intros X. apply (H (S i)). rewrite changed_S; auto.
    + split; [congruence|]. intros H. destruct (H 0). rewrite changed_0. lia.
Qed.

Definition gap (ins outs : list nat) (j k : nat) : Prop :=
  j < k /\ ~ changed ins outs j /\ nth j outs 1 <> 1 /\ changed ins outs k.

Lemma loop_mid ins : forall outs size c b, length ins = length outs -> Forall (fun d => 0 < d) outs -> (1 < c)%Z ->
  (forall i, changed ins outs i -> nth i ins 1 = 1) ->
  (broadcast_loop true size c b (map Z.of_nat ins) (map Z.of_nat outs) <> None <-> forall j k, ~ gap ins outs j k).
Proof.
  induction ins as [|d ins IH]; intros [|o outs] size c b L P Hc C; try discriminate; cbn [broadcast_loop map].
  - split; [|intros; discriminate]. intros _ j k (_ & _ & _ & H). destruct H, k; auto.
  - injection L as L. inversion P as [|? ? Po P']; subst.
    assert (C' : forall i, changed ins outs i -> nth i ins 1 = 1) by (intros i X; apply (C (S i)); rewrite changed_S; auto).
    assert (T : (d <> o \/ o = 1) -> (forall j k, ~ gap (d :: ins) (o :: outs) j k) <-> (forall j k, ~ gap ins outs j k)).
    { intros H0. split; intros H j k G.
      - apply (H (S j) (S k)). destruct G as (G1 & G2 & G3 & G4). repeat split; auto. lia.
      - destruct G as (G1 & G2 & G3 & G4). destruct j as [|j].
        + rewrite changed_0 in G2. cbn in G3. lia.
        + destruct k as [|k]; [lia|]. apply (H j k). repeat split; auto. lia. }
    destruct (Z.eqb_spec (Z.of_nat d) (Z.of_nat o)) as [E|N]; cbn [negb].
    + assert (d = o) by lia. subst d. replace (c =? 1)%Z with false by (symmetry; apply Z.eqb_neq; lia). cbn [negb andb].
      destruct (Z.eqb_spec (Z.of_nat o) 1) as [E1|N1]; cbn [negb].
      * rewrite IH; auto. rewrite T; [tauto|]. right; lia.
      * rewrite loop_after; auto. split.
        -- intros H j k (_ & _ & _ & G). destruct k; [rewrite changed_0 in G; congruence|]. rewrite changed_S in G. destruct (H _ G).
        -- intros H i X. apply (H 0 (S i)). repeat split; auto; try lia; cbn; lia.
    + rewrite IH; auto; [rewrite T; [tauto|left; lia]|]. nia.
Qed.

Lemma loop_start ins : forall outs size b, length ins = length outs -> Forall (fun d => 0 < d) outs ->
  (forall i, changed ins outs i -> nth i ins 1 = 1) ->
  (broadcast_loop true size 1 b (map Z.of_nat ins) (map Z.of_nat outs) <> None <->
   forall i j k, i < j -> changed ins outs i -> ~ gap ins outs j k).
Proof.
  induction ins as [|d ins IH]; intros [|o outs] size b L P C; try discriminate; cbn [broadcast_loop map].
  - split; [|intros; discriminate]. intros _ i j k _ H. destruct H, i; auto.
  - injection L as L. inversion P as [|? ? Po P']; subst.
    assert (C' : forall i, changed ins outs i -> nth i ins 1 = 1) by (intros i X; apply (C (S i)); rewrite changed_S; auto).
    destruct (Z.eqb_spec (Z.of_nat d) (Z.of_nat o)) as [E|N]; cbn [negb andb Z.eqb].
    + change (1 =? 1)%positive with true. cbn [negb andb]. rewrite IH; auto. assert (d = o) by lia. subst d. split; intros H i j k Hij X G.
      * destruct i as [|i]; [rewrite changed_0 in X; congruence|]. destruct j as [|j]; [lia|]. destruct G as (G1 & G2 & G3 & G4).
        destruct k as [|k]; [lia|]. apply (H i j k); auto; [lia|]. repeat split; auto. lia.
      * destruct G as (G1 & G2 & G3 & G4). apply (H (S i) (S j) (S k)); [lia|rewrite changed_S; auto|]. repeat split; auto; lia.
    + assert (d = 1) by (apply (C 0); rewrite changed_0; lia). subst d.
      rewrite loop_mid; auto; [|lia]. split.
      * intros H i j k Hij X (G1 & G2 & G3 & G4). destruct j as [|j]; [lia|]. destruct k as [|k]; [lia|]. apply (H j k). repeat split; auto; lia.
      * intros H j k (G1 & G2 & G3 & G4). apply (H 0 (S j) (S k)); [lia|rewrite changed_0; lia|]. repeat split; auto; lia.
Qed.
