(** C75 for bottoms that are slices: which operations are labelled, and when the pass crashes. *)
From Verif Require Import Base LabelModel LabelSpec LabelProps.
Local Open Scope Z_scope.

(** One visit of the walk. *)
Definition visit (ops : list opkind) (r : request) (p : nat) (st : list labels) : option (list labels) :=
  let '(b, t, n) := r in
  match nth_error ops p with
  | None | Some NotCounted => Some st
  | Some o =>
      let k := number ops p in
      if k =? b then
        match o with
        | SliceOf (Some d) => Some (update d set_label (update p set_label st))
        | SliceOf None => None
        | _ => Some (update p (set_start n) st)
        end
      else if (k <? b) && (k >=? t) then Some (update p (set_range n) st) else Some st
  end.
Fixpoint visits (ops : list opkind) (r : request) (ps : list nat) (st : list labels) : option (list labels) :=
  match ps with [] => Some st | p :: ps' => match visit ops r p st with Some st' => visits ops r ps' st' | None => None end end.

Lemma walk_visits b t n : forall ops pre st,
  walk b t n ops (length pre) (Z.of_nat (length (filter counted pre))) st = visits (pre ++ ops) (b, t, n) (seq (length pre) (length ops)) st.
Proof.
  induction ops as [|o ops IH]; intros pre st; [reflexivity|].
  assert (E : pre ++ o :: ops = (pre ++ [o]) ++ ops) by (rewrite <- app_assoc; reflexivity).
  assert (LP : length (pre ++ [o]) = S (length pre)) by (rewrite app_length; cbn; lia).
  assert (FC : Z.of_nat (length (filter counted (pre ++ [o]))) = Z.of_nat (length (filter counted pre)) + (if counted o then 1 else 0)).
  { rewrite filter_app, app_length. cbn [filter]. destruct (counted o); cbn [length]; lia. }
  assert (NO : nth_error (pre ++ o :: ops) (length pre) = Some o) by (rewrite nth_error_app2, Nat.sub_diag by lia; reflexivity).
  cbn [length seq visits]. unfold visit. rewrite NO, number_app. remember (Z.of_nat (length (filter counted pre))) as k eqn:Ek.
  assert (K : forall st1, walk b t n ops (S (length pre)) (k + (if counted o then 1 else 0)) st1 =
    visits (pre ++ o :: ops) (b, t, n) (seq (S (length pre)) (length ops)) st1).
  { intros st1. rewrite <- FC, <- LP, E. apply IH. }
  destruct o as [|[d|]|]; cbn [walk counted] in *.
  - rewrite <- K, Z.add_0_r. reflexivity.
  - destruct (k =? b); [apply K|]. destruct ((k <? b) && (k >=? t)); apply K.
  - destruct (k =? b); [reflexivity|]. destruct ((k <? b) && (k >=? t)); apply K.
  - destruct (k =? b); [apply K|]. destruct ((k <? b) && (k >=? t)); apply K.
Qed.

(** What the visit of [p] asks for [q]. *)
Definition raises_at (ops : list opkind) (r : request) (p q : nat) : Prop :=
  (q = p /\ exists o, nth_error ops q = Some o /\ counted o = true /\ is_inner r (number ops q)) \/
  (exists d, nth_error ops p = Some (SliceOf (Some d)) /\ is_bottom r (number ops p) /\ (q = p \/ q = d)).
Lemma raises_to_raise ops r q : to_raise ops r q <-> exists p, raises_at ops r p q.
Proof.
  split.
  - intros [H|(p & d & H)]; [exists q; left; auto|exists p; right; exists d; auto].
  - intros (p & [[-> H]|(d & H)]); [left; auto|right; exists p, d; auto].
Qed.
Definition crashes_at (ops : list opkind) (r : request) (p : nat) : Prop :=
  nth_error ops p = Some (SliceOf None) /\ is_bottom r (number ops p).

Definition changed (P S N : nat -> Prop) (n : Z) (st st' : list labels) : Prop :=
  length st' = length st /\ forall q x, nth_error st q = Some x -> exists y, nth_error st' q = Some y /\
    (l_label y = true <-> l_label x = true \/ P q) /\ (l_start y = true <-> l_start x = true \/ S q) /\
    (N q -> l_num y = Some n) /\ (~ N q -> l_num y = l_num x).

Lemma visit_ok ops r p st :
  (visit ops r p st = None <-> crashes_at ops r p) /\
  forall st', visit ops r p st = Some st' ->
    changed (raises_at ops r p) (fun q => q = p /\ to_split ops r q) (fun q => q = p /\ numbers ops r q) (bands_of r) st st'.
Proof.
  destruct r as [[b t] n]. unfold visit, changed, raises_at, crashes_at, to_split, numbers, to_split. cbn [is_bottom is_inner bands_of snd].
  destruct (nth_error ops p) as [o|] eqn:E.
  2:{ split; [split; [discriminate|intros [? _]; discriminate]|]. intros st' H. injection H as <-. split; auto. intros q x X. exists x. split; auto.
      repeat split; auto.
      - intros [H|[(-> & o & H & _)|(d & H & _)]]; auto; congruence.
      - intros [H|(-> & H & _)]; auto; congruence.
      - intros (-> & [[H _]|(o & H & _)]); congruence. }
  destruct o as [|sd|].
  - split; [split; [discriminate|intros [? _]; discriminate]|]. intros st' H. injection H as <-. split; auto. intros q x X. exists x. split; auto.
    repeat split; auto.
    + intros [H|[(-> & o & H & C & _)|(d & H & _)]]; auto; [|congruence]. rewrite E in H. injection H as <-. discriminate.
    + intros [H|(-> & H & _)]; auto; congruence.
    + intros (-> & [[H _]|(o & H & C & _)]); [congruence|]. rewrite E in H. injection H as <-. discriminate.
  - cbn [counted]. destruct (Z.eqb_spec (number ops p) b) as [KB|KB].
    + destruct sd as [d|].
      * split; [split; [discriminate|intros [? _]; discriminate]|]. intros st' H. injection H as <-. split; [rewrite !length_update; auto|].
        intros q x X. rewrite !nth_update, X. cbn [option_map].
        set (y := if Nat.eqb p q then set_label x else x).
        assert (Ey : (if Nat.eqb p q then Some (set_label x) else Some x) = Some y) by (unfold y; destruct (Nat.eqb p q); reflexivity).
        rewrite Ey. exists (if Nat.eqb d q then set_label y else y). split; [destruct (Nat.eqb d q); reflexivity|].
        assert (Ny : l_num (if Nat.eqb d q then set_label y else y) = l_num x) by (unfold y; destruct (Nat.eqb d q), (Nat.eqb p q); reflexivity).
        assert (Sy : l_start (if Nat.eqb d q then set_label y else y) = l_start x) by (unfold y; destruct (Nat.eqb d q), (Nat.eqb p q); reflexivity).
        rewrite Ny, Sy. repeat split; auto.
        -- intros H. destruct (Nat.eqb_spec d q) as [->|]; [right; right; exists q; auto|]. unfold y in H.
           destruct (Nat.eqb_spec p q) as [->|]; [right; right; exists d; auto|]. auto.
        -- intros [H|[(-> & o & H & C & I)|(d' & H & _ & [->| ->])]].
           ++ unfold y. destruct (Nat.eqb d q), (Nat.eqb p q); cbn; auto.
           ++ lia.
           ++ unfold y. rewrite Nat.eqb_refl. destruct (Nat.eqb d p); reflexivity.
           ++ injection H as <-. rewrite Nat.eqb_refl. reflexivity.
        -- intros [H|(-> & H & _)]; auto; congruence.
        -- intros (-> & [[H _]|(o & H & C & I)]); [congruence|lia].
      * split; [split; auto|]. intros; discriminate.
    + split; [split; [destruct (_ && _); discriminate|intros [_ H]; congruence]|].
      assert (NR : forall d' q, ~ (Some (SliceOf sd) = Some (SliceOf (Some d')) /\ number ops p = b /\ (q = p \/ q = d'))) by (intros d' q (_ & H & _); congruence).
      destruct ((number ops p <? b) && (number ops p >=? t)) eqn:RG; intros st' H; injection H as <-.
      * split; [rewrite length_update; auto|]. intros q x X. rewrite nth_update, X. cbn [option_map].
        exists (if Nat.eqb p q then set_range n x else x). split; [destruct (Nat.eqb p q); reflexivity|].
        destruct (Nat.eqb_spec p q) as [<-|NQ]; cbn [set_range l_label l_start l_num].
        -- repeat split; auto.
           ++ intros _. right. left. split; auto. exists (SliceOf sd). split; [exact E|]. split; auto. lia.
           ++ intros [H|(_ & H & _)]; auto; congruence.
           ++ intros H. exfalso. apply H. split; auto. right. exists (SliceOf sd). split; [exact E|]. split; auto. lia.
        -- repeat split; auto.
           ++ intros [H|[(-> & _)|(d' & H)]]; [auto|congruence|destruct (NR d' q H)].
           ++ intros [H|(-> & _)]; auto; congruence.
           ++ intros (-> & _); congruence.
      * split; auto. intros q x X. exists x. split; auto. repeat split; auto.
        -- intros [H|[(-> & o & _ & _ & I)|(d' & H)]]; auto; [lia|destruct (NR d' q H)].
        -- intros [H|(-> & H & _)]; auto; congruence.
        -- intros (-> & [[H _]|(o & _ & _ & I)]); [congruence|lia].
  - cbn [counted]. destruct (Z.eqb_spec (number ops p) b) as [KB|KB].
    + split; [split; [discriminate|intros [? _]; discriminate]|]. intros st' H. injection H as <-. split; [rewrite length_update; auto|].
      intros q x X. rewrite nth_update, X. cbn [option_map]. exists (if Nat.eqb p q then set_start n x else x). split; [destruct (Nat.eqb p q); reflexivity|].
      destruct (Nat.eqb_spec p q) as [<-|NQ]; cbn [set_start l_label l_start l_num].
      * repeat split; auto.
        -- intros [H|[(_ & o & _ & _ & I)|(d & H & _)]]; auto; [lia|congruence].
        -- intros H. exfalso. apply H. split; auto.
      * repeat split; auto.
        -- intros [H|[(-> & _)|(d & H & _)]]; auto; congruence.
        -- intros [H|(-> & _)]; auto; congruence.
        -- intros (-> & _); congruence.
    + split; [split; [destruct (_ && _); discriminate|intros [H _]; discriminate]|].
      destruct ((number ops p <? b) && (number ops p >=? t)) eqn:RG; intros st' H; injection H as <-.
      * split; [rewrite length_update; auto|]. intros q x X. rewrite nth_update, X. cbn [option_map].
        exists (if Nat.eqb p q then set_range n x else x). split; [destruct (Nat.eqb p q); reflexivity|].
        destruct (Nat.eqb_spec p q) as [<-|NQ]; cbn [set_range l_label l_start l_num].
        -- repeat split; auto.
           ++ intros _. right. left. split; auto. exists OtherOp. split; [exact E|]. split; auto. lia.
           ++ intros [H|(_ & _ & H)]; auto; congruence.
           ++ intros H. exfalso. apply H. split; auto. right. exists OtherOp. split; [exact E|]. split; auto. lia.
        -- repeat split; auto.
           ++ intros [H|[(-> & _)|(d & H & _)]]; auto; congruence.
           ++ intros [H|(-> & _)]; auto; congruence.
           ++ intros (-> & _); congruence.
      * split; auto. intros q x X. exists x. split; auto. repeat split; auto.
        -- intros [H|[(-> & o & _ & _ & I)|(d & H & _)]]; auto; [lia|congruence].
        -- intros [H|(-> & _ & H)]; auto; congruence.
        -- intros (-> & [[_ H]|(o & _ & _ & I)]); [congruence|lia].
Qed.

Lemma numbers_dec ops r q : numbers ops r q \/ ~ numbers ops r q.
Proof.
  destruct r as [[b t] n]. unfold numbers, to_split. cbn [is_bottom is_inner]. destruct (nth_error ops q) as [o|] eqn:E.
  - destruct (counted o) eqn:C.
    + destruct (Z_le_dec t (number ops q)); [destruct (Z_lt_dec (number ops q) b); [left; right; exists o; auto|]|].
      * destruct o; try discriminate.
        -- right. intros [[H _]|(o & H & _ & I)]; [discriminate|lia].
        -- destruct (Z.eq_dec (number ops q) b); [left; left; auto|]. right. intros [[_ H]|(o & H & _ & I)]; lia.
      * destruct o; try discriminate.
        -- right. intros [[H _]|(o & H & _ & I)]; [discriminate|lia].
        -- destruct (Z.eq_dec (number ops q) b); [left; left; auto|]. right. intros [[_ H]|(o & H & _ & I)]; lia.
    + right. intros [[H _]|(o' & H & C' & _)]; [injection H as ->; discriminate|injection H as <-; congruence].
  - right. intros [[H _]|(o' & H & _)]; discriminate.
Qed.

Lemma visits_ok ops r : forall ps st,
  (visits ops r ps st = None <-> exists p, In p ps /\ crashes_at ops r p) /\
  forall st', visits ops r ps st = Some st' ->
    changed (fun q => exists p, In p ps /\ raises_at ops r p q) (fun q => In q ps /\ to_split ops r q) (fun q => In q ps /\ numbers ops r q) (bands_of r) st st'.
Proof.
  induction ps as [|p ps IH]; intros st; cbn [visits].
  - split; [split; [discriminate|intros (p & [] & _)]|]. intros st' H. injection H as <-. split; auto. intros q x X. exists x. split; auto.
    repeat split; auto; [intros [H|(p & [] & _)]|intros [H|[[] _]]|intros [[] _]]; auto.
  - destruct (visit_ok ops r p st) as [V0 V1]. destruct (visit ops r p st) as [st1|] eqn:E.
    2:{ split; [|discriminate]. split; auto. intros _. exists p. split; [left; auto|apply V0; auto]. }
    destruct (V1 st1 eq_refl) as [L1 C1]. destruct (IH st1) as [I0 I1]. split.
    + rewrite I0. split; [intros (q & H & C); exists q; split; [right; auto|auto]|].
      intros (q & [<-|H] & C); [apply V0 in C; discriminate|exists q; auto].
    + intros st' H. destruct (I1 st' H) as [L2 C2]. split; [congruence|]. intros q x X. destruct (C1 q x X) as (y & Y & Y1 & Y2 & Y3 & Y4).
      destruct (C2 q y Y) as (z & Hz & Z1 & Z2 & Z3 & Z4). exists z. split; auto.
      split; [|split; [|split]].
      * rewrite Z1, Y1. split.
        -- intros [[A|A]|(p' & A & B)]; auto; right; [exists p|exists p']; split; cbn; auto.
        -- intros [A|(p' & [<-|A] & B)]; auto. right. eauto.
      * rewrite Z2, Y2. split.
        -- intros [[A|[-> A]]|[A B]]; auto; right; split; cbn; auto.
        -- intros [A|[[->|A] B]]; auto.
      * intros [A B]. destruct (in_dec Nat.eq_dec q ps) as [IN|NIN]; [apply Z3; auto|]. destruct A as [<-|A]; [|contradiction].
        rewrite Z4; [apply Y3; auto|]. intros [A _]. auto.
      * intros A. rewrite Z4; [rewrite Y4; auto|]; intros [B C]; apply A; split; cbn; auto.
Qed.

Lemma to_raise_range ops r q : to_raise ops r q <-> exists p, In p (seq 0 (length ops)) /\ raises_at ops r p q.
Proof.
  rewrite raises_to_raise. split; [|intros (p & _ & H); eauto]. intros (p & H). exists p. split; auto. apply in_seq. split; [lia|].
  cbn. apply nth_error_Some. destruct H as [[-> (o & H & _)]|(d & H & _)]; congruence.
Qed.
Lemma pairs_gen ops : forall bottoms tops nums st,
  length bottoms = length tops -> length tops = length nums -> length st = length ops ->
  let rs := requests bottoms tops nums in
  (label_pairs bottoms tops nums ops st = None <-> slice_of_argument ops rs) /\
  forall st', label_pairs bottoms tops nums ops st = Some st' -> length st' = length st /\
    forall q x, nth_error st q = Some x -> exists y, nth_error st' q = Some y /\
      (l_label y = true <-> l_label x = true \/ exists r, In r rs /\ to_raise ops r q) /\
      (l_start y = true <-> l_start x = true \/ exists r, In r rs /\ to_split ops r q) /\
      last_number ops rs q (l_num x) (l_num y).
Proof.
  induction bottoms as [|b bs IH]; intros [|t ts] [|n ns] st L1 L2 L; try discriminate; cbn zeta.
  - cbn [label_pairs]. split; [split; [discriminate|intros (r & p & [] & _)]|]. intros st' H. injection H as <-. split; auto. intros q x X. exists x. split; auto.
    repeat split; auto; intros [H|(r & [] & _)]; auto.
  - cbn [label_pairs]. pose proof (walk_visits b t n ops [] st) as W. cbn [length filter app] in W. change (Z.of_nat 0) with 0 in W. rewrite W. clear W.
    destruct (visits_ok ops (b, t, n) (seq 0 (length ops)) st) as [V0 V1].
    change (requests (b :: bs) (t :: ts) (n :: ns)) with ((b, t, n) :: requests bs ts ns).
    destruct (visits ops (b, t, n) (seq 0 (length ops)) st) as [st1|] eqn:E.
    2:{ split; [|discriminate]. split; auto. intros _. destruct (proj1 V0 eq_refl) as (p & _ & H1 & H2). exists (b, t, n), p. split; [left; auto|auto]. }
    destruct (V1 st1 eq_refl) as [L3 C1]. cbn [length] in L1, L2. destruct (IH ts ns st1 ltac:(lia) ltac:(lia) ltac:(lia)) as [I0 I1]. split.
    + rewrite I0. split.
      * intros (r & p & A & B). exists r, p. split; [right; auto|auto].
      * intros (r & p & [<-|A] & B); [|exists r, p; auto]. exfalso. assert (F : Some st1 = None); [|discriminate].
        apply V0. exists p. split; [|exact B]. apply in_seq. split; [lia|]. cbn. apply nth_error_Some. destruct B. congruence.
    + intros st' H. destruct (I1 st' H) as [L4 C2]. split; [congruence|]. intros q x X. destruct (C1 q x X) as (y & Y & Y1 & Y2 & Y3 & Y4).
      destruct (C2 q y Y) as (z & Hz & Z1 & Z2 & Z3). exists z. split; auto. split; [|split].
      * rewrite Z1, Y1, <- to_raise_range. split.
        -- intros [[A|A]|(r & A & B)]; auto; right; [exists (b, t, n)|exists r]; split; cbn [In]; auto.
        -- intros [A|(r & [<-|A] & B)]; auto. right. eauto.
      * assert (IQ : In q (seq 0 (length ops))).
        { apply in_seq. split; [lia|]. cbn. rewrite <- L. apply nth_error_Some. congruence. }
        rewrite Z2, Y2. split.
        -- intros [[A|[_ A]]|(r & A & B)]; auto; right; [exists (b, t, n)|exists r]; split; cbn [In]; auto.
        -- intros [A|(r & [<-|A] & B)]; auto. right. eauto.
      * assert (IQ : In q (seq 0 (length ops))).
        { apply in_seq. split; [lia|]. cbn. rewrite <- L. apply nth_error_Some. congruence. }
        cbn [last_number]. exists (l_num y). split; auto. split; [intros N; apply Y3; auto|]. intros N. apply Y4. intros [_ A]. auto.
Qed.

(** Whatever the requests: the pass dereferences a null pointer exactly when some bottom is a slice of a function argument;
    otherwise exactly the operations between top and bottom, the bottoms that are slices and the operations defining their
    inputs are labelled for raising, exactly the other bottoms start a split, and every operation has the number of bands of the
    last request that numbers it. *)
Theorem C75_labels_any_bottom : forall bottoms tops nums ops,
  length bottoms = length tops -> length tops = length nums ->
  let rs := requests bottoms tops nums in
  (label_ops bottoms tops nums ops = NullPointer <-> slice_of_argument ops rs) /\
  (~ slice_of_argument ops rs -> exists st, label_ops bottoms tops nums ops = Labelled st /\ length st = length ops /\
     forall p, (p < length ops)%nat -> exists x, nth_error st p = Some x /\
       (l_label x = true <-> exists r, In r rs /\ to_raise ops r p) /\
       (l_start x = true <-> exists r, In r rs /\ to_split ops r p) /\
       last_number ops rs p None (l_num x)).
Proof.
  intros bottoms tops nums ops L1 L2 rs. unfold label_ops. rewrite L1, L2, !Nat.eqb_refl. cbn [andb].
  assert (L0 : length (map (fun _ : opkind => no_labels) ops) = length ops) by apply map_length.
  destruct (pairs_gen ops bottoms tops nums (map (fun _ => no_labels) ops) L1 L2 L0) as [G0 G1].
  fold rs in G0, G1. destruct (label_pairs bottoms tops nums ops _) as [st|] eqn:E.
  - split; [split; [discriminate|intros H; apply G0 in H; discriminate]|]. intros _. exists st. split; auto. destruct (G1 st eq_refl) as [LS G]. split; [lia|].
    intros p H. assert (X : nth_error (map (fun _ : opkind => no_labels) ops) p = Some no_labels).
    { rewrite nth_error_map. destruct (nth_error ops p) eqn:N; [reflexivity|]. apply nth_error_None in N. lia. }
    destruct (G p no_labels X) as (y & Y & A & B & C). exists y. split; auto. split; [|split; [|exact C]].
    + rewrite A. cbn. split; [intros [H1|H1]; [discriminate|auto]|auto].
    + rewrite B. cbn. split; [intros [H1|H1]; [discriminate|auto]|auto].
  - split; [split; auto; intros _; apply G0; auto|]. intros N. destruct N. apply G0. auto.
Qed.
Print Assumptions C75_labels_any_bottom.

(** Convolution 0, slice 1 of it, add 2: raising the slice labels the slice and the convolution; the second request is not
    disturbed by the first. *)
Example C75_concrete_slice : label_ops [1; 2] [1; 2] [2; 3] [NotCounted; OtherOp; SliceOf (Some 1%nat); OtherOp; NotCounted] =
  Labelled [no_labels; Labels true false None; Labels true false None; Labels false true (Some 3); no_labels] /\
  ~ slice_of_argument [NotCounted; OtherOp; SliceOf (Some 1%nat); OtherOp; NotCounted] (requests [1; 2] [1; 2] [2; 3]).
Proof. split; [reflexivity|]. intros (r & p & _ & E & _). do 6 (destruct p as [|p]; try discriminate E). Qed.
