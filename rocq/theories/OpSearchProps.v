(** C46: the operation-split analysis. *)
From Verif Require Import Base OpSearchModel.
Local Open Scope Z_scope.

(** ** the number of splits *)
Lemma search_splits_spec fuel usage : forall n cur peak good r,
  search_splits fuel usage n cur peak good = Some r ->
  4 <= n -> peak = usage n ->
  good = (if (n =? 4) || (peak <? cur) then n else n - 1) ->
  (n <> 4 -> cur = usage (n - 1)) ->
  (forall k, 4 <= k -> k + 1 < n -> usage (k + 1) < usage k) ->
  4 <= r /\ (forall k, 4 <= k < r -> usage (k + 1) < usage k) /\ usage r <= usage (r + 1).
Proof.
  induction fuel as [|fuel IH]; intros n cur peak good r E Hn HP HG HC HM; cbn [search_splits] in E; [discriminate|].
  destruct ((n =? 4) || (peak <? cur)) eqn:T.
  - apply IH in E; auto; try lia.
    + rewrite HG. replace (n + 1 =? 4) with false by lia. cbn [orb]. destruct (usage (n + 1) <? peak); lia.
    + intros _. replace (n + 1 - 1) with n by lia. auto.
    + intros k H1 H2. destruct (Z.eq_dec (k + 1) n) as [K|K].
      * assert (k = n - 1) by lia. subst k. replace (n - 1 + 1) with n in * by lia.
        assert (n <> 4) by lia. rewrite HC in T by auto. lia.
      * apply HM; lia.
  - inv E. assert (N4 : n <> 4) by lia. specialize (HC N4). split; [lia|]. split.
    + intros k Hk. apply HM; lia.
    + replace (n - 1 + 1) with n by lia. lia.
Qed.

(** From numSplits = 5 on, every iteration lowers the usage. *)
Lemma search_splits_ends usage (NN : forall k, 0 <= usage k) : forall m n cur peak good,
  5 <= n -> peak = usage n -> peak <= Z.of_nat m -> exists fuel r, search_splits fuel usage n cur peak good = Some r.
Proof.
  induction m as [m IH] using (well_founded_induction lt_wf). intros n cur peak good Hn HP HM.
  destruct (Z.ltb_spec peak cur) as [L|L].
  - destruct (Z.ltb_spec (usage (n + 1)) peak) as [L2|L2].
    + assert (P0 : 0 <= usage (n + 1)) by apply NN.
      destruct (IH (Z.to_nat (usage (n + 1))) ltac:(lia) (n + 1) peak (usage (n + 1)) (n + 1)) as (fuel & r & E); try lia.
      exists (S fuel), r. cbn [search_splits]. replace ((n =? 4) || (peak <? cur)) with true by lia.
      replace (usage (n + 1) <? peak) with true by lia. exact E.
    + exists 2%nat. eexists. cbn [search_splits]. replace ((n =? 4) || (peak <? cur)) with true by lia.
      replace ((n + 1 =? 4) || (usage (n + 1) <? peak)) with false by lia. reflexivity.
  - exists 1%nat. eexists. cbn [search_splits]. replace ((n =? 4) || (peak <? cur)) with false by lia. reflexivity.
Qed.

Lemma search_splits_ends4 usage (NN : forall k, 0 <= usage k) : exists fuel r, search_splits fuel usage 4 (usage 4) (usage 4) 4 = Some r.
Proof.
  destruct (search_splits_ends usage NN (Z.to_nat (usage 5)) 5 (usage 4) (usage 5) (if usage 5 <? usage 4 then 5 else 4)) as (fuel & r & E); try lia.
  exists (S fuel), r. exact E.
Qed.

Lemma search_splits_more usage : forall fuel n cur peak good r, search_splits fuel usage n cur peak good = Some r ->
  forall k, search_splits (fuel + k) usage n cur peak good = Some r.
Proof.
  induction fuel as [|fuel IH]; intros n cur peak good r E k; cbn [search_splits plus] in *; [discriminate|].
  destruct ((n =? 4) || (peak <? cur)); auto.
Qed.

(** ** the bottom operator *)
Lemma search_bottom_usage fuel usage lasts : forall id peak gid gu two r u,
  search_bottom fuel usage lasts id peak gid gu two = Some (Found r u) ->
  (gid = 0 \/ gu = usage gid) -> r = 0 \/ u = usage r.
Proof.
  induction fuel as [|fuel IH]; intros id peak gid gu two r u E HG; cbn [search_bottom] in E; [discriminate|].
  destruct (id =? -1); [inv E; auto|].
  destruct ((usage id >=? peak) && two); [inv E; auto|].
  destruct (next_bottom lasts id) as [n|]; [|discriminate].
  destruct (usage id >=? peak); eapply IH; eauto.
Qed.

(** The chosen operator improved on the candidate before it (or on not splitting). *)
Definition improves (usage : Z -> Z) (lasts : list Z) (peakId peak id : Z) : Prop :=
  (id = peakId /\ usage id < peak) \/ exists j, next_bottom lasts j = Some id /\ usage id < usage j.
Lemma search_bottom_improves fuel usage lasts p0 u0 : forall id peak gid gu two r u,
  search_bottom fuel usage lasts id peak gid gu two = Some (Found r u) ->
  (gid = 0 \/ improves usage lasts p0 u0 gid) ->
  ((id = p0 /\ peak = u0) \/ exists j, next_bottom lasts j = Some id /\ peak = usage j) ->
  r = 0 \/ improves usage lasts p0 u0 r.
Proof.
  induction fuel as [|fuel IH]; intros id peak gid gu two r u E HG HP; cbn [search_bottom] in E; [discriminate|].
  destruct (id =? -1); [inv E; auto|].
  destruct ((usage id >=? peak) && two); [inv E; auto|].
  destruct (next_bottom lasts id) as [n|] eqn:NB; [|discriminate].
  destruct (usage id >=? peak) eqn:U.
  - eapply IH; eauto.
  - eapply IH; eauto. right. destruct HP as [[-> ->]|(j & HJ & ->)]; [left; split; [auto|lia]|right; exists j; split; [auto|lia]].
Qed.

Lemma search_bottom_more usage lasts : forall fuel id peak gid gu two r,
  search_bottom fuel usage lasts id peak gid gu two = Some r -> forall k, search_bottom (fuel + k) usage lasts id peak gid gu two = Some r.
Proof.
  induction fuel as [|fuel IH]; intros id peak gid gu two r E k; cbn [search_bottom plus] in *; [discriminate|].
  destruct (id =? -1); auto. destruct ((usage id >=? peak) && two); auto.
  destruct (next_bottom lasts id) as [n|]; auto. destruct (usage id >=? peak); auto.
Qed.

(** The candidate after operator [id]: the value with that index is looked up; if it is dead before [id] the search ends,
    otherwise the next candidate is the operator after which the value numbered by the larger of (its last user, [id] + 1) is
    dead. *)
Theorem C46_next_candidate : forall lasts id d, 0 <= id -> (forall v, In v lasts -> 0 <= v) ->
  nth_error lasts (Z.to_nat id) = Some d ->
  (d < id -> next_bottom lasts id = Some (-1)) /\
  (id <= d -> next_bottom lasts id = nth_error lasts (Z.to_nat (Z.max d (id + 1)))).
Proof.
  intros lasts id d H0 NN E. assert (A : at_index lasts id = Some d) by (unfold at_index; replace (id <? 0) with false by lia; exact E).
  unfold next_bottom. rewrite A. split; intros L.
  - replace (d <? id) with true by lia. reflexivity.
  - cbv zeta. replace (if d <? id then -1 else if d =? id then d + 1 else d) with (Z.max d (id + 1))
      by (destruct (Z.ltb_spec d id); [lia|]; destruct (Z.eqb_spec d id); lia).
    remember (Z.max d (id + 1)) as n eqn:En. replace (n =? -1) with false by lia. unfold at_index. replace (n <? 0) with false by lia.
    destruct (nth_error lasts (Z.to_nat n)) as [m|]; auto. f_equal. destruct (Z.eqb_spec m n); lia.
Qed.
(** Values die no earlier than the operator with their index. *)
Definition dies_late (lasts : list Z) : Prop := forall i v, nth_error lasts i = Some v -> Z.of_nat i <= v.

Lemma at_index_spec l i v : at_index l i = Some v -> 0 <= i /\ nth_error l (Z.to_nat i) = Some v.
Proof. unfold at_index. destruct (Z.ltb_spec i 0); [discriminate|auto]. Qed.

Lemma next_bottom_grows lasts id n : dies_late lasts -> next_bottom lasts id = Some n -> id < n /\ 0 <= id < Z.of_nat (length lasts).
Proof.
  intros D E. unfold next_bottom in E. destruct (at_index lasts id) as [e|] eqn:A; [|discriminate].
  apply at_index_spec in A. destruct A as [Hid A]. pose proof (D _ _ A) as De. rewrite Z2Nat.id in De by lia.
  assert (L : (Z.to_nat id < length lasts)%nat) by (apply nth_error_Some; congruence).
  replace (e <? id) with false in E by lia. 
  set (m := if e =? id then e + 1 else e) in *. assert (Hm : id < m) by (unfold m; destruct (Z.eqb_spec e id); lia).
  replace (m =? -1) with false in E by lia.
  destruct (at_index lasts m) as [q|] eqn:B; [|discriminate]. apply at_index_spec in B. destruct B as [_ B].
  apply D in B. rewrite Z2Nat.id in B by lia. destruct (q =? m); inv E; lia.
Qed.

Lemma search_bottom_ends usage lasts (D : dies_late lasts) : forall m id peak gid gu two,
  -1 <= id -> Z.of_nat (length lasts) - id <= Z.of_nat m -> exists fuel r, search_bottom fuel usage lasts id peak gid gu two = Some r.
Proof.
  assert (OUT : forall id peak gid gu two, Z.of_nat (length lasts) <= id -> exists fuel r, search_bottom fuel usage lasts id peak gid gu two = Some r).
  { intros id peak gid gu two H. exists 1%nat. cbn [search_bottom]. destruct (id =? -1); [eauto|].
    destruct ((usage id >=? peak) && two); [eauto|]. unfold next_bottom, at_index.
    destruct (id <? 0); [eauto|]. rewrite (proj2 (nth_error_None lasts (Z.to_nat id))) by lia. eauto. }
  induction m as [|m IH]; intros id peak gid gu two Hid HM; [apply OUT; lia|].
  destruct (Z.eqb_spec id (-1)) as [E|N].
  { exists 1%nat. cbn [search_bottom]. rewrite E. rewrite Z.eqb_refl. eauto. }
  destruct ((usage id >=? peak) && two) eqn:T.
  { exists 1%nat. cbn [search_bottom]. rewrite T. replace (id =? -1) with false by lia. eauto. }
  destruct (next_bottom lasts id) as [n|] eqn:NB.
  - destruct (next_bottom_grows _ _ _ D NB) as [G L].
    destruct (usage id >=? peak) eqn:U.
    + destruct (IH n (usage id) gid gu true ltac:(lia) ltac:(lia)) as (fuel & r & E). exists (S fuel), r. cbn [search_bottom].
      replace (id =? -1) with false by lia. rewrite U, NB. destruct two; [discriminate|]. exact E.
    + destruct (IH n (usage id) id (usage id) false ltac:(lia) ltac:(lia)) as (fuel & r & E). exists (S fuel), r. cbn [search_bottom].
      replace (id =? -1) with false by lia. rewrite U, NB. exact E.
  - exists 1%nat. cbn [search_bottom]. replace (id =? -1) with false by lia. rewrite T, NB. eauto.
Qed.

(** ** C46 *)
(** Whatever the peak usages, if no value dies before the operator with its index (one
    input, one result per operator), the analysis ends, and a suggested number of splits
    is the first one that adding a split does not improve. *)
Theorem C46_analysis_partial : forall usage lasts peak peakId,
  (forall id n, 0 <= usage id n) -> dies_late lasts -> 0 <= peakId ->
  exists fuel s, op_split_analysis fuel usage lasts peak peakId = Some s /\
  (forall k, op_split_analysis (fuel + k) usage lasts peak peakId = Some s) /\
  match s with
  | BadRead => True
  | Suggest id n => (id = 0 /\ n = 4) \/
      (improves (fun i => usage i 4) lasts peakId peak id /\ 4 <= n /\ (forall k, 4 <= k < n -> usage id (k + 1) < usage id k) /\ usage id n <= usage id (n + 1) /\ usage id n <= usage id 4)
  end.
Proof.
  intros usage lasts peak peakId NN D HP.
  destruct (search_bottom_ends (fun id => usage id 4) lasts D (Z.to_nat (Z.of_nat (length lasts) + 1)) peakId peak 0 0 false ltac:(lia) ltac:(lia)) as (f1 & r & E1).
  destruct r as [id u|].
  2:{ exists f1, BadRead. unfold op_split_analysis. rewrite E1. split; [reflexivity|]. split; [|exact I].
      intros k. rewrite (search_bottom_more _ _ _ _ _ _ _ _ _ E1). reflexivity. }
  destruct (Z.eqb_spec id 0) as [->|N].
  { exists f1, (Suggest 0 4). unfold op_split_analysis. rewrite E1. split; [reflexivity|]. split; [|left; auto].
    intros k. rewrite (search_bottom_more _ _ _ _ _ _ _ _ _ E1). reflexivity. }
  destruct (search_bottom_usage _ _ _ _ _ _ _ _ _ _ E1 (or_introl eq_refl)) as [K|K]; [contradiction|].
  destruct (search_bottom_improves _ _ _ peakId peak _ _ _ _ _ _ _ E1 (or_introl eq_refl) (or_introl (conj eq_refl eq_refl))) as [K2|K2]; [contradiction|].
  destruct (search_splits_ends4 (usage id) (NN id)) as (f2 & n & E2).
  exists (f1 + f2)%nat, (Suggest id n). unfold op_split_analysis.
  rewrite (search_bottom_more _ _ _ _ _ _ _ _ _ E1). replace (id =? 0) with false by lia. rewrite K.
  rewrite (Nat.add_comm f1 f2), (search_splits_more _ _ _ _ _ _ _ E2).
  split; [reflexivity|]. split.
  - intros k. rewrite (Nat.add_comm f2 f1), <- Nat.add_assoc, (search_bottom_more _ _ _ _ _ _ _ _ _ E1).
    replace (id =? 0) with false by lia. rewrite K. replace (f1 + (f2 + k))%nat with (f2 + (f1 + k))%nat by lia.
    rewrite (search_splits_more _ _ _ _ _ _ _ E2). reflexivity.
  - right. destruct (search_splits_spec _ _ _ _ _ _ _ E2) as (S1 & S2 & S3); try lia; try reflexivity.
    + split; [exact K2|]. repeat split; auto. clear - S1 S2.
      assert (X : forall j : nat, 4 + Z.of_nat j <= n -> usage id (4 + Z.of_nat j) <= usage id 4).
      { induction j as [|j IH]; intros H; [replace (4 + Z.of_nat 0) with 4 by lia; lia|].
        specialize (IH ltac:(lia)). specialize (S2 (4 + Z.of_nat j) ltac:(lia)).
        replace (4 + Z.of_nat (S j)) with (4 + Z.of_nat j + 1) by lia. lia. }
      specialize (X (Z.to_nat (n - 4))). replace (4 + Z.of_nat (Z.to_nat (n - 4))) with n in X by lia. apply X. lia.
Qed.
Example C46_concrete : dies_late [0; 1; 2; 3; 4; 5; 6] /\
  op_split_analysis 20 (fun id n => if id =? 2 then 90 + (n - 6) * (n - 6) else 100 + id) [0; 1; 2; 3; 4; 5; 6] 100 2 = Some (Suggest 2 6).
Proof.
  split; [|reflexivity]. intros i v H.
  do 7 (destruct i as [|i]; [cbn in H; inv H; lia|]). destruct i; discriminate.
Qed.

(** The suggestion can need more memory than not splitting: unsplit 100, suggested 110. *)
Theorem C46_refuted_worse : exists usage lasts peak peakId id n,
  dies_late lasts /\ op_split_analysis 20 usage lasts peak peakId = Some (Suggest id n) /\ id <> 0 /\ peak < usage id n.
Proof.
  exists (fun id n => if id =? 1 then 120 else if id =? 2 then 110 else 120 + id), [0; 1; 2; 3; 4; 5; 6], 100, 1, 2, 4.
  split; [apply C46_concrete|]. split; [reflexivity|]. split; [discriminate|reflexivity].
Qed.
(** A chain of two operators whose usage improves with each candidate: the vector of
    values is read past its end. *)
Theorem C46_refuted_out_of_bounds : exists usage,
  op_split_analysis 20 usage [0; 1; 2] 100 1 = Some BadRead /\ usage 1 4 < 100 /\ usage 2 4 < usage 1 4.
Proof. exists (fun id _ => 100 - 10 * id). repeat split. Qed.

(** Three inputs: the candidates alternate between operators 2 and 3 for ever.
    (f(x0, x1, x2): op0(x0); op1(x1); op2(result of op1); op3(x2, results of op0, op2).) *)
Theorem C46_refuted_endless : exists usage, (forall id n, 0 <= usage id n) /\
  forall fuel, op_split_analysis fuel usage [0; 1; 3; 3; 2; 3; 4] 100 2 = None.
Proof.
  exists (fun id _ => if id =? 2 then 10 else 20). split; [intros id n; destruct (id =? 2); lia|].
  set (u := fun id : Z => if id =? 2 then 10 else 20). set (l := [0; 1; 3; 3; 2; 3; 4]).
  assert (X : forall fuel, (forall g gu, search_bottom fuel u l 2 20 g gu true = None) /\ (forall g gu, search_bottom fuel u l 3 10 g gu false = None)).
  { induction fuel as [|fuel [I1 I2]]; [split; reflexivity|]. split; intros g gu; cbn [search_bottom].
    - change (next_bottom l 2) with (Some 3). change (u 2) with 10. cbn. apply I2.
    - change (next_bottom l 3) with (Some 2). change (u 3) with 20. cbn. apply I1. }
  assert (Y : forall fuel, search_bottom fuel u l 2 100 0 0 false = None).
  { intros [|fuel]; [reflexivity|]. cbn [search_bottom]. change (next_bottom l 2) with (Some 3). change (u 2) with 10.
    cbn. apply (proj2 (X fuel)). }
  intros fuel. unfold op_split_analysis. change (match search_bottom fuel u l 2 100 0 0 false with
    | Some (Found id u0) => if id =? 0 then Some (Suggest 0 4) else match search_splits fuel (fun _ => if id =? 2 then 10 else 20) 4 u0 u0 4 with Some n => Some (Suggest id n) | None => None end
    | Some OutOfBounds => Some BadRead | None => None end = None). rewrite Y. reflexivity.
Qed.

Print Assumptions C46_analysis_partial.
Print Assumptions C46_refuted_endless.
Print Assumptions C46_next_candidate.
