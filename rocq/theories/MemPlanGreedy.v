(** Lemmas about the greedy placement (getOffset and the queue loop). *)
From Verif Require Import Base MemPlanModel.
From Coq Require Import Sorting.Sorted.
Local Open Scope Z_scope.

Definition interf (info : vmap) (a b : vname) : Prop :=
  vi_first (info a) <= vi_last (info b) /\ vi_first (info b) <= vi_last (info a).

Definition by_off (x y : vname * Z) : Prop := snd x <= snd y.
Definition vend (info : vmap) (x : vname * Z) : Z := snd x + vi_size (info (fst x)).

Lemma interf_sym info a b : interf info a b -> interf info b a.
Proof. unfold interf; tauto. Qed.

Lemma get_offset_from_spec info v size al : forall off,
  StronglySorted by_off al ->
  off <= get_offset_from info v size al off /\
  (forall x, In x al -> interf info (fst x) v ->
     vend info x <= get_offset_from info v size al off \/
     get_offset_from info v size al off + size <= snd x).
Proof.
  induction al as [|[a ao] al IH]; intros off HS; cbn [get_offset_from].
  - split; [lia|]. intros x [].
  - inv HS.
    destruct (_ || _) eqn:Hc.
    + destruct (IH off H1) as [I1 I2]. split; [exact I1|].
      intros x [<-|Hx] Hi; [|eauto].
      exfalso. unfold interf in Hi; cbn in Hi. lia.
    + destruct (ao - off >=? size) eqn:Hg.
      * split; [lia|]. intros x [<-|Hx] Hi; right; cbn; [lia|].
        rewrite Forall_forall in H2. specialize (H2 _ Hx). unfold by_off in H2; cbn in H2. lia.
      * set (e := if _ >? off then _ else off).
        assert (He : off <= e /\ ao + vi_size (info a) <= e) by (subst e; destruct (_ >? off) eqn:?; lia).
        destruct (IH e H1) as [I1 I2]. split; [lia|].
        intros x [<-|Hx] Hi; [|eauto].
        left. unfold vend; cbn. lia.
Qed.

(** the offset is 0 or the end of an already placed interfering buffer *)
Lemma get_offset_from_end info v size al : forall off,
  get_offset_from info v size al off = off \/
  exists x, In x al /\ interf info (fst x) v /\ get_offset_from info v size al off = vend info x.
Proof.
  induction al as [|[a ao] al IH]; intros off; cbn [get_offset_from]; [auto|].
  destruct (_ || _) eqn:Hc.
  - destruct (IH off) as [H|(x & Hx & Hi & H)]; [auto|]. right; exists x; simpl; auto.
  - destruct (ao - off >=? size) eqn:Hg; [auto|].
    destruct (_ >? off) eqn:Hgt.
    + destruct (IH (ao + vi_size (info a))) as [H|(x & Hx & Hi & H)].
      * right; exists (a, ao); simpl; split; [auto|]. split; [|exact H].
        unfold interf; cbn; lia.
      * right; exists x; simpl; auto.
    + destruct (IH off) as [H|(x & Hx & Hi & H)]; [auto|]. right; exists x; simpl; auto.
Qed.

(** first fit: every smaller candidate collides *)
Lemma get_offset_from_first info v size al : forall off z,
  off <= z < get_offset_from info v size al off ->
  exists x, In x al /\ interf info (fst x) v /\ snd x < z + size /\ z < vend info x.
Proof.
  induction al as [|[a ao] al IH]; intros off z Hz; cbn [get_offset_from] in Hz; [lia|].
  destruct (_ || _) eqn:Hc.
  - destruct (IH off z Hz) as (x & Hx & R). exists x; simpl; auto.
  - destruct (ao - off >=? size) eqn:Hg; [lia|].
    destruct (_ >? off) eqn:Hgt.
    + destruct (Z.lt_ge_cases z (ao + vi_size (info a))) as [Hlt|Hge].
      * exists (a, ao). unfold vend, interf; cbn. repeat split; auto; lia.
      * destruct (IH _ z (conj Hge (proj2 Hz))) as (x & Hx & R). exists x; simpl; auto.
    + destruct (IH off z Hz) as (x & Hx & R). exists x; simpl; auto.
Qed.

(* ---- multiset insertion ---- *)
Lemma ms_insert_perm x l : Permutation (ms_insert x l) (x :: l).
Proof.
  induction l as [|y l IH]; simpl; auto.
  destruct (_ <? _); auto. rewrite IH. constructor.
Qed.

Lemma ms_insert_in x l y : In y (ms_insert x l) <-> y = x \/ In y l.
Proof.
  split; intros H.
  - apply (Permutation_in _ (ms_insert_perm x l)) in H; destruct H; auto.
  - apply (Permutation_in _ (Permutation_sym (ms_insert_perm x l))); simpl; destruct H; auto.
Qed.

Lemma ms_insert_sorted x l : StronglySorted by_off l -> StronglySorted by_off (ms_insert x l).
Proof.
  induction l as [|y l IH]; simpl; intros H.
  - repeat constructor.
  - inv H. rewrite Forall_forall in H3. destruct (_ <? _) eqn:E.
    + constructor.
      * constructor; auto. rewrite Forall_forall; auto.
      * constructor; [unfold by_off; lia|]. rewrite Forall_forall. intros z Hz.
        specialize (H3 _ Hz). unfold by_off in *; lia.
    + constructor; auto. rewrite Forall_forall. intros z Hz.
      apply ms_insert_in in Hz. destruct Hz as [->|Hz]; [unfold by_off; lia|auto].
Qed.

(* ---- the placement loop ---- *)

(** pairwise disjointness of interfering placed buffers *)
Definition placed_ok (info : vmap) (al : alloc) : Prop :=
  ForallOrdPairs (fun x y => interf info (fst x) (fst y) ->
                             vend info x <= snd y \/ vend info y <= snd x) al.

Lemma FOP_perm {A} (R : A -> A -> Prop) (Rsym : forall x y, R x y -> R y x) l l' :
  Permutation l l' -> ForallOrdPairs R l -> ForallOrdPairs R l'.
Proof.
  induction 1 as [|x l l' HP IH|x y l|l1 l2 l3 HP1 IH1 HP2 IH2]; intros HF; auto.
  - inversion HF as [|? ? HA HB]; subst. constructor; auto.
    rewrite Forall_forall in *. intros y Hy.
    apply HA. eapply Permutation_in; [apply Permutation_sym|]; eauto.
  - inversion HF as [|? ? HA HB]; subst. inversion HB as [|? ? HC HD]; subst.
    inversion HA as [|? ? HE HG]; subst.
    constructor; [constructor; auto|constructor; auto].
Qed.

Record greedy_inv (info : vmap) (al : alloc) : Prop := {
  gi_sorted : StronglySorted by_off al;
  gi_ok : placed_ok info al;
  gi_nonneg : forall x, In x al -> 0 <= snd x }.

Lemma place_step info al v :
  (forall x, In x al -> 0 <= vi_size (info (fst x))) ->
  greedy_inv info al ->
  greedy_inv info (ms_insert (v, get_offset info v (vi_size (info v)) al) al).
Proof.
  intros Hsz [HS HO HN].
  destruct (get_offset_from_spec info v (vi_size (info v)) al 0 HS) as [G1 G2].
  fold (get_offset info v (vi_size (info v)) al) in G1, G2.
  constructor.
  - apply ms_insert_sorted; auto.
  - eapply FOP_perm; [| apply Permutation_sym, ms_insert_perm |].
    + cbv beta. intros x y H Hi. apply interf_sym in Hi. destruct (H Hi); auto.
    + constructor; auto. rewrite Forall_forall. intros x Hx Hi. cbn in *.
      apply interf_sym in Hi. destruct (G2 x Hx Hi); unfold vend in *; cbn in *; lia.
  - intros x Hx. apply ms_insert_in in Hx. destruct Hx as [->|Hx]; cbn; auto.
Qed.

Definition q_ok (info : vmap) (q : list (vname * Z)) : Prop :=
  forall x, In x q -> snd x = vi_size (info (fst x)) /\ 0 <= snd x.

Lemma place_inv info q : forall al,
  q_ok info q ->
  (forall x, In x al -> 0 <= vi_size (info (fst x))) ->
  greedy_inv info al -> greedy_inv info (place info q al).
Proof.
  induction q as [|[v size] q IH]; intros al HQ Hsz HI; cbn [place]; auto.
  destruct (HQ (v, size)) as [E1 E2]; [left; auto|]. cbn in E1, E2. subst size.
  apply IH.
  - intros x Hx; apply HQ; right; auto.
  - intros x Hx. apply ms_insert_in in Hx. destruct Hx as [->|Hx]; cbn; auto.
  - apply place_step; auto.
Qed.

Lemma place_perm info q : forall al,
  Permutation (map fst (place info q al)) (map fst q ++ map fst al).
Proof.
  induction q as [|[v size] q IH]; intros al; cbn [place map app]; auto.
  rewrite IH. rewrite (Permutation_map fst (ms_insert_perm _ al)). cbn.
  apply Permutation_sym, Permutation_middle.
Qed.

Lemma place_incl info q : forall al x, In x al -> In x (place info q al).
Proof.
  induction q as [|[v size] q IH]; intros al x Hx; cbn [place]; auto.
  apply IH. apply ms_insert_in; auto.
Qed.

Lemma allocate_perm info q al :
  allocate info q = Some al -> Permutation (map fst al) (map fst q).
Proof.
  destruct q as [|[v s] q]; cbn; intros H; inv H.
  rewrite place_perm. cbn. apply Permutation_sym, Permutation_cons_append.
Qed.

Lemma allocate_inv info q al :
  q_ok info q -> allocate info q = Some al -> greedy_inv info al.
Proof.
  destruct q as [|[v s] q]; cbn; intros HQ H; inv H.
  destruct (HQ (v, s)) as [E1 E2]; [left; auto|]. cbn in *.
  apply place_inv.
  - intros x Hx; apply HQ; right; auto.
  - intros x [<-|[]]; cbn; lia.
  - constructor.
    + repeat constructor.
    + repeat constructor.
    + intros x [<-|[]]; cbn; lia.
Qed.

(* ---- every end is bounded by the sum of the sizes placed so far ---- *)
Definition sum_sizes (info : vmap) (l : list vname) : Z :=
  fold_right (fun v a => vi_size (info v) + a) 0 l.

Lemma sum_sizes_perm info l l' : Permutation l l' -> sum_sizes info l = sum_sizes info l'.
Proof. induction 1; unfold sum_sizes in *; cbn [fold_right] in *; lia. Qed.

Lemma sum_sizes_app info l l' : sum_sizes info (l ++ l') = sum_sizes info l + sum_sizes info l'.
Proof. induction l as [|x l IH]; unfold sum_sizes in *; cbn [fold_right app] in *; lia. Qed.

Lemma sum_sizes_cons info v l : sum_sizes info (v :: l) = vi_size (info v) + sum_sizes info l.
Proof. reflexivity. Qed.

Lemma sum_sizes_nonneg info l :
  (forall v, In v l -> 0 <= vi_size (info v)) -> 0 <= sum_sizes info l.
Proof.
  induction l as [|x l IH]; simpl; intros H; [lia|].
  assert (0 <= vi_size (info x)) by auto. assert (0 <= sum_sizes info l) by auto. lia.
Qed.

Lemma place_bound info q : forall al,
  q_ok info q ->
  (forall x, In x al -> 0 <= vi_size (info (fst x))) ->
  (forall x, In x al -> vend info x <= sum_sizes info (map fst al)) ->
  forall x, In x (place info q al) -> vend info x <= sum_sizes info (map fst q ++ map fst al).
Proof.
  induction q as [|[v size] q IH]; intros al HQ Hsz HB x Hx; cbn [place map app fst] in *; auto.
  destruct (HQ (v, size)) as [E1 E2]; [left; auto|]. cbn in E1, E2. subst size.
  assert (HP := Permutation_map fst
     (ms_insert_perm (v, get_offset info v (vi_size (info v)) al) al)). cbn [map fst] in HP.
  assert (HE : sum_sizes info (v :: map fst q ++ map fst al) =
     sum_sizes info (map fst q ++
        map fst (ms_insert (v, get_offset info v (vi_size (info v)) al) al))).
  { rewrite sum_sizes_app, (sum_sizes_perm info _ _ HP).
    unfold sum_sizes; cbn [fold_right]. fold (sum_sizes info (map fst q ++ map fst al)).
    rewrite sum_sizes_app. unfold sum_sizes. lia. }
  rewrite HE.
  apply IH with (al := ms_insert (v, get_offset info v (vi_size (info v)) al) al); auto.
  - intros y Hy; apply HQ; right; auto.
  - intros y Hy. apply ms_insert_in in Hy. destruct Hy as [->|Hy]; cbn; auto.
  - intros y Hy. rewrite (sum_sizes_perm info _ _ HP), sum_sizes_cons. apply ms_insert_in in Hy.
    assert (0 <= sum_sizes info (map fst al)).
    { apply sum_sizes_nonneg. intros w Hw. apply in_map_iff in Hw. destruct Hw as (e & <- & He). auto. }
    destruct Hy as [->|Hy].
    + unfold vend; cbn. unfold get_offset.
      destruct (get_offset_from_end info v (vi_size (info v)) al 0) as [->|(e & He & _ & ->)]; [lia|].
      specialize (HB e He). unfold vend in *. lia.
    + specialize (HB y Hy). lia.
Qed.

Lemma allocate_bound info q al :
  q_ok info q -> allocate info q = Some al ->
  forall x, In x al -> vend info x <= sum_sizes info (map fst q).
Proof.
  destruct q as [|[v s] q]; cbn [allocate]; intros HQ H x Hx; inv H.
  destruct (HQ (v, s)) as [E1 E2]; [left; auto|]. cbn [fst snd] in *.
  assert (HB : vend info x <= sum_sizes info (map fst q ++ map fst [(v, 0)])).
  { apply place_bound with (al := [(v, 0)]); auto.
    - intros y Hy; apply HQ; right; auto.
    - intros y [<-|[]]; cbn; lia.
    - intros y [<-|[]]; unfold vend; cbn; lia. }
  rewrite sum_sizes_app in HB. cbn [map fst] in *. rewrite !sum_sizes_cons in *.
  unfold sum_sizes in HB at 2; cbn [fold_right] in HB. lia.
Qed.

(* ---- priority queue order ---- *)
Lemma q_insert_perm info x l : Permutation (q_insert info x l) (x :: l).
Proof.
  induction l as [|y l IH]; simpl; auto.
  destruct (queue_less _ _ _); auto. rewrite IH. constructor.
Qed.

Lemma q_sort_perm info l : Permutation (q_sort info l) l.
Proof.
  induction l as [|x l IH]; simpl; auto.
  rewrite q_insert_perm. auto.
Qed.

(** bigger-or-equal first *)
Definition by_size (x y : vname * Z) : Prop := snd y <= snd x.

Lemma q_insert_sorted info x l :
  StronglySorted by_size l -> StronglySorted by_size (q_insert info x l).
Proof.
  induction l as [|y l IH]; simpl; intros H.
  - repeat constructor.
  - inv H. rewrite Forall_forall in H3. destruct (queue_less info y x) eqn:E;
      unfold queue_less in E.
    + assert (snd y <= snd x) by (destruct (negb _) eqn:?; lia).
      constructor.
      * constructor; auto. rewrite Forall_forall; auto.
      * constructor; [unfold by_size; lia|]. rewrite Forall_forall. intros z Hz.
        specialize (H3 _ Hz). unfold by_size in *; lia.
    + assert (snd x <= snd y) by (destruct (negb _) eqn:?; lia).
      constructor; auto. rewrite Forall_forall. intros z Hz.
      apply (Permutation_in _ (q_insert_perm _ _ _)) in Hz.
      destruct Hz as [<-|Hz]; [unfold by_size; lia|auto].
Qed.

Lemma q_sort_sorted info l : StronglySorted by_size (q_sort info l).
Proof.
  induction l as [|x l IH]; simpl; [constructor|]. apply q_insert_sorted; auto.
Qed.

(** first fit relative to earlier (bigger) buffers *)
Definition first_fit_wrt (info : vmap) (al : alloc) (x : vname * Z) : Prop :=
  forall z, 0 <= z < snd x ->
    exists y, In y al /\ interf info (fst y) (fst x) /\
              snd y < z + vi_size (info (fst x)) /\ z < vend info y.

Lemma place_first_fit info q : forall al,
  q_ok info q -> StronglySorted by_size q -> NoDup (map fst q ++ map fst al) ->
  (forall x y, In x al -> In y q -> snd y <= vi_size (info (fst x))) ->
  (forall x, In x al ->
     forall z, 0 <= z < snd x ->
       exists y, In y al /\ fst y <> fst x /\ interf info (fst y) (fst x) /\
         vi_size (info (fst x)) <= vi_size (info (fst y)) /\
         snd y < z + vi_size (info (fst x)) /\ z < vend info y) ->
  forall x, In x (place info q al) -> forall z, 0 <= z < snd x ->
       exists y, In y (place info q al) /\ fst y <> fst x /\ interf info (fst y) (fst x) /\
         vi_size (info (fst x)) <= vi_size (info (fst y)) /\
         snd y < z + vi_size (info (fst x)) /\ z < vend info y.
Proof.
  induction q as [|[v size] q IH]; intros al HQ HS HN HL HF x Hx z Hz; cbn [place] in *; eauto.
  destruct (HQ (v, size)) as [E1 E2]; [left; auto|]. cbn in E1, E2. subst size.
  inversion HS as [|? ? HS1 HS2]; subst. rewrite Forall_forall in HS2.
  cbn [map fst app] in HN.
  eapply IH in Hx; eauto.
  - intros y Hy; apply HQ; right; auto.
  - eapply Permutation_NoDup; [|exact HN].
    rewrite (Permutation_map fst (ms_insert_perm _ _)). cbn [map fst].
    rewrite <- Permutation_middle. auto.
  - intros a b Ha Hb. apply ms_insert_in in Ha. destruct Ha as [->|Ha].
    + cbn. specialize (HS2 _ Hb). unfold by_size in HS2; cbn in HS2. lia.
    + apply HL; auto. right; auto.
  - intros a Ha w Hw. apply ms_insert_in in Ha. destruct Ha as [->|Ha].
    + cbn [fst snd] in *. unfold get_offset in Hw.
      destruct (get_offset_from_first info v _ al 0 w Hw) as (y & Hy & R1 & R2 & R3).
      exists y. split; [apply ms_insert_in; auto|]. repeat split; auto.
      * intros C. inversion HN as [|? ? HN1 HN2]; subst. apply HN1. apply in_or_app. right.
        apply in_map; auto.
      * apply R1. * apply R1.
      * apply (HL y (v, vi_size (info v))); auto. left; auto.
    + destruct (HF a Ha w Hw) as (y & Hy & R). exists y. split; auto. apply ms_insert_in; auto.
Qed.

Lemma allocate_first_fit info q al :
  q_ok info q -> StronglySorted by_size q -> NoDup (map fst q) -> allocate info q = Some al ->
  forall x, In x al -> forall z, 0 <= z < snd x ->
       exists y, In y al /\ fst y <> fst x /\ interf info (fst y) (fst x) /\
         vi_size (info (fst x)) <= vi_size (info (fst y)) /\
         snd y < z + vi_size (info (fst x)) /\ z < vend info y.
Proof.
  destruct q as [|[v s] q]; cbn [allocate]; intros HQ HS HN H x Hx; inv H.
  destruct (HQ (v, s)) as [E1 E2]; [left; auto|]. cbn in *.
  inversion HS as [|? ? HS1 HS2]; subst. rewrite Forall_forall in HS2.
  apply place_first_fit with (q := q) (al := [(v, 0)]); auto.
  - intros y Hy; apply HQ; right; auto.
  - eapply Permutation_NoDup; [|exact HN]. cbn. apply Permutation_cons_append.
  - intros a b [<-|[]] Hb. cbn. specialize (HS2 _ Hb). unfold by_size in HS2; cbn in HS2; lia.
  - intros a [<-|[]] z Hz; cbn in Hz; lia.
Qed.

(** offsets are 0 or ends of other buffers: multiples of any common divisor *)
Lemma place_divides info d q : forall al,
  (forall x, In x q -> (d | vi_size (info (fst x)))) ->
  (forall x, In x al -> (d | snd x) /\ (d | vi_size (info (fst x)))) ->
  forall x, In x (place info q al) -> (d | snd x).
Proof.
  induction q as [|[v size] q IH]; intros al HQ HA x Hx; cbn [place] in *.
  - apply HA; auto.
  - eapply IH; [| |exact Hx].
    + intros y Hy; apply HQ; right; auto.
    + intros y Hy. apply ms_insert_in in Hy. destruct Hy as [->|Hy]; [|auto].
      cbn. split; [|apply (HQ (v, size)); left; auto].
      unfold get_offset.
      destruct (get_offset_from_end info v size al 0) as [->|(e & He & _ & ->)].
      * apply Z.divide_0_r.
      * unfold vend. apply Z.divide_add_r; apply HA; auto.
Qed.

Lemma allocate_divides info d q al :
  (forall x, In x q -> (d | vi_size (info (fst x)))) ->
  allocate info q = Some al -> forall x, In x al -> (d | snd x).
Proof.
  destruct q as [|[v s] q]; cbn [allocate]; intros HQ H x Hx; inv H.
  eapply place_divides; [| |exact Hx].
  - intros y Hy; apply HQ; right; auto.
  - intros y [<-|[]]; cbn. split; [apply Z.divide_0_r|]. apply (HQ (v, s)); left; auto.
Qed.
