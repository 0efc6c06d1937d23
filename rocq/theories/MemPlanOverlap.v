(** The overlap phase satisfies [ov_ok]. *)
From Verif Require Import Base MemPlanModel MemPlanSpec MemPlanGreedy MemPlanBuild MemPlanAssemble.
Local Open Scope Z_scope.

Lemma ov_ok_init g : wf_graph g -> ov_ok g (OS [] (build g) []).
Proof.
  intros W. constructor; cbn; try (intros; reflexivity); try (intros; lia); try (intros; tauto).
  - intros v Hv. rewrite <- values_names in Hv by auto. apply in_map_iff in Hv.
    destruct Hv as (d & <- & Hd). apply In_nth_error in Hd. destruct Hd as [i Hi].
    rewrite (build_nth g i d W Hi). cbn. apply align8_spec.
  - constructor.
Qed.

(* ---- uses ---- *)
Lemma count_uses_ge os v : forall p o,
  nth_error os p = Some o -> (count_occ Nat.eq_dec (o_args o) v <= count_uses os v)%nat.
Proof.
  induction os as [|x os IH]; intros [|p] o H; try discriminate; cbn in *.
  - inv H. lia.
  - specialize (IH p o H). unfold count_uses in IH. lia.
Qed.

Lemma count_uses_two os v : forall p q o o',
  (p < q)%nat -> nth_error os p = Some o -> nth_error os q = Some o' ->
  (count_occ Nat.eq_dec (o_args o) v + count_occ Nat.eq_dec (o_args o') v <= count_uses os v)%nat.
Proof.
  induction os as [|x os IH]; intros [|p] [|q] o o' Hlt Hp Hq; try discriminate; try lia; cbn in *.
  - inv Hp. pose proof (count_uses_ge os v q o' Hq). unfold count_uses in H. lia.
  - specialize (IH p q o o' ltac:(lia) Hp Hq). unfold count_uses in IH. lia.
Qed.

Lemma one_use_unique g v p q :
  has_one_use (g_ops g) v = true -> used_at g v p -> used_at g v q -> p = q.
Proof.
  unfold has_one_use. intros H (o & Ho & Hv) (o' & Ho' & Hv'). apply Nat.eqb_eq in H.
  assert (C1 : (count_occ Nat.eq_dec (o_args o) v > 0)%nat) by (apply count_occ_In; auto).
  assert (C2 : (count_occ Nat.eq_dec (o_args o') v > 0)%nat) by (apply count_occ_In; auto).
  destruct (Nat.lt_trichotomy p q) as [L|[E|L]]; auto.
  - pose proof (count_uses_two (g_ops g) v p q o o' L Ho Ho'). lia.
  - pose proof (count_uses_two (g_ops g) v q p o' o L Ho' Ho). lia.
Qed.

Lemma first_user_used g v u : first_user (g_ops g) v = Some u -> used_at g v u.
Proof.
  unfold first_user. intros H. apply find_pos_some in H.
  destruct H as (o & _ & Hn & Hu & _). rewrite Nat.sub_0_r in Hn.
  exists o. split; auto. apply uses_spec; auto.
Qed.

Lemma first_user_exists g v u : used_at g v u -> exists u', first_user (g_ops g) v = Some u'.
Proof.
  intros (o & Ho & Hv). unfold first_user. destruct (find_pos _ _ _) eqn:E; eauto.
  exfalso. pose proof (find_pos_none _ _ _ E o (nth_error_In _ _ Ho)) as H. cbv beta in H.
  rewrite (proj2 (uses_spec o v) Hv) in H. discriminate.
Qed.

Lemma mem_nat_spec x l : mem_nat x l = true <-> In x l.
Proof.
  unfold mem_nat. rewrite existsb_exists. split.
  - intros (y & Hy & E). apply Nat.eqb_eq in E. subst; auto.
  - intros H. exists x. split; auto. apply Nat.eqb_refl.
Qed.

Section Overlap.
Variable g : graph.
Hypothesis W : wf_graph g.
Hypothesis WO : wf_overlap g.
Hypothesis CG : chain_grows g.

Notation os := (g_ops g).
Notation us := (usize_of (values g)).

(** the op at [p] is overlappable with result [r] *)
Definition ov_res (p : nat) (r : vname) : Prop :=
  exists o s, op_at g p o /\ overlappable (o_kind o) = true /\ o_res o = [(r, Some s)].

Lemma ov_res_intro p r :
  overlappable (kind_at os p) = true -> result0 os p = Some r -> ov_res p r.
Proof.
  unfold kind_at, result0. destruct (nth_error os p) as [o|] eqn:E; [|discriminate].
  intros Hk Hr. destruct (wo_res g WO p o E Hk) as (r' & s & Hres). rewrite Hres in Hr. inv Hr.
  exists o, s. auto.
Qed.

Lemma ov_res_produced p r : ov_res p r -> produced_at g r p.
Proof.
  intros (o & s & Ho & _ & Hr). exists o. split; auto. unfold res_names. rewrite Hr. left; auto.
Qed.

Lemma ov_res_unique p q r : ov_res p r -> ov_res q r -> p = q.
Proof. intros H1 H2. apply (produced_unique g r p q W); apply ov_res_produced; auto. Qed.

Lemma ov_res_tensor p r : ov_res p r ->
  In r (tensors g) /\ vi_const (build g r) = false /\
  exists s, In (VD r s false) (values g).
Proof.
  intros (o & s & Ho & Hk & Hr).
  assert (Ha : arena_tensor g r s).
  { right. exists p, o. split; auto. split; [|rewrite Hr; left; auto].
    unfold computing. destruct (o_kind o); cbn in Hk; try discriminate; repeat split; congruence. }
  apply in_values_arena in Ha; auto. split; [|split; eauto].
  - rewrite <- values_names by auto. apply (in_map vd_name _ _ Ha).
  - apply In_nth_error in Ha. destruct Ha as [i Hi].
    change r with (vd_name (VD r s false)). rewrite (build_nth g i _ W Hi). reflexivity.
Qed.

Lemma ov_res_size p r : ov_res p r -> exists o s, op_at g p o /\ overlappable (o_kind o) = true /\
   o_res o = [(r, Some s)] /\ us r = s.
Proof.
  intros (o & s & Ho & Hk & Hr). exists o, s. repeat split; auto.
  assert (Ha : arena_tensor g r s).
  { right. exists p, o. split; auto. split; [|rewrite Hr; left; auto].
    unfold computing. destruct (o_kind o); cbn in Hk; try discriminate; repeat split; congruence. }
  apply in_values_arena in Ha; auto.
  apply (usize_of_in (values g) (VD r s false)); auto.
  rewrite values_names by auto. apply tensors_nodup; auto.
Qed.

Lemma tensor_build v : In v (tensors g) ->
  vi_size (build g v) = align8 (us v) /\ 0 <= us v /\
  vi_first (build g v) = vfirst g v /\ vi_last (build g v) = vlast g v.
Proof.
  intros H. rewrite <- values_names in H by auto. apply in_map_iff in H.
  destruct H as (d & <- & Hd). pose proof (values_size_nonneg g d W Hd).
  pose proof (usize_of_in (values g) d) as U. rewrite U; auto.
  - apply In_nth_error in Hd. destruct Hd as [i Hi]. rewrite (build_nth g i d W Hi). cbn. auto.
  - rewrite values_names by auto. apply tensors_nodup; auto.
Qed.

Lemma ov_kind_executes p : overlappable (kind_at os p) = true -> executes g p.
Proof.
  unfold kind_at. destruct (nth_error os p) as [o|] eqn:E; [|discriminate].
  intros Hk. exists o. split; auto. destruct (o_kind o); cbn in Hk; try discriminate; split; congruence.
Qed.

(** a value whose unique use is the op [u]: its lifetime ends there *)
Lemma one_use_last v u :
  has_one_use os v = true -> used_at g v u -> vlast g v = op_id os u.
Proof.
  intros H1 Hu. unfold vlast. f_equal.
  apply (one_use_unique g v); auto. eapply end_pos_used; eauto.
Qed.

Lemma used_first_le v u : used_at g v u -> vfirst g v <= op_id os u.
Proof.
  intros Hu. unfold vfirst. apply op_id_mono; [eapply used_executes; eauto|].
  destruct (use_after_start g v u W Hu) as [[_ ->]|H]; lia.
Qed.

Lemma ov_first p r : ov_res p r -> vfirst g r = op_id os p.
Proof. intros H. unfold vfirst. rewrite (start_pos_produced g r p); auto. apply ov_res_produced; auto. Qed.

Lemma first_le_last p r : ov_res p r -> vfirst g r <= vlast g r.
Proof.
  intros H. unfold vfirst, vlast. destruct (end_pos_cases g r) as [->|U]; [lia|].
  apply op_id_mono; [eapply used_executes; eauto|apply end_pos_ge_start].
Qed.

Lemma grows p r q r' : ov_res p r -> ov_res q r' -> used_at g r q -> us r <= us r'.
Proof.
  intros H1 H2 (o' & Ho' & Hin).
  destruct (ov_res_size p r H1) as (o & s & Ho & Hk & Hr & ->).
  destruct (ov_res_size q r' H2) as (o2 & s2 & Ho2 & Hk2 & Hr2 & ->).
  unfold op_at in *. assert (o2 = o') by congruence. subst o2.
  apply (CG p o r s q o' r' s2); auto.
Qed.

(** user of a used value comes after its production *)
Lemma produced_before_use v p u : produced_at g v p -> used_at g v u -> (p < u)%nat.
Proof.
  intros HP HU. destruct (use_after_start g v u W HU) as [[Ha _]|H].
  - exfalso. eapply arg_not_produced; eauto.
  - rewrite (start_pos_produced g v p) in H; auto.
Qed.

(* ---- the chain loop ---- *)

(** properties of one input of a chain under construction *)
Definition in_ok (newops : list nat) (cur : nat) (i0 : vname) (outV x : vname) : Prop :=
  In x (tensors g) /\ vi_const (build g x) = false /\ has_one_use os x = true /\
  us x <= us outV /\ vfirst g i0 <= vfirst g x /\
  exists u, used_at g x u /\ In u newops /\ (u <= cur)%nat.

(** [a] is consumed (its only use) by an op at or before the one producing [b] *)
Definition before (a b : vname) : Prop :=
  has_one_use os a = true /\ exists u q, used_at g a u /\ overlappable (kind_at os u) = true /\
    ov_res q b /\ (u <= q)%nat.

Record chain_inv (p0 : nat) (v0 : list nat) (i0 : vname)
       (newops : list nat) (cur : nat) (visited : list nat) (outV : vname) (inputs : list vname) : Prop := {
  ci_visited : visited = newops ++ v0;
  ci_new : forall q, In q newops -> ~ In q v0 /\ (p0 <= q)%nat /\ overlappable (kind_at os q) = true;
  ci_cur : In cur newops /\ ov_res cur outV;
  ci_inputs : forall x, In x inputs -> in_ok newops cur i0 outV x;
  ci_prod : forall x, In x inputs -> x = i0 \/ exists q, In q newops /\ ov_res q x;
  ci_head : exists tl, inputs = i0 :: tl;
  ci_nodup : NoDup inputs;
  ci_ord : ForallOrdPairs before inputs /\ forall x, In x inputs -> before x outV
}.

Lemma chain_spec p0 v0 i0 : forall fuel newops cur visited inV outV next inputs visited' out' inputs',
  chain_inv p0 v0 i0 newops cur visited outV inputs ->
  first_user os outV = Some next ->
  us outV >= us inV ->
  chain fuel os us visited inV outV next inputs = Some (visited', out', inputs') ->
  exists newops' cur',
    chain_inv p0 v0 i0 newops' cur' visited' out' inputs' /\
    (has_one_use os out' = true -> forall u, used_at g out' u ->
        In u visited' \/ overlappable (kind_at os u) = false).
Proof.
  induction fuel as [|fuel IH]; intros newops cur visited inV outV next inputs visited' out' inputs'
    CI Hnext Hsz H.
  - cbn in H. destruct (_ && _) eqn:E; [discriminate|]. inv H.
    exists newops, cur. split; auto. intros H1 u Hu.
    assert (Hu' : u = next) by (eapply one_use_unique; eauto; apply first_user_used; auto). subst u.
    rewrite H1 in E. cbn [andb] in E.
    destruct (mem_nat next visited') eqn:Em; [left; apply mem_nat_spec; auto|].
    destruct (overlappable (kind_at os next)) eqn:Ek; [|auto]. cbn in E. lia.
  - cbn [chain] in H. destruct (_ && _) eqn:E.
    + destruct (result0 os next) as [out2|] eqn:Er; [|discriminate].
      destruct (first_user os out2) as [next2|] eqn:En; [|discriminate].
      assert (H1 : has_one_use os outV = true) by lia.
      assert (Hnv : mem_nat next visited = false) by lia.
      assert (Hk : overlappable (kind_at os next) = true) by lia.
      assert (Hres : ov_res next out2) by (apply ov_res_intro; auto).
      pose proof (first_user_used g outV next Hnext) as Hu.
      destruct CI as [Cv Cn [Cc1 Cc2] Ci Cp Ch Cd [Co1 Co2]].
      assert (Hlt : (cur < next)%nat) by (eapply produced_before_use; eauto; apply ov_res_produced; auto).
      assert (Hg : us outV <= us out2) by (eapply grows; eauto).
      assert (Hnin : ~ In next visited) by (intros C; apply mem_nat_spec in C; congruence).
      eapply (IH (next :: newops) next); [| exact En | | exact H].
      * constructor.
        -- rewrite Cv. reflexivity.
        -- intros q [<-|Hq]; [|apply Cn; auto].
           split; [intros C; apply Hnin; rewrite Cv; apply in_or_app; auto|].
           split; [|auto]. destruct (Cn cur Cc1) as (_ & Hp & _). lia.
        -- split; [left; auto|auto].
        -- intros x Hx. apply in_app_or in Hx. destruct Hx as [Hx|[<-|[]]].
           ++ destruct (Ci x Hx) as (A1 & A2 & A3 & A4 & A5 & u & A6 & A7 & A8).
              repeat split; auto; [lia|]. exists u. repeat split; auto; [right; auto|lia].
           ++ destruct (ov_res_tensor cur outV Cc2) as (T1 & T2 & _).
              repeat split; auto.
              ** destruct Ch as (tl & Etl). 
                 destruct (Ci i0) as (A1 & A2 & A3 & A4 & A5 & u & A6 & A7 & A8); [rewrite Etl; left; auto|].
                 pose proof (used_first_le i0 u A6). rewrite (ov_first cur outV Cc2).
                 assert (op_id os u <= op_id os cur) by (apply op_id_mono; auto;
                    apply ov_kind_executes; apply (Cn cur Cc1)). lia.
              ** exists next. repeat split; auto. left; auto.
        -- intros x Hx. apply in_app_or in Hx. destruct Hx as [Hx|[<-|[]]].
           ++ destruct (Cp x Hx) as [?|(q & Hq & Hr)]; auto. right; exists q; split; auto. right; auto.
           ++ right. exists cur. split; auto. right; auto.
        -- destruct Ch as (tl & ->). exists (tl ++ [outV]). reflexivity.
        -- apply nodup_app; auto; [repeat constructor; auto|].
           intros x Hx [<-|[]].
           destruct (Ci outV Hx) as (_ & _ & _ & _ & _ & u & A6 & A7 & A8).
           pose proof (produced_before_use outV cur u (ov_res_produced _ _ Cc2) A6). lia.
        -- split.
           ++ clear -Co1 Co2. induction inputs as [|y l IHl]; cbn [app]; [repeat constructor|].
              inv Co1. constructor; [|apply IHl; auto; intros z Hz; apply Co2; right; auto].
              apply Forall_app. split; auto. constructor; auto. apply Co2; left; auto.
           ++ intros x Hx. apply in_app_or in Hx. destruct Hx as [Hx|[<-|[]]].
              ** destruct (Co2 x Hx) as (B1 & u & q & B2 & B2' & B3 & B4). split; auto.
                 exists u, next. repeat split; auto.
                 assert (q = cur) by (eapply ov_res_unique; eauto). lia.
              ** split; auto. exists next, next. repeat split; auto.
      * lia.
    + inv H. exists newops, cur. split; auto. intros H1 u Hu.
      assert (Hu' : u = next) by (eapply one_use_unique; eauto; apply first_user_used; auto). subst u.
      rewrite H1 in E. cbn [andb] in E.
      destruct (mem_nat next visited') eqn:Em; [left; apply mem_nat_spec; auto|].
      destruct (overlappable (kind_at os next)) eqn:Ek; [|auto]. cbn in E. lia.
Qed.

(* ---- recording a chain ---- *)
Lemma io_set_fresh m k x : ~ In k (map fst m) -> io_set m k x = m ++ [(k, x)].
Proof.
  induction m as [|e m IH]; simpl; intros H; auto.
  destruct (Nat.eqb_spec k (fst e)); [exfalso; apply H; auto|]. rewrite IH; auto.
Qed.

Lemma io_set_all (f : vname -> vname * Z) inputs : forall m,
  NoDup inputs -> (forall x, In x inputs -> ~ In x (map fst m)) ->
  fold_left (fun acc v => io_set acc v (f v)) inputs m = m ++ map (fun v => (v, f v)) inputs.
Proof.
  induction inputs as [|x l IH]; intros m N H; simpl.
  - rewrite app_nil_r; auto.
  - inv N. rewrite io_set_fresh by (apply H; left; auto). rewrite IH; auto.
    + rewrite <- app_assoc. reflexivity.
    + intros y Hy C. rewrite map_app in C. apply in_app_or in C. destruct C as [C|[<-|[]]].
      * eapply H; [right; eauto|auto].
      * auto.
Qed.

Lemma fold_max_spec (f : vname -> Z) l : forall a,
  a <= fold_left (fun acc v => Z.max (f v) acc) l a /\
  (forall x, In x l -> f x <= fold_left (fun acc v => Z.max (f v) acc) l a) /\
  (fold_left (fun acc v => Z.max (f v) acc) l a = a \/
   exists x, In x l /\ f x = fold_left (fun acc v => Z.max (f v) acc) l a).
Proof.
  induction l as [|y l IH]; intros a; cbn [fold_left].
  - split; [lia|split; [intros x []|auto]].
  - destruct (IH (Z.max (f y) a)) as (I1 & I2 & I3). split; [lia|split].
    + intros x [<-|Hx]; [lia|auto].
    + destruct I3 as [I3|(x & Hx & I3)].
      * rewrite I3. destruct (Z.max_spec (f y) a) as [[? ->]|[? ->]]; auto.
        right. exists y. split; [left; auto|auto].
      * right. exists x. split; [right; auto|auto].
Qed.

Lemma rel_offset_spec outV x : us x <= us outV ->
  0 <= rel_offset us outV x /\ (8 | rel_offset us outV x) /\
  us outV - us x <= rel_offset us outV x < us outV - us x + 8.
Proof.
  intros H. unfold rel_offset. rewrite Z.quot_div_nonneg by lia.
  pose proof (align8_spec (us outV - us x)) as [A1 A2]. unfold align8 in *.
  repeat split; auto; lia.
Qed.

(* ---- invariant of the main loop ---- *)
Record loop_inv (p : nat) (s : ostate) : Prop := {
  li_id : forall v, vi_id (os_info s v) = vi_id (build g v);
  li_const : forall v, vi_const (os_info s v) = vi_const (build g v);
  li_last : forall v, vi_last (os_info s v) = vi_last (build g v);
  li_same : forall v, (forall k rel, ~ In (k, (v, rel)) (os_map s)) -> os_info s v = build g v;
  li_first : forall v, In v (tensors g) -> vi_first (os_info s v) <= vi_first (build g v);
  li_size : forall v, In v (tensors g) -> vi_size (build g v) <= vi_size (os_info s v);
  li_div : forall v, In v (tensors g) -> (8 | vi_size (os_info s v));
  li_nodup : NoDup (map fst (os_map s));
  li_entry : forall k out rel, In (k, (out, rel)) (os_map s) ->
      In k (tensors g) /\ vi_const (build g k) = false /\
      In out (tensors g) /\ vi_const (build g out) = false /\
      ~ In out (map fst (os_map s)) /\
      0 <= rel /\ (8 | rel) /\
      rel + vi_size (build g k) <= vi_size (os_info s out) /\
      vi_first (os_info s out) <= vi_first (build g k) /\
      vi_last (build g k) <= vi_last (build g out);
  li_exact : forall v, In v (tensors g) -> vi_size (os_info s v) = vi_size (build g v) \/
      exists k rel, In (k, (v, rel)) (os_map s) /\ rel + vi_size (build g k) = vi_size (os_info s v);
  li_key : forall k out rel, In (k, (out, rel)) (os_map s) ->
      has_one_use os k = true /\
      (exists u, used_at g k u /\ In u (os_visited s)) /\
      ((exists q, In q (os_visited s) /\ ov_res q k) \/ (exists u, used_at g k u /\ (u < p)%nat)) /\
      before k out /\
      (forall k' rel', In (k', (out, rel')) (os_map s) -> k <> k' -> before k k' \/ before k' k);
  li_out : forall k out rel, In (k, (out, rel)) (os_map s) ->
      (exists q, In q (os_visited s) /\ ov_res q out) /\
      (has_one_use os out = true -> forall u, used_at g out u ->
          In u (os_visited s) \/ overlappable (kind_at os u) = false);
  li_rel : forall k out rel, In (k, (out, rel)) (os_map s) ->
      rel = rel_offset us out k /\ us k <= us out
}.

Lemma loop_inv_weaken p s visited :
  loop_inv p s -> (forall q, In q (os_visited s) -> In q visited) ->
  loop_inv (S p) (OS visited (os_info s) (os_map s)).
Proof.
  intros L Hv. destruct L. constructor; cbn in *; auto.
  - intros k out rel Hin. destruct (li_key0 k out rel Hin) as (K1 & (u & K2 & K3) & K4 & K5).
    split; auto. split; [exists u; auto|]. split; [|exact K5]. destruct K4 as [(q & Hq & Hr)|(u' & Hu & Hl)].
    + left; exists q; auto.
    + right; exists u'; split; auto.
  - intros k out rel Hin. destruct (li_out0 k out rel Hin) as ((q & Hq & Hr) & K2).
    split; [exists q; auto|]. intros H1 u Hu. destruct (K2 H1 u Hu); auto.
Qed.

Lemma record_inv p s newops cur visited outV inputs i0 :
  loop_inv p s ->
  chain_inv p (os_visited s) i0 newops cur visited outV inputs ->
  used_at g i0 p -> In p newops ->
  (has_one_use os outV = true -> forall u, used_at g outV u ->
        In u visited \/ overlappable (kind_at os u) = false) ->
  loop_inv (S p)
    (OS visited (fst (record_chain us (os_info s) (os_map s) outV inputs))
                (snd (record_chain us (os_info s) (os_map s) outV inputs))).
Proof.
  intros L CI Hui0 Hp Hend.
  destruct CI as [Cv Cn [Cc1 Cc2] Ci Cp [tl Ch] Cd [Co1 Co2]].
  (* new keys are not old keys *)
  assert (Fresh : forall x, In x inputs -> ~ In x (map fst (os_map s))).
  { intros x Hx C. apply in_map_iff in C. destruct C as ([k [o rel]] & E & Hin). cbn in E. subst k.
    destruct (li_key p s L x o rel Hin) as (K1 & (u & K2 & K3) & _).
    destruct (Ci x Hx) as (_ & _ & _ & _ & _ & u' & U1 & U2 & _).
    assert (u = u') by (eapply one_use_unique; eauto). subst u'.
    destruct (Cn u U2) as (Hn & _). auto. }
  (* new keys are not old outs *)
  assert (NotOut : forall x, In x inputs -> forall k rel, ~ In (k, (x, rel)) (os_map s)).
  { intros x Hx k rel Hin. destruct (li_out p s L k x rel Hin) as (_ & K).
    destruct (Ci x Hx) as (_ & _ & H1 & _ & _ & u & U1 & U2 & _).
    destruct (Cn u U2) as (Hn & _ & Hk). destruct (K H1 u U1); [auto|congruence]. }
  (* the new out is not an old key *)
  assert (OutNotKey : ~ In outV (map fst (os_map s))).
  { intros C. apply in_map_iff in C. destruct C as ([k [o rel]] & E & Hin). cbn in E. subst k.
    destruct (li_key p s L outV o rel Hin) as (_ & _ & [(q & Hq & Hr)|(u & Hu & Hl)] & _).
    - assert (q = cur) by (eapply ov_res_unique; eauto). subst q.
      destruct (Cn cur Cc1) as (Hn & _). auto.
    - pose proof (produced_before_use outV cur u (ov_res_produced _ _ Cc2) Hu).
      destruct (Cn cur Cc1) as (_ & Hle & _). lia. }
  (* nor a new key *)
  assert (OutNotNew : ~ In outV inputs).
  { intros Hx. destruct (Ci outV Hx) as (_ & _ & _ & _ & _ & u & A6 & A7 & A8).
    pose proof (produced_before_use outV cur u (ov_res_produced _ _ Cc2) A6). lia. }
  (* nor an old out *)
  assert (OutFresh : forall k rel, ~ In (k, (outV, rel)) (os_map s)).
  { intros k rel Hin. destruct (li_out p s L k outV rel Hin) as ((q & Hq & Hr) & _).
    assert (q = cur) by (eapply ov_res_unique; eauto). subst q.
    destruct (Cn cur Cc1) as (Hn & _). auto. }
  assert (Iout : os_info s outV = build g outV) by (apply (li_same p s L); auto).
  assert (Iin : forall x, In x inputs -> os_info s x = build g x)
    by (intros x Hx; apply (li_same p s L); apply NotOut; auto).
  destruct (ov_res_tensor cur outV Cc2) as (To1 & To2 & _).
  destruct (tensor_build outV To1) as (Bo1 & Bo2 & Bo3 & Bo4).
  unfold record_chain. rewrite Ch. cbn [fst snd]. rewrite <- Ch.
  set (info1 := upd (os_info s) outV _).
  assert (Hi1 : forall x, x <> outV -> info1 x = os_info s x).
  { intros x Hx. unfold info1, upd. destruct (Nat.eqb_spec x outV); congruence. }
  assert (Hi1o : info1 outV = VI (vi_id (build g outV)) (vi_size (build g outV)) (vi_const (build g outV))
                               (vfirst g i0) (vi_last (build g outV))).
  { unfold info1, upd. rewrite Nat.eqb_refl, Iout. f_equal. rewrite Iin by (rewrite Ch; left; auto).
    destruct (Ci i0) as (T & _); [rewrite Ch; left; auto|]. apply tensor_build; auto. }
  set (mx := fold_left _ inputs 0).
  destruct (fold_max_spec (fun v => vi_size (info1 v) + rel_offset us outV v) inputs 0) as (M1 & M2 & M3).
  fold mx in M1, M2, M3.
  assert (Szin : forall x, In x inputs -> vi_size (info1 x) = align8 (us x)).
  { intros x Hx. rewrite Hi1 by (intros ->; auto). rewrite Iin by auto.
    apply tensor_build. apply (Ci x Hx). }
  assert (Hrel : forall x, In x inputs -> 0 <= rel_offset us outV x /\ (8 | rel_offset us outV x)).
  { intros x Hx. destruct (rel_offset_spec outV x) as (R1 & R2 & _); auto. apply (Ci x Hx). }
  assert (Dmx : (8 | mx)).
  { destruct M3 as [->|(x & Hx & <-)]; [apply Z.divide_0_r|]. cbv beta. rewrite Szin by auto.
    apply Z.divide_add_r; [apply align8_spec|apply Hrel; auto]. }
  rewrite (io_set_all (fun v => (outV, rel_offset us outV v)) inputs (os_map s)) by auto.
  set (info2 := upd info1 outV _).
  assert (Hi2 : forall x, x <> outV -> info2 x = os_info s x).
  { intros x Hx. unfold info2, upd. destruct (Nat.eqb_spec x outV); [congruence|auto]. }
  assert (Hi2o : info2 outV = VI (vi_id (build g outV)) (Z.max (vi_size (build g outV)) mx)
             (vi_const (build g outV)) (vfirst g i0) (vi_last (build g outV))).
  { unfold info2, upd. rewrite Nat.eqb_refl, Hi1o. reflexivity. }
  assert (F0 : vfirst g i0 <= vfirst g outV).
  { destruct (Ci i0) as (_ & _ & _ & _ & _ & u & U1 & U2 & U3); [rewrite Ch; left; auto|].
    pose proof (used_first_le i0 u U1). rewrite (ov_first cur outV Cc2).
    assert (op_id os u <= op_id os cur) by (apply op_id_mono; auto;
                    apply ov_kind_executes; apply (Cn cur Cc1)). lia. }
  assert (Map_in : forall k o r,
    In (k, (o, r)) (os_map s ++ map (fun v => (v, (outV, rel_offset us outV v))) inputs) <->
    In (k, (o, r)) (os_map s) \/ (In k inputs /\ o = outV /\ r = rel_offset us outV k)).
  { intros k o r. rewrite in_app_iff, in_map_iff. split; intros [H|H]; auto.
    - right. destruct H as (x & E & Hx). inv E. auto.
    - right. destruct H as (Hx & -> & ->). exists k. auto. }
  assert (Keys : forall v, In v (map fst (os_map s ++ map (fun v => (v, (outV, rel_offset us outV v))) inputs)) <->
     In v (map fst (os_map s)) \/ In v inputs).
  { intros v. rewrite map_app, map_map, in_app_iff. cbn [fst]. rewrite map_id. tauto. }
  assert (Vis : forall q, In q (os_visited s) -> In q visited)
    by (intros q Hq; rewrite Cv; apply in_or_app; auto).
  assert (VisN : forall q, In q newops -> In q visited)
    by (intros q Hq; rewrite Cv; apply in_or_app; auto).
  constructor; cbn [os_info os_map os_visited].
  - intros v. destruct (Nat.eq_dec v outV) as [->|Hne]; [rewrite Hi2o; auto|rewrite Hi2 by auto; apply L].
  - intros v. destruct (Nat.eq_dec v outV) as [->|Hne]; [rewrite Hi2o; auto|rewrite Hi2 by auto; apply L].
  - intros v. destruct (Nat.eq_dec v outV) as [->|Hne]; [rewrite Hi2o; auto|rewrite Hi2 by auto; apply L].
  - intros v Hv. destruct (Nat.eq_dec v outV) as [->|Hne].
    + exfalso. apply (Hv i0 (rel_offset us outV i0)). apply Map_in. right. rewrite Ch. simpl. auto.
    + rewrite Hi2 by auto. apply (li_same p s L). intros k r Hin. apply (Hv k r). apply Map_in. auto.
  - intros v Hv. destruct (Nat.eq_dec v outV) as [->|Hne]; [rewrite Hi2o, Bo3; cbn; lia|rewrite Hi2 by auto; apply L; auto].
  - intros v Hv. destruct (Nat.eq_dec v outV) as [->|Hne]; [rewrite Hi2o; cbn; lia|rewrite Hi2 by auto; apply L; auto].
  - intros v Hv. destruct (Nat.eq_dec v outV) as [->|Hne]; [|rewrite Hi2 by auto; apply L; auto].
    rewrite Hi2o. cbn. destruct (Z.max_spec (vi_size (build g outV)) mx) as [[_ ->]|[_ ->]]; auto.
    rewrite Bo1. apply align8_spec.
  - rewrite map_app, map_map. cbn [fst]. rewrite map_id. apply nodup_app; auto; [apply L|].
    intros x Hx Hy. apply (Fresh x); auto.
  - intros k o r Hin. rewrite Keys. apply Map_in in Hin. destruct Hin as [Hin|(Hx & -> & ->)].
    + destruct (li_entry p s L k o r Hin) as (E1 & E2 & E3 & E4 & E5 & E6 & E7 & E8 & E9 & E10).
      assert (Ho : o <> outV) by (intros ->; eapply OutFresh; eauto).
      rewrite Hi2 by auto. repeat split; auto.
      intros [C|C]; [auto|]. apply (NotOut o C k r Hin).
    + destruct (Ci k Hx) as (A1 & A2 & A3 & A4 & A5 & u & A6 & A7 & A8).
      rewrite Hi2o. cbn [vi_size vi_first]. destruct (Hrel k Hx) as [R1 R2].
      destruct (tensor_build k A1) as (B1 & B2 & B3 & B4).
      repeat split; auto.
      * intros [C|C]; auto.
      * specialize (M2 k Hx). cbv beta in M2. rewrite Szin in M2 by auto. rewrite B1. lia.
      * rewrite B3. lia.
      * rewrite B4, Bo4. rewrite (one_use_last k u A3 A6).
        pose proof (first_le_last cur outV Cc2). rewrite (ov_first cur outV Cc2) in H.
        assert (op_id os u <= op_id os cur) by (apply op_id_mono; auto;
                    apply ov_kind_executes; apply (Cn cur Cc1)). lia.
  - intros v Hv. destruct (Nat.eq_dec v outV) as [->|Hne].
    + rewrite Hi2o. cbn [vi_size]. destruct M3 as [M3|(x & Hx & M3)].
      * left. rewrite M3. rewrite Bo1. pose proof (align8_spec (us outV)) as [A0 _]. lia.
      * destruct (Z.max_spec (vi_size (build g outV)) mx) as [[_ ->]|[_ ->]]; auto.
        right. exists x, (rel_offset us outV x). split; [apply Map_in; auto|].
        rewrite <- M3, Szin by auto. destruct (tensor_build x) as (-> & _); [apply (Ci x Hx)|]. lia.
    + rewrite Hi2 by auto. destruct (li_exact p s L v Hv) as [?|(k & r & Hin & E)]; auto.
      right. exists k, r. split; auto. apply Map_in; auto.
  - intros k o r Hin. apply Map_in in Hin. destruct Hin as [Hin|(Hx & -> & ->)].
    + destruct (li_key p s L k o r Hin) as (K1 & (u & K2 & K3) & K4 & K5 & K6).
      split; auto. split; [exists u; auto|]. split; [|split; auto].
      * destruct K4 as [(q & Hq & Hr)|(u' & Hu & Hl)].
        -- left; exists q; auto.
        -- right; exists u'; split; auto.
      * intros k' r' Hin' Hne. apply Map_in in Hin'. destruct Hin' as [Hin'|(Hx' & -> & ->)]; [eauto|].
        exfalso. eapply OutFresh; eauto.
    + destruct (Ci k Hx) as (A1 & A2 & A3 & A4 & A5 & u & A6 & A7 & A8).
      split; auto. split; [exists u; auto|]. split; [|split; auto].
      * destruct (Cp k Hx) as [->|(q & Hq & Hr)].
        -- right. exists p. split; auto.
        -- left. exists q. auto.
      * intros k' r' Hin' Hne. apply Map_in in Hin'. destruct Hin' as [Hin'|(Hx' & _ & ->)].
        { exfalso. eapply OutFresh; eauto. }
        clear -Co1 Hx Hx' Hne. induction inputs as [|y l IHl]; [destruct Hx|].
        inv Co1. rewrite Forall_forall in H1. destruct Hx as [->|Hx], Hx' as [->|Hx']; auto. congruence.
  - intros k o r Hin. apply Map_in in Hin. destruct Hin as [Hin|(Hx & -> & ->)].
    + destruct (li_out p s L k o r Hin) as ((q & Hq & Hr) & K2).
      split; [exists q; auto|]. intros H1 u Hu. destruct (K2 H1 u Hu); auto.
    + split; [exists cur; auto|]. auto.
  - intros k o r Hin. apply Map_in in Hin. destruct Hin as [Hin|(Hx & -> & ->)].
    + apply (li_rel p s L); auto.
    + split; auto. apply (Ci k Hx).
Qed.

Lemma overlap_step_inv p s s' :
  loop_inv p s -> overlap_step os us s p = Some s' -> loop_inv (S p) s'.
Proof.
  intros L H. unfold overlap_step in H.
  assert (Same : loop_inv (S p) s).
  { destruct s as [vis inf mm]. apply (loop_inv_weaken p (OS vis inf mm) vis L). auto. }
  destruct (nth_error os p) as [o|] eqn:Eo; [|inv H; auto].
  destruct (negb (has_op_id (o_kind o))) eqn:Eid; [inv H; auto|].
  destruct (_ && _) eqn:Eov; [|inv H; auto].
  destruct (o_args o) as [|a0 rest] eqn:Ea; [discriminate|].
  set (ok := fun v => has_one_use os v && negb (vi_const (os_info s v))) in H.
  set (sel := match rest with [] => _ | _ => _ end) in H.
  destruct sel as [inV|] eqn:Es; [|inv H; auto].
  assert (Hsel : In inV (o_args o) /\ has_one_use os inV = true /\ vi_const (os_info s inV) = false).
  { unfold sel, ok in Es. rewrite Ea. destruct rest as [|a1 [|a2 rest]].
    - destruct (_ && _) eqn:E in Es; [|discriminate]. inv Es. split; [left; auto|lia].
    - destruct (has_one_use os a0 && _) eqn:E in Es.
      + inv Es. split; [left; auto|lia].
      + destruct (has_one_use os a1 && _) eqn:E' in Es; [|discriminate]. inv Es.
        split; [right; left; auto|lia].
    - discriminate. }
  clearbody sel. clear ok.
  destruct Hsel as (Hin & H1 & Hc).
  assert (Hov : overlappable (o_kind o) = true) by lia.
  assert (Hkp : overlappable (kind_at os p) = true) by (unfold kind_at; rewrite Eo; auto).
  assert (Hnv : ~ In p (os_visited s)).
  { intros C. apply mem_nat_spec in C. rewrite C in Eov. rewrite andb_false_r in Eov. discriminate. }
  destruct (result0 os p) as [outV|] eqn:Er; [|discriminate].
  destruct (us outV >=? us inV) eqn:Esz.
  - destruct (first_user os outV) as [next|] eqn:En; [|discriminate].
    destruct (chain _ _ _ _ _ _ _ _) as [[[visited' outV'] inputs]|] eqn:Ech; [|discriminate].
    destruct (record_chain us (os_info s) (os_map s) outV' inputs) as [info' m'] eqn:Erc. inv H.
    assert (Huse : used_at g inV p) by (exists o; split; auto).
    pose proof (ov_res_intro p outV Hkp Er) as Hres.
    assert (CI0 : chain_inv p (os_visited s) inV [p] p (p :: os_visited s) outV [inV]).
    { constructor; auto.
      - intros q [<-|[]]. auto.
      - split; [left; auto|auto].
      - intros x [<-|[]]. repeat split; auto; try lia.
        + eapply wo_args; eauto.
        + rewrite <- (li_const p s L). auto.
        + exists p. repeat split; auto. left; auto.
      - intros x [<-|[]]. auto.
      - exists []; auto.
      - repeat constructor; auto.
      - split; [repeat constructor|]. intros x [<-|[]]. split; auto. exists p, p. repeat split; auto. }
    assert (Hge : us outV >= us inV) by lia.
    destruct (chain_spec p (os_visited s) inV _ _ _ _ _ _ _ _ _ _ _ CI0 En Hge Ech)
      as (newops' & cur' & CI & Hend).
    assert (Hpn : In p newops').
    { (* p is in the visited list and was not visited before *)
      destruct CI as [Cv Cn Cc Ci Cp Ch Cd Co].
      destruct Ch as (tl & Ch).
      destruct (Ci inV) as (_ & _ & _ & _ & _ & u & U1 & U2 & _); [rewrite Ch; left; auto|].
      assert (u = p) by (eapply one_use_unique; eauto). subst; auto. }
    pose proof (record_inv p s newops' cur' visited' outV' inputs inV L CI Huse Hpn Hend) as R.
    rewrite Erc in R. exact R.
  - inv H. apply loop_inv_weaken; auto. intros q Hq; right; auto.
Qed.

Lemma overlap_loop_inv : forall n p s s',
  loop_inv p s -> overlap_loop os us (seq p n) s = Some s' -> loop_inv (p + n) s'.
Proof.
  induction n as [|n IH]; intros p s s' L H; cbn in H.
  - inv H. rewrite Nat.add_0_r. auto.
  - destruct (overlap_step os us s p) as [s1|] eqn:E; [|discriminate].
    replace (p + S n)%nat with (S p + n)%nat by lia.
    eapply IH; eauto. eapply overlap_step_inv; eauto.
Qed.

Lemma loop_inv_init : loop_inv 0 (OS [] (build g) []).
Proof.
  pose proof (ov_ok_init g W) as O. destruct O. constructor; cbn in *; auto; try tauto.
Qed.

Lemma loop_inv_ov_ok p s : loop_inv p s -> ov_ok g s.
Proof.
  intros L. constructor; try apply L.
  intros k out rel Hin.
  destruct (li_entry p s L k out rel Hin) as (E1 & E2 & E3 & E4 & E5 & E6 & E7 & E8 & E9 & E10).
  repeat split; auto.
  (* a key is never an out, so its size is unchanged *)
  rewrite (li_same p s L k); auto.
  intros k' r' Hin'.
  destruct (li_entry p s L k' k r' Hin') as (_ & _ & _ & _ & F5 & _).
  apply F5. apply in_map_iff. exists (k, (out, rel)). auto.
Qed.

Lemma overlap_phase_ok s : overlap_phase g true = Some s -> ov_ok g s /\ loop_inv (length os) s.
Proof.
  unfold overlap_phase. intros H.
  pose proof (overlap_loop_inv _ _ _ _ loop_inv_init H) as L.
  split; [eapply loop_inv_ov_ok; eauto|exact L].
Qed.

(* ---- the phase does not fail when no result is dead ---- *)
Hypothesis RU : results_used g.

Lemma ov_res0 p : overlappable (kind_at os p) = true -> exists r u, result0 os p = Some r /\ first_user os r = Some u.
Proof.
  unfold kind_at, result0. destruct (nth_error os p) as [o|] eqn:E; [|discriminate].
  intros Hk. destruct (wo_res g WO p o E Hk) as (r & s & Hr). rewrite Hr.
  destruct (RU p o r s E Hk Hr) as [q Hq]. destruct (first_user_exists g r q Hq) as [u Hu]. eauto.
Qed.

Lemma chain_total : forall fuel visited inV outV next inputs,
  NoDup visited -> (forall q, In q visited -> (q < length os)%nat) ->
  (length os < length visited + fuel + 1)%nat ->
  exists r, chain fuel os us visited inV outV next inputs = Some r.
Proof.
  induction fuel as [|fuel IH]; intros visited inV outV next inputs ND HB HL; cbn [chain].
  - destruct (_ && _) eqn:E; eauto.
    exfalso. assert (Hn : ~ In next visited).
    { intros C. apply mem_nat_spec in C. rewrite C in E. cbn in E. rewrite andb_false_r in E. discriminate. }
    assert (Hk : overlappable (kind_at os next) = true) by lia.
    assert (Hlt : (next < length os)%nat).
    { unfold kind_at in Hk. destruct (nth_error os next) eqn:En; [|discriminate].
      apply nth_error_Some. congruence. }
    assert (ND' : NoDup (next :: visited)) by (constructor; auto).
    assert (INC : incl (next :: visited) (seq 0 (length os))).
    { intros q [<-|Hq]; apply in_seq; [lia|]. specialize (HB q Hq). lia. }
    pose proof (NoDup_incl_length ND' INC) as LL. rewrite seq_length in LL. cbn in LL. lia.
  - destruct (_ && _) eqn:E; eauto.
    assert (Hn : ~ In next visited).
    { intros C. apply mem_nat_spec in C. rewrite C in E. cbn in E. rewrite andb_false_r in E. discriminate. }
    assert (Hk : overlappable (kind_at os next) = true) by lia.
    destruct (ov_res0 next Hk) as (r & u & -> & ->).
    apply IH.
    + constructor; auto.
    + intros q [<-|Hq]; auto. unfold kind_at in Hk. destruct (nth_error os next) eqn:En; [|discriminate].
      apply nth_error_Some. congruence.
    + cbn [length]. lia.
Qed.

(** visited positions are valid and distinct *)
Definition vis_ok (l : list nat) : Prop := NoDup l /\ forall q, In q l -> (q < length os)%nat.

Lemma chain_vis : forall fuel visited inV outV next inputs v' o' i',
  vis_ok visited -> chain fuel os us visited inV outV next inputs = Some (v', o', i') -> vis_ok v'.
Proof.
  induction fuel as [|fuel IH]; intros visited inV outV next inputs v' o' i' V H; cbn [chain] in H.
  - destruct (_ && _); [discriminate|inv H; auto].
  - destruct (_ && _) eqn:E; [|inv H; auto].
    destruct (result0 os next) as [r|]; [|discriminate].
    destruct (first_user os r) as [u|]; [|discriminate].
    eapply IH; [|exact H]. destruct V as [V1 V2].
    assert (Hn : ~ In next visited).
    { intros C. apply mem_nat_spec in C. rewrite C in E. cbn in E. rewrite andb_false_r in E. discriminate. }
    split; [constructor; auto|]. intros q [<-|Hq]; auto.
    assert (Hk : overlappable (kind_at os next) = true) by lia.
    unfold kind_at in Hk. destruct (nth_error os next) eqn:En; [|discriminate].
    apply nth_error_Some. congruence.
Qed.

Lemma overlap_step_total p s :
  vis_ok (os_visited s) ->
  exists s', overlap_step os us s p = Some s' /\ vis_ok (os_visited s').
Proof.
  intros V. unfold overlap_step.
  destruct (nth_error os p) as [o|] eqn:Eo; [|eauto].
  destruct (negb (has_op_id (o_kind o))); [eauto|].
  destruct (_ && _) eqn:Eov; [|eauto].
  assert (Hov : overlappable (o_kind o) = true) by lia.
  assert (Hkp : overlappable (kind_at os p) = true) by (unfold kind_at; rewrite Eo; auto).
  destruct (o_args o) as [|a0 rest] eqn:Ea; [exfalso; eapply (wo_some_arg g WO); eauto|].
  match goal with |- exists _, match ?sel with _ => _ end = _ /\ _ => destruct sel as [inV|] end; [|eauto].
  destruct (ov_res0 p Hkp) as (r & u & -> & Hu).
  assert (V' : vis_ok (p :: os_visited s)).
  { destruct V as [V1 V2]. split.
    - constructor; auto. intros C. apply mem_nat_spec in C. rewrite C in Eov.
      rewrite andb_false_r in Eov. discriminate.
    - intros q [<-|Hq]; auto. apply nth_error_Some. congruence. }
  destruct (us r >=? us inV); [|eexists; split; [reflexivity|exact V']].
  rewrite Hu.
  destruct (chain_total (length os) (p :: os_visited s) inV r u [inV]) as [[[v' o'] i'] Hch];
    try apply V'; [cbn; lia|].
  rewrite Hch. destruct (record_chain us (os_info s) (os_map s) o' i') as [a b].
  eexists; split; [reflexivity|]. cbn. eapply chain_vis; eauto.
Qed.

Lemma overlap_phase_total : exists s, overlap_phase g true = Some s.
Proof.
  unfold overlap_phase.
  assert (H : forall ps s, vis_ok (os_visited s) -> exists s', overlap_loop os us ps s = Some s').
  { induction ps as [|p ps IH]; intros s V; cbn; eauto.
    destruct (overlap_step_total p s V) as (s' & -> & V'). auto. }
  apply H. split; [constructor|intros q []].
Qed.

End Overlap.
