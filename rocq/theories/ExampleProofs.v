(** Lemmas for C98 and C99. *)
From Coq Require Import Sorted Permutation.
From Verif Require Import Base MemPlanModel MemPlanSpec MemPlanGreedy MemPlanBuild
     MemPlanAssemble MemPlanOverlap MemExecSpec MemExecProofs MemPlanMain MemPlanExtra MemPlanProps ExampleModel ExampleSpec.
Local Open Scope Z_scope.

(* ------------------------------------------------------------------ *)
(** ** The copy *)
Lemma copy_other p n : forall i m a, a < p + i \/ p + i + Z.of_nat n <= a -> copy_image p i n m a = m a.
Proof.
  induction n as [|n IH]; intros i m a Ha; cbn [copy_image]; auto.
  rewrite IH by lia. destruct (Z.eqb_spec a (p + i)); auto. lia.
Qed.

Lemma copy_inside p n : forall i m k, 0 <= i -> p = 0 \/ i + Z.of_nat n <= p -> i <= k < i + Z.of_nat n ->
  copy_image p i n m (p + k) = (m k - 128) mod 256.
Proof.
  induction n as [|n IH]; intros i m k Hi Hp Hk; [lia|]. cbn [copy_image].
  destruct (Z.eq_dec k i) as [->|Ne].
  - rewrite copy_other by lia. rewrite Z.eqb_refl. auto.
  - rewrite IH by lia. destruct (Z.eqb_spec k (p + i)); auto. lia.
Qed.

Lemma copy_split p a : forall b i m, copy_image p i (a + b) m = copy_image p (i + Z.of_nat a) b (copy_image p i a m).
Proof.
  induction a as [|a IH]; intros b i m; cbn [copy_image Nat.add].
  - rewrite Z.add_0_r. auto.
  - rewrite IH. f_equal. lia.
Qed.

(** The byte [p] of the image is overwritten before it is read. *)
Lemma copy_spoiled p n m : 0 < p < Z.of_nat n -> copy_image p 0 n m (p + p) = ((m 0 - 128) mod 256 - 128) mod 256.
Proof.
  intros H. replace n with (Z.to_nat p + S (n - 1 - Z.to_nat p))%nat by lia.
  rewrite copy_split. rewrite Z.add_0_l, Z2Nat.id by lia. cbn [copy_image].
  rewrite copy_other by lia. rewrite Z.eqb_refl. f_equal. f_equal.
  replace (Z.to_nat p) with (S (Z.to_nat p - 1)) by lia. cbn [copy_image].
  rewrite copy_other by lia. rewrite Z.add_0_r, Z.eqb_refl. auto.
Qed.

(* ------------------------------------------------------------------ *)
(** ** Where the planner puts a tensor *)
Lemma place_ends info q : forall al,
  q_ok info q -> StronglySorted by_size q ->
  (forall x y, In x al -> In y q -> snd y <= vi_size (info (fst x))) ->
  (forall x, In x al -> 0 <= snd x) -> (forall x, In x al -> snd x = 0 \/ vi_size (info (fst x)) <= snd x) ->
  forall x, In x (place info q al) -> snd x = 0 \/ vi_size (info (fst x)) <= snd x.
Proof.
  induction q as [|[v size] q IH]; intros al HQ HS HL HN HE x Hx; cbn [place] in *; auto.
  destruct (HQ (v, size)) as [E1 E2]; [left; auto|]. cbn in E1, E2.
  inversion HS as [|? ? HS1 HS2]; subst. rewrite Forall_forall in HS2.
  assert (G : get_offset info v (vi_size (info v)) al = 0 \/
              exists y, In y al /\ get_offset info v (vi_size (info v)) al = snd y + vi_size (info (fst y))).
  { unfold get_offset. destruct (get_offset_from_end info v (vi_size (info v)) al 0) as [E|(y & Hy & _ & E)]; auto.
    right. exists y. split; auto. }
  eapply IH in Hx; eauto.
  - intros y Hy. apply HQ; right; auto.
  - intros a b Ha Hb. apply ms_insert_in in Ha. destruct Ha as [->|Ha].
    + cbn. specialize (HS2 _ Hb). unfold by_size in HS2; cbn in HS2. lia.
    + apply HL; auto. right; auto.
  - intros a Ha. apply ms_insert_in in Ha. destruct Ha as [->|Ha]; [|auto]. cbn [snd].
    destruct G as [->|(y & Hy & ->)]; [lia|]. pose proof (HN y Hy).
    pose proof (HL y (v, vi_size (info v)) Hy (or_introl eq_refl)). cbn [snd] in *. lia.
  - intros a Ha. apply ms_insert_in in Ha. destruct Ha as [->|Ha]; [|auto]. cbn [fst snd].
    destruct G as [->|(y & Hy & ->)]; [auto|]. right. pose proof (HN y Hy).
    pose proof (HL y (v, vi_size (info v)) Hy (or_introl eq_refl)). cbn [snd] in *. lia.
Qed.

Lemma allocate_ends info q al : q_ok info q -> StronglySorted by_size q -> allocate info q = Some al ->
  forall x, In x al -> snd x = 0 \/ vi_size (info (fst x)) <= snd x.
Proof.
  destruct q as [|[v s] q]; cbn [allocate]; intros HQ HS H x Hx; [discriminate|]. injection H as <-.
  destruct (HQ (v, s)) as [E1 E2]; [left; auto|]. cbn in *.
  inversion HS as [|? ? HS1 HS2]; subst. rewrite Forall_forall in HS2.
  apply (place_ends info q [(v, 0)]); auto.
  - intros y Hy; apply HQ; right; auto.
  - intros a b [<-|[]] Hb. cbn. specialize (HS2 _ Hb). unfold by_size in HS2; cbn in HS2. lia.
  - intros a [<-|[]]. cbn. lia.
  - intros a [<-|[]]. cbn. auto.
Qed.

Lemma root_ends g s al0 pl v sz z : wf_graph g -> ov_ok g s -> plan_ok g s al0 pl ->
  arena_tensor g v sz -> In (v, z) (p_alloc pl) -> ~ In v (map fst (os_map s)) -> z = 0 \/ sz <= z.
Proof.
  intros W O P Ha Hin Hn. destruct (arena_facts g v sz W Ha) as (T & C & Sz & _ & _ & Nn).
  destruct (po_entry g s al0 pl P v z Hin) as [[Ec _]|[(_ & _ & Hr)|(_ & out & rel & o & Hm & _)]]; [congruence| |].
  - pose proof (allocate_ends _ _ _ (q_ok_queue g s W O) (q_sort_sorted _ _) (po_alloc g s al0 pl P) _ Hr) as E.
    cbn [fst snd] in E. destruct E as [E|E]; [auto|right].
    pose proof (oo_size g s O v T) as Le. rewrite Sz in Le. rewrite <- up8_align8 in Le. unfold up8 in Le.
    pose proof (Z.mod_pos_bound (- sz) 8). lia.
  - exfalso. apply Hn. apply in_map_iff. exists (v, (out, rel)). auto.
Qed.

(** The operand of an operator that may run in place. *)
Definition may_be_in_place (g : graph) (v : vname) : Prop :=
  exists p o, op_at g p o /\ overlappable (o_kind o) = true /\ In v (o_args o).

Lemma plan_ends iter g garbage ma : wf_graph g -> wf_overlap g -> chain_grows g -> (forall m, Permutation (iter m) m) ->
  plan_memory iter true false g garbage = Some (Some ma) ->
  forall v s z, arena_tensor g v s -> offset_of g (ma_offsets ma) v z -> ~ may_be_in_place g v -> z = 0 \/ s <= z.
Proof.
  intros W WO CG I H v sz z Ha Hz Hn.
  destruct (plan_memory_spec iter g garbage ma H) as (pw & pn & H1 & H2 & _ & _ & C).
  destruct C as [[E _]|[E _]]; rewrite E in Hz; clear E.
  - assert (Hs : exists s, overlap_phase g true = Some s).
    { unfold get_allocated_offsets in H1. destruct (overlap_phase g true); [eauto|discriminate]. }
    destruct Hs as [s Hs]. destruct (overlap_phase_ok g W WO CG s Hs) as [O LI].
    destruct (plan_spec iter g true garbage pw s W I Hs O H1) as [al0 P].
    apply (offset_of_alloc g s al0 pw P) in Hz. apply (root_ends g s al0 pw v sz z W O P Ha Hz).
    intros K. apply in_map_iff in K. destruct K as ([k [out rel]] & Ek & K). cbn in Ek. subst k.
    destruct (li_key g _ s LI v out rel K) as (_ & _ & _ & (_ & u & q & (o & Ho & Hin) & Ku & _) & _).
    apply Hn. exists u, o. unfold kind_at in Ku. unfold op_at in Ho. rewrite Ho in Ku. auto.
  - destruct (plan_plain iter g _ pn W I H2) as [al0 P].
    apply (offset_of_alloc g _ al0 pn P) in Hz.
    apply (root_ends g _ al0 pn v sz z W (ov_ok_init g W) P Ha Hz). cbn. auto.
Qed.

Lemma plain_ends iter g po0 pl : wf_graph g -> (forall m, Permutation (iter m) m) -> get_allocated_offsets iter g false po0 = Some pl ->
  forall v s z, arena_tensor g v s -> offset_of g (p_offsets pl) v z -> z = 0 \/ s <= z.
Proof.
  intros W I H v sz z Ha Hz. destruct (plan_plain iter g _ pl W I H) as [al0 P].
  apply (offset_of_alloc g _ al0 pl P) in Hz.
  apply (root_ends g _ al0 pl v sz z W (ov_ok_init g W) P Ha Hz). cbn. auto.
Qed.

(* ------------------------------------------------------------------ *)
(** ** Execution depends on the contents of the memory only *)
Lemma read_ext m m' off n : (forall a, m a = m' a) -> read m off n = read m' off n.
Proof. intros H. unfold read. apply map_ext. auto. Qed.

Lemma store_ext loc rs : forall bs a a', (forall x, a_mem a x = a_mem a' x) -> (forall v, a_const a v = a_const a' v) ->
  (forall x, a_mem (store_all loc a rs bs) x = a_mem (store_all loc a' rs bs) x) /\
  (forall v, a_const (store_all loc a rs bs) v = a_const (store_all loc a' rs bs) v).
Proof.
  induction rs as [|[v sz] rs IH]; intros bs a a' Hm Hc; cbn [store_all]; [auto|].
  destruct bs as [|b bs]; [auto|]. apply IH.
  - intros x. destruct (loc v) as [[off n]|]; cbn [a_mem]; auto. unfold write. rewrite Hm. auto.
  - intros w. destruct (loc v) as [[off n]|]; cbn [a_const]; auto. unfold set_env. rewrite Hc. auto.
Qed.

Lemma run_arena_ext sem loc os : forall p a a', (forall x, a_mem a x = a_mem a' x) -> (forall v, a_const a v = a_const a' v) ->
  run_arena sem loc os p a = run_arena sem loc os p a'.
Proof.
  induction os as [|o os IH]; intros p a a' Hm Hc; cbn [run_arena]; auto.
  assert (E : map (fetch loc a) (o_args o) = map (fetch loc a') (o_args o)).
  { apply map_ext. intros v. unfold fetch. destruct (loc v) as [[off n]|]; auto. apply read_ext; auto. }
  rewrite <- E. f_equal.
  destruct (store_ext loc (o_res o) (sem p (map (fetch loc a) (o_args o))) a a' Hm Hc) as [E1 E2].
  apply IH; auto.
Qed.

(** The memory after the copy is the memory in which the input has been stored. *)
Lemma copy_is_write image z m : uint8s image -> image_loaded image m -> 0 <= z -> z = 0 \/ Z.of_nat (length image) <= z ->
  forall a, copy_image z 0 (length image) m a = write m z (map (fun x => x mod 256) (centred image)) a.
Proof.
  intros U L Hz Hp a. unfold write, centred. rewrite !map_length.
  destruct ((z <=? a) && (a <? z + Z.of_nat (length image))) eqn:E.
  - replace a with (z + (a - z)) at 1 by lia. rewrite copy_inside by lia.
    rewrite map_map. set (f := fun x => (x - 128) mod 256).
    change (f (m (a - z)) = nth (Z.to_nat (a - z)) (map f image) 0).
    rewrite (nth_indep _ 0 (f 0)) by (rewrite map_length; lia). rewrite map_nth. f_equal.
    rewrite <- (L (Z.to_nat (a - z))) by lia. f_equal. lia.
  - apply copy_other. lia.
Qed.

(* ------------------------------------------------------------------ *)
(** ** The best classes *)
Lemma best_loop_spec out : forall i s, let r := best_loop out i s in
  (r = s /\ (forall j, (j < length out)%nat -> nth j out 0 <= fst s)) \/
  (exists k, snd r = i + Z.of_nat k /\ (k < length out)%nat /\ fst r = nth k out 0 /\ fst s < nth k out 0 /\
     (forall j, (j < length out)%nat -> nth j out 0 <= nth k out 0) /\ (forall j, (j < k)%nat -> nth j out 0 < nth k out 0)).
Proof.
  induction out as [|x out IH]; intros i s; cbn [best_loop].
  - left. split; auto. cbn. lia.
  - destruct (x >? fst s) eqn:E; rewrite Z.gtb_ltb in E; [apply Z.ltb_lt in E|apply Z.ltb_ge in E].
    + destruct (IH (i + 1) (x, i)) as [[Er Hle]|(k & H1 & H2 & H3 & H4 & H5 & H6)]; cbn [fst snd] in *.
      * right. exists 0%nat. rewrite Er. cbn [fst snd nth length]. repeat split; try lia.
        intros [|j] Hj; [lia|]. apply Hle. cbn in Hj. lia.
      * right. exists (S k). cbn [nth length]. repeat split; try lia.
        -- intros [|j] Hj; [lia|]. apply H5. cbn in Hj. lia.
        -- intros [|j] Hj; [lia|]. apply H6. lia.
    + destruct (IH (i + 1) s) as [[Er Hle]|(k & H1 & H2 & H3 & H4 & H5 & H6)].
      * left. split; auto. intros [|j] Hj; cbn [nth]; [lia|]. apply Hle. cbn in Hj. lia.
      * right. exists (S k). cbn [nth length]. repeat split; try lia.
        -- intros [|j] Hj; [lia|]. apply H5. cbn in Hj. lia.
        -- intros [|j] Hj; [lia|]. apply H6. lia.
Qed.

Lemma best_app out : forall x i s, best_loop (out ++ [x]) i s =
  let r := best_loop out i s in if x >? fst r then (x, i + Z.of_nat (length out)) else r.
Proof.
  induction out as [|y out IH]; intros x i s; cbn [best_loop app length].
  - rewrite Z.add_0_r. auto.
  - rewrite IH. cbn zeta. destruct (_ >? _); auto. f_equal. lia.
Qed.
Lemma top_app out : forall x i s, top_loop (out ++ [x]) i s =
  let '(r1, r2, r3) := top_loop out i s in if x >? fst r1 then ((x, i + Z.of_nat (length out)), r1, r2) else (r1, r2, r3).
Proof.
  induction out as [|y out IH]; intros x i s; cbn [top_loop app length].
  - rewrite Z.add_0_r. destruct s as [[s1 s2] s3]. auto.
  - destruct s as [[s1 s2] s3]. rewrite IH. destruct (top_loop out _ _) as [[r1 r2] r3].
    destruct (x >? fst r1); auto. replace (i + 1 + Z.of_nat (length out)) with (i + Z.of_nat (S (length out))) by lia. auto.
Qed.

(** What is reported second is the best of the outputs before the best one; third, the best of those before the second. *)
Definition ahead (out : list Z) (r : Z * Z) : list Z := firstn (Z.to_nat (snd r)) out.
Lemma best_index out : -1 <= snd (best_class out) < Z.max 1 (Z.of_nat (length out)).
Proof.
  unfold best_class. pose proof (best_loop_spec out 0 (-128, -1)) as B. cbv zeta in B.
  destruct B as [[E _]|(k & E & Hk & _)]; rewrite E; cbn [snd]; lia.
Qed.
Lemma top_classes_spec out : top_classes out =
  (best_class out, best_class (ahead out (best_class out)), best_class (ahead (ahead out (best_class out)) (best_class (ahead out (best_class out))))).
Proof.
  induction out as [|x out IH] using rev_ind; [reflexivity|].
  unfold top_classes. rewrite top_app. fold (top_classes out). rewrite IH.
  assert (B : best_class (out ++ [x]) = if x >? fst (best_class out) then (x, Z.of_nat (length out)) else best_class out)
    by (unfold best_class at 1; rewrite best_app; reflexivity).
  rewrite B. destruct (x >? fst (best_class out)).
  - assert (A : ahead (out ++ [x]) (x, Z.of_nat (length out)) = out).
    { unfold ahead. cbn [snd]. rewrite Nat2Z.id, firstn_app, Nat.sub_diag, firstn_all. apply app_nil_r. }
    rewrite A. rewrite Z.add_0_l. auto.
  - assert (A : ahead (out ++ [x]) (best_class out) = ahead out (best_class out)).
    { unfold ahead. rewrite firstn_app. pose proof (best_index out) as Bi.
      replace (Z.to_nat (snd (best_class out)) - length out)%nat with 0%nat by lia. apply app_nil_r. }
    rewrite !A. auto.
Qed.
