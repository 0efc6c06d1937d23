From Verif Require Import Base NdSpec NdBase SlicePadModel LowerModel LowerSpec CopyKernels SlicePadProofs SlicePadProofs2 BroadcastProofs ConcatProofs.

Lemma all_some_map {X Y} (g : X -> option Y) (h : X -> Y) l : (forall x, In x l -> g x = Some (h x)) -> all_some (map g l) = Some (map h l).
Proof.
  induction l as [|x l IH]; cbn [map all_some]; auto. intros H. rewrite (H x) by (left; auto).
  rewrite IH; auto. intros y Hy. apply H. right. auto.
Qed.

Lemma nth_error_flatten {A} s (t : tensor A) k : k < nelem s -> nth_error (flatten s t) k = Some (t (unravel s k)).
Proof.
  intros H. rewrite flatten_unravel, nth_error_map.
  replace (nth_error (seq 0 (nelem s)) k) with (Some k); auto.
  symmetry. rewrite nth_error_nth' with (d := 0) by (rewrite seq_length; auto).
  rewrite seq_nth; auto.
Qed.

Lemma unravel_app a b : forall i j, i < nelem a -> j < nelem b -> unravel (a ++ b) (i * nelem b + j) = unravel a i ++ unravel b j.
Proof.
  induction a as [|d a IH]; intros i j Hi Hj; cbn [app unravel].
  - cbn in Hi. assert (i = 0) by lia. subst. auto.
  - cbn [nelem fold_right] in Hi. fold (nelem a) in Hi. rewrite nelem_app.
    assert (Ha : nelem a <> 0) by (intros E; rewrite E in Hi; lia).
    pose proof (Nat.div_mod i (nelem a) Ha) as D. pose proof (Nat.mod_upper_bound i (nelem a) Ha) as M.
    set (q := i / nelem a) in *. set (r := i mod nelem a) in *.
    assert (E : i * nelem b + j = (r * nelem b + j) + q * (nelem a * nelem b)) by nia.
    assert (L : r * nelem b + j < nelem a * nelem b) by nia.
    rewrite E, Nat.div_add, Nat.mod_add, Nat.div_small, Nat.mod_small by nia. cbn [Nat.add]. f_equal. auto.
Qed.

(** the mask of an interval *)
Definition block_mask (a m c : nat) : list bool := repeat false a ++ repeat true m ++ repeat false c.

Lemma reduced_prefix {A} p : forall s mask (t : tensor A) out,
  reduced_elems (repeat false (length p) ++ mask) (p ++ s) t out =
  if length p <=? length out then reduced_elems mask s (fun r => t (firstn (length p) out ++ r)) (skipn (length p) out) else [].
Proof.
  induction p as [|d p IH]; intros s mask t out; cbn [length repeat app reduced_elems]; [reflexivity|].
  destruct out as [|o out]; auto. rewrite IH. cbn [length Nat.leb firstn skipn app]. auto.
Qed.

Lemma reduced_mid {A} mid : forall s mask (t : tensor A) out,
  reduced_elems (repeat true (length mid) ++ mask) (mid ++ s) t out =
  flat_map (fun r => r) (flatten mid (fun m => reduced_elems mask s (fun r => t (m ++ r)) out)).
Proof.
  induction mid as [|d mid IH]; intros s mask t out; cbn [length repeat app reduced_elems flatten].
  - cbn [flat_map]. rewrite app_nil_r. auto.
  - rewrite flat_map_flat_map. apply flat_map_ext. intros i. rewrite IH. auto.
Qed.

Lemma reduced_block {A} pre mid post (t : tensor A) p q : length p = length pre -> length q = length post ->
  reduced_elems (block_mask (length pre) (length mid) (length post)) (pre ++ mid ++ post) t (p ++ q) =
  flatten mid (fun m => t (p ++ m ++ q)).
Proof.
  intros Hp Hq. unfold block_mask. rewrite reduced_prefix, app_length. replace (length pre <=? length p + length q) with true by lia.
  rewrite <- Hp, firstn_app, firstn_all, Nat.sub_diag. cbn [firstn]. rewrite app_nil_r.
  rewrite skipn_app, skipn_all2, Nat.sub_diag by lia. cbn [skipn app].
  rewrite reduced_mid.
  assert (E : forall m, reduced_elems (repeat false (length post)) post (fun r => t (p ++ m ++ r)) q = [t (p ++ m ++ q)]).
  { intros m. pose proof (reduced_prefix post [] [] (fun r => t (p ++ m ++ r)) q) as X. rewrite !app_nil_r in X.
    rewrite X. replace (length post <=? length q) with true by lia. cbn [reduced_elems].
    rewrite <- Hq, firstn_all, app_nil_r. auto. }
  rewrite (flatten_ext mid _ (fun m => [t (p ++ m ++ q)])) by (intros m; apply E).
  rewrite !flatten_unravel, flat_map_map. clear.
  induction (seq 0 (nelem mid)); cbn; auto; f_equal; auto.
Qed.

Lemma kept_block pre mid post : kept_shape (block_mask (length pre) (length mid) (length post)) (pre ++ mid ++ post) = pre ++ post.
Proof.
  unfold block_mask. induction pre as [|d pre IH]; cbn [length repeat app kept_shape]; [|f_equal; auto].
  induction mid as [|d mid IH]; cbn [length repeat app kept_shape]; auto.
  induction post as [|d post IH]; cbn [length repeat app kept_shape]; auto. f_equal. auto.
Qed.

Lemma map_flat_map {X Y W} (g : Y -> W) (f : X -> list Y) l : map g (flat_map f l) = flat_map (fun x => map g (f x)) l.
Proof. induction l as [|x l IH]; cbn [flat_map map]; auto. rewrite map_app, IH. auto. Qed.

Lemma run_mean_ok {A R} (f : list A -> R) pre mid post (t : tensor A) :
  run_mean f (MeanOp (Z.of_nat (nelem pre)) (Z.of_nat (nelem mid)) (Z.of_nat (nelem post))) (flatten (pre ++ mid ++ post) t) =
  Some (flatten (pre ++ post) (fun o => f (reduced_elems (block_mask (length pre) (length mid) (length post)) (pre ++ mid ++ post) t o))).
Proof.
  unfold run_mean. cbn [m_start m_mean m_end]. replace (_ || _) with false by lia. rewrite !Nat2Z.id.
  transitivity (all_some (map (fun be => Some (f (flatten mid (fun m => t (unravel pre (be / nelem post) ++ m ++ unravel post (be mod nelem post)))))) (seq 0 (nelem pre * nelem post)))).
  - f_equal. rewrite seq_mul, map_flat_map.
    apply flat_map_ext_in. intros b Hb. rewrite map_map. apply map_ext_in. intros e He.
    apply in_seq in Hb, He.
    rewrite (Nat.add_comm (b * nelem post)), Nat.div_add, Nat.div_small, Nat.mod_add, Nat.mod_small by lia. cbn [Nat.add].
    rewrite (all_some_map _ (fun m => t (unravel pre b ++ unravel mid m ++ unravel post e))).
    + do 2 f_equal. rewrite flatten_unravel. auto.
    + intros m Hm. apply in_seq in Hm.
      assert (b * nelem mid + m < nelem pre * nelem mid) by nia.
      rewrite nth_error_flatten by (rewrite !nelem_app; nia). do 2 f_equal.
      rewrite app_assoc, unravel_app by (rewrite ?nelem_app; lia). rewrite unravel_app by lia. rewrite app_assoc. auto.
  - rewrite (all_some_map _ _ _ (fun x _ => eq_refl)). f_equal.
    rewrite seq_mul, map_flat_map.
    rewrite (flatten_app pre), (flatten_unravel pre), flat_map_map. apply flat_map_ext_in. intros b Hb.
    rewrite flatten_unravel, map_map. apply map_ext_in. intros e He. apply in_seq in He.
    rewrite (Nat.add_comm (b * nelem post)), Nat.div_add, Nat.div_small, Nat.mod_add, Nat.mod_small by lia. cbn [Nat.add].
    rewrite reduced_block by apply unravel_length. auto.
Qed.

(** ** the axes *)
Lemma prod_range_ok mid : forall s lo a c, s = a ++ mid ++ c -> lo = Z.of_nat (length a) ->
  prod_range (zn s) lo (length mid) = Some (Z.of_nat (nelem mid)).
Proof.
  induction mid as [|d mid IH]; intros s lo a c -> ->; cbn [length prod_range]; auto.
  replace (Z.of_nat (length a) <? 0)%Z with false by lia. rewrite Nat2Z.id.
  replace (nth_error (zn (a ++ (d :: mid) ++ c)) (length a)) with (Some (Z.of_nat d)).
  - rewrite (IH _ _ (a ++ [d]) c); [|rewrite <- !app_assoc; auto|rewrite app_length; cbn [length]; lia].
    cbn [nelem fold_right]. fold (nelem mid). f_equal. lia.
  - unfold zn. rewrite map_app, nth_error_app2; rewrite map_length; auto. rewrite Nat.sub_diag. auto.
Qed.

Lemma fold_min_spec l : forall x, let m := fold_left Z.min l x in
  (In m (x :: l)) /\ forall y, In y (x :: l) -> (m <= y)%Z.
Proof.
  induction l as [|a l IH]; intros x; cbn [fold_left].
  - split; [left; auto|]. intros y [->|[]]. lia.
  - destruct (IH (Z.min x a)) as [I1 I2]. split.
    + destruct I1 as [I1|I1]; [|right; right; auto]. rewrite <- I1. destruct (Z.min_spec x a) as [[_ ->]|[_ ->]]; [left|right; left]; auto.
    + intros y [->|[->|Hy]]; [pose proof (I2 (Z.min y a) (or_introl eq_refl)); lia|pose proof (I2 (Z.min x y) (or_introl eq_refl)); lia|]. apply I2. right. auto.
Qed.

Lemma fold_max_spec l : forall x, let m := fold_left Z.max l x in
  (In m (x :: l)) /\ forall y, In y (x :: l) -> (y <= m)%Z.
Proof.
  induction l as [|a l IH]; intros x; cbn [fold_left].
  - split; [left; auto|]. intros y [->|[]]. lia.
  - destruct (IH (Z.max x a)) as [I1 I2]. split.
    + destruct I1 as [I1|I1]; [|right; right; auto]. rewrite <- I1. destruct (Z.max_spec x a) as [[_ ->]|[_ ->]]; [right; left|left]; auto.
    + intros y [->|[->|Hy]]; [pose proof (I2 (Z.max y a) (or_introl eq_refl)); lia|pose proof (I2 (Z.max x y) (or_introl eq_refl)); lia|]. apply I2. right. auto.
Qed.

Lemma min_max_nat axes : axes <> [] -> exists mn mx, zmin_list (zn axes) = Some (Z.of_nat mn) /\ zmax_list (zn axes) = Some (Z.of_nat mx) /\
  In mn axes /\ In mx axes /\ forall x, In x axes -> mn <= x <= mx.
Proof.
  intros H. destruct axes as [|x axes]; [congruence|]. cbn [zn map zmin_list zmax_list].
  destruct (fold_min_spec (map Z.of_nat axes) (Z.of_nat x)) as [A1 A2].
  destruct (fold_max_spec (map Z.of_nat axes) (Z.of_nat x)) as [B1 B2].
  change (Z.of_nat x :: map Z.of_nat axes) with (map Z.of_nat (x :: axes)) in *.
  set (mn := fold_left Z.min _ _) in *. set (mx := fold_left Z.max _ _) in *. clearbody mn mx.
  apply in_map_iff in A1, B1. destruct A1 as (mn' & <- & A1), B1 as (mx' & <- & B1).
  exists mn', mx'. repeat split; auto.
  - pose proof (A2 (Z.of_nat x0) (in_map _ _ _ H0)). lia.
  - pose proof (B2 (Z.of_nat x0) (in_map _ _ _ H0)). lia.
Qed.

Lemma interval_mask rank mn mx axes : mn <= mx -> mx < rank -> (forall x, In x axes <-> mn <= x <= mx) ->
  axis_mask rank axes = block_mask mn (S mx - mn) (rank - S mx).
Proof.
  intros H1 H2 H. unfold axis_mask, block_mask.
  replace rank with (mn + ((S mx - mn) + (rank - S mx))) at 1 by lia. rewrite seq_app, seq_app, !map_app. cbn [Nat.add].
  assert (E : forall a n v, (forall i, a <= i < a + n -> existsb (Nat.eqb i) axes = v) -> map (fun i => existsb (Nat.eqb i) axes) (seq a n) = repeat v n).
  { intros a n v Hv. revert a Hv. induction n as [|n IH]; intros a Hv; cbn [seq map repeat]; auto. f_equal; [apply Hv; lia|]. apply IH. intros i Hi. apply Hv. lia. }
  assert (T : forall i, existsb (Nat.eqb i) axes = true <-> In i axes).
  { intros i. rewrite existsb_exists. split; [intros (x & Hx & Ex); apply Nat.eqb_eq in Ex; subst; auto|intros Hi; exists i; rewrite Nat.eqb_refl; auto]. }
  assert (Fa : forall i, ~ In i axes -> existsb (Nat.eqb i) axes = false).
  { intros i Hi. destruct (existsb (Nat.eqb i) axes) eqn:X; auto. apply T in X. tauto. }
  f_equal; [|f_equal]; apply E; intros i Hi.
  - apply Fa. rewrite H. lia.
  - apply T. apply H. lia.
  - apply Fa. rewrite H. lia.
Qed.

Lemma contiguous_axes axes mn mx : NoDup axes -> (forall x, In x axes -> mn <= x <= mx) -> mx - mn + 1 <= length axes ->
  forall x, In x axes <-> mn <= x <= mx.
Proof.
  intros N H L x. split; auto. intros Hx.
  assert (I : incl (seq mn (mx - mn + 1)) axes).
  { apply NoDup_length_incl; auto; [rewrite seq_length; lia|]. intros y Hy. apply in_seq. specialize (H y Hy). lia. }
  apply I. apply in_seq. lia.
Qed.

Lemma zn_length l : length (zn l) = length l.
Proof. apply map_length. Qed.

Lemma replace_mean_ok {A R} (f : list A -> R) s axes (t : tensor A) :
  axes <> [] -> NoDup axes -> (forall x, In x axes -> x < length s) ->
  match replace_mean true (zn s) (zn axes) with
  | Lowered op => run_mean f op (flatten s t) =
      Some (flatten (kept_shape (axis_mask (length s) axes) s) (fun o => f (reduced_elems (axis_mask (length s) axes) s t o)))
  | NotApplied => exists x y z, In x axes /\ In z axes /\ x < y < z /\ ~ In y axes
  | _ => False
  end.
Proof.
  intros Hne N Hr. unfold replace_mean. destruct (min_max_nat axes Hne) as (mn & mx & -> & -> & Imn & Imx & Hb).
  pose proof (Hr mx Imx) as Hmx. pose proof (Hb mx Imx) as Hmn.
  rewrite !zn_length. destruct (_ >? _)%Z eqn:Eg.
  - (* a hole *)
    assert (Hh : exists y, mn <= y <= mx /\ ~ In y axes);
      [ destruct (Forall_Exists_dec (fun y => In y axes) (fun y => in_dec Nat.eq_dec y axes) (seq mn (mx - mn + 1))) as [Fa|Ex];
        [ exfalso; rewrite Forall_forall in Fa;
          pose proof (NoDup_incl_length (seq_NoDup (mx - mn + 1) mn) (l' := axes) Fa) as L; rewrite seq_length in L; lia
        | apply Exists_exists in Ex; destruct Ex as (y & Hy & Ny); apply in_seq in Hy; exists y; split; [lia|auto] ]
      | destruct Hh as (y & Hy & Ny); exists mn, y, mx; repeat split; auto; 
        [assert (y <> mn) by (intros ->; auto); lia|assert (y <> mx) by (intros ->; auto); lia] ].
  - cbn [negb]. 
    assert (I : forall x, In x axes <-> mn <= x <= mx) by (apply contiguous_axes; auto; lia).
    rewrite (interval_mask _ mn mx axes) by (auto; lia).
    set (pre := firstn mn s). set (mid := firstn (S mx - mn) (skipn mn s)). set (post := skipn (S mx) s).
    assert (L1 : length pre = mn) by (apply firstn_length_le; lia).
    assert (L2 : length mid = S mx - mn) by (unfold mid; rewrite firstn_length_le; auto; rewrite skipn_length; lia).
    assert (L3 : length post = length s - S mx) by (unfold post; apply skipn_length).
    assert (Es : s = pre ++ mid ++ post).
    { unfold pre, mid, post. replace (skipn (S mx) s) with (skipn (S mx - mn) (skipn mn s)).
      - rewrite firstn_skipn, firstn_skipn. auto.
      - rewrite skipn_skipn. f_equal. lia. }
    pose proof (prod_range_ok pre s 0 [] (mid ++ post) Es eq_refl) as R1.
    pose proof (prod_range_ok mid s (Z.of_nat mn) pre post Es ltac:(lia)) as R2.
    pose proof (prod_range_ok post s (Z.of_nat mx + 1) (pre ++ mid) [] ltac:(rewrite app_nil_r, <- app_assoc; auto) ltac:(rewrite app_length; lia)) as R3.
    rewrite L1 in R1. rewrite L2 in R2. rewrite L3 in R3.
    rewrite Nat2Z.id. replace (Z.to_nat (Z.of_nat (length s) - (Z.of_nat mx + 1))) with (length s - S mx) by lia.
    replace (Z.to_nat (Z.of_nat mx - Z.of_nat mn + 1)) with (S mx - mn) by lia.
    rewrite R1, R2, R3.
    assert (G : block_mask mn (S mx - mn) (length s - S mx) = block_mask (length pre) (length mid) (length post))
      by (rewrite L1, L2, L3; auto).
    rewrite G. clearbody pre mid post. rewrite Es. rewrite kept_block. apply run_mean_ok.
Qed.
