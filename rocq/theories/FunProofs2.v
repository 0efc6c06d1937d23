(** Soundness of the patterns (C72). *)
From Verif Require Import Base NdSpec NdBase LowerSpec SlicePadModel LowerModel CopyKernels BroadcastProofs ConcatProofs StridedProofs LowerProps TransposeSpec TransposeProofs FunOpsSpec FunOpsProofs FunModel FunSpec FunProofs.
Local Open Scope nat_scope.

Lemma sizes_length sizes begin outs ins : slice_fits begin outs ins -> sizes_of sizes outs -> length sizes = length ins.
Proof. intros Hs Hz. revert sizes Hz. induction Hs; intros sizes Hz; inversion Hz; subst; cbn [length]; auto. Qed.
Lemma sizes_zshape s : sizes_of (zshape s) s.
Proof. induction s; constructor; auto. Qed.
Lemma same_dims_eq a : forall b, same_dims (zshape a) (zshape b) = true -> a = b.
Proof.
  induction a as [|x a IH]; intros [|y b] H; cbn in H; try discriminate; auto.
  apply andb_true_iff in H. destruct H as [H1 H2]. apply Z.eqb_eq in H1. f_equal; [lia|auto].
Qed.
Lemma same_ty a r : t_shape a = t_shape r -> same_elem a r -> r = a.
Proof. destruct a, r. unfold same_elem; cbn. intros -> [-> ->]. auto. Qed.

(** Concatenation facts. *)
Lemma axis_normal axis pre post (d : nat) : (axis = Z.of_nat (length pre) \/ axis = - Z.of_nat (S (length post)))%Z ->
  normal_axis axis (length (pre ++ d :: post)) = length pre.
Proof.
  intros H. unfold normal_axis. rewrite app_length. cbn [length].
  destruct H as [-> | ->]; [destruct (Z.ltb_spec (Z.of_nat (length pre)) 0)|destruct (Z.ltb_spec (- Z.of_nat (S (length post))) 0)]; lia.
Qed.

Definition parts_of (ax : nat) (vs : list (ty * list Z)) : list (nat * tensor (list Z)) :=
  map (fun v => (nth ax (t_shape (fst v)) 0, stored (fst v) (snd v))) vs.

Lemma nth_mid pre (d : nat) post : nth (length pre) (pre ++ d :: post) 0 = d.
Proof. rewrite app_nth2 by lia. rewrite Nat.sub_diag. auto. Qed.

Lemma parts_shapes pre post vs : forall ds, map t_shape (map fst vs) = map (fun d => pre ++ d :: post) ds ->
  map (fun v => t_shape (fst v)) vs = map (fun p => pre ++ fst p :: post) (parts_of (length pre) vs) /\
  map fst (parts_of (length pre) vs) = ds.
Proof.
  unfold parts_of. induction vs as [|v vs IH]; intros [|d ds] H; cbn [map] in H; try discriminate; [auto|].
  injection H as H1 H2. destruct (IH ds H2) as [E1 E2]. cbn [map fst]. rewrite <- E1, E2, H1, nth_mid. auto.
Qed.

Lemma parts_bytes pre post vs : Forall (fun v => length (snd v) = tsize (fst v)) vs ->
  map (fun v => t_shape (fst v)) vs = map (fun p => pre ++ fst p :: post) (parts_of (length pre) vs) ->
  map (fun p => bytes_of (pre ++ fst p :: post) (snd p)) (parts_of (length pre) vs) = map snd vs.
Proof.
  unfold parts_of. induction 1 as [|v vs H F IH]; intros E; cbn [map] in *; auto. injection E as E1 E2. cbn [fst snd] in *.
  rewrite IH by auto. rewrite <- E1. f_equal. apply bytes_stored; auto.
Qed.

Lemma input_names_inputs tys (ns : list nat) : length tys = length ns ->
  input_names (map (fun p => CInput (zshape (t_shape (fst p))) (snd p)) (combine tys ns)) = ns.
Proof.
  revert ns. induction tys as [|t tys IH]; intros [|n ns] H; try discriminate; auto.
  cbn [combine map input_names flat_map snd app]. f_equal. apply IH. cbn in H. lia.
Qed.
Lemma firstn_combine {A B} n : forall (l : list A) (m : list B), firstn n (combine l m) = combine (firstn n l) (firstn n m).
Proof. induction n as [|n IH]; intros [|x l] [|y m]; cbn; auto. f_equal; auto. Qed.
Lemma skipn_combine {A B} n : forall (l : list A) (m : list B), length l = length m -> skipn n (combine l m) = combine (skipn n l) (skipn n m).
Proof. induction n as [|n IH]; intros [|x l] [|y m] H; cbn in *; auto; discriminate. Qed.

Lemma sum_types pre post tys ds : map t_shape tys = map (fun d => pre ++ d :: post) ds -> forall ns : list nat, length ns = length tys ->
  sum_opt (map (fun v => nth_error (cvalue_type v) (length pre)) (map (fun p => CInput (zshape (t_shape (fst p))) (snd p)) (combine tys ns)))
  = Some (Z.of_nat (sum_n ds)).
Proof.
  revert ds. induction tys as [|t tys IH]; intros [|d ds] H [|n ns] L; try discriminate; auto.
  cbn [map] in H. injection H as H1 H2. cbn [combine map cvalue_type fst snd sum_opt]. rewrite H1.
  unfold zshape at 1. rewrite map_app. cbn [map]. rewrite nth_error_app2 by (rewrite map_length; lia). rewrite map_length, Nat.sub_diag. cbn [nth_error].
  rewrite (IH ds) by (auto; cbn in L; lia). cbn [sum_n fold_right]. fold (sum_n ds). f_equal. lia.
Qed.

Lemma set_mid pre post (x : nat) (d : nat) : set_nth (length pre) (Z.of_nat x) (zshape (pre ++ d :: post)) = zshape (pre ++ x :: post).
Proof. unfold zshape. induction pre as [|p pre IH]; cbn [length map app set_nth]; auto. f_equal. exact IH. Qed.

Lemma sum_app a b : sum_n (a ++ b) = sum_n a + sum_n b.
Proof. unfold sum_n. induction a as [|x a IH]; cbn; auto. lia. Qed.

Lemma lookups_firstn {V} (e : list (nat * V)) n xs : forall vs, lookups e xs = Some vs ->
  lookups e (firstn n xs) = Some (firstn n vs) /\ lookups e (skipn n xs) = Some (skipn n vs).
Proof.
  intros vs H. pose proof (lookups_length _ _ _ H) as L. rewrite <- (firstn_skipn n xs) in H. apply lookups_app in H.
  destruct H as (v1 & v2 & H1 & H2 & E). pose proof (lookups_length _ _ _ H1) as L1. pose proof (lookups_length _ _ _ H2) as L2.
  rewrite firstn_length in L1. rewrite skipn_length in L2. rewrite H1, H2, E.
  destruct (Nat.le_ge_cases n (length xs)) as [X|X].
  - rewrite firstn_app, skipn_app. rewrite (Nat.min_l n (length xs)) in L1 by lia. rewrite L1, Nat.sub_diag. cbn [firstn skipn].
    rewrite app_nil_r, (firstn_all2 v1), (skipn_all2 v1) by lia. auto.
  - assert (v2 = []) by (destruct v2; auto; cbn in L2; lia). subst v2. rewrite app_nil_r in *. rewrite Nat.min_r in L1 by lia.
    rewrite firstn_all2, skipn_all2 by lia. auto.
Qed.

Lemma lookups_none {V} (e : list (nat * V)) xs vs x : lookups e xs = Some vs -> In x xs -> lookup e x <> None.
Proof.
  revert vs. induction xs as [|y xs IH]; intros vs H Hx; [destruct Hx|]. cbn [lookups] in H. destruct (lookup e y) eqn:E; [|discriminate].
  destruct (lookups e xs) eqn:E2; [|discriminate]. destruct Hx as [->|Hx]; [congruence|eauto].
Qed.
Lemma in_shape_length sh idx : in_shape sh idx -> length idx = length sh.
Proof. induction 1; cbn; auto. Qed.

Lemma consts_exec (fresh : nat -> nat) (FI : forall j k, fresh j = fresh k -> j = k) ts : forall n (e : env),
  (forall k, n <= k -> lookup e (fresh k) = None) ->
  exists e', exec (map (fun p => Instr (fresh (fst p)) (TConst (snd p)) [] (Ty [length (snd p)] 1 None)) (combine (seq n (length ts)) ts)) e e' /\
    (forall x, (forall k, n <= k -> x <> fresh k) -> lookup e' x = lookup e x) /\
    lookups e' (map fresh (seq n (length ts))) = Some (map (fun t => (Ty [length t] 1 None, t)) ts).
Proof.
  induction ts as [|t ts IH]; intros n e NF; cbn [length seq combine map].
  - exists e. split; [constructor|]. auto.
  - destruct (IH (S n) ((fresh n, (Ty [length t] 1 None, t)) :: e)) as (e' & E & O & L).
    { intros k Hk. cbn [lookup]. destruct (Nat.eqb_spec (fresh k) (fresh n)) as [Q|]; [apply FI in Q; lia|]. apply NF. lia. }
    assert (Z : length t = tsize (Ty [length t] 1 None)) by (unfold tsize; cbn; lia).
    exists e'. split; [|split].
    + eapply exec_cons with (vs := []) (b := t); cbn [i_args i_op i_ty i_dst fst snd]; [reflexivity|right; exact Z|reflexivity|exact Z|apply NF; lia|exact E].
    + intros x Hx. rewrite O by (intros k Hk; apply Hx; lia). cbn [lookup]. destruct (Nat.eqb_spec x (fresh n)) as [Q|]; auto. exfalso. apply (Hx n); auto.
    + cbn [lookups]. rewrite L, O; [cbn [lookup]; rewrite Nat.eqb_refl; auto|]. intros k Hk Q. apply FI in Q. lia.
Qed.
Lemma lookups_ext (e e' : env) xs : (forall x, In x xs -> lookup e' x = lookup e x) -> lookups e' xs = lookups e xs.
Proof. induction xs as [|x xs IH]; intros H; cbn [lookups]; auto. rewrite (H x) by (left; auto). rewrite IH by (intros y Hy; apply H; right; auto). auto. Qed.

Lemma pattern_sound fresh tys i news e vs b :
  pattern fresh tys i news -> lookups e (i_args i) = Some vs -> map fst vs = tys -> op_ok (i_op i) tys (i_ty i) ->
  sem (i_op i) vs (i_ty i) = Some b -> length b = tsize (i_ty i) -> lookup e (i_dst i) = None -> (forall k, lookup e (fresh k) = None) ->
  (forall k, fresh k <> i_dst i) -> (forall j k, fresh j = fresh k -> j = k) -> Forall (fun v => length (snd v) = tsize (fst v)) vs ->
  gives e news (i_dst i) (i_ty i) b fresh.
Proof.
  intros P L T K S ZL N NFk Nek FI F. pose proof (NFk 0) as NF. pose proof (Nek 0) as Ne.
  assert (Hf : forall x, (forall k, x <> fresh k) -> x <> fresh 0) by auto.
  destruct P as [is_const a d begin sizes args r o R | is_const a d before after args r o R | is_const a d args r o R
               | tys d axis args r o R | tys d axis args r s first rest R
               | a d bm em sm begin stop strides args r bb ss R | a d bm em sm begin stop strides args r bb ss n R
               | a d axes f args r o R | outside a d c args r x ts R | outside a d c args r c1 c2 R | outside a d c args r s1 c' s2 s3 R];
    cbn [i_op i_dst i_ty i_args] in *.
  - (* slice *)
    destruct (singleton_types _ _ T) as (ab & ->). inversion F as [|? ? F1 _]; subst. cbn [fst snd] in *.
    destruct K as (K1 & K2 & K3 & K4). cbn [sem] in S. injection S as <-.
    pose proof (C13_slice_lowering Z is_const (t_elem a) begin (t_shape r) (t_shape a) sizes (stored a ab) K1 (sizes_length _ _ _ _ K1 K2) (stored_elem a ab)) as C.
    change zshape with zn in R. rewrite R in C. rewrite (bytes_stored a ab F1) in C.
    eapply single_gives; eauto. left; auto.
  - destruct (singleton_types _ _ T) as (ab & ->). inversion F as [|? ? F1 _]; subst. cbn [fst snd] in *.
    destruct K as (K1 & K2 & K3 & K4). cbn [sem] in S. injection S as <-.
    pose proof (C14_pad_lowering is_const (t_elem a) (t_zero a) before after (t_shape r) (t_shape a) (stored a ab) K1 (stored_elem a ab) K2 K4) as C.
    change zshape with zn in R. cbv zeta in C. rewrite R in C. rewrite (bytes_stored a ab F1) in C.
    eapply single_gives; eauto. left; auto.
  - destruct (singleton_types _ _ T) as (ab & ->). inversion F as [|? ? F1 _]; subst. cbn [fst snd] in *.
    destruct K as (K1 & K2). cbn [sem] in S. injection S as <-.
    pose proof (C15_broadcast_lowering Z is_const (t_elem a) (t_shape a) (t_shape r) (stored a ab) K1 (stored_elem a ab)) as C.
    change zshape with zn in R. rewrite R in C. rewrite (bytes_stored a ab F1) in C.
    eapply single_gives; eauto. left; auto.
  - (* concat *)
    destruct K as (pre & post & ds & K1 & K2 & K3 & K4). subst tys. cbn [sem] in S. injection S as <-.
    rewrite K3, (axis_normal axis pre post (sum_n ds) K1) in *. fold (parts_of (length pre) vs) in *.
    destruct (parts_shapes pre post vs ds K2) as [E1 E2].
    pose proof (C16_concat_lowering Z (t_elem r) axis pre post (repeat 0%Z (t_elem r)) (parts_of (length pre) vs)) as C.
    rewrite E2 in C. rewrite (parts_bytes pre post vs F E1) in C.
    replace (map (fun p => zn (pre ++ fst p :: post)) (parts_of (length pre) vs)) with (map (fun t => zshape (t_shape t)) (map fst vs)) in C.
    2:{ rewrite map_map. rewrite <- (map_map (fun v => t_shape (fst v)) zshape vs), E1, map_map. auto. }
    change zshape with zn in R. change zshape with zn in C. rewrite R in C. eapply single_gives; eauto; [left; auto|].
    apply C; auto. intros p Hp. apply in_map_iff in Hp. destruct Hp as (v & <- & Hv). cbn [snd]. intros idx. rewrite stored_elem.
    rewrite Forall_forall in K4. apply K4. apply in_map; auto.
  - (* split concat *)
    destruct K as (pre & post & ds & K1 & K2 & K3 & K4). subst tys.
    pose proof (lookups_length _ _ _ L) as Len.
    unfold split_concat_step in R. rewrite map_length, combine_length, map_length, Len, Nat.min_id in R.
    destruct (Nat.leb_spec (length args) CONCAT_OP_MAX_INPUTS) as [|Big]; [discriminate|].
    set (ax := if (axis =? -1)%Z then (Z.of_nat (length (zshape (t_shape r))) - 1)%Z else axis) in *.
    destruct (Z.ltb_spec ax 0) as [|Pos]; [discriminate|].
    assert (A : Z.to_nat ax = length pre).
    { unfold ax in *. unfold zshape in *. rewrite map_length, K3, app_length in *. cbn [length] in *.
      destruct (Z.eqb_spec axis (-1)); destruct K1 as [K1|K1]; lia. }
    rewrite A in R. rewrite firstn_map, skipn_map, firstn_combine, skipn_combine in R by (rewrite map_length; auto).
    remember CONCAT_OP_MAX_INPUTS as M eqn:HM in *. clear HM.
    assert (K2a : map t_shape (firstn M (map fst vs)) = map (fun d => pre ++ d :: post) (firstn M ds))
      by (rewrite <- !firstn_map, K2, firstn_map; auto).
    rewrite (sum_types pre post _ _ K2a) in R by (repeat (rewrite firstn_length || rewrite map_length); lia).
    injection R as <- <- <-. rewrite K3 in *. rewrite set_mid, nat_zshape.
    rewrite !input_names_inputs by (repeat (rewrite firstn_length || rewrite skipn_length || rewrite map_length); lia).
    destruct (lookups_firstn e M args vs L) as [L1 L2].
    cbn [sem] in S. injection S as <-. rewrite K3, (axis_normal axis pre post (sum_n ds) K1) in *. fold (parts_of (length pre) vs) in *.
    set (z := repeat 0%Z (t_elem r)) in *.
    set (t1 := Ty (pre ++ sum_n (firstn M ds) :: post) (t_elem r) (t_zero r)).
    destruct (parts_shapes pre post vs ds K2) as [E1 E2].
    assert (F1 : Forall (fun v => length (snd v) = tsize (fst v)) (firstn M vs)).
    { rewrite <- (firstn_skipn M vs) in F. apply Forall_app in F. tauto. }
    assert (K4a : Forall (fun t => t_elem t = t_elem r) (firstn M (map fst vs)) /\ Forall (fun t => t_elem t = t_elem r) (skipn M (map fst vs))).
    { rewrite <- (firstn_skipn M (map fst vs)) in K4. apply Forall_app in K4. auto. }
    assert (O1 : op_ok (TConcat axis) (map fst (firstn M vs)) t1).
    { cbn [op_ok]. exists pre, post, (firstn M ds). rewrite <- firstn_map. repeat split; auto. apply K4a. }
    destruct (op_total _ _ _ O1 F1) as (b1 & S1 & Z1).
    assert (NFa : forall x, In x args -> x <> fresh 0).
    { intros x Hx ->. clear - L NF Hx. revert vs L. induction args as [|y args IH]; intros vs L; [destruct Hx|]. cbn [lookups] in L.
      destruct (lookup e y) eqn:E; [|discriminate]. destruct (lookups e args) eqn:E'; [|discriminate]. destruct Hx as [->|Hx]; [congruence|eauto]. }
    set (vs2 := (t1, b1) :: skipn M vs).
    set (e1 := (fresh 0, (t1, b1)) :: e).
    assert (Lv2 : lookups e1 (fresh 0 :: skipn M args) = Some vs2).
    { cbn [lookups]. unfold e1 at 1. cbn [lookup]. rewrite Nat.eqb_refl. unfold e1. rewrite lookups_cons_other, L2; auto.
      intros x Hx. apply NFa. rewrite <- (firstn_skipn M args). apply in_or_app; auto. }
    assert (ds_split : sum_n (firstn M ds) + sum_n (skipn M ds) = sum_n ds) by (rewrite <- sum_app, firstn_skipn; auto).
    assert (O2 : op_ok (TConcat axis) (map fst vs2) r).
    { cbn [op_ok]. exists pre, post, (sum_n (firstn M ds) :: skipn M ds). split; [auto|]. split; [|split].
      - unfold vs2. cbn [map fst]. f_equal. rewrite <- !skipn_map, K2, skipn_map. auto.
      - rewrite K3. cbn [sum_n fold_right]. fold (sum_n (skipn M ds)). rewrite ds_split. auto.
      - unfold vs2. cbn [map fst]. constructor; [auto|]. rewrite <- skipn_map. apply K4a. }
    assert (S2 : sem (TConcat axis) vs2 r = Some (bytes_of (pre ++ sum_n ds :: post) (concat_t z (length pre) (parts_of (length pre) vs)))).
    { cbn [sem]. rewrite K3, (axis_normal axis pre post (sum_n ds) K1). f_equal. unfold bytes_of. f_equal. apply flatten_ext_in. intros idx Hi.
      pose proof (in_shape_length _ _ Hi) as Li. rewrite app_length in Li. cbn [length] in Li.
      fold (parts_of (length pre) vs2). unfold vs2.
      change (parts_of (length pre) ((t1, b1) :: skipn M vs)) with
        ((nth (length pre) (pre ++ sum_n (firstn M ds) :: post) 0, stored t1 b1) :: parts_of (length pre) (skipn M vs)). rewrite nth_mid.
      assert (Ep : parts_of (length pre) vs = parts_of (length pre) (firstn M vs) ++ parts_of (length pre) (skipn M vs)).
      { unfold parts_of. rewrite <- map_app, firstn_skipn. auto. }
      rewrite Ep.
      rewrite <- concat_t_nested by lia.
      assert (E2f : sum_n (map fst (parts_of (length pre) (firstn M vs))) = sum_n (firstn M ds)).
      { unfold parts_of. rewrite <- firstn_map. fold (parts_of (length pre) vs). rewrite <- firstn_map, E2. auto. }
      rewrite E2f. cbn [concat_t]. destruct (Nat.ltb_spec (nth (length pre) idx 0) (sum_n (firstn M ds))) as [In1|]; auto.
      (* the stored first concatenation *)
      cbn [sem] in S1. injection S1 as S1. change (t_shape t1) with (pre ++ sum_n (firstn M ds) :: post) in S1. change (t_elem t1) with (t_elem r) in S1. rewrite (axis_normal axis pre post _ K1) in S1.
      fold (parts_of (length pre) (firstn M vs)) in S1. fold z in S1.
      rewrite <- S1. clear S1.
      set (u := concat_t z (length pre) (parts_of (length pre) (firstn M vs))).
      assert (Eu : forall idx, length (u idx) = t_elem r).
      { intros y. apply concat_part_length; [|apply repeat_length]. intros p x Hp. apply in_map_iff in Hp. destruct Hp as (v & <- & Hv). cbn [snd].
        rewrite stored_elem. destruct K4a as [K4a _]. rewrite Forall_forall in K4a. apply K4a. rewrite firstn_map. apply in_map; auto. }
      assert (Hin : in_shape (t_shape t1) idx).
      { unfold t1; cbn [t_shape]. clear - Hi In1. revert pre idx Hi In1. intros pre. induction pre as [|p pre IH]; intros idx Hi In1; inversion Hi; subst; cbn [app length nth] in *; constructor; auto.
        apply IH; auto. }
      change (pre ++ sum_n (firstn M ds) :: post) with (t_shape t1).
      clear - Eu Hin. unfold stored. rewrite position_ravel. change (t_elem t1) with (t_elem r).
      pose proof (nth_flatten ([] : list Z) (fun _ _ => Value [] [[]]) (fun _ _ => eq_refl) (t_shape t1) u idx Hin) as Hn. pose proof (ravel_lt (A := Z) (fun _ _ => Value [] [0%Z]) (fun _ _ => eq_refl) (t_shape t1) idx Hin) as Hr.
      assert (G : forall l q, (forall x, In x l -> length x = t_elem r) -> q < length l ->
                map (fun j => nth (q * t_elem r + j) (concat l) 0%Z) (seq 0 (t_elem r)) = nth q l []).
      { intros l. induction l as [|x l IH]; intros q Hl Hq; [cbn in Hq; lia|]. cbn [concat]. pose proof (Hl x (or_introl eq_refl)) as Hx.
        destruct q as [|q]; cbn [nth].
        - cbn [Nat.mul Nat.add]. transitivity (map (fun k => nth k x 0%Z) (seq 0 (length x))); [|apply nth_seq_map]. rewrite Hx. apply map_ext_in. intros j Hj. apply in_seq in Hj. rewrite app_nth1; auto. lia.
        - rewrite <- IH; [|intros y Hy; apply Hl; right; auto|cbn in Hq; lia]. apply map_ext. intros j.
          rewrite app_nth2 by (rewrite Hx; cbn; lia). f_equal. rewrite Hx. cbn. lia. }
      unfold bytes_of. rewrite G; [exact Hn| |rewrite flatten_length; auto].
      intros x Hx. pose proof (flatten_forall (fun x => length x = t_elem r) (t_shape t1) u (fun idx _ => Eu idx)) as Fa. rewrite Forall_forall in Fa. auto. }
    exists ((d, (r, bytes_of (pre ++ sum_n ds :: post) (concat_t z (length pre) (parts_of (length pre) vs)))) :: e1). split.
    + eapply exec_cons with (vs := firstn M vs); cbn [i_args i_op i_ty i_dst]; eauto; [right; exact O1|].
      eapply exec_cons with (vs := vs2); cbn [i_args i_op i_ty i_dst]; eauto; [right; exact O2| |constructor].
      cbn [lookup]. destruct (Nat.eqb_spec d (fresh 0)); [congruence|auto].
    + intros x Hx. apply Hf in Hx. unfold e1. cbn [lookup]. destruct (Nat.eqb x d); auto. destruct (Nat.eqb_spec x (fresh 0)); [contradiction|auto].
  - (* strided slice *)
    destruct (singleton_types _ _ T) as (ab & ->). inversion F as [|? ? F1 _]; subst. cbn [fst snd] in *.
    destruct K as (K1 & K2 & K3 & K4 & K5). cbn [sem] in S. injection S as <-.
    destruct (C19_strided_slice_partial (list Z) bm em sm (t_shape a) begin stop strides (stored a ab) K1 K2) as (q & Q1 & b' & s' & Q2 & Q3 & Q4 & Q5 & Q6 & Q7).
    change zshape with zn in R. rewrite Q1 in R. injection R as ->. cbn [ss_begin ss_size ss_reshape] in *. subst bb ss.
    assert (Esm : sm = 0%Z) by (destruct (Z.eq_dec sm 0); auto; discriminate (Q6 n)). destruct (Q7 Esm) as [_ Es].
    change (zn b') with (zshape b'). change (zn s') with (zshape s'). rewrite !nat_zshape.
    assert (Er : Ty s' (t_elem r) (t_zero r) = r) by (destruct r; cbn in *; congruence). rewrite Er.
    eapply single_gives; eauto.
    + right. cbn [op_ok map fst]. rewrite K3, <- Es. split; auto. split; [apply sizes_zshape|split; auto].
    + cbn [sem]. f_equal. rewrite K3, <- Es. unfold bytes_of. f_equal. rewrite Q5, Es. auto.
  - destruct (singleton_types _ _ T) as (ab & ->). inversion F as [|? ? F1 _]; subst. cbn [fst snd] in *.
    destruct K as (K1 & K2 & K3 & K4 & K5). cbn [sem] in S. injection S as <-.
    destruct (C19_strided_slice_partial (list Z) bm em sm (t_shape a) begin stop strides (stored a ab) K1 K2) as (q & Q1 & b' & s' & Q2 & Q3 & Q4 & Q5 & Q6 & Q7).
    change zshape with zn in R. rewrite Q1 in R. injection R as ->. cbn [ss_begin ss_size ss_reshape] in *. subst bb ss.
    assert (Esm : sm <> 0%Z) by (intros ->; destruct (Q7 eq_refl); discriminate). specialize (Q6 Esm). injection Q6 as ->.
    change (zn b') with (zshape b'). change (zn s') with (zshape s'). change (zn (np_shape (np_axes 0 bm em sm (t_shape a) begin stop))) with (zshape (np_shape (np_axes 0 bm em sm (t_shape a) begin stop))). rewrite !nat_zshape.
    assert (Er : Ty (np_shape (np_axes 0 bm em sm (t_shape a) begin stop)) (t_elem r) (t_zero r) = r) by (destruct r; cbn in *; congruence). rewrite Er.
    set (t1 := Ty s' (t_elem r) (t_zero r)).
    assert (O1 : op_ok (TSlice b' (zshape s')) [a] t1).
    { cbn [op_ok]. unfold t1; cbn [t_shape t_elem t_zero]. split; auto. split; [apply sizes_zshape|split; auto]. }
    destruct (op_total _ [(a, ab)] t1 O1 F) as (b1 & S1 & Z1).
    assert (Eb : b1 = bytes_of (np_shape (np_axes 0 bm em sm (t_shape a) begin stop)) (strided_slice_t (np_axes 0 bm em sm (t_shape a) begin stop) (stored a ab))).
    { cbn [sem] in S1. injection S1 as <-. unfold bytes_of. f_equal. unfold t1; cbn [t_shape]. exact Q5. }
    exists ((d, (r, b1)) :: (fresh 0, (t1, b1)) :: e). split.
    + eapply exec_cons with (vs := [(a, ab)]); cbn [i_args i_op i_ty i_dst]; eauto; [right; exact O1|].
      eapply exec_cons with (vs := [(t1, b1)]) (b := b1); cbn [i_args i_op i_ty i_dst]; [cbn; rewrite Nat.eqb_refl; auto| |reflexivity|rewrite Eb; auto| |constructor].
      * right. cbn [op_ok map fst]. split; [|split; auto]. unfold t1; cbn [t_shape]. rewrite K3.
        apply (f_equal (@length _)) in Q5. rewrite !flatten_length in Q5. auto.
      * cbn [lookup]. destruct (Nat.eqb_spec d (fresh 0)); [congruence|auto].
    + intros x Hx. apply Hf in Hx. cbn [lookup]. rewrite Eb. destruct (Nat.eqb x d); auto. destruct (Nat.eqb_spec x (fresh 0)); [contradiction|auto].
  - (* mean *)
    destruct (singleton_types _ _ T) as (ab & ->). inversion F as [|? ? F1 _]; subst. cbn [fst snd] in *.
    destruct K as (K1 & K2 & K3 & K4 & K5 & K6). cbn [sem] in S. injection S as <-.
    pose proof (C18_mean_reduces_axes Z Z f (t_shape a) axes (fun idx => nth (position_of (t_shape a) idx) ab 0%Z) K1 K2 K3) as C.
    change zshape with zn in R. rewrite R in C. cbv zeta in C.
    assert (Ef : flatten (t_shape a) (fun idx => nth (position_of (t_shape a) idx) ab 0%Z) = ab).
    { etransitivity; [|apply (flatten_tensor_of 0%Z (t_shape a) ab); unfold tsize in F1; lia]. apply flatten_ext. intros idx. rewrite position_ravel. auto. }
    rewrite Ef in C. eapply single_gives; eauto. left; auto.
  - (* kernel *)
    destruct (singleton_types _ _ T) as (ab & ->). cbn [sem map snd op_ok] in *.
    destruct (consts_exec fresh FI ts 0 e) as (e1 & E1 & O1 & L1); [intros k _; apply NFk|]. fold (const_instrs fresh ts) in E1.
    assert (O1' : forall x, (forall k, x <> fresh k) -> lookup e1 x = lookup e x) by (intros y Hy; apply O1; auto).
    exists ((d, (r, b)) :: e1). split.
    + apply exec_app. exists e1. split; [exact E1|].
      eapply exec_cons with (vs := (a, ab) :: map (fun t => (Ty [length t] 1 None, t)) ts) (b := b); cbn [i_args i_op i_ty i_dst]; [|left; reflexivity| |exact ZL| |constructor].
      * apply lookups_app. exists [(a, ab)], (map (fun t => (Ty [length t] 1 None, t)) ts). split; [|split; [exact L1|reflexivity]].
        rewrite <- L. apply lookups_ext. intros y Hx. apply O1'. intros k ->. pose proof (lookups_none _ _ _ _ L Hx). rewrite NFk in *. congruence.
      * cbn [sem map snd]. rewrite map_map. cbn [snd]. rewrite map_id. rewrite <- S. eapply kernel_sound; eauto.
      * rewrite O1'; auto.
    + intros y Hy. cbn [lookup]. destruct (Nat.eqb y d); auto.
  - (* relu *)
    destruct (singleton_types _ _ T) as (ab & ->). inversion F as [|? ? F1 _]; subst. cbn [sem map fst snd op_ok] in *.
    destruct (relu_sound c c1 c2 outside a r ab K R) as (K1 & K2 & b1 & E1 & E2).
    destruct (compute_total c1 a r ab K1 F1) as (b1' & E1' & Z1). rewrite E1 in E1'. injection E1' as <-.
    exists ((d, (r, b)) :: (fresh 0, (r, b1)) :: e). split.
    + eapply exec_cons with (vs := [(a, ab)]) (b := b1); cbn [i_args i_op i_ty i_dst]; [exact L|right; exact K1|exact E1|exact Z1|exact NF|].
      eapply exec_cons with (vs := [(r, b1)]) (b := b); cbn [i_args i_op i_ty i_dst]; [cbn [lookups lookup]; rewrite Nat.eqb_refl; auto|right; exact K2| |exact ZL| |constructor].
      * cbn [sem map snd]. rewrite E2. exact S.
      * cbn [lookup]. destruct (Nat.eqb_spec d (fresh 0)); [congruence|auto].
    + intros x Hx. apply Hf in Hx. cbn [lookup]. destruct (Nat.eqb x d); auto. destruct (Nat.eqb_spec x (fresh 0)); [contradiction|auto].
  - (* fully connected *)
    destruct (singleton_types _ _ T) as (ab & ->). inversion F as [|? ? F1 _]; subst. cbn [sem map fst snd op_ok] in *.
    destruct (by_conv_sound c outside a r ab s1 c' s2 s3 K R) as (N1 & -> & N2 & K1 & E1).
    set (t1 := Ty s1 (t_elem a) (t_zero a)) in *. set (t2 := Ty s2 (t_elem r) (t_zero r)) in *.
    assert (L1 : length ab = tsize t1) by (rewrite F1; unfold tsize, t1; cbn [t_shape t_elem]; rewrite N1; auto).
    assert (L2 : length b = tsize t2) by (rewrite ZL; unfold tsize, t2; cbn [t_shape t_elem]; rewrite N2; auto).
    assert (Et : Ty (t_shape r) (t_elem r) (t_zero r) = r) by (destruct r; auto). rewrite Et.
    pose proof (NFk 1) as NF1. pose proof (Nek 1) as Ne1. assert (N01 : fresh 1 <> fresh 0) by (intros X; apply FI in X; discriminate).
    exists ((d, (r, b)) :: (fresh 1, (t2, b)) :: (fresh 0, (t1, ab)) :: e). split.
    + eapply exec_cons with (vs := [(a, ab)]) (b := ab); cbn [i_args i_op i_ty i_dst]; [exact L|right; cbn; split; [exact N1|split; reflexivity]|reflexivity|exact L1|exact NF|].
      eapply exec_cons with (vs := [(t1, ab)]) (b := b); cbn [i_args i_op i_ty i_dst]; [cbn [lookups lookup]; rewrite Nat.eqb_refl; auto|right; exact K1| |exact L2| |].
      { cbn [sem map snd]. rewrite E1. exact S. }
      { cbn [lookup]. destruct (Nat.eqb_spec (fresh 1) (fresh 0)); [contradiction|auto]. }
      eapply exec_cons with (vs := [(t2, b)]) (b := b); cbn [i_args i_op i_ty i_dst]; [cbn [lookups lookup]; rewrite Nat.eqb_refl; auto|right; cbn; split; [symmetry; exact N2|split; reflexivity]|reflexivity|exact ZL| |constructor].
      cbn [lookup]. destruct (Nat.eqb_spec d (fresh 1)); [congruence|]. destruct (Nat.eqb_spec d (fresh 0)); [congruence|auto].
    + intros x Hx. cbn [lookup]. destruct (Nat.eqb x d); auto. destruct (Nat.eqb_spec x (fresh 1)) as [->|]; [destruct (Hx 1); auto|].
      destruct (Nat.eqb_spec x (fresh 0)) as [->|]; [destruct (Hx 0); auto|auto].
Qed.
