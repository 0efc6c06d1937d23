From Verif Require Import Base NdSpec NdBase TransposeModel TransposeSpec.
Local Open Scope nat_scope.

Section P.
Context {A : Type}.
Variable zero : A.
Variable op : nat -> list (value (A := A)) -> value (A := A).
Hypothesis op_wf : forall n l, wf (op n l).
Notation value := (value (A := A)).

Lemma nth_app_block (l : list A) (r : nat) d : nth (length l + r) (l ++ d) zero = nth r d zero.
Proof. rewrite app_nth2; [f_equal; lia|lia]. Qed.

Lemma nth_flat_blocks (f : nat -> list A) n : (forall i, length (f i) = n) ->
  forall d b i r, b <= i < b + d -> r < n -> nth ((i - b) * n + r) (flat_map f (seq b d)) zero = nth r (f i) zero.
Proof.
  intros L d. induction d as [|d IH]; intros b i r Hi Hr; [lia|].
  cbn [seq flat_map]. destruct (Nat.eq_dec i b) as [->|N].
  - replace ((b - b) * n + r) with r by nia. rewrite app_nth1; auto. rewrite L; auto.
  - replace ((i - b) * n + r) with (length (f b) + ((i - S b) * n + r)).
    2:{ rewrite L. replace (i - b) with (S (i - S b)) by lia. lia. }
    rewrite nth_app_block. apply IH; lia.
Qed.

Lemma ravel_lt s : forall idx, in_shape s idx -> ravel s idx < nelem s.
Proof.
  induction s as [|d s IH]; intros idx H; inv H; cbn [ravel nelem fold_right]; [lia|].
  specialize (IH l H4). unfold nelem in *. cbn [fold_right]. nia.
Qed.

Lemma nth_flatten s : forall (t : tensor A) idx, in_shape s idx -> nth (ravel s idx) (flatten s t) zero = t idx.
Proof.
  induction s as [|d s IH]; intros t idx H; inv H; [reflexivity|].
  cbn [ravel flatten].
  pose proof (nth_flat_blocks (fun i => flatten s (fun idx => t (i :: idx))) (nelem s)
    (fun i => flatten_length _ _) d 0 x (ravel s l)) as E. rewrite Nat.sub_0_r in E.
  rewrite E; [apply (IH (fun idx => t (x :: idx)))|lia|apply ravel_lt]; auto.
Qed.

Lemma tensor_of_value_of s (t : tensor A) idx : in_shape s idx -> tensor_of zero (value_of s t) idx = t idx.
Proof. apply nth_flatten. Qed.

Lemma value_of_wf s (t : tensor A) : wf (value_of s t).
Proof. unfold wf, value_of; cbn. apply flatten_length. Qed.

Lemma nth_seq_map {X} (l : list X) d : map (fun k => nth k l d) (seq 0 (length l)) = l.
Proof.
  induction l as [|x l IH]; auto. cbn [length seq map nth]. rewrite <- seq_shift, map_map. f_equal. exact IH.
Qed.

Lemma flatten_tensor_of s : forall l : list A, length l = nelem s -> flatten s (fun idx => nth (ravel s idx) l zero) = l.
Proof.
  intros l H. rewrite flatten_unravel. rewrite <- H.
  etransitivity; [|apply (nth_seq_map l zero)]. apply map_ext_in. intros k Hk. apply in_seq in Hk.
  f_equal. revert k Hk. rewrite H. clear. induction s as [|d s IH]; intros k Hk; [cbn in *; lia|].
  cbn [unravel ravel]. cbn [nelem fold_right] in Hk. fold (nelem s) in Hk.
  assert (nelem s <> 0) by nia. rewrite IH.
  - pose proof (Nat.div_mod k (nelem s) H). lia.
  - pose proof (Nat.mod_upper_bound k (nelem s) H). lia.
Qed.

Lemma value_of_tensor_of (v : value) : wf v -> value_of (vshape v) (tensor_of zero v) = v.
Proof. intros H. destruct v as [s l]. unfold value_of, tensor_of; cbn [vshape vdata] in *. f_equal. apply flatten_tensor_of; auto. Qed.

Lemma value_of_ext s s' (t t' : tensor A) : s = s' -> (forall idx, in_shape s idx -> t idx = t' idx) -> value_of s t = value_of s' t'.
Proof. intros <- H. unfold value_of. f_equal. apply flatten_ext_in; auto. Qed.

(** positions in permutations *)
Lemma position_nth perm : forall k, NoDup perm -> k < length perm -> position (nth k perm 0) perm = k.
Proof.
  induction perm as [|p perm IH]; intros k N H; [cbn in H; lia|]. inv N.
  destruct k as [|k]; cbn [nth position].
  - rewrite Nat.eqb_refl; auto.
  - cbn [length] in H. destruct (Nat.eqb_spec p (nth k perm 0)) as [->|NE].
    + exfalso. apply H2. apply nth_In. lia.
    + f_equal. apply IH; auto. lia.
Qed.
Lemma nth_position perm : forall j, In j perm -> nth (position j perm) perm 0 = j /\ position j perm < length perm.
Proof.
  induction perm as [|p perm IH]; intros j H; [easy|]. cbn [position nth length].
  destruct (Nat.eqb_spec p j) as [->|NE]; [split; auto; lia|].
  destruct H as [H|H]; [congruence|]. destruct (IH j H). split; auto. lia.
Qed.

Lemma in_shape_nth s : forall idx, in_shape s idx <-> length idx = length s /\ forall k, k < length s -> nth k idx 0 < nth k s 0.
Proof.
  induction s as [|d s IH]; intros idx; split.
  - intros H; inv H. split; auto. cbn; intros; lia.
  - intros [H _]. destruct idx; [constructor|discriminate].
  - intros H; inv H. apply IH in H4. destruct H4. split; [cbn; lia|].
    intros [|k] Hk; cbn [nth length] in *; auto. apply H0; lia.
  - intros [H K]. destruct idx as [|i idx]; [discriminate|]. constructor.
    + apply (K 0); cbn; lia.
    + apply IH. split; [cbn in H; lia|]. intros k Hk. apply (K (S k)). cbn; lia.
Qed.

Lemma perm_facts perm n : Permutation perm (seq 0 n) ->
  length perm = n /\ NoDup perm /\ (forall j, j < n -> In j perm) /\ (forall k, k < n -> nth k perm 0 < n).
Proof.
  intros P. pose proof (Permutation_length P) as L. rewrite seq_length in L.
  split; auto. split. { apply Permutation_NoDup with (seq 0 n); [symmetry; auto|apply seq_NoDup]. }
  split.
  - intros j Hj. apply Permutation_in with (seq 0 n); [symmetry; auto|]. apply in_seq; lia.
  - intros k Hk. assert (I : In (nth k perm 0) perm) by (apply nth_In; lia).
    apply (Permutation_in _ P), in_seq in I. lia.
Qed.

(** indices of the transposed tensor *)
Definition tidx (perm : list nat) (idx : index) : index :=
  map (fun j => nth (position j perm) idx 0) (seq 0 (length perm)).

Lemma nth_map_seq (f : nat -> nat) n k : k < n -> nth k (map f (seq 0 n)) 0 = f k.
Proof.
  intros H. rewrite (nth_indep _ 0 (f 0)) by (rewrite map_length, seq_length; auto).
  rewrite map_nth. rewrite seq_nth; auto.
Qed.

Lemma tidx_in perm s idx : Permutation perm (seq 0 (length s)) -> in_shape (permute perm s) idx -> in_shape s (tidx perm idx).
Proof.
  intros P H. destruct (perm_facts _ _ P) as (L & N & I & B). apply in_shape_nth in H. destruct H as [HL HN].
  unfold permute in HL, HN. rewrite map_length in HL, HN. apply in_shape_nth. unfold tidx. split.
  - rewrite map_length, seq_length; auto.
  - intros k Hk. rewrite nth_map_seq by lia. destruct (nth_position perm k (I k Hk)) as [E F].
    specialize (HN _ F). rewrite (nth_indep (map (fun p => nth p s 0) perm) 0 ((fun p => nth p s 0) 0)) in HN by (rewrite map_length; auto).
    rewrite (map_nth (fun p => nth p s 0)) in HN. rewrite E in HN. auto.
Qed.

Lemma transpose_cancel perm0 perm1 (v : value) : wf v ->
  Permutation perm1 (seq 0 (length (vshape v))) -> Permutation perm0 (seq 0 (length (vshape v))) ->
  (forall i, i < length (vshape v) -> nth (nth i perm1 0) perm0 0 = i) ->
  transpose_v zero perm0 (transpose_v zero perm1 v) = v.
Proof.
  intros W P1 P0 C. set (n := length (vshape v)) in *.
  destruct (perm_facts _ _ P1) as (L1 & N1 & I1 & B1). destruct (perm_facts _ _ P0) as (L0 & N0 & I0 & B0).
  (* perm1[perm0[k]] = k *)
  assert (C' : forall k, k < n -> nth (nth k perm0 0) perm1 0 = k).
  { intros k Hk. destruct (nth_position perm1 k (I1 k Hk)) as [E F].
    rewrite L1 in F. rewrite <- (C _ F) in E at 1. rewrite E in E.
    pose proof (C _ F) as C1. rewrite (proj1 (nth_position perm1 k (I1 k Hk))) in C1. rewrite C1.
    apply nth_position; auto. }
  unfold transpose_v at 1. cbn [transpose_v value_of vshape].
  rewrite <- (value_of_tensor_of v W) at 3. apply value_of_ext.
  - unfold transpose_v, value_of; cbn [vshape]. fold n. apply (nth_ext _ _ 0 0).
    + unfold permute. rewrite map_length. auto.
    + intros k Hk. unfold permute in *. rewrite map_length in Hk. rewrite L0 in Hk.
      rewrite (nth_indep (map (fun p => nth p (map (fun q => nth q (vshape v) 0) perm1) 0) perm0) 0 ((fun p => nth p (map (fun q => nth q (vshape v) 0) perm1) 0) 0)) by (rewrite map_length; lia).
      rewrite (map_nth (fun p => nth p (map (fun q => nth q (vshape v) 0) perm1) 0)).
      rewrite (nth_indep (map (fun q => nth q (vshape v) 0) perm1) 0 ((fun q => nth q (vshape v) 0) 0)) by (rewrite map_length, L1; apply B0; auto).
      rewrite (map_nth (fun q => nth q (vshape v) 0)). rewrite C'; auto.
  - intros idx H. unfold transpose_t. fold (tidx perm0 idx).
    unfold transpose_v in *; cbn [value_of vshape] in *.
    assert (P0' : Permutation perm0 (seq 0 (length (permute perm1 (vshape v))))).
    { unfold permute. rewrite map_length, L1. auto. }
    pose proof (tidx_in _ _ _ P0' H) as T1.
    rewrite tensor_of_value_of by auto. unfold transpose_t. fold (tidx perm1 (tidx perm0 idx)). f_equal.
    pose proof (tidx_in _ _ _ P1 T1) as T2. apply in_shape_nth in T1, T2, H.
    unfold permute in H. rewrite !map_length in H. destruct H as [HL _].
    apply (nth_ext _ _ 0 0).
    + unfold tidx. rewrite map_length, seq_length. lia.
    + intros k Hk. unfold tidx in Hk. rewrite map_length, seq_length in Hk.
      unfold tidx at 1. rewrite nth_map_seq by lia.
      destruct (nth_position perm1 k (I1 k ltac:(lia))) as [E F].
      unfold tidx. rewrite nth_map_seq by lia. f_equal.
      (* position (position k perm1) perm0 = k *)
      assert (Q : position k perm1 = nth k perm0 0).
      { rewrite <- (C' k) at 1 by lia. apply position_nth; auto. rewrite L1. apply B0. lia. }
      rewrite Q. apply position_nth; auto. lia.
Qed.

(** the concrete 0,2,3,1 over a pad *)
Lemma hoist_value (v : value) s0 s1 s2 s3 : wf v -> vshape v = [s0; s1; s2; s3] ->
  pad_v zero [(0, 0); (1, 1); (1, 1); (0, 0)] (transpose_v zero [0; 2; 3; 1] v) =
  transpose_v zero [0; 2; 3; 1] (pad_v zero [(0, 0); (0, 0); (1, 1); (1, 1)] v).
Proof.
  intros W S. unfold pad_v, transpose_v at 2. cbn [value_of vshape]. unfold transpose_v. cbn [value_of vshape].
  rewrite S. cbn [permute map nth pad_shape map2 fst snd].
  apply value_of_ext; auto. intros idx H. apply in_shape_nth in H. destruct H as [HL HN].
  destruct idx as [|a [|b [|c [|d [|? ?]]]]]; try discriminate.
  pose proof (HN 0 ltac:(cbn; lia)) as H0. pose proof (HN 1 ltac:(cbn; lia)) as H1.
  pose proof (HN 2 ltac:(cbn; lia)) as H2. pose proof (HN 3 ltac:(cbn; lia)) as H3. cbn [nth] in *.
  unfold transpose_t at 2. cbn [length seq map position Nat.eqb nth].
  rewrite tensor_of_value_of.
  2:{ do 4 (apply Forall2_cons; [lia|]). apply Forall2_nil. }
  unfold pad_t. cbn [inside map2].
  destruct ((0 <=? a) && (a <? 0 + s0) && ((1 <=? b) && (b <? 1 + s2) && ((1 <=? c) && (c <? 1 + s3) && ((0 <=? d) && (d <? 0 + s1) && true)))) eqn:E1.
  - replace ((0 <=? a) && (a <? 0 + s0) && ((0 <=? d) && (d <? 0 + s1) && ((1 <=? b) && (b <? 1 + s2) && ((1 <=? c) && (c <? 1 + s3) && true)))) with true by lia.
    rewrite tensor_of_value_of.
    2:{ do 4 (apply Forall2_cons; [lia|]). apply Forall2_nil. }
    unfold transpose_t. cbn [length seq map position Nat.eqb nth]. reflexivity.
  - replace ((0 <=? a) && (a <? 0 + s0) && ((0 <=? d) && (d <? 0 + s1) && ((1 <=? b) && (b <? 1 + s2) && ((1 <=? c) && (c <? 1 + s3) && true)))) with false by lia.
    reflexivity.
Qed.

(** environments *)
Definition zeros (s : shape) : value := Value s (repeat zero (nelem s)).
Lemma has_types_zeros args : has_types args (map zeros args).
Proof.
  induction args; cbn [map]; constructor; auto. split; auto. unfold wf; cbn. apply repeat_length.
Qed.
Lemma has_types_nth args env i : has_types args env -> i < length args ->
  vshape (nth i env (Value [] [zero])) = nth i args [] /\ wf (nth i env (Value [] [zero])).
Proof.
  intros H; revert i; induction H; intros [|i] Hi; cbn in *; try lia; auto. apply IHForall2; lia.
Qed.

Notation WT := (well_typed zero op).
Notation EV := (eval zero op).

Lemma eval_wf args env e : has_types args env -> WT args e -> wf (EV env e).
Proof.
  intros H W. destruct e; cbn [eval].
  - destruct W as [_ W]. apply (has_types_nth args); auto.
  - apply value_of_wf.
  - apply value_of_wf.
  - apply op_wf.
Qed.

Lemma WT_type args e : WT args e -> forall env, has_types args env -> vshape (EV env e) = type_of args e.
Proof. intros W. destruct e; apply W. Qed.

Lemma same_type args e e' : WT args e -> (forall env, has_types args env -> vshape (EV env e') = type_of args e') ->
  (forall env, has_types args env -> EV env e' = EV env e) -> type_of args e' = type_of args e.
Proof.
  intros W W' E. pose proof (has_types_zeros args) as H.
  rewrite <- (W' _ H), <- (WT_type _ _ W _ H). f_equal. auto.
Qed.

Lemma nats_0231 perm : perm_is_0231 perm = true -> perm = [0; 2; 3; 1]%Z.
Proof.
  destruct perm as [|a [|b [|c [|d [|? ?]]]]]; cbn; try discriminate. intros H.
  assert (a = 0 /\ b = 2 /\ c = 3 /\ d = 1)%Z as (-> & -> & -> & ->) by lia. reflexivity.
Qed.
Lemma nats_pads pads : pads_last_two pads = true -> pads = [(0, 0); (0, 0); (1, 1); (1, 1)]%Z.
Proof.
  destruct pads as [|[a b] [|[c d] [|[e f] [|[g h] [|? ?]]]]]; cbn; try discriminate. intros H.
  assert (a = 0 /\ b = 0 /\ c = 0 /\ d = 0)%Z as (-> & -> & -> & ->) by lia.
  assert (e = 1 /\ f = 1 /\ g = 1 /\ h = 1)%Z as (-> & -> & -> & ->) by lia. reflexivity.
Qed.

Lemma hoist_ok args e e' : hoist_above_pad args e = Some e' -> WT args e ->
  WT args e' /\ forall env, has_types args env -> EV env e' = EV env e.
Proof.
  intros H W. destruct e as [|perm e out| |]; try discriminate. cbn [hoist_above_pad] in H.
  destruct e as [| |pads inner pout|]; try discriminate.
  destruct (perm_is_0231 perm) eqn:EP; [|discriminate]. destruct (pads_last_two pads) eqn:EQ; [|discriminate].
  destruct (type_of args inner) as [|s0 [|s1 [|s2 [|s3 [|? ?]]]]] eqn:ET; try discriminate. inv H.
  apply nats_0231 in EP. apply nats_pads in EQ. subst perm pads.
  destruct W as (T0 & (T1 & W1 & LP & FP) & F & P).
  assert (E : forall env, has_types args env -> EV env (EPad [(0, 0); (1, 1); (1, 1); (0, 0)]%Z (ETranspose [0; 2; 3; 1]%Z inner [s0; s2; s3; s1]) out) = EV env (ETranspose [0; 2; 3; 1]%Z (EPad [(0, 0); (0, 0); (1, 1); (1, 1)]%Z inner pout) out)).
  { intros env Henv. cbn [eval].
    apply (hoist_value (EV env inner) s0 s1 s2 s3).
    - apply (eval_wf args); auto.
    - rewrite (WT_type args); auto. }
  split; [|exact E].
  assert (TT : forall env, has_types args env -> vshape (EV env (ETranspose [0; 2; 3; 1]%Z inner [s0; s2; s3; s1])) = [s0; s2; s3; s1]).
  { intros env Henv. cbn [eval transpose_v value_of vshape]. rewrite (WT_type args) by auto. rewrite ET. reflexivity. }
  cbn [well_typed]. split; [|split; [split; [exact TT|split; [exact W1|split]]|split]].
  - intros env Henv. rewrite E by auto. rewrite (T0 env Henv). reflexivity.
  - repeat (apply Forall_cons; [cbn; lia|]); apply Forall_nil.
  - rewrite ET. cbn [length seq]. change (nats [0; 2; 3; 1]%Z) with [0; 2; 3; 1].
    apply perm_skip. apply (Permutation_trans (l' := [2; 1; 3])); [apply perm_skip, perm_swap|apply perm_swap].
  - reflexivity.
  - repeat (apply Forall_cons; [cbn; lia|]); apply Forall_nil.
Qed.

Lemma fold_ok args e e' : fold_cancellable e = Some e' -> WT args e ->
  WT args e' /\ forall env, has_types args env -> EV env e' = EV env e.
Proof.
  intros H W. destruct e as [|perm0 e out0| |]; try discriminate. cbn [fold_cancellable] in H.
  destruct e as [|perm1 inner out1| |]; try discriminate.
  destruct (are_cancellable perm0 perm1) eqn:C; [|discriminate]. injection H as <-.
  destruct W as (T0 & (T1 & W1 & F1 & P1) & F0 & P0). split; [exact W1|].
  intros env Henv. cbn [eval]. symmetry.
  pose proof (WT_type _ _ W1 env Henv) as TI.
  assert (LO : length out1 = length (type_of args inner)).
  { specialize (T1 env Henv). cbn [eval transpose_v value_of vshape type_of] in T1. rewrite <- T1. unfold permute. rewrite map_length.
    rewrite (Permutation_length P1). apply seq_length. }
  cbn [type_of] in P0. rewrite LO in P0.
  apply transpose_cancel; [apply (eval_wf args); auto| | |].
  - rewrite TI; auto.
  - rewrite TI; auto.
  - intros i Hi. rewrite TI in Hi. unfold are_cancellable in C. rewrite !andb_true_iff in C. destruct C as [_ C].
    rewrite forallb_forall in C.
    pose proof (Permutation_length P0) as L0. pose proof (Permutation_length P1) as L1. unfold nats in L0, L1. rewrite map_length, seq_length in *.
    specialize (C i ltac:(apply in_seq; lia)). apply Z.eqb_eq in C.
    assert (MN : forall k (l : list Z), nth k (map Z.to_nat l) 0 = Z.to_nat (nth k l 0%Z)) by (intros k l; apply (map_nth Z.to_nat l 0%Z k)).
    unfold nats. rewrite !MN.
    rewrite (nth_indep perm1 0%Z (-1)%Z) by lia.
    rewrite (nth_indep perm0 0%Z (-1)%Z); [lia|].
    destruct (Nat.lt_ge_cases (Z.to_nat (nth i perm1 (-1)%Z)) (length perm0)); auto.
    rewrite nth_overflow in C by auto. lia.
Qed.

Lemma all_WT args l : (fix all l := match l with [] => True | x :: tl => WT args x /\ all tl end) l <-> Forall (WT args) l.
Proof. induction l as [|x l IH]; split; intros H; auto. - destruct H. constructor; auto. apply IH; auto. - inv H. split; auto. apply IH; auto. Qed.

Lemma step_ok args e e' : step args e e' -> WT args e ->
  WT args e' /\ forall env, has_types args env -> EV env e' = EV env e.
Proof.
  induction 1 as [e e' H|e e' H|perm e e' out S IH|pads e e' out S IH|name l e e' r out S IH]; intros W.
  - apply hoist_ok; auto.
  - apply fold_ok; auto.
  - destruct W as (T & W & F & P). destruct (IH W) as (W' & E).
    assert (E2 : forall env, has_types args env -> EV env (ETranspose perm e' out) = EV env (ETranspose perm e out)).
    { intros env Henv. cbn [eval]. rewrite E; auto. }
    split; auto. split; [intros env Henv; rewrite E2; auto; apply (T env Henv)|]. split; auto. split; auto.
    rewrite (same_type args e e'); auto. apply WT_type; auto.
  - destruct W as (T & W & L & F). destruct (IH W) as (W' & E).
    assert (E2 : forall env, has_types args env -> EV env (EPad pads e' out) = EV env (EPad pads e out)).
    { intros env Henv. cbn [eval]. rewrite E; auto. }
    split; auto. split; [intros env Henv; rewrite E2; auto; apply (T env Henv)|]. split; auto. split; auto.
    rewrite (same_type args e e'); auto. apply WT_type; auto.
  - destruct W as (T & W). pose proof (proj1 (all_WT _ _) W) as WF. apply Forall_app in WF. destruct WF as [Wl Wr]. inv Wr.
    destruct (IH H1) as (W' & E).
    assert (E2 : forall env, has_types args env -> EV env (EOp name (l ++ e' :: r) out) = EV env (EOp name (l ++ e :: r) out)).
    { intros env Henv. cbn [eval]. f_equal. rewrite !map_app. cbn [map]. rewrite E; auto. }
    split; auto. split; [intros env Henv; rewrite E2; auto; apply (T env Henv)|].
    apply all_WT. apply Forall_app. split; auto.
Qed.

Lemma steps_ok args e e' : steps args e e' -> WT args e ->
  WT args e' /\ forall env, has_types args env -> EV env e' = EV env e.
Proof.
  induction 1 as [|e1 e2 e3 S _ IH]; intros W; [split; auto|].
  destruct (step_ok _ _ _ S W) as [W2 E2]. destruct (IH W2) as [W3 E3]. split; auto.
  intros env Henv. rewrite E3, E2; auto.
Qed.

(** input modification *)
Lemma nth_set_nth {X} i (x d : X) l j : i < length l -> nth j (set_nth i x l) d = if Nat.eqb i j then x else nth j l d.
Proof.
  revert i j; induction l as [|y l IH]; intros [|i] [|j] H; cbn in *; try lia; auto. apply IH; lia.
Qed.

Fixpoint esize (e : expr) : nat :=
  match e with EArg _ => 1 | ETranspose _ e _ | EPad _ e _ => S (esize e)
  | EOp _ l _ => S (fold_right (fun e n => esize e + n) 0 l) end.
Lemma esize_in e l : In e l -> esize e <= fold_right (fun e n => esize e + n) 0 l.
Proof. induction l as [|x l IH]; intros H; [easy|]. destruct H as [->|H]; cbn; [lia|]. specialize (IH H). lia. Qed.

Lemma drop_ok i out env e : i < length env -> arg_only_transposed i out e = true ->
  EV (set_nth i (transpose_v zero [0; 2; 3; 1] (nth i env (Value [] [zero]))) env) (drop_transpose i e) = EV env e.
Proof.
  intros Hi. remember (esize e) as n eqn:En. assert (Hn : esize e <= n) by lia. clear En. revert e Hn.
  induction n as [|n IH]; intros e Hn H; [destruct e; cbn in Hn; lia|].
  destruct e as [j|perm e o|pads e o|name l o].
  - cbn [arg_only_transposed] in H. cbn [drop_transpose eval]. rewrite nth_set_nth by auto.
    destruct (Nat.eqb i j); [discriminate|auto].
  - destruct e as [j| | |].
    + cbn [arg_only_transposed] in H. cbn [drop_transpose]. destruct (Nat.eqb_spec i j) as [->|N].
      * cbn [eval]. rewrite nth_set_nth, Nat.eqb_refl by auto.
        rewrite andb_true_iff in H. destruct H as [H _]. apply nats_0231 in H. subst perm. reflexivity.
      * cbn [eval]. rewrite nth_set_nth by auto. destruct (Nat.eqb_spec i j); [contradiction|]. auto.
    + apply (f_equal (transpose_v zero (nats perm))). apply (IH (ETranspose perm0 e out0)); auto. cbn [esize] in *. lia.
    + apply (f_equal (transpose_v zero (nats perm))). apply (IH (EPad pads e out0)); auto. cbn [esize] in *. lia.
    + apply (f_equal (transpose_v zero (nats perm))). apply (IH (EOp name args out0)); auto. cbn [esize] in *. lia.
  - cbn [eval drop_transpose]. f_equal. apply IH; auto. cbn [esize] in *. lia.
  - cbn [eval drop_transpose]. f_equal. rewrite map_map. apply map_ext_in. intros e He. apply IH.
    + pose proof (esize_in _ _ He). cbn [esize] in Hn. lia.
    + cbn [arg_only_transposed] in H. rewrite forallb_forall in H. auto.
Qed.

Lemma transposed_type i out args e : arg_only_transposed i out e = true -> transposes_arg i out e = true -> WT args e ->
  i < length args /\ forall env, has_types args env -> permute [0; 2; 3; 1] (vshape (nth i env (Value [] [zero]))) = out.
Proof.
  remember (esize e) as n eqn:En. assert (Hn : esize e <= n) by lia. clear En. revert e Hn.
  induction n as [|n IH]; intros e Hn O H W; [destruct e; cbn in Hn; lia|].
  destruct e as [j|perm e o|pads e o|name l o].
  - discriminate.
  - destruct e as [j| | |].
    + cbn [transposes_arg] in H. cbn [arg_only_transposed] in O. destruct (Nat.eqb_spec i j) as [->|N]; [|discriminate].
      destruct (list_eq_dec Nat.eq_dec out o) as [<-|]; [|discriminate].
      rewrite andb_true_iff in O. destruct O as [O _]. apply nats_0231 in O. subst perm.
      destruct W as (T & (_ & W) & _). split; [auto|]. intros env Henv. exact (T env Henv).
    + apply (IH (ETranspose perm0 e out0)); [cbn [esize] in *; lia|auto|auto|apply W].
    + apply (IH (EPad pads e out0)); [cbn [esize] in *; lia|auto|auto|apply W].
    + apply (IH (EOp name args0 out0)); [cbn [esize] in *; lia|auto|auto|apply W].
  - apply (IH e); [cbn [esize] in *; lia|auto|auto|apply W].
  - cbn [transposes_arg arg_only_transposed] in *. rewrite existsb_exists in H. destruct H as (x & Hx & H).
    rewrite forallb_forall in O. destruct W as [_ W]. apply all_WT in W. rewrite Forall_forall in W.
    apply (IH x); auto. pose proof (esize_in _ _ Hx). cbn [esize] in Hn. lia.
Qed.

Lemma has_types_set args (env : list value) i s (v : value) : has_types args env -> vshape v = s -> wf v -> has_types (set_nth i s args) (set_nth i v env).
Proof.
  intros H E W. revert i. induction H as [|a b args env Hab H IH]; intros i; [destruct i; constructor|].
  destruct i; cbn; constructor; auto. apply IH.
Qed.

Lemma fold_to_input_ok i out args results args' results' : fold_to_input i out args results = Some (args', results') ->
  Forall (WT args) results -> forall env, has_types args env ->
  let env' := set_nth i (transpose_v zero [0; 2; 3; 1] (nth i env (Value [] [zero]))) env in
  i < length args /\ has_types args' env' /\ map (EV env') results' = map (EV env) results.
Proof.
  intros H W env Henv env'. unfold fold_to_input in H.
  destruct (existsb (transposes_arg i out) results && forallb (arg_only_transposed i out) results) eqn:E; [|discriminate].
  injection H as <- <-. rewrite andb_true_iff in E. destruct E as [E F]. rewrite existsb_exists in E. destruct E as (x & Hx & E).
  rewrite forallb_forall in F. rewrite Forall_forall in W.
  destruct (transposed_type i out args x (F x Hx) E (W x Hx)) as [Hi T].
  assert (L : length args = length env). { clear - Henv. induction Henv; cbn; auto. }
  split; auto. split.
  - apply has_types_set; auto. apply T; auto. apply value_of_wf.
  - rewrite map_map. apply map_ext_in. intros e He. apply (drop_ok i out); auto. lia.
Qed.
End P.
