(** Termination of TFLPatterns on functions without pads by nothing (C88). *)
From Coq Require Import Relations Wellfounded Permutation.
From Verif Require Import Base NdSpec NdBase LowerSpec TransposeSpec FunOpsSpec FunOpsProofs FunModel FunSpec FunProofs FunProofs2 FunProps.
From Verif Require Import FunOptModel FunOptSpec FunOptProofs FunOptProofs2 FunOptProps FunOptTerm.
From Verif Require PatternModel ConvLowerModel.
Local Open Scope nat_scope.

Definition set_at {V} (g : nat -> V) (d : nat) (v : V) (x : nat) : V := if Nat.eqb x d then v else g x.
Section Flow.
Variable V : Type.
Variable le : V -> V -> Prop.
Variable tr : (nat -> V) -> instr -> V.
Variable co : (nat -> V) -> instr -> nat.
Hypothesis le_refl : forall v, le v v.
Hypothesis tr_mono : forall g g' i, (forall x, In x (i_args i) -> le (g x) (g' x)) -> le (tr g i) (tr g' i).
Hypothesis co_mono : forall g g' i, (forall x, In x (i_args i) -> le (g x) (g' x)) -> co g i <= co g' i.
Fixpoint total (g : nat -> V) (body : list instr) : nat := match body with [] => 0 | i :: tl => co g i + total (set_at g (i_dst i) (tr g i)) tl end.
Fixpoint after (g : nat -> V) (body : list instr) : nat -> V := match body with [] => g | i :: tl => after (set_at g (i_dst i) (tr g i)) tl end.
Lemma total_app a : forall g b, total g (a ++ b) = total g a + total (after g a) b.
Proof. induction a as [|i a IH]; intros g b; cbn [app total after]; auto. rewrite IH. apply Nat.add_assoc. Qed.
Lemma after_app a : forall g b, after g (a ++ b) = after (after g a) b.
Proof. induction a as [|i a IH]; intros g b; cbn [app after]; auto. Qed.
Lemma after_other body : forall g x, ~ In x (map i_dst body) -> after g body x = g x.
Proof.
  induction body as [|i body IH]; intros g x H; cbn [after]; auto. cbn [map In] in H. rewrite IH by tauto. unfold set_at. destruct (Nat.eqb_spec x (i_dst i)); [exfalso; apply H; auto|auto].
Qed.
Lemma total_mono body : forall g g', (forall x, (exists i, In i body /\ In x (i_args i)) -> le (g x) (g' x)) -> total g body <= total g' body.
Proof.
  induction body as [|i body IH]; intros g g' H; cbn [total]; auto.
  assert (Ha : forall x, In x (i_args i) -> le (g x) (g' x)) by (intros x Hx; apply H; exists i; split; [left; auto|auto]).
  apply Nat.add_le_mono; [apply co_mono; auto|]. apply IH. intros x (j & Hj & Hx). unfold set_at. destruct (Nat.eqb x (i_dst i)); [apply tr_mono; auto|]. apply H. exists j. split; [right; auto|auto].
Qed.
(** Replacing [i] by [news]. *)
Lemma total_replace g pre i news post : let g2 := after g pre in
  (forall x, In x (map i_dst news) -> x = i_dst i \/ forall k, In k post -> ~ In x (i_args k)) ->
  le (after g2 news (i_dst i)) (tr g2 i) ->
  total g (pre ++ news ++ post) + co g2 i <= total g (pre ++ i :: post) + total g2 news.
Proof.
  intros g2 Hn Hd. rewrite !total_app. fold g2. cbn [total].
  assert (M : total (after g2 news) post <= total (set_at g2 (i_dst i) (tr g2 i)) post); [|lia].
  apply total_mono. intros x (k & Hk & Hx). unfold set_at. destruct (Nat.eqb_spec x (i_dst i)) as [->|Ne]; [exact Hd|].
  rewrite after_other; [apply le_refl|]. intros Hi. destruct (Hn x Hi) as [E|E]; [congruence|]. apply (E k); auto.
Qed.
Lemma total_drop g pre i post : (forall j, In j post -> ~ mentions j (i_dst i)) -> total g (pre ++ post) + co (after g pre) i <= total g (pre ++ i :: post).
Proof.
  intros M. pose proof (total_replace g pre i [] post) as H. cbn [map app total after] in H.
  rewrite !total_app. cbn [total]. set (g2 := after g pre).
  assert (C : total g2 post <= total (set_at g2 (i_dst i) (tr g2 i)) post); [|lia].
  apply total_mono. intros x (k & Hk & Hx). unfold set_at. destruct (Nat.eqb_spec x (i_dst i)) as [->|Ne]; [exfalso; apply (M k Hk); right; auto|apply le_refl].
Qed.
End Flow.

(** ** Chains of pads *)
Definition spatial (o : fop) : bool := match o with TPad b a => PatternModel.has_only_spatial_padding (pad_attr b a) | _ => false end.
Definition channel (o : fop) : bool := match o with TPad b a => PatternModel.has_only_channel_padding (pad_attr b a) | _ => false end.
Definition rank (o : fop) : option nat := if spatial o then Some (if channel o then 1 else 2) else if channel o then Some 0 else None.
Definition pads (g : nat -> list nat) (i : instr) : list nat := match rank (i_op i), i_args i with Some r, [x] => r :: g x | _, _ => [] end.
Fixpoint inversions (l : list nat) : nat := match l with [] => 0 | r :: tl => length (filter (fun k => Nat.ltb r k) tl) + inversions tl end.
Definition pad_cost (g : nat -> list nat) (i : instr) : nat := match rank (i_op i), i_args i with Some r, [x] => 3 ^ inversions (r :: g x) | _, _ => 0 end.
Definition zeros (l : list nat) : nat := length (filter (fun k => Nat.eqb k 1) l).
(** 0 unless a chain has two pads by nothing, or a SAME convolution reads a chain with one. *)
Definition zero_cost (g : nat -> list nat) (i : instr) : nat :=
  match i_args i with
  | [x] => match rank (i_op i) with Some r => zeros (r :: g x) - 1 | None => if is_same_conv (i_op i) then zeros (g x) else 0 end
  | _ => 0
  end.
Definition sorted_from (l l' : list nat) : Prop := Permutation l l' /\ inversions l <= inversions l'.
Lemma filter_perm {A} (p : A -> bool) l l' : Permutation l l' -> length (filter p l) = length (filter p l').
Proof. induction 1; cbn [filter]; auto; try lia. - destruct (p x); cbn [length]; auto. - destruct (p x), (p y); auto. Qed.
Lemma sorted_cons r l l' : sorted_from l l' -> sorted_from (r :: l) (r :: l').
Proof. intros [P H]. split; [constructor; auto|]. cbn [inversions]. rewrite (filter_perm _ l l' P). lia. Qed.
Lemma sorted_refl l : sorted_from l l.
Proof. split; auto. Qed.
Lemma pads_mono g g' i : (forall x, In x (i_args i) -> sorted_from (g x) (g' x)) -> sorted_from (pads g i) (pads g' i).
Proof.
  intros H. unfold pads. destruct (rank (i_op i)); [|apply sorted_refl]. destruct (i_args i) as [|x [|? ?]]; try apply sorted_refl. apply sorted_cons, H. left; auto.
Qed.
Lemma pad_cost_mono g g' i : (forall x, In x (i_args i) -> sorted_from (g x) (g' x)) -> pad_cost g i <= pad_cost g' i.
Proof.
  intros H. unfold pad_cost. destruct (rank (i_op i)) as [r|]; auto. destruct (i_args i) as [|x [|? ?]]; auto. apply Nat.pow_le_mono_r; [lia|]. apply (sorted_cons r). apply H. left; auto.
Qed.
Lemma zero_cost_mono g g' i : (forall x, In x (i_args i) -> sorted_from (g x) (g' x)) -> zero_cost g i <= zero_cost g' i.
Proof.
  intros H. unfold zero_cost. destruct (i_args i) as [|x [|? ?]]; auto. destruct (H x (or_introl eq_refl)) as [P _].
  destruct (rank (i_op i)) as [r|]; [|destruct (is_same_conv _); auto; unfold zeros; rewrite (filter_perm _ _ _ P); lia].
  unfold zeros. rewrite (filter_perm _ (r :: g x) (r :: g' x)); auto.
Qed.

(** ** Quantised concatenations *)
Definition tree (g : nat -> nat) (i : instr) : nat :=
  match i_op i with TConcat _ => S (list_sum (map g (i_args i))) | TQuantize _ => match i_args i with [x] => g x | _ => 1 end | _ => 1 end.
Definition tree_cost (g : nat -> nat) (i : instr) : nat := match i_op i, i_args i with TQuantize _, [x] => g x | _, _ => 0 end.
Lemma tree_mono g g' i : (forall x, In x (i_args i) -> g x <= g' x) -> tree g i <= tree g' i.
Proof.
  intros H. unfold tree. destruct (i_op i); auto.
  - apply le_n_S. induction (i_args i) as [|x l IH]; cbn [map list_sum]; auto. cbn [list_sum fold_right] in *. pose proof (H x (or_introl eq_refl)). assert (list_sum (map g l) <= list_sum (map g' l)) by (apply IH; intros; apply H; right; auto). unfold list_sum in *. cbn [fold_right]. lia.
  - destruct (i_args i) as [|x [|? ?]]; auto. apply H. left; auto.
Qed.
Lemma tree_cost_mono g g' i : (forall x, In x (i_args i) -> g x <= g' x) -> tree_cost g i <= tree_cost g' i.
Proof. intros H. unfold tree_cost. destruct (i_op i); auto. destruct (i_args i) as [|x [|? ?]]; auto. apply H. left; auto. Qed.

Definition pad_total (f : func) : nat := total _ pads pad_cost (fun _ => []) (f_body f).
Definition zero_total (f : func) : nat := total _ pads zero_cost (fun _ => []) (f_body f).
Definition tree_total (f : func) : nat := total _ tree tree_cost (fun _ => 1) (f_body f).

Definition smaller (f' f : func) : Prop :=
  same_count (f_body f') < same_count (f_body f) \/ same_count (f_body f') = same_count (f_body f) /\
  (tree_total f' < tree_total f \/ tree_total f' = tree_total f /\
   (pad_total f' < pad_total f \/ pad_total f' = pad_total f /\ length (f_body f') < length (f_body f))).
Lemma smaller_wf : well_founded smaller.
Proof.
  assert (G : forall a b c d f, same_count (f_body f) = a -> tree_total f = b -> pad_total f = c -> length (f_body f) = d -> Acc smaller f).
  { induction a as [a IHa] using lt_wf_ind. induction b as [b IHb] using lt_wf_ind. induction c as [c IHc] using lt_wf_ind. induction d as [d IHd] using lt_wf_ind.
    intros f E1 E2 E3 E4. constructor. intros f' [L|[E [L|[E' [L|[E'' L]]]]]].
    - eapply IHa; eauto; lia.
    - eapply IHb; eauto; lia.
    - eapply IHc; eauto; lia.
    - eapply IHd; eauto; lia. }
  intros f. eapply G; eauto.
Qed.

Lemma same_count_app a b : same_count (a ++ b) = same_count a + same_count b.
Proof. unfold same_count. rewrite filter_app, app_length. auto. Qed.
Lemma same_count_cons i b : same_count (i :: b) = (if is_same_conv (i_op i) then 1 else 0) + same_count b.
Proof. unfold same_count. cbn [filter]. destruct (is_same_conv _); auto. Qed.

Lemma attr_back b a : length b = 4 -> length a = 4 -> attr_before (pad_attr b a) = b /\ attr_after (pad_attr b a) = a.
Proof.
  intros Hb Ha. destruct b as [|b0 [|b1 [|b2 [|b3 [|? ?]]]]]; try discriminate Hb. destruct a as [|a0 [|a1 [|a2 [|a3 [|? ?]]]]]; try discriminate Ha.
  unfold attr_before, attr_after, pad_attr, PatternModel.pv. cbn [combine flat_map app map nth fst snd Nat.mul Nat.add]. rewrite !Nat2Z.id. auto.
Qed.

(** The quantisers made from the operands of a concatenation. *)
Definition quants (fresh : nat -> nat) (q : list Z -> list Z) (elem : nat) (zero : option Z) (k : nat) (xs : list nat) (tys : list ty) : list instr :=
  map (fun p => Instr (fresh (fst p)) (TQuantize q) [fst (snd p)] (Ty (t_shape (snd (snd p))) elem zero)) (combine (seq k (length xs)) (combine xs tys)).
Lemma quants_dst fresh q elem zero xs : forall k tys x, In x (map i_dst (quants fresh q elem zero k xs tys)) -> exists j, k <= j /\ x = fresh j.
Proof.
  induction xs as [|y xs IH]; intros k tys x H; cbn in H; [destruct H|]. destruct tys as [|t tys]; [destruct H|]. cbn in H. destruct H as [H|H]; [exists k; split; [lia|auto]|].
  destruct (IH (S k) tys x H) as (j & Hj & E). exists j. split; [lia|auto].
Qed.
Lemma quants_tree fresh q elem zero : (forall j k, fresh j = fresh k -> j = k) -> forall xs k tys g, length tys = length xs -> (forall x j, In x xs -> x <> fresh j) ->
  total _ tree tree_cost g (quants fresh q elem zero k xs tys) = list_sum (map g xs) /\
  map (after _ tree g (quants fresh q elem zero k xs tys)) (map fresh (seq k (length xs))) = map g xs.
Proof.
  intros FI. induction xs as [|y xs IH]; intros k tys g L N; [cbn; auto|]. destruct tys as [|t tys]; [discriminate L|].
  unfold quants. cbn [length seq combine map fst snd total after i_dst]. fold (quants fresh q elem zero (S k) xs tys).
  set (g' := set_at g (fresh k) (tree g (Instr (fresh k) (TQuantize q) [y] (Ty (t_shape t) elem zero)))).
  assert (Eg : map g' xs = map g xs).
  { apply map_ext_in. intros x Hx. unfold g', set_at. destruct (Nat.eqb_spec x (fresh k)) as [E|]; [exfalso; apply (N x k); [right; auto|auto]|auto]. }
  destruct (IH (S k) tys g') as [I1 I2]; [injection L; auto|intros x j Hx; apply N; right; auto|]. rewrite Eg in I1, I2. split.
  - rewrite I1. unfold tree_cost. cbn [i_op i_args]. reflexivity.
  - rewrite I2. f_equal. rewrite after_other.
    + unfold g', set_at. rewrite Nat.eqb_refl. reflexivity.
    + intros H. apply quants_dst in H. destruct H as (j & Hj & E). apply FI in E. lia.
Qed.
Lemma quants_none fresh q elem zero (co : (nat -> list nat) -> instr -> nat) : (forall g i, rank (i_op i) = None -> is_same_conv (i_op i) = false -> co g i = 0) ->
  forall xs k tys g, total _ pads co g (quants fresh q elem zero k xs tys) = 0 /\ same_count (quants fresh q elem zero k xs tys) = 0.
Proof.
  intros Z0. induction xs as [|y xs IH]; intros k tys g; [cbn; auto|]. destruct tys as [|t tys]; [cbn; auto|].
  unfold quants. cbn [length seq combine map fst snd total i_dst]. fold (quants fresh q elem zero (S k) xs tys). rewrite same_count_cons. cbn [i_op is_same_conv]. rewrite Z0 by reflexivity.
  destruct (IH (S k) tys (set_at g (fresh k) (pads g (Instr (fresh k) (TQuantize q) [y] (Ty (t_shape t) elem zero))))) as [I1 I2]. rewrite I1, I2. auto.
Qed.
Lemma pad_cost_none g i : rank (i_op i) = None -> is_same_conv (i_op i) = false -> pad_cost g i = 0.
Proof. intros R _. unfold pad_cost. rewrite R. auto. Qed.
Lemma zero_cost_none g i : rank (i_op i) = None -> is_same_conv (i_op i) = false -> zero_cost g i = 0.
Proof. intros R N. unfold zero_cost. rewrite R, N. destruct (i_args i) as [|x [|? ?]]; auto. Qed.

Lemma pads_ranked g i r x : rank (i_op i) = Some r -> i_args i = [x] -> pads g i = r :: g x.
Proof. intros H E. unfold pads. rewrite H, E. reflexivity. Qed.
Lemma pads_unranked g i : rank (i_op i) = None -> pads g i = [].
Proof. intros H. unfold pads. rewrite H. reflexivity. Qed.
Lemma tree_concat g i axis : i_op i = TConcat axis -> tree g i = S (list_sum (map g (i_args i))).
Proof. intros H. unfold tree. rewrite H. reflexivity. Qed.
Lemma swap_ranks b1 a1 b2 a2 inner outer : PatternModel.swap_pads (pad_attr b1 a1) (pad_attr b2 a2) = Some (inner, outer) ->
  inner = pad_attr b2 a2 /\ outer = pad_attr b1 a1 /\ exists r1 r2, rank (TPad b1 a1) = Some r1 /\ rank (TPad b2 a2) = Some r2 /\ 1 <= r1 /\ r2 <= 1.
Proof.
  unfold PatternModel.swap_pads. destruct (PatternModel.has_only_spatial_padding (pad_attr b1 a1)) eqn:S1; [|discriminate]. destruct (PatternModel.has_only_channel_padding (pad_attr b2 a2)) eqn:C2; [|discriminate].
  cbn [andb]. intros [= <- <-]. split; [auto|split; [auto|]]. unfold rank. cbn [spatial channel]. rewrite S1, C2.
  destruct (PatternModel.has_only_channel_padding (pad_attr b1 a1)), (PatternModel.has_only_spatial_padding (pad_attr b2 a2)); do 2 eexists; repeat split; auto.
Qed.
Lemma swap_lengths b1 a1 b2 a2 inner outer : PatternModel.swap_pads (pad_attr b1 a1) (pad_attr b2 a2) = Some (inner, outer) -> length (pad_attr b1 a1) = 8 /\ length (pad_attr b2 a2) = 8.
Proof.
  unfold PatternModel.swap_pads, PatternModel.has_only_spatial_padding, PatternModel.has_only_channel_padding. intros H.
  destruct (Nat.eqb_spec (length (pad_attr b1 a1)) 8); [|discriminate]. destruct (Nat.eqb_spec (length (pad_attr b2 a2)) 8); [auto|]. cbn [negb] in H. rewrite andb_false_r in H. discriminate.
Qed.

Lemma total_fused V (le : V -> V -> Prop) tr co g0 pre j mid i news post : (forall v, le v v) ->
  (forall g g' i, (forall x, In x (i_args i) -> le (g x) (g' x)) -> le (tr g i) (tr g' i)) ->
  (forall g g' i, (forall x, In x (i_args i) -> le (g x) (g' x)) -> co g i <= co g' i) -> let g2 := after V tr g0 (pre ++ j :: mid) in
  (forall x, In x (map i_dst news) -> x = i_dst i \/ forall k, In k post -> ~ In x (i_args k)) ->
  le (after V tr g2 news (i_dst i)) (tr g2 i) ->
  total V tr co g0 (pre ++ j :: mid ++ news ++ post) + co g2 i <= total V tr co g0 (pre ++ j :: mid ++ i :: post) + total V tr co g2 news.
Proof.
  intros R T C g2 Hn Hd. pose proof (total_replace V le tr co R T C g0 (pre ++ j :: mid) i news post Hn Hd) as H.
  rewrite <- !app_assoc in H. cbn [app] in H. exact H.
Qed.
Lemma at_operand V tr g0 pre j mid : ~ In (i_dst j) (map i_dst mid) -> (forall x, In x (i_args j) -> x <> i_dst j /\ ~ In x (map i_dst mid)) ->
  let g2 := after V tr g0 (pre ++ j :: mid) in let g1 := after V tr g0 pre in g2 (i_dst j) = tr g1 j /\ forall x, In x (i_args j) -> g2 x = g1 x.
Proof.
  intros N1 N2 g2 g1. unfold g2. rewrite after_app. cbn [after]. fold g1. split.
  - rewrite after_other by exact N1. unfold set_at. rewrite Nat.eqb_refl. reflexivity.
  - intros x Hx. destruct (N2 x Hx) as [E F]. rewrite after_other by exact F. unfold set_at. destruct (Nat.eqb_spec x (i_dst j)); [congruence|reflexivity].
Qed.

(** ** The element-wise patterns *)
Definition is_fused (o : fop) : bool := match o with TBinary _ (Some _) _ _ => true | _ => false end.
Definition is_relu (o : fop) : bool := match o with TCompute (CAct _ LutModel.Relu _ _ _ _) => true | _ => false end.
Definition count (p : fop -> bool) (body : list instr) : nat := length (filter (fun i => p (i_op i)) body).
Lemma count_app p a b : count p (a ++ b) = count p a + count p b.
Proof. unfold count. rewrite filter_app, app_length. auto. Qed.
Lemma count_cons p i b : count p (i :: b) = (if p (i_op i) then 1 else 0) + count p b.
Proof. unfold count. cbn [filter]. destruct (p _); auto. Qed.
(** Minimums beneath a Relu. *)
Definition mins (g : nat -> nat) (i : instr) : nat := match i_op i, i_args i with TMinimum _ _, [x] => S (g x) | _, _ => 0 end.
Definition min_cost (g : nat -> nat) (i : instr) : nat := match i_args i with [x] => if is_relu (i_op i) then g x else 0 | _ => 0 end.
Lemma mins_mono g g' i : (forall x, In x (i_args i) -> g x <= g' x) -> mins g i <= mins g' i.
Proof. intros H. unfold mins. destruct (i_op i); auto. destruct (i_args i) as [|x [|? ?]]; auto. apply le_n_S, H. left; auto. Qed.
Lemma min_cost_mono g g' i : (forall x, In x (i_args i) -> g x <= g' x) -> min_cost g i <= min_cost g' i.
Proof. intros H. unfold min_cost. destruct (i_args i) as [|x [|? ?]]; auto. destruct (is_relu _); auto. apply H. left; auto. Qed.
(** Operands of another shape than the result. *)
Definition shape_in (sc : list (nat * ty)) (x : nat) : list nat := match lookup sc x with Some t => t_shape t | None => [] end.
Definition shapes (g : nat -> list nat) (i : instr) : list nat := t_shape (i_ty i).
Definition other_shape (a r : list nat) : nat := if list_eq_dec Nat.eq_dec a r then 0 else 1.
Definition shape_cost (g : nat -> list nat) (i : instr) : nat :=
  match i_op i, i_args i with TBinary _ _ _ _, [x; y] => other_shape (g x) (t_shape (i_ty i)) + other_shape (g y) (t_shape (i_ty i)) | _, _ => 0 end.
Lemma shape_cost_mono g g' i : (forall x, In x (i_args i) -> g x = g' x) -> shape_cost g i <= shape_cost g' i.
Proof. intros H. unfold shape_cost. destruct (i_op i); auto. destruct (i_args i) as [|x [|y [|? ?]]]; auto. rewrite (H x), (H y) by (cbn; auto). auto. Qed.
Lemma after_shapes body : forall ps g, (forall x, g x = shape_in ps x) -> forall x, after _ shapes g body x = shape_in (scope ps body) x.
Proof.
  unfold scope. induction body as [|i body IH]; intros ps g H x; cbn [after map rev app]; [apply H|]. rewrite <- app_assoc. cbn [app]. apply IH. intros y. unfold set_at, shape_in. cbn [lookup].
  destruct (Nat.eqb y (i_dst i)); [reflexivity|]. apply H.
Qed.
Definition fused_count (f : func) : nat := count is_fused (f_body f).
Definition relu_count (f : func) : nat := count is_relu (f_body f).
Definition min_total (f : func) : nat := total _ mins min_cost (fun _ => 0) (f_body f).
Definition shape_total (f : func) : nat := total _ shapes shape_cost (shape_in (f_params f)) (f_body f).
Definition lower (f' f : func) : Prop :=
  fused_count f' < fused_count f \/ fused_count f' = fused_count f /\ (relu_count f' < relu_count f \/ relu_count f' = relu_count f /\
  (min_total f' < min_total f \/ min_total f' = min_total f /\ shape_total f' < shape_total f)).
Definition no_higher (f' f : func) : Prop := fused_count f' <= fused_count f /\ relu_count f' <= relu_count f /\ min_total f' <= min_total f /\ shape_total f' <= shape_total f.
Definition below (f' f : func) : Prop := lower f' f \/ no_higher f' f /\ smaller f' f.
Lemma below_wf : well_founded below.
Proof.
  assert (G : forall a b c d f, fused_count f = a -> relu_count f = b -> min_total f = c -> shape_total f = d -> Acc below f).
  { induction a as [a IHa] using lt_wf_ind. induction b as [b IHb] using lt_wf_ind. induction c as [c IHc] using lt_wf_ind. induction d as [d IHd] using lt_wf_ind.
    intros f. induction f as [f IHf] using (well_founded_induction smaller_wf). intros E1 E2 E3 E4. constructor. intros f' B.
    assert (C : lower f' f \/ (fused_count f' = a /\ relu_count f' = b /\ min_total f' = c /\ shape_total f' = d) /\ smaller f' f).
    { destruct B as [L|[N S]]; [left; exact L|]. unfold lower, no_higher in *. subst. destruct (Nat.eq_dec (fused_count f') (fused_count f)); [|left; lia].
      destruct (Nat.eq_dec (relu_count f') (relu_count f)); [|left; lia]. destruct (Nat.eq_dec (min_total f') (min_total f)); [|left; lia].
      destruct (Nat.eq_dec (shape_total f') (shape_total f)); [right; auto|left; lia]. }
    destruct C as [[L|[E [L|[E' [L|[E'' L]]]]]]|[(Q1 & Q2 & Q3 & Q4) S]].
    - eapply IHa; eauto; lia.
    - eapply IHb; eauto; lia.
    - eapply IHc; eauto; lia.
    - eapply IHd; eauto; lia.
    - apply IHf; auto. }
  intros f. eapply G; eauto.
Qed.

Lemma quants_nothing fresh q elem zero W (tr : (nat -> W) -> instr -> W) co : (forall g d x t, co g (Instr d (TQuantize q) [x] t) = 0) ->
  forall xs k tys g, total _ tr co g (quants fresh q elem zero k xs tys) = 0.
Proof.
  intros Z0. induction xs as [|y xs IH]; intros k tys g; [reflexivity|]. destruct tys as [|t tys]; [reflexivity|].
  unfold quants. cbn [length seq combine map fst snd total i_dst]. fold (quants fresh q elem zero (S k) xs tys). rewrite Z0, IH. reflexivity.
Qed.
Lemma quants_count fresh q elem zero p : p (TQuantize q) = false -> forall xs k tys, count p (quants fresh q elem zero k xs tys) = 0.
Proof.
  intros Z0. induction xs as [|y xs IH]; intros k tys; [reflexivity|]. destruct tys as [|t tys]; [reflexivity|].
  unfold quants. cbn [length seq combine map fst snd]. fold (quants fresh q elem zero (S k) xs tys). rewrite count_cons, IH. cbn [i_op]. rewrite Z0. reflexivity.
Qed.
Ltac counts := unfold fused_count, relu_count; cbn [f_body]; repeat (rewrite count_app || rewrite count_cons); cbn [i_op is_fused is_relu]; repeat match goal with |- context [count ?p []] => change (count p []) with 0 end; try reflexivity; try lia.
Lemma tfl_step_below f f' : verified_before f -> zero_total f = 0 -> opt_step TflPatterns f f' -> zero_total f' = 0 /\ below f' f.
Proof.
  intros V Z0 St. destruct St as [ps pre j mid i post rets tys fresh news T P Fr | ps pre i post rets tys fresh news T P Fr | ps pre j mid i post rets x P A | ps pre i post rets M Mr];
    unfold zero_total in *; cbn [f_body] in *.
  - destruct (ssa_facts _ _ _ _ _ _ _ V) as [N1 N2]. destruct Fr as [FI Fr].
    assert (NF : forall k y, In y post -> ~ In (fresh k) (i_args y)).
    { intros k y Hy Hx. apply (Fr k). right; left. cbn [f_body]. apply Exists_app. right. apply Exists_cons_tl, Exists_app. right. apply Exists_cons_tl, Exists_exists. exists y. split; [auto|right; auto]. }
    assert (NJ : forall k, ~ In (fresh k) (i_args j)).
    { intros k Hx. apply (Fr k). right; left. cbn [f_body]. apply Exists_app. right. constructor. right. auto. }
    assert (ND : forall k, fresh k <> i_dst i).
    { intros k Ek. apply (Fr k). right; left. cbn [f_body]. apply Exists_app. right. apply Exists_cons_tl, Exists_app. right. constructor. left; auto. }
    pose proof (at_operand _ pads (fun _ => []) pre j mid N1 N2) as [OA OB]. pose proof (at_operand _ tree (fun _ => 1) pre j mid N1 N2) as [TA TB].
    pose proof (fun news => total_fused _ sorted_from pads pad_cost (fun _ => []) pre j mid i news post sorted_refl pads_mono pad_cost_mono) as HP.
    pose proof (fun news => total_fused _ sorted_from pads zero_cost (fun _ => []) pre j mid i news post sorted_refl pads_mono zero_cost_mono) as HZ.
    pose proof (fun news => total_fused _ le tree tree_cost (fun _ => 1) pre j mid i news post Nat.le_refl tree_mono tree_cost_mono) as HT.
    pose proof (fun news => total_fused _ le mins min_cost (fun _ => 0) pre j mid i news post Nat.le_refl mins_mono min_cost_mono) as HM.
    pose proof (fun news => total_fused _ eq shapes shape_cost (shape_in ps) pre j mid i news post (@eq_refl _) (fun _ _ _ _ => eq_refl) shape_cost_mono) as HS.
    pose proof (at_operand _ mins (fun _ => 0) pre j mid N1 N2) as [MA MB].
    inversion P as [ | a q b1 a1 x pr d b2 a2 r inner outer Sw | tys0 c axis xs cr d qf r Zr | a q cs c x pr d m si zi so zo r Sp | a q c t qq ff b x pr d m r Fa | ]; subst; cbn [i_op i_dst i_args i_ty] in *.
    + destruct (swap_lengths _ _ _ _ _ _ Sw) as [L1 L2]. destruct (swap_ranks _ _ _ _ _ _ Sw) as (-> & -> & r1 & r2 & R1 & R2 & G1 & G2).
      destruct (use_facts ps pre (Instr q (TPad b1 a1) [x] pr) mid (Instr d (TPad b2 a2) [q] r) post rets V eq_refl) as ((tys & Tj & Kj) & Ki).
      cbn [i_op i_ty i_args op_ok_before op_ok] in Kj, Ki. destruct tys as [|t0 [|? ?]]; try (destruct Kj; fail).
      destruct Kj as (F1 & _). destruct Ki as (F2 & _). destruct (fits_lengths _ _ _ _ F1) as (A1 & A2 & _). destruct (fits_lengths _ _ _ _ F2) as (A3 & A4 & _).
      destruct (attr4 b1 a1 L1 ltac:(congruence)) as [B1 B2]. destruct (attr4 b2 a2 L2 ltac:(congruence)) as [B3 B4].
      assert (C1 : attr_before (pad_attr b1 a1) = b1) by exact B1. assert (C2 : attr_after (pad_attr b1 a1) = a1) by exact B2.
      assert (C3 : attr_before (pad_attr b2 a2) = b2) by exact B3. assert (C4 : attr_after (pad_attr b2 a2) = a2) by exact B4.
      clear B1 B2 B3 B4. rewrite C1, C2, C3, C4 in *.
      set (news := [Instr (fresh 0) (TPad b2 a2) [x] _; Instr d (TPad b1 a1) [fresh 0] r]) in *.
      assert (HN : forall y, In y (map i_dst news) -> y = d \/ (forall k, In k post -> ~ In y (i_args k))).
      { intros y [<-|[<-|[]]]; [right; intros k Hk; apply NF; auto|left; reflexivity]. }
      specialize (HP news HN). specialize (HZ news HN). specialize (HT news HN). specialize (HM news HN). specialize (HS news HN).
      assert (NH : no_higher (Func ps (pre ++ Instr q (TPad b1 a1) [x] pr :: mid ++ news ++ post) rets) (Func ps (pre ++ Instr q (TPad b1 a1) [x] pr :: mid ++ Instr d (TPad b2 a2) [q] r :: post) rets)).
      { split; [unfold news; counts|]. split; [unfold news; counts|]. unfold min_total, shape_total. cbn [f_body f_params]. clear - HM HS. split.
        - apply (Nat.le_trans _ (total _ mins min_cost (fun _ => 0) (pre ++ Instr q (TPad b1 a1) [x] pr :: mid ++ Instr d (TPad b2 a2) [q] r :: post) + 0)); [|lia]. eapply Nat.le_trans; [|apply HM]; [lia|].
          unfold news. cbn [after i_dst]. unfold set_at at 1. rewrite Nat.eqb_refl. apply Nat.le_0_l.
        - apply (Nat.le_trans _ (total _ shapes shape_cost (shape_in ps) (pre ++ Instr q (TPad b1 a1) [x] pr :: mid ++ Instr d (TPad b2 a2) [q] r :: post) + 0)); [|lia]. eapply Nat.le_trans; [|apply HS]; [lia|].
          unfold news. cbn [after i_dst]. unfold set_at at 1. rewrite Nat.eqb_refl. reflexivity. }
      cut (total _ pads zero_cost (fun _ => []) (pre ++ Instr q (TPad b1 a1) [x] pr :: mid ++ news ++ post) = 0 /\ smaller (Func ps (pre ++ Instr q (TPad b1 a1) [x] pr :: mid ++ news ++ post) rets) (Func ps (pre ++ Instr q (TPad b1 a1) [x] pr :: mid ++ Instr d (TPad b2 a2) [q] r :: post) rets));
        [intros [? ?]; split; [assumption|right; auto]|]. clear NH HM HS MA MB. unfold smaller, pad_total, tree_total. cbn [f_body].
      set (G := after _ pads (fun _ => []) (pre ++ _ :: mid)) in *. set (H := after _ tree (fun _ => 1) (pre ++ _ :: mid)) in *.
      assert (OX : G x = after _ pads (fun _ => []) pre x) by (apply OB; left; auto). rewrite (pads_ranked _ (Instr q (TPad b1 a1) [x] pr) r1 x R1 eq_refl), <- OX in OA.
      remember (G x) as X eqn:EX.
      assert (PI : pads G (Instr d (TPad b2 a2) [q] r) = r2 :: r1 :: X) by (unfold pads; cbn [i_op i_args]; rewrite R2, OA; reflexivity).
      set (g1 := set_at G (fresh 0) (r2 :: X)).
      assert (E0 : forall w, pads G (Instr (fresh 0) (TPad b2 a2) [x] w) = r2 :: X) by (intros w; unfold pads; cbn [i_op i_args]; rewrite R2, <- EX; reflexivity).
      assert (Ed : pads g1 (Instr d (TPad b1 a1) [fresh 0] r) = r1 :: r2 :: X) by (unfold pads; cbn [i_op i_args]; rewrite R1; unfold g1, set_at; rewrite Nat.eqb_refl; reflexivity).
      assert (AD : after _ pads G news d = r1 :: r2 :: X).
      { unfold news. cbn [after i_dst]. rewrite E0. fold g1. rewrite Ed. unfold set_at. rewrite Nat.eqb_refl. reflexivity. }
      assert (CI : zero_cost G (Instr d (TPad b2 a2) [q] r) = zeros (r2 :: r1 :: X) - 1) by (unfold zero_cost; cbn [i_op i_args]; rewrite R2, OA; reflexivity).
      assert (CZ : zero_cost G (Instr d (TPad b2 a2) [q] r) = 0).
      { change (pre ++ ?j :: mid ++ ?i :: post) with (pre ++ (j :: mid) ++ i :: post) in Z0. rewrite app_assoc, (total_app _ pads zero_cost) in Z0. cbn [total] in Z0. fold G in Z0. lia. }
      assert (Zs : zeros (r2 :: r1 :: X) <= 1) by lia.
      assert (LT : r2 < r1).
      { destruct (Nat.eq_dec r2 1) as [->|]; [|lia]. destruct (Nat.eq_dec r1 1) as [->|]; [|lia]. exfalso. unfold zeros in Zs. cbn [filter Nat.eqb length] in Zs. lia. }
      assert (SF : sorted_from (r1 :: r2 :: X) (r2 :: r1 :: X) /\ S (inversions (r1 :: r2 :: X)) = inversions (r2 :: r1 :: X)).
      { cbn [inversions filter]. destruct (Nat.ltb_spec r1 r2); [lia|]. destruct (Nat.ltb_spec r2 r1); [|lia]. cbn [length]. split; [|lia]. split; [apply perm_swap|].
        cbn [inversions filter]. destruct (Nat.ltb_spec r1 r2); [lia|]. destruct (Nat.ltb_spec r2 r1); [|lia]. cbn [length]. lia. }
      destruct SF as [SF IV]. rewrite AD, PI in HP, HZ. specialize (HP SF). specialize (HZ SF).
      assert (TZ : total _ pads zero_cost G news = 0).
      { unfold news. cbn [total i_dst]. rewrite E0. fold g1. unfold zero_cost at 1. cbn [i_op i_args]. rewrite R2, <- EX. unfold zero_cost. cbn [i_op i_args]. rewrite R1.
        unfold g1, set_at. rewrite Nat.eqb_refl. clear - Zs. unfold zeros in *. cbn [filter] in *. destruct (Nat.eqb r1 1), (Nat.eqb r2 1); cbn [length] in *; lia. }
      assert (TP : total _ pads pad_cost G news = 3 ^ inversions (r2 :: X) + 3 ^ inversions (r1 :: r2 :: X)).
      { unfold news. cbn [total i_dst]. rewrite E0. fold g1. unfold pad_cost at 1. cbn [i_op i_args]. rewrite R2, <- EX. unfold pad_cost. cbn [i_op i_args]. rewrite R1.
        unfold g1 at 1, set_at. rewrite Nat.eqb_refl. lia. }
      assert (CP : pad_cost G (Instr d (TPad b2 a2) [q] r) = 3 * 3 ^ inversions (r1 :: r2 :: X)).
      { unfold pad_cost. cbn [i_op i_args]. rewrite R2, OA, <- IV. apply Nat.pow_succ_r'. }
      assert (B : 3 ^ inversions (r2 :: X) <= 3 ^ inversions (r1 :: r2 :: X) /\ 1 <= 3 ^ inversions (r1 :: r2 :: X)).
      { split; [apply Nat.pow_le_mono_r; [lia|]; cbn [inversions]; lia|]. pose proof (Nat.pow_nonzero 3 (inversions (r1 :: r2 :: X)) ltac:(lia)). lia. }
      assert (T1 : forall h w z, tree h (Instr d (TPad w z) [fresh 0] r) = 1) by reflexivity.
      assert (TD : after _ tree H news d <= tree H (Instr d (TPad b2 a2) [q] r)).
      { unfold news. cbn [after i_dst]. unfold set_at at 1. rewrite Nat.eqb_refl. apply le_n. }
      specialize (HT TD). assert (TN : total _ tree tree_cost H news = 0) by reflexivity. assert (TI : tree_cost H (Instr d (TPad b2 a2) [q] r) = 0) by reflexivity.
      split; [lia|]. right. split.
      * unfold news. repeat (rewrite same_count_app || rewrite same_count_cons). cbn [i_op is_same_conv]. cbn. lia.
      * remember (3 ^ inversions (r1 :: r2 :: X)) as W. remember (3 ^ inversions (r2 :: X)) as W'. clear - HP HT TN TI TP CP B. lia.
    + set (Q := quants fresh qf (t_elem r) (t_zero r) 0 xs tys) in *.
      set (cc := Instr d (TConcat axis) (map fresh (seq 0 (length xs))) (Ty (t_shape cr) (t_elem r) (t_zero r))) in *.
      change (map _ (combine (seq 0 (length xs)) (combine xs tys))) with Q in *.
      assert (HN : forall y, In y (map i_dst (Q ++ [cc])) -> y = d \/ (forall k, In k post -> ~ In y (i_args k))).
      { intros y Hy. rewrite map_app, in_app_iff in Hy. destruct Hy as [Hy|[<-|[]]]; [|left; reflexivity]. apply quants_dst in Hy. destruct Hy as (k & _ & ->). right. intros y Hy. apply NF; auto. }
      specialize (HP _ HN). specialize (HZ _ HN). specialize (HT _ HN). specialize (HM _ HN). specialize (HS _ HN).
      set (F' := Func ps (pre ++ _ :: mid ++ (Q ++ [cc]) ++ post) rets). set (F := Func ps (pre ++ _ :: mid ++ Instr d (TQuantize qf) [c] r :: post) rets).
      destruct (use_facts ps pre (Instr c (TConcat axis) xs cr) mid (Instr d (TQuantize qf) [c] r) post rets V eq_refl) as (_ & Ki). cbn [i_op i_ty i_args op_ok_before op_ok] in Ki.
      assert (QC : forall p, p (TQuantize qf) = false -> count p Q = 0) by (intros p Hp; apply quants_count; exact Hp).
      assert (NH : no_higher F' F).
      { split; [unfold F', F; counts; rewrite (QC is_fused) by reflexivity; cbn; lia|]. split; [unfold F', F; counts; rewrite (QC is_relu) by reflexivity; cbn; lia|].
        unfold min_total, shape_total, F', F. cbn [f_body f_params]. split.
        - rewrite after_app, (total_app _ mins min_cost Q) in HM. unfold Q at 3 in HM. rewrite (quants_nothing _ _ _ _ _ mins min_cost) in HM by reflexivity.
          cbn [after i_dst cc] in HM. unfold set_at at 1 in HM. rewrite Nat.eqb_refl in HM. specialize (HM (Nat.le_0_l _)). cbn [total] in HM.
          assert (C0 : forall g, min_cost g cc = 0) by (intros g; unfold min_cost; cbn [i_args i_op cc is_relu]; destruct (map fresh _) as [|? [|? ?]]; reflexivity). rewrite C0 in HM. lia.
        - rewrite after_app, (total_app _ shapes shape_cost Q) in HS. unfold Q at 3 in HS. rewrite (quants_nothing _ _ _ _ _ shapes shape_cost) in HS by reflexivity.
          cbn [after i_dst cc] in HS. unfold set_at at 1 in HS. rewrite Nat.eqb_refl in HS. assert (E : shapes (after _ shapes (after _ shapes (shape_in ps) (pre ++ Instr c (TConcat axis) xs cr :: mid)) Q) cc = t_shape r) by (cbn; symmetry; apply Ki).
          specialize (HS E). cbn [total] in HS.
          assert (C0 : forall g, shape_cost g cc = 0) by reflexivity. rewrite C0 in HS. lia. }
      cut (total _ pads zero_cost (fun _ => []) (f_body F') = 0 /\ smaller F' F); [intros [? ?]; split; [assumption|right; auto]|].
      clear NH HM HS MA MB. unfold smaller, pad_total, tree_total. unfold F', F. cbn [f_body]. clear F' F.
      set (G := after _ pads (fun _ => []) (pre ++ _ :: mid)) in *. set (H := after _ tree (fun _ => 1) (pre ++ _ :: mid)) in *.
      assert (Hx : map H xs = map (after _ tree (fun _ => 1) pre) xs) by (apply map_ext_in; exact TB). rewrite (tree_concat _ (Instr c (TConcat axis) xs cr) axis eq_refl) in TA. cbn [i_args] in TA. rewrite <- Hx in TA.
      assert (Lt : length tys = length xs) by (apply (lookups_length _ _ _ T)).
      assert (NX : forall y k, In y xs -> y <> fresh k) by (intros y k Hy ->; apply (NJ k); auto).
      destruct (quants_tree fresh qf (t_elem r) (t_zero r) FI xs 0 tys H Lt NX) as [Q1 Q2]. fold Q in Q1, Q2.
      destruct (quants_none fresh qf (t_elem r) (t_zero r) pad_cost pad_cost_none xs 0 tys G) as [QP QS]. fold Q in QP, QS.
      destruct (quants_none fresh qf (t_elem r) (t_zero r) zero_cost zero_cost_none xs 0 tys G) as [QZ _]. fold Q in QZ.
      rewrite !after_app in HP, HZ, HT. rewrite (total_app _ pads pad_cost Q) in HP. rewrite (total_app _ pads zero_cost Q) in HZ. rewrite (total_app _ tree tree_cost Q) in HT.
      assert (SP : sorted_from (after _ pads (after _ pads G Q) [cc] d) (pads G (Instr d (TQuantize qf) [c] r))).
      { cbn [after i_dst cc]. unfold set_at. rewrite Nat.eqb_refl. unfold pads. cbn [i_op rank spatial channel]. apply sorted_refl. }
      specialize (HP SP). specialize (HZ SP).
      assert (TD : after _ tree (after _ tree H Q) [cc] d = S (list_sum (map H xs))).
      { cbn [after i_dst cc]. unfold set_at. rewrite Nat.eqb_refl. unfold tree at 1. cbn [i_op i_args cc]. rewrite Q2. reflexivity. }
      assert (TI : tree H (Instr d (TQuantize qf) [c] r) = S (list_sum (map H xs))) by (unfold tree; cbn [i_op i_args]; exact TA).
      rewrite TD, TI in HT. specialize (HT (le_n _)).
      assert (TC : tree_cost H (Instr d (TQuantize qf) [c] r) = S (list_sum (map H xs))) by (unfold tree_cost; cbn [i_op i_args]; exact TA).
      assert (PC : total _ pads pad_cost (after _ pads G Q) [cc] = 0 /\ total _ pads zero_cost (after _ pads G Q) [cc] = 0 /\ total _ tree tree_cost (after _ tree H Q) [cc] = 0).
      { cbn [total]. rewrite (pad_cost_none (after _ pads G Q) cc), (zero_cost_none (after _ pads G Q) cc) by reflexivity. auto. }
      destruct PC as (PC1 & PC2 & PC3).
      split; [lia|]. right. split.
      * repeat (rewrite same_count_app || rewrite same_count_cons). rewrite QS. cbn [i_op is_same_conv cc]. cbn. lia.
      * left. lia.
    + set (news := [Instr d _ [x] r]) in *.
      assert (HN : forall y, In y (map i_dst news) -> y = d \/ (forall k, In k post -> ~ In y (i_args k))) by (intros y [<-|[]]; left; reflexivity).
      specialize (HZ news HN). specialize (HM news HN).
      set (G := after _ pads (fun _ => []) (pre ++ _ :: mid)) in *. set (H := after _ mins (fun _ => 0) (pre ++ _ :: mid)) in *.
      split.
      * unfold news in HZ at 1. cbn [after i_dst] in HZ. unfold set_at in HZ. rewrite Nat.eqb_refl in HZ. specialize (HZ (sorted_refl _)). cbn [total news] in HZ.
        rewrite !zero_cost_none in HZ by reflexivity. lia.
      * left. assert (MX : H x = after _ mins (fun _ => 0) pre x) by (apply MB; left; auto). unfold mins in MA at 1. cbn [i_op i_args] in MA. fold mins in MA. rewrite <- MX in MA.
        unfold news in HM at 1. cbn [after i_dst] in HM. unfold set_at in HM. rewrite Nat.eqb_refl in HM. specialize (HM (Nat.le_0_l _)). unfold news in HM at 2. cbn [total] in HM. unfold min_cost in HM at 2 4. cbn [i_op i_args is_relu] in HM. rewrite MA in HM.
        unfold lower. right. split; [unfold news; counts|]. right. split; [unfold news; counts|]. left. unfold min_total. cbn [f_body]. lia.
    + set (news := [Instr d _ [x] r]) in *.
      assert (HN : forall y, In y (map i_dst news) -> y = d \/ (forall k, In k post -> ~ In y (i_args k))) by (intros y [<-|[]]; left; reflexivity).
      specialize (HZ news HN). set (G := after _ pads (fun _ => []) (pre ++ _ :: mid)) in *.
      split.
      * unfold news in HZ at 1. cbn [after i_dst] in HZ. unfold set_at in HZ. rewrite Nat.eqb_refl in HZ. specialize (HZ (sorted_refl _)). cbn [total news] in HZ.
        assert (OX : G x = after _ pads (fun _ => []) pre x) by (apply OB; left; auto).
        assert (CJ : zero_cost (after _ pads (fun _ => []) pre) (Instr q (TCompute (CConv c t qq ff b)) [x] pr) = 0).
        { pose proof Z0 as Z1. rewrite (total_app _ pads zero_cost) in Z1. cbn [total] in Z1. lia. }
        assert (CN : zero_cost G (Instr d (TCompute (CConv c (ConvLowerModel.with_faf ConvLowerSpec.RELU t) qq ff b)) [x] r) = 0).
        { rewrite <- CJ. unfold zero_cost. cbn [i_op i_args rank spatial channel]. rewrite OX. reflexivity. }
        rewrite CN in HZ. lia.
      * left. unfold lower. right. split; [unfold news; counts|]. left. unfold news. counts.
  - destruct Fr as [FI Fr].
    assert (NF : forall k y, In y post -> ~ In (fresh k) (i_args y)).
    { intros k y Hy Hx. apply (Fr k). right; left. cbn [f_body]. apply Exists_app. right. apply Exists_cons_tl, Exists_exists. exists y. split; [auto|right; auto]. }
    assert (NI : forall k, ~ In (fresh k) (i_args i)).
    { intros k Hx. apply (Fr k). right; left. cbn [f_body]. apply Exists_app. right. constructor. right. auto. }
    pose proof (fun news => total_replace _ sorted_from pads zero_cost sorted_refl pads_mono zero_cost_mono (fun _ => []) pre i news post) as HZ'.
    pose proof (fun news => total_replace _ le mins min_cost Nat.le_refl mins_mono min_cost_mono (fun _ => 0) pre i news post) as HM.
    pose proof (fun news => total_replace _ eq shapes shape_cost (@eq_refl _) (fun _ _ _ _ => eq_refl) shape_cost_mono (shape_in ps) pre i news post) as HS.
    assert (SH : forall k x t, nth_error (i_args i) k = Some x -> nth_error tys k = Some t -> after _ shapes (shape_in ps) pre x = t_shape t).
    { intros k x t Ex Et. rewrite (after_shapes pre ps) by reflexivity. clear - T Ex Et. revert tys k T Ex Et. induction (i_args i) as [|y l IH]; intros tys k T Ex Et; [destruct k; discriminate|].
      cbn [lookups] in T. destruct (lookup (scope ps pre) y) as [ty|] eqn:L; [|discriminate]. destruct (lookups (scope ps pre) l) as [tl|] eqn:L2; [|discriminate]. injection T as <-.
      destruct k as [|k]; cbn in Ex, Et; [|eapply IH; eauto]. injection Ex as <-. injection Et as <-. unfold shape_in. rewrite L. reflexivity. }
    assert (NW : (exists a1 a2 d f faf s z args r, tys = [a1; a2] /\ i = Instr d (TBinary f faf s z) args r /\
        ((exists ac m, faf = Some ac /\ news = [Instr (fresh 0) (TBinary f None s z) args r; Instr d (TCompute (CAct m ac s z s z)) [fresh 0] r]) \/
         (exists x1 x2 a x y1 y2, args = [x1; x2] /\ news = [Instr (fresh 0) TBroadcast [x] (Ty (t_shape r) (t_elem a) (t_zero a)); Instr d (TBinary f faf s z) [y1; y2] r] /\
            (t_shape a1 <> t_shape r /\ y1 = fresh 0 /\ y2 = x2 \/ t_shape a2 <> t_shape r /\ y1 = x1 /\ y2 = fresh 0)))) \/
      exists d c o1 args r t0 o2, i = Instr d o1 args r /\ is_same_conv o1 = true /\ rank o1 = None /\
        news = [Instr (fresh 0) (same_pad_op c) args t0; Instr d o2 [fresh 0] r] /\ is_same_conv o2 = false /\ rank o2 = None /\ is_relu o2 = false /\ is_fused o2 = false /\
        (forall g, mins g (Instr d o1 args r) = 0) /\ (forall g, shape_cost g (Instr d o2 [fresh 0] r) = 0) /\ (forall g, mins g (Instr d o2 [fresh 0] r) = 0)).
    { assert (UN : forall a r, unequal_shape a r = true -> t_shape a <> t_shape r).
      { intros a r U E. unfold unequal_shape in U. rewrite E in U. assert (R : PatternModel.has_same_shape (map Some (t_shape r)) (map Some (t_shape r)) = true); [|rewrite R in U; discriminate].
        clear. unfold PatternModel.has_same_shape. rewrite Nat.eqb_refl. cbn [andb]. induction (t_shape r) as [|x l IH]; cbn [map combine forallb fst snd]; [reflexivity|]. rewrite Nat.eqb_refl. exact IH. }
      inversion P as [a d c t q f b args r IS|a d c t q f b args r IS I8|a1 a2 d f ac s z args r m|a1 a2 d f faf s z x1 x2 r U|a1 a2 d f faf s z x1 x2 r U]; subst.
      - right. do 7 eexists. split; [reflexivity|]. split; [exact IS|]. split; [reflexivity|]. split; [reflexivity|]. split; [|repeat split; reflexivity].
        unfold valid_conv. cbn [is_same_conv]. destruct (ConvLowerModel.c_in c) as [[h w] dd], (same_pads c) as [[? ?] [nh nw]]. reflexivity.
      - right. do 7 eexists. split; [reflexivity|]. split; [exact IS|]. split; [reflexivity|]. split; [reflexivity|]. split; [|repeat split; reflexivity].
        unfold valid_conv. cbn [is_same_conv]. destruct (ConvLowerModel.c_in c) as [[h w] dd], (same_pads c) as [[? ?] [nh nw]]. reflexivity.
      - left. do 9 eexists. split; [reflexivity|]. split; [reflexivity|]. left. do 2 eexists. split; reflexivity.
      - left. do 9 eexists. split; [reflexivity|]. split; [reflexivity|]. right. do 6 eexists. split; [reflexivity|]. split; [reflexivity|]. left. auto.
      - left. do 9 eexists. split; [reflexivity|]. split; [reflexivity|]. right. do 6 eexists. split; [reflexivity|]. split; [reflexivity|]. right. auto. }
    destruct NW as [(a1 & a2 & d & f & faf & s & z & args & r & -> & -> & [(ac & m & -> & ->)|(x1 & x2 & a & x & y1 & y2 & -> & -> & U)])|(d & c & o1 & args & r & t0 & o2 & -> & S1 & R1 & -> & S2 & R2 & F1 & F2 & M1 & B1 & M2)]; [| |].
    1: { clear P. set (news := [Instr _ _ _ _; _]) in *.
      assert (HN : forall y, In y (map i_dst news) -> y = d \/ (forall k, In k post -> ~ In y (i_args k))).
      { intros y [<-|[<-|[]]]; [right; intros k Hk; apply NF; auto|left; reflexivity]. }
      split.
      - specialize (HZ' news HN). unfold news in HZ' at 1. cbn [after i_dst] in HZ'. unfold set_at at 1 in HZ'. rewrite Nat.eqb_refl in HZ'. specialize (HZ' (sorted_refl _)). cbn [total news] in HZ'.
        rewrite !zero_cost_none in HZ' by reflexivity. lia.
      - left. left. unfold news. counts. }
    1: { clear P. set (news := [Instr _ _ _ _; _]) in *.
      assert (HN : forall y, In y (map i_dst news) -> y = d \/ (forall k, In k post -> ~ In y (i_args k))).
      { intros y [<-|[<-|[]]]; [right; intros k Hk; apply NF; auto|left; reflexivity]. }
      specialize (HZ' news HN). unfold news in HZ' at 1. cbn [after i_dst] in HZ'. unfold set_at at 1 in HZ'. rewrite Nat.eqb_refl in HZ'. specialize (HZ' (sorted_refl _)). cbn [total news] in HZ'.
      rewrite !zero_cost_none in HZ' by reflexivity. split; [lia|].
      specialize (HM news HN). unfold news in HM at 1. cbn [after i_dst] in HM. unfold set_at at 1 in HM. rewrite Nat.eqb_refl in HM. specialize (HM (Nat.le_refl _)).
      specialize (HS news HN). unfold news in HS at 1. cbn [after i_dst] in HS. unfold set_at at 1 in HS. rewrite Nat.eqb_refl in HS. specialize (HS eq_refl).
      pose proof (SH 0 x1 a1 eq_refl eq_refl) as X1. pose proof (SH 1 x2 a2 eq_refl eq_refl) as X2.
      assert (N1 : x1 <> fresh 0) by (intros ->; apply (NI 0); left; auto). assert (N2 : x2 <> fresh 0) by (intros ->; apply (NI 0); right; left; auto).
      left. right. split; [unfold news; counts|]. right. split; [unfold news; counts|].
      assert (ML : min_total (Func ps (pre ++ news ++ post) rets) <= min_total (Func ps (pre ++ Instr d (TBinary f faf s z) [x1; x2] r :: post) rets)).
      { unfold min_total. cbn [f_body]. eapply Nat.le_trans; [|eapply Nat.le_trans; [exact HM|]]; [lia|]. unfold news. cbn [total]. unfold min_cost at 2 3. cbn [i_op i_args is_relu]. lia. }
      assert (SL : shape_total (Func ps (pre ++ news ++ post) rets) < shape_total (Func ps (pre ++ Instr d (TBinary f faf s z) [x1; x2] r :: post) rets)); [|lia].
      unfold shape_total. cbn [f_body f_params]. set (G := after _ shapes (shape_in ps) pre) in *.
      assert (CN : total _ shapes shape_cost G news + 1 <= shape_cost G (Instr d (TBinary f faf s z) [x1; x2] r)); [|lia].
      unfold news. cbn [total]. unfold shape_cost. cbn [i_op i_args i_dst i_ty]. rewrite X1, X2.
      assert (RR : other_shape (t_shape r) (t_shape r) = 0) by (unfold other_shape; destruct (list_eq_dec _ _ _); congruence).
      destruct U as [(U & -> & ->)|(U & -> & ->)]; unfold set_at; rewrite Nat.eqb_refl;
        [destruct (Nat.eqb_spec x2 (fresh 0)); [congruence|rewrite X2]|destruct (Nat.eqb_spec x1 (fresh 0)); [congruence|rewrite X1]]; unfold shapes; cbn [i_ty t_shape]; rewrite RR;
        unfold other_shape; repeat destruct (list_eq_dec _ _ _); try contradiction; lia. }
    set (news := [Instr (fresh 0) (same_pad_op c) args t0; Instr d o2 [fresh 0] r]) in *.
    assert (HN : forall y, In y (map i_dst news) -> y = d \/ (forall k, In k post -> ~ In y (i_args k))).
    { intros y [<-|[<-|[]]]; [right; intros k Hk; apply NF; auto|left; reflexivity]. }
    pose proof (total_replace _ sorted_from pads zero_cost sorted_refl pads_mono zero_cost_mono (fun _ => []) pre (Instr d o1 args r) news post HN) as HZ.
    set (G := after _ pads (fun _ => []) pre) in *.
    assert (CZ : zero_cost G (Instr d o1 args r) = 0).
    { rewrite (total_app _ pads zero_cost) in Z0. cbn [total] in Z0. fold G in Z0. lia. }
    assert (NH : no_higher (Func ps (pre ++ news ++ post) rets) (Func ps (pre ++ Instr d o1 args r :: post) rets)).
    { assert (FR : is_fused (same_pad_op c) = false /\ is_relu (same_pad_op c) = false /\ (forall g x t, shape_cost g (Instr x (same_pad_op c) args t) = 0)) by (unfold same_pad_op; destruct (same_pads c) as [[[? ?] [? ?]] ?]; repeat split; reflexivity).
      destruct FR as (FR1 & FR2 & FR3).
      split; [unfold fused_count, news; cbn [f_body]; repeat (rewrite count_app || rewrite count_cons); cbn [i_op]; rewrite F2, FR1; cbn; lia|].
      split; [unfold relu_count, news; cbn [f_body]; repeat (rewrite count_app || rewrite count_cons); cbn [i_op]; rewrite F1, FR2; cbn; lia|].
      specialize (HM news HN). specialize (HS news HN). unfold news in HM at 1, HS at 1. cbn [after i_dst] in HM, HS. unfold set_at at 1 in HM. unfold set_at at 1 in HS. rewrite Nat.eqb_refl in HM, HS.
      specialize (HS eq_refl). unfold min_total, shape_total. cbn [f_body f_params]. split.
      - assert (MZ : forall g, mins g (Instr d o2 [fresh 0] r) = 0) by (intros g; unfold mins; cbn [i_op i_args]; apply (M2 g)).
        rewrite M1, MZ in HM. specialize (HM (le_n _)). assert (MN : total _ mins min_cost (after _ mins (fun _ => 0) pre) news = 0); [|lia].
        unfold news. cbn [total]. unfold min_cost. cbn [i_op i_args]. rewrite F1, FR2. destruct args as [|? [|? ?]]; reflexivity.
      - assert (MN : total _ shapes shape_cost (after _ shapes (shape_in ps) pre) news = 0); [|lia].
        unfold news. cbn [total]. rewrite FR3, B1. reflexivity. }
    assert (SP : is_same_conv (same_pad_op c) = false) by (unfold same_pad_op; destruct (same_pads c) as [[[? ?] [? ?]] ?]; reflexivity).
    split.
    + assert (SF : sorted_from (after _ pads G news d) (pads G (Instr d o1 args r))).
      { unfold news. cbn [after i_dst]. unfold set_at at 1. rewrite Nat.eqb_refl. rewrite (pads_unranked _ (Instr d o2 [fresh 0] r) R2), (pads_unranked _ (Instr d o1 args r) R1). apply sorted_refl. }
      specialize (HZ SF).
      assert (TZ : total _ pads zero_cost G news = 0); [|lia].
      unfold news. cbn [total]. rewrite (zero_cost_none _ (Instr d o2 [fresh 0] r)) by auto. rewrite !Nat.add_0_r.
      unfold zero_cost in *. cbn [i_op i_args] in *. rewrite R1, S1 in CZ. destruct args as [|x [|? ?]]; auto. rewrite SP. destruct (rank (same_pad_op c)) as [k|]; auto.
      unfold zeros in *. cbn [filter]. destruct (Nat.eqb k 1); cbn [length]; lia.
    + right. split; [exact NH|]. left. cbn [f_body]. unfold news. repeat (rewrite same_count_app || rewrite same_count_cons). cbn [i_op]. rewrite S1, S2, SP. cbn. lia.
  - exfalso. inversion P.
  - pose proof (total_drop _ sorted_from pads zero_cost sorted_refl pads_mono zero_cost_mono (fun _ => []) pre i post M) as HZ.
    pose proof (total_drop _ sorted_from pads pad_cost sorted_refl pads_mono pad_cost_mono (fun _ => []) pre i post M) as HP.
    pose proof (total_drop _ le tree tree_cost Nat.le_refl tree_mono tree_cost_mono (fun _ => 1) pre i post M) as HT.
    pose proof (total_drop _ le mins min_cost Nat.le_refl mins_mono min_cost_mono (fun _ => 0) pre i post M) as HM.
    pose proof (total_drop _ eq shapes shape_cost (@eq_refl _) (fun _ _ _ _ => eq_refl) shape_cost_mono (shape_in ps) pre i post M) as HS.
    split; [lia|]. right. split.
    + unfold no_higher, fused_count, relu_count, min_total, shape_total. cbn [f_body f_params]. rewrite !count_app, !count_cons. repeat split; lia.
    + unfold smaller, pad_total, tree_total. cbn [f_body]. rewrite !same_count_app, same_count_cons, !app_length. cbn [length]. destruct (is_same_conv (i_op i)); lia.
Qed.

(** A pad by nothing. *)
Definition pads_nothing (o : fop) : Prop := exists b a, o = TPad b a /\ Forall (eq 0) b /\ Forall (eq 0) a.
Lemma rank_one o tys r : op_ok_before o tys r -> rank o = Some 1 -> pads_nothing o.
Proof.
  unfold rank. destruct o as [ |b a| | | | | | | | | | | | | | | | | | ]; try discriminate. cbn [spatial channel op_ok_before op_ok]. intros K.
  destruct (PatternModel.has_only_spatial_padding (pad_attr b a)) eqn:E1; destruct (PatternModel.has_only_channel_padding (pad_attr b a)) eqn:E2; try discriminate. intros _.
  destruct tys as [|t [|? ?]]; try (destruct K; fail). destruct K as (F & _). destruct (fits_lengths _ _ _ _ F) as (A1 & A2 & _).
  exists b, a. split; [reflexivity|].
  unfold PatternModel.has_only_spatial_padding in E1. destruct (Nat.eqb_spec (length (pad_attr b a)) 8) as [L|]; [|discriminate]. cbn [negb] in E1.
  unfold PatternModel.has_only_channel_padding in E2. rewrite L in E2. cbn [negb Nat.eqb] in E2.
  assert (L4 : length b = 4).
  { unfold pad_attr in L. assert (E : forall l : list (nat * nat), length (flat_map (fun p => [Z.of_nat (fst p); Z.of_nat (snd p)]) l) = 2 * length l) by (intros l; induction l as [|x l IH]; cbn; auto; cbn in IH; lia).
    rewrite E, combine_length in L. lia. }
  assert (L4' : length a = 4) by congruence. clear - E1 E2 L4 L4'.
  do 4 (destruct b as [|? b]; [discriminate|]). destruct b; [|discriminate]. do 4 (destruct a as [|? a]; [discriminate|]). destruct a; [|discriminate].
  unfold PatternModel.pv, pad_attr in E1, E2. cbn [combine flat_map app fst snd Nat.mul Nat.add nth] in E1, E2. rewrite !andb_true_iff, !Z.eqb_eq in E1, E2.
  split; repeat constructor; lia.
Qed.
Lemma no_zero_pads f : verified_before f -> (forall i, In i (f_body f) -> ~ pads_nothing (i_op i)) -> zero_total f = 0.
Proof.
  intros (_ & V & _) H. unfold zero_total. revert V H. generalize (f_params f).
  assert (G : forall body sc g, verified_body_before sc body -> (forall i, In i body -> ~ pads_nothing (i_op i)) -> (forall x, zeros (g x) = 0) -> total _ pads zero_cost g body = 0).
  { induction body as [|i body IH]; intros sc g V H Hg; [reflexivity|]. cbn [verified_body_before] in V. destruct V as (_ & (tys & _ & K) & V). cbn [total].
    assert (R : rank (i_op i) <> Some 1) by (intros R; apply (H i (or_introl eq_refl)); apply (rank_one _ _ _ K R)).
    assert (Rz : forall r l, rank (i_op i) = Some r -> zeros l = 0 -> zeros (r :: l) = 0).
    { intros r l Er El. unfold zeros in *. cbn [filter]. destruct (Nat.eqb_spec r 1) as [->|]; [congruence|exact El]. }
    rewrite (IH _ _ V); [|intros k Hk; apply H; right; auto|].
    - unfold zero_cost. destruct (i_args i) as [|x [|? ?]]; auto. destruct (rank (i_op i)) as [r|] eqn:Er; [rewrite (Rz r) by auto; auto|]. destruct (is_same_conv _); auto. rewrite Hg. auto.
    - intros x. unfold set_at. destruct (Nat.eqb x (i_dst i)); auto. unfold pads. destruct (rank (i_op i)) as [r|] eqn:Er; auto. destruct (i_args i) as [|y [|? ?]]; auto. }
  intros sc V H. apply (G _ sc); auto.
Qed.
(** TFLPatterns terminates on every function without a pad by nothing, whatever the patterns add (the pads of SAME convolutions may be such pads). *)
Theorem C88_tfl_patterns_terminate : forall f, verified_before f -> (forall i, In i (f_body f) -> ~ pads_nothing (i_op i)) -> Acc (fun f' f => opt_step TflPatterns f f') f.
Proof.
  intros f V H. pose proof (no_zero_pads f V H) as Z0. clear H. revert V Z0. induction f as [f IH] using (well_founded_induction below_wf). intros V Z0. constructor. intros f' St.
  destruct (tfl_step_below f f' V Z0 St) as [Z1 S]. apply IH; auto. apply (step_verified TflPatterns f f' V St).
Qed.
(** So what TFLPatterns leaves is what the lowering accepts. *)
Theorem C88_tfl_patterns_finish : forall f f', verified_before f -> clos_refl_trans _ (opt_step TflPatterns) f f' -> finished TflPatterns f' -> verified f'.
Proof.
  intros f f' V St Fi. destruct (zeros_sized (f_params f)) as (inputs & Sz).
  assert (V' : verified_before f').
  { apply (C88_passes_preserve f f' inputs V); [|exact Sz]. clear - St. induction St as [x y S|x|x y z _ IH1 _ IH2]; [apply rt_step; exists TflPatterns; exact S|apply rt_refl|eapply rt_trans; eauto]. }
  apply C88_ready_for_lowering; [exact V'|]. apply (C88_tfl_normal_form f' V' Fi).
Qed.
