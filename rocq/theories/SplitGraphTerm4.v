(** C96, proofs: no step of the second phase makes an operation that the first phase would split. *)
From Coq Require Import Wf_nat.
From Verif Require Import Base ConvSpec OpSplitModel OpSplitSpec SplitNetModel SplitNetSpec SplitGraphModel SplitGraphSpec SplitGraphProofs SplitGraphTerm SplitGraphTerm2 SplitGraphTerm3.
Local Open Scope nat_scope.

Section Starts.
Context {P : Type}.
Definition bad (d : node P) : bool := n_start d && negb (n_label d) && is_split_op (n_op d).
Lemma bad_length (f : graph P) : starts f = length (filter bad (g_body f)).
Proof. reflexivity. Qed.
Lemma filter_none {A} (q : A -> bool) l : (forall m, In m l -> q m = false) -> filter q l = [].
Proof. induction l as [|m l IH]; intros K; [reflexivity|]. cbn [filter]. rewrite K by (left; auto). apply IH. intros; apply K; right; auto. Qed.
Lemma starts_replace (f : graph P) x news : (forall m, In m news -> bad m = false) -> starts (replace f x news) <= starts f.
Proof.
  intros K. rewrite !bad_length. unfold replace. cbn [g_body]. induction (g_body f) as [|m l IH]; [cbn; auto|].
  cbn [flat_map]. rewrite filter_app, app_length. cbn [filter]. destruct (Nat.eqb (n_dst m) x).
  - rewrite (filter_none bad news K). cbn [length]. destruct (bad m); cbn [length]; lia.
  - cbn [filter]. destruct (bad m); cbn [length]; lia.
Qed.
Lemma starts_forward (f : graph P) x y : starts (forward f x y) <= starts f.
Proof.
  unfold forward. cbn zeta. eapply Nat.le_trans; [|apply (starts_replace f x []); intros m []].
  rewrite !bad_length. cbn [g_body]. induction (g_body (replace f x [])) as [|m l IH]; [cbn; auto|]. cbn [map filter].
  change (bad (Node (n_dst m) (n_op m) (map (rename_to x y) (n_args m)) (n_ty m) (n_label m) (n_start m) (n_num m))) with (bad m).
  destruct (bad m); cbn [length]; lia.
Qed.
Lemma bad_label (m : node P) : n_label m = true -> bad m = false.
Proof. intros E. unfold bad. rewrite E, andb_false_r. reflexivity. Qed.
Lemma bad_start (m : node P) : n_start m = false -> bad m = false.
Proof. intros E. unfold bad. rewrite E. reflexivity. Qed.
Lemma bad_op (m : node P) : is_split_op (n_op m) = false -> bad m = false.
Proof. intros E. unfold bad. rewrite E. apply andb_false_r. Qed.

Lemma bin_starts (f : graph P) s d b n g : n_label d = true -> raise_over_bin f s d b n = Rewritten g -> starts g <= starts f.
Proof.
  intros LD. unfold raise_over_bin. destruct (n_op d) as [ | |op| | | | | | | ]; try discriminate. destruct (n_args d) as [|a1 [|a2 [|]]]; try discriminate.
  assert (R : forall h pre x1, starts h <= starts f -> (forall m, In m pre -> bad m = false) ->
    match operand h d a2 with
    | KSlice => Rewritten (replace h (n_dst s) ((pre ++ [slice_of s (fresh f 1) b n a2]) ++ [Node (n_dst s) (OBin op) [x1; fresh f 1] (n_ty s) (n_label d) (n_start d) (n_num d)]))
    | KFake k bands => Rewritten (replace (replace h (n_dst k) [more_bands k bands b (n_ty s)]) (n_dst s) (pre ++ [Node (n_dst s) (OBin op) [x1; a2] (n_ty s) (n_label d) (n_start d) (n_num d)]))
    | KNew => Rewritten (replace (replace h (n_dst d) [Node (fresh f 1) (OFake [(b, n_ty s)]) [a2] (type_of f a2) false false None; with_args d [a1; fresh f 1]]) (n_dst s)
                (pre ++ [Node (n_dst s) (OBin op) [x1; fresh f 1] (n_ty s) (n_label d) (n_start d) (n_num d)]))
    end = Rewritten g -> starts g <= starts f).
  { intros h pre x1 HS HP E. assert (LAST : forall l, (forall m, In m l -> bad m = false) -> forall x, forall m, In m (l ++ [Node (n_dst s) (OBin op) x (n_ty s) (n_label d) (n_start d) (n_num d)]) -> bad m = false).
    { intros l Kl x m Hm. apply in_app_or in Hm. destruct Hm as [Hm|[<-|[]]]; [auto|]. apply bad_label. exact LD. }
    destruct (operand h d a2) as [|k bands|]; apply (f_equal (fun q => match q with Rewritten w => w | _ => f end)) in E; rewrite <- E; clear E.
    - eapply Nat.le_trans; [apply starts_replace|exact HS]. apply LAST. intros m Hm. apply in_app_or in Hm. destruct Hm as [Hm|[<-|[]]]; [auto|]. apply bad_op. reflexivity.
    - eapply Nat.le_trans; [apply starts_replace; apply LAST; auto|]. eapply Nat.le_trans; [apply starts_replace|exact HS]. intros m [<-|[]]. apply bad_op. reflexivity.
    - eapply Nat.le_trans; [apply starts_replace; apply LAST; auto|]. eapply Nat.le_trans; [apply starts_replace|exact HS]. intros m [<-|[<-|[]]]; [apply bad_start; reflexivity|apply bad_label; exact LD]. }
  destruct (operand f d a1) as [|k bands|]; [| |discriminate]; intros E.
  - apply (R f [slice_of s (fresh f 0) b n a1] (fresh f 0)); auto. intros m [<-|[]]. apply bad_op. reflexivity.
  - apply (R (replace f (n_dst k) [more_bands k bands b (n_ty s)]) [] a1); auto; [|intros m []]. apply starts_replace. intros m [<-|[]]. apply bad_op. reflexivity.
Qed.
Lemma combine_starts (f : graph P) s b n c : starts (combine_with f s b n c) <= starts f.
Proof.
  unfold combine_with. destruct (n_op c); auto. destruct ((_ =? _)%Z && _); [apply starts_forward|]. apply starts_replace. intros m [<-|[]]. apply bad_start. reflexivity.
Qed.
Lemma conv_starts (f : graph P) s d b n : n_label d = true -> starts (raise_over_conv f s d b n) <= starts f.
Proof.
  intros LD. unfold raise_over_conv. destruct (n_op d); auto. destruct (n_args d) as [|a [|]]; auto. destruct (r_pad _) as [[[[pt pb] pl] pr]|]; apply starts_replace.
  - intros m [<-|[<-|[<-|[]]]]; [apply bad_start; reflexivity|apply bad_start; reflexivity|apply bad_label; exact LD].
  - intros m [<-|[<-|[]]]; [apply bad_start; reflexivity|apply bad_label; exact LD].
Qed.
Lemma slice_starts (f g : graph P) s pick : rewrite_slice f s pick = Rewritten g -> starts g <= starts f.
Proof.
  unfold rewrite_slice. destruct (n_op s) as [ | | |b n| | | | | | ]; try discriminate. destruct (n_args s) as [|x [|]]; try discriminate. destruct (def_of f x) as [d|]; [|discriminate].
  assert (MK : is_raisable f s d = true -> n_label d = true /\ starts (mark_raised f d) <= starts f).
  { unfold is_raisable. rewrite !andb_true_iff. intros [[[[_ LD] _] _] _]. split; auto. apply starts_replace. intros m [<-|[]]. apply bad_label. exact LD. }
  destruct (n_op d); try discriminate.
  - destruct (is_raisable f s d); [|discriminate]. destruct (MK eq_refl) as [LD SM]. intros E. destruct (containing f s b n x) as [|c0 cs].
    + apply (f_equal (fun q => match q with Rewritten w => w | _ => f end)) in E. rewrite <- E. eapply Nat.le_trans; [apply conv_starts|exact SM]. exact LD.
    + destruct (nth_error _ pick) as [c|]; [|discriminate]. apply (f_equal (fun q => match q with Rewritten w => w | _ => f end)) in E. rewrite <- E. eapply Nat.le_trans; [apply combine_starts|exact SM].
  - destruct (n_label s && n_label d); [|discriminate]. intros E. apply (f_equal (fun q => match q with Rewritten w => w | _ => f end)) in E. rewrite <- E. clear E.
    unfold raise_over_pad. destruct (n_op d); auto. destruct (n_args d) as [|a [|]]; auto. apply starts_replace. intros m [<-|[<-|[]]]; apply bad_start; reflexivity.
  - destruct (is_raisable f s d); [|discriminate]. destruct (MK eq_refl) as [LD SM]. intros E. destruct (containing f s b n x) as [|c0 cs].
    + eapply Nat.le_trans; [eapply bin_starts; [|exact E]|exact SM]. exact LD.
    + destruct (nth_error _ pick) as [c|]; [|discriminate]. apply (f_equal (fun q => match q with Rewritten w => w | _ => f end)) in E. rewrite <- E. eapply Nat.le_trans; [apply combine_starts|exact SM].
Qed.
Lemma fake_starts (z : P) (f g : graph P) k : rewrite_fake z f k = Rewritten g -> starts g <= starts f.
Proof.
  unfold rewrite_fake. destruct (n_op k) as [ | | | | |bands| | | | ]; try discriminate. destruct (n_args k) as [|a [|]]; try discriminate. destruct (def_of f a) as [d|]; [|discriminate].
  destruct (n_op d) as [ | | | | | |m|u|img| ]; try discriminate.
  - destruct (n_args d) as [|a' [|]]; try discriminate. unfold raise_to_means. destruct bands as [|[b0 t0] tl]; [discriminate|]. destruct (_ && _); [|discriminate].
    set (bands := (b0, t0) :: tl). intros E. apply (f_equal (fun q => match q with Rewritten w => w | _ => f end)) in E. rewrite <- E. clear E. apply starts_replace.
    intros q Hq. apply in_app_or in Hq. apply bad_op. destruct Hq as [Hq|[<-|[<-|[]]]]; try reflexivity. unfold mean_nodes in Hq. apply in_flat_map in Hq. destruct Hq as (p & _ & [<-|[<-|[]]]); reflexivity.
  - destruct (n_args d) as [|a' [|]]; try discriminate. destruct (n_num d) as [nn|]; [|discriminate]. destruct (_ && _); [|discriminate].
    intros E. apply (f_equal (fun q => match q with Rewritten w => w | _ => f end)) in E. rewrite <- E. apply starts_replace. intros m [<-|[<-|[]]]; apply bad_op; reflexivity.
  - intros E. apply (f_equal (fun q => match q with Rewritten w => w | _ => f end)) in E. rewrite <- E. apply starts_forward.
Qed.
Lemma raise_starts (z : P) f g : raise_phase z f g -> starts g <= starts f.
Proof.
  intros ST. inversion ST as [f0 g0 s pick IS E|f0 g0 k IK E|f0 d ID U]; subst.
  - eapply slice_starts; eauto.
  - eapply fake_starts; eauto.
  - apply starts_replace. intros m [].
Qed.

(** Three measures, one after the other. *)
Lemma lex3_acc {A} (m1 m2 m3 : A -> nat) (R : A -> A -> Prop) (inv : A -> Prop) :
  (forall a b, inv a -> R a b -> inv b /\ (m1 b < m1 a \/ (m1 b <= m1 a /\ (m2 b < m2 a \/ (m2 b <= m2 a /\ m3 b < m3 a))))) -> forall a, inv a -> Acc (fun b a => inv a /\ R a b) a.
Proof.
  intros K. assert (H : forall n1 n2 n3 a, inv a -> m1 a <= n1 -> m2 a <= n2 -> m3 a <= n3 -> Acc (fun b a => inv a /\ R a b) a).
  { induction n1 as [n1 IH1] using lt_wf_ind. induction n2 as [n2 IH2] using lt_wf_ind. induction n3 as [n3 IH3] using lt_wf_ind. intros a IA L1 L2 L3. constructor. intros b [_ RB].
    destruct (K a b IA RB) as [IB [L|[L [L'|[L' L'']]]]].
    - apply (IH1 (m1 b) ltac:(lia) (m2 b) (m3 b)); auto.
    - apply (IH2 (m2 b) ltac:(lia) (m3 b)); auto. lia.
    - apply (IH3 (m3 b) ltac:(lia)); auto; lia. }
  intros a IA. apply (H (m1 a) (m2 a) (m3 a)); auto.
Qed.
End Starts.
