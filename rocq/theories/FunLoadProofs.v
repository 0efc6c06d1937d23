(** Proofs for C83: a function with its constants in the weights file computes what it computed before. *)
From Verif Require Import Base NdSpec CopyKernels WeightsModel WeightsSpec WeightsProofs.
From Verif Require Import SlicePadModel LowerModel FunOpsSpec FunModel FunSpec FunProofs FunProofs2 FunProps FunLoadModel FunLoadSpec.
Local Open Scope nat_scope.

(** ** Every result of every load operator is a constant of the function *)
Section Loads.
Variable ext : bool.
Variable consts : nat -> list Z.
Variable ops0 : list (list operand).
Definition load_ok (s : state) (lw : load_weights) : Prop :=
  w_before lw < length ops0 /\
  forall k c, nth_error (w_consts lw) k = Some c -> fetch (concat (st_tensors s)) lw k = Some (consts c) /\ exists j i, operand_at ops0 j i = Some (OLoad c).
Definition loads_ok (s : state) : Prop := forall lw, In lw (st_loads s) -> load_ok s lw.

Lemma load_ok_mono s ops' ls ts lw : load_ok s lw -> load_ok (State ops' ls (st_tensors s ++ [ts])) lw.
Proof.
  intros [B H]. split; auto. intros k c Hk. destruct (H k c Hk) as [F X]. split; auto. cbn [st_tensors]. rewrite concat_app. unfold fetch in *.
  destruct (result_at (w_sizes lw) k (w_address lw)) as [[p n]|]; [|discriminate]. apply read_app_l; auto.
Qed.
Lemma in_loaded c l : In c (loaded l) -> In (OLoad c) l.
Proof. unfold loaded. intros H. apply in_flat_map in H. destruct H as (o & Ho & H). destruct o; cbn in H; try contradiction. destruct H as [->|[]]. auto. Qed.
Lemma loads_step c s : inv consts ops0 s -> loads_ok s -> loads_ok (write_weights ext consts c s).
Proof.
  intros (I1 & I2 & I3) LO. unfold write_weights. destruct (uses c (st_ops s)) as [|u us] eqn:U; auto.
  assert (WAS : forall j i c', operand_at (st_ops s) j i = Some (OLoad c') -> operand_at ops0 j i = Some (OLoad c')).
  { intros j i c' H. destruct (I3 j i _ H) as (o0 & H0 & [R|(c'' & _ & w & k' & lw & R & _)]); [congruence|discriminate]. }
  assert (Hus : forall v, In v (u :: us) -> v < length (st_ops s)).
  { intros v Hv. rewrite <- U in Hv. apply uses_in in Hv. destruct Hv as (i & Hi). unfold operand_at in Hi. destruct (nth_error (st_ops s) v) eqn:E; [|discriminate].
    apply nth_error_Some. congruence. }
  assert (Hu : exists i, operand_at (st_ops s) u i = Some (OLoad c)) by (apply uses_in; rewrite U; left; auto).
  destruct Hu as (i0 & Hu). pose proof Hu as Hu'. unfold operand_at in Hu. destruct (nth_error (st_ops s) u) as [lu|] eqn:Eu; [|discriminate].
  destruct ((match us with [] => true | _ => false end) && negb ext) eqn:B.
  - rewrite (nth_error_nth _ _ _ Eu). destruct (combine_operands consts (length (st_loads s)) 0 lu) as [ops' ds] eqn:C.
    destruct (combine_spec _ _ _ _ _ _ C) as (CL & CD & CN). intros lw Hl. cbn [st_loads] in Hl. apply in_app_or in Hl. destruct Hl as [Hl|[<-|[]]]; [apply load_ok_mono; auto|].
    split; [cbn [w_before]; rewrite <- I1; apply Hus; left; auto|]. cbn [w_consts]. intros k c' Hk. split.
    + cbn [st_tensors]. rewrite concat_app. cbn [concat]. rewrite app_nil_r, address_len.
      assert (D : nth_error ds k = Some (consts c')) by (rewrite CD, nth_error_map, Hk; auto).
      pose proof (fetch_new (concat (st_tensors s)) _ [] u false (loaded lu) k (consts c') D) as F. rewrite app_nil_r in F. exact F.
    + apply nth_error_In, in_loaded, In_nth_error in Hk. destruct Hk as (i & Hi). exists u, i. apply WAS. unfold operand_at. rewrite Eu. auto.
  - intros lw Hl. cbn [st_loads] in Hl. apply in_app_or in Hl. destruct Hl as [Hl|[<-|[]]]; [apply load_ok_mono; auto|]. split.
    + cbn [w_before]. rewrite <- I1. apply Nat.le_lt_trans with u; [|apply Hus; left; auto]. apply first_owner_le. right; left; auto.
    + cbn [w_consts]. intros [|[|k]] c' Hk; cbn [nth_error] in Hk; try discriminate. injection Hk as <-. split.
      * cbn [st_tensors]. rewrite concat_app. cbn [concat]. rewrite app_nil_r, address_len.
        pose proof (fetch_new (concat (st_tensors s)) [consts c]
          (if ext then repeat 0%Z (Z.to_nat (to_be_padded (Z.of_nat (length (consts c))))) else []) (first_owner (u :: us)) ext [c] 0 (consts c) eq_refl) as F.
        cbn [concat map] in F. rewrite app_nil_r in F. exact F.
      * exists u, i0. apply WAS. auto.
Qed.
Lemma loads_run schedule : loads_ok (run_write ext consts schedule ops0).
Proof.
  unfold run_write. assert (H : inv consts ops0 (State ops0 [] [])).
  { split; auto. split; auto. intros j i o H. exists o. split; auto. left; auto. }
  assert (L : loads_ok (State ops0 [] [])) by (intros lw []).
  revert H L. generalize (State ops0 [] []). induction schedule as [|c sch IH]; intros s H L; cbn [fold_left]; auto.
  apply IH; [apply inv_step; auto|apply loads_step; auto].
Qed.
End Loads.

(** ** Constants *)
Lemma const_of_in body x d t : const_of body x = Some (d, t) -> exists i, In i body /\ i_op i = TConst d /\ i_dst i = x /\ i_ty i = t.
Proof.
  induction body as [|i body IH]; cbn [const_of]; [discriminate|]. intros H.
  assert (G : const_of body x = Some (d, t) -> exists i0, In i0 (i :: body) /\ i_op i0 = TConst d /\ i_dst i0 = x /\ i_ty i0 = t).
  { intros K. destruct (IH K) as (j & Hj & R). exists j. split; [right; auto|auto]. }
  destruct (i_op i) eqn:O; auto. destruct (Nat.eqb_spec (i_dst i) x) as [<-|]; auto. injection H as <- <-. exists i. split; [left; auto|auto].
Qed.
Lemma const_of_none body x : ~ In x (map i_dst body) -> const_of body x = None.
Proof.
  induction body as [|i body IH]; intros H; cbn [const_of]; auto. cbn [map] in H.
  assert (const_of body x = None) by (apply IH; intros K; apply H; right; auto).
  destruct (i_op i); auto. destruct (Nat.eqb_spec (i_dst i) x); auto. exfalso. apply H. left; auto.
Qed.
Lemma const_of_unique body i : NoDup (map i_dst body) -> In i body ->
  const_of body (i_dst i) = match i_op i with TConst d => Some (d, i_ty i) | _ => None end.
Proof.
  induction body as [|j body IH]; intros N H; [destruct H|]. cbn [map] in N. inversion N as [|? ? Nj N']; subst. cbn [const_of]. destruct H as [->|H].
  - pose proof (const_of_none body (i_dst i) Nj) as E. rewrite Nat.eqb_refl. destruct (i_op i); auto.
  - rewrite <- (IH N' H). destruct (i_op j); auto. destruct (Nat.eqb_spec (i_dst j) (i_dst i)) as [E|]; auto.
    exfalso. apply Nj. rewrite E. apply in_map; auto.
Qed.

(** ** Operations without operands *)
Notation entry := (prod nat (prod ty (list Z))) (only parsing).
Definition entry_instr (x : entry) : instr := Instr (fst x) (TOther (fun _ => snd (snd x))) [] (fst (snd x)).
Lemma entries_exec (l : list entry) : forall e : FunSpec.env, NoDup (map fst l) -> (forall x, In x l -> length (snd (snd x)) = tsize (fst (snd x)) /\ lookup e (fst x) = None) ->
  exec (map entry_instr l) e (rev l ++ e).
Proof.
  induction l as [|(d & t & b) l IH]; intros e N H; cbn [map rev app]; [constructor|]. inversion N as [|? ? Nd N']; subst. cbn [fst] in Nd.
  destruct (H _ (or_introl eq_refl)) as [Lb Ld]. cbn [fst snd] in Lb, Ld.
  eapply exec_cons with (vs := []) (b := b); cbn [entry_instr i_args i_op i_ty i_dst fst snd]; [reflexivity|right; cbn [op_ok]; intros; exact Lb|reflexivity|exact Lb|exact Ld|].
  rewrite <- app_assoc. apply (IH ((d, (t, b)) :: e)); auto. intros x Hx. destruct (H x (or_intror Hx)) as [L1 L2]. split; auto. cbn [lookup].
  destruct (Nat.eqb_spec (fst x) d) as [Q|]; auto. exfalso. apply Nd. rewrite <- Q. apply in_map; auto.
Qed.
Lemma lookup_app {V} (a b : list (nat * V)) x : lookup (a ++ b) x = match lookup a x with Some v => Some v | None => lookup b x end.
Proof. induction a as [|(y & v) a IH]; cbn; auto. destruct (Nat.eqb x y); auto. Qed.
Lemma lookup_nodup {V} (l : list (nat * V)) x v : NoDup (map fst l) -> In (x, v) l -> lookup l x = Some v.
Proof.
  induction l as [|(y & w) l IH]; intros N H; [destruct H|]. cbn [map fst] in N. inversion N as [|? ? Ny N']; subst. cbn [lookup]. destruct H as [E|H].
  - injection E as -> ->. rewrite Nat.eqb_refl. auto.
  - destruct (Nat.eqb_spec x y) as [->|]; auto. exfalso. apply Ny. apply in_map_iff. exists (y, v). auto.
Qed.
Lemma lookup_rev_in {V} (l : list (nat * V)) e x v : NoDup (map fst l) -> In (x, v) l -> lookup (rev l ++ e) x = Some v.
Proof.
  intros N H. rewrite lookup_app, (lookup_nodup (rev l) x v); auto; [|apply in_rev in H; auto].
  rewrite map_rev. apply NoDup_rev; auto.
Qed.
Lemma lookup_rev_out {V} (l : list (nat * V)) e x : ~ In x (map fst l) -> lookup (rev l ++ e) x = lookup e x.
Proof. intros H. rewrite lookup_app, lookup_none; auto. rewrite map_rev. intros K. apply H, in_rev; auto. Qed.

Lemma nodup_flat_map {A B} (F : A -> list B) l : NoDup l -> (forall a, In a l -> NoDup (F a)) ->
  (forall a a' b, In a l -> In a' l -> In b (F a) -> In b (F a') -> a = a') -> NoDup (flat_map F l).
Proof.
  induction l as [|a l IH]; intros N H D; cbn [flat_map]; [constructor|]. inversion N as [|? ? Na N']; subst.
  assert (G : forall x y : list B, NoDup x -> NoDup y -> (forall b, In b x -> ~ In b y) -> NoDup (x ++ y)).
  { clear. induction x as [|b x IH]; intros y Nx Ny D; auto. inversion Nx; subst. cbn. constructor.
    - intros K. apply in_app_or in K. destruct K as [K|K]; auto. apply (D b); [left; auto|auto].
    - apply IH; auto. intros c Hc. apply D. right; auto. }
  apply G; [apply H; left; auto|apply IH; auto|].
  - intros a' Ha. apply H. right; auto.
  - intros a1 a2 b H1 H2. apply D; right; auto.
  - intros b Hb K. apply in_flat_map in K. destruct K as (a' & Ha' & Hb'). rewrite (D a a' b) in Na; auto; [left; auto|right; auto].
Qed.
Lemma combine_seq_nodup {A} (l : list A) : forall b, NoDup (combine (seq b (length l)) l).
Proof.
  induction l as [|x l IH]; intros b; cbn [length seq combine]; constructor; auto.
  intros H. apply in_combine_seq in H. lia.
Qed.

(** ** The loads placed before one operation *)
Definition expand (file : list Z) (o : lop) : list instr :=
  match o with
  | One i => [i]
  | Load lw rs => map (fun p => Instr (fst (snd p)) (TOther (fun _ => match fetch file lw (fst p) with Some b => b | None => [] end)) [] (snd (snd p)))
                    (combine (seq 0 (length rs)) rs)
  end.

Section Sim.
Variable name : nat -> nat -> nat.
Variable chosen : nat -> bool.
Variable ext : bool.
Variable schedule : list nat.
Variable f : func.
Let body := f_body f.
Let ops0 := operands_of chosen f.
Let s := run_write ext (const_data body) schedule ops0.
Let file := concat (st_tensors s).
Hypothesis NN : new_names name f.
Hypothesis ND : NoDup (map i_dst body).
Hypothesis CS : forall x d t, const_of body x = Some (d, t) -> length d = tsize t.
Hypothesis SC : forall x, is_loaded chosen body x = true -> In x schedule.

Definition entries_at (j : nat) : list entry :=
  flat_map (fun p => if Nat.eqb (w_before (snd p)) j
    then map (fun q => (name (fst p) (fst q), (const_ty body (snd q), const_data body (snd q)))) (combine (seq 0 (length (w_consts (snd p)))) (w_consts (snd p))) else [])
    (combine (seq 0 (length (st_loads s))) (st_loads s)).

Lemma tag_loaded j i c : operand_at ops0 j i = Some (OLoad c) -> is_loaded chosen body c = true.
Proof.
  unfold operand_at, ops0, operands_of. destruct (nth_error _ j) as [l|] eqn:E; [|discriminate]. intros H. apply nth_error_In in E, H.
  apply in_app_or in E. destruct E as [E|[<-|[]]].
  - apply in_map_iff in E. destruct E as (i' & <- & _). apply in_map_iff in H. destruct H as (x & E & _). unfold operand_tag in E. fold body in E.
    destruct (is_loaded chosen body x) eqn:L; [|discriminate]. congruence.
  - apply in_map_iff in H. destruct H as (x & E & _). unfold operand_tag in E. fold body in E. destruct (is_loaded chosen body x) eqn:L; [|discriminate]. congruence.
Qed.
Lemma load_facts w lw k c : nth_error (st_loads s) w = Some lw -> nth_error (w_consts lw) k = Some c ->
  fetch file lw k = Some (const_data body c) /\ length (const_data body c) = tsize (const_ty body c) /\ w_before lw <= length body.
Proof.
  intros Hw Hk. destruct (loads_run ext (const_data body) ops0 schedule lw) as [B H]; [eapply nth_error_In; exact Hw|].
  destruct (H k c Hk) as [F (j & i & O)]. split; [exact F|]. split.
  - apply tag_loaded in O. unfold is_loaded in O. apply andb_prop in O. destruct O as [_ O]. unfold const_data, const_ty.
    destruct (const_of body c) as [[d t]|] eqn:E; [|discriminate]. apply CS in E. exact E.
  - unfold ops0, operands_of in B. rewrite app_length, map_length in B. cbn [length] in B. fold body in B. lia.
Qed.
Lemma loads_before lw : In lw (st_loads s) -> w_before lw <= length body.
Proof. intros H. destruct (loads_run ext (const_data body) ops0 schedule lw H) as [B _]. unfold ops0, operands_of in B. rewrite app_length, map_length in B. cbn [length] in B. fold body in B. lia. Qed.

Lemma in_entries j x : In x (entries_at j) <-> exists w lw k c, nth_error (st_loads s) w = Some lw /\ w_before lw = j /\ nth_error (w_consts lw) k = Some c /\
  x = (name w k, (const_ty body c, const_data body c)).
Proof.
  unfold entries_at. rewrite in_flat_map. split.
  - intros ((w & lw) & H & Hx). apply in_combine_seq in H. destruct H as [_ H]. rewrite Nat.sub_0_r in H. cbn [fst snd] in Hx.
    destruct (Nat.eqb_spec (w_before lw) j) as [E|]; [|destruct Hx]. apply in_map_iff in Hx. destruct Hx as ((k & c) & <- & Hq).
    apply in_combine_seq in Hq. destruct Hq as [_ Hq]. rewrite Nat.sub_0_r in Hq. exists w, lw, k, c. auto.
  - intros (w & lw & k & c & H & E & Hk & ->). exists (w, lw). split; [apply in_combine_seq; rewrite Nat.sub_0_r; auto with arith|]. cbn [fst snd].
    apply Nat.eqb_eq in E. rewrite E. apply in_map_iff. exists (k, c). split; auto. apply in_combine_seq. rewrite Nat.sub_0_r. auto with arith.
Qed.
Lemma entries_nodup j : NoDup (map fst (entries_at j)).
Proof.
  destruct NN as [NI _].
  assert (G : map fst (entries_at j) = flat_map (fun p => if Nat.eqb (w_before (snd p)) j then map (name (fst p)) (seq 0 (length (w_consts (snd p)))) else [])
     (combine (seq 0 (length (st_loads s))) (st_loads s))).
  { unfold entries_at. generalize (combine (seq 0 (length (st_loads s))) (st_loads s)). induction l as [|p l IH]; cbn [flat_map]; auto. rewrite map_app, IH. f_equal.
    destruct (Nat.eqb _ _); auto. rewrite map_map. cbn [fst].
    generalize 0. induction (w_consts (snd p)) as [|c cs IHc]; intros b; cbn [length seq combine map]; auto. f_equal. apply IHc. }
  rewrite G. apply nodup_flat_map; [apply combine_seq_nodup| |].
  - intros (w & lw) _. cbn [fst snd]. destruct (Nat.eqb _ _); [|constructor]. apply FinFun.Injective_map_NoDup; [|apply seq_NoDup].
    intros k k' E. apply NI in E. tauto.
  - intros (w & lw) (w' & lw') x H H' Hx Hx'. cbn [fst snd] in *. destruct (Nat.eqb (w_before lw) j); [|destruct Hx]. destruct (Nat.eqb (w_before lw') j); [|destruct Hx'].
    apply in_map_iff in Hx. apply in_map_iff in Hx'. destruct Hx as (k & <- & _). destruct Hx' as (k' & E & _). apply NI in E. destruct E as [<- _].
    apply in_combine_seq in H, H'. destruct H as [_ H], H' as [_ H']. congruence.
Qed.
Lemma expand_loads j : flat_map (expand file) (loads_at name body (st_loads s) j) = map entry_instr (entries_at j).
Proof.
  assert (G : forall p, In p (combine (seq 0 (length (st_loads s))) (st_loads s)) -> nth_error (st_loads s) (fst p) = Some (snd p)).
  { intros (w & lw) H. apply in_combine_seq in H. destruct H as [_ H]. rewrite Nat.sub_0_r in H. auto. }
  unfold loads_at, entries_at. revert G. generalize (combine (seq 0 (length (st_loads s))) (st_loads s)). induction l as [|(w & lw) l IH]; intros G; auto.
  cbn [flat_map]. rewrite flat_map_app, map_app, IH by (intros p Hp; apply G; right; auto). f_equal. specialize (G _ (or_introl eq_refl)). cbn [fst snd] in *.
  destruct (Nat.eqb (w_before lw) j); auto. cbn [flat_map expand]. rewrite app_nil_r. unfold load_results. rewrite map_map.
  assert (K : forall k c, nth_error (w_consts lw) k = Some c -> fetch file lw k = Some (const_data body c)) by (intros k c Hk; apply (load_facts w lw k c G Hk)).
  revert K. rewrite map_length, combine_length, seq_length, Nat.min_id. 
  assert (KK : forall b cs, (forall k c, nth_error cs k = Some c -> fetch file lw (b + k) = Some (const_data body c)) ->
     map (fun p => Instr (fst (snd p)) (TOther (fun _ => match fetch file lw (fst p) with Some b => b | None => [] end)) [] (snd (snd p)))
       (combine (seq b (length cs)) (map (fun p => (name w (fst p), const_ty body (snd p))) (combine (seq b (length cs)) cs))) =
     map (fun x => entry_instr (name w (fst x), (const_ty body (snd x), const_data body (snd x)))) (combine (seq b (length cs)) cs)).
  { intros b cs. revert b. induction cs as [|c cs IHc]; intros b K; auto. cbn [length seq combine map fst snd]. f_equal.
    - unfold entry_instr. cbn [fst snd]. pose proof (K 0 c eq_refl) as K0. rewrite Nat.add_0_r in K0. rewrite K0. auto.
    - apply IHc. intros k c' Hk. replace (S b + k) with (b + S k) by lia. apply K. auto. }
  intros K. apply (KK 0). exact K.
Qed.

(** ** Simulation *)
Definition related (j : nat) (e1 e2 : FunSpec.env) : Prop :=
  (forall x, is_loaded chosen body x = false -> (forall w k, x <> name w k) -> lookup e2 x = lookup e1 x) /\
  (forall x v, is_loaded chosen body x = true -> lookup e1 x = Some v -> v = (const_ty body x, const_data body x)) /\
  (forall w lw k c, nth_error (st_loads s) w = Some lw -> w_before lw < j -> nth_error (w_consts lw) k = Some c ->
     lookup e2 (name w k) = Some (const_ty body c, const_data body c)) /\
  (forall w lw k, nth_error (st_loads s) w = Some lw -> j <= w_before lw -> lookup e2 (name w k) = None).

Lemma loads_step_exec j e1 e2 : related j e1 e2 -> exists e2', exec (flat_map (expand file) (loads_at name body (st_loads s) j)) e2 e2' /\ related (S j) e1 e2'.
Proof.
  intros (A & B & C & D). rewrite expand_loads. exists (rev (entries_at j) ++ e2). pose proof (entries_nodup j) as N. split.
  - apply entries_exec; auto. intros x Hx. apply in_entries in Hx. destruct Hx as (w & lw & k & c & H & E & Hk & ->). cbn [fst snd].
    split; [apply (load_facts w lw k c H Hk)|]. apply (D w lw k H). lia.
  - split; [|split; [exact B|split]].
    + intros x L Hx. rewrite lookup_rev_out; auto. intros K. apply in_map_iff in K. destruct K as (y & <- & Hy). apply in_entries in Hy.
      destruct Hy as (w & lw & k & c & H & E & Hk & ->). cbn [fst] in *. apply (Hx w k); auto.
    + intros w lw k c H Hb Hk. destruct (Nat.eq_dec (w_before lw) j) as [E|NE].
      * apply lookup_rev_in; auto. apply in_entries. exists w, lw, k, c. auto.
      * rewrite lookup_rev_out; [apply (C w lw k c H); auto; lia|]. intros K. apply in_map_iff in K. destruct K as (y & E & Hy). apply in_entries in Hy.
        destruct Hy as (w' & lw' & k' & c' & H' & E' & Hk' & ->). cbn [fst] in E. apply (proj1 NN) in E. destruct E as [-> ->]. congruence.
    + intros w lw k H Hb. rewrite lookup_rev_out; [apply (D w lw k H); lia|]. intros K. apply in_map_iff in K. destruct K as (y & E & Hy). apply in_entries in Hy.
      destruct Hy as (w' & lw' & k' & c' & H' & E' & Hk' & ->). cbn [fst] in E. apply (proj1 NN) in E. destruct E as [-> ->]. assert (lw = lw') by congruence. subst. lia.
Qed.

Lemma lookups_new (e1 e2 : FunSpec.env) : forall xs os vs, length os = length xs -> lookups e1 xs = Some vs ->
  (forall i x o v, nth_error xs i = Some x -> nth_error os i = Some o -> lookup e1 x = Some v -> lookup e2 (new_operand name (x, o)) = Some v) ->
  lookups e2 (new_operands name xs os) = Some vs.
Proof.
  induction xs as [|x xs IH]; intros [|o os] vs L H K; try discriminate; [exact H|]. cbn [lookups] in H. destruct (lookup e1 x) as [v|] eqn:Lx; [|discriminate].
  destruct (lookups e1 xs) as [w|] eqn:Lw; [|discriminate]. injection H as <-. unfold new_operands in *. cbn [combine map lookups].
  rewrite (K 0 x o v eq_refl eq_refl Lx). rewrite (IH os w); auto. intros i y o' v' H1 H2. apply (K (S i)); auto.
Qed.

(** Row [j] of the operands, before and after. *)
Lemma row_new j xs e1 e2 vs : related (S j) e1 e2 -> nth_error ops0 j = Some (map (operand_tag chosen body) xs) ->
  (forall x, In x xs -> mentioned f x) -> lookups e1 xs = Some vs -> lookups e2 (new_operands name xs (nth j (st_ops s) [])) = Some vs.
Proof.
  intros (A & B & C & D) H0 M L. destruct (inv_run ext (const_data body) ops0 schedule) as (I1 & I2 & I3). fold s in I1, I2, I3.
  specialize (I2 j). rewrite H0 in I2. cbn [option_map] in I2. rewrite map_length in I2. destruct (nth_error (st_ops s) j) as [row|] eqn:R; [|discriminate]. cbn [option_map] in I2. injection I2 as I2.
  rewrite (nth_error_nth _ _ _ R). apply (lookups_new e1); auto. intros i x o v Hx Ho Lx.
  destruct (I3 j i o) as (o0 & O0 & Rl). { unfold operand_at. rewrite R. exact Ho. }
  assert (T : o0 = operand_tag chosen body x). { unfold operand_at in O0. rewrite H0, nth_error_map, Hx in O0. cbn in O0. congruence. }
  assert (Mx : mentioned f x) by (apply M; eapply nth_error_In; exact Hx).
  unfold operand_tag in T. destruct (is_loaded chosen body x) eqn:IL; subst o0.
  - destruct Rl as [->|(c & E & w & k & lw & -> & E2 & E3 & E4 & E5)].
    + exfalso. apply (gone_run ext (const_data body) ops0 schedule x (SC x IL) j i). fold s. unfold operand_at. rewrite R. exact Ho.
    + injection E as <-. unfold new_operand. cbn [snd]. rewrite (B x v IL Lx). apply (C w lw k x E2); auto. lia.
  - destruct Rl as [->|(c & E & _)]; [|discriminate]. unfold new_operand. cbn [fst snd]. rewrite A; auto.
    intros w k ->. apply (proj2 NN w k). exact Mx.
Qed.

Lemma sim_body rest : forall pre e1 e1' e2, body = pre ++ rest -> exec rest e1 e1' -> related (length pre) e1 e2 ->
  exists e2', exec (flat_map (expand file) (flat_map (fun p => loads_at name body (st_loads s) (fst p) ++ kept_op name chosen body (st_ops s) (fst p) (snd p))
    (combine (seq (length pre) (length rest)) rest))) e2 e2' /\ related (length body) e1' e2'.
Proof.
  induction rest as [|i rest IH]; intros pre e1 e1' e2 Eb X R.
  - inversion X; subst. exists e2. split; [constructor|]. rewrite app_nil_r in Eb. rewrite Eb. exact R.
  - cbn [length seq combine flat_map fst snd]. destruct (loads_step_exec (length pre) e1 e2 R) as (e2a & Xa & Ra).
    inversion X as [|i' tl e0 vs b e'' Lv K Sm Zl N X']; subst.
    assert (Hi : In i body) by (rewrite Eb; apply in_or_app; right; left; auto).
    assert (Men : forall x, i_dst i = x \/ In x (i_args i) -> mentioned f x) by (intros x Hx; right; left; apply Exists_exists; exists i; auto).
    pose proof (const_of_unique body i ND Hi) as CU.
    assert (Row : nth_error ops0 (length pre) = Some (map (operand_tag chosen body) (i_args i))).
    { unfold ops0, operands_of. fold body. rewrite nth_error_app1 by (rewrite map_length, Eb, app_length; cbn; lia). rewrite nth_error_map, Eb, nth_error_app2, Nat.sub_diag by lia. auto. }
    assert (STEP : exists e2b, exec (flat_map (expand file) (kept_op name chosen body (st_ops s) (length pre) i)) e2a e2b /\ related (S (length pre)) ((i_dst i, (i_ty i, b)) :: e1) e2b).
    { destruct Ra as (A & B & C & D).
      assert (KEEP : is_loaded chosen body (i_dst i) = false -> lookups e2a (new_operands name (i_args i) (nth (length pre) (st_ops s) [])) = Some vs ->
        exists e2b, exec [Instr (i_dst i) (i_op i) (new_operands name (i_args i) (nth (length pre) (st_ops s) [])) (i_ty i)] e2a e2b /\ related (S (length pre)) ((i_dst i, (i_ty i, b)) :: e1) e2b).
      { intros IL La. assert (Nn : forall w k, i_dst i <> name w k) by (intros w k E; apply (proj2 NN w k); rewrite <- E; auto).
        exists ((i_dst i, (i_ty i, b)) :: e2a). split.
        - eapply exec_cons with (vs := vs) (b := b); cbn [i_args i_op i_ty i_dst]; auto; [|constructor]. rewrite A; auto.
        - split; [|split; [|split]].
          + intros x Hx Hn. cbn [lookup]. destruct (Nat.eqb x (i_dst i)); auto.
          + intros x v Hx Hl. cbn [lookup] in Hl. destruct (Nat.eqb_spec x (i_dst i)) as [->|]; [congruence|]. apply B; auto.
          + intros w lw k c H1 H2 H3. cbn [lookup]. destruct (Nat.eqb_spec (name w k) (i_dst i)) as [E|]; [exfalso; apply (Nn w k); auto|]. eapply C; eauto.
          + intros w lw k H1 H2. cbn [lookup]. destruct (Nat.eqb_spec (name w k) (i_dst i)) as [E|]; [exfalso; apply (Nn w k); auto|]. eapply D; eauto. }
      assert (LA : lookups e2a (new_operands name (i_args i) (nth (length pre) (st_ops s) [])) = Some vs).
      { apply (row_new (length pre) (i_args i) e1 e2a vs); auto. split; [exact A|]. split; [exact B|]. split; [exact C|exact D]. }
      unfold kept_op. destruct (i_op i) eqn:O;
        try (cbn [flat_map expand app]; apply KEEP; [unfold is_loaded; rewrite CU; apply andb_false_r|exact LA]).
      destruct (chosen (i_dst i)) eqn:Ch.
      - (* dropped *) exists e2a. split; [constructor|]. assert (Eb' : b = data).
        { cbn [sem] in Sm. destruct vs; [|discriminate]. congruence. }
        subst b. split; [|split; [|split]]; auto.
        + intros x Hx Hn. cbn [lookup]. destruct (Nat.eqb_spec x (i_dst i)) as [->|]; auto. exfalso. unfold is_loaded in Hx. rewrite CU, Ch in Hx. discriminate.
        + intros x v Hx Hl. cbn [lookup] in Hl. destruct (Nat.eqb_spec x (i_dst i)) as [->|]; [|apply B; auto]. injection Hl as <-. unfold const_ty, const_data. rewrite CU. auto.
      - (* kept constant: no operands *) cbn [flat_map expand app].
        assert (Ea : i_args i = []). { cbn [sem] in Sm. destruct vs; [|discriminate]. apply lookups_length in Lv. destruct (i_args i); auto. discriminate. }
        assert (En : new_operands name (i_args i) (nth (length pre) (st_ops s) []) = i_args i) by (rewrite Ea; reflexivity).
        destruct KEEP as (e2b & Xb & Rb); [unfold is_loaded; rewrite Ch; reflexivity|exact LA|]. exists e2b. split; [|exact Rb].
        rewrite En in Xb. replace i with (Instr (i_dst i) (TConst data) (i_args i) (i_ty i)); [exact Xb|]. rewrite <- O. destruct i; reflexivity. }
    destruct STEP as (e2b & Xb & Rb).
    destruct (IH (pre ++ [i]) ((i_dst i, (i_ty i, b)) :: e1) e1' e2b) as (e2' & X2 & R2).
    + rewrite <- app_assoc. exact Eb.
    + exact X'.
    + rewrite app_length. cbn [length]. rewrite Nat.add_1_r. exact Rb.
    + exists e2'. split; [|exact R2]. rewrite app_length in X2. cbn [length] in X2. rewrite Nat.add_1_r in X2.
      rewrite flat_map_app. apply exec_app. exists e2b. split; [|exact X2]. rewrite flat_map_app. apply exec_app. exists e2a. auto.
Qed.

Lemma sim_function inputs r : sized (f_params f) inputs -> run f inputs r ->
  (forall x, In x (map fst (f_params f)) -> is_loaded chosen body x = false) ->
  let '(lf, ts) := externalise name ext chosen schedule f in
  run (Func (l_params lf) (flat_map (expand (concat ts)) (l_ops lf)) (l_rets lf)) inputs r.
Proof.
  intros Sz (e1' & X & L) NP. unfold externalise. fold body. fold ops0. fold s. fold file. cbn [l_params l_ops l_rets].
  assert (R0 : related 0 (start (f_params f) inputs) (start (f_params f) inputs)).
  { split; [auto|]. split; [|split].
    - intros x v Hx Hl. apply lookup_in in Hl. rewrite (start_names _ _ Sz) in Hl. rewrite (NP x Hl) in Hx. discriminate.
    - intros; lia.
    - intros w lw k _ _. apply lookup_none. rewrite (start_names _ _ Sz). intros K. apply (proj2 NN w k). left; auto. }
  destruct (sim_body body [] _ _ _ eq_refl X R0) as (e2 & X2 & R2). cbn [length] in X2.
  destruct (loads_step_exec (length body) e1' e2 R2) as (e3 & X3 & R3).
  exists e3. cbn [f_body f_params f_rets]. split.
  - rewrite flat_map_app. apply exec_app. exists e2. split; [exact X2|exact X3].
  - apply (row_new (length body) (f_rets f) e1' e3 r); auto.
    + unfold ops0, operands_of. fold body. rewrite nth_error_app2 by (rewrite map_length; lia). rewrite map_length, Nat.sub_diag. reflexivity.
    + intros x Hx. right; right; auto.
Qed.
Lemma loads_fetch lw rs : In (Load lw rs) (l_ops (fst (externalise name ext chosen schedule f))) -> forall k, k < length rs -> fetch file lw k <> None.
Proof.
  unfold externalise. cbn [fst l_ops]. fold body. fold ops0. fold s. intros H k Hk.
  assert (G : exists j, In (Load lw rs) (loads_at name body (st_loads s) j)).
  { apply in_app_or in H. destruct H as [H|H]; [|eauto]. apply in_flat_map in H. destruct H as ((j & i) & _ & H). cbn [fst snd] in H.
    apply in_app_or in H. destruct H as [H|H]; [eauto|]. exfalso. unfold kept_op in H. destruct (i_op i); try (destruct (chosen _)); cbn in H; destruct H as [H|[]] || destruct H; discriminate. }
  destruct G as (j & G). unfold loads_at in G. apply in_flat_map in G. destruct G as ((w & lw') & Hw & G). cbn [fst snd] in G.
  destruct (Nat.eqb _ _); [|destruct G]. destruct G as [G|[]]. injection G as -> <-. apply in_combine_seq in Hw. destruct Hw as [_ Hw]. rewrite Nat.sub_0_r in Hw.
  unfold load_results in Hk. rewrite map_length, combine_length, seq_length, Nat.min_id in Hk.
  destruct (nth_error (w_consts lw) k) as [c|] eqn:E; [|apply nth_error_None in E; lia].
  destruct (load_facts w lw k c Hw E) as [-> _]. discriminate.
Qed.
End Sim.
