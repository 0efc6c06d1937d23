(** Proofs for C72. *)
From Verif Require Import Base NdSpec NdBase LowerSpec SlicePadModel LowerModel CopyKernels BroadcastProofs ConcatProofs LowerProps TransposeSpec TransposeProofs FunOpsSpec FunOpsProofs FunModel FunSpec.
Local Open Scope nat_scope.

Lemma zn_zshape l : zshape l = zn l.
Proof. reflexivity. Qed.
Lemma zshape_inj a b : zshape a = zshape b -> a = b.
Proof. revert b. induction a as [|x a IH]; intros [|y b] H; try discriminate; auto. cbn in H. injection H as H1 H2. f_equal; [lia|auto]. Qed.
Lemma nat_zshape l : map Z.to_nat (zshape l) = l.
Proof. induction l as [|x l IH]; auto. cbn [zshape map]. rewrite Nat2Z.id. f_equal. exact IH. Qed.

(** ** stored tensors *)
Lemma position_ravel s : forall idx, position_of s idx = ravel s idx.
Proof. induction s as [|d s IH]; intros [|i idx]; cbn; auto. Qed.
Lemma stored_elem t b : elem_bytes (t_elem t) (stored t b).
Proof. intros idx. unfold stored. rewrite map_length, seq_length. auto. Qed.

Lemma chunk_all (k : nat) : forall n (b : list Z), length b = n * k ->
  concat (map (fun i => map (fun j => nth (i * k + j) b 0%Z) (seq 0 k)) (seq 0 n)) = b.
Proof.
  intros n. induction n as [|n IH]; intros b L.
  - cbn in *. destruct b; [auto|discriminate].
  - cbn [seq map concat]. rewrite <- seq_shift, map_map.
    transitivity (firstn k b ++ skipn k b); [|apply firstn_skipn]. f_equal.
    + cbn [Nat.mul Nat.add]. rewrite <- (nth_seq_map (firstn k b) 0%Z). rewrite firstn_length_le by nia.
      apply map_ext_in. intros j Hj. apply in_seq in Hj. rewrite <- (firstn_skipn k b) at 1. rewrite app_nth1; auto.
      rewrite firstn_length_le; nia.
    + etransitivity; [|apply (IH (skipn k b)); rewrite skipn_length; nia]. f_equal. apply map_ext. intros i. apply map_ext. intros j.
      rewrite <- (firstn_skipn k b) at 1. rewrite app_nth2; rewrite firstn_length_le by nia; [|nia]. f_equal. nia.
Qed.

Lemma ravel_unravel s : forall k, k < nelem s -> ravel s (unravel s k) = k.
Proof.
  induction s as [|d s IH]; intros k Hk; [cbn in *; lia|].
  cbn [unravel ravel]. cbn [nelem fold_right] in Hk. fold (nelem s) in Hk.
  assert (nelem s <> 0) by nia. rewrite IH.
  - pose proof (Nat.div_mod k (nelem s) H). lia.
  - pose proof (Nat.mod_upper_bound k (nelem s) H). lia.
Qed.

Lemma bytes_stored t b : length b = tsize t -> bytes_of (t_shape t) (stored t b) = b.
Proof.
  intros L. unfold bytes_of. rewrite flatten_unravel. etransitivity; [|apply (chunk_all (t_elem t) (nelem (t_shape t)) b L)].
  f_equal. apply map_ext_in. intros k Hk. apply in_seq in Hk. unfold stored. rewrite position_ravel, ravel_unravel by lia. auto.
Qed.

Lemma concat_length k (l : list (list Z)) : Forall (fun x => length x = k) l -> length (concat l) = length l * k.
Proof. induction 1; cbn; auto. rewrite app_length, IHForall. lia. Qed.
Lemma flatten_forall {A} (P : A -> Prop) s : forall t : tensor A, (forall idx, in_shape s idx -> P (t idx)) -> Forall P (flatten s t).
Proof.
  induction s as [|d s IH]; intros t H; cbn [flatten].
  - constructor; [apply H; constructor|constructor].
  - apply Forall_flat_map, Forall_forall. intros i Hi. apply in_seq in Hi. apply IH. intros idx Hx. apply H. constructor; [lia|auto].
Qed.
Lemma bytes_of_length k s (t : tensor (list Z)) : (forall idx, in_shape s idx -> length (t idx) = k) -> length (bytes_of s t) = nelem s * k.
Proof. intros H. unfold bytes_of. rewrite (concat_length k); [rewrite flatten_length; auto|]. apply flatten_forall. auto. Qed.

(** ** Checked execution *)
Definition is_x (o : fop) : bool := match o with XSlice _ | XPad _ | XBroadcast _ | XConcat _ | XMean _ _ | XCompute _ => true | _ => false end.
Definition ok (o : fop) (tys : list ty) (r : ty) : Prop := is_x o = true \/ op_ok o tys r.

Inductive exec_with (okp : fop -> list ty -> ty -> Prop) : list instr -> env -> env -> Prop :=
| exec_nil : forall e, exec_with okp [] e e
| exec_cons : forall i tl e vs b e', lookups e (i_args i) = Some vs -> okp (i_op i) (map fst vs) (i_ty i) ->
    sem (i_op i) vs (i_ty i) = Some b -> length b = tsize (i_ty i) -> lookup e (i_dst i) = None ->
    exec_with okp tl ((i_dst i, (i_ty i, b)) :: e) e' -> exec_with okp (i :: tl) e e'.
Notation exec := (exec_with ok).

Definition env_sized (e : env) : Prop := Forall (fun p => length (snd (snd p)) = tsize (fst (snd p))) e.

Lemma exec_eval {okp} body e e' : exec_with okp body e e' -> eval_body body e = Some e'.
Proof. induction 1; cbn; auto. rewrite H, H1. auto. Qed.
Lemma exec_app {okp} b1 : forall b2 e e', exec_with okp (b1 ++ b2) e e' <-> exists e1, exec_with okp b1 e e1 /\ exec_with okp b2 e1 e'.
Proof.
  induction b1 as [|i b1 IH]; intros b2 e e'; cbn [app]; split.
  - intros H. exists e. split; [constructor|auto].
  - intros (e1 & H1 & H2). inv H1. auto.
  - intros H. inversion H; subst. match goal with H : exec_with okp (b1 ++ b2) _ _ |- _ => apply IH in H; destruct H as (e1 & X1 & X2) end.
    exists e1. split; auto. econstructor; eauto.
  - intros (e1 & H1 & H2). inversion H1; subst. econstructor; eauto. apply IH. exists e1. auto.
Qed.
Lemma exec_sized {okp} body e e' : exec_with okp body e e' -> env_sized e -> env_sized e'.
Proof. induction 1; intros S; auto. apply IHexec_with. constructor; auto. Qed.
Lemma exec_scope {okp} body e e' : exec_with okp body e e' ->
  map (fun p => (fst p, fst (snd p))) e' = rev (map (fun i => (i_dst i, i_ty i)) body) ++ map (fun p => (fst p, fst (snd p))) e.
Proof. induction 1; cbn [map rev app]; auto. rewrite IHexec_with. cbn [map fst snd]. rewrite <- app_assoc. auto. Qed.

Lemma lookup_types (e : env) x : lookup (map (fun p => (fst p, fst (snd p))) e) x = option_map fst (lookup e x).
Proof. induction e as [|(y & t & b) e IH]; cbn; auto. destruct (Nat.eqb x y); auto. Qed.
Lemma lookups_types (e : env) xs : lookups (map (fun p => (fst p, fst (snd p))) e) xs = option_map (map fst) (lookups e xs).
Proof.
  induction xs as [|x xs IH]; cbn [lookups]; auto. rewrite lookup_types, IH. destruct (lookup e x); cbn [option_map]; auto.
  destruct (lookups e xs); auto.
Qed.
Lemma lookup_sized e x v : env_sized e -> lookup e x = Some v -> length (snd v) = tsize (fst v).
Proof. induction 1 as [|(y & t & b) e H F IH]; cbn; [discriminate|]. destruct (Nat.eqb x y); auto. intros E. injection E as <-. auto. Qed.
Lemma lookups_sized e xs : forall vs, env_sized e -> lookups e xs = Some vs -> Forall (fun v => length (snd v) = tsize (fst v)) vs.
Proof.
  induction xs as [|x xs IH]; intros vs S H; cbn in H; [injection H as <-; constructor|].
  destruct (lookup e x) eqn:L; [|discriminate]. destruct (lookups e xs); [|discriminate]. injection H as <-.
  constructor; [eapply lookup_sized; eauto|apply IH; auto].
Qed.
Lemma start_types ps inputs : sized ps inputs -> map (fun p => (fst p, fst (snd p))) (start ps inputs) = ps.
Proof. induction 1 as [|(x & t) b ps bs H F IH]; cbn; auto. f_equal. exact IH. Qed.
Lemma start_sized ps inputs : sized ps inputs -> env_sized (start ps inputs).
Proof. induction 1 as [|(x & t) b ps bs H F IH]; cbn; constructor; auto. Qed.

(** ** Simulation *)
Section Sim.
Variable bad : nat -> Prop.
Variable s : nat -> nat.
Definition agree (e1 e2 : env) : Prop := forall x, ~ bad x -> lookup e1 x = lookup e2 (s x).
Definition stable (e1 : env) : Prop := forall y, lookup e1 y = None -> ~ bad y -> forall x, s x = y <-> x = y.

Lemma agree_lookups e1 e2 : agree e1 e2 -> forall xs, (forall x, In x xs -> ~ bad x) -> lookups e2 (map s xs) = lookups e1 xs.
Proof.
  intros A xs. induction xs as [|x xs IH]; intros H; cbn [lookups map]; auto.
  rewrite <- A by (apply H; left; auto). rewrite IH by (intros y Hy; apply H; right; auto). auto.
Qed.

Lemma sim {okp} body e1 e1' : exec_with okp body e1 e1' -> forall e2, agree e1 e2 -> stable e1 ->
  (forall i x, In i body -> mentions i x -> ~ bad x) ->
  exists e2', exec_with okp (map (rename_instr s) body) e2 e2' /\ agree e1' e2'.
Proof.
  induction 1 as [e|i tl e vs b e' L K S Z N E IH]; intros e2 A T M.
  - exists e2. split; [constructor|auto].
  - assert (Bd : ~ bad (i_dst i)) by (apply (M i); [left; auto|left; auto]).
    assert (Sd : forall x, s x = i_dst i <-> x = i_dst i) by (apply T; auto).
    assert (Sdd : s (i_dst i) = i_dst i) by (apply Sd; auto).
    destruct (IH ((i_dst i, (i_ty i, b)) :: e2)) as (e2' & X & Y).
    + intros x Hx. cbn [lookup]. destruct (Nat.eqb_spec x (i_dst i)) as [->|Ne].
      * rewrite Sdd, Nat.eqb_refl. auto.
      * destruct (Nat.eqb_spec (s x) (i_dst i)) as [Q|_]; [apply (proj1 (Sd x)) in Q; contradiction|]. apply A; auto.
    + intros y Hy. apply T. cbn [lookup] in Hy. destruct (Nat.eqb y (i_dst i)); [discriminate|auto].
    + intros j x Hj. apply M. right; auto.
    + exists e2'. split; auto. cbn [map]. unfold rename_instr at 1. econstructor; cbn [i_args i_op i_ty i_dst]; eauto.
      * rewrite (agree_lookups e e2); auto. intros x Hx. apply (M i); [left; auto|right; auto].
      * rewrite <- Sdd. rewrite <- A; auto.
Qed.
End Sim.

Lemma rename_id body : map (rename_instr (fun x => x)) body = body.
Proof. induction body as [|[d o a t] body IH]; cbn; auto. f_equal; auto. unfold rename_instr; cbn. rewrite map_id. auto. Qed.

(** ** Every verified operator computes a value of the right size *)
Lemma concat_part_length {A} (z : list A) k ax parts : (forall p idx, In p parts -> length (snd p idx) = k) -> length z = k ->
  forall idx, length (concat_t z ax parts idx) = k.
Proof.
  induction parts as [|[d t] parts IH]; intros H Hz idx; cbn [concat_t]; auto.
  destruct (nth ax idx 0 <? d); [apply (H (d, t)); left; auto|]. apply IH; auto. intros p x Hp. apply H. right; auto.
Qed.

Lemma le_bytes_length k : forall v, length (le_bytes k v) = k.
Proof. induction k as [|k IH]; intros v; cbn; auto. Qed.

Lemma compute_total c a r b : compute_ok c [a] r -> length b = tsize a -> exists b', sem_compute c [b] = Some b' /\ length b' = tsize r.
Proof.
  intros H Lb. unfold tsize in *. destruct c as [fc t q f bi|cv t q f bi|cv t q f bi|p|m ac si zi so zo]; cbn [compute_ok] in H.
  - destruct H as ((lead & rows & I & O & HL & Ei & Eo & Ed & Hr & HI & HO & _) & _ & _ & Sr & _ & Er). cbn [sem_compute]. eexists. split; [reflexivity|].
    rewrite Ed, Ei, removelast_lead, result_length, Sr, Er, fold_right_app. cbn [nth fold_right]. rewrite Z.mul_1_r.
    replace (fold_right Z.mul rows lead) with rows by (clear - HL; induction HL as [|v l <- F IH]; cbn [fold_right]; lia).
    destruct Eo as [-> | ->]; unfold nelem; cbn [map fold_right]; change (Z.to_nat 1) with 1; lia.
  - destruct H as (_ & _ & _ & Sr & _ & Er). cbn [sem_compute]. destruct (ConvLowerModel.c_in cv) as [[h w] d]. eexists. split; [reflexivity|].
    destruct (ConvLowerModel.c_out cv) as [[oh ow] od]. rewrite result_length, Sr, Er. cbn [image_shape nelem fold_right]. lia.
  - destruct H as (_ & _ & _ & Sr & _ & Er). cbn [sem_compute]. destruct (ConvLowerModel.c_in cv) as [[h w] d]. eexists. split; [reflexivity|].
    destruct (ConvLowerModel.c_out cv) as [[oh ow] od]. rewrite result_length, Sr, Er. cbn [image_shape nelem fold_right]. lia.
  - cbn [sem_compute]. destruct (ConvLowerModel.p_in p) as [[h w] d]. destruct (ConvLowerModel.p_out p) as [[oh ow] od].
    destruct (ConvLowerModel.p_filter p) as [fh fw]. destruct (ConvLowerModel.p_stride p) as [sh sw].
    destruct H as (_ & _ & _ & _ & _ & _ & _ & Sr & _ & Er). eexists. split; [reflexivity|].
    rewrite result_length, Sr, Er. cbn [image_shape nelem fold_right]. lia.
  - destruct H as (_ & _ & Sr & Ea & Er & _). cbn [sem_compute]. eexists. split; [reflexivity|]. rewrite map_length, seq_length, Lb, Sr, Ea, Er. reflexivity.
Qed.

Lemma op_total o vs r : op_ok o (map fst vs) r -> Forall (fun v => length (snd v) = tsize (fst v)) vs ->
  exists b, sem o vs r = Some b /\ length b = tsize r.
Proof.
  intros H S. destruct o; cbn [op_ok] in H; try contradiction.
  - (* slice *) destruct vs as [|(a & b) [|v vs]]; cbn [map fst] in H; try contradiction. destruct H as (_ & _ & E & _).
    cbn [sem]. eexists. split; [reflexivity|]. unfold tsize. rewrite E. apply bytes_of_length. intros idx _. apply stored_elem.
  - destruct vs as [|(a & b) [|v vs]]; cbn [map fst] in H; try contradiction. destruct H as (_ & _ & (E & _) & _).
    cbn [sem]. eexists. split; [reflexivity|]. unfold tsize. rewrite E. apply bytes_of_length. intros idx _. unfold pad_t.
    destruct (inside _ _ _); [apply stored_elem|apply le_bytes_length].
  - destruct vs as [|(a & b) [|v vs]]; cbn [map fst] in H; try contradiction. destruct H as (_ & E & _).
    cbn [sem]. eexists. split; [reflexivity|]. unfold tsize. rewrite E. apply bytes_of_length. intros idx _. apply stored_elem.
  - destruct H as (pre & post & ds & _ & _ & _ & E). cbn [sem]. eexists. split; [reflexivity|]. apply bytes_of_length. intros idx _.
    apply concat_part_length; [|apply repeat_length]. intros p x Hp. apply in_map_iff in Hp. destruct Hp as (v & <- & Hv). cbn [snd].
    rewrite stored_elem. rewrite Forall_forall in E. apply E. apply in_map; auto.
  - destruct vs as [|(a & b) [|v vs]]; cbn [map fst] in H; try contradiction. destruct H as (_ & _ & E & Ee & _).
    cbn [sem]. eexists. split; [reflexivity|]. unfold tsize. rewrite E, Ee. apply bytes_of_length. intros idx _. apply stored_elem.
  - destruct vs as [|(a & b) [|v vs]]; cbn [map fst] in H; try contradiction. destruct H as (_ & _ & _ & E & _ & Er).
    cbn [sem]. eexists. split; [reflexivity|]. rewrite flatten_length. unfold tsize. rewrite E, Er. lia.
  - destruct vs as [|(a & b) [|v vs]]; cbn [map fst] in H; try contradiction. destruct H as (E & Ee & _).
    cbn [sem]. eexists. split; [reflexivity|]. inversion S; subst. cbn [fst snd] in *. unfold tsize in *. rewrite E, Ee. auto.
  - destruct vs as [|(a & b) [|v vs]]; cbn [map fst] in H; try contradiction. destruct H as (_ & _ & E & _).
    cbn [sem]. eexists. split; [reflexivity|]. unfold tsize. rewrite E. apply bytes_of_length. intros idx _. apply stored_elem.
  - destruct vs as [|(a & b) [|v vs]]; cbn [map fst] in H; try contradiction. destruct H as (_ & E).
    cbn [sem]. eexists. split; [reflexivity|]. unfold tsize. apply bytes_of_length. intros idx _. apply E. apply stored_elem.
  - destruct vs as [|(a & b) vs]; cbn [map fst] in H; try contradiction. cbn [sem]. eexists. split; [reflexivity|auto].
  - cbn [sem]. destruct vs as [|(a & b) [|v vs]]; cbn [map fst] in H; [destruct c; destruct H| |destruct c; destruct H].
    inversion S as [|? ? Sb _]; subst. apply compute_total with (a := a); auto.
  - destruct vs as [|(a & x) [|(b & y) [|v vs]]]; cbn [map fst] in H; try contradiction.
    cbn [sem]. eexists. split; [reflexivity|]. unfold tsize. apply bytes_of_length. intros idx _. apply le_bytes_length.
  - destruct vs as [|(a & x) [|v vs]]; cbn [map fst] in H; try contradiction.
    cbn [sem]. eexists. split; [reflexivity|]. unfold tsize. apply bytes_of_length. intros idx _. apply le_bytes_length.
  - cbn [sem]. eexists. split; [reflexivity|]. apply H. clear H. induction S; cbn [map]; constructor; auto.
Qed.

(** ** Patterns *)
Definition gives_with (okp : fop -> list ty -> ty -> Prop) (e : env) (news : list instr) (d : nat) (r : ty) (b : list Z) (fresh : nat -> nat) : Prop :=
  exists e', exec_with okp news e e' /\ forall x, (forall k, x <> fresh k) -> lookup e' x = lookup ((d, (r, b)) :: e) x.

Notation gives := (gives_with ok).

Lemma single_gives {okp : fop -> list ty -> ty -> Prop} e d o args r vs b fresh : lookups e args = Some vs -> okp o (map fst vs) r ->
  sem o vs r = Some b -> length b = tsize r -> lookup e d = None -> gives_with okp e [Instr d o args r] d r b fresh.
Proof. intros L K S Z N. exists ((d, (r, b)) :: e). split; [|auto]. eapply exec_cons; cbn; eauto. constructor. Qed.

Lemma singleton_types vs (a : ty) : map fst vs = [a] -> exists b : list Z, vs = [(a, b)].
Proof. destruct vs as [|(t & b) [|v vs]]; try discriminate. intros H. injection H as ->. exists b. auto. Qed.

Lemma lookups_app {V} (e : list (nat * V)) xs : forall ys vs, lookups e (xs ++ ys) = Some vs <->
  exists v1 v2, lookups e xs = Some v1 /\ lookups e ys = Some v2 /\ vs = v1 ++ v2.
Proof.
  induction xs as [|x xs IH]; intros ys vs; cbn [app lookups]; split.
  - intros H. exists [], vs. auto.
  - intros (v1 & v2 & H1 & H2 & ->). injection H1 as <-. auto.
  - destruct (lookup e x) as [v|]; [|discriminate]. destruct (lookups e (xs ++ ys)) eqn:E; [|discriminate]. intros H. injection H as <-.
    apply IH in E. destruct E as (v1 & v2 & E1 & E2 & ->). rewrite E1. exists (v :: v1), v2. auto.
  - intros (v1 & v2 & H1 & H2 & ->). destruct (lookup e x) as [v|]; [|discriminate]. destruct (lookups e xs) as [w|] eqn:E; [|discriminate].
    injection H1 as <-. destruct (IH ys (w ++ v2)) as [_ K]. rewrite K; auto. exists w, v2. auto.
Qed.
Lemma lookups_length {V} (e : list (nat * V)) xs : forall vs, lookups e xs = Some vs -> length vs = length xs.
Proof.
  induction xs as [|x xs IH]; intros vs H; cbn in H; [injection H as <-; auto|].
  destruct (lookup e x); [|discriminate]. destruct (lookups e xs) eqn:E; [|discriminate]. injection H as <-. cbn. f_equal; auto.
Qed.
Lemma lookups_cons_other (e : env) d v xs : (forall x, In x xs -> x <> d) -> lookups ((d, v) :: e) xs = lookups e xs.
Proof.
  induction xs as [|x xs IH]; intros H; cbn [lookups]; auto. cbn [lookup]. destruct (Nat.eqb_spec x d) as [->|_]; [exfalso; apply (H d); [left; auto|auto]|].
  rewrite IH; auto. intros y Hy. apply H. right; auto.
Qed.
