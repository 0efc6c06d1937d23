From Verif Require Import Base NdSpec NdBase SlicePadModel CopyKernels SlicePadProofs SlicePadProofs2 LowerModel LowerSpec BroadcastProofs.

Lemma prodz_acc l : forall a, (fold_left Z.mul l a = a * prodz l)%Z.
Proof.
  unfold prodz. induction l as [|x l IH]; intros a; cbn [fold_left]; [lia|].
  rewrite (IH (a * x)%Z), (IH (1 * x)%Z). lia.
Qed.

Lemma prodz_nelem s : prodz (zn s) = Z.of_nat (nelem s).
Proof.
  induction s as [|d s IH]; auto. cbn [zn map nelem fold_right]. fold (nelem s).
  unfold prodz. cbn [fold_left]. rewrite prodz_acc. fold (zn s). rewrite IH. lia.
Qed.

Section C.
Context {B : Type}.

Lemma bytes_rows pre s (t : tensor (list B)) :
  bytes_of (pre ++ s) t = flat_map (fun p => bytes_of s (fun r => t (unravel pre p ++ r))) (seq 0 (nelem pre)).
Proof.
  unfold bytes_of. rewrite flatten_app, flatten_unravel, flat_map_map, concat_flat_map. auto.
Qed.

Lemma unravel_length s : forall k, length (unravel s k) = length s.
Proof. induction s as [|d s IH]; intros k; cbn; auto. Qed.

Definition shift_parts {A} (u : index) (parts : list (nat * tensor A)) : list (nat * tensor A) :=
  map (fun p => (fst p, fun r => snd p (u ++ r))) parts.

Lemma concat_t_shift {A} (z : A) parts : forall u i r,
  concat_t z (length u) parts (u ++ i :: r) = concat_t z 0 (shift_parts u parts) (i :: r).
Proof.
  induction parts as [|[d t] parts IH]; intros u i r; cbn [concat_t shift_parts map fst snd]; auto.
  rewrite app_nth2, Nat.sub_diag by lia. cbn [nth]. destruct (i <? d); auto.
  rewrite firstn_app, firstn_all, Nat.sub_diag. cbn [firstn]. rewrite app_nil_r.
  replace (skipn (S (length u)) (u ++ i :: r)) with r.
  - rewrite IH. auto.
  - replace (u ++ i :: r) with ((u ++ [i]) ++ r) by (rewrite <- app_assoc; auto).
    rewrite skipn_app. replace (length (u ++ [i])) with (S (length u)) by (rewrite app_length; cbn; lia).
    rewrite Nat.sub_diag, skipn_all2 by (rewrite app_length; cbn; lia). auto.
Qed.

Lemma flatten_concat0 {A} (z : A) post parts :
  flatten (sum_n (map fst parts) :: post) (concat_t z 0 parts) = flat_map (fun p => flatten (fst p :: post) (snd p)) parts.
Proof.
  induction parts as [|[d t] parts IH]; auto.
  cbn [map fst sum_n fold_right flat_map snd]. fold (sum_n (map fst parts)). rewrite <- IH.
  cbn [flatten]. rewrite seq_app, flat_map_app. f_equal.
  - apply flat_map_ext_in. intros i Hi. apply in_seq in Hi. apply flatten_ext. intros r. cbn [concat_t nth].
    replace (i <? d) with true by lia. auto.
  - cbn [Nat.add]. replace (seq d (sum_n (map fst parts))) with (seq (d + 0) (sum_n (map fst parts))) by (f_equal; lia).
    rewrite seq_shift_map, flat_map_map. apply flat_map_ext_in. intros i Hi. apply in_seq in Hi.
    apply flatten_ext. intros r. cbn [concat_t nth]. replace (d + i <? d) with false by lia.
    cbn [firstn app skipn]. do 2 f_equal. lia.
Qed.

Lemma concat_round_ok k pre post i parts : i < nelem pre ->
  (forall p, In p parts -> elem_bytes k (snd p)) ->
  concat_round (map (fun p => bytes_of (pre ++ fst p :: post) (snd p)) parts)
               (map (fun p : nat * tensor (list B) => Z.of_nat (k * nelem (fst p :: post))) parts) (Z.of_nat i)
  = Some (flat_map (fun p => bytes_of (fst p :: post) (snd p)) (shift_parts (unravel pre i) parts)).
Proof.
  intros Hi. induction parts as [|[d t] parts IH]; intros H; cbn [map concat_round]; auto.
  cbn [fst snd]. set (sz := k * nelem (d :: post)).
  assert (Ht : elem_bytes k t) by (apply (H (d, t)); left; auto).
  assert (Hr : forall j, length (bytes_of (d :: post) (fun r => t (unravel pre j ++ r))) = sz).
  { intros j. rewrite (bytes_length k) by (intros idx; apply Ht). unfold sz. lia. }
  rewrite <- Nat2Z.inj_mul, read_ok.
  - rewrite bytes_rows. pose proof (sub_blocks _ sz (nelem pre) i 1 Hr ltac:(lia)) as X.
    rewrite Nat.mul_1_l in X. rewrite X. cbn [seq flat_map]. rewrite app_nil_r.
    rewrite IH by (intros p Hp; apply H; right; auto). cbn [app_opt shift_parts map flat_map fst snd]. auto.
  - rewrite bytes_rows, (blocks_length _ sz Hr), seq_length. nia.
Qed.

Lemma concat_rounds_ok (ins : list (list B)) sizes (g : nat -> list B) n : forall i,
  (forall j, i <= j < i + n -> concat_round ins sizes (Z.of_nat j) = Some (g j)) ->
  concat_rounds ins sizes (Z.of_nat i) n = Some (flat_map g (seq i n)).
Proof.
  induction n as [|n IH]; intros i H; cbn [concat_rounds]; auto.
  rewrite H by lia. replace (Z.of_nat i + 1)%Z with (Z.of_nat (S i)) by lia. rewrite IH; auto.
  intros j Hj. apply H. lia.
Qed.

Lemma concat_bytes k pre post z (parts : list (nat * tensor (list B))) :
  (forall p, In p parts -> elem_bytes k (snd p)) ->
  concat_rounds (map (fun p => bytes_of (pre ++ fst p :: post) (snd p)) parts)
                (map (fun p : nat * tensor (list B) => Z.of_nat (k * nelem (fst p :: post))) parts) 0 (nelem pre)
  = Some (bytes_of (pre ++ sum_n (map fst parts) :: post) (concat_t z (length pre) parts)).
Proof.
  intros H. change 0%Z with (Z.of_nat 0).
  rewrite (concat_rounds_ok _ _ (fun i => flat_map (fun p => bytes_of (fst p :: post) (snd p)) (shift_parts (unravel pre i) parts))).
  - f_equal. rewrite bytes_rows. apply flat_map_ext. intros i.
    transitivity (bytes_of (sum_n (map fst (shift_parts (unravel pre i) parts)) :: post) (concat_t z 0 (shift_parts (unravel pre i) parts))).
    + unfold bytes_of at 2. rewrite flatten_concat0, concat_flat_map. auto.
    + replace (map fst (shift_parts (unravel pre i) parts)) with (map fst parts) by (unfold shift_parts; rewrite map_map; auto).
      unfold bytes_of. f_equal. apply flatten_ext_in. intros idx Hx. inversion Hx as [|j d r s Hj Hr]; subst.
      rewrite <- (unravel_length pre i), concat_t_shift. auto.
  - intros j Hj. apply concat_round_ok; auto. lia.
Qed.

Lemma replace_concat_ok k axis pre post z (parts : list (nat * tensor (list B))) :
  (forall p, In p parts -> elem_bytes k (snd p)) ->
  (axis = Z.of_nat (length pre) \/ axis = - Z.of_nat (S (length post)))%Z ->
  match replace_concat (Z.of_nat k) axis (map (fun p : nat * tensor (list B) => zn (pre ++ fst p :: post)) parts)
          (zn (pre ++ sum_n (map fst parts) :: post)) with
  | Lowered op => length parts <= 13 /\
      run_concat op (map (fun p => bytes_of (pre ++ fst p :: post) (snd p)) parts) =
      Some (bytes_of (pre ++ sum_n (map fst parts) :: post) (concat_t z (length pre) parts))
  | NotApplied => 13 < length parts
  | _ => False
  end.
Proof.
  intros H Ha. unfold replace_concat. rewrite map_length. change CONCAT_OP_MAX_INPUTS with 13.
  destruct (Nat.ltb_spec 13 (length parts)); auto.
  set (outs := pre ++ sum_n (map fst parts) :: post).
  assert (Hl : length (zn outs) = length pre + S (length post)) by (unfold zn, outs; rewrite map_length, app_length; auto).
  rewrite Hl.
  replace (if (axis <? 0)%Z then (Z.of_nat (length pre + S (length post)) + axis)%Z else axis) with (Z.of_nat (length pre)) by
    (destruct Ha as [-> | ->]; [replace (Z.of_nat (length pre) <? 0)%Z with false by lia; auto|
      replace (- Z.of_nat (S (length post)) <? 0)%Z with true by lia; lia]).
  replace (_ || _) with false by lia. rewrite Nat2Z.id.
  split; auto. unfold run_concat. cbn [c_copies c_num c_sizes]. rewrite map_length, Z.eqb_refl. cbn [negb].
  assert (Hf : firstn (length pre) (zn outs) = zn pre).
  { unfold zn, outs. rewrite map_app, firstn_app, map_length, Nat.sub_diag. cbn [firstn]. rewrite app_nil_r.
    apply firstn_all2. rewrite map_length. lia. }
  rewrite Hf, prodz_nelem. replace (Z.of_nat (nelem pre) <? 0)%Z with false by lia. cbn [orb]. rewrite Nat2Z.id.
  rewrite map_map.
  unfold outs. rewrite <- (concat_bytes k pre post z parts H). f_equal. apply map_ext. intros p.
  rewrite prodz_acc. unfold zn at 1. rewrite map_app. rewrite skipn_app, skipn_all2, map_length, Nat.sub_diag by (rewrite map_length; lia).
  cbn [skipn app]. change (map Z.of_nat (fst p :: post)) with (zn (fst p :: post)).
  rewrite prodz_nelem. lia.
Qed.
End C.

(** * Splitting *)
Lemma concat_t_app {A} (z : A) axis ps qs : forall idx, axis < length idx -> nth axis idx 0 < sum_n (map fst ps) ->
  concat_t z axis (ps ++ qs) idx = concat_t z axis ps idx.
Proof.
  induction ps as [|[d t] ps IH]; intros idx Hl Hi; cbn [app concat_t map fst sum_n fold_right] in *; [lia|].
  fold (sum_n (map fst ps)) in Hi. destruct (Nat.ltb_spec (nth axis idx 0) d); auto.
  assert (E : nth axis (firstn axis idx ++ nth axis idx 0 - d :: skipn (S axis) idx) 0 = nth axis idx 0 - d).
  { rewrite app_nth2; rewrite firstn_length_le by lia; auto. rewrite Nat.sub_diag. auto. }
  rewrite IH; auto; [|rewrite E; lia]. rewrite app_length, firstn_length_le by lia. cbn. lia.
Qed.

Lemma concat_t_skip {A} (z : A) axis ps qs : forall idx, axis < length idx -> sum_n (map fst ps) <= nth axis idx 0 ->
  concat_t z axis (ps ++ qs) idx =
  concat_t z axis qs (firstn axis idx ++ (nth axis idx 0 - sum_n (map fst ps)) :: skipn (S axis) idx).
Proof.
  induction ps as [|[d t] ps IH]; intros idx Hl Hi; cbn [app concat_t map fst sum_n fold_right] in *.
  - rewrite Nat.sub_0_r. f_equal. clear - Hl. revert idx Hl. induction axis as [|a IH]; intros [|i idx] Hl; cbn in *; try lia; auto.
    f_equal. apply IH. lia.
  - fold (sum_n (map fst ps)) in *. replace (nth axis idx 0 <? d) with false by lia.
    set (idx' := firstn axis idx ++ nth axis idx 0 - d :: skipn (S axis) idx).
    assert (Hf : length (firstn axis idx) = axis) by (apply firstn_length_le; lia).
    assert (E : nth axis idx' 0 = nth axis idx 0 - d).
    { unfold idx'. rewrite app_nth2; rewrite Hf; auto. rewrite Nat.sub_diag. auto. }
    rewrite IH; [|unfold idx'; rewrite app_length, Hf; cbn; lia|rewrite E; lia].
    rewrite E. f_equal. 
    assert (F1 : firstn axis idx' = firstn axis idx).
    { unfold idx'. rewrite firstn_app, Hf, Nat.sub_diag. cbn [firstn]. rewrite app_nil_r. apply firstn_all2. lia. }
    assert (F2 : skipn (S axis) idx' = skipn (S axis) idx).
    { unfold idx'. rewrite skipn_app, Hf. rewrite skipn_all2 by lia. replace (S axis - axis) with 1 by lia. auto. }
    rewrite F1, F2. f_equal. f_equal. lia.
Qed.

Lemma concat_t_nested {A} (z : A) axis ps qs idx : axis < length idx ->
  concat_t z axis ((sum_n (map fst ps), concat_t z axis ps) :: qs) idx = concat_t z axis (ps ++ qs) idx.
Proof.
  intros H. cbn [concat_t]. destruct (Nat.ltb_spec (nth axis idx 0) (sum_n (map fst ps))).
  - rewrite concat_t_app; auto.
  - rewrite concat_t_skip; auto.
Qed.

Section Split.
Context {A : Type} (z : A) (pre post : shape).
Let axis := length pre.
Let ty d := zn (pre ++ d :: post).

(** Value of a tree of concatenations; the size of each operand along the axis
    is read from its recorded type. *)
Fixpoint ceval (c : cvalue (tensor A)) : tensor A :=
  match c with
  | CInput _ t => t
  | CConcat _ args =>
      concat_t z (length pre) (map (fun a => (Z.to_nat (nth (length pre) (cvalue_type a) 0%Z), ceval a)) args)
  end.

Definition part (c : cvalue (tensor A)) : nat * tensor A := (Z.to_nat (nth (length pre) (cvalue_type c) 0%Z), ceval c).

(** Every concatenation has at most 13 operands and the right type. *)
Inductive narrow : cvalue (tensor A) -> nat -> Prop :=
| narrow_input d t : narrow (CInput (ty d) t) d
| narrow_concat args ds : length args <= 13 -> narrows args ds -> narrow (CConcat (ty (sum_n ds)) args) (sum_n ds)
with narrows : list (cvalue (tensor A)) -> list nat -> Prop :=
| narrows_nil : narrows [] []
| narrows_cons c d cs ds : narrow c d -> narrows cs ds -> narrows (c :: cs) (d :: ds).

Lemma narrow_type c d : narrow c d -> cvalue_type c = ty d.
Proof. intros H. inversion H; auto. Qed.

Lemma ty_nth d : nth_error (ty d) (length pre) = Some (Z.of_nat d).
Proof.
  unfold ty, zn. rewrite map_app, nth_error_app2; rewrite map_length; auto. rewrite Nat.sub_diag. auto.
Qed.

Lemma ty_nth' d : nth (length pre) (ty d) 0%Z = Z.of_nat d.
Proof. apply nth_error_nth. apply ty_nth. Qed.

Lemma narrow_part c d : narrow c d -> fst (part c) = d.
Proof. intros H. unfold part. cbn. rewrite (narrow_type _ _ H), ty_nth'. lia. Qed.

Lemma narrows_parts cs ds : narrows cs ds -> map fst (map part cs) = ds.
Proof. induction 1 as [|c d cs ds H F IH]; cbn [map]; auto. rewrite IH, (narrow_part _ _ H). auto. Qed.

Lemma narrows_split n cs : forall ds, narrows cs ds -> narrows (firstn n cs) (firstn n ds) /\ narrows (skipn n cs) (skipn n ds).
Proof.
  revert cs. induction n as [|n IH]; intros cs ds H; cbn [firstn skipn].
  - split; auto. constructor.
  - inversion H as [|c d cs' ds' H1 H2]; subst; [split; constructor|]. destruct (IH _ _ H2). split; [constructor|]; auto.
Qed.

Lemma narrows_sum cs ds : narrows cs ds ->
  sum_opt (map (fun v => nth_error (cvalue_type v) (length pre)) cs) = Some (Z.of_nat (sum_n ds)).
Proof.
  induction 1 as [|c d cs ds H F IH]; cbn [map sum_opt sum_n fold_right]; auto.
  rewrite (narrow_type _ _ H), ty_nth, IH. fold (sum_n ds). f_equal. lia.
Qed.

Lemma set_nth_ty d e : set_nth (length pre) (Z.of_nat d) (ty e) = ty d.
Proof. unfold ty, zn. clear. induction pre as [|x p IH]; cbn [length map app set_nth]; auto. f_equal. auto. Qed.

Lemma split_ok ax n : (ax = Z.of_nat (length pre) \/ (ax = -1 /\ post = []))%Z -> forall fuel args ds,
  narrows args ds -> sum_n ds = n -> length args < fuel ->
  exists args' ds', split_concat fuel ax (ty n) args = Lowered args' /\ narrows args' ds' /\ sum_n ds' = n /\
    length args' <= 13 /\ 
    forall idx, length pre < length idx -> concat_t z (length pre) (map part args') idx = concat_t z (length pre) (map part args) idx.
Proof.
  intros Hax fuel. induction fuel as [|fuel IH]; intros args ds Hn Hs Hf; [lia|].
  cbn [split_concat]. unfold split_concat_step. change CONCAT_OP_MAX_INPUTS with 13.
  destruct (Nat.leb_spec (length args) 13) as [Hle|Hgt].
  - exists args, ds. repeat split; auto.
  - assert (Ea : (if (ax =? -1)%Z then (Z.of_nat (length (ty n)) - 1)%Z else ax) = Z.of_nat (length pre)).
    { destruct Hax as [-> | [-> Hp]].
      - replace (Z.of_nat (length pre) =? -1)%Z with false by lia. auto.
      - change (-1 =? -1)%Z with true. cbn iota. unfold ty, zn. rewrite Hp, map_length, app_length. cbn [length]. lia. }
    rewrite Ea. replace (Z.of_nat (length pre) <? 0)%Z with false by lia. rewrite Nat2Z.id.
    destruct (narrows_split 13 _ _ Hn) as [N1 N2]. rewrite (narrows_sum _ _ N1).
    set (first := firstn 13 args) in *. set (rest := skipn 13 args) in *.
    assert (Nc : narrow (CConcat (ty (sum_n (firstn 13 ds))) first) (sum_n (firstn 13 ds))).
    { constructor; auto. unfold first. rewrite firstn_length. lia. }
    rewrite set_nth_ty.
    destruct (IH (CConcat (ty (sum_n (firstn 13 ds))) first :: rest) (sum_n (firstn 13 ds) :: skipn 13 ds))
      as (args' & ds' & E & R1 & R2 & R3 & R4).
    + constructor; auto.
    + cbn [sum_n fold_right]. fold (sum_n (skipn 13 ds)). rewrite <- Hs. rewrite <- (firstn_skipn 13 ds) at 3.
      unfold sum_n. clear. induction (firstn 13 ds) as [|x l IH]; cbn [app fold_right]; lia.
    + cbn [length]. unfold rest. rewrite skipn_length. lia.
    + exists args', ds'. repeat split; auto. intros idx Hidx. rewrite R4 by auto. cbn [map].
      assert (Ep : part (CConcat (ty (sum_n (firstn 13 ds))) first) = (sum_n (map fst (map part first)), concat_t z (length pre) (map part first))).
      { rewrite (narrows_parts _ _ N1). unfold part. cbn [cvalue_type ceval]. rewrite ty_nth', Nat2Z.id. auto. }
      rewrite Ep, concat_t_nested by auto. rewrite <- map_app. unfold first, rest. rewrite firstn_skipn. auto.
Qed.
End Split.
