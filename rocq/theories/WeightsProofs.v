From Verif Require Import Base CopyKernels WeightsModel WeightsSpec.
Local Open Scope nat_scope.

Lemma get_tensor_data_ok a es : stores a es -> get_tensor_data a = concat es.
Proof.
  unfold stores, get_tensor_data. destruct (a_splat a); intros H.
  - rewrite H; auto.
  - cbn [repeat concat]. rewrite app_nil_r. auto.
Qed.

(** ** files *)
Lemma address_app (ts : list (list Z)) : forall a, fold_left (fun a t => (a + Z.of_nat (length t))%Z) ts a = (a + Z.of_nat (length (concat ts)))%Z.
Proof. induction ts as [|t ts IH]; intros a; cbn [fold_left concat length]; [lia|]. rewrite IH, app_length. lia. Qed.
Lemma address_len (ts : list (list Z)) : address ts = Z.of_nat (length (concat ts)).
Proof. unfold address. rewrite address_app. lia. Qed.

Lemma read_app_l {B} (l m : list B) p n x : read l p n = Some x -> read (l ++ m) p n = Some x.
Proof.
  unfold read. rewrite app_length. destruct ((0 <=? p) && (0 <=? n) && (p + n <=? Z.of_nat (length l)))%Z eqn:E; [|discriminate].
  intros H. replace ((0 <=? p) && (0 <=? n) && (p + n <=? Z.of_nat (length l + length m)))%Z with true by lia.
  rewrite <- H. f_equal. rewrite skipn_app, firstn_app.
  rewrite skipn_length. replace (Z.to_nat n - (length l - Z.to_nat p)) with 0 by lia. cbn. rewrite app_nil_r. auto.
Qed.

Lemma read_mid {B} (a x b : list B) : read (a ++ x ++ b) (Z.of_nat (length a)) (Z.of_nat (length x)) = Some x.
Proof.
  unfold read. rewrite !app_length.
  replace ((0 <=? Z.of_nat (length a)) && (0 <=? Z.of_nat (length x)) && (Z.of_nat (length a) + Z.of_nat (length x) <=? Z.of_nat (length a + (length x + length b))))%Z with true by lia.
  rewrite !Nat2Z.id. rewrite skipn_app, skipn_all, Nat.sub_diag. cbn [skipn app].
  rewrite firstn_app, firstn_all, Nat.sub_diag. cbn [firstn]. rewrite app_nil_r. auto.
Qed.

Lemma result_at_ok (ds : list (list Z)) : forall k d pos, nth_error ds k = Some d ->
  exists a b, concat ds = a ++ d ++ b /\
  result_at (map (fun d => Z.of_nat (length d)) ds) k pos = Some ((pos + Z.of_nat (length a))%Z, Z.of_nat (length d)).
Proof.
  induction ds as [|x ds IH]; intros [|k] d pos H; cbn [nth_error] in H; try discriminate.
  - inv H. exists [], (concat ds). split; auto. cbn [map result_at length]. do 2 f_equal. lia.
  - destruct (IH k d (pos + Z.of_nat (length x))%Z H) as (a & b & E & R).
    exists (x ++ a), b. split; [cbn [concat]; rewrite E, app_assoc; auto|].
    cbn [map result_at]. rewrite R, app_length. do 2 f_equal. lia.
Qed.

Lemma fetch_new pre ds post before ddr cs k d : nth_error ds k = Some d ->
  fetch (pre ++ concat ds ++ post) (LoadWeights (Z.of_nat (length pre)) (map (fun d => Z.of_nat (length d)) ds) ddr before cs) k = Some d.
Proof.
  intros H. unfold fetch. cbn [w_sizes w_address].
  destruct (result_at_ok ds k d (Z.of_nat (length pre)) H) as (a & b & E & R). rewrite R, E.
  replace (pre ++ (a ++ d ++ b) ++ post) with ((pre ++ a) ++ d ++ (b ++ post)) by (rewrite !app_assoc; auto).
  rewrite <- Nat2Z.inj_add, <- app_length. apply read_mid.
Qed.

(** ** combining the operands of one operator *)
Lemma combine_spec consts w l : forall k0 l' ds, combine_operands consts w k0 l = (l', ds) ->
  length l' = length l /\ ds = map consts (loaded l) /\
  (forall i o, nth_error l i = Some o ->
    (exists c k, o = OLoad c /\ nth_error l' i = Some (OWeight w (k0 + k)) /\ nth_error ds k = Some (consts c) /\ nth_error (loaded l) k = Some c) \/
    ((forall c, o <> OLoad c) /\ nth_error l' i = Some o)).
Proof.
  induction l as [|o l IH]; intros k0 l' ds H; cbn [combine_operands] in H.
  - inv H. split; auto. split; auto. intros [|i] o Ho; discriminate.
  - destruct o as [c|w' k'|].
    + destruct (combine_operands consts w (S k0) l) as [tl' ds'] eqn:E. inv H. destruct (IH _ _ _ E) as (L & M & N).
      split; [cbn; lia|]. split; [cbn; f_equal; exact M|]. intros [|i] o Ho; cbn [nth_error] in *.
      * inv Ho. left. exists c, 0. rewrite Nat.add_0_r. auto.
      * destruct (N i o Ho) as [(c' & k & -> & A & B & D)|R]; [left|right; auto].
        exists c', (S k). cbn [nth_error]. replace (k0 + S k) with (S k0 + k) by lia. auto.
    + destruct (combine_operands consts w k0 l) as [tl' ds'] eqn:E. inv H. destruct (IH _ _ _ E) as (L & M & N).
      split; [cbn; lia|]. split; [exact M|]. intros [|i] o Ho; cbn [nth_error] in *.
      * inv Ho. right. split; [congruence|auto].
      * apply N; auto.
    + destruct (combine_operands consts w k0 l) as [tl' ds'] eqn:E. inv H. destruct (IH _ _ _ E) as (L & M & N).
      split; [cbn; lia|]. split; [exact M|]. intros [|i] o Ho; cbn [nth_error] in *.
      * inv Ho. right. split; [congruence|auto].
      * apply N; auto.
Qed.

(** ** uses *)
Lemma in_combine_seq {X} (l : list X) : forall b j x, In (j, x) (combine (seq b (length l)) l) <-> (b <= j /\ nth_error l (j - b) = Some x).
Proof.
  induction l as [|y l IH]; intros b j x; cbn [length seq combine].
  - split; [easy|]. intros [_ H]. destruct (j - b); discriminate.
  - cbn [In]. rewrite IH. split.
    + intros [H|[H1 H2]]. * inv H. split; auto. rewrite Nat.sub_diag; auto.
      * split; [lia|]. replace (j - b) with (S (j - S b)) by lia. auto.
    + intros [H1 H2]. destruct (Nat.eq_dec j b) as [->|N].
      * left. rewrite Nat.sub_diag in H2. cbn in H2. congruence.
      * right. split; [lia|]. replace (j - b) with (S (j - S b)) in H2 by lia. auto.
Qed.

Lemma is_load_true c o : is_load c o = true <-> o = OLoad c.
Proof. destruct o; cbn; split; intros; try discriminate. - apply Nat.eqb_eq in H; congruence. - inv H. apply Nat.eqb_refl. Qed.

Lemma uses_in c ops j : In j (uses c ops) <-> exists i, operand_at ops j i = Some (OLoad c).
Proof.
  unfold uses, operand_at. rewrite in_flat_map. split.
  - intros ((u & l) & H1 & H2). apply in_combine_seq in H1. destruct H1 as [_ H1]. rewrite Nat.sub_0_r in H1. cbn [fst snd] in H2.
    pose proof (repeat_spec _ _ _ H2) as ->. rewrite H1.
    destruct (filter (is_load c) l) as [|o f] eqn:F; [easy|].
    assert (I : In o (filter (is_load c) l)) by (rewrite F; left; auto). apply filter_In in I. destruct I as [I E].
    apply is_load_true in E. subst o. apply In_nth_error. auto.
  - intros (i & H). destruct (nth_error ops j) as [l|] eqn:E; [|discriminate].
    exists (j, l). split; [apply in_combine_seq; rewrite Nat.sub_0_r; split; [lia|auto]|]. cbn [fst snd].
    assert (I : In (OLoad c) (filter (is_load c) l)). { apply filter_In. split; [apply nth_error_In with i; auto|apply is_load_true; auto]. }
    destruct (filter (is_load c) l); [easy|]. cbn. auto.
Qed.

Lemma first_owner_le us : forall a u, (a <= u \/ In u us -> fold_left (fun cur u => if Nat.ltb u cur then u else cur) us a <= u).
Proof.
  induction us as [|x us IH]; intros a u H; cbn [fold_left].
  - destruct H; [auto|easy].
  - apply IH. destruct (Nat.ltb_spec x a); destruct H as [H|[H|H]]; subst; auto; left; lia.
Qed.

Lemma nth_error_update {X} (x : X) l : forall u j, u < length l -> nth_error (update u x l) j = if Nat.eqb u j then Some x else nth_error l j.
Proof.
  induction l as [|y l IH]; intros [|u] [|j] H; cbn in *; try lia; auto. apply IH; lia.
Qed.
Lemma update_length {X} (x : X) l : forall u, length (update u x l) = length l.
Proof. induction l as [|y l IH]; intros [|u]; cbn; auto. Qed.

(** ** the invariant *)
Section Inv.
Variable ext : bool.
Variable consts : nat -> list Z.
Variable ops0 : list (list operand).

Definition served (s : state) (j c : nat) (o : operand) : Prop :=
  exists w k lw, o = OWeight w k /\ nth_error (st_loads s) w = Some lw /\ w_before lw <= j /\
    fetch (concat (st_tensors s)) lw k = Some (consts c) /\ nth_error (w_consts lw) k = Some c.

Definition corr (s : state) (j : nat) (o0 o : operand) : Prop :=
  o = o0 \/ exists c, o0 = OLoad c /\ served s j c o.

Definition inv (s : state) : Prop :=
  length (st_ops s) = length ops0 /\
  (forall j, option_map (@length _) (nth_error (st_ops s) j) = option_map (@length _) (nth_error ops0 j)) /\
  (forall j i o, operand_at (st_ops s) j i = Some o -> exists o0, operand_at ops0 j i = Some o0 /\ corr s j o0 o).

Lemma corr_mono s ops' lw ts j o0 o :
  corr s j o0 o -> corr (State ops' (st_loads s ++ [lw]) (st_tensors s ++ [ts])) j o0 o.
Proof.
  intros [->|(c & -> & w & k & lw' & -> & H1 & H2 & H3 & H4)]; [left; auto|right].
  exists c. split; auto. exists w, k, lw'. split; auto. split.
  - cbn [st_loads]. rewrite nth_error_app1; auto. apply nth_error_Some. congruence.
  - split; auto. split; auto. cbn [st_tensors]. rewrite concat_app. unfold fetch in *.
    destruct (result_at (w_sizes lw') k (w_address lw')) as [[p n]|]; [|discriminate]. apply read_app_l; auto.
Qed.

Lemma served_new s ops' lw ts j c k : w_before lw <= j -> fetch (concat (st_tensors s ++ [ts])) lw k = Some (consts c) ->
  nth_error (w_consts lw) k = Some c ->
  served (State ops' (st_loads s ++ [lw]) (st_tensors s ++ [ts])) j c (OWeight (length (st_loads s)) k).
Proof.
  intros H1 H2 H3. exists (length (st_loads s)), k, lw. split; auto. split; [|auto].
  cbn [st_loads]. rewrite nth_error_app2, Nat.sub_diag; auto.
Qed.

Lemma inv_step c s : inv s -> inv (write_weights ext consts c s).
Proof.
  intros (I1 & I2 & I3). unfold write_weights. destruct (uses c (st_ops s)) as [|u us] eqn:U; [repeat split; auto|].
  assert (Hu : exists i, operand_at (st_ops s) u i = Some (OLoad c)) by (apply uses_in; rewrite U; left; auto).
  destruct Hu as (i0 & Hu). unfold operand_at in Hu. destruct (nth_error (st_ops s) u) as [lu|] eqn:Eu; [|discriminate].
  assert (Lu : u < length (st_ops s)) by (apply nth_error_Some; congruence).
  destruct ((match us with [] => true | _ => false end) && negb ext) eqn:B.
  - rewrite (nth_error_nth _ _ _ Eu).
    destruct (combine_operands consts (length (st_loads s)) 0 lu) as [ops' ds] eqn:C.
    destruct (combine_spec _ _ _ _ _ _ C) as (CL & CD & CN).
    unfold inv. cbn [st_ops]. split; [rewrite update_length; auto|]. split.
    + intros j. rewrite nth_error_update by auto. destruct (Nat.eqb_spec u j) as [<-|]; [|apply I2].
      cbn [option_map]. rewrite CL. rewrite <- I2, Eu. auto.
    + intros j i o Ho. unfold operand_at in Ho. rewrite nth_error_update in Ho by auto.
      destruct (Nat.eqb_spec u j) as [<-|N].
      * assert (Hi : exists o', nth_error lu i = Some o').
        { destruct (nth_error lu i) eqn:X; [eauto|]. apply nth_error_None in X. rewrite <- CL in X. apply nth_error_None in X. congruence. }
        destruct Hi as (o' & Ho'). destruct (I3 u i o') as (o0 & H0 & R). { unfold operand_at. rewrite Eu; auto. }
        exists o0. split; auto. destruct (CN i o' Ho') as [(c' & k & -> & A & D & Dc)|(NL & A)].
        -- right. exists c'. destruct R as [R|(c'' & _ & w & k' & lw & R & _)]; [|discriminate].
           split; auto. rewrite A in Ho. inv Ho. apply served_new; [cbn; lia| |exact Dc].
           rewrite concat_app. cbn [concat]. rewrite app_nil_r. rewrite address_len.
           pose proof (fetch_new (concat (st_tensors s)) _ [] u false (loaded lu) k (consts c') D) as F. rewrite app_nil_r in F. exact F.
        -- rewrite A in Ho. inv Ho. apply corr_mono; auto.
      * destruct (I3 j i o Ho) as (o0 & H0 & R). exists o0. split; auto. apply corr_mono; auto.
  - unfold inv. cbn [st_ops]. split; [rewrite map_length; auto|]. split.
    + intros j. rewrite nth_error_map. rewrite <- I2. destruct (nth_error (st_ops s) j); cbn; auto. rewrite map_length; auto.
    + intros j i o Ho. unfold operand_at in Ho. rewrite nth_error_map in Ho.
      destruct (nth_error (st_ops s) j) as [l|] eqn:Ej; cbn [option_map] in Ho; [|discriminate].
      rewrite nth_error_map in Ho. destruct (nth_error l i) as [o'|] eqn:Ei; cbn [option_map] in Ho; [|discriminate].
      assert (OA : operand_at (st_ops s) j i = Some o') by (unfold operand_at; rewrite Ej; auto).
      destruct (I3 j i o' OA) as (o0 & H0 & R). exists o0. split; auto.
      destruct (is_load c o') eqn:IL; inv Ho; [|apply corr_mono; auto].
      apply is_load_true in IL. subst o'. right. exists c.
      destruct R as [R|(c'' & _ & w & k' & lw & R & _)]; [|discriminate]. split; auto.
      apply served_new; [| |reflexivity].
      * cbn [w_before]. apply first_owner_le. right. rewrite <- U. apply uses_in. eauto.
      * rewrite concat_app. cbn [concat]. rewrite app_nil_r. rewrite address_len.
        pose proof (fetch_new (concat (st_tensors s)) [consts c]
          (if ext then repeat 0%Z (Z.to_nat (to_be_padded (Z.of_nat (length (consts c))))) else []) (first_owner (u :: us)) ext [c] 0 (consts c) eq_refl) as F.
        cbn [concat map] in F. rewrite app_nil_r in F. exact F.
Qed.

Lemma inv_run schedule : inv (run_write ext consts schedule ops0).
Proof.
  unfold run_write. assert (H : inv (State ops0 [] [])).
  { split; auto. split; auto. intros j i o H. exists o. split; auto. left; auto. }
  revert H. generalize (State ops0 [] []). induction schedule as [|c sch IH]; intros s H; cbn [fold_left]; auto.
  apply IH. apply inv_step; auto.
Qed.

(** ** progress: visited constants are no longer loaded *)
Definition gone (c : nat) (s : state) : Prop := forall j i, operand_at (st_ops s) j i <> Some (OLoad c).

Lemma load_was s c j i c' : operand_at (st_ops (write_weights ext consts c s)) j i = Some (OLoad c') ->
  operand_at (st_ops s) j i = Some (OLoad c') /\ c' <> c.
Proof.
  unfold write_weights. destruct (uses c (st_ops s)) as [|u us] eqn:U.
  - intros H. split; auto. intros ->. assert (I : In j (uses c (st_ops s))) by (apply uses_in; eauto). rewrite U in I. easy.
  - assert (Hu : exists i, operand_at (st_ops s) u i = Some (OLoad c)) by (apply uses_in; rewrite U; left; auto).
    destruct Hu as (i0 & Hu). unfold operand_at in Hu. destruct (nth_error (st_ops s) u) as [lu|] eqn:Eu; [|discriminate].
    assert (Lu : u < length (st_ops s)) by (apply nth_error_Some; congruence).
    destruct ((match us with [] => true | _ => false end) && negb ext) eqn:B.
    + rewrite (nth_error_nth _ _ _ Eu).
      destruct (combine_operands consts (length (st_loads s)) 0 lu) as [ops' ds] eqn:C.
      destruct (combine_spec _ _ _ _ _ _ C) as (CL & CD & CN). cbn [st_ops]. unfold operand_at. rewrite nth_error_update by auto.
      destruct (Nat.eqb_spec u j) as [<-|N]; intros H.
      * destruct (nth_error lu i) as [o'|] eqn:Ei.
        -- destruct (CN i o' Ei) as [(c'' & k & _ & A & _ & _)|(NL & A)]; rewrite A in H; inv H. exfalso. apply (NL c'); auto.
        -- apply nth_error_None in Ei. rewrite <- CL in Ei. apply nth_error_None in Ei. congruence.
      * split; auto. intros ->. assert (I : In j (uses c (st_ops s))) by (apply uses_in; exists i; exact H).
        rewrite U in I. destruct us; [|discriminate]. destruct I as [I|[]]. congruence.
    + cbn [st_ops]. unfold operand_at. rewrite nth_error_map.
      destruct (nth_error (st_ops s) j) as [l|] eqn:Ej; cbn [option_map]; [|discriminate].
      rewrite nth_error_map. destruct (nth_error l i) as [o'|] eqn:Ei; cbn [option_map]; [|discriminate].
      destruct (is_load c o') eqn:IL; intros H; inv H. split; auto. intros ->. cbn in IL. rewrite Nat.eqb_refl in IL. discriminate.
Qed.

Lemma gone_run schedule c : In c schedule -> gone c (run_write ext consts schedule ops0).
Proof.
  unfold run_write. generalize (State ops0 [] []).
  assert (K : forall sch s, gone c s -> gone c (fold_left (fun s c => write_weights ext consts c s) sch s)).
  { induction sch as [|x sch IH]; intros s G; cbn [fold_left]; auto. apply IH. intros j i H. apply load_was in H. apply (G j i). tauto. }
  induction schedule as [|x sch IH]; intros s H; [easy|]. cbn [fold_left]. destruct H as [->|H]; [|apply IH; auto].
  apply K. intros j i H. apply load_was in H. tauto.
Qed.
End Inv.

(** ** packing *)
Lemma packed_app ext l w : forall pos mid, packed ext pos l mid -> w_address w = mid -> packed ext pos (l ++ [w]) (mid + extent ext w)%Z.
Proof.
  induction l as [|x l IH]; intros pos mid H E; cbn [packed app] in *.
  - subst. split; auto.
  - destruct H. split; auto.
Qed.

Lemma sum_lengths (ds : list (list Z)) : fold_right Z.add 0%Z (map (fun d => Z.of_nat (length d)) ds) = Z.of_nat (length (concat ds)).
Proof. induction ds as [|d ds IH]; auto. cbn [map fold_right concat]. rewrite IH, app_length. lia. Qed.

Definition pk_inv ext (s : state) : Prop :=
  packed ext 0 (st_loads s) (Z.of_nat (length (concat (st_tensors s)))) /\
  (forall w, In w (st_loads s) -> w_ddr w = ext /\ Forall (fun z => 0 <= z)%Z (w_sizes w)).

Lemma packed_step ext consts c s : pk_inv ext s -> pk_inv ext (write_weights ext consts c s).
Proof.
  intros [P Q]. unfold write_weights. destruct (uses c (st_ops s)) as [|u us]; [split; auto|].
  destruct ((match us with [] => true | _ => false end) && negb ext) eqn:B.
  - destruct (combine_operands consts (length (st_loads s)) 0 (nth u (st_ops s) [])) as [ops' ds].
    assert (ext = false) as -> by (destruct ext; auto; rewrite andb_false_r in B; discriminate).
    split; cbn [st_loads st_tensors].
    + rewrite concat_app, app_length. cbn [concat]. rewrite app_nil_r, Nat2Z.inj_add.
      set (w := LoadWeights _ _ _ _ _). replace (Z.of_nat (length (concat ds))) with (extent false w) by (unfold extent, total_size; cbn [w w_sizes]; apply sum_lengths).
      apply packed_app; auto. apply address_len.
    + intros w Hw. apply in_app_or in Hw. destruct Hw as [Hw|[<-|[]]]; auto. split; auto. cbn [w_sizes].
      apply Forall_map, Forall_forall. intros; lia.
  - split; cbn [st_loads st_tensors].
    + rewrite concat_app, app_length. cbn [concat]. rewrite app_nil_r, Nat2Z.inj_add.
      set (w := LoadWeights _ _ _ _ _).
      replace (Z.of_nat (length (consts c ++ (if ext then repeat 0%Z (Z.to_nat (to_be_padded (Z.of_nat (length (consts c))))) else [])))) with (extent ext w).
      { apply packed_app; auto. apply address_len. }
      unfold extent, total_size; cbn [w w_sizes fold_right]. rewrite app_length. rewrite Z.add_0_r.
      destruct ext; cbn [length]; [|lia]. rewrite repeat_length. unfold to_be_padded.
      Z.to_euclidean_division_equations. lia.
    + intros w Hw. apply in_app_or in Hw. destruct Hw as [Hw|[<-|[]]]; auto. split; auto. cbn [w_sizes]. repeat constructor. lia.
Qed.

Lemma packed_run ext consts schedule ops : pk_inv ext (run_write ext consts schedule ops).
Proof.
  unfold run_write. assert (H : pk_inv ext (State ops [] [])) by (split; [reflexivity|intros w []]).
  revert H. generalize (State ops [] []). induction schedule as [|c sch IH]; intros s H; cbn [fold_left]; auto.
  apply IH. apply packed_step; auto.
Qed.

Lemma total_nonneg w : Forall (fun z => 0 <= z)%Z (w_sizes w) -> (0 <= total_size w)%Z.
Proof. unfold total_size. induction 1; cbn [fold_right]; lia. Qed.

Lemma extent_ge ext w : (0 <= total_size w -> total_size w <= extent ext w)%Z.
Proof. intros H. unfold extent. destruct ext; [|lia]. Z.to_euclidean_division_equations. lia. Qed.

Lemma packed_disjoint ext l : (forall w, In w l -> Forall (fun z => 0 <= z)%Z (w_sizes w)) ->
  forall pos stop, packed ext pos l stop -> (pos <= stop)%Z /\
  (forall i w, nth_error l i = Some w -> (pos <= w_address w /\ w_address w + total_size w <= stop)%Z) /\
  (forall i j w w', i < j -> nth_error l i = Some w -> nth_error l j = Some w' -> (w_address w + total_size w <= w_address w')%Z).
Proof.
  induction l as [|x l IH]; intros HS pos stop H.
  - cbn in H. subst. split; [lia|]. split; [intros [|i]; discriminate|intros [|i] j w w' _; discriminate].
  - destruct H as [HA H]. destruct (IH ltac:(intros; apply HS; right; auto) _ _ H) as (B & C & D).
    pose proof (total_nonneg x (HS x (or_introl eq_refl))). pose proof (extent_ge ext x H0).
    split; [lia|]. split.
    + intros [|i] w Hw; cbn in Hw; [inv Hw; lia|]. specialize (C i w Hw). lia.
    + intros [|i] [|j] w w' L Hw Hw'; cbn in Hw, Hw'; try lia.
      * inv Hw. specialize (C j w' Hw'). lia.
      * apply (D i j); auto. lia.
Qed.

Lemma packed_aligned l : forall pos stop, packed true pos l stop -> (pos mod 32 = 0 -> stop mod 32 = 0 /\ forall w, In w l -> w_address w mod 32 = 0)%Z.
Proof.
  induction l as [|x l IH]; intros pos stop H P.
  - cbn in H. subst. split; auto. intros w [].
  - destruct H as [HA H]. destruct (IH _ _ H) as [A B].
    { unfold extent. Z.to_euclidean_division_equations. lia. }
    split; auto. intros w [<-|Hw]; auto. rewrite HA; auto.
Qed.

(** ** selection *)
Lemma to_int_small x : (0 <= x < 2 ^ 31)%Z -> to_int x = x.
Proof.
  intros H. unfold to_int. rewrite Z.mod_small by (change (2 ^ 31)%Z with 2147483648%Z in H; change (2 ^ 32)%Z with 4294967296%Z; lia).
  destruct (Z.ltb_spec x (2 ^ 31)); lia.
Qed.

Lemma should_spec max th dims c t : sane dims c -> (0 <= t < 2 ^ 32)%Z ->
  should_be_loaded_externally max th t (fst (dims c)) (snd (dims c)) =
  if (t >? max)%Z then (t, false) else ((t + bytes dims c)%Z, (bytes dims c >? th)%Z).
Proof.
  intros S T. unfold should_be_loaded_externally, to_unsigned. rewrite (Z.mod_small t) by auto.
  rewrite to_int_small by auto. unfold bytes.
  assert (E : Z.quot (fst (dims c) * snd (dims c)) 8 = (fst (dims c) * snd (dims c) / 8)%Z) by (apply Z.quot_div_nonneg; unfold sane in S; lia).
  rewrite E. rewrite (Z.mod_small (fst (dims c) * snd (dims c) / 8)); auto.
  unfold sane in S. change (2 ^ 31)%Z with 2147483648%Z in S. change (2 ^ 32)%Z with 4294967296%Z. 
  Z.to_euclidean_division_equations. lia.
Qed.

Lemma bytes_nonneg dims c : sane dims c -> (0 <= bytes dims c)%Z.
Proof. unfold sane, bytes. intros H. apply Z.div_pos; lia. Qed.
Lemma sumb_nonneg dims l : Forall (sane dims) l -> (0 <= sumb dims l)%Z.
Proof. induction 1; cbn [sumb fold_right]; [lia|]. pose proof (bytes_nonneg _ _ H). unfold sumb in IHForall. lia. Qed.

Section Sel.
Variables (max th : Z) (dims : nat -> Z * Z).

Definition external_visit (s : sel) (c : nat) : bool :=
  negb (existsb (Nat.eqb c) (s_ext s)) && (s_total s <=? max)%Z && (bytes dims c >? th)%Z.

Lemma visit_spec s c : sane dims c -> (0 <= s_total s < 2 ^ 32)%Z ->
  let s' := visit max th dims s c in
  (s_total s' = s_total s \/ (s_total s <= max /\ s_total s' = s_total s + bytes dims c))%Z /\
  s_ext s' = (if external_visit s c then c :: s_ext s else s_ext s) /\
  (external_visit s c = true -> s_total s' = s_total s + bytes dims c)%Z.
Proof.
  intros S T. unfold visit, external_visit. destruct (existsb (Nat.eqb c) (s_ext s)); cbn [negb andb].
  - split; auto. split; auto. discriminate.
  - rewrite should_spec by auto. destruct (s_total s >? max)%Z eqn:E; cbn [s_total s_ext].
    + replace (s_total s <=? max)%Z with false by lia. cbn [andb]. split; auto. split; auto. discriminate.
    + replace (s_total s <=? max)%Z with true by lia. cbn [andb].
      split; [right; split; [lia|]|split].
      * reflexivity.
      * reflexivity.
      * reflexivity.
Qed.

Lemma select_ok vs : forall s, Forall (sane dims) vs -> (0 <= s_total s)%Z -> (s_total s + sumb dims vs < 2 ^ 32)%Z -> NoDup (s_ext s) ->
  let s' := fold_left (visit max th dims) vs s in
  NoDup (s_ext s') /\ (s_total s <= s_total s')%Z /\ (s_total s' <= s_total s + sumb dims vs)%Z /\
  (sumb dims (s_ext s') - sumb dims (s_ext s) <= s_total s' - s_total s)%Z /\
  (forall c, In c (s_ext s') -> In c (s_ext s) \/
     exists vs1 vs2, vs = vs1 ++ c :: vs2 /\ (bytes dims c > th)%Z /\
       (s_total (fold_left (visit max th dims) vs1 s) <= max)%Z) /\
  (forall c, In c (s_ext s) -> In c (s_ext s')).
Proof.
  induction vs as [|c vs IH]; intros s F T B N; cbn [fold_left sumb fold_right].
  - repeat split; auto; try lia.
  - inv F. cbn [sumb fold_right] in B. fold (sumb dims vs) in *.
    pose proof (bytes_nonneg _ _ H1) as Pc. pose proof (sumb_nonneg _ _ H2) as Pv.
    destruct (visit_spec s c H1 ltac:(lia)) as (V1 & V2 & V3). set (s1 := visit max th dims s c) in *.
    assert (N1 : NoDup (s_ext s1)).
    { rewrite V2. unfold external_visit in *. destruct (existsb (Nat.eqb c) (s_ext s)) eqn:E; cbn [negb andb]; auto.
      assert (~ In c (s_ext s)). { intros I. assert (existsb (Nat.eqb c) (s_ext s) = true); [|congruence]. apply existsb_exists. exists c. split; auto. apply Nat.eqb_refl. }
      destruct ((s_total s <=? max)%Z && (bytes dims c >? th)%Z); auto. constructor; auto. }
    destruct (IH s1 H2 ltac:(lia) ltac:(lia) N1) as (I1 & I2 & I3 & I4 & I5 & I6).
    split; auto. split; [lia|]. split; [lia|]. split.
    { rewrite V2 in I4. destruct (external_visit s c) eqn:E.
      - cbn [sumb fold_right] in I4. fold (sumb dims (s_ext s)) in I4. rewrite (V3 eq_refl) in I4. lia.
      - lia. }
    split.
    + intros c' Hc. destruct (I5 c' Hc) as [K|(vs1 & vs2 & K1 & K2 & K3)].
      * rewrite V2 in K. destruct (external_visit s c) eqn:E; [|left; auto]. destruct K as [<-|K]; [|left; auto].
        right. exists [], vs. split; auto. unfold external_visit in E. cbn [fold_left]. split; lia.
      * right. exists (c :: vs1), vs2. subst vs. split; auto.
    + intros c' Hc. apply I6. rewrite V2. destruct (external_visit s c); auto. right; auto.
Qed.

Lemma select_keep vs : forall s c, In c (s_ext s) -> In c (s_ext (fold_left (visit max th dims) vs s)).
Proof.
  induction vs as [|x' vs IH]; intros s1 c K; cbn [fold_left]; auto. apply IH.
  unfold visit. destruct (existsb (Nat.eqb x') (s_ext s1)); auto.
  destruct (should_be_loaded_externally max th (s_total s1) (fst (dims x')) (snd (dims x'))) as [t b]. cbn [s_ext]. destruct b; auto. right; auto.
Qed.

(** when the whole budget is not exhausted, every big visited constant is external *)
Lemma select_complete vs : forall s, Forall (sane dims) vs -> (0 <= s_total s)%Z -> (s_total s + sumb dims vs < 2 ^ 32)%Z ->
  (s_total s + sumb dims vs <= max)%Z ->
  forall c, In c vs -> (bytes dims c > th)%Z -> In c (s_ext (fold_left (visit max th dims) vs s)).
Proof.
  induction vs as [|x vs IH]; intros s F T B M c Hc Hb; [easy|]. inv F. cbn [sumb fold_right fold_left] in *. fold (sumb dims vs) in *.
  pose proof (bytes_nonneg _ _ H1) as Px. pose proof (sumb_nonneg _ _ H2) as Pv.
  destruct (visit_spec s x H1 ltac:(lia)) as (V1 & V2 & V3). set (s1 := visit max th dims s x) in *.
  destruct Hc as [->|Hc]; [|apply IH; auto; lia].
  assert (K : In c (s_ext s1)).
  { rewrite V2. unfold external_visit. replace (s_total s <=? max)%Z with true by lia. replace (bytes dims c >? th)%Z with true by lia.
    destruct (existsb (Nat.eqb c) (s_ext s)) eqn:E; cbn [negb andb]; [|left; auto].
    apply existsb_exists in E. destruct E as (y & Hy & E). apply Nat.eqb_eq in E. subst; auto. }
  clear - K. revert K. generalize s1. clear s1. induction vs as [|x' vs IH]; intros s1 K; cbn [fold_left]; auto. apply IH.
  unfold visit. destruct (existsb (Nat.eqb x') (s_ext s1)); auto.
  destruct (should_be_loaded_externally max th (s_total s1) (fst (dims x')) (snd (dims x'))) as [t b]. cbn [s_ext]. destruct b; auto. right; auto.
Qed.

Lemma select_budget vs : forall s B, Forall (sane dims) vs -> Forall (fun c => bytes dims c <= B)%Z vs -> (0 <= s_total s)%Z ->
  (s_total s + sumb dims vs < 2 ^ 32)%Z -> (0 <= B)%Z ->
  (s_total s <= max + B)%Z -> (s_total (fold_left (visit max th dims) vs s) <= max + B)%Z.
Proof.
  induction vs as [|x vs IH]; intros s B F FB T O HB M; [auto|]. inv F. inv FB. cbn [sumb fold_right fold_left] in *. fold (sumb dims vs) in *.
  pose proof (bytes_nonneg _ _ H1) as Px. pose proof (sumb_nonneg _ _ H2) as Pv.
  destruct (visit_spec s x H1 ltac:(lia)) as (V1 & _). apply IH; auto; lia.
Qed.
End Sel.
