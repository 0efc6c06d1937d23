(** Properties C21-C23: constants moved to the parameter file.
    Model: WeightsModel.  Runtime meaning: WeightsSpec.  [schedule] is any order in
    which the rewrite driver visits the load operators (repetitions allowed). *)
From Verif Require Import Base CopyKernels WeightsModel WeightsSpec WeightsProofs.
Local Open Scope nat_scope.

(** ** C21.  Every operand that was a constant [c] becomes a result of a LoadWeights
    operator placed at or before its user, and that result is read as exactly the
    bytes of [c] from the parameter file; all other operands are unchanged. *)
Theorem C21_weights_read_back ext attrs elems schedule ops :
  (forall c, stores (attrs c) (elems c)) ->
  (forall j i c, operand_at ops j i = Some (OLoad c) -> In c schedule) ->
  let s := run_write ext (fun c => get_tensor_data (attrs c)) schedule ops in
  length (st_ops s) = length ops /\
  (forall j, option_map (@length _) (nth_error (st_ops s) j) = option_map (@length _) (nth_error ops j)) /\
  forall j i o, operand_at (st_ops s) j i = Some o -> exists o0, operand_at ops j i = Some o0 /\
    match o0 with
    | OLoad c => exists w k lw, o = OWeight w k /\ nth_error (st_loads s) w = Some lw /\ w_before lw <= j /\
        fetch (flash_file (st_tensors s)) lw k = Some (concat (elems c)) /\ nth_error (w_consts lw) k = Some c
    | _ => o = o0
    end.
Proof.
  intros HS HC s. set (consts := fun c => get_tensor_data (attrs c)) in *.
  destruct (inv_run ext consts ops schedule) as (I1 & I2 & I3). fold s in I1, I2, I3. split; auto. split; auto.
  intros j i o Ho. destruct (I3 j i o Ho) as (o0 & H0 & R). exists o0. split; auto.
  destruct o0 as [c| |].
  - destruct R as [->|(c' & E & w & k & lw & E1 & E2 & E3 & E4 & E5)].
    + exfalso. apply (gone_run ext consts ops schedule c (HC _ _ _ H0) j i). auto.
    + inv E. exists w, k, lw. repeat split; auto. unfold flash_file. rewrite E4. unfold consts. f_equal. apply get_tensor_data_ok; auto.
  - destruct R as [->|(c' & E & _)]; [auto|discriminate].
  - destruct R as [->|(c' & E & _)]; [auto|discriminate].
Qed.

(** The array form: for tile RAM the header announces that parameters start at byte
    20, and the parameters there are the same as in the flash file; in external
    memory there is no header.  The announced size is the array's length. *)
Theorem C21_array_file ts :
  let '(bytes, size) := array_file false ts in
  le32 (skipn 8 bytes) = 20%Z /\ skipn 20 bytes = flash_file ts /\ size = Z.of_nat (length bytes) /\
  array_file true ts = (flash_file ts, Z.of_nat (length (flash_file ts))).
Proof. cbn. repeat split; auto. Qed.

(** ** C22.  Load ranges are in order, disjoint and inside the file; without external
    memory they cover the file without gaps; in external memory every address and
    the file length are multiples of 32 and each range is followed by less than 32
    bytes of padding. *)
Theorem C22_weights_packed ext consts schedule ops :
  let s := run_write ext consts schedule ops in
  let file := flash_file (st_tensors s) in
  packed ext 0 (st_loads s) (Z.of_nat (length file)) /\
  (forall i w, nth_error (st_loads s) i = Some w ->
     (0 <= w_address w)%Z /\ (w_address w + total_size w <= Z.of_nat (length file))%Z /\ w_ddr w = ext /\
     (extent ext w < total_size w + (if ext then 32 else 1))%Z) /\
  (forall i j w w', i < j -> nth_error (st_loads s) i = Some w -> nth_error (st_loads s) j = Some w' ->
     (w_address w + total_size w <= w_address w')%Z) /\
  (ext = true -> Z.of_nat (length file) mod 32 = 0 /\ forall w, In w (st_loads s) -> w_address w mod 32 = 0)%Z.
Proof.
  intros s file. destruct (packed_run ext consts schedule ops) as [P Q]. fold s in P, Q. fold (flash_file (st_tensors s)) in P. fold file in P.
  destruct (packed_disjoint ext (st_loads s) (fun w H => proj2 (Q w H)) _ _ P) as (_ & B & C).
  split; auto. split; [|split; auto].
  - intros i w Hw. destruct (B i w Hw). destruct (Q w (nth_error_In _ _ Hw)). repeat split; auto.
    unfold extent. destruct ext; [|lia]. Z.to_euclidean_division_equations. lia.
  - intros ->. apply packed_aligned in P; auto.
Qed.

(** ** C23.  [bytes dims c] is the size of constant [c]; [total0] what earlier runs in
    the same process have counted.  Hypotheses: each constant is below 2^31 bits and
    the running total does not overflow. *)
Theorem C23_external_selection max threshold dims total0 visits :
  Forall (sane dims) visits -> (0 <= total0)%Z -> (total0 + sumb dims visits < 2 ^ 31)%Z ->
  let s := select max threshold dims total0 visits in
  NoDup (s_ext s) /\
  (* only big constants, visited while the total was within the budget *)
  (forall c, In c (s_ext s) -> (bytes dims c > threshold)%Z /\ exists before after, visits = before ++ c :: after /\
     (s_total (select max threshold dims total0 before) <= max)%Z) /\
  (* and conversely: a big constant visited while the total is within the budget is selected *)
  (forall c before after, visits = before ++ c :: after -> (bytes dims c > threshold)%Z ->
     (s_total (select max threshold dims total0 before) <= max)%Z -> In c (s_ext s)) /\
  (* the total counts what was loaded and at most what was visited *)
  (sumb dims (s_ext s) <= s_total s - total0 <= sumb dims visits)%Z /\
  (* the image exceeds the budget by at most one constant *)
  (forall B, total0 = 0%Z -> (0 <= max)%Z -> (0 <= B)%Z -> Forall (fun c => bytes dims c <= B)%Z visits ->
     (sumb dims (s_ext s) <= max + B)%Z) /\
  (* within the budget, every big constant is selected *)
  ((total0 + sumb dims visits <= max)%Z -> forall c, In c visits -> (bytes dims c > threshold)%Z -> In c (s_ext s)).
Proof.
  intros F T O s.
  assert (O' : (total0 + sumb dims visits < 2 ^ 32)%Z) by (change (2 ^ 32)%Z with 4294967296%Z; change (2 ^ 31)%Z with 2147483648%Z in O; lia).
  destruct (select_ok max threshold dims visits (Sel total0 []) F T O' (NoDup_nil _)) as (I1 & I2 & I3 & I4 & I5 & _).
  fold (select max threshold dims total0 visits) in *. fold s in I1, I2, I3, I4, I5.
  split; auto. split; [|split; [|split; [|split]]].
  - intros c Hc. destruct (I5 c Hc) as [[]|(a & b & E & K & L)]. split; auto. exists a, b. auto.
  - intros c a b E Hb M. subst visits. unfold s, select. rewrite fold_left_app. cbn [fold_left].
    fold (select max threshold dims total0 a). apply select_keep. apply Forall_app in F. destruct F as [Fa Fb]. inv Fb.
    assert (SA : (sumb dims (a ++ c :: b) = sumb dims a + bytes dims c + sumb dims b)%Z).
    { clear. induction a as [|x a IH]; cbn [app sumb fold_right]; unfold sumb in *; [|rewrite IH]; cbn [fold_right]; lia. }
    pose proof (bytes_nonneg _ _ H1). pose proof (sumb_nonneg _ _ H2).
    destruct (select_ok max threshold dims a (Sel total0 []) Fa T ltac:(cbn [s_total]; lia) (NoDup_nil _)) as (_ & J2 & J3 & _).
    fold (select max threshold dims total0 a) in J2, J3. cbn [s_total] in J2, J3.
    destruct (visit_spec max threshold dims (select max threshold dims total0 a) c H1 ltac:(lia)) as (_ & V & _). rewrite V.
    unfold external_visit. replace (s_total (select max threshold dims total0 a) <=? max)%Z with true by lia.
    replace (bytes dims c >? threshold)%Z with true by lia.
    destruct (existsb (Nat.eqb c) (s_ext (select max threshold dims total0 a))) eqn:E; cbn [negb andb]; [|left; auto].
    apply existsb_exists in E. destruct E as (y & Hy & E). apply Nat.eqb_eq in E. subst; auto.
  - cbn [s_total s_ext] in *. unfold sumb at 2 in I4. cbn [fold_right] in I4. lia.
  - intros B T0 M HB FB.
    pose proof (select_budget max threshold dims visits (Sel total0 []) B F FB T O' HB) as K. cbn [s_total s_ext sumb fold_right] in *.
    fold (select max threshold dims total0 visits) in K. fold s in K. lia.
  - intros M c Hc Hb. apply (select_complete max threshold dims visits (Sel total0 [])); auto.
Qed.

(** The configured limit itself can be exceeded: one 1000-byte constant, limit 100. *)
Theorem C23_limit_exceeded : s_ext (select 100 96 (fun _ => (1000, 8)%Z) 0 [0]) = [0].
Proof. reflexivity. Qed.
(** Small constants that stay in the model, and repeated visits of them, use up the
    budget: the 200-byte constant 1 is left in the model although nothing has been
    loaded externally and the limit is 1000. *)
Theorem C23_budget_used_by_small_constants :
  s_ext (select 1000 96 (fun c => if Nat.eqb c 0 then (90, 8)%Z else (200, 8)%Z) 0 (repeat 0 12 ++ [1])) = [].
Proof. reflexivity. Qed.

(** Example: operator 0 uses constants 0 and 1 (1 also used by operator 1). *)
Definition ex_ops := [[OOther; OLoad 0; OLoad 1]; [OLoad 1; OOther]].
Definition ex_attrs (c : nat) : attr := if Nat.eqb c 0 then Attr true 3 [7]%Z else Attr false 2 [1; -2]%Z.
Example ex_stores : forall c, stores (ex_attrs c) (if Nat.eqb c 0 then [[7]; [7]; [7]]%Z else [[1]; [-2]]%Z).
Proof. intros [|c]; reflexivity. Qed.
Example ex_write : run_write false (fun c => get_tensor_data (ex_attrs c)) [0; 1] ex_ops =
  State [[OOther; OWeight 0 0; OWeight 0 1]; [OWeight 1 0; OOther]]
    [LoadWeights 0 [3; 2] false 0 [0; 1]%nat; LoadWeights 5 [2] false 1 [1]%nat]%Z [[7; 7; 7; 1; -2]; [1; -2]]%Z.
Proof. reflexivity. Qed.
Example ex_write_ddr : st_loads (run_write true (fun c => get_tensor_data (ex_attrs c)) [1; 0] ex_ops) =
  [LoadWeights 0 [2] true 0 [1]%nat; LoadWeights 32 [3] true 0 [0]%nat]%Z.
Proof. reflexivity. Qed.
Example ex_select : s_ext (select 1000 96 (fun c => (Z.of_nat c * 50, 8)%Z) 0 [1; 2; 3]) = [3; 2].
Proof. reflexivity. Qed.

Print Assumptions C21_weights_read_back.
Print Assumptions C21_array_file.
Print Assumptions C22_weights_packed.
Print Assumptions C23_external_selection.

(** The size is taken modulo 2^32 bits: a constant of 512 MB + 1 byte counts as one byte, and is not loaded externally. *)
Example C23_refuted_modulo : should_be_loaded_externally 1000 96 0 (2 ^ 29 + 1) 8 = (1, false)%Z.
Proof. reflexivity. Qed.
(** Without the bound on sizes: the size in bits is an int, so a constant of 256 MB makes the running total negative, which is read as
    a huge one: no constant after it is loaded externally. *)
Theorem C23_refuted_huge : forall max threshold dims later,
  (0 <= max < 2 ^ 31)%Z -> (0 <= threshold < 2 ^ 31)%Z -> dims 0 = (2 ^ 28, 8)%Z ->
  s_total (select max threshold dims 0 [0]) = (- 2 ^ 28)%Z /\
  s_ext (select max threshold dims 0 (0 :: later)) = [0].
Proof.
  intros max threshold dims later M TH D.
  assert (V : visit max threshold dims (Sel 0 []) 0 = Sel (- 2 ^ 28) [0]).
  { unfold visit, should_be_loaded_externally, to_unsigned. cbn [existsb s_ext s_total]. rewrite D. cbn [fst snd].
    change (0 mod 2 ^ 32)%Z with 0%Z. replace (0 >? max)%Z with false by lia.
    change (to_int (2 ^ 28 * 8)) with (-2147483648)%Z. change (Z.quot (-2147483648) 8) with (-268435456)%Z.
    change ((-268435456) mod 2 ^ 32)%Z with 4026531840%Z. change (2 ^ 31)%Z with 2147483648%Z in *. replace (4026531840 >? threshold)%Z with true by lia. reflexivity. }
  unfold select. cbn [fold_left]. rewrite V. split; [reflexivity|].
  assert (K : forall l, fold_left (visit max threshold dims) l (Sel (- 2 ^ 28) [0]) = Sel (- 2 ^ 28) [0]).
  { induction l as [|c l IH]; cbn [fold_left]; auto. unfold visit at 2. unfold should_be_loaded_externally, to_unsigned. cbn [s_total s_ext existsb].
    destruct (Nat.eqb c 0); cbn [orb]; auto. change ((- 2 ^ 28) mod 2 ^ 32)%Z with 4026531840%Z. change (2 ^ 31)%Z with 2147483648%Z in *.
    replace (4026531840 >? max)%Z with true by lia. exact IH. }
  rewrite K. reflexivity.
Qed.
Print Assumptions C23_refuted_huge.
