(** C87: fully connected layers in a whole function. *)
From Coq Require Import QArith Relations.
From Verif Require Import Base NdSpec NdBase FunOpsModel.
From Verif Require Import ConvSpec ConvLowerSpec ConvRunSpec ConvLowerModel.
From Verif Require Import FunOpsSpec FunOpsProofs SlicePadModel LowerModel FunModel FunSpec FunProofs FunProofs2 FunProps.
From Verif Require LutModel LutSpec FunOpsProps TransposeProofs.
Local Open Scope Z_scope.

Lemma unsigned_le_bytes k : forall v, unsigned_le (le_bytes k v) = v mod 256 ^ Z.of_nat k.
Proof.
  induction k as [|k IH]; intros v; [cbn; rewrite Z.mod_1_r; reflexivity|]. cbn [le_bytes unsigned_le]. rewrite IH.
  rewrite Nat2Z.inj_succ, Z.pow_succ_r, Z.mod_mod by lia. rewrite (Z.rem_mul_r v 256) by (try lia; apply Z.pow_nonzero; lia). reflexivity.
Qed.
Lemma concat_slice k l q : (forall x, In x l -> length x = k) -> (q < length l)%nat ->
  map (fun j => nth (q * k + j) (concat l) 0) (seq 0 k) = nth q l ([] : list Z).
Proof.
  revert q. induction l as [|x l IH]; intros q Hl Hq; [cbn in Hq; lia|]. cbn [concat]. pose proof (Hl x (or_introl eq_refl)) as Hx.
  destruct q as [|q]; cbn [nth].
  - cbn [Nat.mul Nat.add]. transitivity (map (fun k => nth k x 0) (seq 0 (length x))); [|apply TransposeProofs.nth_seq_map]. rewrite Hx. apply map_ext_in. intros j Hj. apply in_seq in Hj. rewrite app_nth1; auto. lia.
  - rewrite <- IH; [|intros y Hy; apply Hl; right; auto|cbn in Hq; lia]. apply map_ext. intros j.
    rewrite app_nth2 by (rewrite Hx; cbn; lia). f_equal. rewrite Hx. cbn. lia.
Qed.
(** Element (r, o) of a stored matrix. *)
Lemma matrix_at e R D v r o : (0 < e)%nat -> 0 <= r < R -> 0 <= o < D -> - 2 ^ (8 * Z.of_nat e - 1) <= v 0 r o < 2 ^ (8 * Z.of_nat e - 1) ->
  int_at e (result_bytes e (1, R, D) v) (Z.to_nat (r * D + o)) = v 0 r o.
Proof.
  intros He Hr Ho HB. unfold int_at, result_bytes, bytes_of. rewrite concat_slice.
  - rewrite flatten_unravel. set (n := nelem _).
    assert (K : (Z.to_nat (r * D + o) < n)%nat) by (unfold n, nelem; cbn [fold_right]; change (Z.to_nat 1) with 1%nat; nia).
    rewrite (nth_indep _ [] (le_bytes e 0)) by (rewrite map_length, seq_length; exact K).
    match goal with |- context [map ?g (seq 0 n)] => set (gg := g) end.
    rewrite (nth_indep _ (le_bytes e 0) (gg 0%nat)) by (rewrite map_length, seq_length; exact K). rewrite map_nth, seq_nth by exact K. cbn [Nat.add].
    assert (U : gg (Z.to_nat (r * D + o)) = le_bytes e (v 0 r o)).
    { unfold gg. assert (E : unravel [Z.to_nat 1; Z.to_nat R; Z.to_nat D] (Z.to_nat (r * D + o)) = [0%nat; Z.to_nat r; Z.to_nat o]).
      { cbn [unravel nelem fold_right]. rewrite !Nat.mul_1_r.
        assert (X : Z.to_nat (r * D + o) = (Z.to_nat o + Z.to_nat r * Z.to_nat D)%nat) by nia. rewrite X.
        assert (Y : (Z.to_nat o + Z.to_nat r * Z.to_nat D < Z.to_nat R * Z.to_nat D)%nat) by nia.
        rewrite (Nat.div_small _ _ Y), (Nat.mod_small _ _ Y), Nat.div_add, Nat.mod_add, Nat.div_small, Nat.mod_small by lia.
        rewrite Nat.div_1_r. reflexivity. }
      rewrite E, !Z2Nat.id by lia. reflexivity. }
    rewrite U, unsigned_le_bytes. replace (256 ^ Z.of_nat e) with (2 ^ (8 * Z.of_nat e)) by (rewrite (Z.pow_mul_r 2 8) by lia; reflexivity).
    assert (P : 2 ^ (8 * Z.of_nat e) = 2 * 2 ^ (8 * Z.of_nat e - 1)) by (rewrite <- Z.pow_succ_r by lia; f_equal; lia).
    rewrite P. set (h := 2 ^ (8 * Z.of_nat e - 1)) in *. clearbody h.
    set (u := v 0 r o) in *. clearbody u. destruct (Z.le_gt_cases 0 u) as [Hu|Hu].
    + rewrite Z.mod_small by lia. replace (u <? h) with true by lia. reflexivity.
    + replace (u mod (2 * h)) with (u + 2 * h) by (rewrite <- (Z.mod_add u 1) by lia; rewrite Z.mul_1_l, Z.mod_small by lia; reflexivity).
      replace (u + 2 * h <? h) with false by lia. lia.
  - intros x Hx. rewrite flatten_unravel in Hx. apply in_map_iff in Hx. destruct Hx as (k & <- & _).
    destruct (unravel _ k) as [|a [|b [|c [|? ?]]]]; apply le_bytes_len.
  - rewrite flatten_length. unfold nelem; cbn [fold_right]. change (Z.to_nat 1) with 1%nat. nia.
Qed.

(** ** A function that is one fully connected layer, after any number of passes: each element of the result is the row of the input times the row of
    the filter plus the bias, requantised and clamped by the activation. *)
Theorem C87_fully_connected_layer : forall (x y : nat) fc t q f bi a r b f' lead rows I O,
  fl_in fc = lead ++ [rows; I] -> fl_dims fc = [O; I] ->
  compute_ok (CFull fc t q f bi) [a] r -> x <> y -> length b = tsize a ->
  - 2 ^ (8 * Z.of_nat (t_elem r) - 1) <= q_lo q -> q_hi q < 2 ^ (8 * Z.of_nat (t_elem r) - 1) ->
  clos_refl_trans _ lower_step (Func [(x, a)] [Instr y (TCompute (CFull fc t q f bi)) [x] r] [y]) f' ->
  exists out, evaluate f' [b] = Some [(r, out)] /\ length out = (Z.to_nat rows * Z.to_nat O * t_elem r)%nat /\
    forall k o, 0 <= k < rows -> 0 <= o < O ->
      int_at (t_elem r) out (Z.to_nat (k * O + o)) =
      tflite_value (q_lo q) (q_hi q) (q_zp q) (q_6 q) (q_1 q) (q_m1 q) t
        (q_scale q o (nth (Z.to_nat o) bi 0 + sum_to I (fun i => (int_at (t_elem a) b (Z.to_nat (k * I + i)) - fl_in_zp fc) * nth (Z.to_nat (o * I + i)) f 0))).
Proof.
  intros x y fc t q f bi a r b f' lead rows I O Ei Ed OK Ne Lb Lo Hi St.
  destruct (C72_lowering_preserves (Func [(x, a)] [Instr y (TCompute (CFull fc t q f bi)) [x] r] [y]) f' [b]) as (res & E1 & E2).
  - split; [repeat constructor; auto|]. cbn [f_params f_body f_rets]. split.
    + cbn [verified_body i_dst i_args i_op i_ty lookup lookups]. rewrite Nat.eqb_refl. destruct (Nat.eqb_spec y x); [congruence|].
      split; [reflexivity|]. split; [exists [a]; split; [reflexivity|exact OK]|auto].
    + intros z [<-|[]]. exists r. cbn. rewrite Nat.eqb_refl. reflexivity.
  - exact St.
  - constructor; [exact Lb|constructor].
  - assert (E3 : evaluate (Func [(x, a)] [Instr y (TCompute (CFull fc t q f bi)) [x] r] [y]) [b] = option_map (fun o => [(r, o)]) (sem_compute (CFull fc t q f bi) [b])).
    { unfold evaluate. cbn [f_params f_body f_rets start combine map fst snd eval_body i_args i_op i_ty i_dst lookups lookup]. rewrite Nat.eqb_refl.
      cbn [sem map snd]. destruct (sem_compute (CFull fc t q f bi) [b]); cbn [option_map lookups lookup]; [rewrite Nat.eqb_refl|]; reflexivity. }
    destruct (compute_total (CFull fc t q f bi) a r b OK Lb) as (out & S & Lout). rewrite S in E3. cbn [option_map] in E3. rewrite E3 in E1. injection E1 as <-.
    exists out. split; [exact E2|].
    cbn [compute_ok] in OK. destruct OK as ((lead' & rows' & I' & O' & HL & Ei' & Eo & Ed' & Hr & HI & HO & _ & _ & QO & _ & _) & _ & _ & Sr & Ea & Er).
    rewrite Ed in Ed'. injection Ed' as <- <-. rewrite Ei in Ei'.
    assert (L2 : lead = lead' /\ rows = rows').
    { change (lead ++ [rows; I]) with (lead ++ [rows] ++ [I]) in Ei'. change (lead' ++ [rows'; I]) with (lead' ++ [rows'] ++ [I]) in Ei'. rewrite !app_assoc in Ei'.
      apply app_inj_tail in Ei'. destruct Ei' as [Ei' _]. apply app_inj_tail in Ei'. exact Ei'. }
    destruct L2 as [<- <-].
    assert (RW : fold_right Z.mul 1 (removelast (fl_in fc)) = rows).
    { rewrite Ei, removelast_lead, fold_right_app. cbn [fold_right]. rewrite Z.mul_1_r. clear - HL. induction HL as [|v l <- F IH]; cbn [fold_right]; lia. }
    cbn [sem_compute] in S. rewrite Ed, RW in S. cbn [nth] in S. apply (f_equal (fun z => match z with Some w => w | None => [] end)) in S. cbv beta iota in S. subst out. rewrite Ea, Er in *.
    split; [rewrite result_length; change (Z.to_nat 1) with 1%nat; lia|].
    intros k o Hk Ho. rewrite matrix_at; [reflexivity| |assumption|assumption|].
    + destruct (fl_i16 fc); cbn; lia.
    + unfold full_result, tflite_value. destruct QO as (_ & Q1 & Q2 & Q3 & Q4). clear - Lo Hi Q1 Q2 Q3 Q4.
      set (h := 2 ^ _) in *. clearbody h. unfold clampZ. match goal with |- context [q_scale q o ?z] => set (acc := q_scale q o z) end. clearbody acc.
      destruct t; cbn [ConvLowerSpec.activation_range fst snd]; lia.
Qed.

(** No fully connected layer is left when no pattern applies. *)
Theorem C87_no_fully_connected_left : forall f f', verified f -> clos_refl_trans _ lower_step f f' -> (forall g, ~ lower_step f' g) ->
  forall i fc t q w b, In i (f_body f') -> i_op i <> TCompute (CFull fc t q w b).
Proof.
  intros f f' V St NS i fc t q w b Hi E. pose proof (C72_normal_form f f' V St NS) as N. rewrite Forall_forall in N. specialize (N i Hi).
  unfold left_over in N. rewrite E in N. exact N.
Qed.
(** ** Two rows of 4 values to two rows of 4, with a Relu (zero point -100): reshape, 1x1 convolution, lookup, reshape *)
Definition fx_filter : list Z := map (fun i => Z.of_nat i mod 7 - 3) (seq 0 16).
Definition fx_q : quant := Quant (-128) 127 (-100) 20 (-80) (-120) (1 # 20) (fun o acc => acc / (4 + o) - 100) (1 # 4) (1 # 10, 0)%Q
  (map (fun v => v mod 256) fx_filter) [10; 236; 30; 216; 4] FunOpsProps.ex_read.
Definition fx_full : fully := Full false [1; 2; 4] [2; 4] [4; 4] (-5).
Definition fx_op : compute := CFull fx_full RELU fx_q fx_filter FunOpsProps.ex_bias.
Definition fx_in : ty := Ty [1; 2; 4]%nat 1 (Some (-5)).
Definition fx_out : ty := Ty [2; 4]%nat 1 (Some (-100)).
Definition fx_fun : func := Func [(0%nat, fx_in)] [Instr 1 (TCompute fx_op) [0%nat] fx_out] [1%nat].
Definition fx_cv : conv := mk_conv false (1, 2, 4) (1, 2, 4) (1, 1, 4) VALID [] (1, 1) (1, 1) (-5).
Definition fx_lowered : func :=
  let m := Ty [1; 1; 2; 4]%nat 1 in
  Func [(0%nat, fx_in)]
    [Instr 2 TReshape [0%nat] (m (Some (-5)));
     Instr 10 (TConst (q_weights fx_q)) [] (Ty [16%nat] 1 None); Instr 11 (TConst (q_muls fx_q)) [] (Ty [5%nat] 1 None);
     Instr 4 (XCompute (XConv ValidIndirect fx_cv (mk_args false (0, 0)) Group no_chain fx_q (fun _ => 0))) [2; 10; 11]%nat (m (Some (-100)));
     Instr 20 (TConst FunOpsProps.relu_table) [] (Ty [256%nat] 1 None);
     Instr 3 (XCompute XLookup) [4%nat; 20%nat] (m (Some (-100)));
     Instr 1 TReshape [3%nat] fx_out] [1%nat].
Lemma fx_ok : compute_ok fx_op [fx_in] fx_out.
Proof.
  cbn [fx_op compute_ok]. split; [|repeat split].
  exists [1], 2, 4, 4. split; [repeat constructor|]. split; [reflexivity|]. split; [left; reflexivity|]. split; [reflexivity|].
  split; [lia|]. split; [lia|]. split; [lia|]. split; [discriminate|]. split; [split; reflexivity|]. split; [vm_compute; repeat split; intros; discriminate|].
  split; [|reflexivity]. right; left. split; [reflexivity|]. right; reflexivity.
Qed.
Example C87_concrete : verified fx_fun /\ clos_refl_trans _ lower_step fx_fun fx_lowered /\
  option_map (map snd) (evaluate fx_lowered [[1; 2; 3; 4; 251; 100; 200; 0]]) = option_map (map snd) (evaluate fx_fun [[1; 2; 3; 4; 251; 100; 200; 0]]) /\
  option_map (map snd) (evaluate fx_fun [[1; 2; 3; 4; 251; 100; 200; 0]]) = Some [[156; 156; 159; 156; 156; 160; 156; 215]].
Proof.
  split; [|split; [|split; vm_compute; reflexivity]].
  - split; [repeat constructor; auto|]. cbn [fx_fun f_params f_body f_rets]. split; [|intros x [<-|[]]; eexists; reflexivity].
    cbn [verified_body i_dst i_args i_op i_ty]. split; [reflexivity|]. split; [eexists; split; [reflexivity|exact fx_ok]|exact I].
  - assert (FR : forall f n, forallb (fun x => x <? n)%nat (map fst (f_params f) ++ flat_map (fun i => i_dst i :: i_args i) (f_body f) ++ f_rets f) = true -> forall k, ~ mentioned f (n + k)).
    { intros f n H k M. rewrite forallb_forall in H. enough (X : In (n + k)%nat (map fst (f_params f) ++ flat_map (fun i => i_dst i :: i_args i) (f_body f) ++ f_rets f)) by (specialize (H _ X); apply Nat.ltb_lt in H; lia).
      rewrite !in_app_iff. destruct M as [M|[M|M]]; auto. right; left. apply Exists_exists in M. destruct M as (i & Hi & [E|E]); apply in_flat_map; exists i; split; auto; [left|right]; auto. }
    unfold fx_fun, fx_lowered. set (ps := [(0%nat, fx_in)]). set (m := Ty [1; 1; 2; 4]%nat 1).
    set (j1 := Instr 2 TReshape [0%nat] (m (Some (-5)))). set (j9 := Instr 1 TReshape [3%nat] fx_out).
    set (c3 := CConv fx_cv (mk_attr 1 1 RELU VALID 1 1 1) fx_q fx_filter FunOpsProps.ex_bias).
    set (k3 := Instr 3 (TCompute c3) [2%nat] (m (Some (-100)))).
    set (c4 := CConv fx_cv (mk_attr 1 1 NONE VALID 1 1 1) fx_q fx_filter FunOpsProps.ex_bias).
    set (k4 := Instr 4 (TCompute c4) [2%nat] (m (Some (-100)))).
    set (k5 := Instr 3 (TCompute (CAct FunOpsProps.ex_m LutModel.Relu (1 # 20) (-100) (1 # 20) (-100))) [4%nat] (m (Some (-100)))).
    set (w1 := Instr 10 (TConst (q_weights fx_q)) [] (Ty [16%nat] 1 None)). set (w2 := Instr 11 (TConst (q_muls fx_q)) [] (Ty [5%nat] 1 None)).
    set (j4 := Instr 4 (XCompute (XConv ValidIndirect fx_cv (mk_args false (0, 0)) Group no_chain fx_q (fun _ => 0))) [2; 10; 11]%nat (m (Some (-100)))).
    set (w3 := Instr 20 (TConst FunOpsProps.relu_table) [] (Ty [256%nat] 1 None)). set (j5 := Instr 3 (XCompute XLookup) [4%nat; 20%nat] (m (Some (-100)))).
    apply rt_trans with (Func ps [j1; k3; j9] [1%nat]).
    { apply rt_step. apply (Replace ps [] (Instr 1 (TCompute fx_op) [0%nat] fx_out) [] [1%nat] [fx_in] (Nat.add 2) [j1; k3; j9]); [reflexivity| |intros; lia|apply FR; reflexivity].
      apply (PConv1x1 (Nat.add 2) (fun _ => 0) fx_in 1%nat fx_op [0%nat] fx_out [1; 1; 2; 4]%nat c3 [1; 1; 2; 4]%nat [2; 4]%nat). reflexivity. }
    apply rt_trans with (Func ps [j1; k4; k5; j9] [1%nat]).
    { apply rt_step. apply (Replace ps [j1] k3 [j9] [1%nat] [m (Some (-5))] (Nat.add 4) [k4; k5]); [reflexivity| |intros; lia|apply FR; reflexivity]. apply (PRelu (Nat.add 4) (fun _ => 0)). reflexivity. }
    apply rt_trans with (Func ps [j1; w1; w2; j4; k5; j9] [1%nat]).
    { apply rt_step. apply (Replace ps [j1] k4 [k5; j9] [1%nat] [m (Some (-5))] (Nat.add 10) [w1; w2; j4]); [reflexivity| |intros; lia|apply FR; reflexivity].
      apply (PKernel (Nat.add 10) (fun _ => 0) (m (Some (-5))) 4%nat c4 [2%nat] (m (Some (-100))) _ [q_weights fx_q; q_muls fx_q]). reflexivity. }
    apply rt_step. apply (Replace ps [j1; w1; w2; j4] k5 [j9] [1%nat] [m (Some (-100))] (Nat.add 20) [w3; j5]); [reflexivity| |intros; lia|apply FR; reflexivity].
    apply (PKernel (Nat.add 20) (fun _ => 0) (m (Some (-100))) 3%nat _ [4%nat] (m (Some (-100))) XLookup [FunOpsProps.relu_table]). vm_compute. reflexivity.
Qed.
Print Assumptions C87_fully_connected_layer.
Print Assumptions C87_no_fully_connected_left.
