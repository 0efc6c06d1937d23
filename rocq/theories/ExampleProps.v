(** Properties C98, C99: the example applications around the model.  Vocabulary: ExampleSpec, MemPlanSpec, MemExecSpec. *)
From Coq Require Import Sorted Permutation.
From Verif Require Import Base MemPlanModel MemPlanSpec MemExecSpec MemPlanProps ExampleModel ExampleSpec ExampleProofs.
Local Open Scope Z_scope.

(* ------------------------------------------------------------------ *)
(** ** C98: the image stored in the tensor arena *)

(** After the copy, the input tensor holds the image. *)
Definition input_received (image : list Z) (z : Z) (m : memory) : Prop :=
  forall i, (i < length image)%nat -> as_int8 (m (z + Z.of_nat i)) = nth i (centred image) 0.

Lemma as_int8_centred x : 0 <= x <= 255 -> as_int8 ((x - 128) mod 256) = x - 128.
Proof.
  intros H. unfold as_int8. destruct (Z.ltb_spec ((x - 128) mod 256) 128); Z.to_euclidean_division_equations; lia.
Qed.
Lemma centred_nth image i : (i < length image)%nat -> nth i (centred image) 0 = nth i image 0 - 128.
Proof. intros H. unfold centred. rewrite (nth_indep _ 0 (0 - 128)) by (rewrite map_length; auto). apply (map_nth (fun x => x - 128)). Qed.
Lemma uint8s_nth image i : uint8s image -> (i < length image)%nat -> 0 <= nth i image 0 <= 255.
Proof. intros U H. apply U. apply nth_In; auto. Qed.

(** Wrong whenever the input tensor starts inside the image: then one byte is overwritten before it is read. *)
Theorem C98_spoiled image z m :
  uint8s image -> image_loaded image m -> 0 < z < Z.of_nat (length image) ->
  (nth (Z.to_nat z) image 0 - nth 0 image 0) mod 256 <> 128 ->
  ~ input_received image z (copy_image z 0 (length image) m).
Proof.
  intros U L Hz Hd H. specialize (H (Z.to_nat z) ltac:(lia)). rewrite Z2Nat.id in H by lia.
  rewrite copy_spoiled in H by lia. rewrite centred_nth in H by lia.
  pose proof (L 0%nat ltac:(lia)) as L0. change (Z.of_nat 0) with 0 in L0. rewrite L0 in H.
  pose proof (uint8s_nth image 0 U ltac:(lia)) as B0. pose proof (uint8s_nth image (Z.to_nat z) U ltac:(lia)) as Bz.
  apply Hd. clear Hd L0 L. revert B0 Bz H. generalize (nth 0 image 0). intros a Ha. generalize (nth (Z.to_nat z) image 0). intros b Hb H. clear - Ha Hb H.
  unfold as_int8 in H. destruct (Z.ltb_spec (((a - 128) mod 256 - 128) mod 256) 128); Z.to_euclidean_division_equations; lia.
Qed.

(** The copy is right for every image exactly when the input tensor is at the start of the arena or after the image. *)
Theorem C98_copy_exactly n z : (0 < n)%nat -> 0 <= z ->
  (forall image m, length image = n -> uint8s image -> image_loaded image m ->
     input_received image z (copy_image z 0 (length image) m)) <-> z = 0 \/ Z.of_nat n <= z.
Proof.
  intros Hn Hz. split.
  - intros H. destruct (Z.eq_dec z 0) as [|Nz]; [auto|]. destruct (Z.lt_ge_cases z (Z.of_nat n)) as [Lt|]; [|lia]. exfalso.
    assert (E : image_loaded (repeat 0 n) (fun _ => 0)).
    { intros i Hi. rewrite nth_repeat. auto. }
    assert (U : uint8s (repeat 0 n)) by (intros x Hx; apply repeat_spec in Hx; lia).
    apply (C98_spoiled (repeat 0 n) z (fun _ => 0) U E); [rewrite repeat_length; lia| |].
    + rewrite !nth_repeat. cbn. lia.
    + apply H; auto. apply repeat_length.
  - intros Hp image m <- U L i Hi. rewrite copy_inside by lia. rewrite centred_nth by auto.
    rewrite (L i Hi). apply as_int8_centred. apply uint8s_nth; auto.
Qed.

(** A plan without in-place operators never puts a tensor inside the bytes of its own size at the start of the arena. *)
Theorem C98_plain_plan iter g po0 pl :
  (forall m, Permutation (iter m) m) -> wf_graph g -> get_allocated_offsets iter g false po0 = Some pl ->
  forall v s z, arena_tensor g v s -> offset_of g (p_offsets pl) v z -> z = 0 \/ s <= z.
Proof. intros I W H. eapply plain_ends; eauto. Qed.

(** Nor does the plan that is written, for a tensor that no in-place operator reads. *)
Theorem C98_written_plan iter g garbage ma :
  (forall m, Permutation (iter m) m) -> wf_graph g -> wf_overlap g -> chain_grows g ->
  plan_memory iter true false g garbage = Some (Some ma) ->
  forall v s z, arena_tensor g v s -> offset_of g (ma_offsets ma) v z ->
    (forall p o, op_at g p o -> overlappable (o_kind o) = true -> ~ In v (o_args o)) -> z = 0 \/ s <= z.
Proof.
  intros I W WO CG H v s z Ha Hz Hn. apply (plan_ends iter g garbage ma W WO CG I H v s z Ha Hz).
  intros (p & o & Ho & K & Hin). exact (Hn p o Ho K Hin).
Qed.

Lemma locs_offset g offs v z s : plan_locs g offs v = Some (z, s) -> offset_of g offs v z.
Proof.
  unfold plan_locs, offset_of. destruct (assoc_offset (combine (tensors g) offs) v) as [y|] eqn:E; [|discriminate].
  intros H. destruct (y =? -1); [discriminate|]. injection H as -> _.
  revert offs E. generalize (tensors g). intros l. induction l as [|w l IH]; intros [|o offs] E; cbn in E; try discriminate.
  destruct (Nat.eqb_spec v w) as [->|].
  - injection E as ->. exists 0%nat. auto.
  - destruct (IH offs E) as (i & Hi). exists (S i). exact Hi.
Qed.

(** End to end: the network run in the arena after the copy computes, operator by operator, what it computes from the image with private buffers. *)
Theorem C98_network_sees_image iter g garbage ma v image z m sem :
  (forall m, Permutation (iter m) m) -> wf_graph g -> wf_overlap g -> chain_grows g ->
  plan_memory iter true false g garbage = Some (Some ma) -> sem_sized g sem ->
  g_args g = [(v, Z.of_nat (length image))] ->
  (forall p o, op_at g p o -> overlappable (o_kind o) = true -> ~ In v (o_args o)) ->
  plan_locs g (ma_offsets ma) v = Some (z, Z.of_nat (length image)) ->
  uint8s image -> image_loaded image m ->
  run_arena sem (plan_locs g (ma_offsets ma)) (g_ops g) 0 (Arena (copy_image z 0 (length image) m) (fun _ => []))
  = private_trace g sem [map (fun x => x mod 256) (centred image)].
Proof.
  intros I W WO CG H Hs Ea Hn Hl U L.
  assert (At : arena_tensor g v (Z.of_nat (length image))) by (left; rewrite Ea; left; auto).
  pose proof (locs_offset _ _ _ _ _ Hl) as Ho.
  pose proof (C98_written_plan iter g garbage ma I W WO CG H v _ z At Ho Hn) as Hz.
  destruct (C08_chosen_plan iter g garbage ma I W WO CG H) as (_ & (_ & _ & _ & C) & _).
  destruct (C v _ z At Ho) as [Z0 _].
  rewrite <- (C08_chosen_plan_execution iter g garbage ma sem m [map (fun x => x mod 256) (centred image)] I W WO CG H Hs).
  2: { rewrite Ea. repeat constructor. cbn [snd]. unfold centred. rewrite !map_length. auto. }
  unfold arena_trace, arg_rs. rewrite Ea. cbn [map fst snd store_all]. rewrite Hl.
  apply run_arena_ext; cbn [a_mem a_const]; auto.
  intros a. apply copy_is_write; auto.
Qed.

(** False of the code when the first operator runs in place: a network that starts by padding the 3 channels of its 160 x 160 image to 4
    (the size named in the comment of the application) gets its input tensor at 25600, inside the 76800 bytes of the image. *)
Definition padded_start : graph :=
  Graph [(0%nat, 76800)]
    [ Op KPad3To4 [0%nat] [(1%nat, Some 102400)];
      Op KOther [1%nat] [(2%nat, Some 1000)];
      Op KTerm [2%nat] [] ].
Lemma padded_start_ok : wf_graph padded_start /\ wf_overlap padded_start /\ chain_grows padded_start.
Proof. split; [wf_tac|split; [wo_tac|cg_tac]]. Qed.
Theorem C98_refuted_in_place :
  exists ma, plan_memory (fun m => m) true false padded_start 0 = Some (Some ma) /\
    plan_locs padded_start (ma_offsets ma) 0%nat = Some (25600, 76800) /\
    forall image m, Z.of_nat (length image) = 76800 -> uint8s image -> image_loaded image m ->
      (nth (Z.to_nat 25600) image 0 - nth 0 image 0) mod 256 <> 128 ->
      ~ input_received image 25600 (copy_image 25600 0 (length image) m).
Proof.
  eexists. split; [vm_compute; reflexivity|]. split; [vm_compute; reflexivity|].
  intros image m En U L. apply C98_spoiled; auto. rewrite En. lia.
Qed.

(** A network that meets the hypotheses: a convolution first (76800 -> 102400), then a pad in place. *)
Definition conv_start : graph :=
  Graph [(0%nat, 12)]
    [ Op KOther [0%nat] [(1%nat, Some 32)];
      Op KPad [1%nat] [(2%nat, Some 48)];
      Op KOther [2%nat] [(3%nat, Some 8)];
      Op KTerm [3%nat] [] ].
Example C98_instance :
  wf_graph conv_start /\ wf_overlap conv_start /\ chain_grows conv_start /\
  (exists ma, plan_memory (fun m => m) true false conv_start 0 = Some (Some ma) /\
     plan_locs conv_start (ma_offsets ma) 0%nat = Some (48, 12)) /\
  (forall p o, op_at conv_start p o -> overlappable (o_kind o) = true -> ~ In 0%nat (o_args o)).
Proof.
  split; [wf_tac|]. split; [wo_tac|]. split; [cg_tac|]. split.
  - eexists. split; vm_compute; reflexivity.
  - intros p o H K. ops p H; cbn in K; try discriminate; cbn; intuition discriminate.
Qed.
Example C98_copy_instance :
  map (fun i => as_int8 (copy_image 4 0 4 (write (fun _ => 7) 0 [0; 255; 128; 1]) (4 + i))) [0; 1; 2; 3] = [-128; 127; 0; -127] /\
  map (fun i => as_int8 (copy_image 2 0 4 (write (fun _ => 7) 0 [0; 255; 128; 1]) (2 + i))) [0; 1; 2; 3] = [-128; 127; 0; -1].
Proof. vm_compute. auto. Qed.

(* ------------------------------------------------------------------ *)
(** ** C99: the classes reported *)

(** mobilenet, yolov8: the class reported is the class with the greatest output. *)
Theorem C99_best_class out k :
  int8s out -> winner out k -> nth k out 0 <> -128 -> best_class out = (nth k out 0, Z.of_nat k).
Proof.
  intros U (Hk & Hmax & Hfirst) Hn. unfold best_class.
  pose proof (best_loop_spec out 0 (-128, -1)) as B. cbv zeta in B.
  assert (Rk : -128 <= nth k out 0 <= 127) by (apply U; apply nth_In; auto).
  destruct B as [[_ Hle]|(w & E1 & Hw & E2 & _ & Wmax & Wfirst)].
  - specialize (Hle k Hk). cbn [fst] in Hle. lia.
  - assert (w = k) as ->.
    { destruct (Nat.lt_trichotomy w k) as [Lt|[|Lt]]; auto.
      - specialize (Hfirst w Lt). specialize (Wmax k Hk). lia.
      - specialize (Wfirst k Lt). specialize (Hmax w Hw). lia. }
    rewrite (surjective_pairing (best_loop out 0 (-128, -1))), E1, E2. f_equal.
Qed.

(** Nothing is found only when every output is -128; the class reported is then -1. *)
Theorem C99_none out : int8s out ->
  (snd (best_class out) = -1 <-> forall j, (j < length out)%nat -> nth j out 0 = -128).
Proof.
  intros U. unfold best_class. pose proof (best_loop_spec out 0 (-128, -1)) as B. cbv zeta in B.
  assert (Lo : forall j, (j < length out)%nat -> -128 <= nth j out 0) by (intros j Hj; apply U, nth_In; auto).
  destruct B as [[E Hle]|(w & E1 & Hw & E2 & H3 & _)]; cbn [fst snd] in *.
  - rewrite E. cbn [snd]. split; auto. intros _ j Hj. specialize (Hle j Hj). specialize (Lo j Hj). lia.
  - split; [rewrite E1; lia|]. intros Ha. specialize (Ha w Hw). lia.
Qed.

(** single model on two tiles, or on one tile and DDR: the first of the three classes is the same. *)
Theorem C99_first_of_three out : fst (fst (top_classes out)) = best_class out.
Proof. rewrite top_classes_spec. auto. Qed.

Lemma firstn_nth (l : list Z) n j : (j < n)%nat -> nth j (firstn n l) 0 = nth j l 0.
Proof.
  revert n j. induction l as [|x l IH]; intros n j H; [rewrite firstn_nil; auto|].
  destruct n as [|n]; [lia|]. cbn [firstn]. destruct j as [|j]; cbn [nth]; auto. apply IH. lia.
Qed.

(** The second is right exactly when a class that deserves the second place comes before the winner and is not at the bottom of the range. *)
Theorem C99_second_exactly_partial out w : int8s out -> winner out w -> nth w out 0 <> -128 ->
  ((exists k, snd (snd (fst (top_classes out))) = Z.of_nat k /\ runner_up out w k)
   <-> exists j, runner_up out w j /\ (j < w)%nat /\ nth j out 0 <> -128).
Proof.
  intros U Hw Hn. rewrite top_classes_spec. cbn [fst snd]. rewrite (C99_best_class out w U Hw Hn).
  unfold ahead. cbn [snd]. rewrite Nat2Z.id. destruct Hw as (Hlen & _ & _).
  assert (Lf : length (firstn w out) = w) by (apply firstn_length_le; lia).
  unfold best_class. pose proof (best_loop_spec (firstn w out) 0 (-128, -1)) as B. cbv zeta in B. rewrite Lf in B. cbn [fst snd] in B.
  destruct B as [[E Hle]|(b & E1 & Hb & E2 & H3 & Bmax & Bfirst)].
  - rewrite E. cbn [snd]. split; [intros (k & Ek & _); lia|]. intros (j & _ & Hj & Nj).
    specialize (Hle j Hj). rewrite firstn_nth in Hle by auto.
    assert (-128 <= nth j out 0) by (apply U, nth_In; lia). lia.
  - rewrite E1. rewrite firstn_nth in * by auto. split.
    + intros (k & Ek & R). replace k with b in R by lia. exists b. split; auto. split; auto. lia.
    + intros (j & (Jl & Jn & Jmax) & Hj & Nj). exists b. split; [lia|]. split; [lia|]. split; [lia|].
      intros i Hi Ni. specialize (Jmax i Hi Ni). specialize (Bmax j Hj). rewrite firstn_nth in Bmax by auto. lia.
Qed.

(** Refuted for every output whose winner is class 0: the second and the third are class -1 with the value -128. *)
Theorem C99_refuted_second out : int8s out -> winner out 0 -> nth 0 out 0 <> -128 ->
  top_classes out = ((nth 0 out 0, 0), (-128, -1), (-128, -1)).
Proof. intros U Hw Hn. rewrite top_classes_spec, (C99_best_class out 0 U Hw Hn). reflexivity. Qed.
Theorem C99_refuted_second_concrete : let out := [90; 80; 70; -100] in
  int8s out /\ winner out 0 /\ runner_up out 0 1 /\ top_classes out = ((90, 0), (-128, -1), (-128, -1)).
Proof.
  cbv zeta. split; [intros x Hx; cbn in Hx; lia|]. split; [|split; [|reflexivity]].
  - split; [cbn; lia|]. split; [|lia]. intros j Hj. cbn in Hj. do 4 (destruct j as [|j]; [cbn; lia|]). lia.
  - split; [cbn; lia|]. split; [lia|]. intros j Hj Nj. cbn in Hj. do 4 (destruct j as [|j]; [cbn; lia|]). lia.
Qed.

(** The two-class report: a percentage, rounded down, of the full range of the output; the label of the greater output ("Human" on a tie). *)
Theorem C99_human_report o0 o1 : -128 <= o1 <= 127 ->
  (fst (human_report o0 o1) = true <-> o0 <= o1) /\
  0 <= snd (human_report o0 o1) <= 100 /\
  255 * snd (human_report o0 o1) <= 100 * (o1 + 128) < 255 * (snd (human_report o0 o1) + 1).
Proof.
  intros H. unfold human_report. cbn [fst snd]. rewrite Z.quot_div_nonneg by lia. split.
  - rewrite Z.gtb_ltb. destruct (Z.ltb_spec o1 o0); cbn; split; intros; try lia; discriminate.
  - Z.to_euclidean_division_equations; lia.
Qed.

Example C99_instance : let out := [3; -128; 40; 12; 40; 127; -5] in
  int8s out /\ winner out 5 /\ top_classes out = ((127, 5), (40, 2), (3, 0)) /\ human_report (-20) 20 = (true, 58).
Proof.
  cbv zeta. split; [intros x Hx; cbn in Hx; lia|]. split; [|split; reflexivity].
  split; [cbn; lia|]. split; intros j Hj; cbn in Hj; do 7 (destruct j as [|j]; [cbn; lia|]); lia.
Qed.

Print Assumptions C98_copy_exactly.
Print Assumptions C98_network_sees_image.
Print Assumptions C98_refuted_in_place.
Print Assumptions C99_second_exactly_partial.
Print Assumptions C99_human_report.
