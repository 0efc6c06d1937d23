(** C90-C92: the data path of the audio example. *)
From Coq Require Import List ZArith QArith Qround Bool Arith Lia Lqa.
From Verif Require Import MelModel MelProps AudioTables AudioModel AudioSpec AudioProofs.
Import ListNotations.
Local Open Scope nat_scope.

(** ** C90: the stream.  For every schedule of the two threads in which the processing of a block ends before the next handover:
    what is sent is the uninitialised stack, then a block of zeros, then the blocks of samples as processed, in order; each word sixteen times. *)
Theorem C90_stream : forall N D process, 0 < N -> (forall b d l, length l = N -> length (snd (process b d l)) = N) ->
  forall d0 in0 out0 l c' o, length in0 = N -> length out0 = N ->
  run N D process (start N D d0 in0 out0) l = Some (c', o) -> timely N D process (start N D d0 in0 out0) l ->
  exists bl : list (Z * list Z),
    Forall (fun p => length (snd p) = N) bl /\
    map fst bl = firstn (length bl) (buttons N D process 15 (start N D d0 in0 out0) l) /\
    concat (map snd bl) = firstn (length bl * N) (samples l) /\
    length (samples l) <= (2 + length bl) * N /\
    o = concat (map (fun x => repeat x 16) (firstn (length (samples l)) (out0 ++ repeat 0%Z N ++ concat (results D process d0 bl)))).
Proof.
  intros N D process Npos PL d0 in0 out0 l c' o L1 L2 R T.
  assert (I : Inv N D process d0 out0 (repeat 0%Z N) (start N D d0 in0 out0) [] [] [] []).
  { split; [|unfold sized; cbn; rewrite repeat_length; auto 10]. apply inv_frame; cbn; auto; try lia. apply inv_idle; cbn; auto. }
  assert (B : buttons_ok D (start N D d0 in0 out0) [] 15 []) by (split; reflexivity).
  destruct (run_inv N Npos D process PL d0 out0 (repeat 0%Z N) L2 (repeat_length _ _) l _ _ _ _ _ _ _ _ _ R T I B) as (os & Bs & bl & Eo & I' & b' & (_ & B')).
  destruct (inv_result N Npos D process PL d0 out0 (repeat 0%Z N) L2 (repeat_length _ _) _ _ _ _ _ I') as (E1 & E2 & E3 & E4).
  cbn [app] in *. exists bl. split; [exact E4|split; [|split; [exact E3|split]]].
  - rewrite B', firstn_app, map_length, Nat.sub_diag, firstn_all2 by (rewrite map_length; lia). cbn. rewrite app_nil_r. reflexivity.
  - rewrite (concat_length N Npos out0 (repeat 0%Z N) L2 (repeat_length _ _) _ (outs D process d0 out0 (repeat 0%Z N) bl)) in E2 by (apply outs_sized; auto using repeat_length). rewrite outs_length in E2. exact E2.
  - rewrite Eo, E1. reflexivity.
Qed.
(** Without the deadline a block may be processed that was never sent: half of one block and half of the next. *)
Definition copy_process (b : Z) (d : unit) (l : list Z) : unit * list Z := (tt, l).
Definition fr (x : Z) : action := Frame (repeat x 16).
Definition handover : list action := [StepT; StepT; StepT; StepT; StepT].
Definition late : list action := [fr 1; fr 2] ++ handover ++ [StepD; StepD] ++ [fr 3; fr 4] ++ handover ++ [StepD; StepD; StepD] ++ [fr 5; fr 6] ++ handover ++ [fr 7; fr 8].
Theorem C90_late_refuted : exists c o, run 2 unit copy_process (start 2 unit tt [0; 0]%Z [0; 0]%Z) late = Some (c, o) /\
  o = concat (map (fun x => repeat x 16) [0; 0; 0; 0; 0; 0; 1; 4]%Z) /\ samples late = [1; 2; 3; 4; 5; 6; 7; 8]%Z.
Proof. eexists. eexists. split; [vm_compute; reflexivity|]. split; reflexivity. Qed.
(** The first block sent is whatever was on the stack. *)
Theorem C90_first_block_refuted : forall N D process d0 in0 out0, 1 < N -> length out0 = N ->
  exists c, run N D process (start N D d0 in0 out0) [fr 0] = Some (c, repeat (hd 0%Z out0) 16).
Proof.
  intros N D process d0 in0 out0 H L. cbn [run step start fr repeat t_phase t_frame t_out]. destruct (Nat.eqb_spec 1 N); [lia|]. eexists. f_equal. destruct out0; reflexivity.
Qed.
(** A schedule that meets the deadlines, with a button. *)
Definition good : list action := [fr 1; fr 2] ++ handover ++ [Button 6; StepD; StepD; fr 3; StepD; StepD; fr 4; StepD] ++ handover ++ [StepD; fr 5; StepD; StepD; StepD; StepD; fr 6] ++ handover ++ [fr 7; fr 8].
Example C90_concrete : buttons 2 unit copy_process 15 (start 2 unit tt [9; 9]%Z [9; 9]%Z) good = [6; 6]%Z /\ timely 2 unit copy_process (start 2 unit tt [9; 9]%Z [9; 9]%Z) good /\
  exists c, run 2 unit copy_process (start 2 unit tt [9; 9]%Z [9; 9]%Z) good = Some (c, concat (map (fun x => repeat x 16) [9; 9; 0; 0; 1; 2; 3; 4]%Z)).
Proof.
  split; [vm_compute; reflexivity|]. split; [|eexists; vm_compute; reflexivity].
  vm_compute. repeat (split; [intros; try discriminate; auto; fail|]). exact Logic.I.
Qed.

Print Assumptions C90_stream.
Print Assumptions C90_late_refuted.
Print Assumptions C90_first_block_refuted.

(** ** C91: windows and overlap-add *)
Local Open Scope Z_scope.
Definition at_ (y : list Z) (i : Z) : Z := if i <? 0 then 0 else nth (Z.to_nat i) y 0.
(** y_0[n] + y_1[n - A] + y_2[n - 2 A] + ... *)
Fixpoint overlapped (A : Z) (ys : list (list Z)) (n : Z) : Z := match ys with [] => 0 | y :: tl => at_ y n + overlapped A tl (n - A) end.
Definition int32 (x : Z) : Prop := -2147483648 <= x <= 2147483647.

Lemma to_int_id x : int32 x -> to_int x = x.
Proof. unfold int32, to_int. intros H. cbv zeta. destruct (x mod 4294967296 <? 2147483648) eqn:E; [apply Z.ltb_lt in E|apply Z.ltb_ge in E]; Z.to_euclidean_division_equations; lia. Qed.
Lemma to_int_add x y : to_int (to_int x + y) = to_int (x + y).
Proof.
  unfold to_int. cbv zeta. replace ((if x mod 4294967296 <? 2147483648 then x mod 4294967296 else x mod 4294967296 - 4294967296) + y) with (x + y + 4294967296 * ((if x mod 4294967296 <? 2147483648 then 0 else -1) - x / 4294967296)).
  - rewrite (Z.mul_comm 4294967296), Z_mod_plus_full. reflexivity.
  - rewrite (Z.div_mod x 4294967296) at 1 by lia. destruct (_ <? _); lia.
Qed.
Lemma nth_overlap A W out y i : (A <= W)%nat -> length out = W -> length y = W -> (i < W)%nat ->
  nth i (overlap A W out y) 0 = if (i <? W - A)%nat then to_int (nth i out 0 + nth i y 0) else nth i y 0.
Proof.
  intros H L1 L2 Hi. unfold overlap, over. assert (LM : length (map (fun p => to_int (fst p + snd p)) (combine (firstn (W - A) out) (firstn (W - A) y))) = (W - A)%nat).
  { rewrite map_length, combine_length, !firstn_length. lia. }
  destruct (Nat.ltb_spec i (W - A)).
  - rewrite app_nth1 by lia. rewrite (nth_indep _ 0 (to_int (fst (0, 0) + snd (0, 0)))) by lia. rewrite (map_nth (fun p => to_int (fst p + snd p))). rewrite combine_nth by (rewrite !firstn_length; lia). cbn [fst snd].
    assert (G : forall l : list Z, nth i (firstn (W - A) l) 0 = nth i l 0). { intros l. rewrite <- (firstn_skipn (W - A) l) at 2. destruct (Nat.lt_ge_cases i (length (firstn (W - A) l))) as [C|C]; [rewrite app_nth1 by exact C; reflexivity|]. rewrite nth_overflow by exact C. rewrite nth_overflow; auto. rewrite app_length. rewrite firstn_length in *. rewrite skipn_length. lia. }
    rewrite !G. reflexivity.
  - rewrite app_nth2 by lia. rewrite LM. rewrite <- (firstn_skipn (W - A) y) at 2. rewrite app_nth2 by (rewrite firstn_length; lia). rewrite firstn_length. f_equal. lia.
Qed.
Lemma overlap_length A W out y : (A <= W)%nat -> length out = W -> length y = W -> length (overlap A W out y) = W.
Proof. intros. unfold overlap, over. rewrite app_length, map_length, combine_length, !firstn_length, skipn_length. lia. Qed.
Lemma nth_skipn' (l : list Z) k i : nth i (skipn k l) 0 = nth (k + i) l 0.
Proof. revert l. induction k as [|k IH]; intros l; auto. destruct l as [|x l]; [destruct i; reflexivity|]. cbn. apply IH. Qed.
Lemma nth_firstn' (l : list Z) k i : (i < k)%nat -> nth i (firstn k l) 0 = nth i l 0.
Proof. revert l i. induction k as [|k IH]; intros l i H; [lia|]. destruct l as [|x l]; [destruct i; reflexivity|]. destruct i; cbn; auto. apply IH. lia. Qed.
Lemma nth_keep A W o i : (A <= W)%nat -> length o = W -> (i < W - A)%nat -> nth i (keep A W o) 0 = nth (A + i) o 0.
Proof. intros H L Hi. unfold keep, over. rewrite app_nth1 by (rewrite firstn_length, skipn_length; lia). rewrite nth_firstn' by lia. apply nth_skipn'. Qed.
Lemma keep_length A W o : (A <= W)%nat -> length o = W -> length (keep A W o) = W.
Proof. intros. unfold keep, over. rewrite app_length, firstn_length, !skipn_length. lia. Qed.
Lemma nth_synths A W ys : (0 < A <= W)%nat -> Forall (fun y => length y = W /\ Forall int32 y) ys -> forall out n, length out = W -> (n < length ys * A)%nat ->
  nth n (synths A W out ys) 0 = to_int ((if (n <? W - A)%nat then nth n out 0 else 0) + overlapped (Z.of_nat A) ys (Z.of_nat n)).
Proof.
  intros H F. induction F as [|y tl (L & I) F IH]; intros out n Lo Hn; [cbn in Hn; lia|].
  cbn [synths synth]. unfold leaves. cbn [overlapped].
  assert (LO : length (overlap A W out y) = W) by (apply overlap_length; lia).
  assert (AT : at_ y (Z.of_nat n) = nth n y 0) by (unfold at_; destruct (Z.ltb_spec (Z.of_nat n) 0); [lia|]; rewrite Nat2Z.id; reflexivity). rewrite AT.
  assert (NO : forall n, (n < W)%nat -> nth n (overlap A W out y) 0 = to_int ((if (n <? W - A)%nat then nth n out 0 else 0) + nth n y 0)).
  { intros k Hk. rewrite nth_overlap by lia. destruct (k <? W - A)%nat; auto. symmetry. apply to_int_id. rewrite Forall_forall in I. apply I, nth_In. lia. }
  destruct (Nat.lt_ge_cases n A) as [C|C].
  - rewrite app_nth1 by (rewrite firstn_length; lia). rewrite nth_firstn' by lia. rewrite NO by lia.
    assert (Z0 : overlapped (Z.of_nat A) tl (Z.of_nat n - Z.of_nat A) = 0).
    { clear - C. assert (G : forall k, k < 0 -> overlapped (Z.of_nat A) tl k = 0). { induction tl as [|t tl IH]; intros k Hk; auto. cbn. rewrite IH by lia. unfold at_. destruct (Z.ltb_spec k 0); lia. } apply G. lia. }
    rewrite Z0. f_equal. lia.
  - rewrite app_nth2 by (rewrite firstn_length; lia). rewrite firstn_length, LO. replace (Nat.min A W) with A by lia.
    rewrite IH by (rewrite ?keep_length; auto; try lia; cbn in Hn; nia). replace (Z.of_nat (n - A)) with (Z.of_nat n - Z.of_nat A) by lia.
    destruct (Nat.ltb_spec (n - A) (W - A)) as [C2|C2].
    + rewrite nth_keep by lia. replace (A + (n - A))%nat with n by lia. rewrite NO by lia. rewrite to_int_add. f_equal. lia.
    + rewrite (nth_overflow y) by lia. destruct (Nat.ltb_spec n (W - A)); [lia|]. f_equal; lia.
Qed.
(** Sample n that leaves is the sum of the frames that cover it, modulo 2^32, for any number of frames. *)
Theorem C91_overlap_add : forall A W ys n, (0 < A <= W)%nat -> Forall (fun y => length y = W /\ Forall int32 y) ys -> (n < length ys * A)%nat ->
  nth n (synths A W (repeat 0 W) ys) 0 = to_int (overlapped (Z.of_nat A) ys (Z.of_nat n)).
Proof.
  intros A W ys n H F Hn. rewrite nth_synths by (auto using repeat_length). f_equal. destruct (n <? W - A)%nat; [|reflexivity].
  assert (E : nth n (repeat 0 W) 0 = 0); [|rewrite E; reflexivity]. clear. revert n. induction W as [|W IH]; intros [|n]; cbn; auto.
Qed.
(** Frame k of the analysis holds the W samples that end with block k; before the first sample there are zeros. *)
Lemma slides_spec A W news : (0 < A <= W)%nat -> Forall (fun b => length b = A) news -> forall frame k i, length frame = W -> (k < length news)%nat -> (i < W)%nat ->
  nth i (nth k (slides A W frame news) []) 0 = at_ (frame ++ concat news) (Z.of_nat ((k + 1) * A + i)) /\ length (nth k (slides A W frame news) []) = W.
Proof.
  intros H F. induction F as [|b tl L F IH]; intros frame k i Lf Hk Hi; [cbn in Hk; lia|]. cbn [slides concat].
  assert (AT : forall l m, at_ l (Z.of_nat m) = nth m l 0) by (intros l m; unfold at_; destruct (Z.ltb_spec (Z.of_nat m) 0); [lia|]; rewrite Nat2Z.id; reflexivity).
  assert (LS : length (slide A W frame b) = W) by (unfold slide, over; rewrite app_length, firstn_length, skipn_length; lia).
  destruct k as [|k]; cbn [nth].
  - split; [|exact LS]. rewrite AT. cbn [Nat.add Nat.mul]. rewrite Nat.add_0_r. rewrite app_assoc, app_nth1 by (rewrite app_length; lia). unfold slide, over.
    destruct (Nat.lt_ge_cases i (W - A)) as [C|C].
    + rewrite app_nth1 by (rewrite firstn_length, skipn_length; lia). rewrite nth_firstn', nth_skipn' by lia. rewrite app_nth1 by lia. reflexivity.
    + rewrite app_nth2 by (rewrite firstn_length, skipn_length; lia). rewrite firstn_length, skipn_length. rewrite (app_nth2 frame) by lia. f_equal. lia.
  - destruct (IH (slide A W frame b) k i LS ltac:(cbn in Hk; lia) Hi) as (E & E2). split; [|exact E2]. rewrite E, !AT.
    replace ((S k + 1) * A + i)%nat with (A + ((k + 1) * A + i))%nat by lia. unfold slide, over. rewrite <- app_assoc.
    rewrite <- (nth_skipn' (frame ++ b ++ concat tl) A). rewrite skipn_app. replace (A - length frame)%nat with 0%nat by lia. cbn [skipn]. rewrite (firstn_all2 (skipn A frame)) by (rewrite skipn_length; lia). reflexivity.
Qed.
Theorem C91_analysis : forall A W news k i, (0 < A <= W)%nat -> Forall (fun b => length b = A) news -> (k < length news)%nat -> (i < W)%nat ->
  nth i (nth k (slides A W (repeat 0 W) news) []) 0 = at_ (concat news) (Z.of_nat ((k + 1) * A + i) - Z.of_nat W).
Proof.
  intros A W news k i H F Hk Hi. destruct (slides_spec A W news H F (repeat 0 W) k i (repeat_length _ _) Hk Hi) as (E & _). rewrite E. unfold at_.
  destruct (Z.ltb_spec (Z.of_nat ((k + 1) * A + i)) 0); [lia|]. rewrite Nat2Z.id. destruct (Z.ltb_spec (Z.of_nat ((k + 1) * A + i) - Z.of_nat W) 0).
  - rewrite app_nth1 by (rewrite repeat_length; lia). assert (G : forall j, nth j (repeat 0 W) 0 = 0) by (clear; intros j; revert j; induction W as [|W IH]; intros [|j]; cbn; auto). apply G.
  - rewrite app_nth2, repeat_length by (rewrite repeat_length; lia). f_equal. lia.
Qed.

(** ** Unity gain: with the masks at one and transforms that are inverse up to an error of e, what leaves is the signal, WINDOW_OVERLAP samples later. *)
Lemma overlapped_map A (f g : list (list Z)) n : length f = length g -> (forall k i, (k < length f)%nat -> at_ (nth k f []) i = at_ (nth k g []) i) -> overlapped A f n = overlapped A g n.
Proof.
  revert g n. induction f as [|y f IH]; intros [|y' g] n L H; cbn in L; try discriminate; auto. cbn [overlapped].
  specialize (H 0%nat) as H0. cbn [nth] in H0. rewrite H0 by (cbn; lia). f_equal. apply IH; [lia|]. intros k i Hk. apply (H (S k)). cbn. lia.
Qed.
(** The frames that cover sample n, by position. *)
Fixpoint sum_to (m : nat) (g : nat -> Z) : Z := match m with O => 0 | S k => sum_to k g + g k end.
Lemma sum_to_ext m f g : (forall k, (k < m)%nat -> f k = g k) -> sum_to m f = sum_to m g.
Proof. induction m as [|m IH]; intros H; auto. cbn. rewrite IH, H by auto. reflexivity. Qed.
Lemma sum_to_shift m g : sum_to (S m) g = g 0%nat + sum_to m (fun k => g (S k)).
Proof. induction m as [|m IH]; [cbn; lia|]. change (sum_to (S (S m)) g) with (sum_to (S m) g + g (S m)). rewrite IH. cbn. lia. Qed.
Lemma overlapped_sum A ys n : overlapped A ys n = sum_to (length ys) (fun k => at_ (nth k ys []) (n - Z.of_nat k * A)).
Proof.
  revert n. induction ys as [|y ys IH]; intros n; [reflexivity|]. cbn [overlapped length]. rewrite sum_to_shift, IH. cbn [nth]. f_equal; [f_equal; lia|]. apply sum_to_ext. intros k _. f_equal. lia.
Qed.
Lemma sum_to_zero m g : (forall k, (k < m)%nat -> g k = 0) -> sum_to m g = 0.
Proof. induction m as [|m IH]; intros H; auto. cbn. rewrite IH, H by auto. reflexivity. Qed.
Lemma sum_to_four m g q : (3 <= q)%nat -> (q < m)%nat -> (forall k, (k < m)%nat -> (q < k)%nat \/ (k + 3 < q)%nat -> g k = 0) -> sum_to m g = g q + g (q - 1)%nat + g (q - 2)%nat + g (q - 3)%nat.
Proof.
  intros H1 H2 H. assert (E : forall d, (d <= m - S q)%nat -> sum_to (S q + d) g = sum_to (S q) g).
  { induction d as [|d IH]; intros Hd; [rewrite Nat.add_0_r; auto|]. rewrite Nat.add_succ_r. change (sum_to (S (S q + d)) g) with (sum_to (S q + d) g + g (S q + d)%nat). rewrite IH by lia. rewrite (H (S q + d)%nat) by lia. lia. }
  replace m with (S q + (m - S q))%nat by lia. rewrite E by lia. destruct q as [|[|[|q]]]; try lia.
  replace (S (S (S q)) - 1)%nat with (S (S q)) by lia. replace (S (S (S q)) - 2)%nat with (S q) by lia. replace (S (S (S q)) - 3)%nat with q by lia.
  cbn [sum_to]. rewrite (sum_to_zero q); [lia|]. intros k Hk. apply H; lia.
Qed.
(** What the table must satisfy: shifted by quarters it adds up to one (2^30, after the halving), with an error of at most 2. *)
Definition window_ok (A : nat) (table : list Z) : Prop :=
  length table = (4 * A)%nat /\ forall i, (i < A)%nat ->
    1073741822 <= nth i table 0 / 2 + nth (i + A) table 0 / 2 + nth (i + 2 * A) table 0 / 2 + nth (i + 3 * A) table 0 / 2 <= 1073741824.
Theorem C91_table : window_ok 128 raised_cosine_512.
Proof.
  split; [reflexivity|]. assert (F : forallb (fun i => let s := nth i raised_cosine_512 0 / 2 + nth (i + 128) raised_cosine_512 0 / 2 + nth (i + 2 * 128) raised_cosine_512 0 / 2 + nth (i + 3 * 128) raised_cosine_512 0 / 2 in (1073741822 <=? s) && (s <=? 1073741824)) (seq 0 128) = true) by (vm_compute; reflexivity).
  rewrite forallb_forall in F. intros i Hi. specialize (F i (proj2 (in_seq 128 0 i) (conj (Nat.le_0_l i) Hi))). cbv zeta in F. apply andb_true_iff in F. destruct F as [F1 F2]. apply Z.leb_le in F1, F2. split; assumption.
Qed.
(** Frame k comes back from the transforms as [ys]: dsp.c 54 shifts by 2 more than the exponents. *)
Definition came_back (e : Z) (table frame y : list Z) : Prop := length y = length frame /\ Forall int32 y /\ forall i, (i < length frame)%nat -> Z.abs (nth i y 0 - 4 * nth i (window table frame) 0) <= e.
Lemma nth_window table frame i : (i < length table)%nat -> (i < length frame)%nat -> nth i (window table frame) 0 = to_int (nth i table 0 / 2 * nth i frame 0 / 4294967296).
Proof.
  intros H1 H2. unfold window. rewrite (nth_indep _ 0 (to_int (fst (0, 0) / 2 * snd (0, 0) / 4294967296))) by (rewrite map_length, combine_length; lia).
  rewrite (map_nth (fun p => to_int (fst p / 2 * snd p / 4294967296))). revert frame i H1 H2. induction table as [|t tl IH]; intros [|x frame] [|i] H1 H2; cbn in *; try lia; auto. apply (IH frame i); lia.
Qed.
Lemma scaled_int w z : -2147483648 <= w <= 2147483647 -> int32 z -> to_int (w * z / 4294967296) = w * z / 4294967296.
Proof. intros H1 H2. apply to_int_id. unfold int32 in *. assert (- (2147483648 * 2147483648) <= w * z <= 2147483648 * 2147483648) by nia. split; [apply Z.div_le_lower_bound; lia|apply Z.div_le_upper_bound; lia]. Qed.
Lemma slides_length A W frame news : length (slides A W frame news) = length news.
Proof. revert frame. induction news as [|b tl IH]; intros frame; cbn; auto. Qed.
Lemma at_in (l : list Z) i : Forall int32 l -> int32 (at_ l i).
Proof. intros F. unfold at_. destruct (i <? 0); [unfold int32; lia|]. destruct (Nat.lt_ge_cases (Z.to_nat i) (length l)); [rewrite Forall_forall in F; apply F, nth_In; auto|]. rewrite nth_overflow by auto. unfold int32. lia. Qed.

Lemma four_windows w0 w1 w2 w3 z : 1073741822 <= w0 + w1 + w2 + w3 <= 1073741824 -> Z.abs z <= 2147483647 ->
  -20 <= 4 * (w0 * z / 4294967296) + 4 * (w1 * z / 4294967296) + 4 * (w2 * z / 4294967296) + 4 * (w3 * z / 4294967296) - z <= 4.
Proof.
  intros TB Hz. assert (Es : (w0 + w1 + w2 + w3) * z = w0 * z + w1 * z + w2 * z + w3 * z) by ring.
  pose proof (Z.div_mod (w0 * z) 4294967296 ltac:(lia)). pose proof (Z.div_mod (w1 * z) 4294967296 ltac:(lia)). pose proof (Z.div_mod (w2 * z) 4294967296 ltac:(lia)). pose proof (Z.div_mod (w3 * z) 4294967296 ltac:(lia)).
  pose proof (Z.mod_pos_bound (w0 * z) 4294967296 ltac:(lia)). pose proof (Z.mod_pos_bound (w1 * z) 4294967296 ltac:(lia)). pose proof (Z.mod_pos_bound (w2 * z) 4294967296 ltac:(lia)). pose proof (Z.mod_pos_bound (w3 * z) 4294967296 ltac:(lia)).
  assert (C : w0 + w1 + w2 + w3 = 1073741822 \/ w0 + w1 + w2 + w3 = 1073741823 \/ w0 + w1 + w2 + w3 = 1073741824) by lia.
  generalize dependent (w0 * z / 4294967296). generalize dependent (w1 * z / 4294967296). generalize dependent (w2 * z / 4294967296). generalize dependent (w3 * z / 4294967296). intros q3 E3 q2 E2 q1 E1 q0 E0.
  destruct C as [C|[C|C]]; rewrite C in Es; lia.
Qed.
Theorem C91_unity : forall A table news ys e n, (0 < A)%nat -> window_ok A table -> Forall (fun w => 0 <= w <= 1073741824) table ->
  Forall (fun b => length b = A) news -> 0 <= e -> Forall (fun x => Z.abs x <= 2147483647 - 24 - 4 * e) (concat news) ->
  Forall2 (came_back e table) (slides A (4 * A) (repeat 0 (4 * A)) news) ys -> (3 * A <= n < length news * A)%nat ->
  -20 - 4 * e <= nth n (synths A (4 * A) (repeat 0 (4 * A)) ys) 0 - nth (n - 3 * A) (concat news) 0 <= 4 + 4 * e.
Proof.
  intros A table news ys e n HA (LT & TB) TR FN He FX FB Hn.
  assert (LY : length ys = length news) by (transitivity (length (slides A (4 * A) (repeat 0 (4 * A)) news)); [clear - FB; induction FB; cbn; auto|apply slides_length]).
  assert (FI : Forall int32 (concat news)) by (eapply Forall_impl; [|exact FX]; intros x Hx; cbv beta in Hx; unfold int32; lia).
  assert (FY : forall k, (k < length ys)%nat -> came_back e table (nth k (slides A (4 * A) (repeat 0 (4 * A)) news) []) (nth k ys [])).
  { clear - FB. induction FB as [|f y fs ys H F IH]; intros k Hk; [cbn in Hk; lia|]. destruct k as [|k]; cbn [nth]; auto. apply IH. cbn in Hk. lia. }
  assert (LF : forall k, (k < length news)%nat -> length (nth k (slides A (4 * A) (repeat 0 (4 * A)) news) []) = (4 * A)%nat).
  { intros k Hk. destruct (slides_spec A (4 * A) news ltac:(lia) FN (repeat 0 (4 * A)) k 0%nat (repeat_length _ _) Hk ltac:(lia)) as (_ & L). exact L. }
  assert (SZ : Forall (fun y => length y = (4 * A)%nat /\ Forall int32 y) ys).
  { apply Forall_forall. intros y Hy. destruct (In_nth ys y [] Hy) as (k & Hk & <-). destruct (FY k Hk) as (L & I & _). rewrite L, LF by lia. auto. }
  rewrite C91_overlap_add by (auto; lia). rewrite overlapped_sum.
  remember (n / A)%nat as q eqn:Eq. remember (n mod A)%nat as r eqn:Er. assert (Hr : (r < A)%nat) by (subst r; apply Nat.mod_upper_bound; lia). assert (En : n = (q * A + r)%nat) by (subst q r; rewrite (Nat.mul_comm (n / A)); apply Nat.div_mod; lia). clear Eq Er.
  assert (Hq : (3 <= q < length ys)%nat) by nia.
  rewrite (sum_to_four _ _ q); [|lia|lia|].
  2:{ intros k Hk C. unfold at_. destruct (Z.ltb_spec (Z.of_nat n - Z.of_nat k * Z.of_nat A) 0); auto. apply nth_overflow. destruct (FY k Hk) as (L & _). rewrite L, LF by lia. nia. }
  set (z := nth (n - 3 * A) (concat news) 0).
  assert (Hz : Z.abs z <= 2147483647 - 24 - 4 * e). { subst z. destruct (Nat.lt_ge_cases (n - 3 * A) (length (concat news))); [rewrite Forall_forall in FX; apply FX, nth_In; auto|]. rewrite nth_overflow by auto.
    destruct (concat news) as [|x l] eqn:EC; [exfalso; assert (L : length (concat news) = (length news * A)%nat); [clear - FN; induction FN as [|b tl Hb F IH]; auto; cbn [concat length]; rewrite app_length; lia|]; rewrite EC in L; cbn in L; nia|]. inversion FX; subst. lia. }
  (* each of the four frames *)
  assert (T : forall j, (j <= 3)%nat -> Z.abs (at_ (nth (q - j) ys []) (Z.of_nat n - Z.of_nat (q - j) * Z.of_nat A) - 4 * (nth (r + j * A) table 0 / 2 * z / 4294967296)) <= e).
  { intros j Hj. replace (Z.of_nat n - Z.of_nat (q - j) * Z.of_nat A) with (Z.of_nat (r + j * A)) by nia. unfold at_. destruct (Z.ltb_spec (Z.of_nat (r + j * A)) 0); [lia|]. rewrite Nat2Z.id.
    destruct (FY (q - j)%nat ltac:(lia)) as (_ & _ & B). specialize (B (r + j * A)%nat). rewrite LF in B by lia. specialize (B ltac:(nia)).
    rewrite nth_window in B by (rewrite ?LT, ?LF by lia; nia). rewrite C91_analysis in B by (auto; try lia; nia).
    replace (Z.of_nat ((q - j + 1) * A + (r + j * A)) - Z.of_nat (4 * A)) with (Z.of_nat (n - 3 * A)) in B by nia.
    assert (EZ : at_ (concat news) (Z.of_nat (n - 3 * A)) = z) by (unfold at_; destruct (Z.ltb_spec (Z.of_nat (n - 3 * A)) 0); [lia|]; rewrite Nat2Z.id; reflexivity). rewrite EZ in B.
    rewrite scaled_int in B; [exact B| |unfold int32; lia].
    assert (Hw : 0 <= nth (r + j * A) table 0 <= 1073741824) by (rewrite Forall_forall in TR; apply TR, nth_In; rewrite LT; nia).
    split; [apply Z.le_trans with 0; [lia|apply Z.div_pos; lia]|apply Z.div_le_upper_bound; lia]. }
  pose proof (T 0%nat ltac:(lia)) as T0. pose proof (T 1%nat ltac:(lia)) as T1. pose proof (T 2%nat ltac:(lia)) as T2. pose proof (T 3%nat ltac:(lia)) as T3. clear T.
  rewrite Nat.sub_0_r in T0. cbn [Nat.mul] in T0, T1, T2, T3. rewrite Nat.add_0_r in T0, T1. 
  specialize (TB r Hr). cbn [Nat.mul] in TB.
  remember (at_ (nth q ys []) (Z.of_nat n - Z.of_nat q * Z.of_nat A)) as a0. remember (at_ (nth (q - 1) ys []) (Z.of_nat n - Z.of_nat (q - 1) * Z.of_nat A)) as a1.
  remember (at_ (nth (q - 2) ys []) (Z.of_nat n - Z.of_nat (q - 2) * Z.of_nat A)) as a2. remember (at_ (nth (q - 3) ys []) (Z.of_nat n - Z.of_nat (q - 3) * Z.of_nat A)) as a3.
  remember (nth r table 0 / 2) as w0. remember (nth (r + A) table 0 / 2) as w1. remember (nth (r + (A + (A + 0))) table 0 / 2) as w2. remember (nth (r + (A + (A + (A + 0)))) table 0 / 2) as w3.
  replace (A + (A + 0))%nat with (A + A)%nat in * by lia.
  assert (SUM : -20 <= 4 * (w0 * z / 4294967296) + 4 * (w1 * z / 4294967296) + 4 * (w2 * z / 4294967296) + 4 * (w3 * z / 4294967296) - z <= 4).
  { apply four_windows; lia. }
  remember (w0 * z / 4294967296) as f0. remember (w1 * z / 4294967296) as f1. remember (w2 * z / 4294967296) as f2. remember (w3 * z / 4294967296) as f3.
  assert (G : -20 - 4 * e <= a0 + a1 + a2 + a3 - z <= 4 + 4 * e) by (clear - T0 T1 T2 T3 SUM; lia).
  rewrite to_int_id; [exact G|]. clear - G Hz. unfold int32. lia.
Qed.
(** With the shipped table: delay of 384 low-rate samples. *)
Corollary C91_unity_shipped : forall news ys e n, Forall (fun b => length b = 128%nat) news -> 0 <= e -> Forall (fun x => Z.abs x <= 2147483647 - 24 - 4 * e) (concat news) ->
  Forall2 (came_back e raised_cosine_512) (slides 128 512 (repeat 0 512) news) ys -> (384 <= n < length news * 128)%nat ->
  -20 - 4 * e <= nth n (synths 128 512 (repeat 0 512) ys) 0 - nth (n - 384) (concat news) 0 <= 4 + 4 * e.
Proof.
  intros news ys e n F He FX FB Hn. apply (C91_unity 128 raised_cosine_512 news ys e n); auto; [lia|exact C91_table|].
  assert (G : forallb (fun w => (0 <=? w) && (w <=? 1073741824)) raised_cosine_512 = true) by (vm_compute; reflexivity).
  rewrite forallb_forall in G. apply Forall_forall. intros w Hw. specialize (G w Hw). apply andb_true_iff in G. destruct G as [G1 G2]. apply Z.leb_le in G1, G2. split; assumption.
Qed.
(** A small concrete case of the hypotheses: A = 1, window 1/2 everywhere (in the units of the table), transforms that are exact. *)
Definition tiny_table : list Z := [536870912; 536870912; 536870912; 536870912].
Definition tiny : list (list Z) := [[1000]; [-2000]; [3000]; [4000]; [5000]].
Example tiny_ok : window_ok 1 tiny_table /\ Forall2 (came_back 0 tiny_table) (slides 1 4 (repeat 0 4) tiny) (map (fun f => map (Z.mul 4) (window tiny_table f)) (slides 1 4 (repeat 0 4) tiny)).
Proof.
  split.
  - split; [reflexivity|]. intros [|i] Hi; [vm_compute; split; discriminate|lia].
  - cbn [slides tiny map]. repeat constructor; try (vm_compute; discriminate); intros [|[|[|[|i]]]] Hi; try (vm_compute; discriminate); cbn in Hi; lia.
Qed.
Example tiny_out : synths 1 4 (repeat 0 4) (map (fun f => map (Z.mul 4) (window tiny_table f)) (slides 1 4 (repeat 0 4) tiny)) = [0; 0; 0; 992; -2000].
Proof. vm_compute. reflexivity. Qed.

(** ** C92: the masks *)
Lemma trunc_range q : (0 <= q <= 1)%Q -> 0 <= trunc (q * 255) < 256.
Proof.
  intros (H1 & H2). unfold trunc. destruct q as [a b]. unfold Qle in *. cbn in *. rewrite Pos.mul_1_r in *. rewrite Z.mul_1_r in *. rewrite Z.quot_div_nonneg by lia.
  split; [apply Z.div_pos; lia|]. apply Z.div_lt_upper_bound; lia.
Qed.
(** Which entry of the tables is used.  [entry b i]: row of the buttons, column i. *)
Definition entry (b : Z) (i : nat) : Z := nth i (nth (mask_row b) output_lookup []) 0.
Lemma land7 b : 0 <= Z.land b 7 < 8.
Proof. change 7 with (Z.ones 3). rewrite Z.land_ones by lia. apply Z.mod_pos_bound. lia. Qed.
Lemma rows_cases b : mask_row b = 0%nat \/ mask_row b = 1%nat \/ mask_row b = 2%nat \/ mask_row b = 3%nat.
Proof.
  unfold mask_row. pose proof (land7 b) as H. destruct (Z.land b 7) as [|p|p]; [left; reflexivity| |lia].
  destruct p as [[[p|p|]|[p|p|]|]|[[p|p|]|[p|p|]|]|]; try lia; cbn; auto.
Qed.
(** Which setting a button state selects (a pressed button is a 0): typical 0, harsh 1, pass-through 2, medium 3. *)
Theorem C92_settings : forall b, mask_row b = if Z.land b 7 =? 3 then 1%nat else if Z.land b 7 =? 5 then 3%nat else if Z.land b 7 =? 6 then 2%nat else 0%nat.
Proof. intros b. unfold mask_row. pose proof (land7 b) as H. destruct (Z.land b 7) as [|p|p]; [reflexivity| |lia]. destruct p as [[[p|p|]|[p|p|]|]|[[p|p|]|[p|p|]|]|]; try lia; reflexivity. Qed.
Lemma column_check (P : Z -> nat -> bool) r : forallb (fun i => P (nth i (nth r output_lookup []) 0) i) (seq 0 256) = true -> forall i, (i < 256)%nat -> P (nth i (nth r output_lookup []) 0) i = true.
Proof. intros F i Hi. rewrite forallb_forall in F. apply (F i). apply in_seq. lia. Qed.
Definition small (v : Z) (i : nat) : bool := (0 <=? v) && (v <=? 511).
(** With any buttons and any output of the network between 0 and 1 a mask is set; for the typical and the pass-through setting it is the entry
    of the table in units of 1/256, never negative and not decreasing; pass-through is exactly one. *)
Theorem C92_masks : forall b q, (0 <= q <= 1)%Q ->
  exists m, mask_of b q = Some m /\
    (mask_row b = 0%nat \/ mask_row b = 2%nat -> m = entry b (Z.to_nat (trunc (q * 255))) * 4194304 /\ 0 <= m) /\
    (mask_row b = 2%nat -> m = MEL_ONE).
Proof.
  intros b q H. pose proof (trunc_range q H) as T. unfold mask_of, entry. destruct (Z.leb_spec 0 (trunc (q * 255))); [|lia]. destruct (Z.ltb_spec (trunc (q * 255)) 256); [|lia]. cbn [andb].
  eexists. split; [reflexivity|]. assert (Hi : (Z.to_nat (trunc (q * 255)) < 256)%nat) by lia. split.
  - intros R. assert (S : small (nth (Z.to_nat (trunc (q * 255))) (nth (mask_row b) output_lookup []) 0) (Z.to_nat (trunc (q * 255))) = true) by (destruct R as [R|R]; rewrite R; apply (column_check small); auto; vm_compute; reflexivity).
    unfold small in S. apply andb_true_iff in S. destruct S as [S1 S2]. apply Z.leb_le in S1, S2. rewrite to_int_id by (unfold int32; lia). lia.
  - intros R. rewrite R. pose proof (column_check (fun v _ => v =? 256) 2 ltac:(vm_compute; reflexivity) _ Hi) as E. cbv beta in E. apply Z.eqb_eq in E. rewrite E. reflexivity.
Qed.
Lemma entry_monotone r : (r < 4)%nat -> forall i j, (i <= j < 256)%nat -> nth i (nth r output_lookup []) 0 <= nth j (nth r output_lookup []) 0.
Proof.
  intros Hr. assert (F : forall i, (i < 255)%nat -> nth i (nth r output_lookup []) 0 <= nth (S i) (nth r output_lookup []) 0).
  { intros i Hi. assert (G : forallb (fun i => nth i (nth r output_lookup []) 0 <=? nth (S i) (nth r output_lookup []) 0) (seq 0 255) = true) by (destruct r as [|[|[|[|r]]]]; try lia; vm_compute; reflexivity).
    rewrite forallb_forall in G. apply Z.leb_le, G, in_seq. lia. }
  intros i j (H1 & H2). induction j as [|j IH]; [replace i with 0%nat by lia; lia|]. destruct (Nat.eq_dec i (S j)); [subst; lia|]. specialize (F j ltac:(lia)). specialize (IH ltac:(lia) ltac:(lia)). lia.
Qed.
Theorem C92_monotone : forall b q r m n, (0 <= q <= r)%Q -> (r <= 1)%Q -> mask_row b = 0%nat -> mask_of b q = Some m -> mask_of b r = Some n -> m <= n.
Proof.
  intros b q r m n (H1 & H2) H3 R E1 E2. destruct (C92_masks b q ltac:(split; lra)) as (m' & E1' & P1 & _). destruct (C92_masks b r ltac:(split; lra)) as (n' & E2' & P2 & _).
  assert (m' = m) by congruence. assert (n' = n) by congruence. subst m' n'. destruct (P1 (or_introl R)) as (-> & _). destruct (P2 (or_introl R)) as (-> & _).
  apply Z.mul_le_mono_nonneg_r; [lia|]. unfold entry. rewrite R. apply entry_monotone; [lia|]. pose proof (trunc_range q ltac:(split; lra)). pose proof (trunc_range r ltac:(split; lra)). split; [|lia].
  apply Z2Nat.inj_le; try lia. unfold trunc. destruct q as [a bb], r as [c d]. unfold Qle in *. cbn in *. rewrite !Pos.mul_1_r in *. rewrite !Z.mul_1_r in *. rewrite !Z.quot_div_nonneg by lia.
  rewrite <- (Z.div_mul_cancel_r (a * 255) (Z.pos bb) (Z.pos d)) by lia. rewrite <- (Z.div_mul_cancel_r (c * 255) (Z.pos d) (Z.pos bb)) by lia. rewrite (Z.mul_comm (Z.pos d) (Z.pos bb)). apply Z.div_le_mono; lia.
Qed.
(** In the harsh and the medium setting the shift overflows for the highest outputs of the network: exactly those get a negative mask. *)
Definition overflows (b : Z) (i : Z) : Prop := (mask_row b = 1%nat /\ 226 <= i) \/ (mask_row b = 3%nat /\ 244 <= i).
Theorem C92_negative_refuted : forall b q m, (0 <= q <= 1)%Q -> mask_of b q = Some m -> (m < 0 <-> overflows b (trunc (q * 255))).
Proof.
  intros b q m H. pose proof (trunc_range q H) as T. unfold mask_of, overflows. destruct (Z.leb_spec 0 (trunc (q * 255))); [|lia]. destruct (Z.ltb_spec (trunc (q * 255)) 256); [|lia]. cbn [andb]. intros [= <-].
  remember (trunc (q * 255)) as i eqn:Ei. clear Ei H. assert (Hi : (Z.to_nat i < 256)%nat) by lia.
  set (chk := fun (lim : nat) (v : Z) (k : nat) => Bool.eqb (to_int (v * 4194304) <? 0) (lim <=? k)%nat).
  assert (G : forall r lim, forallb (fun k => chk lim (nth k (nth r output_lookup []) 0) k) (seq 0 256) = true -> (to_int (nth (Z.to_nat i) (nth r output_lookup []) 0 * 4194304) < 0 <-> (lim <= Z.to_nat i)%nat)).
  { intros r lim C. pose proof (column_check (chk lim) r C (Z.to_nat i) Hi) as E. unfold chk in E. apply eqb_prop in E. rewrite <- Z.ltb_lt, E. apply Nat.leb_le. }
  destruct (rows_cases b) as [R|[R|[R|R]]]; rewrite R.
  - rewrite (G 0%nat 256%nat) by (vm_compute; reflexivity). split; [lia|intros [(? & _)|(? & _)]; discriminate].
  - rewrite (G 1%nat 226%nat) by (vm_compute; reflexivity). split; [left; split; auto; lia|intros [(_ & ?)|(? & _)]; [lia|discriminate]].
  - rewrite (G 2%nat 256%nat) by (vm_compute; reflexivity). split; [lia|intros [(? & _)|(? & _)]; discriminate].
  - rewrite (G 3%nat 244%nat) by (vm_compute; reflexivity). split; [right; split; auto; lia|intros [(? & _)|(_ & ?)]; [discriminate|lia]].
Qed.
Example C92_harsh_at_one : mask_of 3 1 = Some (-1161822208) /\ mask_of 6 (1 # 3) = Some MEL_ONE /\ mask_of 15 (1 # 2) = Some (164 * 4194304).
Proof. vm_compute. auto. Qed.
(** An output of the network of 256/255 or more reads outside of its row. *)
Theorem C92_range_refuted : forall b q, (256 # 255 <= q)%Q -> mask_of b q = None.
Proof.
  intros b [a d] H. unfold mask_of, trunc. unfold Qle in H. cbn in *. rewrite Pos.mul_1_r. rewrite Z.quot_div_nonneg by lia.
  assert (256 <= a * 255 / Z.pos d) by (apply Z.div_le_lower_bound; lia). destruct (Z.ltb_spec (a * 255 / Z.pos d) 256); [lia|]. rewrite andb_false_r. reflexivity.
Qed.
Lemma nth_map_seq (f : nat -> Z) n i : (i < n)%nat -> nth i (map f (seq 0 n)) 0 = f i.
Proof. intros H. rewrite (nth_indep _ 0 (f 0%nat)) by (rewrite map_length, seq_length; lia). rewrite map_nth, seq_nth by lia. reflexivity. Qed.
(** Masks of one leave the spectrum as it is. *)
Theorem C92_passthrough : forall b outputs spectrum, mask_row b = 2%nat -> length outputs = 64%nat -> Forall (fun q => 0 <= q <= 1)%Q outputs -> length spectrum = 512%nat -> Forall int32 spectrum ->
  exists masks, Forall2 (fun q m => mask_of b q = Some m) outputs masks /\ apply_masks spectrum masks mel_coefficients mel_bins_in_overlap = Some spectrum.
Proof.
  intros b outputs spectrum R LO FO LS FS. exists (repeat MEL_ONE 64). split.
  - rewrite <- LO. clear - R FO. induction FO as [|q l H F IH]; cbn; constructor; auto. destruct (C92_masks b q H) as (m & E & _ & P). rewrite E, P; auto.
  - destruct C85_shipped_tables as (FB & F & T). destruct (C85_constant_mask 64 257 shipped shipped_first MEL_ONE FB ltac:(lia) ltac:(cbn [Nat.sub]; rewrite F; lia) ltac:(unfold MEL_ONE; lia)) as (o & f & E & X).
    rewrite T in E. injection E as <- <-. unfold apply_masks. rewrite X. f_equal. apply (nth_ext _ _ 0 0); [rewrite map_length, seq_length; auto|]. rewrite map_length, seq_length. intros i Hi.
    rewrite (nth_map_seq _ 512 i Hi).
    cbv beta zeta.
    assert (K : forall k, (k < 257)%nat -> nth k (repeat MEL_ONE 257) 0 = MEL_ONE). { intros k Hk. assert (I : In (nth k (repeat MEL_ONE 257) 0) (repeat MEL_ONE 257)) by (apply nth_In; rewrite repeat_length; lia). apply repeat_spec in I. exact I. }
    rewrite K. 2:{ destruct (Nat.eqb i 0); [lia|]. destruct (Nat.eqb i 1); [lia|]. apply Nat.div_lt_upper_bound; lia. }
    unfold apply_mask. change 1073741824 with MEL_ONE. rewrite Z.div_mul by discriminate. apply to_int_id. rewrite Forall_forall in FS. apply FS, nth_In. lia.
Qed.

Print Assumptions C91_overlap_add.
Print Assumptions C91_analysis.
Print Assumptions C91_table.
Print Assumptions C91_unity.
Print Assumptions C91_unity_shipped.
Print Assumptions C92_settings.
Print Assumptions C92_masks.
Print Assumptions C92_monotone.
Print Assumptions C92_negative_refuted.
Print Assumptions C92_range_refuted.
Print Assumptions C92_passthrough.
