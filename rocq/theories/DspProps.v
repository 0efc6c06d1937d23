(** C106: the audio example from end to end.  Vocabulary: AudioModel (the threads), AudioSpec (samples, buttons, timely), DspModel, DspSpec. *)
From Coq Require Import List ZArith QArith Bool Arith Lia.
From Verif Require Import MelModel AudioTables AudioModel AudioSpec AudioProofs AudioProps.
From Verif Require Import MemPlanModel MemExecSpec ArenasModel ArenasSpec RecurModel RecurSpec RecurProps.
From Verif Require Import AudioModel AudioSpec DspModel DspSpec DspProofs.
Import ListNotations.
Local Open Scope Z_scope.

Lemma concat_blocks (bl : list (Z * list Z)) : Forall (fun p => length (snd p) = BLOCK) bl -> length (concat (map snd bl)) = (length bl * BLOCK)%nat.
Proof. induction 1 as [|p bl H F IH]; [reflexivity|]. cbn [map concat length]. rewrite app_length, IH, H. lia. Qed.

Lemma firstn_Forall {X : Type} (P : X -> Prop) k l : Forall P l -> Forall P (firstn k l).
Proof. intros F. rewrite <- (firstn_skipn k l) in F. apply Forall_app in F. tauto. Qed.

(** Whatever the interleaving of the two threads, as long as the deadlines are met: what is sent back is the uninitialised stack, 384 zeros, and then the
    samples received at a third of the rate, their overlapping windows, transformed, masked by the network's outputs under the settings of the buttons,
    transformed back, added up, and brought back to the rate, as one computation on the stream. *)
Theorem C106_audio : forall DS US NS down up forward inverse network t2 t3 t11 stack (ds0 : DS) (us0 : US) (ns0 : NS) in0 out0 l c' o,
  (forall u x, length (snd (up u x)) = 3%nat) -> length in0 = BLOCK -> length out0 = BLOCK ->
  let process := block DS US NS down up forward inverse network t2 t3 t11 stack in
  let c := start BLOCK (option (statics DS US NS)) (at_start DS US NS ds0 us0 ns0) in0 out0 in
  run BLOCK _ process c l = Some (c', o) -> timely BLOCK _ process c l ->
  exists k settings,
    settings = firstn k (buttons BLOCK _ process 15 c l) /\ length settings = k /\
    (k * BLOCK <= length (samples l) <= (2 + k) * BLOCK)%nat /\
    forall ys, masked NS inverse network t2 t3 t11 stack ns0 settings (spectra forward k (low_rate DS down ds0 k (samples l))) = Some ys ->
      Forall (fun y => length y = WIN /\ Forall int32 y) ys ->
      o = concat (map (fun x => repeat x 16) (firstn (length (samples l)) (out0 ++ repeat 0 BLOCK ++ snd (ups US up us0 (added ys))))).
Proof.
  intros DS US NS down up forward inverse network t2 t3 t11 stack ds0 us0 ns0 in0 out0 l c' o Hu L1 L2 process c R T.
  destruct (C90_stream BLOCK _ process ltac:(unfold BLOCK; lia) (fun b d x _ => block_length DS US NS down up forward inverse network t2 t3 t11 stack Hu b d x)
              (at_start DS US NS ds0 us0 ns0) in0 out0 l c' o L1 L2 R T) as (bl & F & Eb & Ec & Ln & Eo).
  exists (length bl), (map fst bl). split; [exact Eb|]. split; [apply map_length|].
  pose proof (concat_blocks bl F) as LC. rewrite Ec, firstn_length in LC. split; [lia|].
  intros ys M FY. rewrite Eo. do 5 f_equal.
  destruct (low_blocks_sized DS down bl ds0) as [FB LB]. pose proof (low_blocks_concat DS down bl ds0 F) as CB.
  assert (EL : low_rate DS down ds0 (length bl) (samples l) = concat (low_blocks DS down ds0 bl)).
  { rewrite CB, Ec. unfold low_rate. rewrite <- (firstn_skipn (length bl * BLOCK) (samples l)) at 1. apply downs_prefix. rewrite firstn_length, LC. unfold BLOCK, ADV. lia. }
  rewrite EL in M. unfold spectra in M. rewrite <- LB in M. rewrite <- windows_slides in M by exact FB.
  rewrite <- added_synths by exact FY.
  apply (pipeline DS US NS down up forward inverse network t2 t3 t11 stack bl (Statics DS US NS ds0 (repeat 0 WIN) (repeat 0 WIN) us0 ns0) ys).
  - apply repeat_length.
  - exact M.
  - eapply Forall_impl; [|exact FY]. intros y (Hy & _). exact Hy.
Qed.

(** With the pass-through setting, whatever the network answers (between 0 and 1): the sound comes back, 384 low-rate samples and two blocks later,
    up to the rounding of the windows and the transforms. *)
Theorem C106_pass_through : forall DS US NS down up forward inverse network t2 t3 t11 stack (ds0 : DS) (us0 : US) (ns0 : NS) in0 out0 l c' o e,
  (forall u x, length (snd (up u x)) = 3%nat) -> length in0 = BLOCK -> length out0 = BLOCK ->
  (forall ns levels, length (snd (network ns levels)) = 64%nat /\ Forall (fun q => 0 <= q <= 1)%Q (snd (network ns levels))) ->
  let process := block DS US NS down up forward inverse network t2 t3 t11 stack in
  let c := start BLOCK (option (statics DS US NS)) (at_start DS US NS ds0 us0 ns0) in0 out0 in
  run BLOCK _ process c l = Some (c', o) -> timely BLOCK _ process c l ->
  Forall pass_through (buttons BLOCK _ process 15 c l) ->
  0 <= e ->
  (forall k, (k * BLOCK <= length (samples l))%nat ->
     Forall (passes forward inverse t2 t3 t11 stack e) (windows k (low_rate DS down ds0 k (samples l))) /\
     Forall (fun x => Z.abs x <= 2147483647 - 24 - 4 * e) (low_rate DS down ds0 k (samples l))) ->
  exists k back,
    (k * BLOCK <= length (samples l) <= (2 + k) * BLOCK)%nat /\ length back = (k * ADV)%nat /\
    o = concat (map (fun x => repeat x 16) (firstn (length (samples l)) (out0 ++ repeat 0 BLOCK ++ snd (ups US up us0 back)))) /\
    forall n, (384 <= n < k * ADV)%nat ->
      -20 - 4 * e <= nth n back 0 - nth (n - 384) (low_rate DS down ds0 k (samples l)) 0 <= 4 + 4 * e.
Proof.
  intros DS US NS down up forward inverse network t2 t3 t11 stack ds0 us0 ns0 in0 out0 l c' o e Hu L1 L2 Hn process c R T B He H.
  destruct (C106_audio DS US NS down up forward inverse network t2 t3 t11 stack ds0 us0 ns0 in0 out0 l c' o Hu L1 L2 R T) as (k & st & Es & Lk & Ln & Q).
  destruct (H k ltac:(lia)) as [FP FR]. set (low := low_rate DS down ds0 k (samples l)) in *.
  assert (FW : Forall (fun f => length f = WIN) (windows k low)).
  { unfold windows. apply Forall_forall. intros f I. apply in_map_iff in I. destruct I as (j & <- & _). rewrite map_length. apply seq_length. }
  assert (Lw : length (windows k low) = k) by (unfold windows; rewrite map_length; apply seq_length).
  destruct (masked_pass DS US NS down up forward inverse network t2 t3 t11 stack e Hn (windows k low) FW FP ns0 st) as (ys & M & CB).
  { rewrite Es. apply firstn_Forall. exact B. }
  { rewrite Lw. exact Lk. }
  assert (FY : Forall (fun y => length y = WIN /\ Forall int32 y) ys).
  { clear - CB FW. revert FW. induction CB as [|f y fs ys (L & Iy & _) G IH]; intros FW; constructor; apply Forall_cons_iff in FW; destruct FW; [split; congruence|auto]. }
  assert (LY : length ys = k) by (rewrite <- Lw; symmetry; clear - CB; induction CB; cbn [length]; auto).
  exists k, (added ys). split; [exact Ln|]. split; [unfold added; rewrite map_length, seq_length, LY; reflexivity|]. split; [apply Q; assumption|].
  intros n Hk. rewrite <- added_synths by exact FY.
  assert (LL : length low = (k * ADV)%nat) by apply downs_length.
  assert (CH : exists news, Forall (fun b => length b = ADV) news /\ length news = k /\ concat news = low).
  { clear - LL. revert LL. generalize low. clear low. induction k as [|k IH]; intros low LL; [exists []; destruct low; [repeat constructor|discriminate]|].
    change (S k * ADV)%nat with (ADV + k * ADV)%nat in LL. destruct (IH (skipn ADV low)) as (news & F & L & E); [rewrite skipn_length; lia|].
    exists (firstn ADV low :: news). split; [constructor; [rewrite firstn_length; lia|exact F]|]. split; [cbn [length]; lia|]. cbn [concat]. rewrite E. apply firstn_skipn. }
  destruct CH as (news & Fn & Ln' & En). change (low_rate DS down ds0 k (samples l)) with low. rewrite <- En in CB, FR |- *. rewrite <- Ln' in CB. rewrite <- windows_slides in CB by exact Fn.
  apply (C91_unity_shipped news ys e n Fn He FR CB). rewrite Ln'. exact Hk.
Qed.

Lemma expand_defined fr : forall mel mel' ov cur run, length mel = length mel' -> expand_loop fr mel ov cur run <> None -> expand_loop fr mel' ov cur run <> None.
Proof.
  assert (G : forall l l' i, length l = length l' -> get l i <> None -> get l' i <> None).
  { intros l l' i E. unfold get. destruct (i <? 0); auto. rewrite !nth_error_Some, E. auto. }
  induction fr as [|x fr IH]; intros mel mel' ov cur run E H; cbn [expand_loop] in *; [discriminate|].
  destruct (if run <=? 0 then _ else _) as [[cur1 run1]|]; [|exact H].
  pose proof (G mel mel' cur1 E) as G1. pose proof (G mel mel' (cur1 + 1) E) as G2. pose proof (IH mel mel' ov cur1 (run1 - 1) E) as H3.
  destruct (get mel cur1); [|exfalso; apply H; reflexivity]. destruct (get mel (cur1 + 1)); [|exfalso; apply H; reflexivity].
  destruct (get mel' cur1); [|exfalso; apply G1; [discriminate|reflexivity]]. destruct (get mel' (cur1 + 1)); [|exfalso; apply G2; [discriminate|reflexivity]].
  destruct (expand_loop fr mel ov cur1 (run1 - 1)); [|exfalso; apply H; reflexivity].
  destruct (expand_loop fr mel' ov cur1 (run1 - 1)); [discriminate|exfalso; apply H3; [discriminate|reflexivity]].
Qed.
(** The stream of C106_audio is defined as long as the network answers between 0 and 1 and no sum in the mels overflows (C94 says when). *)
Theorem C106_defined : forall NS inverse network t2 t3 t11 stack,
  (forall ns levels, length (snd (network ns levels)) = 64%nat /\ Forall (fun q => 0 <= q <= 1)%Q (snd (network ns levels))) ->
  forall sp, Forall (fun p => calculate_mels t2 t3 t11 stack (fst p) (fst (snd p)) <> None) sp ->
  forall (ns : NS) settings, length settings = length sp -> exists ys, masked NS inverse network t2 t3 t11 stack ns settings sp = Some ys /\ length ys = length sp.
Proof.
  intros NS inverse network t2 t3 t11 stack Hn sp F. induction F as [|[s st] sp H F IH]; intros ns bs L.
  - exists []. destruct bs; [split; reflexivity|discriminate L].
  - destruct bs as [|b bs]; [discriminate L|]. cbn [masked fst snd] in *. destruct (calculate_mels t2 t3 t11 stack s (fst st)) as [lv|]; [|congruence].
    destruct (Hn ns lv) as [No Ro]. destruct (network ns lv) as [ns' outs]. cbn [snd] in *.
    assert (M : exists ms, all_masks b outs = Some ms /\ length ms = length outs).
    { clear - Ro. induction Ro as [|q l Hq Fq IHq]; [exists []; split; reflexivity|]. destruct (C92_masks b q Hq) as (m & E & _). destruct IHq as (ms & E2 & E3).
      exists (m :: ms). cbn [all_masks length]. rewrite E, E2. auto. }
    destruct M as (ms & EM & LM). rewrite EM.
    assert (A : exists s', apply_masks s ms mel_coefficients mel_bins_in_overlap = Some s').
    { unfold apply_masks, mel_expand. pose proof (expand_defined mel_coefficients (repeat 0 64) ms mel_bins_in_overlap (-1) 0) as D.
      destruct (expand_loop mel_coefficients ms mel_bins_in_overlap (-1) 0); [eexists; reflexivity|]. exfalso. apply D; [rewrite LM, No; apply repeat_length|vm_compute; discriminate|reflexivity]. }
    destruct A as (s' & EA). rewrite EA. destruct (IH ns' bs ltac:(cbn [length] in L; lia)) as (ys & E & Ly). rewrite E. exists (inverse st s' :: ys). split; [reflexivity|]. cbn [length]. lia.
Qed.

(** The network of the stream is nn_predict_masks on the compiled network, whatever else happens to the memory between its calls: if it is called with the
    levels of the spectra under the settings of the blocks, then the masks it writes are those that the stream uses. *)
Theorem C106_network : forall nets i encode floats inverse t2 t3 t11 stack ds m sp ys levels,
  recurrent (nets i) -> (forall l, length (encode l) = ROW) ->
  all_levels t2 t3 t11 stack sp = Some levels -> frames ds = map encode levels ->
  masked bytes inverse (compiled_network (nets i) encode floats) t2 t3 t11 stack zero_state (settings ds) sp = Some ys ->
  exists masks, program nets i floats ds m zero_state = map (map Some) masks /\ length masks = length sp /\
    Forall2 (fun p y => exists s', apply_masks (fst (fst p)) (snd p) mel_coefficients mel_bins_in_overlap = Some s' /\ y = inverse (snd (fst p)) s') (combine sp masks) ys.
Proof.
  intros nets i encode floats inverse t2 t3 t11 stack ds m sp ys levels R He EL EF M.
  assert (FF : Forall (fun f => length f = ROW) (frames ds)) by (rewrite EF; apply Forall_forall; intros f I; apply in_map_iff in I; destruct I as (l & <- & _); apply He).
  rewrite (C103_masks nets i floats ds m R FF). rewrite EF.
  assert (LS : length (settings ds) = length levels).
  { transitivity (length (frames ds)); [|rewrite EF; apply map_length]. clear. induction ds as [|[es|j b f] ds IH]; cbn [settings frames length]; auto. }
  revert M LS. generalize (settings ds) zero_state. clear EF FF R.
  revert levels ys EL. induction sp as [|[s st] sp IH]; intros levels ys EL bs st0 M LS; cbn [all_levels] in EL.
  - injection EL as <-. destruct bs; [|discriminate]. cbn [masked] in M. injection M as <-. exists []. repeat constructor.
  - destruct (calculate_mels t2 t3 t11 stack s (fst st)) as [lv|] eqn:EC; [|discriminate]. destruct (all_levels t2 t3 t11 stack sp) as [ls|]; [|discriminate]. injection EL as <-.
    destruct bs as [|b bs]; [discriminate|]. cbn [masked] in M. rewrite EC in M. unfold compiled_network in M at 1. cbv beta iota zeta in M.
    match type of M with context[floats (nth 1 ?x [])] => set (out := x) in * end.
    destruct (all_masks b (floats (nth 1 out []))) as [ms|] eqn:EA; [|discriminate]. destruct (apply_masks s ms _ _) as [s'|] eqn:EP; [|discriminate].
    destruct (masked _ _ _ _ _ _ _ _ bs sp) as [ys'|] eqn:EM; [|discriminate]. injection M as <-.
    destruct (IH ls ys' eq_refl bs _ EM ltac:(cbn [length] in LS; lia)) as (masks & E1 & E2 & E3).
    exists (ms :: masks). cbn [map unrolled combine]. cbv zeta. change (ArenasSpec.private_outputs (nets i) [encode lv; st0]) with out. cbn [map fst snd]. rewrite E1. split; [|split; [cbn [length]; lia|]].
    + f_equal. revert EA. clear. generalize (floats (nth 1 out [])). intros l. revert ms. induction l as [|q l IH]; intros ms E; cbn [all_masks map] in *; [injection E as <-; reflexivity|].
      destruct (mask_of b q) as [x|]; [|discriminate]. destruct (all_masks b l) as [xs|]; [|discriminate]. injection E as <-. cbn [map]. f_equal. apply IH. reflexivity.
    + constructor; [|exact E3]. exists s'. auto.
Qed.

(** A concrete case of the hypotheses: every third sample is taken, transforms that do nothing but scale, a network that answers 1/2 everywhere and
    counts the frames, a schedule of six blocks that meets the deadlines (the first button is pressed first), ended in the middle of the next block. *)
Definition demo_down (s : unit) (l : list Z) : unit * Z := (s, hd 0 l).
Definition demo_up (s : unit) (x : Z) : unit * list Z := (s, [x; x; x]).
Definition demo_forward (l : list Z) : list Z * (Z * Z) := (l, (0, 31)).
Definition demo_inverse (st : Z * Z) (l : list Z) : list Z := map (Z.mul 4) l.
Definition demo_network (n : nat) (levels : list Z) : nat * list Q := (S n, repeat (1 # 2)%Q 64).
Definition demo_process := block unit unit nat demo_down demo_up demo_forward demo_inverse demo_network 0 0 0 (repeat 0 256).
Definition demo_c := start BLOCK (option (statics unit unit nat)) (at_start unit unit nat tt tt 0%nat) (repeat 0 BLOCK) (repeat 0 BLOCK).
Definition demo_frames (from : Z) (n : nat) : list action := map (fun i => Frame (repeat (100 * (from + Z.of_nat i)) 16)) (seq 0 n).
Definition demo_one_block (from : Z) : list action := demo_frames from BLOCK ++ repeat StepT (2 * BLOCK + 1) ++ repeat StepD (2 * BLOCK + 1).
Definition demo_schedule : list action := [Button 6] ++ demo_one_block 0 ++ demo_one_block 384 ++ demo_one_block 768 ++ demo_one_block 1152 ++ demo_one_block 1536 ++ demo_one_block 1920 ++ demo_frames 2304 10.
(** The deadlines, decided. *)
Definition demo_restsb (c : config (option (statics unit unit nat))) : bool :=
  match d_phase _ (c_dsp _ c), tokens (c_shared _ c) with DIdle, O => true | _, _ => false end.
Fixpoint demo_timelyb (c : config (option (statics unit unit nat))) (l : list action) : bool :=
  match l with
  | [] => true
  | a :: tl => match a, t_phase (c_transport _ c) with StepT, TIn _ | StepT, TOut _ => demo_restsb c | _, _ => true end &&
               match step BLOCK _ demo_process c a with None => true | Some (c', _) => demo_timelyb c' tl end
  end.
Lemma demo_timelyb_ok l : forall c, demo_timelyb c l = true -> timely BLOCK _ demo_process c l.
Proof.
  induction l as [|a l IH]; intros d E; [exact Logic.I|]. cbn [demo_timelyb timely] in *. apply andb_true_iff in E. destruct E as [E1 E2]. split.
  - intros -> C. unfold copying in C. assert (demo_restsb d = true) as Er by (destruct (t_phase _); tauto). unfold demo_restsb in Er. unfold rests.
    destruct (d_phase _ _); try discriminate. destruct (tokens _); [auto|discriminate].
  - destruct (step BLOCK _ demo_process d a) as [[d' w]|]; [apply IH; exact E2|exact Logic.I].
Qed.
Definition passesb (f : list Z) : bool :=
  match calculate_mels 0 0 0 (repeat 0 256) (window raised_cosine_512 f) 0 with None => false | Some _ => true end &&
  forallb (fun x => (-100000000 <=? x) && (x <=? 100000000)) (window raised_cosine_512 f) && Nat.eqb (length (window raised_cosine_512 f)) WIN.
Lemma passesb_ok f : passesb f = true -> passes demo_forward demo_inverse 0 0 0 (repeat 0 256) 0 f.
Proof.
  unfold passesb, passes, demo_forward, demo_inverse. intros E. apply andb_true_iff in E. destruct E as [E E3]. apply andb_true_iff in E. destruct E as [E1 E2]. apply Nat.eqb_eq in E3.
  assert (B : forall x, In x (window raised_cosine_512 f) -> -100000000 <= x <= 100000000).
  { intros x I. rewrite forallb_forall in E2. specialize (E2 x I). apply andb_true_iff in E2. destruct E2 as [G1 G2]. apply Z.leb_le in G1, G2. lia. }
  split; [exact E3|]. split; [apply Forall_forall; intros x I; specialize (B x I); lia|]. cbn [fst]. split; [destruct (calculate_mels _ _ _ _ _ _); [discriminate|discriminate E1]|].
  cbv zeta. split; [rewrite map_length; exact E3|]. split; [apply Forall_forall; intros x I; apply in_map_iff in I; destruct I as (z & <- & I); specialize (B z I); lia|].
  intros i Hi. rewrite (nth_indep _ 0 (Z.mul 4 0)) by (rewrite map_length, E3; exact Hi). rewrite map_nth. rewrite Z.sub_diag. reflexivity.
Qed.
Definition demo_ok (k : nat) : bool :=
  let low := low_rate unit demo_down tt k (samples demo_schedule) in
  forallb passesb (windows k low) && forallb (fun x => Z.abs x <=? 2147483647 - 24) low.
Example C106_concrete :
  timely BLOCK _ demo_process demo_c demo_schedule /\ Forall pass_through (buttons BLOCK _ demo_process 15 demo_c demo_schedule) /\
  (forall k, (k * BLOCK <= length (samples demo_schedule))%nat ->
     Forall (passes demo_forward demo_inverse 0 0 0 (repeat 0 256) 0) (windows k (low_rate unit demo_down tt k (samples demo_schedule))) /\ Forall (fun x => Z.abs x <= 2147483647 - 24 - 4 * 0) (low_rate unit demo_down tt k (samples demo_schedule))) /\ 
  exists c' o, run BLOCK _ demo_process demo_c demo_schedule = Some (c', o) /\ nth (Z.to_nat (2310 * 16)) o 0 = 38992 /\ nth 130 (low_rate unit demo_down tt 4 (samples demo_schedule)) 0 = 39000.
Proof.
  split; [apply demo_timelyb_ok; vm_compute; reflexivity|]. split.
  { assert (E : buttons BLOCK _ demo_process 15 demo_c demo_schedule = repeat 6 6) by (vm_compute; reflexivity). rewrite E. repeat constructor. }
  split.
  { assert (G : forallb demo_ok (seq 0 7) = true) by (vm_compute; reflexivity). intros k Hk.
    assert (Hs : length (samples demo_schedule) = 2314%nat) by (vm_compute; reflexivity). rewrite Hs in Hk. unfold BLOCK in Hk.
    rewrite forallb_forall in G. specialize (G k ltac:(apply in_seq; lia)). apply andb_true_iff in G. destruct G as [G1 G2].
    rewrite forallb_forall in G1, G2. split; apply Forall_forall; intros x I.
    - apply passesb_ok, G1, I.
    - specialize (G2 x I). apply Z.leb_le in G2. lia. }
  assert (G : match run BLOCK _ demo_process demo_c demo_schedule with Some (_, o) => nth (Z.to_nat (2310 * 16)) o 0 =? 38992 | None => false end = true) by (vm_compute; reflexivity).
  destruct (run BLOCK _ demo_process demo_c demo_schedule) as [[c' o]|]; [|discriminate]. exists c', o. split; [reflexivity|]. split; [apply Z.eqb_eq; exact G|vm_compute; reflexivity].
Qed.

Print Assumptions C106_audio.
Print Assumptions C106_pass_through.
Print Assumptions C106_network.
Print Assumptions C106_defined.
