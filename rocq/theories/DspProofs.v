(** Lemmas for C106. *)
From Coq Require Import List ZArith QArith Bool Arith Lia.
From Verif Require Import MelModel AudioTables AudioModel AudioSpec AudioProofs AudioProps DspModel DspSpec.
Import ListNotations.
Local Open Scope Z_scope.

Lemma sample_at l n : sample l n = at_ l n.
Proof. reflexivity. Qed.
Lemma all_at_overlapped ys n : all_at ys n = overlapped (Z.of_nat ADV) ys n.
Proof. revert n. induction ys as [|y ys IH]; intros n; [reflexivity|]. cbn [all_at overlapped]. rewrite IH. reflexivity. Qed.

Section Down.
Variable DS : Type.
Variable down : DS -> list Z -> DS * Z.
Notation downs := (downs DS down).
Lemma downs_length n : forall s l, length (snd (downs s n l)) = n.
Proof.
  induction n as [|n IH]; intros s l; [reflexivity|]. cbn [DspModel.downs]. destruct (down s (firstn 3 l)) as [s1 x].
  specialize (IH s1 (skipn 3 l)). destruct (downs s1 n (skipn 3 l)) as [s2 xs]. cbn [snd length] in *. lia.
Qed.
Lemma downs_app n m : forall s l l', length l = (3 * n)%nat ->
  downs s (n + m) (l ++ l') = let '(s1, a) := downs s n l in let '(s2, b) := downs s1 m l' in (s2, a ++ b).
Proof.
  induction n as [|n IH]; intros s l l' L.
  - destruct l; [|cbn in L; lia]. cbn [Nat.add app DspModel.downs]. destruct (downs s m l') as [s2 b]. reflexivity.
  - cbn [Nat.add DspModel.downs]. rewrite firstn_app, skipn_app. replace (3 - length l)%nat with 0%nat by lia. rewrite firstn_O, skipn_O, app_nil_r.
    destruct (down s (firstn 3 l)) as [s1 x]. rewrite IH by (rewrite skipn_length; lia). destruct (downs s1 n (skipn 3 l)) as [s2 a]. destruct (downs s2 m l') as [s3 b]. reflexivity.
Qed.
Lemma downs_prefix n s l l' : length l = (3 * n)%nat -> snd (downs s n (l ++ l')) = snd (downs s n l).
Proof. intros L. rewrite <- (Nat.add_0_r n) at 1. rewrite downs_app by auto. destruct (downs s n l) as [s1 a]. cbn. apply app_nil_r. Qed.

(** The low-rate samples block by block. *)
Fixpoint low_blocks (s : DS) (bl : list (Z * list Z)) : list (list Z) :=
  match bl with [] => [] | (_, l) :: tl => let '(s1, new) := downs s ADV l in new :: low_blocks s1 tl end.
Lemma low_blocks_concat bl : forall s, Forall (fun p => length (snd p) = BLOCK) bl ->
  concat (low_blocks s bl) = snd (downs s (length bl * ADV) (concat (map snd bl))).
Proof.
  induction bl as [|[b l] bl IH]; intros s F; [reflexivity|]. apply Forall_cons_iff in F. destruct F as [L F]. cbn [snd] in L.
  cbn [low_blocks map snd concat length]. change (S (length bl) * ADV)%nat with (ADV + length bl * ADV)%nat. rewrite downs_app by (rewrite L; reflexivity).
  destruct (downs s ADV l) as [s1 a]. cbn [concat]. rewrite IH by auto. destruct (downs s1 (length bl * ADV) (concat (map snd bl))) as [s2 c]. reflexivity.
Qed.
Lemma low_blocks_sized bl : forall s, Forall (fun b => length b = ADV) (low_blocks s bl) /\ length (low_blocks s bl) = length bl.
Proof.
  induction bl as [|[b l] bl IH]; intros s; [split; [constructor|reflexivity]|]. cbn [low_blocks]. pose proof (downs_length ADV s l) as L. destruct (downs s ADV l) as [s1 new]. cbn [snd] in L.
  destruct (IH s1) as [F E]. split; [constructor; auto|cbn [length]; lia].
Qed.
End Down.

Section Up.
Variable US : Type.
Variable up : US -> Z -> US * list Z.
Notation ups := (ups US up).
Lemma ups_app a : forall s b, ups s (a ++ b) = let '(s1, r) := ups s a in let '(s2, r') := ups s1 b in (s2, r ++ r').
Proof.
  induction a as [|x a IH]; intros s b; [cbn [app DspModel.ups]; destruct (ups s b); reflexivity|]. cbn [app DspModel.ups]. destruct (up s x) as [s1 r]. rewrite IH.
  destruct (ups s1 a) as [s2 r2]. destruct (ups s2 b) as [s3 r3]. rewrite app_assoc. reflexivity.
Qed.
Lemma ups_length (H : forall u x, length (snd (up u x)) = 3%nat) l : forall s, length (snd (ups s l)) = (3 * length l)%nat.
Proof.
  induction l as [|x l IH]; intros s; [reflexivity|]. cbn [DspModel.ups]. pose proof (H s x) as L. destruct (up s x) as [s1 r]. specialize (IH s1). destruct (ups s1 l) as [s2 rs].
  cbn [snd length] in *. rewrite app_length. lia.
Qed.
End Up.

Lemma map_seq_at {X : Type} (f : nat -> X) n i d : (i < n)%nat -> nth i (map f (seq 0 n)) d = f i.
Proof. intros H. rewrite (nth_indep _ d (f 0%nat)) by (rewrite map_length, seq_length; lia). rewrite map_nth, seq_nth by lia. reflexivity. Qed.
Lemma windows_slides news : Forall (fun b => length b = ADV) news -> slides ADV WIN (repeat 0 WIN) news = windows (length news) (concat news).
Proof.
  intros F. assert (LS : length (slides ADV WIN (repeat 0 WIN) news) = length news) by apply slides_length.
  apply (nth_ext _ _ [] []); [unfold windows; rewrite map_length, seq_length; exact LS|]. rewrite LS. intros k Hk.
  assert (Hp : (0 < ADV <= WIN)%nat) by (unfold ADV, WIN; lia).
  assert (LK : length (nth k (slides ADV WIN (repeat 0 WIN) news) []) = WIN).
  { apply (slides_spec ADV WIN news Hp F (repeat 0 WIN) k 0%nat); [apply repeat_length|exact Hk|unfold WIN; lia]. }
  unfold windows. rewrite (map_seq_at (fun j => map (fun i => sample (concat news) (Z.of_nat ((j + 1) * ADV + i) - Z.of_nat WIN)) (seq 0 WIN))) by exact Hk.
  apply (nth_ext _ _ 0 0); [rewrite LK, map_length, seq_length; reflexivity|]. rewrite LK. intros i Hi. rewrite nth_map_seq by exact Hi. rewrite sample_at. apply C91_analysis; auto.
Qed.

Lemma added_synths ys : Forall (fun y => length y = WIN /\ Forall int32 y) ys -> synths ADV WIN (repeat 0 WIN) ys = added ys.
Proof.
  intros F. assert (Hp : (0 < ADV <= WIN)%nat) by (unfold ADV, WIN; lia).
  assert (L : forall out, length out = WIN -> length (synths ADV WIN out ys) = (length ys * ADV)%nat).
  { clear - F Hp. induction F as [|y ys (Ly & _) F IH]; intros out Lo; [reflexivity|]. cbn [synths synth length]. pose proof (overlap_length ADV WIN out y ltac:(lia) Lo Ly) as LO.
    rewrite app_length, IH by (apply keep_length; [lia|exact LO]). unfold leaves. rewrite firstn_length. lia. }
  apply (nth_ext _ _ 0 0); [unfold added; rewrite map_length, seq_length; apply L, repeat_length|]. rewrite L by apply repeat_length. intros n Hn.
  unfold added. rewrite nth_map_seq by exact Hn. rewrite all_at_overlapped. apply C91_overlap_add; auto.
Qed.

Section Pipeline.
Variables DS US NS : Type.
Variable down : DS -> list Z -> DS * Z.
Variable up : US -> Z -> US * list Z.
Variable forward : list Z -> list Z * (Z * Z).
Variable inverse : Z * Z -> list Z -> list Z.
Variable network : NS -> list Z -> NS * list Q.
Variables t2 t3 t11 : Z.
Variable stack : list Z.
Notation statics := (statics DS US NS).
Notation block := (block DS US NS down up forward inverse network t2 t3 t11 stack).
Notation masked := (masked NS inverse network t2 t3 t11 stack).
Notation transformed := (map (fun f => forward (window raised_cosine_512 f))).

Lemma block_length : (forall u x, length (snd (up u x)) = 3%nat) -> forall b d l, length (snd (block b d l)) = BLOCK.
Proof.
  intros H b d l. unfold DspModel.block. destruct d as [s|]; [|apply repeat_length].
  destruct (downs DS down (s_ds _ _ _ s) ADV l) as [ds new]. destruct (forward _) as [spectrum st]. destruct (calculate_mels _ _ _ _ _ _) as [levels|]; [|apply repeat_length].
  destruct (network _ levels) as [ns outputs]. destruct (all_masks b outputs) as [masks|]; [|apply repeat_length].
  destruct (apply_masks _ _ _ _) as [sp|]; [|apply repeat_length]. cbv zeta.
  pose proof (ups_length US up H (map (fun i => nth i (overlap ADV WIN (s_out _ _ _ s) (inverse st sp)) 0) (seq 0 ADV)) (s_us _ _ _ s)) as L.
  destruct (ups US up (s_us _ _ _ s) _) as [us r]. cbn [snd] in *. rewrite L, map_length, seq_length. reflexivity.
Qed.

Lemma firstn_reads n (l : list Z) : (n <= length l)%nat -> map (fun i => nth i l 0) (seq 0 n) = firstn n l.
Proof.
  intros H. apply (nth_ext _ _ 0 0); [rewrite map_length, seq_length, firstn_length; lia|]. rewrite map_length, seq_length. intros i Hi.
  rewrite nth_map_seq by exact Hi. rewrite nth_firstn' by exact Hi. reflexivity.
Qed.

Lemma masked_length sp : forall ns bs ys, length bs = length sp -> masked ns bs sp = Some ys -> length ys = length sp.
Proof.
  induction sp as [|[s st] sp IH]; intros ns [|b bs] ys L H; cbn [length DspSpec.masked] in *; try discriminate; [injection H as <-; reflexivity|].
  destruct (calculate_mels _ _ _ _ _ _) as [levels|]; [|discriminate]. destruct (network ns levels) as [ns' outputs]. destruct (all_masks b outputs) as [ms|]; [|discriminate].
  destruct (apply_masks _ _ _ _) as [s'|]; [|discriminate]. destruct (masked ns' bs sp) as [ys'|] eqn:E; [|discriminate]. injection H as <-. cbn [length]. f_equal. apply (IH ns' bs); auto.
Qed.

Lemma pipeline bl : forall s ys, length (s_out _ _ _ s) = WIN ->
  masked (s_ns _ _ _ s) (map fst bl) (transformed (slides ADV WIN (s_frame _ _ _ s) (low_blocks DS down (s_ds _ _ _ s) bl))) = Some ys ->
  Forall (fun y => length y = WIN) ys ->
  concat (results (option statics) block (Some s) bl) = snd (ups US up (s_us _ _ _ s) (synths ADV WIN (s_out _ _ _ s) ys)).
Proof.
  induction bl as [|[b l] bl IH]; intros s ys Lo M F.
  - cbn [map DspSpec.masked low_blocks slides] in M. injection M as <-. reflexivity.
  - cbn [results map fst low_blocks] in *. unfold DspModel.block at 1. destruct (downs DS down (s_ds _ _ _ s) ADV l) as [ds new] eqn:ED.
    cbn [slides map DspSpec.masked] in M. set (frame := slide ADV WIN (s_frame _ _ _ s) new) in *. destruct (forward (window raised_cosine_512 frame)) as [sp st].
    cbn [DspSpec.masked] in M. destruct (calculate_mels _ _ _ _ _ _) as [levels|]; [|discriminate]. destruct (network _ levels) as [ns outputs].
    destruct (all_masks b outputs) as [ms|]; [|discriminate]. destruct (apply_masks _ _ _ _) as [sp'|]; [|discriminate].
    destruct (masked ns (map fst bl) (transformed (slides ADV WIN frame (low_blocks DS down ds bl)))) as [ys'|] eqn:E; [|discriminate].
    injection M as <-. apply Forall_cons_iff in F. destruct F as [Ly F]. cbv zeta.
    set (y := inverse st sp') in *. set (out := overlap ADV WIN (s_out _ _ _ s) y) in *.
    assert (LO : length out = WIN) by (apply overlap_length; auto; unfold ADV, WIN; lia).
    assert (LK : length (keep ADV WIN out) = WIN) by (apply keep_length; auto; unfold ADV, WIN; lia).
    rewrite firstn_reads by (rewrite LO; unfold ADV, WIN; lia).
    cbn [synths synth]. fold out. change (leaves ADV out) with (firstn ADV out). rewrite ups_app. destruct (ups US up (s_us _ _ _ s) (firstn ADV out)) as [us r].
    cbn [concat]. specialize (IH (Statics DS US NS ds frame (keep ADV WIN out) us ns) ys' LK E F). cbn [s_us s_out] in IH. rewrite IH.
    destruct (ups US up us _) as [us2 r2]. reflexivity.
Qed.

Lemma pass_through_row b : pass_through b -> mask_row b = 2%nat.
Proof. unfold pass_through. intros E. rewrite C92_settings, E. reflexivity. Qed.
Lemma all_masks_spec b outputs masks : Forall2 (fun q m => mask_of b q = Some m) outputs masks -> all_masks b outputs = Some masks.
Proof. induction 1 as [|q m qs ms H F IH]; [reflexivity|]. cbn [all_masks]. rewrite H, IH. reflexivity. Qed.
(** With the pass-through setting the masked spectra are the spectra. *)
Lemma masked_pass e (N : forall ns levels, length (snd (network ns levels)) = 64%nat /\ Forall (fun q => 0 <= q <= 1)%Q (snd (network ns levels))) fs :
  Forall (fun f => length f = WIN) fs -> Forall (passes forward inverse t2 t3 t11 stack e) fs -> forall ns bs, Forall pass_through bs -> length bs = length fs ->
  exists ys, masked ns bs (transformed fs) = Some ys /\ Forall2 (came_back e raised_cosine_512) fs ys.
Proof.
  intros FL F. induction F as [|f fs P F IH]; intros ns bs B L.
  - exists []. destruct bs; [|discriminate]. split; [reflexivity|constructor].
  - apply Forall_cons_iff in FL. destruct FL as [Lf FL]. destruct bs as [|b bs]; [discriminate|]. apply Forall_cons_iff in B. destruct B as [Pb B].
    cbn [map]. unfold passes in P. destruct (forward (window raised_cosine_512 f)) as [sp st] eqn:EF. destruct P as (Ls & Is & NE & Ly & Iy & Cy).
    cbn [DspSpec.masked]. destruct (calculate_mels t2 t3 t11 stack sp (fst st)) as [levels|]; [|congruence].
    destruct (N ns levels) as [No Ro]. destruct (network ns levels) as [ns' outputs]. cbn [snd] in *.
    destruct (C92_passthrough b outputs sp (pass_through_row b Pb) No Ro Ls Is) as (ms & M & A). rewrite (all_masks_spec b outputs ms M), A.
    destruct (IH FL ns' bs B ltac:(cbn in L; lia)) as (ys & E & G). rewrite E. exists (inverse st sp :: ys). split; [reflexivity|]. constructor; [|exact G].
    split; [congruence|]. split; [exact Iy|]. rewrite Lf. exact Cy.
Qed.
End Pipeline.
