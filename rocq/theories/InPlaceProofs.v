From Verif Require Import Base MemPlanModel MemPlanSpec MemExecSpec InPlaceSpec.
Local Open Scope Z_scope.

Lemma read_length m off n : length (read m off n) = n.
Proof. unfold read. rewrite map_length, seq_length. reflexivity. Qed.

Lemma read_app m off a b : read m off (a + b) = read m off a ++ read m (off + Z.of_nat a) b.
Proof.
  unfold read. rewrite seq_app, map_app. f_equal. cbn [Nat.add].
  rewrite <- (Nat.add_0_r a) at 1. 
  replace (seq (a + 0) b) with (map (fun i => (a + i)%nat) (seq 0 b)).
  - rewrite map_map. apply map_ext. intros i. f_equal. lia.
  - clear. generalize 0%nat. induction b as [|b IH]; intros n; cbn; auto. f_equal. rewrite IH. f_equal; lia.
Qed.

Lemma read_ext m m' off n :
  (forall a, off <= a < off + Z.of_nat n -> m a = m' a) -> read m off n = read m' off n.
Proof.
  intros H. unfold read. apply map_ext_in. intros i Hi. apply in_seq in Hi. apply H. lia.
Qed.

Lemma firstn_read m off a n : (a <= n)%nat -> firstn a (read m off n) = read m off a.
Proof.
  intros H. replace n with (a + (n - a))%nat by lia. rewrite read_app.
  rewrite firstn_app, read_length, Nat.sub_diag. cbn. rewrite app_nil_r.
  rewrite <- (read_length m off a) at 1. apply firstn_all.
Qed.

Section Run.
Variables (K : kernel) (inOff outOff : Z) (m0 : memory).
Hypothesis F : front_to_back K.
Hypothesis D : Z.of_nat (k_out K) - Z.of_nat (k_in K) <= inOff - outOff.

Let input := read m0 inOff (k_in K).

Lemma k_run_spec : forall n k m,
  (k + n = k_out K)%nat ->
  forall c, (c <= k_in K)%nat -> ((0 < n)%nat -> (c <= k_need K k)%nat) ->
  ((0 < k)%nat -> (k_in K - c < k_out K - (k - 1))%nat) ->
  (forall a, inOff + Z.of_nat c <= a < inOff + Z.of_nat (k_in K) -> m a = m0 a) ->
  (forall j, (j < k)%nat -> m (outOff + Z.of_nat j) = nth j (k_result K input) 0) ->
  forall j, (j < k_out K)%nat ->
    k_run K inOff outOff m (firstn c input) (seq k n) (outOff + Z.of_nat j) = nth j (k_result K input) 0.
Proof.
  destruct F as (F1 & F2 & F3).
  induction n as [|n IH]; intros k m Hkn c Hc Hcn Hck Hm Hout j Hj; cbn [seq k_run].
  - apply Hout. lia.
  - assert (Hlen : length (firstn c input) = c).
    { rewrite firstn_length. unfold input. rewrite read_length. lia. }
    rewrite Hlen.
    specialize (Hcn ltac:(lia)). pose proof (F2 k ltac:(lia)) as Hk2. pose proof (F3 k ltac:(lia)) as Hk3.
    assert (Hcons : firstn c input ++ read m (inOff + Z.of_nat c) (k_need K k - c)
                    = firstn (k_need K k) input).
    { rewrite (read_ext m m0).
      - unfold input. rewrite !firstn_read by lia. rewrite <- read_app. f_equal. lia.
      - intros a Ha. apply Hm. lia. }
    rewrite Hcons.
    assert (Hres : nth k (k_result K input) 0 = k_fun K k (firstn (k_need K k) input)).
    { unfold k_result.
      change 0 with ((fun k0 => k_fun K k0 (firstn (k_need K k0) input)) k) at 2 || idtac.
      rewrite (nth_indep _ _ (k_fun K 0 (firstn (k_need K 0) input))) by (rewrite map_length, seq_length; lia).
      rewrite (map_nth (fun k0 => k_fun K k0 (firstn (k_need K k0) input)) (seq 0 (k_out K)) 0%nat k).
      rewrite seq_nth by lia. reflexivity. }
    apply IH; auto; try lia.
    + intros H0. apply F1. lia.
    + intros a Ha. unfold write. cbn [length]. 
      destruct (_ && _) eqn:E; [|apply Hm; lia]. exfalso. lia.
    + intros j' Hj'. unfold write. cbn [length].
      destruct (_ && _) eqn:E.
      * assert (j' = k) by lia. subst j'. rewrite Hres.
        replace (outOff + Z.of_nat k - (outOff + Z.of_nat k)) with 0 by lia. reflexivity.
      * apply Hout. lia.
Qed.

Lemma k_in_place_correct : k_in_place K inOff outOff m0 = k_result K (read m0 inOff (k_in K)).
Proof.
  fold input. unfold k_in_place.
  assert (L : length (k_result K input) = k_out K)
    by (unfold k_result; rewrite map_length, seq_length; auto).
  apply (nth_ext _ _ 0 0); rewrite read_length; [auto|].
  intros j Hj. unfold read at 1.
  set (m := k_run _ _ _ _ _ _).
  rewrite (nth_indep _ 0 (m (outOff + Z.of_nat 0))) by (rewrite map_length, seq_length; auto).
  rewrite (map_nth (fun i => m (outOff + Z.of_nat i)) (seq 0 (k_out K)) 0%nat j), seq_nth by auto.
  cbn [Nat.add]. subst m.
  pose proof (k_run_spec (k_out K) 0 m0 ltac:(lia) 0) as R. cbn [firstn] in R.
  apply R; auto; try lia.
Qed.
End Run.

Lemma pad_kernel_front_to_back n before out padv :
  (before + n <= out)%nat -> front_to_back (pad_kernel n before out padv).
Proof.
  intros H. repeat split; cbn [k_in k_out k_need pad_kernel map_kernel]; intros; lia.
Qed.

Lemma map_kernel_front_to_back n f : front_to_back (map_kernel n f).
Proof. repeat split; cbn [k_in k_out k_need pad_kernel map_kernel]; intros; lia. Qed.

(** The other direction: a kernel whose result starts too early overwrites its input. *)
Lemma k_run_other K inOff outOff : forall n k m c a,
  ~ (outOff + Z.of_nat k <= a < outOff + Z.of_nat (k + n)) -> k_run K inOff outOff m c (seq k n) a = m a.
Proof.
  induction n as [|n IH]; intros k m c a Ha; cbn [seq k_run]; [reflexivity|].
  rewrite IH by lia. unfold write. cbn [length]. destruct (_ && _) eqn:E; [|reflexivity]. exfalso. lia.
Qed.
Lemma pad_run_front N b T y z : forall n k m rest, (k + n <= b)%nat ->
  (forall a, z <= a < z + Z.of_nat k -> m a = 0) ->
  exists m', k_run (pad_kernel N b T 0) y z m [] (seq k n ++ rest) = k_run (pad_kernel N b T 0) y z m' [] rest /\
    forall a, z <= a < z + Z.of_nat (k + n) -> m' a = 0.
Proof.
  induction n as [|n IH]; intros k m rest H Hz; [exists m; split; [reflexivity|]; intros; apply Hz; lia|].
  cbn [seq app k_run length]. cbn [pad_kernel k_need k_fun].
  replace (S k - b)%nat with 0%nat by lia. rewrite Nat.min_0_r. cbn [Nat.sub read seq map app].
  replace (k <? b)%nat with true by (symmetry; apply Nat.ltb_lt; lia).
  destruct (IH (S k) (write m (z + Z.of_nat k) [0]) rest ltac:(lia)) as (m' & E & V).
  - intros a Ha. unfold write. cbn [length]. destruct (_ && _) eqn:E1; [|apply Hz; lia].
    replace (Z.to_nat _) with 0%nat by lia. reflexivity.
  - exists m'. split; [exact E|]. intros a Ha. apply V. lia.
Qed.
Lemma pad_in_place_wrong N T y z : (1 <= N <= T)%nat -> z <= y -> y - z < Z.of_nat T - Z.of_nat N ->
  let K := pad_kernel N (T - N) T 0 in k_in_place K y z (fun _ => 1) <> k_result K (read (fun _ => 1) y N).
Proof.
  intros HN Hz Hd K E. apply (f_equal (fun l => nth (T - N)%nat l 0)) in E.
  assert (R : nth (T - N)%nat (k_result K (read (fun _ => 1) y N)) 0 = 1).
  { unfold k_result. change (k_out K) with T. rewrite (nth_indep _ 0 (k_fun K 0 (firstn (k_need K 0) (read (fun _ => 1) y N)))) by (rewrite map_length, seq_length; lia).
    rewrite (map_nth (fun k => k_fun K k (firstn (k_need K k) (read (fun _ => 1) y N))) (seq 0 T) 0%nat), seq_nth by lia. cbn [Nat.add].
    unfold K, pad_kernel. cbn [k_fun k_need]. rewrite Nat.ltb_irrefl. replace (T - N <? T - N + N)%nat with true by (symmetry; apply Nat.ltb_lt; lia).
    rewrite Nat.sub_diag. replace (Nat.min N (S (T - N) - (T - N))) with 1%nat by lia.
    rewrite firstn_read by lia. reflexivity. }
  rewrite R in E. clear R. unfold k_in_place in E. change (k_out K) with T in E. revert E.
  unfold read. set (mm := k_run _ _ _ _ _ _).
  rewrite (nth_indep _ 0 (mm (z + Z.of_nat 0))) by (rewrite map_length, seq_length; lia).
  rewrite (map_nth (fun i => mm (z + Z.of_nat i)) (seq 0 T) 0%nat (T - N)), seq_nth by lia. cbn [Nat.add]. subst mm.
  assert (SQ : seq 0 T = seq 0 (T - N) ++ (T - N)%nat :: seq (S (T - N)) (N - 1)).
  { replace T with ((T - N) + S (N - 1))%nat at 1 by lia. rewrite seq_app. reflexivity. }
  rewrite SQ. clear SQ.
  destruct (pad_run_front N (T - N) T y z (T - N) 0 (fun _ => 1) ((T - N)%nat :: seq (S (T - N)) (N - 1)) ltac:(lia) ltac:(intros; lia)) as (m' & E & V).
  unfold K. rewrite E. cbn [k_run length]. rewrite k_run_other by lia.
  unfold write. cbn [length]. replace ((_ <=? _) && _) with true by lia. replace (Z.to_nat _) with 0%nat by lia. cbn [nth].
  cbn [pad_kernel k_fun k_need]. rewrite Nat.ltb_irrefl. replace (T - N <? T - N + N)%nat with true by (symmetry; apply Nat.ltb_lt; lia).
  replace (Nat.min N (S (T - N) - (T - N)) - 0)%nat with 1%nat by lia. rewrite Nat.sub_diag. cbn [app read seq map nth].
  rewrite V by lia. lia.
Qed.
