From Coq Require Import QArith.
From Verif Require Import Base ConvOptModel ConvOptSpec.
Local Open Scope nat_scope.

Lemma firstn_skipn_range {A} a n b m (l : list A) : a + n <= m -> firstn n (skipn a (firstn m (skipn b l))) = firstn n (skipn (b + a) l).
Proof.
  intros H. rewrite skipn_firstn_comm, firstn_firstn. replace (Nat.min n (m - a)) with n by lia.
  f_equal. clear. revert l. induction b as [|b IH]; intros l; cbn [skipn plus]; auto.
  destruct l; [rewrite skipn_nil; reflexivity|apply IH].
Qed.

Lemma nth_error_firstn {A} n : forall i (l : list A), i < n -> nth_error (firstn n l) i = nth_error l i.
Proof.
  induction n as [|n IH]; intros i l H; [lia|]. destruct l; [destruct i; reflexivity|]. destruct i; cbn; auto. apply IH; lia.
Qed.
Lemma nth_error_skipn {A} n : forall i (l : list A), nth_error (skipn n l) i = nth_error l (n + i).
Proof. induction n as [|n IH]; intros i l; cbn; auto. destruct l; [destruct i; reflexivity|apply IH]. Qed.

Lemma range_spec {A} a n (l r : list A) : range a n l = Some r -> r = firstn n (skipn a l) /\ a + n <= length l.
Proof. unfold range. destruct (Nat.leb_spec (a + n) (length l)); [|discriminate]. intros E; inv E. auto. Qed.

Lemma range_opt_ok {A} a n t (o : option (list A)) : (forall l, o = Some l -> length l = t) -> a + n <= t ->
  exists r, range_opt a n o = Some r /\ (forall i, i < n -> at_opt r i = at_opt o (a + i)) /\ (forall l, r = Some l -> length l = n).
Proof.
  intros HL H. unfold range_opt. destruct o as [l|].
  - specialize (HL l eq_refl). unfold range. destruct (Nat.leb_spec (a + n) (length l)); [|lia].
    eexists. split; [reflexivity|]. split.
    + intros i Hi. cbn [at_opt]. rewrite nth_error_firstn, nth_error_skipn by lia. reflexivity.
    + intros l' E. inv E. rewrite firstn_length, skipn_length. lia.
  - exists None. split; [reflexivity|]. split; [reflexivity|discriminate].
Qed.

Definition sumn (l : list nat) : nat := fold_right plus 0 l.

Lemma split_groups_le {W R} (G : W -> list Z -> option Z -> option (Q * Z) -> option (Q * Z) -> R) k N n c w :
  consts_ok k N c -> n <= N -> forall sizes elems, elems + sumn (map Z.to_nat sizes) = n ->
  exists gs, split_groups k c elems sizes = Some gs /\
    map fst gs = map Z.to_nat sizes /\ Forall (fun g => consts_ok k (fst g) (snd g)) gs /\
    concat (map (fun g => conv_channels G k (fst g) (snd g) w) gs) =
    map (fun o => G w (chunk k o (c_filter c)) (at_opt (c_bias c) o) (at_opt (c_fq c) o) (at_opt (c_bq c) o)) (seq elems (n - elems)).
Proof.
  intros (LF & LB & LQ & LR) HN. induction sizes as [|z sizes IH]; intros elems H.
  - cbn in *. exists []. repeat split; auto. replace (n - elems) with 0 by lia. reflexivity.
  - cbn [map sumn fold_right] in H. set (m := Z.to_nat z) in *.
    change (fold_right Init.Nat.add 0 (map Z.to_nat sizes)) with (sumn (map Z.to_nat sizes)) in H.
    destruct (IH (elems + m) ltac:(lia)) as (gs & E & EL & EF & EC).
    destruct (range_opt_ok elems m N (c_bias c) LB ltac:(lia)) as (rb & Eb & Hb & Lb).
    destruct (range_opt_ok elems m N (c_fq c) LQ ltac:(lia)) as (rq & Eq & Hq & Lq).
    destruct (range_opt_ok elems m N (c_bq c) LR ltac:(lia)) as (rr & Er & Hr & Lr).
    assert (LK : elems * k + m * k <= length (c_filter c)) by nia.
    set (f := firstn (m * k) (skipn (elems * k) (c_filter c))).
    exists ((m, Consts f rb rq rr) :: gs). split; [|split; [|split]].
    + cbn [split_groups]. fold m. unfold range at 1. destruct (Nat.leb_spec (elems * k + m * k) (length (c_filter c))); [|lia].
      fold f. rewrite Eb, Eq, Er, E. reflexivity.
    + cbn [map fst]. fold m. f_equal. exact EL.
    + constructor; [|exact EF]. cbn [fst snd]. split; [|auto]. cbn [c_filter]. unfold f. rewrite firstn_length, skipn_length. lia.
    + cbn [map concat fst snd]. rewrite EC.
      replace (n - elems) with (m + (n - (elems + m))) by lia. rewrite seq_app, map_app. f_equal.
      unfold conv_channels. cbn [c_filter c_bias c_fq c_bq].
      transitivity (map (fun o => G w (chunk k (elems + o) (c_filter c)) (at_opt (c_bias c) (elems + o)) (at_opt (c_fq c) (elems + o)) (at_opt (c_bq c) (elems + o))) (seq 0 m)).
      * apply map_ext_in. intros o Ho. apply in_seq in Ho. rewrite Hb, Hq, Hr by lia.
        f_equal. unfold chunk, f. rewrite firstn_skipn_range by nia. f_equal. f_equal. lia.
      * rewrite <- (map_map (fun o => elems + o) (fun o => G w (chunk k o (c_filter c)) (at_opt (c_bias c) o) (at_opt (c_fq c) o) (at_opt (c_bq c) o))).
        f_equal. clear. revert elems. induction m as [|m IH]; intros e; auto.
        rewrite seq_S, map_app, IH. rewrite seq_S. reflexivity.
Qed.

Lemma split_groups_ok {W R} (G : W -> list Z -> option Z -> option (Q * Z) -> option (Q * Z) -> R) k n c w :
  consts_ok k n c -> forall sizes elems, elems + sumn (map Z.to_nat sizes) = n ->
  exists gs, split_groups k c elems sizes = Some gs /\
    map fst gs = map Z.to_nat sizes /\ Forall (fun g => consts_ok k (fst g) (snd g)) gs /\
    concat (map (fun g => conv_channels G k (fst g) (snd g) w) gs) =
    map (fun o => G w (chunk k o (c_filter c)) (at_opt (c_bias c) o) (at_opt (c_fq c) o) (at_opt (c_bq c) o)) (seq elems (n - elems)).
Proof. intros HC sizes elems H. exact (split_groups_le G k n n c w HC (Nat.le_refl n) sizes elems H). Qed.

(** sizes *)
Lemma split_loop_sum n : forall d r, (0 <= d)%Z -> (0 <= r <= Z.of_nat n)%Z ->
  Z.of_nat (sumn (map Z.to_nat (split_sizes_loop n d r))) = (4 * (Z.of_nat n * d + r))%Z /\
  length (split_sizes_loop n d r) = n /\
  Forall (fun s => s = d * 4 \/ (s = (d + 1) * 4 /\ 0 < r))%Z (split_sizes_loop n d r).
Proof.
  induction n as [|n IH]; intros d r Hd Hr.
  - cbn. repeat split; auto. lia.
  - cbn [split_sizes_loop]. destruct (Z.gtb_spec r 0).
    + destruct (IH d (r - 1)%Z Hd ltac:(lia)) as (S1 & S2 & S3). cbn [map sumn fold_right length].
      change (fold_right Init.Nat.add 0 ?x) with (sumn x). split; [lia|]. split; [lia|].
      constructor; [right; lia|]. eapply Forall_impl; [|exact S3]. cbn; lia.
    + destruct (IH d r Hd ltac:(lia)) as (S1 & S2 & S3). cbn [map sumn fold_right length].
      change (fold_right Init.Nat.add 0 ?x) with (sumn x). split; [lia|]. split; [lia|].
      constructor; [left; lia|]. exact S3.
Qed.

Lemma split_sizes_sum n batch : (1 <= n)%Z -> (0 <= batch)%Z ->
  let sizes := split_sizes batch n in
  Z.of_nat (sumn (map Z.to_nat sizes)) = (4 * (batch / 4))%Z /\ length sizes = Z.to_nat n /\
  Forall (fun s => (batch / 4 / n) * 4 <= s <= (batch / 4 / n + 1) * 4 /\ Z.rem s 4 = 0)%Z sizes.
Proof.
  intros Hn Hb sizes. unfold sizes, split_sizes. rewrite (Z.quot_div_nonneg batch) by lia.
  assert (0 <= batch / 4)%Z by (apply Z.div_pos; lia).
  rewrite Z.quot_div_nonneg, Z.rem_mod_nonneg by lia.
  pose proof (Z.mod_pos_bound (batch / 4) n ltac:(lia)) as M. pose proof (Z.div_mod (batch / 4) n ltac:(lia)) as D.
  assert (0 <= batch / 4 / n)%Z by (apply Z.div_pos; lia).
  set (d := (batch / 4 / n)%Z) in *. set (r := ((batch / 4) mod n)%Z) in *.
  destruct (split_loop_sum (Z.to_nat n) d r ltac:(lia) ltac:(lia)) as (S1 & S2 & S3).
  split; [rewrite S1, Z2Nat.id by lia; lia|]. split; [exact S2|].
  eapply Forall_impl; [|exact S3]. cbn. intros s Hs.
  assert (R : forall q, Z.rem (q * 4) 4 = 0%Z) by (intros q; rewrite <- (Z.add_0_l (q * 4)); apply Z.rem_mul; lia).
  destruct Hs as [->|[-> _]]; split; try lia; apply R.
Qed.

(** ** padding *)
Lemma pad_size_ok d a : (1 <= a)%Z -> (0 <= d)%Z -> (0 <= pad_size d a < a)%Z /\ Z.rem (d + pad_size d a) a = 0%Z.
Proof.
  intros Ha Hd. unfold pad_size. rewrite Z.quot_div_nonneg by lia.
  pose proof (Z.div_mod (d + a - 1) a ltac:(lia)). pose proof (Z.mod_pos_bound (d + a - 1) a ltac:(lia)).
  set (q := ((d + a - 1) / a)%Z) in *. split; [nia|].
  replace (d + (q * a - d))%Z with (q * a)%Z by lia. apply Z.rem_mul. lia.
Qed.

Lemma pad_depth_loop_nth depth p : 0 < depth -> forall rows fuel l, length l = rows * depth -> rows <= fuel ->
  length (pad_depth_loop fuel depth p l) = rows * (depth + p) /\
  forall r i, r < rows -> i < depth + p ->
    nth (r * (depth + p) + i) (pad_depth_loop fuel depth p l) 0%Z = if i <? depth then nth (r * depth + i) l 0%Z else 0%Z.
Proof.
  intros Hd. induction rows as [|rows IH]; intros fuel l HL HF.
  - destruct l; [|cbn in HL; lia]. destruct fuel; cbn; split; auto; intros; lia.
  - destruct fuel as [|fuel]; [lia|]. cbn [pad_depth_loop].
    destruct l as [|x l]; [cbn [length] in HL; nia|]. set (l' := x :: l) in *.
    assert (LF : length (firstn depth l') = depth) by (rewrite firstn_length; nia).
    destruct (IH fuel (skipn depth l') ltac:(rewrite skipn_length; nia) ltac:(lia)) as [IL IN].
    split; [rewrite !app_length, repeat_length, IL, LF; lia|].
    intros r i Hr Hi. destruct r as [|r].
    + cbn [Nat.mul plus]. destruct (Nat.ltb_spec i depth).
      * rewrite app_nth1 by lia. rewrite <- (firstn_skipn depth l') at 2. rewrite app_nth1 by lia. reflexivity.
      * rewrite app_nth2 by lia. rewrite LF. rewrite app_nth1 by (rewrite repeat_length; lia). apply nth_repeat.
    + replace (S r * (depth + p) + i) with (depth + (p + (r * (depth + p) + i))) by lia.
      rewrite app_nth2 by lia. rewrite LF. replace (depth + (p + (r * (depth + p) + i)) - depth) with (p + (r * (depth + p) + i)) by lia.
      rewrite app_nth2 by (rewrite repeat_length; lia). rewrite repeat_length.
      replace (p + (r * (depth + p) + i) - p) with (r * (depth + p) + i) by lia. rewrite IN by lia.
      destruct (i <? depth); auto. replace (S r * depth + i) with (depth + (r * depth + i)) by lia.
      rewrite <- (firstn_skipn depth l') at 2. rewrite app_nth2 by lia. rewrite LF. f_equal. lia.
Qed.

Lemma pad_depth_nth depth p rows l : 0 < depth -> length l = rows * depth ->
  length (pad_depth depth p l) = rows * (depth + p) /\
  forall r i, r < rows -> i < depth + p ->
    nth (r * (depth + p) + i) (pad_depth depth p l) 0%Z = if i <? depth then nth (r * depth + i) l 0%Z else 0%Z.
Proof. intros Hd HL. unfold pad_depth. apply pad_depth_loop_nth; auto. rewrite HL. nia. Qed.

Lemma nth_chunk {A} (d : A) k o j l : j < k -> nth j (chunk k o l) d = nth (o * k + j) l d.
Proof.
  intros H. unfold chunk. rewrite <- (firstn_skipn k (skipn (o * k) l)) in *.
  assert (E : forall n i (l : list A), nth i (skipn n l) d = nth (n + i) l d).
  { induction n as [|n IH]; intros i m; cbn; auto. destruct m; [destruct i; reflexivity|apply IH]. }
  assert (F : forall n i (l : list A), i < n -> nth i (firstn n l) d = nth i l d).
  { induction n as [|n IH]; intros i m Hi; [lia|]. destruct m; [reflexivity|]. destruct i; cbn; auto. apply IH; lia. }
  rewrite firstn_skipn. rewrite F by lia. apply E.
Qed.

Lemma zsum_ext f g n : (forall i, i < n -> f i = g i) -> zsum f n = zsum g n.
Proof. intros H. unfold zsum. f_equal. apply map_ext_in. intros i Hi. apply in_seq in Hi. apply H. lia. Qed.
Lemma zsum_app f n m : zsum f (n + m) = (zsum f n + zsum (fun i => f (n + i)%nat) m)%Z.
Proof.
  unfold zsum. rewrite seq_app, map_app, fold_right_app. cbn [plus].
  assert (X : forall l a, fold_right Z.add a l = (fold_right Z.add 0 l + a)%Z) by (induction l; intros; cbn; [lia|rewrite IHl; lia]).
  rewrite X. f_equal. f_equal. rewrite <- (map_map (fun i => n + i) f). f_equal.
  clear. induction m as [|m IH]; auto. rewrite !seq_S, map_app, IH. reflexivity.
Qed.
Lemma zsum_zero f n : (forall i, i < n -> f i = 0%Z) -> zsum f n = 0%Z.
Proof.
  intros H. unfold zsum. assert (X : forall l, (forall x, In x l -> x = 0%Z) -> fold_right Z.add 0%Z l = 0%Z).
  { induction l as [|x l IH]; intros HX; cbn; auto. rewrite (HX x) by (left; auto). rewrite IH; [lia|]. intros y Hy; apply HX; right; auto. }
  apply X. intros x Hx. apply in_map_iff in Hx. destruct Hx as (i & <- & Hi). apply in_seq in Hi. apply H. lia.
Qed.

Lemma accumulator_pad depth p zx zw window filter n o :
  0 < depth -> Forall (fun px => length px = depth) window ->
  length filter = n * (length window * depth) -> o < n ->
  accumulator (depth + p) zx zw (pad_window p zx window) (chunk (length window * (depth + p)) o (pad_depth depth p filter)) =
  accumulator depth zx zw window (chunk (length window * depth) o filter).
Proof.
  intros Hd HW HF Ho. unfold accumulator, pad_window. rewrite map_length. set (T := length window) in *.
  destruct (pad_depth_nth depth p (n * T) filter Hd ltac:(lia)) as [_ PN].
  apply zsum_ext. intros t Ht. rewrite zsum_app.
  assert (LP : length (nth t window []) = depth) by (rewrite Forall_forall in HW; apply HW, nth_In; auto).
  assert (NP : nth t (map (fun px => px ++ repeat zx p) window) [] = nth t window [] ++ repeat zx p).
  { rewrite (nth_indep _ [] ([] ++ repeat zx p)) by (rewrite map_length; auto).
    rewrite (map_nth (fun px => px ++ repeat zx p) window [] t). reflexivity. }
  match goal with |- (?a + ?b)%Z = _ => assert (ZB : b = 0%Z) end.
  2:{ rewrite ZB, Z.add_0_r. apply zsum_ext. intros i Hi. rewrite NP, app_nth1 by lia.
    rewrite !nth_chunk by nia. f_equal. f_equal.
    replace (o * (T * (depth + p)) + (t * (depth + p) + i)) with ((o * T + t) * (depth + p) + i) by lia.
    rewrite PN by nia. destruct (Nat.ltb_spec i depth); [|lia]. f_equal. lia. }
  apply zsum_zero. intros i Hi. rewrite NP, app_nth2 by lia. rewrite (nth_indep _ 0%Z zx) by (rewrite repeat_length; lia).
    rewrite nth_repeat. lia.
Qed.

Lemma at_opt_pad {A} (z : A) p n o i : (forall l, o = Some l -> length l = n) -> i < n ->
  at_opt (match o with Some l => Some (l ++ repeat z p) | None => None end) i = at_opt o i.
Proof.
  intros H Hi. destruct o as [l|]; cbn; auto. rewrite nth_error_app1; auto. rewrite (H l eq_refl). auto.
Qed.

Lemma chunk_pad k n p o l : length l = n * k -> o < n -> chunk k o (pad_batch k p l) = chunk k o l.
Proof.
  intros HL Ho. unfold chunk, pad_batch. rewrite skipn_app, firstn_app. rewrite skipn_length.
  replace (k - (length l - o * k)) with 0 by nia. cbn. apply app_nil_r.
Qed.

Lemma column_pad depth p ch rows l : 0 < depth -> length l = rows * depth -> ch < depth ->
  column (depth + p) ch (pad_depth depth p l) = column depth ch l.
Proof.
  intros Hd HL Hc. destruct (pad_depth_nth depth p rows l Hd HL) as [PL PN]. unfold column.
  rewrite PL, HL, !Nat.div_mul by lia. apply map_ext_in. intros t Ht. apply in_seq in Ht.
  rewrite PN by lia. destruct (Nat.ltb_spec ch depth); [auto|lia].
Qed.
