(** C85: mel_compress and mel_expand with the tables of compress_mel.py approximate the products by the filter bank and by its transpose. *)
From Coq Require Import List ZArith QArith Qabs Bool Arith Lia Psatz Lqa.
Import ListNotations.
From Verif Require Import MelModel MelSpec MelProofs MelProofs2.
Local Open Scope Z_scope.

Section Tables.
Context (rows cols : nat) (bank : nat -> nat -> Q) (first : nat -> nat) (FB : filter_bank rows cols bank first).
Context (COLS : (0 < cols)%nat) (LAST : (S (first (cols - 1)) < rows)%nat).
Let ps := ps_of first cols.
Let fs := map (fun c => coefficient (bank (first c) c)) (seq 0 cols).

Lemma path_from n : forall c, (S c + n <= cols)%nat -> path (Z.of_nat (first c)) (map first (seq (S c) n)).
Proof.
  induction n as [|n IH]; intros c H; [exact I|]. cbn [seq map path]. split; [|apply IH; lia].
  destruct (fb_step _ _ _ _ FB c ltac:(lia)); lia.
Qed.
Lemma path_all : path (-1) ps.
Proof.
  unfold ps, ps_of. pose proof (path_from (cols - 1) 0 ltac:(lia)) as P. replace cols with (S (cols - 1)) at 1 by lia. cbn [seq map path]. rewrite (fb_start _ _ _ _ FB). split; [lia|].
  rewrite (fb_start _ _ _ _ FB) in P. exact P.
Qed.
Lemma top_all : top (-1) ps = Z.of_nat (first (cols - 1)).
Proof.
  assert (T : forall l cur p, top cur (l ++ [p]) = Z.of_nat p) by (induction l as [|a l IH]; intros; cbn [app top]; auto).
  unfold ps. replace cols with (S (cols - 1)) at 1 by lia. rewrite ps_of_S. apply T.
Qed.
Lemma fs_range : Forall (fun f => 0 <= f <= MEL_ONE) fs.
Proof.
  apply Forall_forall. intros f I. apply in_map_iff in I as (c & <- & I). apply in_seq in I. pose proof (first_safe rows cols bank first FB LAST c ltac:(lia)).
  destruct (fb_entries _ _ _ _ FB (first c) c ltac:(lia) ltac:(lia)) as [A B]. apply (coefficient_ok _ A B).
Qed.
Lemma tables : exists overlap, compress_mel rows cols bank = Some (overlap, fs) /\ length overlap = rows /\
  forall r, -1 < r -> 0 < zcount r ps -> get overlap r = Some (zcount r ps).
Proof.
  unfold compress_mel. assert (E : compress_columns rows bank (seq 0 cols) 0 0 [] [] = Some (if Nat.eqb cols 0 then [] else map (fun k => cnt k (ps_of first cols)) (seq 0 (S (prev first cols))), map (fun k => bank (first k) k) (seq 0 cols)))
    by exact (columns_ok rows cols bank first FB cols 0 [] eq_refl).
  rewrite E. clear E. destruct (Nat.eqb_spec cols 0); [lia|]. rewrite map_length, seq_length.
  assert (P : prev first cols = first (cols - 1)) by (destruct cols as [|n']; [lia|]; cbn [prev Nat.sub]; rewrite Nat.sub_0_r; auto).
  destruct (Nat.leb_spec (S (prev first cols)) rows); [|lia]. eexists. split; [rewrite (map_map _ coefficient); reflexivity|]. split; [rewrite app_length, repeat_length, !map_length, seq_length; lia|].
  intros r R Z0. unfold get. destruct (Z.ltb_spec r 0); [lia|]. set (k := Z.to_nat r). assert (Rk : r = Z.of_nat k) by lia.
  assert (K : (k <= first (cols - 1))%nat).
  { destruct (Nat.le_gt_cases k (first (cols - 1))); auto. exfalso. rewrite Rk, zcount_cnt in Z0. unfold ps in Z0. rewrite (cnt_above first) in Z0; [lia|].
    intros d D. pose proof (first_mono rows cols bank first FB (cols - 1) ltac:(lia) d ltac:(lia)). lia. }
  rewrite nth_error_app1 by (rewrite !map_length, seq_length; lia). rewrite map_map, nth_error_map.
  rewrite (nth_error_nth' (seq 0 (S (prev first cols))) 0%nat) by (rewrite seq_length; lia). rewrite seq_nth by lia. cbn [option_map Nat.add]. rewrite Rk, zcount_cnt. reflexivity.
Qed.
Lemma lengths : length ps = cols /\ length fs = cols.
Proof. unfold ps, ps_of, fs. rewrite !map_length, seq_length. auto. Qed.
End Tables.

Lemma map_nth_seq (l : list Z) : map (fun i => nth i l 0) (seq 0 (length l)) = l.
Proof.
  induction l as [|x l IH]; auto. cbn [length seq map nth]. f_equal. rewrite <- seq_shift, map_map. exact IH.
Qed.

(** Every row of the result is the row of the product, up to 1 for every column that reaches the row and the error of the coefficients; the rows add up to the
    input exactly; the array is not read or written outside, no sum overflows. *)
Theorem C85_mel_compress : forall rows cols bank first, filter_bank rows cols bank first -> (0 < cols)%nat -> (S (first (cols - 1)%nat) < rows)%nat ->
  exists overlap fractions, compress_mel rows cols bank = Some (overlap, fractions) /\ length overlap = rows /\ length fractions = cols /\
  forall mel input, length mel = rows -> length input = cols -> zabs_sum input <= 2147483647 ->
  exists mel', mel_compress mel input fractions overlap = Some mel' /\ length mel' = rows /\
    (forall r, (r < S (S (first (cols - 1)%nat)))%nat ->
       (Qabs (vector mel' r - product cols bank (vector input) r) <= inject_Z (Z.of_nat (reaching cols first r)) + delta * inject_Z (zabs_sum input))%Q) /\
    (forall r, (S (S (first (cols - 1)%nat)) <= r)%nat -> nth r mel' 0 = nth r mel 0) /\
    fold_right Z.add 0 (firstn (S (S (first (cols - 1)%nat))) mel') = fold_right Z.add 0 input.
Proof.
  intros rows cols bank first FB COLS LAST. destruct (tables rows cols bank first FB COLS LAST) as (overlap & E & L & O). exists overlap, (map (fun c => coefficient (bank (first c) c)) (seq 0 cols)).
  split; [exact E|]. split; [exact L|]. split; [rewrite map_length, seq_length; auto|]. clear E L.
  pose proof (top_all rows cols first COLS LAST) as T. pose proof (path_all rows cols bank first FB COLS LAST) as P. pose proof (fs_range rows cols bank first FB COLS LAST) as F.
  destruct (lengths cols bank first) as [L1 L2].
  intros mel input LM LI B. unfold mel_compress. destruct (set_ok mel 0 0 ltac:(lia)) as (m1 & -> & Lm1 & N1).
  assert (ZN : forall k, 0 <= k -> zcount (-1) (ps_of first cols) = 0).
  { intros _ _. clear. induction (ps_of first cols) as [|p l IH]; auto. cbn [zcount]. destruct (Z.eqb_spec (Z.of_nat p) (-1)); lia. }
  assert (FST : map fst (combine input (map (fun c => coefficient (bank (first c) c)) (seq 0 cols))) = input).
  { clear - LI L2. rewrite <- LI in L2 at 2. clear LI. revert L2. generalize (map (fun c => coefficient (bank (first c) c)) (seq 0 cols)). induction input as [|x l IH]; intros [|f fs] H; try discriminate; auto.
    cbn [combine map fst]. f_equal. apply IH. cbn in H. lia. }
  destruct (loop_ok overlap (ps_of first cols) (combine input (map (fun c => coefficient (bank (first c) c)) (seq 0 cols))) (-1) 0 m1) as (m' & -> & L' & N'); auto; try lia.
  - rewrite combine_length, L1, L2. lia.
  - rewrite (ZN 0); lia.
  - apply Forall_forall. intros [x f] I. cbn [snd]. apply in_combine_r in I. rewrite Forall_forall in F. auto.
  - rewrite FST. intros i Hi. assert (i = 0%nat) by lia. subst i. rewrite N1. cbn [Z.of_nat Z.eqb]. lia.
  - rewrite FST. lia.
  - exists m'. split; [reflexivity|]. split; [lia|].
    assert (V : forall r, (r < S (S (first (cols - 1)%nat)))%nat -> nth r m' 0 = total (ps_of first cols) (combine input (map (fun c => coefficient (bank (first c) c)) (seq 0 cols))) r).
    { intros r R. rewrite N'. unfold base. rewrite T. destruct (Z.leb_spec (Z.of_nat r) (-1 + 1)).
      - rewrite N1. destruct (Z.eqb_spec (Z.of_nat r) 0); lia.
      - destruct (Z.leb_spec (Z.of_nat r) (Z.of_nat (first (cols - 1)%nat) + 1)); lia. }
    split; [|split].
    + intros r R. unfold vector at 1. rewrite V by auto. unfold product. rewrite (qsum_lsum cols).
      pose proof (total_err rows cols bank first FB LAST (fun c => nth c input 0) r ltac:(lia) (seq 0 cols) ltac:(intros c I; apply in_seq in I; lia)) as TE. cbv zeta in TE.
      assert (EI : map (fun c => nth c input 0) (seq 0 cols) = input) by (rewrite <- LI; apply map_nth_seq). rewrite EI in TE.
      destruct TE as [T1 T2]. apply Qabs_le; [exact T1|exact T2].
    + intros r R. rewrite N'. unfold base. rewrite T. destruct (Z.leb_spec (Z.of_nat r) (-1 + 1)); [lia|]. destruct (Z.leb_spec (Z.of_nat r) (Z.of_nat (first (cols - 1)%nat) + 1)); [lia|].
      rewrite N1. destruct (Z.eqb_spec (Z.of_nat r) 0); [lia|].
      assert (TZ : forall l bins, (forall p, In p l -> (S p < r)%nat) -> total l bins r = 0).
      { induction l as [|p l IH]; intros bins H'; auto. destruct bins as [|[x f] bins]; auto. cbn [total]. rewrite IH by (intros; apply H'; right; auto).
        unfold adds. specialize (H' p (or_introl eq_refl)). destruct (Nat.eqb_spec p r), (Nat.eqb_spec (S p) r); lia. }
      rewrite TZ; [lia|]. intros p I. pose proof (path_ge _ _ P p I). lia.
    + rewrite zs_firstn by lia. rewrite (zs_ext _ _ _ V). rewrite zs_total; [rewrite FST; auto|rewrite combine_length, L1, L2; lia|].
      intros p I. pose proof (path_ge _ _ P p I). lia.
Qed.

(* ---- exactly which filter banks can be used ---- *)
(** As soon as the last row is the first one of a column, the loop leaves the array, whatever the input. *)
Lemma loop_fails overlap : forall ps bins cur run mel, length ps = length bins -> path cur ps -> -1 <= cur ->
  run = zcount cur ps -> (forall r, cur < r -> 0 < zcount r ps -> get overlap r = Some (zcount r ps)) ->
  cur + 1 < Z.of_nat (length mel) -> Z.of_nat (length mel) <= top cur ps + 1 ->
  compress_loop bins overlap cur run mel = None.
Proof.
  assert (Sl : forall l i v l', set l i v = Some l' -> length l' = length l).
  { intros l i v l'. unfold set. destruct (i <? 0); [discriminate|]. generalize (Z.to_nat i). revert l'. induction l as [|x l IH]; intros l' [|k] E; cbn in E; try discriminate.
    - injection E as <-. auto.
    - destruct (set_nat l k v) as [q|] eqn:Q; [|discriminate]. injection E as <-. cbn. f_equal. eapply IH; eauto. }
  assert (So : forall l i v, Z.of_nat (length l) <= i -> set l i v = None).
  { intros l i v H. unfold set. destruct (Z.ltb_spec i 0); [lia|]. assert (K : (length l <= Z.to_nat i)%nat) by lia. revert K. generalize (Z.to_nat i). clear. induction l as [|x l IH]; intros [|k] K; cbn in *; auto; [lia|]. rewrite IH by lia. auto. }
  induction ps as [|p ps IH]; intros bins cur run mel L P C R O M T; [cbn [top] in T; lia|].
  destruct bins as [|[x f] bins]; [discriminate|]. cbn [length] in L. cbn [path top zcount] in *. destruct P as [P1 P2].
  assert (Tail : forall cu ru m1, length m1 = length mel -> cu = Z.of_nat p -> cu + 1 < Z.of_nat (length mel) -> ru = 1 + zcount cu ps ->
    (contribution <- Some (to_int (x * f / MEL_ONE)) ;; a <- get m1 cu ;; a' <- int_ok (a + contribution) ;; mel <- set m1 cu a' ;;
     d <- int_ok (x - contribution) ;; b <- get mel (cu + 1) ;; b' <- int_ok (b + d) ;; mel <- set mel (cu + 1) b' ;;
     compress_loop bins overlap cu (ru - 1) mel) = None).
  { intros cu ru m1 Lm -> Hc ->. destruct (get m1 _); [|reflexivity]. destruct (int_ok _); [|reflexivity]. destruct (set m1 _ _) as [m2|] eqn:E2; [|reflexivity].
    destruct (int_ok _); [|reflexivity]. destruct (get m2 _); [|reflexivity]. destruct (int_ok _); [|reflexivity]. destruct (set m2 _ _) as [m3|] eqn:E3; [|reflexivity].
    apply Sl in E2, E3. apply IH; auto; try lia.
    intros r Hr Hz. specialize (O r). destruct (Z.eqb_spec (Z.of_nat p) r); [lia|]. apply O; lia. }
  cbn [compress_loop]. pose proof (zcount_nonneg cur ps) as ZN.
  destruct P1 as [P1|P1].
  - (* the same row *)
    rewrite P1 in R. rewrite Z.eqb_refl in R. destruct (Z.leb_spec run 0); [lia|]. apply (Tail cur run mel); auto; lia.
  - (* the next row *)
    assert (Z0 : zcount cur ps = 0) by (apply (zcount_below ps (Z.of_nat p)); [exact P2|lia]).
    destruct (Z.eqb_spec (Z.of_nat p) cur); [lia|]. destruct (Z.leb_spec run 0); [|lia].
    assert (Op : get overlap (cur + 1) = Some (1 + zcount (cur + 1) ps)).
    { specialize (O (cur + 1) ltac:(lia)). rewrite <- P1 in O |- *. rewrite Z.eqb_refl in O. apply O. pose proof (zcount_nonneg (Z.of_nat p) ps). lia. }
    rewrite Op. destruct (Z_lt_ge_dec (cur + 2) (Z.of_nat (length mel))) as [Hl|Hl].
    + destruct (set mel (cur + 1 + 1) 0) as [m1|] eqn:E1; [|reflexivity]. apply (Tail (cur + 1) (1 + zcount (cur + 1) ps) m1); auto; try lia. eapply Sl; eauto.
    + rewrite So by lia. reflexivity.
Qed.

Section Tables2.
Context (rows cols : nat) (bank : nat -> nat -> Q) (first : nat -> nat) (FB : filter_bank rows cols bank first).
Context (COLS : (0 < cols)%nat).
Let ps := ps_of first cols.
Let fs := map (fun c => coefficient (bank (first c) c)) (seq 0 cols).
Let LAST : (first (cols - 1) < rows)%nat.
Proof. apply (fb_first _ _ _ _ FB (cols - 1)). lia. Qed.
Lemma path_from2 n : forall c, (S c + n <= cols)%nat -> path (Z.of_nat (first c)) (map first (seq (S c) n)).
Proof.
  induction n as [|n IH]; intros c H; [exact I|]. cbn [seq map path]. split; [|apply IH; lia].
  destruct (fb_step _ _ _ _ FB c ltac:(lia)); lia.
Qed.
Lemma path_all2 : path (-1) ps.
Proof.
  unfold ps, ps_of. pose proof (path_from2 (cols - 1) 0 ltac:(lia)) as P. replace cols with (S (cols - 1)) at 1 by lia. cbn [seq map path]. rewrite (fb_start _ _ _ _ FB). split; [lia|].
  rewrite (fb_start _ _ _ _ FB) in P. exact P.
Qed.
Lemma top_all2 : top (-1) ps = Z.of_nat (first (cols - 1)).
Proof.
  assert (T : forall l cur p, top cur (l ++ [p]) = Z.of_nat p) by (induction l as [|a l IH]; intros; cbn [app top]; auto).
  unfold ps. replace cols with (S (cols - 1)) at 1 by lia. rewrite ps_of_S. apply T.
Qed.
Lemma tables2 : exists overlap, compress_mel rows cols bank = Some (overlap, fs) /\ length overlap = rows /\
  forall r, -1 < r -> 0 < zcount r ps -> get overlap r = Some (zcount r ps).
Proof.
  unfold compress_mel. assert (E : compress_columns rows bank (seq 0 cols) 0 0 [] [] = Some (if Nat.eqb cols 0 then [] else map (fun k => cnt k (ps_of first cols)) (seq 0 (S (prev first cols))), map (fun k => bank (first k) k) (seq 0 cols)))
    by exact (columns_ok rows cols bank first FB cols 0 [] eq_refl).
  rewrite E. clear E. destruct (Nat.eqb_spec cols 0); [lia|]. rewrite map_length, seq_length.
  assert (P : prev first cols = first (cols - 1)) by (destruct cols as [|n']; [lia|]; cbn [prev Nat.sub]; rewrite Nat.sub_0_r; auto).
  destruct (Nat.leb_spec (S (prev first cols)) rows); [|lia]. eexists. split; [rewrite (map_map _ coefficient); reflexivity|]. split; [rewrite app_length, repeat_length, !map_length, seq_length; lia|].
  intros r R Z0. unfold get. destruct (Z.ltb_spec r 0); [lia|]. set (k := Z.to_nat r). assert (Rk : r = Z.of_nat k) by lia.
  assert (K : (k <= first (cols - 1))%nat).
  { destruct (Nat.le_gt_cases k (first (cols - 1))); auto. exfalso. rewrite Rk, zcount_cnt in Z0. unfold ps in Z0. rewrite (cnt_above first) in Z0; [lia|].
    intros d D. pose proof (first_mono rows cols bank first FB (cols - 1) ltac:(lia) d ltac:(lia)). lia. }
  rewrite nth_error_app1 by (rewrite !map_length, seq_length; lia). rewrite map_map, nth_error_map.
  rewrite (nth_error_nth' (seq 0 (S (prev first cols))) 0%nat) by (rewrite seq_length; lia). rewrite seq_nth by lia. cbn [option_map Nat.add]. rewrite Rk, zcount_cnt. reflexivity.
Qed.
End Tables2.

(** Every filter bank gives tables, but they can be used exactly when the last row is not the first one of a column; otherwise every call of
    mel_compress writes outside the array. *)
Theorem C85_exactly_when : forall rows cols bank first, filter_bank rows cols bank first -> (0 < cols)%nat ->
  exists overlap fractions, compress_mel rows cols bank = Some (overlap, fractions) /\ length overlap = rows /\ length fractions = cols /\
  ((forall mel input, length mel = rows -> length input = cols -> zabs_sum input <= 2147483647 -> mel_compress mel input fractions overlap <> None)
   <-> (S (first (cols - 1)%nat) < rows)%nat) /\
  ((rows <= S (first (cols - 1)%nat))%nat ->
   forall mel input, length mel = rows -> length input = cols -> mel_compress mel input fractions overlap = None).
Proof.
  intros rows cols bank first FB COLS. destruct (tables2 rows cols bank first FB COLS) as (overlap & E & L & O).
  set (fs := map (fun c => coefficient (bank (first c) c)) (seq 0 cols)) in *. assert (Lf : length fs = cols) by (unfold fs; rewrite map_length, seq_length; auto).
  assert (Bad : (rows <= S (first (cols - 1)%nat))%nat -> forall mel input, length mel = rows -> length input = cols -> mel_compress mel input fs overlap = None).
  { intros H mel input LM LI. unfold mel_compress. destruct (fb_first _ _ _ _ FB (cols - 1)%nat ltac:(lia)) as [Fr _].
    destruct (set_ok mel 0 0 ltac:(lia)) as (m1 & -> & Lm1 & _).
    apply (loop_fails overlap (ps_of first cols)).
    - unfold ps_of. rewrite combine_length, map_length, seq_length. lia.
    - apply (path_all2 rows cols bank first FB COLS).
    - lia.
    - clear. induction (ps_of first cols) as [|p l IH]; auto. cbn [zcount]. destruct (Z.eqb_spec (Z.of_nat p) (-1)); lia.
    - exact O.
    - lia.
    - rewrite (top_all2 rows cols bank first FB COLS). lia. }
  exists overlap, fs. split; [exact E|]. split; [exact L|]. split; [exact Lf|]. split; [|exact Bad]. split.
  - intros H. destruct (Nat.lt_ge_cases (S (first (cols - 1)%nat)) rows) as [|G]; auto. exfalso.
    assert (Zs : forall n, zabs_sum (repeat 0 n) = 0) by (induction n; cbn; auto).
    apply (H (repeat 0 rows) (repeat 0 cols)); try apply repeat_length; [rewrite Zs; lia|]. apply Bad; auto; apply repeat_length.
  - intros H mel input LM LI B. destruct (C85_mel_compress rows cols bank first FB COLS H) as (o' & f' & E' & _ & _ & G).
    rewrite E in E'. injection E' as <- <-. destruct (G mel input LM LI B) as (m' & -> & _). discriminate.
Qed.

(** Every bin of the mask is the entry of the product by the transpose, up to 1 and the error of the coefficient, and lies between the two mel values. *)
Theorem C85_mel_expand : forall rows cols bank first, filter_bank rows cols bank first -> (0 < cols)%nat -> (S (first (cols - 1)%nat) < rows)%nat ->
  exists overlap fractions, compress_mel rows cols bank = Some (overlap, fractions) /\
  forall mel, length mel = rows -> Forall (fun v => -2147483648 <= v <= 2147483647) mel ->
  exists out, mel_expand mel fractions overlap = Some out /\ length out = cols /\
    forall c, (c < cols)%nat -> let a := nth (first c) mel 0 in let b := nth (S (first c)) mel 0 in
      Z.min a b <= nth c out 0 <= Z.max a b /\
      (Qabs (vector out c - product_t rows bank (vector mel) c) <= 1 + delta * inject_Z (Z.abs (a - b)))%Q.
Proof.
  intros rows cols bank first FB COLS LAST. destruct (tables rows cols bank first FB COLS LAST) as (overlap & E & L & O). exists overlap, (map (fun c => coefficient (bank (first c) c)) (seq 0 cols)).
  split; [exact E|]. clear E L.
  pose proof (top_all rows cols first COLS LAST) as T. pose proof (path_all rows cols bank first FB COLS LAST) as P. pose proof (fs_range rows cols bank first FB COLS LAST) as F.
  destruct (lengths cols bank first) as [L1 L2]. intros mel LM M. unfold mel_expand.
  rewrite (expand_ok overlap mel M (ps_of first cols) (map (fun c => coefficient (bank (first c) c)) (seq 0 cols)) (-1) 0); auto; try lia.
  2:{ clear. induction (ps_of first cols) as [|p l IH]; auto. cbn [zcount]. destruct (Z.eqb_spec (Z.of_nat p) (-1)); lia. }
  eexists. split; [reflexivity|]. split; [rewrite map_length, combine_length, L1, L2; lia|]. intros c C. set (a := nth (first c) mel 0). set (b := nth (S (first c)) mel 0).
  assert (OUT : nth c (map (mix mel) (combine (ps_of first cols) (map (fun c => coefficient (bank (first c) c)) (seq 0 cols)))) 0 = mix mel (first c, coefficient (bank (first c) c))).
  { apply nth_error_nth. rewrite nth_error_map. unfold ps_of.
    assert (CM : forall (f : nat -> nat) (g : nat -> Z) l, combine (map f l) (map g l) = map (fun c => (f c, g c)) l) by (induction l as [|x l IH]; cbn; f_equal; auto).
    rewrite CM, nth_error_map. rewrite (nth_error_nth' (seq 0 cols) 0%nat) by (rewrite seq_length; lia). rewrite seq_nth by lia. reflexivity. }
  pose proof (first_safe rows cols bank first FB LAST c C) as SF.
  destruct (fb_entries _ _ _ _ FB (first c) c ltac:(lia) C) as [B0 B1]. destruct (coefficient_ok _ B0 B1) as (R & C1 & C2). split.
  - rewrite OUT. unfold mix. cbn [fst snd]. fold a b. apply mix_bounds; auto; lia.
  - unfold vector at 1. rewrite OUT. unfold mix. cbn [fst snd]. fold a b. unfold product_t. rewrite (qsum_two rows _ (first c) SF).
    2:{ intros r R1 N1 N2. rewrite (fb_two _ _ _ _ FB r c R1 C N1 N2). ring. }
    rewrite (second rows cols bank first FB LAST c C). unfold vector. fold a b. set (f := coefficient (bank (first c) c)) in *. set (q := bank (first c) c) in *.
    set (s := (a * f + b * (MEL_ONE - f)) / MEL_ONE).
    assert (D : 0 <= (a - b) * f + b * MEL_ONE - s * MEL_ONE < MEL_ONE) by (unfold s, MEL_ONE; Z.to_euclidean_division_equations; lia). clearbody s f q a b.
    remember (a - b) as d eqn:Ed. assert (D' : (0 <= inject_Z d * inject_Z f + inject_Z b * inject_Z MEL_ONE - inject_Z s * inject_Z MEL_ONE /\ inject_Z d * inject_Z f + inject_Z b * inject_Z MEL_ONE - inject_Z s * inject_Z MEL_ONE <= inject_Z MEL_ONE)%Q).
    { rewrite <- !inject_Z_mult. unfold Qminus. rewrite <- inject_Z_opp, <- !inject_Z_plus. change 0%Q with (inject_Z 0). rewrite <- !Zle_Qle. lia. }
    assert (X : (Qabs (inject_Z d * (inject_Z f - q * inject_Z MEL_ONE)) <= inject_Z (Z.abs d) * (delta * inject_Z MEL_ONE))%Q) by (apply inject_abs_bound; lra).
    apply Qabs_Qle_condition in X. assert (A : (inject_Z a == inject_Z d + inject_Z b)%Q) by (rewrite <- inject_Z_plus; f_equal; replace (d + b) with a by lia; reflexivity).
    rewrite A. change (inject_Z MEL_ONE) with (1073741824 # 1)%Q in *. apply Qabs_le; lra.
Qed.

(** A mask with one value leaves one value in every bin; the value one leaves the spectrum as it is, values between 0 and one make no bin louder. *)
Theorem C85_constant_mask : forall rows cols bank first v, filter_bank rows cols bank first -> (0 < cols)%nat -> (S (first (cols - 1)%nat) < rows)%nat ->
  -2147483648 <= v <= 2147483647 ->
  exists overlap fractions, compress_mel rows cols bank = Some (overlap, fractions) /\ mel_expand (repeat v rows) fractions overlap = Some (repeat v cols).
Proof.
  intros rows cols bank first v FB COLS LAST V. destruct (C85_mel_expand rows cols bank first FB COLS LAST) as (o & f & E & H). exists o, f. split; auto.
  destruct (H (repeat v rows)) as (out & X & L & N).
  - apply repeat_length.
  - apply Forall_forall. intros x I. apply repeat_spec in I. subst. auto.
  - rewrite X. f_equal. apply (nth_ext _ _ 0 0); [rewrite repeat_length; auto|]. rewrite L. intros c C. specialize (N c C). destruct N as [N _].
    pose proof (first_safe rows cols bank first FB LAST c C) as SF.
    assert (R : forall n k, (k < n)%nat -> nth k (repeat v n) 0 = v) by (induction n as [|n IH]; intros [|k] K; cbn [repeat nth]; try lia; auto; apply IH; lia).
    rewrite !R in N by lia. rewrite R by auto. lia.
Qed.
Theorem C85_mask_values : forall x m, -2147483648 <= x <= 2147483647 ->
  (m = MEL_ONE -> apply_mask x m = x) /\ (m = 0 -> apply_mask x m = 0) /\ (0 <= m <= MEL_ONE -> (0 <= x -> 0 <= apply_mask x m <= x) /\ (x <= 0 -> x <= apply_mask x m <= 0)).
Proof.
  intros x m X. unfold apply_mask. change 1073741824 with MEL_ONE. split; [|split].
  - intros ->. rewrite Z.div_mul by (unfold MEL_ONE; lia). apply to_int_range; auto.
  - intros ->. rewrite Z.mul_0_r. reflexivity.
  - intros M. destruct (share_bounds x m M) as [A B]. rewrite to_int_range; auto. destruct (Z.le_ge_cases 0 x); [specialize (A ltac:(lia))|specialize (B ltac:(lia))]; lia.
Qed.

(** The tables that are shipped are those of the shipped filter bank, which is one. *)
Definition legal_b (rows cols : nat) (bank : nat -> nat -> Q) (first : nat -> nat) : bool :=
  forallb (fun c => Qeq_bool (qsum rows (fun r => bank r c)) 1 && (first c <? rows)%nat && negb (Qeq_bool (bank (first c) c) 0) &&
    forallb (fun r => Qle_bool 0 (bank r c) && Qle_bool (bank r c) 1 && ((r =? first c)%nat || (r =? S (first c))%nat || Qeq_bool (bank r c) 0)) (seq 0 rows)) (seq 0 cols) &&
  (first 0 =? 0)%nat && forallb (fun c => (first (S c) =? first c)%nat || (first (S c) =? S (first c))%nat) (seq 0 (cols - 1)).
Lemma legal_ok rows cols bank first : legal_b rows cols bank first = true -> filter_bank rows cols bank first.
Proof.
  unfold legal_b. rewrite !andb_true_iff, !forallb_forall. intros [[A B] C].
  assert (A' : forall c, (c < cols)%nat -> Qeq_bool (qsum rows (fun r => bank r c)) 1 = true /\ (first c < rows)%nat /\ Qeq_bool (bank (first c) c) 0 = false /\
    forall r, (r < rows)%nat -> Qle_bool 0 (bank r c) = true /\ Qle_bool (bank r c) 1 = true /\ (r = first c \/ r = S (first c) \/ Qeq_bool (bank r c) 0 = true)).
  { intros c H. specialize (A c ltac:(apply in_seq; lia)). rewrite !andb_true_iff, negb_true_iff, forallb_forall in A. destruct A as [[[A1 A2] A3] A4]. apply Nat.ltb_lt in A2. repeat split; auto.
    all: specialize (A4 r ltac:(apply in_seq; lia)); rewrite !andb_true_iff, !orb_true_iff, !Nat.eqb_eq in A4; tauto. }
  constructor.
  - intros r c R H. destruct (A' c H) as (_ & _ & _ & A4). specialize (A4 r R) as (X & Y & _). apply Qle_bool_iff in X, Y. auto.
  - intros c H. destruct (A' c H) as (X & _). apply Qeq_bool_iff. auto.
  - intros c H. destruct (A' c H) as (_ & X & Y & _). split; auto. intros E. apply Qeq_bool_iff in E. congruence.
  - intros r c R H N1 N2. destruct (A' c H) as (_ & _ & _ & A4). destruct (A4 r R) as (_ & _ & [?|[?|X]]); try contradiction. apply Qeq_bool_iff. auto.
  - apply Nat.eqb_eq. auto.
  - intros c H. specialize (C c ltac:(apply in_seq; lia)). rewrite orb_true_iff, !Nat.eqb_eq in C. auto.
Qed.
Theorem C85_shipped_tables : filter_bank 64 257 shipped shipped_first /\ shipped_first 256 = 62%nat /\
  compress_mel 64 257 shipped = Some (mel_bins_in_overlap, mel_coefficients).
Proof. split; [apply legal_ok; vm_compute; reflexivity|]. split; vm_compute; reflexivity. Qed.
(** So every spectrum of 257 magnitudes whose sum fits an int is compressed into 64 mels. *)
Corollary C85_shipped : forall mel input, length mel = 64%nat -> length input = 257%nat -> zabs_sum input <= 2147483647 ->
  exists mel', mel_compress mel input mel_coefficients mel_bins_in_overlap = Some mel' /\ length mel' = 64%nat /\
    fold_right Z.add 0 mel' = fold_right Z.add 0 input /\
    forall r, (r < 64)%nat -> (Qabs (vector mel' r - product 257 shipped (vector input) r) <= inject_Z (Z.of_nat (reaching 257 shipped_first r)) + delta * inject_Z (zabs_sum input))%Q.
Proof.
  intros mel input L1 L2 B. destruct C85_shipped_tables as (FB & F & T).
  destruct (C85_mel_compress 64 257 shipped shipped_first FB ltac:(lia) ltac:(cbn [Nat.sub]; rewrite F; lia)) as (o & f & E & _ & _ & H).
  rewrite T in E. injection E as <- <-. destruct (H mel input L1 L2 B) as (mel' & X & L' & R & _ & SUM). change (257 - 1)%nat with 256%nat in *. rewrite F in *.
  exists mel'. split; [exact X|]. split; [exact L'|]. split; [|exact R]. rewrite <- SUM. rewrite firstn_all2 by lia. reflexivity.
Qed.
(** A spectrum with two tones. *)
Example C85_tones :
  match mel_compress (repeat 7 64) (repeat 0 20 ++ [1000000] ++ repeat 0 30 ++ [1000] ++ repeat 0 205) mel_coefficients mel_bins_in_overlap with
  | Some m => filter (fun p => negb (snd p =? 0)) (combine (seq 0 64) m) = [(18%nat, 1000000); (32%nat, 250); (33%nat, 750)]
  | None => False
  end.
Proof. vm_compute. reflexivity. Qed.

(** Matrices that mel.h allows and that the code does not handle.  The last row is the first one of a column: mel_compress writes outside the array. *)
Theorem C85_last_row_refuted : exists bank first, filter_bank 2 3 bank first /\ exists overlap fractions, compress_mel 2 3 bank = Some (overlap, fractions) /\
  forall mel input, length mel = 2%nat -> length input = 3%nat -> mel_compress mel input fractions overlap = None.
Proof.
  exists (fun r c => if Nat.eqb r (Nat.min c 1) then 1%Q else 0%Q), (fun c => Nat.min c 1). split; [apply legal_ok; vm_compute; reflexivity|].
  eexists _, _. split; [vm_compute; reflexivity|]. intros mel input L1 L2.
  destruct mel as [|m0 [|m1 [|]]]; try discriminate. destruct input as [|x0 [|x1 [|x2 [|]]]]; try discriminate.
  lazy -[to_int int_ok Z.mul Z.div].
  repeat (match goal with |- context [int_ok ?z] => destruct (int_ok z); lazy -[to_int int_ok Z.mul Z.div] end; try reflexivity).
Qed.
(** The first column starts below the first row (every other criterion holds): its value lands in the first row. *)
Theorem C85_first_row_refuted : exists bank overlap fractions, compress_mel 3 2 bank = Some (overlap, fractions) /\
  (forall r c, bank r c = if Nat.eqb r 1 then 1%Q else 0%Q) /\ mel_compress [0; 0; 0] [5; 0] fractions overlap = Some [5; 0; 0] /\
  map (product 2 bank (vector [5; 0])) [0; 1; 2]%nat = [0; 5; 0]%Q.
Proof.
  exists (fun r c => if Nat.eqb r 1 then 1%Q else 0%Q). eexists _, _. split; [vm_compute; reflexivity|]. split; [reflexivity|]. split; vm_compute; reflexivity.
Qed.
Print Assumptions C85_mel_compress.
Print Assumptions C85_exactly_when.
Print Assumptions C85_mel_expand.
Print Assumptions C85_shipped.
