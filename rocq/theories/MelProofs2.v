(** Lemmas for C85: coefficients and sums. *)
From Coq Require Import List ZArith QArith Qabs Bool Arith Lia Psatz Lqa.
Import ListNotations.
From Verif Require Import MelModel MelSpec MelProofs.
Local Open Scope Q_scope.

Lemma Qabs_le x b : - b <= x -> x <= b -> Qabs x <= b.
Proof. intros. apply Qabs_Qle_condition. split; auto. Qed.

Lemma round_even_err q : - (1 # 2) <= inject_Z (round_even q) - q /\ inject_Z (round_even q) - q <= 1 # 2.
Proof.
  destruct q as [n d]. unfold round_even. cbn [Qnum Qden]. match goal with |- context [inject_Z ?e] => set (k := e) end.
  assert (K : (- Z.pos d <= 2 * (k * Z.pos d - n) <= Z.pos d)%Z).
  { pose proof (Z.div_mod n (Z.pos d) ltac:(lia)) as D. pose proof (Z.mod_pos_bound n (Z.pos d) ltac:(lia)) as M. unfold k. clear k.
    set (lo := (n / Z.pos d)%Z) in *. set (r := (n mod Z.pos d)%Z) in *.
    destruct (Z.ltb_spec (2 * r) (Z.pos d)); [nia|]. destruct (Z.ltb_spec (Z.pos d) (2 * r)); [nia|]. destruct (Z.even lo); nia. }
  clearbody k. unfold Qle, Qminus, Qplus, Qopp, inject_Z. cbn [Qnum Qden]. rewrite ?Pos2Z.inj_mul. split; nia.
Qed.

Lemma round_even_range q : 0 <= q -> q <= 1000000 # 1 -> (0 <= round_even q <= 1000000)%Z.
Proof.
  intros A B. destruct (round_even_err q) as [H1 H2].
  assert (- (1 # 2) <= inject_Z (round_even q)) by lra. assert (inject_Z (round_even q) <= 1000000 + (1 # 2)) by lra.
  unfold Qle, inject_Z in *. cbn in *. lia.
Qed.
Lemma coefficient_ok q : 0 <= q -> q <= 1 -> (0 <= coefficient q <= MEL_ONE)%Z /\
  - delta * inject_Z MEL_ONE <= inject_Z (coefficient q) - q * inject_Z MEL_ONE /\ inject_Z (coefficient q) - q * inject_Z MEL_ONE <= delta * inject_Z MEL_ONE.
Proof.
  intros A B. unfold coefficient. pose proof (round_even_err (q * inject_Z 1000000)) as [H1 H2].
  pose proof (round_even_range (q * inject_Z 1000000)) as R. set (k := round_even (q * inject_Z 1000000)) in *.
  assert (R' : (0 <= k <= 1000000)%Z) by (apply R; change (inject_Z 1000000) with (1000000 # 1); lra). clear R.
  set (c := ((2 * k * MEL_ONE + 1000000) / 2000000)%Z).
  assert (C : (-1000000 <= 2000000 * c - 2 * k * MEL_ONE <= 1000000)%Z) by (unfold c, MEL_ONE; Z.to_euclidean_division_equations; lia).
  split. { unfold c, MEL_ONE. Z.to_euclidean_division_equations; lia. }
  clearbody c k.
  assert (C' : inject_Z (-1000000) <= inject_Z (2000000 * c - 2 * k * MEL_ONE) /\ inject_Z (2000000 * c - 2 * k * MEL_ONE) <= inject_Z 1000000) by (split; rewrite <- Zle_Qle; lia).
  unfold Z.sub in C'. rewrite inject_Z_plus, inject_Z_opp, !inject_Z_mult in C'. unfold delta.
  change (inject_Z MEL_ONE) with (1073741824 # 1) in *. change (inject_Z 2000000) with (2000000 # 1) in *. change (inject_Z 2) with (2 # 1) in *.
  change (inject_Z (-1000000)) with (-1000000 # 1) in *. change (inject_Z 1000000) with (1000000 # 1) in *.
  split; lra.
Qed.

(** x f / ONE is within 1 + delta |x| of x q. *)
Lemma inject_abs_bound x (a b : Q) : - b <= a -> a <= b -> Qabs (inject_Z x * a) <= inject_Z (Z.abs x) * b.
Proof.
  intros H1 H2. rewrite Qabs_Qmult. assert (E : Qabs (inject_Z x) == inject_Z (Z.abs x)) by (destruct x; reflexivity). rewrite E.
  rewrite (Qmult_comm _ (Qabs a)), (Qmult_comm _ b). apply Qmult_le_compat_r; [apply Qabs_le; auto|].
  unfold Qle, inject_Z. cbn. lia.
Qed.
Lemma qsum_zero n g : (forall r, (r < n)%nat -> g r == 0) -> qsum n g == 0.
Proof. induction n as [|n IH]; intros H; cbn [qsum]; [reflexivity|]. rewrite IH by (intros; apply H; lia). rewrite H by lia. reflexivity. Qed.
Lemma qsum_one n g p : (p < n)%nat -> (forall r, (r < n)%nat -> r <> p -> g r == 0) -> qsum n g == g p.
Proof.
  induction n as [|n IH]; intros H N; [lia|]. cbn [qsum]. destruct (Nat.eq_dec p n) as [->|D].
  - rewrite qsum_zero by (intros; apply N; lia). ring.
  - rewrite IH by (intros; try apply N; lia). rewrite (N n) by lia. ring.
Qed.
Lemma qsum_two n g p : (S p < n)%nat -> (forall r, (r < n)%nat -> r <> p -> r <> S p -> g r == 0) -> qsum n g == g p + g (S p).
Proof.
  induction n as [|n IH]; intros H N; [lia|]. cbn [qsum]. destruct (Nat.eq_dec (S p) n) as [<-|D].
  - rewrite (qsum_one (S p) g p) by (intros; try apply N; lia). reflexivity.
  - rewrite IH by (intros; try apply N; lia). rewrite (N n) by lia. ring.
Qed.

Section Bank.
Context (rows cols : nat) (bank : nat -> nat -> Q) (first : nat -> nat) (FB : filter_bank rows cols bank first).
Context (LAST : (S (first (cols - 1)) < rows)%nat).
Lemma first_safe c : (c < cols)%nat -> (S (first c) < rows)%nat.
Proof. intros H. pose proof (first_mono rows cols bank first FB (cols - 1) ltac:(lia) c ltac:(lia)). lia. Qed.
Lemma second c : (c < cols)%nat -> bank (S (first c)) c == 1 - bank (first c) c.
Proof.
  intros H. pose proof (fb_columns _ _ _ _ FB c H) as E. rewrite (qsum_two rows (fun r => bank r c) (first c)) in E.
  - lra.
  - apply first_safe; auto.
  - intros r R A B. apply (fb_two _ _ _ _ FB); auto.
Qed.
Lemma share_err x c : (c < cols)%nat -> let s := (x * coefficient (bank (first c) c) / MEL_ONE)%Z in
  - (1 + delta * inject_Z (Z.abs x)) <= inject_Z s - bank (first c) c * inject_Z x /\ inject_Z s - bank (first c) c * inject_Z x <= 1 + delta * inject_Z (Z.abs x).
Proof.
  intros H s. pose proof (first_safe c H) as L. destruct (fb_entries _ _ _ _ FB (first c) c ltac:(lia) H) as [B0 B1].
  destruct (coefficient_ok _ B0 B1) as (_ & C1 & C2). set (f := coefficient (bank (first c) c)) in *. set (q := bank (first c) c) in *.
  assert (D : (0 <= x * f - s * MEL_ONE < MEL_ONE)%Z) by (unfold s, MEL_ONE; Z.to_euclidean_division_equations; lia). clearbody s f q.
  assert (D' : 0 <= inject_Z x * inject_Z f - inject_Z s * inject_Z MEL_ONE /\ inject_Z x * inject_Z f - inject_Z s * inject_Z MEL_ONE <= inject_Z MEL_ONE).
  { rewrite <- !inject_Z_mult. unfold Qminus. rewrite <- inject_Z_opp, <- inject_Z_plus. change 0 with (inject_Z 0). rewrite <- !Zle_Qle. lia. }
  assert (X : Qabs (inject_Z x * (inject_Z f - q * inject_Z MEL_ONE)) <= inject_Z (Z.abs x) * (delta * inject_Z MEL_ONE)).
  { apply inject_abs_bound; lra. }
  apply Qabs_Qle_condition in X. change (inject_Z MEL_ONE) with (1073741824 # 1) in *. split; lra.
Qed.
Definition reach (r c : nat) : bool := orb (Nat.eqb (first c) r) (Nat.eqb (S (first c)) r).
Lemma column_err x c r : (c < cols)%nat -> (r < rows)%nat ->
  let e := inject_Z (adds (first c) x (coefficient (bank (first c) c)) r) - bank r c * inject_Z x in
  let b := (if reach r c then 1 else 0) + delta * inject_Z (Z.abs x) in - b <= e /\ e <= b.
Proof.
  intros H R. cbv zeta. pose proof (share_err x c H) as E. cbv zeta in E. unfold adds, reach.
  assert (P : 0 <= delta * inject_Z (Z.abs x)). { apply Qmult_le_0_compat; [unfold delta, Qle; cbn; lia|]. change 0 with (inject_Z 0). rewrite <- Zle_Qle. lia. }
  destruct (Nat.eqb_spec (first c) r) as [<-|N1].
  - destruct (Nat.eqb_spec (S (first c)) (first c)); [lia|]. cbn [orb]. rewrite Z.add_0_r. auto.
  - destruct (Nat.eqb_spec (S (first c)) r) as [<-|N2]; cbn [orb].
    + rewrite (second c H). rewrite Z.add_0_l. unfold Z.sub. rewrite inject_Z_plus, inject_Z_opp. split; lra.
    + rewrite (fb_two _ _ _ _ FB r c R H) by auto. cbn [Z.add]. change (inject_Z 0) with 0. split; lra.
Qed.

Fixpoint lsum (f : nat -> Q) (l : list nat) : Q := match l with [] => 0 | c :: tl => f c + lsum f tl end.
Lemma lsum_app f a b : lsum f (a ++ b) == lsum f a + lsum f b.
Proof. induction a as [|x a IH]; cbn [app lsum]; [ring|]. rewrite IH. ring. Qed.
Lemma qsum_lsum n f : qsum n f == lsum f (seq 0 n).
Proof. induction n as [|n IH]; [reflexivity|]. rewrite seq_S, lsum_app. cbn [qsum]. rewrite IH. cbn [lsum Nat.add]. ring. Qed.
Lemma total_err (x : nat -> Z) r : (r < rows)%nat -> forall l, (forall c, In c l -> (c < cols)%nat) ->
  let e := inject_Z (total (map first l) (combine (map x l) (map (fun c => coefficient (bank (first c) c)) l)) r) - lsum (fun c => bank r c * inject_Z (x c)) l in
  let b := inject_Z (Z.of_nat (length (filter (reach r) l))) + delta * inject_Z (zabs_sum (map x l)) in - b <= e /\ e <= b.
Proof.
  intros R. cbv zeta. induction l as [|c l IH]; intros I.
  - cbn. change (inject_Z 0) with 0. split; lra.
  - specialize (IH ltac:(intros; apply I; right; auto)). pose proof (column_err (x c) c r (I c (or_introl eq_refl)) R) as E. cbv zeta in E.
    cbn [map combine total lsum fold_right filter zabs_sum]. fold (zabs_sum (map x l)). rewrite !inject_Z_plus.
    destruct (reach r c); cbn [length]; [rewrite Nat2Z.inj_succ; unfold Z.succ; rewrite inject_Z_plus; change (inject_Z 1) with 1|]; split; lra.
Qed.
End Bank.

(** The rows add up to the input. *)
Fixpoint zs (n : nat) (f : nat -> Z) : Z := match n with O => 0%Z | S k => (zs k f + f k)%Z end.
Local Open Scope Z_scope.
Lemma zs_firstn n l : (n <= length l)%nat -> fold_right Z.add 0 (firstn n l) = zs n (fun i => nth i l 0).
Proof.
  induction n as [|n IH]; intros H; [reflexivity|]. cbn [zs]. rewrite <- IH by lia. clear IH. revert l H. induction n as [|n IH]; intros l H.
  - destruct l as [|a l]; [cbn in H; lia|]. cbn. lia.
  - destruct l as [|a l]; [cbn in H; lia|]. cbn [length] in H. specialize (IH l ltac:(lia)). cbn [firstn fold_right nth] in *. lia.
Qed.
Lemma zs_add n f g : zs n (fun i => f i + g i) = zs n f + zs n g. Proof. induction n as [|n IH]; cbn [zs]; lia. Qed.
Lemma zs_ext n f g : (forall i, (i < n)%nat -> f i = g i) -> zs n f = zs n g.
Proof. induction n as [|n IH]; intros H; auto. cbn [zs]. rewrite IH, H by (intros; try apply H; lia). auto. Qed.
Lemma zs_pick n p v : zs n (fun i => if Nat.eqb p i then v else 0) = if (p <? n)%nat then v else 0.
Proof. induction n as [|n IH]; auto. cbn [zs]. rewrite IH. destruct (Nat.ltb_spec p n), (Nat.eqb_spec p n), (Nat.ltb_spec p (S n)); lia. Qed.
Lemma zs_total n : forall ps bins, length ps = length bins -> (forall p, In p ps -> (S p < n)%nat) -> zs n (total ps bins) = fold_right Z.add 0 (map fst bins).
Proof.
  induction ps as [|p ps IH]; intros [|[x f] bins] L H; cbn [length] in L; try discriminate.
  - clear. induction n as [|n IH]; auto. cbn [zs]. rewrite IH. cbn. reflexivity.
  - cbn [map fst fold_right]. rewrite <- (IH bins) by (auto with arith; intros; apply H; right; auto).
    rewrite (zs_ext n _ (fun i => adds p x f i + total ps bins i)) by reflexivity. rewrite zs_add. f_equal.
    unfold adds. rewrite zs_add, !zs_pick. specialize (H p (or_introl eq_refl)). destruct (Nat.ltb_spec p n), (Nat.ltb_spec (S p) n); lia.
Qed.
