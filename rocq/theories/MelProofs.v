(** Lemmas for C85. *)
From Coq Require Import List ZArith QArith Qabs Bool Arith Lia Psatz.
Import ListNotations.
From Verif Require Import MelModel MelSpec.
Local Open Scope Z_scope.

Lemma set_nat_ok : forall l i v, (i < length l)%nat -> exists l', set_nat l i v = Some l' /\ length l' = length l /\
  forall k, nth k l' 0 = if Nat.eqb k i then v else nth k l 0.
Proof.
  induction l as [|x l IH]; intros i v H; [cbn in H; lia|]. destruct i as [|i].
  - exists (v :: l). repeat split. intros [|k]; reflexivity.
  - destruct (IH i v ltac:(cbn in H; lia)) as (l' & E & L & N). exists (x :: l'). cbn [set_nat]. rewrite E. cbn [option_map length].
    split; [auto|]. split; [lia|]. intros [|k]; cbn [nth Nat.eqb]; auto.
Qed.
Lemma set_ok l i v : 0 <= i < Z.of_nat (length l) -> exists l', set l i v = Some l' /\ length l' = length l /\
  forall k, nth k l' 0 = if Z.of_nat k =? i then v else nth k l 0.
Proof.
  intros H. destruct (set_nat_ok l (Z.to_nat i) v ltac:(lia)) as (l' & E & L & N). exists l'. unfold set. destruct (Z.ltb_spec i 0); [lia|]. split; [auto|]. split; [auto|].
  intros k. rewrite N. destruct (Nat.eqb_spec k (Z.to_nat i)), (Z.eqb_spec (Z.of_nat k) i); auto; lia.
Qed.
Lemma get_ok l i : 0 <= i < Z.of_nat (length l) -> get l i = Some (nth (Z.to_nat i) l 0).
Proof. intros H. unfold get. destruct (Z.ltb_spec i 0); [lia|]. apply nth_error_nth'. lia. Qed.
Lemma int_ok_in z : Z.abs z <= 2147483647 -> int_ok z = Some z.
Proof. intros H. unfold int_ok. destruct (Z.leb_spec (-2147483648) z), (Z.leb_spec z 2147483647); auto; lia. Qed.
Lemma to_int_in z : Z.abs z <= 2147483647 -> to_int z = z.
Proof. intros H. unfold to_int. destruct (Z.ltb_spec (z mod 4294967296) 2147483648); Z.to_euclidean_division_equations; lia. Qed.

(** The part of a bin that goes to its first row. *)
Notation share x f := (x * f / MEL_ONE) (only parsing).
Lemma share_bounds x f : 0 <= f <= MEL_ONE -> (0 <= x -> 0 <= x * f / MEL_ONE <= x) /\ (x <= 0 -> x <= x * f / MEL_ONE <= 0).
Proof.
  unfold MEL_ONE. intros H. split; intros Hx; split.
  - apply Z.div_pos; nia.
  - apply Z.div_le_upper_bound; nia.
  - apply Z.div_le_lower_bound; nia.
  - apply Z.div_le_upper_bound; nia.
Qed.
Lemma share_abs x f : 0 <= f <= MEL_ONE -> Z.abs (x * f / MEL_ONE) <= Z.abs x /\ Z.abs (x - x * f / MEL_ONE) <= Z.abs x.
Proof. intros H. destruct (share_bounds x f H) as [A B]. destruct (Z.le_ge_cases 0 x); [specialize (A ltac:(lia))|specialize (B ltac:(lia))]; lia. Qed.

(** Rows of the columns: each is the previous or the next. *)
Fixpoint path (cur : Z) (ps : list nat) : Prop :=
  match ps with [] => True | p :: tl => (Z.of_nat p = cur \/ Z.of_nat p = cur + 1) /\ path (Z.of_nat p) tl end.
Fixpoint zcount (z : Z) (ps : list nat) : Z := match ps with [] => 0 | p :: tl => (if Z.of_nat p =? z then 1 else 0) + zcount z tl end.
Fixpoint top (cur : Z) (ps : list nat) : Z := match ps with [] => cur | p :: tl => top (Z.of_nat p) tl end.
Lemma zcount_nonneg z ps : 0 <= zcount z ps. Proof. induction ps as [|p ps IH]; cbn [zcount]; [lia|]. destruct (_ =? _); lia. Qed.
Lemma path_ge ps : forall cur, path cur ps -> forall p, In p ps -> cur <= Z.of_nat p <= top cur ps.
Proof.
  assert (T : forall ps cur, path cur ps -> cur <= top cur ps).
  { induction ps0 as [|q ps0 IH]; intros cur H; cbn [top path] in *; [lia|]. destruct H as [H1 H2]. apply IH in H2. lia. }
  induction ps as [|q ps IH]; intros cur H p I; [destruct I|]. cbn [path top] in *. destruct H as [H1 H2]. destruct I as [->|I]; [pose proof (T _ _ H2); lia|].
  specialize (IH _ H2 p I). lia.
Qed.
Lemma top_ge ps cur : path cur ps -> cur <= top cur ps.
Proof.
  revert cur. induction ps as [|q ps IH]; intros cur H; cbn [top path] in *; [lia|]. destruct H as [H1 H2]. apply IH in H2. lia.
Qed.
Lemma zcount_below ps : forall cur z, path cur ps -> z < cur -> zcount z ps = 0.
Proof. induction ps as [|q ps IH]; intros cur z H L; cbn [zcount path] in *; auto. destruct H as [H1 H2]. destruct (Z.eqb_spec (Z.of_nat q) z); [lia|]. rewrite (IH (Z.of_nat q)); auto; lia. Qed.

(** What column (p, x, f) adds to row i. *)
Definition adds (p : nat) (x f : Z) (i : nat) : Z := (if Nat.eqb p i then x * f / MEL_ONE else 0) + (if Nat.eqb (S p) i then x - x * f / MEL_ONE else 0).
Fixpoint total (ps : list nat) (bins : list (Z * Z)) (i : nat) : Z :=
  match ps, bins with p :: ps', (x, f) :: bins' => adds p x f i + total ps' bins' i | _, _ => 0 end.
Definition base (cur : Z) (ps : list nat) (mel : list Z) (i : nat) : Z :=
  if Z.of_nat i <=? cur + 1 then nth i mel 0 else if Z.of_nat i <=? top cur ps + 1 then 0 else nth i mel 0.

Lemma loop_ok overlap : forall ps bins cur run mel, length ps = length bins -> path cur ps -> -1 <= cur ->
  run = zcount cur ps -> (forall r, cur < r -> 0 < zcount r ps -> get overlap r = Some (zcount r ps)) ->
  top cur ps + 1 < Z.of_nat (length mel) -> Forall (fun b => 0 <= snd b <= MEL_ONE) bins ->
  (forall i, Z.of_nat i <= cur + 1 -> Z.abs (nth i mel 0) + zabs_sum (map fst bins) <= 2147483647) -> zabs_sum (map fst bins) <= 2147483647 ->
  exists mel', compress_loop bins overlap cur run mel = Some mel' /\ length mel' = length mel /\
    forall i, nth i mel' 0 = base cur ps mel i + total ps bins i.
Proof.
  induction ps as [|p ps IH]; intros bins cur run mel L P C R O T F B B0.
  { destruct bins; [|discriminate]. exists mel. cbn. repeat split; auto. intros i. unfold base. cbn [top]. destruct (_ <=? _); lia. }
  destruct bins as [|(x & f) bins]; [discriminate|]. cbn [length] in L. cbn [path top zcount] in *. destruct P as [P1 P2].
  inversion F as [|? ? Ff F']; subst. cbn [snd] in Ff. cbn [map fst zabs_sum fold_right] in B, B0. fold (zabs_sum (map fst bins)) in B, B0.
  pose proof (top_ge _ _ P2) as Tp.
  destruct (share_abs x f Ff) as [S1 S2]. set (c := x * f / MEL_ONE) in *.
  assert (ZN : 0 <= zabs_sum (map fst bins)) by (clear; induction bins as [|b bins IH]; cbn; [lia|unfold zabs_sum in IH; lia]).
  (* the state after the first test *)
  assert (ST : exists mel1, (st <- (if (if Z.of_nat p =? cur then 1 else 0) + zcount cur ps <=? 0 then
                r <- get overlap (cur + 1) ;; mel' <- set mel (cur + 1 + 1) 0 ;; Some (cur + 1, r, mel') else Some (cur, (if Z.of_nat p =? cur then 1 else 0) + zcount cur ps, mel)) ;; Some st)
              = Some (Z.of_nat p, zcount (Z.of_nat p) ps + 1, mel1) /\ length mel1 = length mel /\
              forall i, nth i mel1 0 = if Z.of_nat i <=? cur + 1 then nth i mel 0 else if Z.of_nat i <=? Z.of_nat p + 1 then 0 else nth i mel 0).
  { pose proof (zcount_nonneg cur ps) as ZC. destruct (Z.eqb_spec (Z.of_nat p) cur) as [E|E].
    - destruct (Z.leb_spec (1 + zcount cur ps) 0); [lia|]. exists mel. rewrite E. rewrite (Z.add_comm 1). repeat split; auto. intros i. destruct (Z.leb_spec (Z.of_nat i) (cur + 1)); auto.
    - assert (E' : Z.of_nat p = cur + 1) by lia. rewrite (zcount_below ps (Z.of_nat p) cur P2) by lia. cbn [Z.add Z.leb Z.compare].
      specialize (O (cur + 1) ltac:(lia)). rewrite E', Z.eqb_refl in O. rewrite O by (pose proof (zcount_nonneg (cur + 1) ps); lia).
      destruct (set_ok mel (cur + 1 + 1) 0 ltac:(lia)) as (m1 & -> & L1 & N1). exists m1. rewrite E', (Z.add_comm 1). repeat split; auto. intros i. rewrite N1.
      destruct (Z.eqb_spec (Z.of_nat i) (cur + 1 + 1)), (Z.leb_spec (Z.of_nat i) (cur + 1)), (Z.leb_spec (Z.of_nat i) (cur + 1 + 1)); auto; lia. }
  destruct ST as (m1 & ST & L1 & N1). cbn [compress_loop].
  match type of ST with (match ?e with Some _ => _ | None => _ end) = _ => destruct e as [[[cu ru] me]|]; [|discriminate] end. injection ST as -> -> ->.
  cbv zeta. rewrite to_int_in by lia. fold c. rewrite get_ok by lia. rewrite Nat2Z.id.
  assert (A1 : Z.abs (nth p m1 0) + (Z.abs x + zabs_sum (map fst bins)) <= 2147483647).
  { rewrite N1. destruct (Z.leb_spec (Z.of_nat p) (cur + 1)); [apply B; lia|lia]. }
  assert (A2 : Z.abs (nth (S p) m1 0) + (Z.abs x + zabs_sum (map fst bins)) <= 2147483647).
  { rewrite N1. destruct (Z.leb_spec (Z.of_nat (S p)) (cur + 1)); [apply B; lia|]. destruct (Z.leb_spec (Z.of_nat (S p)) (Z.of_nat p + 1)); lia. }
  rewrite int_ok_in by lia. destruct (set_ok m1 (Z.of_nat p) (nth p m1 0 + c) ltac:(lia)) as (m2 & -> & L2 & N2).
  rewrite int_ok_in by lia. rewrite get_ok by lia. replace (Z.to_nat (Z.of_nat p + 1)) with (S p) by lia.
  assert (E2 : nth (S p) m2 0 = nth (S p) m1 0) by (rewrite N2; destruct (Z.eqb_spec (Z.of_nat (S p)) (Z.of_nat p)); auto; lia). rewrite E2.
  rewrite int_ok_in by lia. destruct (set_ok m2 (Z.of_nat p + 1) (nth (S p) m1 0 + (x - c)) ltac:(lia)) as (m3 & -> & L3 & N3).
  assert (N : forall i, nth i m3 0 = nth i m1 0 + adds p x f i).
  { intros i. rewrite N3, N2. unfold adds. fold c. destruct (Z.eqb_spec (Z.of_nat i) (Z.of_nat p + 1)), (Z.eqb_spec (Z.of_nat i) (Z.of_nat p)), (Nat.eqb_spec p i), (Nat.eqb_spec (S p) i); subst; try lia. }
  replace (zcount (Z.of_nat p) ps + 1 - 1) with (zcount (Z.of_nat p) ps) by lia.
  destruct (IH bins (Z.of_nat p) (zcount (Z.of_nat p) ps) m3) as (m' & E & L' & N'); auto; try lia.
  - intros r Hr Hz. assert (G : get overlap r = Some ((if Z.of_nat p =? r then 1 else 0) + zcount r ps)).
    { apply O; [lia|]. destruct (Z.of_nat p =? r); lia. } rewrite G. destruct (Z.eqb_spec (Z.of_nat p) r); [lia|auto].
  - intros i Hi. rewrite N. unfold adds. fold c. destruct (Nat.eqb_spec p i) as [<-|]; [destruct (Nat.eqb_spec (S p) p); lia|]. destruct (Nat.eqb_spec (S p) i) as [<-|]; [lia|].
    rewrite N1. destruct (Z.leb_spec (Z.of_nat i) (cur + 1)); [specialize (B i ltac:(lia)); lia|]. destruct (Z.leb_spec (Z.of_nat i) (Z.of_nat p + 1)); lia.
  - exists m'. rewrite E. split; [auto|]. split; [lia|]. intros i. rewrite N'. cbn [total]. unfold base. rewrite N, N1. cbn [top].
    destruct (Z.leb_spec (Z.of_nat i) (Z.of_nat p + 1)), (Z.leb_spec (Z.of_nat i) (cur + 1)), (Z.leb_spec (Z.of_nat i) (top (Z.of_nat p) ps + 1)); try lia.
    unfold adds. destruct (Nat.eqb_spec p i), (Nat.eqb_spec (S p) i); lia.
Qed.

Lemma to_int_range z : -2147483648 <= z <= 2147483647 -> to_int z = z.
Proof. intros H. unfold to_int. destruct (Z.ltb_spec (z mod 4294967296) 2147483648); Z.to_euclidean_division_equations; lia. Qed.
Lemma mix_bounds a b f lo hi : 0 <= f <= MEL_ONE -> lo <= a <= hi -> lo <= b <= hi -> lo <= (a * f + b * (MEL_ONE - f)) / MEL_ONE <= hi.
Proof. unfold MEL_ONE. intros F A B. split; [apply Z.div_le_lower_bound|apply Z.div_le_upper_bound]; nia. Qed.

Definition mix (mel : list Z) (pf : nat * Z) : Z := (nth (fst pf) mel 0 * snd pf + nth (S (fst pf)) mel 0 * (MEL_ONE - snd pf)) / MEL_ONE.
Lemma expand_ok overlap mel : Forall (fun v => -2147483648 <= v <= 2147483647) mel -> forall ps fs cur run, length ps = length fs -> path cur ps -> -1 <= cur ->
  run = zcount cur ps -> (forall r, cur < r -> 0 < zcount r ps -> get overlap r = Some (zcount r ps)) ->
  top cur ps + 1 < Z.of_nat (length mel) -> Forall (fun f => 0 <= f <= MEL_ONE) fs ->
  expand_loop fs mel overlap cur run = Some (map (mix mel) (combine ps fs)).
Proof.
  intros M. induction ps as [|p ps IH]; intros fs cur run L P C R O T F.
  { destruct fs; [|discriminate]. reflexivity. }
  destruct fs as [|f fs]; [discriminate|]. cbn [length] in L. cbn [path top zcount] in *. destruct P as [P1 P2]. inversion F as [|? ? Ff F']; subst.
  pose proof (top_ge _ _ P2) as Tp.
  assert (ST : (st <- (if (if Z.of_nat p =? cur then 1 else 0) + zcount cur ps <=? 0 then
                r <- get overlap (cur + 1) ;; Some (cur + 1, r) else Some (cur, (if Z.of_nat p =? cur then 1 else 0) + zcount cur ps)) ;; Some st)
              = Some (Z.of_nat p, zcount (Z.of_nat p) ps + 1)).
  { pose proof (zcount_nonneg cur ps) as ZC. destruct (Z.eqb_spec (Z.of_nat p) cur) as [E|E].
    - destruct (Z.leb_spec (1 + zcount cur ps) 0); [lia|]. rewrite E. rewrite (Z.add_comm 1). reflexivity.
    - assert (E' : Z.of_nat p = cur + 1) by lia. rewrite (zcount_below ps (Z.of_nat p) cur P2) by lia. cbn [Z.add Z.leb Z.compare].
      specialize (O (cur + 1) ltac:(lia)). rewrite E', Z.eqb_refl in O. rewrite O by (pose proof (zcount_nonneg (cur + 1) ps); lia).
      rewrite E', (Z.add_comm 1). reflexivity. }
  cbn [expand_loop].
  match type of ST with (match ?e with Some _ => _ | None => _ end) = _ => destruct e as [[cu ru]|]; [|discriminate] end. injection ST as -> ->.
  rewrite !get_ok by lia. rewrite Nat2Z.id. replace (Z.to_nat (Z.of_nat p + 1)) with (S p) by lia.
  replace (zcount (Z.of_nat p) ps + 1 - 1) with (zcount (Z.of_nat p) ps) by lia.
  rewrite (IH fs (Z.of_nat p) (zcount (Z.of_nat p) ps)); auto; try lia.
  - cbn [combine map]. f_equal. unfold mix at 2. cbn [fst snd]. f_equal. apply to_int_range. rewrite Forall_forall in M. apply mix_bounds; auto; apply M, nth_In; lia.
  - intros r Hr Hz. assert (G : get overlap r = Some ((if Z.of_nat p =? r then 1 else 0) + zcount r ps)).
    { apply O; [lia|]. destruct (Z.of_nat p =? r); lia. } rewrite G. destruct (Z.eqb_spec (Z.of_nat p) r); [lia|auto].
Qed.

(** * compress_mel.py *)
Definition cnt (k : nat) (ps : list nat) : nat := length (filter (Nat.eqb k) ps).
Lemma zcount_cnt k ps : zcount (Z.of_nat k) ps = Z.of_nat (cnt k ps).
Proof.
  unfold cnt. induction ps as [|p ps IH]; auto. cbn [zcount filter]. destruct (Z.eqb_spec (Z.of_nat p) (Z.of_nat k)), (Nat.eqb_spec k p); cbn [length]; lia.
Qed.
Lemma cnt_app k a b : cnt k (a ++ b) = (cnt k a + cnt k b)%nat.
Proof. unfold cnt. rewrite filter_app, app_length. auto. Qed.

Section Python.
Context (rows cols : nat) (bank : nat -> nat -> Q) (first : nat -> nat) (FB : filter_bank rows cols bank first).
Definition ps_of c := map first (seq 0 c).
Lemma ps_of_S c : ps_of (S c) = ps_of c ++ [first c].
Proof. unfold ps_of. rewrite seq_S, map_app. reflexivity. Qed.
Definition prev c := match c with O => O | S k => first k end.
Lemma first_mono c : (c < cols)%nat -> forall d, (d <= c)%nat -> (first d <= first c)%nat.
Proof.
  induction c as [|c IH]; intros H d D; [replace d with 0%nat by lia; lia|]. destruct (Nat.eq_dec d (S c)) as [->|]; [lia|].
  specialize (IH ltac:(lia) d ltac:(lia)). destruct (fb_step _ _ _ _ FB c H); lia.
Qed.
Lemma cnt_above c k : (forall d, (d < c)%nat -> (first d < k)%nat) -> cnt k (ps_of c) = 0%nat.
Proof.
  induction c as [|c IH]; intros H; auto. rewrite ps_of_S, cnt_app, IH by (intros; apply H; lia). unfold cnt. cbn [filter].
  specialize (H c ltac:(lia)). destruct (Nat.eqb_spec k (first c)); [lia|reflexivity].
Qed.

Lemma columns_ok : forall n c vals, (c + n = cols)%nat -> 
  compress_columns rows bank (seq c n) (prev c) (cnt (prev c) (ps_of c)) (map (fun k => cnt k (ps_of c)) (seq 0 (prev c))) vals =
  Some (if Nat.eqb cols 0 then [] else map (fun k => cnt k (ps_of cols)) (seq 0 (S (prev cols))), vals ++ map (fun k => bank (first k) k) (seq c n)).
Proof.
  induction n as [|n IH]; intros c vals H.
  - assert (c = cols) by lia; subst c. change (seq cols 0) with (@nil nat). cbn [map compress_columns]. rewrite app_nil_r. destruct cols as [|m] eqn:EC; [reflexivity|]. rewrite <- EC in *. 
    assert (POS : (0 < cnt (prev cols) (ps_of cols))%nat).
    { rewrite EC, ps_of_S, cnt_app. cbn [prev]. unfold cnt at 2. cbn [filter]. rewrite Nat.eqb_refl. cbn [length]. lia. }
    destruct (Nat.eqb_spec (cnt (prev cols) (ps_of cols)) 0); [lia|]. destruct (Nat.eqb_spec cols 0); [lia|]. rewrite seq_S, map_app. reflexivity.
  - change (seq c (S n)) with (c :: seq (S c) n). cbn [compress_columns]. assert (Hc : (c < cols)%nat) by lia.
    destruct (fb_first _ _ _ _ FB c Hc) as [F1 F2].
    assert (ST : first c = prev c \/ (first c = S (prev c))).
    { destruct c as [|d]; [left; apply (fb_start _ _ _ _ FB)|]. cbn [prev]. apply (fb_step _ _ _ _ FB). lia. }
    destruct (Nat.leb_spec rows (prev c)); [lia|].
    specialize (IH (S c) (vals ++ [bank (first c) c]) ltac:(lia)). rewrite <- app_assoc in IH. cbn [app] in IH. cbn [map]. rewrite <- IH. clear IH. cbn [prev].
    destruct ST as [E|E].
    + assert (Q0 : Qeq_bool (bank (prev c) c) 0 = false).
      { rewrite <- E. destruct (Qeq_bool (bank (first c) c) 0) eqn:Q; auto. apply Qeq_bool_eq in Q. contradiction. }
      rewrite Q0. destruct (Nat.leb_spec rows (prev c)); [lia|]. rewrite E. f_equal.
      * rewrite ps_of_S, cnt_app, E. unfold cnt at 3. cbn [filter]. rewrite Nat.eqb_refl. cbn [length]. lia.
      * apply map_ext_in. intros k Hk. apply in_seq in Hk. rewrite ps_of_S, cnt_app, E. unfold cnt at 3. cbn [filter]. destruct (Nat.eqb_spec k (prev c)); [lia|]. cbn [length]. lia.
    + assert (Q0 : Qeq_bool (bank (prev c) c) 0 = true).
      { apply Qeq_bool_iff. apply (fb_two _ _ _ _ FB); lia. }
      rewrite Q0. destruct (Nat.leb_spec rows (S (prev c))); [lia|]. rewrite E. f_equal.
      * rewrite ps_of_S, cnt_app, E. unfold cnt at 2. cbn [filter]. rewrite Nat.eqb_refl. cbn [length].
        rewrite cnt_above; [lia|]. intros d Hd. destruct c as [|c']; [lia|]. cbn [prev] in *. pose proof (first_mono c' ltac:(lia) d ltac:(lia)). lia.
      * rewrite seq_S, map_app. cbn [map]. f_equal.
        { apply map_ext_in. intros k Hk. apply in_seq in Hk. rewrite ps_of_S, cnt_app, E. unfold cnt at 3. cbn [filter]. destruct (Nat.eqb_spec k (S (prev c))); [lia|]. cbn [length]. lia. }
        { cbn [Nat.add]. rewrite ps_of_S, cnt_app, E. replace (cnt (prev c) [S (prev c)]) with 0%nat by (unfold cnt; cbn [filter]; destruct (Nat.eqb_spec (prev c) (S (prev c))); [lia|reflexivity]). cbn [length]. rewrite Nat.add_0_r. reflexivity. }
Qed.
End Python.
