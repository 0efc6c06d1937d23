(** Lemmas about row-major layouts. *)
From Verif Require Import Base NdSpec.

Section L.
Context {A : Type}.

Lemma flatten_ext_in s : forall (t t' : tensor A), (forall idx, in_shape s idx -> t idx = t' idx) -> flatten s t = flatten s t'.
Proof.
  induction s as [|d s IH]; intros t t' H; cbn [flatten].
  - f_equal. apply H. constructor.
  - rewrite !flat_map_concat_map. f_equal. apply map_ext_in. intros i Hi. apply in_seq in Hi.
    apply IH. intros idx Hx. apply H. constructor; [lia|auto].
Qed.

Lemma flatten_ext s (t t' : tensor A) : (forall idx, t idx = t' idx) -> flatten s t = flatten s t'.
Proof. intros H. apply flatten_ext_in. auto. Qed.

Lemma flatten_length s : forall t : tensor A, length (flatten s t) = nelem s.
Proof.
  induction s as [|d s IH]; intros t; cbn [flatten nelem fold_right]; auto.
  fold (nelem s). generalize 0. revert t. induction d as [|d IHd]; intros t k; cbn [seq flat_map]; auto.
  rewrite app_length, IH, IHd. cbn. lia.
Qed.

Lemma flatten_const s (z : A) : flatten s (fun _ => z) = repeat z (nelem s).
Proof.
  induction s as [|d s IH]; cbn [flatten nelem fold_right]; auto. fold (nelem s).
  generalize 0. induction d as [|d IHd]; intros k; cbn [seq flat_map]; auto.
  rewrite IHd, IH. cbn [Nat.mul]. rewrite repeat_app. auto.
Qed.

Lemma flat_map_ext_in {B C} (f g : B -> list C) l : (forall x, In x l -> f x = g x) -> flat_map f l = flat_map g l.
Proof. intros H. rewrite !flat_map_concat_map. f_equal. apply map_ext_in. auto. Qed.

Lemma flat_map_flat_map {B C D} (f : C -> list D) (g : B -> list C) l :
  flat_map f (flat_map g l) = flat_map (fun x => flat_map f (g x)) l.
Proof. induction l as [|x l IH]; cbn [flat_map]; auto. rewrite flat_map_app, IH. auto. Qed.

Lemma flat_map_map {B C D} (f : C -> list D) (g : B -> C) l :
  flat_map f (map g l) = flat_map (fun x => f (g x)) l.
Proof. induction l as [|x l IH]; cbn [flat_map map]; auto. rewrite IH. auto. Qed.

Lemma seq_shift_map n : forall a b, seq (a + b) n = map (fun i => a + i) (seq b n).
Proof.
  induction n as [|n IH]; intros a b; cbn [seq map]; auto. f_equal.
  rewrite <- IH. f_equal. lia.
Qed.

(** seq of a product *)
Lemma seq_mul d m : seq 0 (d * m) = flat_map (fun i => map (fun j => i * m + j) (seq 0 m)) (seq 0 d).
Proof.
  induction d as [|d IH]; auto.
  rewrite seq_S, flat_map_app, <- IH. cbn [flat_map]. rewrite app_nil_r.
  rewrite <- seq_shift_map. replace (S d * m) with (d * m + m) by lia. rewrite seq_app.
  f_equal. f_equal. lia.
Qed.

(** Merging two adjacent dimensions. *)
Definition merge2 (m : nat) (t : tensor A) : tensor A :=
  fun idx => match idx with k :: r => t (k / m :: k mod m :: r) | [] => t [] end.

Lemma flatten_merge2 d m s (t : tensor A) : flatten (d :: m :: s) t = flatten (d * m :: s) (merge2 m t).
Proof.
  cbn [flatten]. rewrite seq_mul, flat_map_flat_map. apply flat_map_ext_in. intros i Hi.
  rewrite flat_map_map. apply flat_map_ext_in. intros j Hj. apply in_seq in Hj.
  apply flatten_ext. intros idx. unfold merge2.
  rewrite Nat.add_comm, Nat.div_add, Nat.div_small, Nat.mod_add, Nat.mod_small by lia. auto.
Qed.

Lemma flatten_one s (t : tensor A) : flatten (1 :: s) t = flatten s (fun idx => t (0 :: idx)).
Proof. cbn [flatten seq flat_map]. apply app_nil_r. Qed.

Lemma nelem_app s s' : nelem (s ++ s') = nelem s * nelem s'.
Proof. induction s as [|d s IH]; cbn [app nelem fold_right]; [fold (nelem s')|fold (nelem (s ++ s')); fold (nelem s); rewrite IH]; lia. Qed.

Lemma flatten_app s : forall s' (t : tensor A),
  flatten (s ++ s') t = flat_map (fun r => r) (flatten s (fun idx => flatten s' (fun idx' => t (idx ++ idx')))).
Proof.
  induction s as [|d s IH]; intros s' t; cbn [app flatten].
  - cbn [flat_map]. rewrite app_nil_r. auto.
  - rewrite flat_map_flat_map. apply flat_map_ext_in. intros i _. rewrite IH. auto.
Qed.

(** Merging a group of dimensions into one. *)
Fixpoint unravel (s : shape) (k : nat) : index :=
  match s with
  | [] => []
  | d :: s' => k / nelem s' :: unravel s' (k mod nelem s')
  end.

Lemma flatten_unravel s : forall (t : tensor A), flatten s t = map (fun k => t (unravel s k)) (seq 0 (nelem s)).
Proof.
  induction s as [|d s IH]; intros t; cbn [flatten unravel]; auto.
  cbn [nelem fold_right]. fold (nelem s). rewrite seq_mul, flat_map_concat_map.
  rewrite concat_map, <- flat_map_concat_map, flat_map_concat_map, map_map, flat_map_concat_map || idtac.
  rewrite flat_map_concat_map, concat_map, map_map. f_equal. apply map_ext_in. intros i _.
  rewrite IH, map_map. apply map_ext_in. intros j Hj. apply in_seq in Hj.
  rewrite Nat.add_comm, Nat.div_add, Nat.div_small, Nat.mod_add, Nat.mod_small by lia. auto.
Qed.

End L.

Arguments merge2 {A}.

(* ---- byte strings ---- *)
Definition sub {B} (l : list B) (start len : nat) : list B := firstn len (skipn start l).

Section Bytes.
Context {B : Type}.
Implicit Type l : list B.

Lemma skipn_skipn x : forall y l, skipn x (skipn y l) = skipn (y + x) l.
Proof.
  intros y. induction y as [|y IH]; intros l; auto. destruct l as [|a l]; cbn [skipn Nat.add]; auto.
  destruct x; auto.
Qed.

Lemma sub_length l a n : a + n <= length l -> length (sub l a n) = n.
Proof. intros H. unfold sub. rewrite firstn_length, skipn_length. lia. Qed.

Lemma sub_sub l a n b m : b + m <= n -> sub (sub l a n) b m = sub l (a + b) m.
Proof.
  intros H. unfold sub. rewrite skipn_firstn_comm, firstn_firstn, skipn_skipn.
  f_equal; lia.
Qed.

Lemma sub_all l : sub l 0 (length l) = l.
Proof. unfold sub. cbn. apply firstn_all. Qed.

Lemma sub_app_r l1 l2 a n : length l1 <= a -> sub (l1 ++ l2) a n = sub l2 (a - length l1) n.
Proof. intros H. unfold sub. rewrite skipn_app. rewrite (skipn_all2 l1) by lia. auto. Qed.

Lemma sub_app_l l1 l2 a n : a + n <= length l1 -> sub (l1 ++ l2) a n = sub l1 a n.
Proof.
  intros H. unfold sub. rewrite skipn_app, firstn_app, skipn_length.
  replace (n - (length l1 - a)) with 0 by lia. cbn. apply app_nil_r.
Qed.

Lemma sub_cat l a n m : sub l a (n + m) = sub l a n ++ sub l (a + n) m.
Proof.
  unfold sub. rewrite Nat.add_comm, <- (firstn_skipn n (firstn (m + n) (skipn a l))).
  rewrite firstn_firstn. f_equal; [f_equal; lia|].
  rewrite skipn_firstn_comm, skipn_skipn. f_equal; lia.
Qed.

Lemma sub_0 l a : sub l a 0 = [].
Proof. reflexivity. Qed.

(** blocks of equal length *)
Lemma blocks_length (f : nat -> list B) n : (forall i, length (f i) = n) -> forall js, length (flat_map f js) = length js * n.
Proof. intros H js. induction js as [|i js IH]; cbn [flat_map length]; auto. rewrite app_length, H, IH. auto. Qed.

Lemma sub_blocks (f : nat -> list B) n d b o : (forall i, length (f i) = n) -> b + o <= d ->
  sub (flat_map f (seq 0 d)) (b * n) (o * n) = flat_map f (seq b o).
Proof.
  intros Hf H. replace d with (b + (o + (d - b - o))) by lia.
  rewrite seq_app, flat_map_app. cbn [Nat.add]. rewrite seq_app, flat_map_app.
  rewrite sub_app_r by (rewrite (blocks_length f n Hf), seq_length; lia).
  rewrite (blocks_length f n Hf), seq_length, Nat.sub_diag.
  rewrite sub_app_l by (rewrite (blocks_length f n Hf), seq_length; lia).
  replace (o * n) with (length (flat_map f (seq b o))) by (rewrite (blocks_length f n Hf), seq_length; lia).
  apply sub_all.
Qed.

End Bytes.
