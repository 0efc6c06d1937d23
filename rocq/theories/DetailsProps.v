(** C89: what the host interpreter reports about a model. *)
From Coq Require Import Ascii String List.
From Verif Require Import Base InterpModel DetailsModel ExportModel.
From Coq Require Import QArith List.
Local Open Scope nat_scope.
Local Open Scope list_scope.

(** Names that survive: printable ASCII without quote and backslash. *)
Definition plain (c : nat) : Prop := 32 <= c < 127 /\ c <> 39 /\ c <> 92.

Lemma contains_iff c l : contains c l = true <-> In c l.
Proof. unfold contains. rewrite existsb_exists. split; [intros (x & H & E); apply Nat.eqb_eq in E; subst; auto|intros H; exists c; split; auto; apply Nat.eqb_refl]. Qed.
Lemma contains_not c l : contains c l = false <-> ~ In c l.
Proof. rewrite <- contains_iff. destruct (contains c l); intuition congruence. Qed.
Lemma escape_plain c : plain c -> escape 39 c = [c].
Proof.
  intros (R & N1 & N2). unfold escape. destruct (Nat.eqb_spec c 39); [lia|]. destruct (Nat.eqb_spec c 92); [lia|]. cbn [orb].
  destruct (Nat.eqb_spec c 9); [lia|]. destruct (Nat.eqb_spec c 10); [lia|]. destruct (Nat.eqb_spec c 13); [lia|]. destruct (Nat.ltb_spec c 32); [lia|]. destruct (Nat.leb_spec 127 c); [lia|]. reflexivity.
Qed.
Lemma plain_dec c : {plain c} + {~ plain c}.
Proof. unfold plain. destruct (le_lt_dec 32 c); [|right; lia]. destruct (lt_dec c 127); [|right; lia]. destruct (Nat.eq_dec c 39); [right; lia|]. destruct (Nat.eq_dec c 92); [right; lia|]. left. lia. Defined.
Definition slashes (l : list nat) : nat := List.length (filter (Nat.eqb 92) l).
Lemma slashes_app a b : slashes (a ++ b) = slashes a + slashes b.
Proof. unfold slashes. rewrite filter_app, app_length. auto. Qed.
Lemma slashes_escape c : ~ plain c -> slashes (escape 39 c) >= 1 + slashes [c].
Proof.
  intros N. unfold escape. destruct (Nat.eqb_spec c 39) as [->|N1]; [cbn; lia|]. destruct (Nat.eqb_spec c 92) as [->|N2]; [cbn; lia|]. cbn [orb].
  assert (Z : slashes [c] = 0) by (unfold slashes; cbn [filter]; destruct (Nat.eqb_spec 92 c); [lia|reflexivity]). rewrite Z.
  destruct (Nat.eqb c 9); [cbn; lia|]. destruct (Nat.eqb c 10); [cbn; lia|]. destruct (Nat.eqb c 13); [cbn; lia|].
  destruct (Nat.ltb_spec c 32); [unfold slashes; cbn; lia|]. destruct (Nat.leb_spec 127 c); [unfold slashes; cbn; lia|]. exfalso. apply N. unfold plain. lia.
Qed.
Lemma slashes_body l : (Forall plain l -> flat_map (escape 39) l = l) /\ slashes l <= slashes (flat_map (escape 39) l) /\ (~ Forall plain l -> slashes l < slashes (flat_map (escape 39) l)).
Proof.
  induction l as [|c l (I1 & I2 & I3)]; [cbn; repeat split; auto; intros N; exfalso; apply N; constructor|]. cbn [flat_map]. rewrite slashes_app. change (c :: l) with ([c] ++ l). rewrite slashes_app.
  destruct (plain_dec c) as [P|P].
  - rewrite (escape_plain c P). split; [|split].
    + intros F. inversion F; subst. rewrite I1 by auto. reflexivity.
    + lia.
    + intros N. enough (slashes l < slashes (flat_map (escape 39) l)) by lia. apply I3. intros F. apply N. constructor; auto.
  - pose proof (slashes_escape c P). split; [|split; [lia|intros _; lia]]. intros F. inversion F; subst. contradiction.
Qed.
(** ** strip *)
Lemma lstrip_split chars l : exists a, l = a ++ lstrip chars l /\ Forall (fun c => In c chars) a.
Proof.
  induction l as [|c l (a & E & F)]; [exists []; auto|]. cbn [lstrip]. destruct (contains c chars) eqn:H; [|exists []; auto].
  exists (c :: a). split; [cbn; congruence|]. constructor; auto. apply contains_iff. auto.
Qed.
Lemma strip_split chars l : exists a b, l = a ++ strip chars l ++ b /\ Forall (fun c => In c chars) a /\ Forall (fun c => In c chars) b.
Proof.
  destruct (lstrip_split chars l) as (a & E & F). destruct (lstrip_split chars (rev (lstrip chars l))) as (b & E2 & F2).
  exists a, (rev b). split; [|split; auto; apply Forall_rev; auto]. unfold strip.
  rewrite <- (rev_involutive (lstrip chars l)) in E. rewrite E2, rev_app_distr in E. exact E.
Qed.
Lemma lstrip_keeps chars l : match l with [] => True | c :: _ => ~ In c chars end -> lstrip chars l = l.
Proof. destruct l as [|c l]; auto. intros N. cbn [lstrip]. apply contains_not in N. rewrite N. reflexivity. Qed.
Lemma lstrip_app chars a l : Forall (fun c => In c chars) a -> lstrip chars (a ++ l) = lstrip chars l.
Proof. induction 1 as [|c a H F IH]; auto. cbn [app lstrip]. apply contains_iff in H. rewrite H. exact IH. Qed.
Lemma strip_exact chars a m b : Forall (fun c => In c chars) a -> Forall (fun c => In c chars) b ->
  match m with [] => True | c :: _ => ~ In c chars end -> match rev m with [] => True | c :: _ => ~ In c chars end -> strip chars (a ++ m ++ b) = m.
Proof.
  intros Fa Fb H1 H2. unfold strip. rewrite lstrip_app by auto. destruct m as [|c m].
  - cbn [app]. assert (E : lstrip chars b = []).
    { clear - Fb. induction Fb as [|c b H F IH]; auto. cbn [lstrip]. apply contains_iff in H. rewrite H. exact IH. }
    rewrite E. reflexivity.
  - rewrite (lstrip_keeps chars ((c :: m) ++ b)) by exact H1. rewrite rev_app_distr, lstrip_app by (apply Forall_rev; auto). rewrite lstrip_keeps by exact H2. apply rev_involutive.
Qed.
Lemma slashes_none l : ~ In 92 l -> slashes l = 0.
Proof. induction l as [|c l IH]; auto. intros N. unfold slashes. cbn [filter]. destruct (Nat.eqb_spec 92 c) as [E|]; [exfalso; apply N; left; symmetry; exact E|]. apply IH. intros H. apply N. right; auto. Qed.
Lemma slashes_strip chars l : ~ In 92 chars -> slashes (strip chars l) = slashes l.
Proof.
  intros N. destruct (strip_split chars l) as (a & b & E & Fa & Fb). rewrite E at 2. rewrite !slashes_app.
  rewrite (slashes_none a), (slashes_none b); [lia| |]; intros H; [rewrite Forall_forall in Fb; apply N, Fb, H|rewrite Forall_forall in Fa; apply N, Fa, H].
Qed.
Lemma slashes_39 l : slashes (39 :: l ++ [39]) = slashes l.
Proof. change (slashes ([39] ++ l ++ [39]) = slashes l). rewrite !slashes_app. change (slashes [39]) with 0. lia. Qed.
Lemma slashes_98 l : slashes (98 :: l) = slashes l.
Proof. reflexivity. Qed.
(** Both names: when the bytes have a quote but no double quote, the double quotes of the literal remain. *)
Lemma quoted_double chars n : In 39 n -> ~ In 34 n -> ~ In 34 chars -> forall pre, Forall (fun c => In c chars) pre -> strip chars (pre ++ 34 :: flat_map (escape 34) n ++ [34]) <> n.
Proof.
  intros H1 H2 H3 pre Fp E. rewrite <- (app_nil_r (34 :: _)) in E. rewrite strip_exact in E; auto.
  - rewrite <- E in H2. apply H2. left; auto.
  - cbn [rev]. rewrite rev_app_distr. cbn. exact H3.
Qed.

(** A tensor's name is reported unchanged exactly when it is plain text without quotes and backslashes. *)
Theorem C89_tensor_name : forall n, tensor_name (Some n) = n <-> Forall plain n.
Proof.
  intros n. unfold tensor_name, py_str, py_bytes. cbn [skipn]. destruct (slashes_body n) as (S1 & S2 & S3).
  destruct (contains 39 n) eqn:Q1; [destruct (contains 34 n) eqn:Q2|]; cbn [andb negb].
  - split.
    + intros E. exfalso. apply contains_iff in Q1. assert (NP : ~ Forall plain n) by (intros F; rewrite Forall_forall in F; apply F in Q1; unfold plain in Q1; lia).
      apply (f_equal slashes) in E. rewrite slashes_strip in E by (cbn; intuition discriminate). rewrite slashes_39 in E. specialize (S3 NP). lia.
    + intros F. exfalso. apply contains_iff in Q1. rewrite Forall_forall in F. apply F in Q1. unfold plain in Q1. lia.
  - apply contains_iff in Q1. apply contains_not in Q2. split.
    + intros E. exfalso. apply (quoted_double [39] n Q1 Q2 ltac:(cbn; intuition discriminate) []); auto.
    + intros F. exfalso. rewrite Forall_forall in F. apply F in Q1. unfold plain in Q1. lia.
  - apply contains_not in Q1. split.
    + intros E. destruct (Forall_dec plain plain_dec n) as [F|NP]; auto. exfalso.
      apply (f_equal slashes) in E. rewrite slashes_strip in E by (cbn; intuition discriminate). rewrite slashes_39 in E. specialize (S3 NP). lia.
    + intros F. rewrite S1 by auto. change (39 :: n ++ [39]) with ([39] ++ n ++ [39]). apply strip_exact; [repeat constructor|repeat constructor| |].
      * destruct n as [|c n]; auto. intros [<-|[]]. apply Q1. left; auto.
      * destruct (rev n) as [|c l] eqn:E; auto. intros [<-|[]]. apply Q1. apply in_rev. rewrite E. left; auto.
Qed.
(** Different names are reported differently (names of bytes without a quote): the name can be read back from the report.  [unescape] is the
    reading of a Python bytes literal. *)
Definition hex_value (h : nat) : nat := if Nat.ltb h 58 then h - 48 else h - 87.
Fixpoint unescape (l : list nat) : list nat :=
  match l with
  | [] => []
  | c :: tl =>
      if Nat.eqb c 92 then
        match tl with
        | [] => []
        | e :: tl2 =>
            if Nat.eqb e 120 then match tl2 with h :: k :: tl3 => (16 * hex_value h + hex_value k) :: unescape tl3 | _ => [] end
            else if Nat.eqb e 116 then 9 :: unescape tl2 else if Nat.eqb e 110 then 10 :: unescape tl2
            else if Nat.eqb e 114 then 13 :: unescape tl2 else e :: unescape tl2
        end
      else c :: unescape tl
  end.
Lemma hex_back n : n < 16 -> hex_value (hex_digit n) = n.
Proof. intros H. do 16 (destruct n as [|n]; [reflexivity|]). lia. Qed.
Lemma unescape_escape c l : c < 256 -> unescape (escape 39 c ++ l) = c :: unescape l.
Proof.
  intros B. unfold escape. destruct (Nat.eqb_spec c 39) as [->|N1]; [reflexivity|]. destruct (Nat.eqb_spec c 92) as [->|N2]; [reflexivity|]. cbn [orb].
  destruct (Nat.eqb_spec c 9) as [->|_]; [reflexivity|]. destruct (Nat.eqb_spec c 10) as [->|_]; [reflexivity|]. destruct (Nat.eqb_spec c 13) as [->|_]; [reflexivity|].
  destruct (Nat.ltb c 32 || Nat.leb 127 c).
  - cbn [app unescape]. rewrite Nat.eqb_refl. change (Nat.eqb 120 120) with true. cbv iota. 
    rewrite !hex_back by (first [apply Nat.mod_upper_bound; lia | apply Nat.div_lt_upper_bound; lia]). f_equal. symmetry. apply Nat.div_mod. lia.
  - cbn [app unescape]. destruct (Nat.eqb_spec c 92); [contradiction|]. reflexivity.
Qed.
Lemma escape_no_quote c x : In x (escape 39 c) -> c <> 39 -> c < 256 -> x <> 39.
Proof.
  intros I1 N1 B. assert (HX : forall n, n < 16 -> hex_digit n <> 39) by (intros n H; do 16 (destruct n as [|n]; [discriminate|]); lia). unfold escape in I1.
  destruct (Nat.eqb_spec c 39); [contradiction|]. destruct (Nat.eqb_spec c 92) as [->|N2]; [cbn [orb In] in I1; intuition lia|]. cbn [orb] in I1.
  destruct (Nat.eqb c 9); [cbn [In] in I1; intuition lia|]. destruct (Nat.eqb c 10); [cbn [In] in I1; intuition lia|]. destruct (Nat.eqb c 13); [cbn [In] in I1; intuition lia|].
  destruct (Nat.ltb c 32 || Nat.leb 127 c); cbn [In] in I1.
  - destruct I1 as [<-|[<-|[<-|[<-|[]]]]]; [lia|lia| |]; apply HX; [apply Nat.div_lt_upper_bound; lia|apply Nat.mod_upper_bound; lia].
  - destruct I1 as [<-|[]]. exact N1.
Qed.
Theorem C89_names_recoverable : forall n, Forall (fun c => c < 256 /\ c <> 39) n -> unescape (tensor_name (Some n)) = n.
Proof.
  intros n F. assert (Q : ~ In 39 n) by (intros H; rewrite Forall_forall in F; destruct (F _ H); lia).
  unfold tensor_name, py_str, py_bytes. apply contains_not in Q. rewrite Q. cbn [andb skipn].
  assert (NQ : forall x, In x (flat_map (escape 39) n) -> x <> 39).
  { intros x Hx. apply in_flat_map in Hx. destruct Hx as (c & Hc & Hx). rewrite Forall_forall in F. destruct (F c Hc). eapply escape_no_quote; eauto. }
  change (39 :: flat_map (escape 39) n ++ [39]) with ([39] ++ flat_map (escape 39) n ++ [39]). rewrite strip_exact.
  - clear NQ Q. induction F as [|c n [B _] F IH]; [reflexivity|]. cbn [flat_map]. rewrite unescape_escape by exact B. rewrite IH. reflexivity.
  - constructor; [left; reflexivity|constructor].
  - constructor; [left; reflexivity|constructor].
  - destruct (flat_map (escape 39) n) as [|c l]; [exact I|]. intros [E|[]]. apply (NQ c); [left; reflexivity|auto].
  - destruct (rev (flat_map (escape 39) n)) as [|c l] eqn:R; [exact I|]. intros [E|[]]. apply (NQ c); [|auto]. apply in_rev. rewrite R. left. reflexivity.
Qed.
Corollary C89_names_distinct : forall n m, Forall (fun c => c < 256 /\ c <> 39) n -> Forall (fun c => c < 256 /\ c <> 39) m ->
  tensor_name (Some n) = tensor_name (Some m) -> n = m.
Proof. intros n m Fn Fm E. rewrite <- (C89_names_recoverable n Fn), <- (C89_names_recoverable m Fm), E. reflexivity. Qed.
(** A tensor without a name is reported like one whose name is "one". *)
Example C89_names_concrete : tensor_name (Some [7; 92; 200]) = [92; 120; 48; 55; 92; 92; 92; 120; 99; 56] /\ unescape (tensor_name (Some [7; 92; 200])) = [7; 92; 200] /\
  tensor_name None = tensor_name (Some [111; 110; 101]).
Proof. repeat split. Qed.

Theorem C89_unnamed_tensor : tensor_name None = [111; 110; 101].  (* "one" *)
Proof. reflexivity. Qed.
(** A custom operator's name loses the letters b at both ends. *)
Theorem C89_operator_name : forall n, custom_name (Some n) = n <-> Forall plain n /\ hd_error n <> Some 98 /\ hd_error (rev n) <> Some 98.
Proof.
  intros n. unfold custom_name, py_str, py_bytes. destruct (slashes_body n) as (S1 & S2 & S3).
  assert (NS : ~ In 92 [98; 39]) by (cbn; intuition discriminate).
  destruct (contains 39 n && negb (contains 34 n)) eqn:Q.
  - apply andb_true_iff in Q. destruct Q as [Q1 Q2]. apply contains_iff in Q1. apply negb_true_iff in Q2. apply contains_not in Q2. split.
    + intros E. exfalso. apply (quoted_double [98; 39] n Q1 Q2 ltac:(cbn; intuition discriminate) [98]); auto. repeat constructor.
    + intros (F & _). exfalso. rewrite Forall_forall in F. apply F in Q1. unfold plain in Q1. lia.
  - split.
    + intros E. destruct (Forall_dec plain plain_dec n) as [F|NP].
      * split; [exact F|]. rewrite S1 in E by auto. unfold strip in E. 
        change (98 :: 39 :: n ++ [39]) with ([98; 39] ++ n ++ [39]) in E. rewrite lstrip_app in E by (constructor; [left; auto|constructor; [right; left; auto|constructor]]).
        split.
        -- destruct n as [|c n]; [discriminate|]. intros [= ->]. cbn [app lstrip contains existsb Nat.eqb orb] in E.
           fold (strip [98; 39] (n ++ [39])) in E.
           pose proof (slashes_none [98; 39] NS) as _.
           assert (L : List.length (strip [98; 39] (n ++ [39])) <= List.length n).
           { replace (strip [98; 39] (n ++ [39])) with (strip [98; 39] n); [destruct (strip_split [98; 39] n) as (a & b & E' & _); rewrite E' at 2; rewrite !app_length; lia|].
             unfold strip. clear. f_equal.
             induction n as [|c n IH]; [reflexivity|]. cbn [app lstrip]. destruct (contains c [98; 39]); [exact IH|]. change (c :: n ++ [39]) with ((c :: n) ++ [39]). rewrite rev_app_distr. reflexivity. }
           rewrite E in L. cbn [List.length] in L. lia.
        -- destruct (rev n) as [|c l] eqn:R; [discriminate|]. intros [= ->]. assert (En : n = rev l ++ [98]) by (rewrite <- (rev_involutive n), R; reflexivity).
           destruct (lstrip_split [98; 39] (n ++ [39])) as (a & E1 & _).
           assert (L : exists m, lstrip [98; 39] (n ++ [39]) = m ++ [98; 39] \/ lstrip [98; 39] (n ++ [39]) = [39] \/ lstrip [98; 39] (n ++ [39]) = []).
           { clear - En. rewrite En. rewrite <- app_assoc. cbn [app]. generalize (rev l). intros k. induction k as [|c k IH]; [cbn; exists []; auto|]. cbn [app lstrip]. destruct (contains c [98; 39]); [exact IH|]. exists (c :: k). left. reflexivity. }
           destruct L as (m & [L|[L|L]]); rewrite L in E.
           ++ rewrite rev_app_distr in E. cbn [rev app lstrip contains existsb Nat.eqb orb] in E.
              destruct (lstrip_split [98; 39] (rev m)) as (a' & E3 & _). apply (f_equal (@List.length nat)) in E1, E3, E. rewrite L in E1. rewrite !app_length in *. rewrite rev_length in *. cbn [List.length] in *. lia.
           ++ cbn in E. subst n. discriminate R.
           ++ cbn in E. subst n. discriminate R.
      * exfalso. apply (f_equal slashes) in E. rewrite slashes_strip in E by exact NS. rewrite slashes_98, slashes_39 in E. specialize (S3 NP). lia.
    + intros (F & H1 & H2). rewrite S1 by auto. change (98 :: 39 :: n ++ [39]) with ([98; 39] ++ n ++ [39]).
      assert (P : forall c, In c n -> c <> 39) by (intros c Hc; rewrite Forall_forall in F; apply F in Hc; unfold plain in Hc; lia).
      apply strip_exact; [constructor; [left; auto|constructor; [right; left; auto|constructor]]|constructor; [right; left; auto|constructor]| |].
      * destruct n as [|c n]; [exact I|]. cbn in H1. intros [<-|[<-|[]]]; [congruence|]. apply (P 39); [left|]; auto.
      * destruct (rev n) as [|c l] eqn:E; [exact I|]. cbn in H2. intros [<-|[<-|[]]]; [congruence|]. apply (P 39); [|auto]. apply in_rev. rewrite E. left; auto.
Qed.
Definition codes (s : string) : list nat := map nat_of_ascii (list_ascii_of_string s).
(** The names of the compiler's operators are all reported unchanged. *)
Theorem C89_compiler_operators : forall o, custom_name (Some (codes (custom_code o))) = codes (custom_code o).
Proof. intros o. destruct o; vm_compute; reflexivity. Qed.

(** ** The details.  The dtype: the numpy type whose elements are those of the tensor, and none for any other type. *)
Theorem C89_dtypes : forall t,
  supported t = match t with INT8 => Some np_int8 | INT16 => Some np_int16 | INT32 => Some np_int32 | FLOAT32 => Some np_float32 | OTHER _ => None end.
Proof. intros []; reflexivity. Qed.
(** What a caller expects of one entry: *)
Definition describes (tensors : list tensor) (i : nat) (d : details) : Prop :=
  exists t scales zps axis, nth_error tensors i = Some t /\ tn_quant t = Some (scales, zps, axis) /\
    d_index d = i /\ d_shape d = tn_shape t /\ supported (tn_type t) = Some (d_dtype d) /\
    d_scales d = scales /\ d_zero_points d = zps /\ d_axis d = axis /\
    (forall s, hd_error scales = Some s -> fst (d_quantization d) = s) /\ (forall z, hd_error zps = Some z -> snd (d_quantization d) = z) /\
    (forall n, tn_name t = Some n -> Forall plain n -> d_name d = n).
(** ... and of which tensors something can be reported: *)
Definition reportable (tensors : list tensor) (i : nat) : Prop :=
  exists t q dt, nth_error tensors i = Some t /\ tn_quant t = Some q /\ supported (tn_type t) = Some dt.

Lemma details_ok tensors i dt d : details_of tensors i dt = Ok d -> (forall t, nth_error tensors i = Some t -> supported (tn_type t) = Some dt) -> describes tensors i d /\ reportable tensors i.
Proof.
  unfold details_of. destruct (nth_error tensors i) as [t|] eqn:T; [|discriminate]. destruct (tn_quant t) as [[[sc zp] ax]|] eqn:Qt; [|discriminate]. intros E H. specialize (H t eq_refl). split.
  - assert (D : d = Details (tensor_name (tn_name t)) i (tn_shape t) dt (nth 0 sc 0%Q, nth 0 zp 0%Z) sc zp ax) by congruence. clear E. subst d.
    exists t, sc, zp, ax. cbn. repeat (split; auto).
    + intros s E. destruct sc; cbn in *; congruence.
    + intros z E. destruct zp; cbn in *; congruence.
    + intros n N P. rewrite N. apply C89_tensor_name. exact P.
  - exists t, (sc, zp, ax), dt. auto.
Qed.
Lemma details_total tensors i t q dt : nth_error tensors i = Some t -> tn_quant t = Some q -> exists d, details_of tensors i dt = Ok d.
Proof. intros T Q. unfold details_of. rewrite T, Q. destruct q as [[sc zp] ax]. eauto. Qed.

(** The inputs are described exactly when each has one of the four types and a quantisation table, and then correctly, in order. *)
Theorem C89_input_details : forall tensors inputs,
  ((exists l, get_input_details tensors inputs = Ok l) <-> Forall (reportable tensors) inputs) /\
  (forall l, get_input_details tensors inputs = Ok l -> Forall2 (describes tensors) inputs l).
Proof.
  intros tensors inputs. induction inputs as [|i tl (I1 & I2)]; cbn [get_input_details].
  - split; [split; [constructor|eauto]|]. intros l [= <-]. constructor.
  - destruct (nth_error tensors i) as [t|] eqn:T; [|split; [split; [intros (l & E); discriminate|intros F; inversion F as [|? ? (t & ? & ? & E & _)]; congruence]|discriminate]].
    destruct (supported (tn_type t)) as [dt|] eqn:S0; [|split; [split; [intros (l & E); discriminate|intros F; inversion F as [|? ? (t' & ? & ? & E & _ & E2)]; congruence]|discriminate]].
    destruct (details_of tensors i dt) as [d| |] eqn:D.
    + assert (P : describes tensors i d /\ reportable tensors i) by (apply (details_ok tensors i dt d D); intros; congruence). destruct P as (P1 & P2).
      destruct (get_input_details tensors tl) as [l0| |] eqn:G.
      * split; [split; [intros _; constructor; auto; apply I1; eauto|eauto]|]. intros l [= <-]. constructor; auto.
      * split; [split; [intros (l & E); discriminate|]|discriminate]. intros F. inversion F; subst. destruct I1 as (_ & I1). destruct (I1 ltac:(auto)). discriminate.
      * split; [split; [intros (l & E); discriminate|]|discriminate]. intros F. inversion F; subst. destruct I1 as (_ & I1). destruct (I1 ltac:(auto)). discriminate.
    + split; [split; [intros (l & E); discriminate|]|discriminate]. intros F. inversion F as [|? ? (t' & q & ? & E & E2 & _)]; subst. destruct (details_total tensors i t' q dt E E2). congruence.
    + split; [split; [intros (l & E); discriminate|]|discriminate]. intros F. inversion F as [|? ? (t' & q & ? & E & E2 & _)]; subst. destruct (details_total tensors i t' q dt E E2). congruence.
Qed.

(** The outputs too, when all of them are reportable ... *)
Lemma outputs_ok tensors outputs : Forall (reportable tensors) outputs -> forall last, exists l, get_output_details_from last tensors outputs = Ok l /\ Forall2 (describes tensors) outputs l.
Proof.
  induction 1 as [|i tl (t & q & dt & T & Q & S0) F IH]; intros last; cbn [get_output_details_from]; [eexists; split; [reflexivity|constructor]|].
  rewrite T, S0. destruct (details_total tensors i t q dt T Q) as (d & D). rewrite D. destruct (IH (Some dt)) as (l & E & R). rewrite E. eexists. split; [reflexivity|]. constructor; auto.
  apply (details_ok tensors i dt d D). intros; congruence.
Qed.
Theorem C89_output_details_partial : forall tensors outputs, Forall (reportable tensors) outputs ->
  exists l, get_output_details tensors outputs = Ok l /\ Forall2 (describes tensors) outputs l.
Proof. intros. apply outputs_ok. auto. Qed.
(** ... but an output of any other type does not raise the TypeError an input would: it is reported with the type of the output before it. *)
Theorem C89_output_dtype_refuted : forall tensors i j t u q r dt,
  nth_error tensors i = Some t -> tn_quant t = Some q -> supported (tn_type t) = Some dt ->
  nth_error tensors j = Some u -> tn_quant u = Some r -> supported (tn_type u) = None ->
  (exists d e, get_output_details tensors [i; j] = Ok [d; e] /\ d_dtype e = dt /\ ~ describes tensors j e) /\
  get_output_details tensors [j; i] = Raise /\ get_input_details tensors [i; j] = Raise.
Proof.
  intros tensors i j t u q r dt T Qt S0 U Qu S1. destruct (details_total tensors i t q dt T Qt) as (d & D). destruct (details_total tensors j u r dt U Qu) as (e & De).
  split; [|split].
  - exists d, e. unfold get_output_details. cbn [get_output_details_from]. rewrite T, S0, D, U, S1, De. split; [reflexivity|]. split.
    + unfold details_of in De. rewrite U, Qu in De. destruct r as [[sc zp] ax]. injection De as <-. reflexivity.
    + intros (u' & sc & zp & ax & U' & _ & _ & _ & E & _). congruence.
  - unfold get_output_details. cbn [get_output_details_from]. rewrite U, S1. reflexivity.
  - cbn [get_input_details]. rewrite T, S0, D, U, S1. reflexivity.
Qed.

(** ** Which bytes are loaded *)
Definition given (o : option (list nat)) : Prop := exists c l, o = Some (c :: l).
(** A model given as bytes is used whatever the path is; a model given by path is the contents of the file; with neither, set_model refuses. *)
Theorem C89_loaded : forall file mp mc pp pc,
  (~ given mp -> ~ given mc -> loaded file mp mc pp pc = Raise) /\
  (forall m p, loaded file mp mc pp pc = Ok (m, p) ->
     (given mp \/ given mc) /\
     match mc with Some c => m = c | None => exists path, mp = Some path /\ file path = Some m end /\
     match pc with Some c => p = c | None => match pp with Some path => file path = Some p | None => p = [] end end).
Proof.
  intros file mp mc pp pc. unfold loaded. split.
  - intros N1 N2. replace (match mp with Some (_ :: _) => false | _ => true end) with true; [|destruct mp as [[|c l]|]; auto; exfalso; apply N1; unfold given; eauto].
    replace (match mc with Some (_ :: _) => false | _ => true end) with true; [reflexivity|]. destruct mc as [[|c l]|]; auto. exfalso. apply N2. unfold given; eauto.
  - intros m p. destruct (_ && _) eqn:G; [discriminate|]. intros E. split.
    + apply andb_false_iff in G. destruct G as [G|G]; [left; destruct mp as [[|c l]|]; try discriminate|right; destruct mc as [[|c l]|]; try discriminate]; unfold given; eauto.
    + destruct mc as [c|]; [|destruct mp as [path|]; [destruct (file path) as [c|] eqn:Fp; [|discriminate]|discriminate]];
        (destruct pc as [c'|]; [injection E as <- <-; eauto|destruct pp as [path'|]; [destruct (file path') as [c'|] eqn:F2; [|discriminate]|]; injection E as <- <-; eauto]).
Qed.
(** The empty string as content hides the file of the path. *)
Theorem C89_empty_content_refuted : forall file path, path <> [] -> loaded file (Some path) (Some []) None None = Ok ([], []).
Proof. intros file path N. destruct path; [contradiction|]. reflexivity. Qed.

(** A concrete model: an int8 input "in/0" with two scales, a bool output. *)
Definition two : list tensor := [Tensor (Some (codes "in/0")) INT8 [1; 4] (Some ([1 # 2; 1 # 4]%Q, [3; 4]%Z, 1%Z)); Tensor (Some (codes "it's")) (OTHER 1) [1] (Some ([], [], 0%Z))].
Example two_input : get_input_details two [0] = Ok [Details (codes "in/0") 0 [1; 4] np_int8 ((1 # 2)%Q, 3%Z) [1 # 2; 1 # 4]%Q [3; 4]%Z 1%Z].
Proof. reflexivity. Qed.
Example two_outputs : get_output_details two [0; 1] = Ok [Details (codes "in/0") 0 [1; 4] np_int8 ((1 # 2)%Q, 3%Z) [1 # 2; 1 # 4]%Q [3; 4]%Z 1%Z; Details (34 :: codes "it's" ++ [34]) 1 [1] np_int8 (0%Q, 0%Z) [] [] 0%Z].
Proof. reflexivity. Qed.
Example two_reportable : Forall (reportable two) [0].
Proof. constructor; [|constructor]. exists (nth 0 two (Tensor None INT8 [] None)). cbn. eauto. Qed.
Example names : tensor_name (Some (codes "a b")) = codes "a b" /\ custom_name (Some (codes "bab")) = codes "a" /\ Forall plain (codes "a b").
Proof. split; [reflexivity|split; [reflexivity|]]. repeat constructor; cbn; unfold plain; lia. Qed.

Print Assumptions C89_dtypes.
Print Assumptions C89_tensor_name.
Print Assumptions C89_unnamed_tensor.
Print Assumptions C89_operator_name.
Print Assumptions C89_compiler_operators.
Print Assumptions C89_input_details.
Print Assumptions C89_output_details_partial.
Print Assumptions C89_output_dtype_refuted.
Print Assumptions C89_loaded.
Print Assumptions C89_empty_content_refuted.
Print Assumptions C89_names_recoverable.
