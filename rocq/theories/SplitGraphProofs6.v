(** Every step of the pass, and the whole pass (C95). *)
From Coq Require Import Relations Permutation.
From Verif Require Import Base NdSpec ConvSpec OpSplitModel OpSplitSpec OpSplitProofs OpSplitProps SplitNetModel SplitNetSpec SplitNetProps SplitGraphModel SplitGraphSpec SplitGraphProofs SplitGraphProofs2 SplitGraphProofs3 SplitGraphProofs4 SplitGraphProofs5.
Local Open Scope Z_scope.

Section Patterns.
Context {P : Type}.
Variable dz : P.

(** ** the limits are kept *)
Definition fine (g : graph P) (n : node P) : Prop :=
  match n_op n with
  | OPad top bottom lft rgt _ => top = (top + bottom) / 2 /\ lft = (lft + rgt) / 2
  | OBin _ => forall a, In a (n_args n) -> type_of g a = n_ty n \/ g_h (type_of g a) = 1
  | _ => True
  end.
Lemma args_names (f : graph P) n a : verified f -> In n (g_body f) -> In a (n_args n) -> In a (names f).
Proof. intros VF I Ha. eapply verified_args; eauto. Qed.
Lemma keep_limits (f g : graph P) : verified f -> verified g -> agrees dz f g -> within_limits f ->
  (forall n, In n (g_body g) -> selected n -> In n (g_body f) \/ fine g n) -> within_limits g.
Proof.
  intros VF VG [_ TY] WL K n I SN. destruct (K n I SN) as [J|J]; [|exact J].
  specialize (WL n J SN). destruct (n_op n); auto. intros a Ha. rewrite TY; auto.
  - eapply args_names; eauto.
  - eapply args_names; eauto.
Qed.

Lemma mark_def (f : graph P) d x : verified f -> In d (g_body f) -> def_of f x = Some d -> def_of (mark_raised f d) x = Some (mark d).
Proof.
  intros VF ID DX. unfold mark_raised. rewrite (update_def f d (mark d)) by auto. rewrite DX. cbn [option_map]. unfold upd. cbn [mark n_dst]. rewrite Nat.eqb_refl. reflexivity.
Qed.
Lemma mark_limits (f : graph P) d : verified f -> In d (g_body f) -> within_limits f -> within_limits (mark_raised f d).
Proof. intros VF ID WL. apply (update_limits dz f d (mark d)); auto. Qed.
Lemma mark_names (f : graph P) d : verified f -> In d (g_body f) -> incl (names f) (names (mark_raised f d)).
Proof.
  intros VF ID x Hx. unfold names in *. rewrite in_app_iff in *. destruct Hx as [Hx|Hx]; [left; auto|right].
  apply in_map_iff in Hx. destruct Hx as (n & <- & I). destruct (Nat.eq_dec (n_dst n) (n_dst d)) as [->|NE].
  - change (n_dst d) with (n_dst (mark d)). apply in_map. unfold mark_raised. apply replace_news; auto. left. auto.
  - apply in_map. unfold mark_raised. apply replace_in; auto.
Qed.
Lemma mark_containing (f : graph P) s d b n x c : verified f -> In d (g_body f) -> (forall cb cn, n_op d <> OSlice cb cn) ->
  In c (containing f s b n x) -> In c (containing (mark_raised f d) s b n x).
Proof.
  intros VF ID ND I. unfold containing, users in *. apply filter_In in I. destruct I as [I K]. apply filter_In in I. destruct I as [I U].
  apply filter_In. split; [|exact K]. apply filter_In. split; [|exact U]. unfold mark_raised. apply replace_in; auto.
  intros E. assert (F1 := verified_def f c VF I). assert (F2 := verified_def f d VF ID). rewrite E, F2 in F1. injection F1 as <-.
  destruct (n_op d) as [ | | |cb cn| | | | | | ]; try discriminate. apply (ND cb cn). auto.
Qed.
Lemma slice_not_op (f : graph P) s d x b n : verified f -> In s (g_body f) -> n_op s = OSlice b n -> n_args s = [x] -> def_of f x = Some d -> n_dst s <> n_dst d.
Proof.
  intros VF IS OS AS DX E. destruct (def_of_in f x d DX) as [ID ED].
  assert (LT : (pos (g_body f) (n_dst d) < pos (g_body f) (n_dst s))%nat) by (apply before; auto; rewrite AS, ED; left; auto). rewrite E in LT. lia.
Qed.

Lemma news_limits (f g : graph P) x news : verified f -> verified g -> agrees dz f g -> within_limits f -> g = replace f x news ->
  (forall n, In n news -> selected n -> fine g n) -> within_limits g.
Proof.
  intros VF VG AG WL -> K. apply (keep_limits f); auto. intros n I SN. apply in_replace in I. destruct I as [[I _]|I]; auto.
Qed.

Lemma conv_step f s d b n x : verified f -> within_limits f -> In s (g_body f) -> n_op s = OSlice b n -> n_args s = [x] -> def_of f x = Some d ->
  (exists same fh fw sH sW G z, n_op d = OConv same fh fw sH sW G z) ->
  verified (raise_over_conv (mark_raised f d) s (mark d) b n) ->
  agrees dz f (raise_over_conv (mark_raised f d) s (mark d) b n) /\ within_limits (raise_over_conv (mark_raised f d) s (mark d) b n).
Proof.
  intros VF WL IS OS AS DX OD VG. assert (AG := raise_conv_same dz f s d b n x VF IS OS AS DX OD VG). split; [exact AG|].
  destruct (def_of_in f x d DX) as [ID ED]. apply (keep_limits f); auto. intros m I SM. destruct OD as (same & fh & fw & sH & sW & G & z & OD).
  assert (MR : forall n0, In n0 (g_body (mark_raised f d)) -> In n0 (g_body f) \/ fine (raise_over_conv (mark_raised f d) s (mark d) b n) n0).
  { intros n0 J. unfold mark_raised in J. apply in_replace in J. destruct J as [[J _]|[<-|[]]]; [auto|]. right. unfold fine. cbn [mark n_op]. rewrite OD. auto. }
  unfold raise_over_conv in I. cbn [mark n_op n_args] in I. rewrite OD in I. destruct (n_args d) as [|a [|]] eqn:AD; auto.
  destruct (r_pad _) as [[[[pt pb] pl] pr]|].
  - apply in_replace in I. destruct I as [[I _]|[<-|[<-|[<-|[]]]]]; auto; try (right; exact I); right; unfold fine; cbn [n_op]; auto.
    destruct SM as [SM|SM]; discriminate.
  - apply in_replace in I. destruct I as [[I _]|[<-|[<-|[]]]]; auto; right; unfold fine; cbn [n_op]; auto.
Qed.

Lemma pad_step f s d b n x : verified f -> within_limits f -> n_label d = true ->
  In s (g_body f) -> n_op s = OSlice b n -> n_args s = [x] -> def_of f x = Some d ->
  (exists top bottom lft rgt z, n_op d = OPad top bottom lft rgt z) ->
  verified (raise_over_pad f s d b n) -> agrees dz f (raise_over_pad f s d b n) /\ within_limits (raise_over_pad f s d b n).
Proof.
  intros VF WL LD IS OS AS DX OD VG. assert (AG := raise_pad_same dz f s d b n x VF WL LD IS OS AS DX OD VG). split; [exact AG|].
  apply (keep_limits f); auto. intros m I SM. destruct OD as (top & bottom & lft & rgt & z & OD). unfold raise_over_pad in I. rewrite OD in I.
  destruct (n_args d) as [|a [|]]; auto. apply in_replace in I. destruct I as [[I _]|[<-|[<-|[]]]]; auto; right; unfold fine; cbn [n_op]; auto.
  destruct SM as [SM|SM]; discriminate.
Qed.

Lemma combine_step f s c b n x : verified f -> within_limits f -> In s (g_body f) -> n_op s = OSlice b n -> n_args s = [x] ->
  In c (containing f s b n x) -> verified (combine_with f s b n c) ->
  agrees dz f (combine_with f s b n c) /\ within_limits (combine_with f s b n c).
Proof.
  intros VF WL IS OS AS IC VG. assert (AG := combine_same dz f s c b n x VF IS OS AS IC VG). split; [exact AG|].
  unfold containing, users in IC. apply filter_In in IC. destruct IC as [IC KC]. apply filter_In in IC. destruct IC as [IC UX].
  unfold combine_with in *. destruct (n_op c) as [ | | |cb cn| | | | | | ] eqn:OC; try discriminate.
  destruct ((b =? cb) && (n =? cn)) eqn:EQ.
  - intros m I SM. assert (VM : In m (g_body (forward f (n_dst s) (n_dst c)))) by exact I. unfold forward in I. cbn [g_body] in I. apply in_map_iff in I. destruct I as (m0 & <- & I). apply in_replace in I. destruct I as [[I NE]|[]].
    cbn [n_op n_args n_ty]. assert (SM0 : selected m0) by exact SM. specialize (WL m0 I SM0). destruct (n_op m0) eqn:OM; auto.
    intros a Ha. apply in_map_iff in Ha. destruct Ha as (a0 & <- & Ha0). destruct AG as [_ TY].
    assert (NG : In (rename_to (n_dst s) (n_dst c) a0) (names (forward f (n_dst s) (n_dst c)))).
    { eapply args_names; [exact VG|exact VM|]. cbn [n_args]. apply in_map. auto. }
    unfold rename_to in *. destruct (Nat.eqb_spec a0 (n_dst s)) as [->|NA].
    + rewrite TY by (auto using names_node). specialize (WL (n_dst s) Ha0). rewrite !verified_type in * by auto.
      assert (TS : types_check (n_op s) (map (type_of f) (n_args s)) (n_ty s)) by (apply VF; auto).
      assert (TC : types_check (n_op c) (map (type_of f) (n_args c)) (n_ty c)) by (apply VF; auto).
      rewrite OS, AS in TS. cbn [map] in TS. destruct TS as (S1 & S2 & u & E & S3 & S4 & S5 & S6). injection E as <-.
      rewrite OC in TC. destruct TC as (C1 & C2 & u & E & C3 & C4 & C5 & C6). apply map1 in E. destruct E as (x' & AC & <-).
      assert (x' = x). { rewrite AC in UX. cbn [existsb] in UX. rewrite orb_false_r in UX. apply Nat.eqb_eq in UX. congruence. } subst x'.
      apply andb_true_iff in EQ. destruct EQ as [E1 E2]. apply Z.eqb_eq in E1, E2. subst. rewrite C6, <- S6. exact WL.
    + rewrite TY; auto. eapply args_names; eauto.
  - apply (news_limits f _ (n_dst s) [Node (n_dst s) (OSlice (b - cb) n) [n_dst c] (n_ty s) false false None]); auto.
    intros m [<-|[]] [SM|SM]; discriminate.
Qed.

Lemma split_step (z : P) f d g : verified f -> within_limits f -> In d (g_body f) -> split_node z f d = Rewritten g -> verified g -> agrees dz f g /\ within_limits g.
Proof.
  intros VF WL ID E VG. assert (AG := split_same dz z f d g VF ID E VG). split; [exact AG|].
  unfold split_node in E. destruct (n_start d && negb (n_label d) && is_split_op (n_op d)) eqn:CK; [|discriminate].
  destruct (n_num d) as [num|] eqn:NUM; [|discriminate]. destruct (op_split (g_h (n_ty d)) (Z.to_nat num)) as [bands|] eqn:OSP; [|discriminate].
  injection E as E. rewrite !andb_true_iff in CK. destruct CK as [[SD _] _].
  eapply (news_limits f g (n_dst d)); eauto. intros m I SM. destruct I as [<-|I].
  - assert (W := WL d ID (or_intror SD)). unfold fine. cbn [n_op n_args n_ty]. destruct (n_op d) eqn:OD; auto.
    intros a Ha. destruct AG as [_ TY]. rewrite TY; auto.
    + eapply args_names; eauto.
    + assert (IC : In (Node (fresh f 0) (n_op d) (n_args d) (n_ty d) true (n_start d) (Some num)) (g_body g)).
      { rewrite <- E, OD. apply replace_news; auto. left. reflexivity. }
      eapply args_names; [exact VG|exact IC|exact Ha].
  - apply in_app_or in I. destruct I as [I|[<-|[]]]; [|destruct SM as [SM|SM]; discriminate].
    unfold slice_nodes in I. apply in_map_iff in I. destruct I as (p & <- & _). exact (Logic.I).
Qed.

Lemma fake_step (z : P) f k g : verified f -> within_limits f -> In k (g_body f) -> mean_covered f k -> rewrite_fake z f k = Rewritten g -> verified g ->
  agrees dz f g /\ within_limits g.
Proof.
  intros VF WL IK MC E VG. assert (AG := fake_same dz z f k g VF IK MC E VG). split; [exact AG|].
  unfold rewrite_fake in E. destruct (n_op k) as [ | | | | |bands| | | | ] eqn:OK; try discriminate.
  destruct (n_args k) as [|a [|]] eqn:AK; try discriminate. destruct (def_of f a) as [d|] eqn:DA; [|discriminate].
  destruct (def_of_in f a d DA) as [ID ED].
  destruct (n_op d) as [ | | | | | |m|u| | ] eqn:OD; try discriminate.
  - destruct (n_args d) as [|a' [|]] eqn:AD; try discriminate. unfold raise_to_means in E. destruct bands as [|[b0 t0] tl] eqn:EB; [discriminate|].
    destruct (n_label d && forallb (fun p => type_eqb (snd p) t0) tl); [|discriminate]. match type of E with Rewritten ?h = _ => assert (EE : h = g) by (exact (f_equal (fun q => match q with Rewritten w => w | _ => f end) E)) end. symmetry in EE. eapply (news_limits f g (n_dst k)); eauto.
    intros nd I SM. apply in_app_or in I. destruct I as [I|[<-|[<-|[]]]]; [|exact Logic.I|exact Logic.I].
    unfold mean_nodes in I. apply in_flat_map in I. destruct I as (p & _ & [<-|[<-|[]]]); exact Logic.I.
  - destruct (n_args d) as [|a' [|]] eqn:AD; try discriminate. destruct (n_num d) as [num|]; [|discriminate]. destruct (_ && _); [|discriminate]. injection E as E.
    eapply (news_limits f g (n_dst k)); eauto. intros nd [<-|[<-|[]]] SM; exact Logic.I.
  - injection E as E. intros m I SM. rewrite <- E in I. assert (VM : In m (g_body (forward f (n_dst k) a))) by exact I. unfold forward in I. cbn [g_body] in I. apply in_map_iff in I. destruct I as (m0 & <- & I). apply in_replace in I. destruct I as [[I NE]|[]].
    cbn [n_op n_args n_ty]. assert (SM0 : selected m0) by exact SM. specialize (WL m0 I SM0). destruct (n_op m0) eqn:OM; auto.
    intros y Hy. apply in_map_iff in Hy. destruct Hy as (a0 & <- & Ha0). destruct AG as [_ TY].
    assert (NG : In (rename_to (n_dst k) a a0) (names g)).
    { rewrite E in VM. eapply args_names; [exact VG|exact VM|]. cbn [n_args]. apply in_map. auto. }
    unfold rename_to in *. destruct (Nat.eqb_spec a0 (n_dst k)) as [->|NA].
    + assert (NF : In a (names f)) by (eapply args_names; [exact VF|exact IK|]; rewrite AK; left; auto).
      rewrite TY by auto. specialize (WL (n_dst k) Ha0). rewrite (verified_type f k) in WL by auto.
      assert (TK : types_check (n_op k) (map (type_of f) (n_args k)) (n_ty k)) by (apply VF; auto). rewrite OK, AK in TK. cbn [map] in TK. destruct TK as (_ & _ & TK). injection TK as TK. rewrite TK. exact WL.
    + rewrite TY; auto. eapply args_names; eauto.
Qed.
Lemma type_cases (g : graph P) x : verified g -> In x (names g) ->
  In x (map fst (g_params g)) \/ exists m, In m (g_body g) /\ n_dst m = x /\ type_of g x = n_ty m.
Proof.
  intros VG I. unfold names in I. apply in_app_or in I. destruct I as [I|I]; [left; auto|right]. apply in_map_iff in I. destruct I as (m & <- & Im).
  exists m. rewrite verified_type by auto. auto.
Qed.
Lemma bin_step f s d b n x op a1 a2 g : verified f -> within_limits f -> n_label d = true -> In s (g_body f) -> n_op s = OSlice b n -> n_args s = [x] ->
  def_of f x = Some d -> n_op d = OBin op -> n_args d = [a1; a2] -> raise_over_bin f s d b n = Rewritten g -> verified g -> agrees dz f g /\ within_limits g.
Proof.
  intros VF WL LD IS OS AS DX OD EA E VG. assert (AG := raise_bin_same dz f s d b n x op a1 a2 VF WL LD IS OS AS DX OD EA g E VG). split; [exact AG|].
  destruct (bin_facts f s d b n x op a1 a2 VF WL LD IS OS AS DX OD EA) as (ID & ED & B1 & B2 & B3 & TS & N1 & N2 & DS) || destruct (bin_facts f s d b n x a1 a2) as (ID & ED & B1 & B2 & B3 & TS & N1 & N2 & DS); auto.
  assert (TL : forall a, In a [a1; a2] -> same_type (type_of f a) (n_ty d) = false -> g_h (type_of f a) = 1).
  { intros a I ST. specialize (WL d ID (or_introl LD)). rewrite OD, EA in WL. destruct (WL a I) as [Q|Q]; [|auto].
    exfalso. rewrite Q in ST. unfold same_type in ST. rewrite !Z.eqb_refl in ST. discriminate. }
  set (okt := fun t => if same_type (type_of f a2) (n_ty d) then t = n_ty s else g_h t = 1).
  assert (FIN : g_params g = g_params f ->
    (forall m, In m (g_body g) -> In m (g_body f) \/ In (n_dst m) (names f) \/ (n_dst m = fresh f 0 /\ n_ty m = n_ty s) \/ (n_dst m = fresh f 1 /\ okt (n_ty m))) ->
    (forall m, In m (g_body g) -> In m (g_body f) \/ (forall q, n_op m <> OBin q /\ forall a b c d z, n_op m <> OPad a b c d z) \/
       (n_op m = OBin op /\ n_ty m = n_ty d /\ n_args m = [a1; fresh f 1] /\ same_type (type_of f a2) (n_ty d) = false) \/
       (n_op m = OBin op /\ n_ty m = n_ty s /\ forall a, In a (n_args m) -> a = fresh f 0 \/ a = fresh f 1 \/ (In a [a1; a2] /\ same_type (type_of f a) (n_ty d) = false))) -> within_limits g).
  { intros GP K1 K2. destruct AG as [SR TY].
    assert (T0 : In (fresh f 0) (names g) -> type_of g (fresh f 0) = n_ty s).
    { intros I. destruct (type_cases g _ VG I) as [J|(m & Im & Em & ->)].
      - exfalso. rewrite GP in J. apply (fresh_new f 0). unfold names. apply in_or_app. auto.
      - destruct (K1 m Im) as [Q|[Q|[[_ Q]|[Q _]]]]; auto; exfalso.
        + apply (fresh_new f 0). rewrite <- Em. apply names_node; auto.
        + apply (fresh_new f 0). rewrite <- Em. auto.
        + rewrite Em in Q. apply fresh_inj in Q. discriminate. }
    assert (T1 : In (fresh f 1) (names g) -> okt (type_of g (fresh f 1))).
    { intros I. destruct (type_cases g _ VG I) as [J|(m & Im & Em & ->)].
      - exfalso. rewrite GP in J. apply (fresh_new f 1). unfold names. apply in_or_app. auto.
      - destruct (K1 m Im) as [Q|[Q|[[Q _]|[_ Q]]]]; auto; exfalso.
        + apply (fresh_new f 1). rewrite <- Em. apply names_node; auto.
        + apply (fresh_new f 1). rewrite <- Em. auto.
        + rewrite Em in Q. apply fresh_inj in Q. discriminate. }
    apply (keep_limits f); auto; [split; auto|]. intros m Im SM. destruct (K2 m Im) as [Q|[Q|[(Q1 & Q2 & Q3 & Q4)|(Q1 & Q2 & Q3)]]]; [auto|right|right|right].
    - unfold fine. destruct (n_op m) as [|top bottom lft rgt z|q| | | | | | | ] eqn:OM; auto; exfalso.
      + destruct (Q op) as [_ Q']. apply (Q' top bottom lft rgt z). reflexivity.
      + destruct (Q q) as [Q' _]. apply Q'. reflexivity.
    - unfold fine. rewrite Q1. intros a Ha. assert (NA := args_names g m a VG Im Ha). rewrite Q3 in Ha. destruct Ha as [<-|[<-|[]]].
      + rewrite TY by auto. rewrite Q2. specialize (WL d ID (or_introl LD)). rewrite OD in WL. apply WL. rewrite EA. left. auto.
      + right. specialize (T1 NA). unfold okt in T1. rewrite Q4 in T1. exact T1.
    - unfold fine. rewrite Q1. intros a Ha. assert (NA := args_names g m a VG Im Ha). rewrite Q2. destruct (Q3 a Ha) as [->|[->|[I ST]]].
      + auto.
      + specialize (T1 NA). unfold okt in T1. destruct (same_type (type_of f a2) (n_ty d)); auto.
      + right. rewrite TY; auto. destruct I as [<-|[<-|[]]]; auto. }
  assert (ND : In (n_dst s) (names f)) by (apply names_node; auto). assert (NDd : In (n_dst d) (names f)) by (apply names_node; auto).
  assert (RIGHT : forall h pre1 x1, g_params h = g_params f -> (forall a, type_of h a = type_of f a) ->
      (forall m, In m (g_body h) -> In m (g_body f) \/ (In (n_dst m) (names f) /\ exists bb, n_op m = OFake bb)) ->
      (forall m, In m pre1 -> n_dst m = fresh f 0 /\ n_ty m = n_ty s /\ exists bb nn, n_op m = OSlice bb nn) ->
      (x1 = fresh f 0 \/ (x1 = a1 /\ same_type (type_of f a1) (n_ty d) = false)) ->
      match operand h d a2 with
        | KSlice => Rewritten (replace h (n_dst s) ((pre1 ++ [slice_of s (fresh f 1) b n a2]) ++ [Node (n_dst s) (OBin op) [x1; fresh f 1] (n_ty s) (n_label d) (n_start d) (n_num d)]))
        | KFake k bands => Rewritten (replace (replace h (n_dst k) [more_bands k bands b (n_ty s)]) (n_dst s) (pre1 ++ [Node (n_dst s) (OBin op) [x1; a2] (n_ty s) (n_label d) (n_start d) (n_num d)]))
        | KNew => Rewritten (replace (replace h (n_dst d) [Node (fresh f 1) (OFake [(b, n_ty s)]) [a2] (type_of f a2) false false None; with_args d [a1; fresh f 1]]) (n_dst s)
                    (pre1 ++ [Node (n_dst s) (OBin op) [x1; fresh f 1] (n_ty s) (n_label d) (n_start d) (n_num d)]))
        end = Rewritten g -> within_limits g).
  { intros h pre1 x1 HP HT HB HP1 HX EG.
    assert (B1' : forall m, In m (g_body h) -> In m (g_body f) \/ In (n_dst m) (names f)) by (intros m Hm; destruct (HB m Hm) as [Q|[Q _]]; auto).
    assert (B2' : forall m, In m (g_body h) -> In m (g_body f) \/ (forall q, n_op m <> OBin q /\ forall a b c d z, n_op m <> OPad a b c d z)).
    { intros m Hm. destruct (HB m Hm) as [Q|[_ (bb & Q)]]; auto. right. rewrite Q. split; intros; discriminate. }
    assert (P2 : forall m, In m pre1 -> forall q, n_op m <> OBin q /\ forall a b c d z, n_op m <> OPad a b c d z).
    { intros m Hm q. destruct (HP1 m Hm) as (_ & _ & bb & nn & ->). split; intros; discriminate. }
    unfold operand in EG. rewrite HT in EG. destruct (same_type (type_of f a2) (n_ty d)) eqn:ST.
    - injection EG as EG. apply FIN; [rewrite <- EG; exact HP| |].
      + intros m Im. rewrite <- EG in Im. apply in_replace in Im. destruct Im as [[Im _]|Im]; [destruct (B1' m Im); auto|].
        rewrite <- app_assoc in Im. apply in_app_or in Im. destruct Im as [Im|[<-|[<-|[]]]].
        * destruct (HP1 m Im) as (Q1 & Q2 & _). auto.
        * right. right. right. split; [reflexivity|]. unfold okt. try rewrite ST. reflexivity.
        * right. left. exact ND.
      + intros m Im. rewrite <- EG in Im. apply in_replace in Im. destruct Im as [[Im _]|Im]; [destruct (B2' m Im); auto|].
        rewrite <- app_assoc in Im. apply in_app_or in Im. destruct Im as [Im|[<-|[<-|[]]]].
        * right. left. auto.
        * right. left. split; intros; discriminate.
        * right. right. right. split; [reflexivity|]. split; [reflexivity|]. cbn [n_args]. intros a [<-|[<-|[]]]; [|auto]. destruct HX as [->|[-> ?]]; [auto|]. right. right. split; [left; auto|auto].
    - assert (KN : Rewritten (replace (replace h (n_dst d) [Node (fresh f 1) (OFake [(b, n_ty s)]) [a2] (type_of f a2) false false None; with_args d [a1; fresh f 1]]) (n_dst s)
                    (pre1 ++ [Node (n_dst s) (OBin op) [x1; fresh f 1] (n_ty s) (n_label d) (n_start d) (n_num d)])) = Rewritten g -> within_limits g).
      { intros E'. injection E' as E'. apply FIN; [rewrite <- E'; exact HP| |].
        + intros m Im. rewrite <- E' in Im. apply in_replace in Im. destruct Im as [[Im _]|Im].
          * apply in_replace in Im. destruct Im as [[Im _]|[<-|[<-|[]]]]; [destruct (B1' m Im); auto| |].
            -- right. right. right. split; [reflexivity|]. unfold okt. try rewrite ST. cbn [n_ty]. apply TL; [right; left; auto|auto].
            -- right. left. exact NDd.
          * apply in_app_or in Im. destruct Im as [Im|[<-|[]]]; [destruct (HP1 m Im) as (Q1 & Q2 & _); auto|]. right. left. exact ND.
        + intros m Im. rewrite <- E' in Im. apply in_replace in Im. destruct Im as [[Im _]|Im].
          * apply in_replace in Im. destruct Im as [[Im _]|[<-|[<-|[]]]]; [destruct (B2' m Im); auto| |].
            -- right. left. split; intros; discriminate.
            -- right. right. left. cbn [with_args n_op n_ty n_args]. auto.
          * apply in_app_or in Im. destruct Im as [Im|[<-|[]]]; [right; left; auto|].
            right. right. right. split; [reflexivity|]. split; [reflexivity|]. cbn [n_args]. intros a [<-|[<-|[]]]; [|auto]. destruct HX as [->|[-> ?]]; [auto|]. right. right. split; [left; auto|auto]. }
      destruct (def_of h a2) as [k|] eqn:DK; [|auto]. destruct (n_op k) as [ | | | | |bands| | | | ] eqn:OK; auto.
      injection EG as EG. destruct (def_of_in h a2 k DK) as [IK EK]. apply FIN; [rewrite <- EG; exact HP| |].
      + intros m Im. rewrite <- EG in Im. apply in_replace in Im. destruct Im as [[Im _]|Im].
        * apply in_replace in Im. destruct Im as [[Im _]|[<-|[]]]; [destruct (B1' m Im); auto|]. right. left. cbn [more_bands n_dst]. rewrite EK. auto.
        * apply in_app_or in Im. destruct Im as [Im|[<-|[]]]; [destruct (HP1 m Im) as (Q1 & Q2 & _); auto|]. right. left. exact ND.
      + intros m Im. rewrite <- EG in Im. apply in_replace in Im. destruct Im as [[Im _]|Im].
        * apply in_replace in Im. destruct Im as [[Im _]|[<-|[]]]; [destruct (B2' m Im); auto|]. right. left. split; intros; discriminate.
        * apply in_app_or in Im. destruct Im as [Im|[<-|[]]]; [right; left; auto|].
          right. right. right. split; [reflexivity|]. split; [reflexivity|]. cbn [n_args]. intros a [<-|[<-|[]]].
          -- destruct HX as [->|[-> ?]]; [auto|]. right. right. split; [left; auto|auto].
          -- right. right. split; [right; left; auto|auto]. }
  unfold raise_over_bin in E. rewrite OD, EA in E. unfold operand at 1 in E. destruct (same_type (type_of f a1) (n_ty d)) eqn:ST.
  - apply (RIGHT f [slice_of s (fresh f 0) b n a1] (fresh f 0)); auto.
    intros m [<-|[]]. split; [reflexivity|]. split; [reflexivity|]. exists b, n. reflexivity.
  - destruct (def_of f a1) as [k|] eqn:DK; [|discriminate]. destruct (n_op k) as [ | | | | |bands| | | | ] eqn:OK; try discriminate.
    destruct (def_of_in f a1 k DK) as [IK EK].
    apply (RIGHT (replace f (n_dst k) [more_bands k bands b (n_ty s)]) [] a1); auto.
    + intros a. apply (update_type f k (more_bands k bands b (n_ty s))); auto.
    + intros m Hm. apply in_replace in Hm. destruct Hm as [[Hm _]|[<-|[]]]; [auto|]. right. cbn [more_bands n_dst n_op]. split; [apply names_node; auto|eauto].
    + intros m [].
Qed.

(** ** a step of the pass *)
Lemma slice_step f g s pick : verified f -> within_limits f -> In s (g_body f) -> rewrite_slice f s pick = Rewritten g -> verified g ->
  agrees dz f g /\ within_limits g.
Proof.
  intros VF WL IS E VG.
  unfold rewrite_slice in E. destruct (n_op s) as [ | | |b n| | | | | | ] eqn:OS; try discriminate. destruct (n_args s) as [|x [|]] eqn:AS; try discriminate.
  destruct (def_of f x) as [d|] eqn:DX; [|discriminate]. destruct (def_of_in f x d DX) as [ID ED].
  assert (NE := slice_not_op f s d x b n VF IS OS AS DX).
  assert (IS1 : In s (g_body (mark_raised f d))) by (unfold mark_raised; apply replace_in; auto).
  assert (VM := mark_verified f d VF ID). assert (LM := mark_limits f d VF ID WL). assert (DM := mark_def f d x VF ID DX).
  assert (VIA : agrees dz (mark_raised f d) g /\ within_limits g -> agrees dz f g /\ within_limits g).
  { intros [A B]. split; [|exact B]. eapply agrees_trans; [apply mark_names; eauto|apply mark_same; auto|exact A]. }
  assert (COMB : forall cands, (forall cb cn, n_op d <> OSlice cb cn) -> containing f s b n x = cands -> match nth_error cands pick with Some c => Rewritten (combine_with (mark_raised f d) s b n c) | None => NoMatch end = Rewritten g ->
     agrees dz f g /\ within_limits g).
  { intros cands ND EC EE. destruct (nth_error cands pick) as [c|] eqn:NT; [|discriminate]. injection EE as <-. apply VIA. apply (combine_step _ s c b n x); auto.
    apply mark_containing; auto. rewrite EC. eapply nth_error_In; eauto. }
  destruct (n_op d) as [same fh fw sH sW G z0|top bottom lft rgt z0|op| | | | | | | ] eqn:OD; try discriminate.
  - destruct (is_raisable f s d) eqn:RS; [|discriminate]. destruct (containing f s b n x) as [|c0 cs] eqn:CT; [|apply (COMB (c0 :: cs)); auto; discriminate].
    injection E as <-. apply (conv_step f s d b n x); auto. rewrite OD. repeat eexists.
  - destruct (n_label s && n_label d) eqn:LL; [|discriminate]. injection E as <-. apply andb_true_iff in LL. destruct LL as [_ LD].
    apply (pad_step f s d b n x); auto. rewrite OD. repeat eexists.
  - destruct (is_raisable f s d) eqn:RS; [|discriminate]. destruct (containing f s b n x) as [|c0 cs] eqn:CT; [|apply (COMB (c0 :: cs)); auto; discriminate].
    unfold is_raisable in RS. rewrite !andb_true_iff in RS. destruct RS as [[[[_ LD] _] _] _].
    assert (TD : types_check (n_op d) (map (type_of f) (n_args d)) (n_ty d)) by (apply VF; auto). rewrite OD in TD.
    destruct TD as (_ & _ & t1 & t2 & EA & _). apply map2 in EA. destruct EA as (a1 & a2 & EA & _ & _).
    apply VIA. apply (bin_step (mark_raised f d) s (mark d) b n x op a1 a2); auto.
Qed.

Lemma dead_step f x : verified f -> within_limits f -> verified (replace f x []) -> agrees dz f (replace f x []) /\ within_limits (replace f x []).
Proof.
  intros VF WL VG. assert (AG := erase_same dz f x VF VG). split; [exact AG|]. eapply (news_limits f _ x []); eauto. intros n [].
Qed.
Lemma step_same (z : P) f g : verified f -> within_limits f -> split_phase z f g \/ raise_phase z f g -> verified g ->
  (forall k, In k (g_body f) -> rewrite_fake z f k = Rewritten g -> mean_covered f k) -> agrees dz f g /\ within_limits g.
Proof.
  intros VF WL ST VG MC. destruct ST as [ST|ST]; inversion ST; subst; eauto using split_step, fake_step, slice_step, dead_step.
Qed.

Lemma run_same (z : P) f g : pass_run z f g -> verified f -> within_limits f -> verified g /\ same_results dz f g.
Proof.
  induction 1 as [f|f g h ST VG MC RUN IH]; intros VF WL; [split; auto; apply same_results_refl|].
  destruct (step_same z f g VF WL ST VG MC) as [[AG _] WG]. destruct (IH VG WG) as [VH SH]. split; auto. eapply same_results_trans; eauto.
Qed.
End Patterns.
