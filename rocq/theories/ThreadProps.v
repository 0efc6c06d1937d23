(** Properties C09-C11: work split among threads.
    Model: ThreadModel (ThreadSupport.cpp).  Vocabulary: ThreadSpec. *)
From Verif Require Import Base ThreadModel ThreadSpec ThreadProofs.
Local Open Scope Z_scope.

(** ** C09: with unit output stride (every operator but transpose convolution)
    every output pixel is in exactly one region, and no region leaves the image.
    [ds] is lib_nn's channel split, used only for 1x1 images. *)
Theorem C09_regions_tile_image ds numThreads H W D :
  (0 < numThreads)%nat -> 1 <= H -> 1 <= W -> consecutive 0 ds D ->
  exists rs, get_image_region_thread_splits ds numThreads H W D 0 0 1 1 = Some rs /\
    (forall y x c, in_image H W D y x c -> exactly_one rs y x c) /\
    (forall r y x c, In r rs -> in_region r y x c -> in_image H W D y x c).
Proof.
  intros Hn HH HW Hds.
  assert (M : forall X, X mod 1 = 0 \/ Z.odd X = true) by (intros X; left; apply Z.mod_1_r).
  destruct (grid_tiling ds numThreads H W D 0 0 1 1 Hn ltac:(lia) ltac:(lia) ltac:(lia) ltac:(lia)
              (M H) (M W) Hds) as (rs & E & T1 & T2).
  - exists rs. split; auto. 
    assert (G : forall y, 0 <= y -> on_grid 0 1 y) by (intros y Hy; exists y; lia).
    split.
    + intros y x c I. pose proof I as (I1 & I2 & I3). apply T1; auto; apply G; lia.
    + intros r y x c Hr Hin.
      assert (Hy : 0 <= y /\ 0 <= x).
      { (* starts are not negative *)
        unfold get_image_region_thread_splits in E. destruct (_ && _).
        - injection E as <-. apply in_map_iff in Hr. destruct Hr as (p & <- & Hp).
          unfold in_region in Hin. cbn in Hin. lia.
        - cbv zeta in E. rewrite !Z.div_1_r in E.
          destruct (choose_height _ _ _).
          + destruct (chosen_splits H 1 numThreads ltac:(lia) Hn) as (us & splits & X1 & X2 & X3 & X4 & X5 & X6 & X7).
            rewrite Z.div_1_r in X6. rewrite X6 in E. injection E as <-.
            apply in_map_iff in Hr. destruct Hr as (p & <- & Hp). apply In_nth_error in Hp. destruct Hp as [i Hi].
            destruct (lay_out_spec H 1 0 ltac:(lia) ltac:(lia) (or_introl (Z.mod_1_r H)) us 0 splits X3 X4
                        ltac:(lia) ltac:(lia) X7) as (_ & _ & L3).
            destruct (L3 i p Hi). unfold in_region in Hin. cbn in Hin. lia.
          + destruct (chosen_splits W 1 numThreads ltac:(lia) Hn) as (us & splits & X1 & X2 & X3 & X4 & X5 & X6 & X7).
            rewrite Z.div_1_r in X6. rewrite X6 in E. injection E as <-.
            apply in_map_iff in Hr. destruct Hr as (p & <- & Hp). apply In_nth_error in Hp. destruct Hp as [i Hi].
            destruct (lay_out_spec W 1 0 ltac:(lia) ltac:(lia) (or_introl (Z.mod_1_r W)) us 0 splits X3 X4
                        ltac:(lia) ltac:(lia) X7) as (_ & _ & L3).
            destruct (L3 i p Hi). unfold in_region in Hin. cbn in Hin. lia. }
      apply In_nth_error in Hr. destruct Hr as [i Hi]. apply (T2 i r y x c Hi); auto; apply G; lia.
Qed.

(** ** C10: at most [numThreads] regions, none empty, sizes along the split
    dimension differing by at most one. *)
Theorem C10_split_balanced ds numThreads H W D rs :
  (0 < numThreads)%nat -> 1 <= H -> 1 <= W -> 1 <= D ->
  (length ds <= numThreads)%nat -> consecutive 0 ds D ->
  get_image_region_thread_splits ds numThreads H W D 0 0 1 1 = Some rs ->
  (length rs <= numThreads)%nat /\
  (forall r, In r rs -> 1 <= r_rows r /\ 1 <= r_cols r /\ 1 <= r_chs r) /\
  (forall r r', In r rs -> In r' rs -> r_rows r <= r_rows r' + 1 /\ r_cols r <= r_cols r' + 1).
Proof. intros H1 H2 H3 H4 H5 H6 H7. exact (unit_balance ds numThreads H W D rs H1 H2 H3 H4 H5 H6 H7). Qed.

(** When a dimension of the image is a multiple of the number of threads, the split is even: all the requested threads are used and each
    computes the same number of pixels. *)
Lemma dim_splits_even i : forall q, 0 < q -> dim_splits i (q * Z.of_nat i) 1 = repeat q i.
Proof.
  induction i as [|i IH]; intros q Hq; cbn [dim_splits repeat]; auto. cbv zeta.
  assert (E : ceil_div (q * Z.of_nat (S i)) (Z.of_nat (S i)) = q).
  { unfold ceil_div. replace (- (q * Z.of_nat (S i))) with ((- q) * Z.of_nat (S i)) by ring. rewrite Z.div_mul by lia. ring. }
  rewrite E. replace (q >? 0) with true by lia. rewrite Z.mul_1_r. f_equal. replace (q * Z.of_nat (S i) - q) with (q * Z.of_nat i) by lia. auto.
Qed.
Theorem C10_even_when_divisible ds numThreads H W D rs :
  (0 < numThreads)%nat -> 1 <= H -> 1 <= W -> ~ (H = 1 /\ W = 1) -> (Z.of_nat numThreads | H) \/ (Z.of_nat numThreads | W) ->
  get_image_region_thread_splits ds numThreads H W D 0 0 1 1 = Some rs ->
  length rs = numThreads /\ forall r, In r rs -> r_rows r * r_cols r * Z.of_nat numThreads = H * W.
Proof.
  intros Hn HH HW H1 Div. unfold get_image_region_thread_splits.
  replace (_ && _) with false. 2:{ destruct (H =? 1) eqn:A, (W =? 1) eqn:B; cbn; auto. exfalso. apply H1. lia. }
  cbv zeta. rewrite !Z.div_1_r.
  assert (Main : forall X splits, 1 <= X -> (Z.of_nat numThreads | X) ->
    (if Z.odd X then bump_last (dim_splits numThreads X 1) else Some (dim_splits numThreads X 1)) = Some splits ->
    map snd (lay_out X 0 0 splits) = repeat (X / Z.of_nat numThreads) numThreads).
  { intros X splits HX [q Eq] Hb. subst X. assert (0 < q) by nia. rewrite Z.div_mul by lia. rewrite <- dim_splits_even by auto.
    apply lay_out_unit; auto; [intros a; apply dim_splits_pos|]. rewrite dim_splits_sum; lia. }
  assert (Fin : forall X splits, 1 <= X -> (Z.of_nat numThreads | X) ->
    map snd (lay_out X 0 0 splits) = repeat (X / Z.of_nat numThreads) numThreads ->
    length (lay_out X 0 0 splits) = numThreads /\ forall p, In p (lay_out X 0 0 splits) -> snd p * Z.of_nat numThreads = X).
  { intros X splits HX [q Eq] M. split; [rewrite <- (map_length snd), M; apply repeat_length|].
    intros p Hp. assert (I : In (snd p) (map snd (lay_out X 0 0 splits))) by (apply in_map; auto). rewrite M in I. apply repeat_spec in I.
    rewrite I. subst X. rewrite Z.div_mul by lia. reflexivity. }
  destruct (choose_height _ _ _) eqn:Ch.
  - assert (DH : (Z.of_nat numThreads | H)).
    { unfold choose_height in Ch. destruct (H mod Z.of_nat numThreads =? 0) eqn:A; [apply Z.mod_divide; lia|].
      destruct Div as [Div|Div]; auto. apply Z.mod_divide in Div; [|lia]. rewrite Div in Ch. discriminate. }
    destruct (if Z.odd H then _ else _) as [splits|] eqn:Eb; [|discriminate]. intros E. injection E as <-.
    destruct (Fin H splits HH DH (Main H splits HH DH Eb)) as [L V]. split; [rewrite map_length; auto|].
    intros r Hr. apply in_map_iff in Hr. destruct Hr as (p & <- & Hp). cbn [r_rows r_cols]. specialize (V p Hp). nia.
  - assert (DW : (Z.of_nat numThreads | W)).
    { destruct Div as [Div|Div]; auto. unfold choose_height in Ch. apply Z.mod_divide in Div; [|lia]. rewrite Div in Ch. discriminate. }
    destruct (if Z.odd W then _ else _) as [splits|] eqn:Eb; [|discriminate]. intros E. injection E as <-.
    destruct (Fin W splits HW DW (Main W splits HW DW Eb)) as [L V]. split; [rewrite map_length; auto|].
    intros r Hr. apply in_map_iff in Hr. destruct Hr as (p & <- & Hp). cbn [r_rows r_cols]. specialize (V p Hp). nia.
Qed.
Example C10_even_concrete : exists rs, get_image_region_thread_splits [] 5 12 10 8 0 0 1 1 = Some rs /\ map r_cols rs = [2; 2; 2; 2; 2].
Proof. vm_compute. eexists. split; reflexivity. Qed.

(** ** C11: transpose convolution.  The full property quantifies over every
    stride; it holds when each output dimension is odd or a multiple of its
    stride and not smaller than it (in particular for strides 1 and 2, see
    [C11_stride_at_most_2]); it is false otherwise ([C11_stride3_refuted],
    [C11_small_image_refuted]). *)
Theorem C11_strided_regions_partial ds numThreads H W D subH subW strideH strideW :
  (0 < numThreads)%nat ->
  0 < strideH <= H -> 0 < strideW <= W -> 0 <= subH < strideH -> 0 <= subW < strideW ->
  (H mod strideH = 0 \/ Z.odd H = true) -> (W mod strideW = 0 \/ Z.odd W = true) ->
  consecutive 0 ds D ->
  exists rs, get_image_region_thread_splits ds numThreads H W D subH subW strideH strideW = Some rs /\
    (forall y x c, in_image H W D y x c -> on_grid subH strideH y -> on_grid subW strideW x ->
        exactly_one rs y x c) /\
    (forall i r y x c, nth_error rs i = Some r -> on_grid subH strideH y -> on_grid subW strideW x ->
        in_region r y x c -> in_image H W D y x c).
Proof. intros. apply grid_tiling; auto. Qed.

Theorem C11_stride_at_most_2 ds numThreads H W D subH subW strideH strideW :
  (0 < numThreads)%nat ->
  1 <= strideH <= 2 -> 1 <= strideW <= 2 -> strideH <= H -> strideW <= W ->
  0 <= subH < strideH -> 0 <= subW < strideW ->
  consecutive 0 ds D ->
  exists rs, get_image_region_thread_splits ds numThreads H W D subH subW strideH strideW = Some rs /\
    (forall y x c, in_image H W D y x c -> on_grid subH strideH y -> on_grid subW strideW x ->
        exactly_one rs y x c) /\
    (forall i r y x c, nth_error rs i = Some r -> on_grid subH strideH y -> on_grid subW strideW x ->
        in_region r y x c -> in_image H W D y x c).
Proof.
  intros Hn SH SW HH HW BH BW Hds.
  assert (A : forall X s, 1 <= s <= 2 -> X mod s = 0 \/ Z.odd X = true).
  { intros X s Hs. assert (s = 1 \/ s = 2) as [-> | ->] by lia; [left; apply Z.mod_1_r|].
    destruct (Z.odd X) eqn:E; auto. left. rewrite <- Z.negb_even in E.
    apply negb_false_iff in E. apply Z.even_spec in E. destruct E as [k ->].
    rewrite Z.mul_comm. apply Z.mod_mul. lia. }
  apply grid_tiling; auto; lia.
Qed.

(** Output height 8, stride 3 (input 2, kernel 5): row 6 of sub-grid 0 is in no
    region, whatever the channel split. *)
Theorem C11_stride3_refuted :
  exists rs, get_image_region_thread_splits [] 2 8 9 4 0 0 3 3 = Some rs /\
    on_grid 0 3 6 /\ on_grid 0 3 0 /\ in_image 8 9 4 6 0 0 /\
    forall r, In r rs -> ~ in_region r 6 0 0.
Proof.
  eexists. split; [vm_compute; reflexivity|]. split; [exists 2; lia|]. split; [exists 0; lia|].
  split; [unfold in_image; lia|].
  intros r Hr Hin. unfold in_region in Hin. cbn in Hr. intuition; subst; cbn in *; lia.
Qed.

(** Output height smaller than the stride: out-of-bounds access (odd) or no
    region at all (even). *)
Theorem C11_small_image_refuted :
  get_image_region_thread_splits [] 5 1 8 4 0 0 2 2 = None /\
  get_image_region_thread_splits [] 5 2 9 4 0 0 3 3 = Some [].
Proof. split; vm_compute; reflexivity. Qed.

(** Exactly when: only the dimension that is divided among the threads matters. *)
Definition fits (size stride sub : Z) : Prop := stride <= size /\ (Z.odd size = true \/ size mod stride <= sub).
Theorem C11_exactly_when ds numThreads H W D subH subW strideH strideW :
  (0 < numThreads)%nat -> 1 <= H -> 1 <= W -> 1 <= D -> 0 <= subH < strideH -> 0 <= subW < strideW -> subH < H -> subW < W -> consecutive 0 ds D ->
  let n := Z.of_nat numThreads in let rows_divided := (n | H / strideH) \/ ~ (n | W / strideW) /\ W / strideW < H / strideH in
  (exists rs, get_image_region_thread_splits ds numThreads H W D subH subW strideH strideW = Some rs /\
    (forall y x c, in_image H W D y x c -> on_grid subH strideH y -> on_grid subW strideW x -> exactly_one rs y x c) /\
    (forall i r y x c, nth_error rs i = Some r -> on_grid subH strideH y -> on_grid subW strideW x -> in_region r y x c -> in_image H W D y x c)) <->
  (rows_divided -> fits H strideH subH) /\ (~ rows_divided -> fits W strideW subW).
Proof.
  intros Hn HH HW HD BH BW LH LW Hds n rows.
  assert (C : (choose_height n (H / strideH) (W / strideW) = true <-> rows)).
  { unfold choose_height, rows. assert (N0 : n <> 0) by (unfold n; lia). rewrite <- !(Z.mod_divide _ n N0). destruct (Z.eqb_spec ((H / strideH) mod n) 0); [tauto|]. destruct (Z.eqb_spec ((W / strideW) mod n) 0); [split; [discriminate|tauto]|].
    rewrite Z.gtb_ltb, Z.ltb_lt. tauto. }
  assert (F : forall a b c, fits a b c <-> b <= a /\ (a mod b <= c \/ Z.odd a = true)) by (intros; unfold fits; tauto). rewrite !F. split.
  - intros (rs & E & T & _). pose proof (chosen_needed ds numThreads H W D subH subW strideH strideW rs Hn HH HW HD BH BW LH LW E T) as X. fold n in X.
    destruct (choose_height n _ _); split; intros G; auto; exfalso; [tauto|]. apply C in G. discriminate.
  - intros [F1 F2]. apply chosen_tiling; auto. fold n. destruct (choose_height n _ _); [apply F1; tauto|apply F2; intros G; apply C in G; discriminate].
Qed.
(** Rows 0, 3 and 6 of an image of 8 rows: a sub-position of 2 fits (2 and 5), a sub-position of 0 does not. *)
Example C11_fits_concrete : fits 8 3 2 /\ ~ fits 8 3 0 /\ ~ fits 8 3 1 /\ fits 9 3 0 /\ fits 7 3 1 /\ ~ fits 2 3 0.
Proof. unfold fits. cbn. repeat split; try lia; auto; intros [? [?|?]]; try discriminate; lia. Qed.
(** Examples *)
Example thread_example : 
  get_image_region_thread_splits [(0, 4)] 5 7 6 4 0 0 1 1 =
  Some [Region 0 0 0 2 6 4; Region 2 0 0 2 6 4; Region 4 0 0 1 6 4; Region 5 0 0 1 6 4; Region 6 0 0 1 6 4].
Proof. reflexivity. Qed.

Example strided_example :
  get_image_region_thread_splits [(0, 4)] 2 7 7 4 1 1 2 2 =
  Some [Region 0 1 0 7 4 4; Region 0 5 0 7 2 4].
Proof. vm_compute. reflexivity. Qed.

Print Assumptions C09_regions_tile_image.
Print Assumptions C10_split_balanced.
Print Assumptions C11_strided_regions_partial.
Print Assumptions C11_stride_at_most_2.
Print Assumptions C11_exactly_when.
