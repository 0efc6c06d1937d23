From Verif Require Import Base NdSpec NdBase SlicePadModel LowerModel LowerSpec CopyKernels SlicePadProofs SlicePadProofs2 BroadcastProofs.

Lemma np_flatten {A} l : Forall (fun a => np_keep a = false -> np_size a = 1) l -> forall t : tensor A,
  flatten (map np_size l) (slice_t (map np_begin l) t) = flatten (np_shape l) (strided_slice_t l t).
Proof.
  induction 1 as [|a l H F IH]; intros t; auto.
  unfold np_shape. cbn [map filter]. destruct (np_keep a) eqn:K.
  - cbn [map flatten]. fold (np_shape l). apply flat_map_ext. intros i.
    transitivity (flatten (map np_size l) (slice_t (map np_begin l) (fun r => t (np_begin a + i :: r)))).
    { apply flatten_ext. intros idx. reflexivity. }
    rewrite IH. apply flatten_ext. intros idx. unfold strided_slice_t. cbn [np_index]. rewrite K. auto.
  - rewrite H by auto. rewrite flatten_one. fold (np_shape l).
    transitivity (flatten (map np_size l) (slice_t (map np_begin l) (fun r => t (np_begin a :: r)))).
    { apply flatten_ext. intros idx. unfold slice_t. cbn [map2]. rewrite Nat.add_0_r. auto. }
    rewrite IH. apply flatten_ext. intros idx. unfold strided_slice_t. cbn [np_index]. rewrite K. auto.
Qed.

Lemma strided_axes_ok bm em sm ins : forall i begin stop,
  regular_axes i bm em sm ins begin stop ->
  let l := np_axes i bm em sm ins begin stop in
  strided_axes i bm em sm (zn ins) begin stop = Some (map (fun a => (Z.of_nat (np_begin a), Z.of_nat (np_size a), np_keep a)) l) /\
  slice_fits (map np_begin l) (map np_size l) ins /\
  Forall (fun a => np_keep a = false -> np_size a = 1) l.
Proof.
  induction ins as [|d ins IH]; intros i [|b begin] [|e stop] H; cbn [regular_axes] in H; try tauto.
  - cbn. repeat split; constructor.
  - destruct H as [(R1 & R2 & R3) R]. destruct (IH _ _ _ R) as (I1 & I2 & I3). cbv zeta in *.
    cbn [np_axes zn map strided_axes]. fold (zn ins). rewrite I1. clear I1.
    unfold np_start, np_stop, clamp, wrap in *.
    destruct (Z.testbit bm i), (Z.testbit em i), (Z.testbit sm i); cbn [negb map np_begin np_size np_keep];
      try (specialize (R3 eq_refl));
      (split; [|split; [constructor; auto; destruct (b <? 0)%Z, (e <? 0)%Z; lia|
                        constructor; auto; cbn [np_keep np_size]; try discriminate; intros _; destruct (b <? 0)%Z, (e <? 0)%Z; lia]]);
      do 2 f_equal; f_equal; try f_equal; destruct (b <? 0)%Z, (e <? 0)%Z; lia.
Qed.
