(** C105: the weights of several networks in one flash image. *)
From Coq Require Import Relations Permutation QArith String.
From Verif Require Import Base NdSpec MemPlanModel MemPlanSpec MemExecSpec MemExecProofs MemPlanProps WeightsModel WeightsSpec FunOpsModel FunOpsSpec FunModel FunSpec.
From Verif Require Import FunArenaSpec FunLoadModel FunLoadSpec FunOptModel FunOptSpec FunConvModel FunConvSpec FunConvEnd.
From Verif Require Import ArenasModel ArenasSpec ArenasProps AudioModel RecurModel RecurSpec RecurProps StackSpec StackProps.
From Verif Require HostModel HostSpec HostProofs HostProps.
From Verif Require Import FlashStackSpec.
Local Open Scope nat_scope.

Lemma served_prefix fs models params file i p d :
  byte_files fs -> HostModel.generate_flash fs models params = Some file -> (HostModel.len file < 2 ^ 32)%Z ->
  nth_error params i = Some p -> p <> "-"%string -> fs p = Some d ->
  exists rest, served (programmed file) i = d ++ rest.
Proof.
  intros BF G L Hp Np Fp. destruct (HostProps.C39_generate fs models params file G) as (Len & es & -> & Le & All).
  assert (Hm : exists m, nth_error models i = Some m).
  { destruct (nth_error models i) eqn:E; [eauto|]. apply nth_error_None in E. assert (i < length params) by (apply nth_error_Some; congruence). unfold lt in *. rewrite <- Len in H. lia. }
  destruct Hm as (m & Hm). destruct (All i m p Hm Hp) as (e & He & _ & Ep & _).
  destruct (String.eqb_spec p "-") as [|_]; [congruence|]. rewrite Fp in Ep. injection Ep as Ep.
  assert (BE : forall e, In e es -> Forall HostSpec.is_byte (HostModel.e_model e) /\ Forall HostSpec.is_byte (HostModel.e_params e) /\ Forall HostSpec.is_byte (HostModel.e_ops e) /\ Forall HostSpec.is_byte (HostModel.e_xip e)).
  { intros x Hx. apply In_nth_error in Hx. destruct Hx as (k & Hk). assert (k < length es) by (apply nth_error_Some; congruence).
    assert (exists a b, nth_error models k = Some a /\ nth_error params k = Some b) as (a & b & Ha & Hb).
    { destruct (nth_error models k) eqn:E1; [|apply nth_error_None in E1; lia]. destruct (nth_error params k) eqn:E2; [eauto|apply nth_error_None in E2; lia]. }
    destruct (All k a b Ha Hb) as (x' & Hx' & Ea & Eb & Eo & Exi). rewrite Hk in Hx'. injection Hx' as <-.
    assert (B : forall n l, Some l = (if String.eqb n "-" then Some [] else fs n) -> Forall HostSpec.is_byte l).
    { intros n l H0. destruct (String.eqb n "-"); [injection H0 as ->; constructor|]. apply (BF n). auto. }
    split; [eapply B; exact Ea|]. split; [eapply B; exact Eb|]. rewrite Eo, Exi. split; constructor. }
  destruct (HostProps.C39_file es BE) as (_ & Back). unfold programmed. unfold HostModel.flash_file in *. rewrite Back.
  assert (L' : (HostModel.len (HostModel.flash_image es) < 2 ^ 32)%Z) by (unfold HostModel.len in *; rewrite map_length in L; exact L).
  destruct (HostProps.C39_flash_image es i e L' He) as (_ & RP & _). rewrite Ep in RP. unfold HostSpec.read_params, HostSpec.region in RP.
  unfold served. rewrite <- RP. eexists. symmetry. apply firstn_skipn.
Qed.

(** A network that looks for its weights in the flash image made from the files of all networks returns what its TFLite function returns. *)
Theorem C105_flash : forall fs models params file nets i p f ts inputs hist mid rest m0,
  byte_files fs -> HostModel.generate_flash fs models params = Some file -> (HostModel.len file < 2 ^ 32)%Z ->
  nth_error params i = Some p -> p <> "-"%string -> fs p = Some (flash_file ts) ->
  compiled_reading f (nets i) ts (served (programmed file) i) -> results_in_arena (nets i) -> sized (f_params f) inputs ->
  Forall (elsewhere nets i) mid -> Forall (elsewhere nets i) rest ->
  exists r, evaluate f inputs = Some r /\
    ArenasModel.outputs (nets i) (play nets (hist ++ Put i inputs :: mid ++ Invoke i :: rest) m0) = map snd r.
Proof.
  intros fs models params file nets i p f ts inputs hist mid rest m0 BF G L Hp Np Fp C RA Sz Hm Hr.
  destruct (served_prefix fs models params file i p (flash_file ts) BF G L Hp Np Fp) as (tl & E). rewrite E in C.
  destruct (compiled_reading_facts f (nets i) ts tl C) as (Co & K). destruct (compiled_reading_returns f (nets i) ts _ C RA) as (outs & Ro).
  destruct (K inputs Sz) as (Fi & r & Er & Ep). exists r. split; [exact Er|]. rewrite <- Ep.
  apply (C102_outputs nets i outs inputs hist mid rest m0); auto.
Qed.

(** The applications with two models: both read their weights from the one image. *)
Theorem C105_two_models : forall fs models params file nets p0 p1 f0 f1 ts0 ts1 j1 j2 image image2 m,
  byte_files fs -> HostModel.generate_flash fs models params = Some file -> (HostModel.len file < 2 ^ 32)%Z ->
  nth_error params 0 = Some p0 -> nth_error params 1 = Some p1 -> p0 <> "-"%string -> p1 <> "-"%string ->
  fs p0 = Some (flash_file ts0) -> fs p1 = Some (flash_file ts1) ->
  compiled_reading f0 (nets 0) ts0 (served (programmed file) 0) -> compiled_reading f1 (nets 1) ts1 (served (programmed file) 1) ->
  results_in_arena (nets 0) -> results_in_arena (nets 1) -> sized (f_params f0) image -> sized (f_params f1) image2 ->
  exists r0 r1, evaluate f0 image = Some r0 /\ evaluate f1 image2 = Some r1 /\
    nn_thread_one_arena nets j1 j2 image image2 m = (map snd r0, map snd r1) /\
    nn_thread_two_arenas nets j1 j2 image image2 m = (map snd r0, map snd r1).
Proof.
  intros fs models params file nets p0 p1 f0 f1 ts0 ts1 j1 j2 image image2 m BF G L H0 H1 N0 N1 F0 F1 C0 C1 R0 R1 S0 S1.
  destruct (C105_flash fs models params file nets 0 p0 f0 ts0 image [Start 0 j1] [] [] m) as (r0 & E0 & P0); auto.
  destruct (C105_flash fs models params file nets 1 p1 f1 ts1 image2 [Start 0 j1; Put 0 image; Invoke 0; Start 1 j2] [] [] m) as (r1 & E1 & P1); auto.
  exists r0, r1. split; [exact E0|]. split; [exact E1|]. split.
  - unfold nn_thread_one_arena. cbn [app] in P0, P1. cbv zeta. rewrite P0. f_equal. exact P1.
  - destruct (C105_flash fs models params file nets 0 p0 f0 ts0 image [Start 0 j1; Start 1 j2] [] [] m) as (r0' & E0' & P0'); auto.
    destruct (C105_flash fs models params file nets 1 p1 f1 ts1 image2 [Start 0 j1; Start 1 j2; Put 0 image; Invoke 0] [] [] m) as (r1' & E1' & P1'); auto.
    unfold nn_thread_two_arenas. cbn [app] in P0', P1'. cbv zeta. rewrite P0'. rewrite E0 in E0'. rewrite E1 in E1'. injection E0' as <-. injection E1' as <-. f_equal. exact P1'.
Qed.

(** Weights in the RAM of the other tile: the array that is written, behind its header. *)
Theorem C105_tile : forall nets i f ts inputs hist mid rest m0,
  compiled_reading f (nets i) ts (served_by_tile (fst (array_file false ts))) -> results_in_arena (nets i) -> sized (f_params f) inputs ->
  Forall (elsewhere nets i) mid -> Forall (elsewhere nets i) rest ->
  exists r, evaluate f inputs = Some r /\
    ArenasModel.outputs (nets i) (play nets (hist ++ Put i inputs :: mid ++ Invoke i :: rest) m0) = map snd r.
Proof.
  intros nets i f ts inputs hist mid rest m0 C. apply C104_tflite. exists ts.
  replace (flash_file ts) with (served_by_tile (fst (array_file false ts))); [exact C|]. reflexivity.
Qed.
(** Weights in external memory: the array itself. *)
Theorem C105_external : forall nets i f ts inputs hist mid rest m0,
  compiled_reading f (nets i) ts (fst (array_file true ts)) -> results_in_arena (nets i) -> sized (f_params f) inputs ->
  Forall (elsewhere nets i) mid -> Forall (elsewhere nets i) rest ->
  exists r, evaluate f inputs = Some r /\
    ArenasModel.outputs (nets i) (play nets (hist ++ Put i inputs :: mid ++ Invoke i :: rest) m0) = map snd r.
Proof. intros nets i f ts inputs hist mid rest m0 C. apply C104_tflite. exists ts. exact C. Qed.

(** Two engines; the network of C104_concrete is the second.  It reads its own weights, and with those of the first engine it would return something else. *)
Definition disk : String.string -> option (list Z) := fun n =>
  if String.eqb n "a.tflite" then Some [1; 2; 3]%Z else if String.eqb n "b.tflite" then Some [4]%Z
  else if String.eqb n "a.params" then Some (repeat 9%Z 300) else if String.eqb n "b.params" then Some steps else None.
Definition disk_file : list Z := match HostModel.generate_flash disk ["a.tflite"; "b.tflite"]%string ["a.params"; "b.params"]%string with Some l => l | None => [] end.
Definition second (engine : nat) (k : nat) : net := acc_reading (served (programmed disk_file) engine) 4096 1024.
Example C105_concrete :
  byte_files disk /\ HostModel.generate_flash disk ["a.tflite"; "b.tflite"]%string ["a.params"; "b.params"]%string = Some disk_file /\ (HostModel.len disk_file < 2 ^ 32)%Z /\
  disk "b.params"%string = Some (flash_file (snd acc_loading)) /\
  compiled_reading acc (second 1 1) (snd acc_loading) (served (programmed disk_file) 1) /\ results_in_arena (second 1 1) /\
  option_map (map (fun p => firstn 4 (snd p))) (evaluate acc [ones; ones]) = Some [[2; 3; 4; 2]; [4; 2; 3; 4]]%Z /\
  map (firstn 4) (ArenasModel.outputs (second 1 1) (play (second 1) [Put 1 [ones; ones]; Invoke 1] (fun _ => 0%Z))) = [[2; 3; 4; 2]; [4; 2; 3; 4]]%Z /\
  map (firstn 4) (ArenasModel.outputs (second 0 1) (play (second 0) [Put 1 [ones; ones]; Invoke 1] (fun _ => 0%Z))) = [[11; 11; 11; 11]; [11; 11; 11; 11]]%Z.
Proof.
  split.
  { intros n d E. assert (G : option_map (forallb (fun b => (0 <=? b) && (b <? 256)))%Z (Some d) = Some true).
    { rewrite <- E. unfold disk in *. repeat (destruct (String.eqb n _); [vm_compute; reflexivity|]). discriminate. }
    cbn [option_map] in G. assert (G' : forallb (fun b => (0 <=? b) && (b <? 256))%Z d = true) by congruence.
    rewrite forallb_forall in G'. apply Forall_forall. intros x Hx. apply G' in Hx. unfold HostSpec.is_byte. lia. }
  split; [vm_compute; reflexivity|]. split; [vm_compute; reflexivity|]. split; [vm_compute; reflexivity|].
  split; [apply acc_compiled_reading; lia|]. split; [apply acc_results|]. split; [vm_compute; reflexivity|]. split; vm_compute; reflexivity.
Qed.

Print Assumptions C105_flash.
Print Assumptions C105_two_models.
Print Assumptions C105_tile.
Print Assumptions C105_external.
Print Assumptions C105_concrete.
