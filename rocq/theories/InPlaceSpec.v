(** A byte-level machine for kernels that run in place: the operand and the
    result may share arena bytes.  Specification only.

    A front-to-back kernel writes its output bytes in increasing order; before
    writing output byte [k] it has consumed (copied to registers) the first
    [k_need k] input bytes, never going back. *)
From Coq Require Import List ZArith Bool Arith.
Import ListNotations.
From Verif Require Import MemExecSpec.
Local Open Scope Z_scope.

Record kernel := Kernel {
  k_in : nat; k_out : nat;
  k_need : nat -> nat;
  k_fun : nat -> bytes -> Z      (* output byte [k] from the consumed bytes *)
}.

(** Front to back: the amount consumed never decreases, stays within the input,
    and the input bytes still to come never outnumber the output bytes still to
    be written after this one (each remaining input byte feeds a later output
    byte: padding, element-wise maps). *)
Definition front_to_back (K : kernel) : Prop :=
  (forall i j, (i <= j < k_out K)%nat -> (k_need K i <= k_need K j)%nat) /\
  (forall k, (k < k_out K)%nat -> (k_need K k <= k_in K)%nat) /\
  (forall k, (k < k_out K)%nat -> (k_in K - k_need K k < k_out K - k)%nat).

(** What the kernel must compute. *)
Definition k_result (K : kernel) (input : bytes) : bytes :=
  map (fun k => k_fun K k (firstn (k_need K k) input)) (seq 0 (k_out K)).

(** What it does on memory, reading and writing byte by byte. *)
Fixpoint k_run (K : kernel) (inOff outOff : Z) (m : memory) (consumed : bytes) (ks : list nat)
  : memory :=
  match ks with
  | [] => m
  | k :: tl =>
      let have := length consumed in
      let consumed := consumed ++ read m (inOff + Z.of_nat have) (k_need K k - have) in
      k_run K inOff outOff (write m (outOff + Z.of_nat k) [k_fun K k consumed]) consumed tl
  end.

Definition k_in_place (K : kernel) (inOff outOff : Z) (m : memory) : bytes :=
  read (k_run K inOff outOff m [] (seq 0 (k_out K))) outOff (k_out K).

(** The padding kernel: [before] pad bytes, the input, pad bytes up to [out]. *)
Definition pad_kernel (n before out : nat) (padv : Z) : kernel :=
  Kernel n out (fun k => Nat.min n (S k - before))
    (fun k consumed => if (k <? before)%nat then padv
                       else if (k <? before + n)%nat then nth (k - before) consumed 0 else padv).

(** An element-wise kernel. *)
Definition map_kernel (n : nat) (f : Z -> Z) : kernel :=
  Kernel n n S (fun k consumed => f (nth k consumed 0)).
