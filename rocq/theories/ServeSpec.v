(** What C107 says of a session over USB: the host has a TFLite function in its hands. *)
From Coq Require Import List ZArith Bool Arith.
Import ListNotations.
From Verif Require Import HostSpec FunModel FunSpec.
Local Open Scope Z_scope.

Fixpoint put_at {A} (l : list A) (i : nat) (x : A) : list A :=
  match l, i with [], _ => [] | _ :: tl, O => x :: tl | y :: tl, S k => y :: put_at tl k x end.
(** All the values, if there are. *)
Fixpoint all_some {A} (l : list (option A)) : option (list A) :=
  match l with [] => Some [] | Some x :: tl => option_map (cons x) (all_some tl) | None :: _ => None end.

(** What the calls answer: an input tensor keeps what was written last; an inference needs every input written since the one before, in any order, and
    gives the results of the function; results can be read, any number of times and in any order, until the next input is written.
    None: the calls are not such a session (or the function is not defined there). *)
Fixpoint ideal (f : func) (calls : list call) (written : list (option (list Z))) (results : option (list (list Z))) : option (list (list Z)) :=
  match calls with
  | [] => Some []
  | WriteInput model t data :: tl =>
      match nth_error (f_params f) (Z.to_nat t) with
      | Some p => if (model =? 0) && (0 <=? t) && Nat.eqb (length data) (tsize (snd p)) && negb (Nat.eqb (length data) 0)
                  then ideal f tl (put_at written (Z.to_nat t) (Some data)) None else None
      | None => None
      end
  | StartInference :: tl =>
      match all_some written with
      | Some inputs => match evaluate f inputs with
                       | Some r => ideal f tl (map (fun _ => None) written) (Some (map snd r))
                       | None => None
                       end
      | None => None
      end
  | ReadOutput model t :: tl =>
      match results with
      | Some rs => match nth_error rs (Z.to_nat t) with
                   | Some b => if (model =? 0) && (0 <=? t) then option_map (cons b) (ideal f tl written results) else None
                   | None => None
                   end
      | None => None
      end
  | Reset :: _ => None
  end.
(** The shapes that the host was given are those of the results. *)
Definition shapes_match (f : func) (shapes : Z -> list nat) : Prop :=
  forall inputs r t b, sized (f_params f) inputs -> evaluate f inputs = Some r -> nth_error (map snd r) (Z.to_nat t) = Some b -> length b = fold_right Nat.mul 1%nat (shapes t).
