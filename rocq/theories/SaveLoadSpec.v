(** What saving and loading promise, independently of the code. *)
From Coq Require Import String.
From Verif Require Import Base Res.

(** A self-delimiting code: a value is read back with the rest untouched, and not read from fewer
    bytes than it was sent with; at least one. *)
Definition self_delimiting {I} (enc : list I -> I -> list Z) (dec : list I -> list Z -> option (I * list Z)) : Prop :=
  (forall prev i rest, dec prev (enc prev i ++ rest) = Some (i, rest)) /\
  (forall prev i k, k < length (enc prev i) -> dec prev (firstn k (enc prev i)) = None) /\
  (forall prev i, enc prev i <> []).

(** What a file holds after a list of writes, each to one file. *)
Fixpoint last_write {X} (f : string) (ws : list (string * X)) : option X :=
  match ws with
  | [] => None
  | (g, x) :: t => match last_write f t with Some y => Some y | None => if String.eqb g f then Some x else None end
  end.
