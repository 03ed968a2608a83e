(** What a seeded generator promises, independently of the code. *)
From Verif Require Import Base.

Section Spec.
Variables G O V : Type.
Variable src : Z -> G.
Variable step : O -> G -> V * G.

(** The state of a generator after some draws, and what they gave. *)
Fixpoint state_after (g : G) (os : list O) : G := match os with [] => g | o :: l => state_after (snd (step o g)) l end.
Fixpoint values (g : G) (os : list O) : list V := match os with [] => [] | o :: l => fst (step o g) :: values (snd (step o g)) l end.

(** A history of seedings (inl) and draws with their values (inr): the draws after the last seeding, and
    those between two, have the values of a generator with that seed. *)
Definition seeded (s0 : Z) (h : list (Z + O * V)) : Prop :=
  (forall a b, h = map inr a ++ b -> map snd a = values (src s0) (map fst a)) /\
  (forall x s a b, h = x ++ inl s :: map inr a ++ b -> map snd a = values (src s) (map fst a)).

(** The seed set last. *)
Definition last_seed (s0 : Z) (h : list (Z + O * V)) : Z :=
  fold_left (fun s e => match e with inl s' => s' | inr _ => s end) h s0.
End Spec.
