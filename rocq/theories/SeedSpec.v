(** The draws of a seeded generator, independently of the code. *)
From Verif Require Import Base Res.

(** The c-th answer, every time asked for a number below [n]. *)
Definition stream {G} (intn : G -> nat -> nat * G) (g : G) (c n : nat) : nat :=
  fst (intn (Nat.iter c (fun x => snd (intn x n)) g) n).

(** A call that gives [a] and leaves some state; two calls that give the same and leave any states. *)
Definition outcome {X Y} (a : res X) (b : res (X * Y)) : Prop :=
  match a with Ok x => exists y, b = Ok (x, y) | Panic => b = Panic | Fuel => b = Fuel end.
Definition same_out {X Y} (a b : res (X * Y)) : Prop :=
  match a, b with Ok x, Ok y => fst x = fst y | Panic, Panic => True | Fuel, Fuel => True | _, _ => False end.

Definition sumZ (l : list Z) : Z := fold_right Z.add 0%Z l.
