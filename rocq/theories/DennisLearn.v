(** Model of LearnGD of the Dennis-Ventura learner: learn/dennis/dennis.go. *)
From Verif Require Import Base Res Arith GraphSpec Spn GoMap Dennis Train.

(** learn/dennis/dennis.go:202-221. The breadth-first search of lines 205-215 only counts the nodes for the line
    printed next. [P] are the parameters bound to the network in line 217, which learn.Generative retrieves;
    they are not nil. The instances are the maps of the dataset, with the values [get] finds. [k], [m], [g] and [t]
    are the arguments of Structure; [i] is not used by the code. [fuelT] and [fuelS] are for the searches of the training. *)
Definition learnGD {A : arith} ord ordC km kmD db (par : Z -> nat -> F A * F A) logProb trunc round rnd fuel
    ordN ordP rndT (fuelT fuelS : nat) (D : list gmap) (sc : gmap) (k : Z) (m g : nat) (t : F A) (P : params A) : res (network A * nat) :=
  c <- Dennis.structure ord ordC km kmD db par logProb trunc round rnd fuel D sc k m g t;
  net <- generative ordN ordP rndT fuelT fuelS (snd c) P (map get D) (fst c);
  Ok (net, snd c).
