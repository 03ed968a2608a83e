(** What matrix conversions and random partitions should do. *)
From Coq Require Import SpecFloat.
From Verif Require Import Base GoMap DataSpec.
Local Open Scope Z_scope.

(** All rows have exactly the variables of [vars]. *)
Definition same_variables (vars : list Z) (D : list gmap) : Prop :=
  forall I, In I D -> NoDup (keys I) /\ forall k, In k (keys I) <-> In k vars.

(** Column [j] of [M] holds the values of variable [vars j], row by row. *)
Definition tabulates (vars : list Z) (D : list gmap) (M : list (list Z)) : Prop :=
  Forall2 (fun I row => length row = length vars /\
             forall j k, nth_error vars j = Some k -> nth_error row j = get I k) D M.

(** [S] is the list of variables as a map from positions. *)
Definition listed_as (vars : list Z) (S : gmap) : Prop :=
  forall j, get S j = if j <? 0 then None else nth_error vars (Z.to_nat j).

(** The positions of a list of length [n] that are not in [is], in order. *)
Definition remaining (n : nat) (is : list nat) : list nat := filter (fun i => negb (memn i is)) (seq 0 n).

(** [l'] is [l] without variable [k]. *)
Definition without (k : Z) (row t : gmap) : Prop := forall j, get t j = if j =? k then None else get row j.

(** Every position comes up again and again. *)
Definition fair (rnd : nat -> nat -> nat) (n : nat) : Prop :=
  (forall c, (rnd c n < n)%nat) /\ forall c i, (i < n)%nat -> exists c', (c <= c')%nat /\ rnd c' n = i.

(** [x] is the binary64 number nearest to a/b, with a < b. *)
Definition nearest (x : spec_float) (a b : Z) : Prop :=
  exists m e, x = S754_finite false m e /\ e < 0 /\ 2 ^ 52 <= Z.pos m < 2 ^ 53 /\ 2 * Z.abs (b * Z.pos m - a * 2 ^ (- e)) <= b.
