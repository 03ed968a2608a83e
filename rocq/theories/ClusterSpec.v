(** What a clustering should be. *)
From Coq Require Import Permutation.
From Verif Require Import Base Arith.
Local Open Scope Z_scope.

(** The rows of a dataset with their numbers. *)
Definition instances {T} (data : list T) : list (nat * T) := combine (seq 0 (length data)) data.

(** [k] clusters that hold every instance exactly once, unchanged. *)
Definition partitions {T} (k : nat) (data : list T) (C : list (list (nat * T))) : Prop :=
  length C = k /\ Permutation (concat C) (instances data).

(** The number of positions at which two rows differ. *)
Definition differences (p q : list Z) : nat :=
  length (filter (fun xy => negb (fst xy =? snd xy)) (combine p q)).

(** No instance differs less from the centre of another cluster. *)
Definition nearest_centre (centres : list (list Z)) (C : list (list (nat * list Z))) : Prop :=
  forall c c' cl i row m m',
    nth_error C c = Some cl -> In (i, row) cl ->
    nth_error centres c = Some m -> nth_error centres c' = Some m' ->
    (differences m row <= differences m' row)%nat.

(** Every cluster has a member that is its centre, and no instance differs less from the centre
    of another cluster. *)
Definition centred (C : list (list (nat * list Z))) : Prop :=
  exists centres : list (nat * list Z), Forall2 (fun e cl => In e cl) centres C /\ nearest_centre (map snd centres) C.

(** The mode of a cluster: in every column a value that none outnumbers. *)
Definition tally (j : nat) (v : Z) (cl : list (nat * list Z)) : nat :=
  length (filter (fun e => match nth_error (snd e) j with Some x => x =? v | None => false end) cl).
Definition mode_of (m : nat) (cl : list (nat * list Z)) (mode : list Z) : Prop :=
  length mode = m /\ forall j v w, nth_error mode j = Some v -> (tally j w cl <= tally j v cl)%nat.

(** No instance differs less from the mode of another cluster than from its own. *)
Definition near_modes (m : nat) (C : list (list (nat * list Z))) : Prop :=
  exists modes, Forall2 (mode_of m) C modes /\ nearest_centre modes C.

(** The number of different rows. *)
Definition distinct (data : list (list Z)) : nat := length (nodup (list_eq_dec Z.eq_dec) data).

(** Random draws below [n] bring up every number again and again. *)
Definition fair (rnd : nat -> nat -> nat) (n : nat) : Prop :=
  forall c r, (r < n)%nat -> exists c', (c <= c')%nat /\ rnd c' n = r.

(** All rows have [m] entries, none negative. *)
Definition rectangular (m : nat) (data : list (list Z)) : Prop :=
  forall row, In row data -> length row = m /\ forall x, In x row -> 0 <= x.

(** Two rows of a matrix at most [eps] apart, by the Euclidean distance as floating point
    computes it: the square root of the sum of squared differences, added up in order. *)
Definition euclid {A : arith} (p q : list (F A)) : F A :=
  fsqrt (fold_left (fun s uv => fadd s (fmul (fsub (fst uv) (snd uv)) (fsub (fst uv) (snd uv)))) (combine p q) (fz 0)).
Definition within {A : arith} (eps : F A) (data : list (list Z)) (i j : nat) : Prop :=
  exists p q, nth_error data i = Some p /\ nth_error data j = Some q /\ i <> j /\
    fge eps (euclid (map fz p) (map fz q)) = true.

(** Two instances are in one cluster. *)
Definition together {T} (C : list (list (nat * T))) (i j : nat) : Prop :=
  exists cl x y, In cl C /\ In (i, x) cl /\ In (j, y) cl.
