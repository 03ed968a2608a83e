(** What the independence graphs and tables are, independently of the code. *)
From Coq Require Import Relations Reals.
From Verif Require Import Base Res Arith Indep.
Local Open Scope Z_scope.

(** Every observation is a category, and all variables were observed equally often. *)
Definition well_formed (data : list vardata) : Prop :=
  (forall d, In d data -> forall v, In v (vd_data d) -> 0 <= v < vd_cat d) /\
  (forall d e, In d data -> In e data -> length (vd_data d) = length (vd_data e)) /\
  (forall d, In d data -> 0 <= vd_cat d).

(** How many rows satisfy a test. *)
Definition howmany {T} (f : T -> bool) (l : list T) : Z := Z.of_nat (length (filter f l)).

(** The entries of a table. *)
Definition at_ (m : list (list Z)) (i j : nat) (v : Z) : Prop :=
  exists row, nth_error m i = Some row /\ nth_error row j = Some v.

(** [groups] are the classes of the equivalence generated by [dep] on [vars]. *)
Definition components (dep : Z -> Z -> Prop) (vars : list Z) (groups : list (list Z)) : Prop :=
  Permutation (concat groups) vars /\ (forall g, In g groups -> g <> []) /\
  forall u v, In u vars -> In v vars ->
    ((exists g, In g groups /\ In u g /\ In v g) <-> clos_refl_sym_trans Z dep u v).

(** A p x q table of counts with its margins. *)
Record table_of (p q : nat) (m : list (list Z)) (o : nat -> nat -> Z) : Prop := {
  t_cell : forall i j, (i < p)%nat -> (j < q)%nat -> at_ m i j (o i j) /\ 0 <= o i j;
  t_row : forall i, (i < p)%nat -> at_ m i q (fold_right Z.add 0 (map (fun j => o i j) (seq 0 q)));
  t_col : forall j, (j < q)%nat -> at_ m p j (fold_right Z.add 0 (map (fun i => o i j) (seq 0 p)));
  t_all : at_ m p q (fold_right Z.add 0 (map (fun i => fold_right Z.add 0 (map (fun j => o i j) (seq 0 q))) (seq 0 p))) }.

(** Dependence as the tests see it. *)
Definition judged_dependent {A : arith} (chi2 : F A -> Z -> F A) (data : list vardata) (pval : F A) (u v : Z) : Prop :=
  exists i j, nth_error (map vd_id data) i = Some u /\ nth_error (map vd_id data) j = Some v /\
    ((i < j < length data)%nat /\ pairTest chi2 data pval i j = Ok false).
