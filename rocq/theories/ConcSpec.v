(** Vocabulary of the SingleQueue properties. *)
From Verif Require Import Base Conc.
Local Open Scope Z_scope.

(** Number of task functions started and not yet returned. *)
Fixpoint count_running (ts : list task) : Z :=
  match ts with
  | [] => 0
  | t :: r => (match t_pc t with TRunning => 1 | _ => 0 end) + count_running r
  end.
Definition running (s : state) : Z := count_running (tasks s).

(** Every caller returned from its last call and every task goroutine ended. *)
Definition quiescent (s : state) : Prop :=
  (forall i c, nth_error (callers s) i = Some c -> c_pc c = CDone) /\
  (forall j t, nth_error (tasks s) j = Some t -> t_pc t = TEnd).

(** An upper bound on the number of atomic actions, linear in the number of Run calls. *)
Fixpoint work (progs : list (list nat * bool)) : nat :=
  match progs with [] => 0 | p :: t => 20 * length (fst p) + 12 + work t end.
