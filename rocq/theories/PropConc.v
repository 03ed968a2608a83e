(** C04-C06: conc.SingleQueue. *)
From Verif Require Import Base Conc ConcSpec ConcLemmas.
Local Open Scope Z_scope.

(** C04 *)
Theorem at_most_n_tasks_run :
  forall (n ncpu : Z) (progs : list (list nat * bool)) (m : nat) (s : state),
    1 <= ncpu -> steps (newSingleQueue n ncpu) m (initial progs) s ->
    running s <= newSingleQueue n ncpu.
Proof. exact bound_nc. Qed.
Print Assumptions at_most_n_tasks_run.

(** C05 *)
Theorem wait_returns_after_all_tasks :
  forall (n : Z) (prog : list nat) (m : nat) (s : state),
    1 <= n -> steps n m (initial [(prog, true)]) s ->
    (exists td w, at_c s 0 CDone td w) ->
    Permutation (started s) prog /\ Permutation (finished s) prog /\
    (forall j t, nth_error (tasks s) j = Some t -> t_pc t = TEnd).
Proof. exact wait_l. Qed.
Print Assumptions wait_returns_after_all_tasks.

(** C05 for any number of callers: nothing is run twice or lost, and an execution that cannot
    go on has run everything. *)
Theorem maximal_executions_run_everything_once :
  forall (n : Z) (progs : list (list nat * bool)) (m : nat) (s : state),
    1 <= n -> steps n m (initial progs) s -> (forall s', ~ step n s s') ->
    quiescent s /\ Permutation (started s) (flat_map fst progs) /\
    Permutation (finished s) (flat_map fst progs) /\ k s = 0 /\ locked s = false.
Proof. exact completion_l. Qed.
Print Assumptions maximal_executions_run_everything_once.

(** C06: no deadlock, no lost wake-up, and every execution is finite. *)
Theorem pending_calls_can_proceed :
  forall (n : Z) (progs : list (list nat * bool)) (m : nat) (s : state),
    1 <= n -> steps n m (initial progs) s ->
    (exists i c, nth_error (callers s) i = Some c /\ c_pc c <> CDone) -> exists s', step n s s'.
Proof. exact progress_l. Qed.
Print Assumptions pending_calls_can_proceed.

Theorem no_lost_wakeup :
  forall (n : Z) (progs : list (list nat * bool)) (m : nat) (s : state),
    1 <= n -> steps n m (initial progs) s ->
    (exists i td w, at_c s i CParked td w) -> k s < n ->
    (exists j x, at_t s j TUnlock x \/ at_t s j TSignal x) \/
    (exists i td w, at_c s i CWoken td w \/ at_c s i CCheck td w \/ at_c s i CInc td w).
Proof. exact no_lost_wakeup_l. Qed.
Print Assumptions no_lost_wakeup.

Theorem executions_are_finite :
  forall (n : Z) (progs : list (list nat * bool)) (m : nat) (s : state),
    steps n m (initial progs) s -> (m <= work progs)%nat.
Proof. exact terminates_l. Qed.
Print Assumptions executions_are_finite.

(** A complete execution with one slot and two callers in which the second caller parks, is
    woken and runs its task. *)
Example conc_case :
  exists m s, steps 1 m (initial [([7%nat], true); ([8%nat], false)]) s /\ quiescent s /\
    finished s = [7%nat; 8%nat].
Proof. exact conc_case_l. Qed.

Example conc_parked_case :
  exists m s, steps 1 m (initial [([7%nat], true); ([8%nat], false)]) s /\
    at_c s 1 CParked [8%nat] false /\ k s < 1 /\ at_t s 0 TUnlock 7.
Proof. exact conc_parked_case_l. Qed.
