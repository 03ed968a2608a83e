(** Model of /repo/conc/queue.go as a transition system.

    Any number of goroutines call Run (each a given list of task ids) and then possibly Wait.
    One transition per atomic action. [locked] is the mutex c.L; a caller inside c.Wait() is
    Parked until some Signal picks it (any parked caller may be picked), then Woken and waiting
    for the mutex again. sync.Cond.Wait enqueues the caller before it releases the mutex, so
    parking and releasing is one transition. Task functions are opaque: they start and return
    (a task that panics ends the Go program and is not modelled). The logs [started] and
    [finished] are ghost state. *)
From Verif Require Import Base.
Local Open Scope Z_scope.

(** conc/queue.go:20-25. [ncpu] is runtime.NumCPU(). *)
Definition newSingleQueue (n ncpu : Z) : Z := if n <=? 0 then ncpu else n.

(** Program counter of a goroutine calling Run/Wait. *)
Inductive cpc :=
| CIdle       (* between calls *)
| CWant       (* :31 Lock *)
| CCheck      (* :32 holds the mutex, about to test k >= n *)
| CParked     (* :33 inside Wait, not notified *)
| CWoken      (* :33 notified, re-acquiring the mutex *)
| CInc        (* :35 *)
| CUnlock     (* :36 *)
| CAdd        (* :37 wg.Add(1) *)
| CSpawn      (* :38 go *)
| CWaiting    (* :50 wg.Wait() *)
| CDone.

(** Program counter of a task goroutine. *)
Inductive tpc :=
| TReady      (* :40 about to call f *)
| TRunning    (* :40 inside f *)
| TAfter      (* :41 Lock *)
| TDec        (* :42 *)
| TUnlock     (* :43 *)
| TSignal     (* :44 *)
| TDefer      (* :39 deferred wg.Done() *)
| TEnd.

Record caller := mkCaller { c_pc : cpc; c_todo : list nat; c_waits : bool }.
Record task := mkTask { t_pc : tpc; t_id : nat }.

Record state := mkState {
  callers : list caller; tasks : list task; locked : bool; k : Z; wg : Z;
  started : list nat; finished : list nat }.

Definition initial (progs : list (list nat * bool)) : state :=
  mkState (map (fun p => mkCaller CIdle (fst p) (snd p)) progs) [] false 0 0 [] [].

Definition set_caller (s : state) (i : nat) (c : caller) : state :=
  mkState (set_nth i c (callers s)) (tasks s) (locked s) (k s) (wg s) (started s) (finished s).
Definition set_task (s : state) (j : nat) (t : task) : state :=
  mkState (callers s) (set_nth j t (tasks s)) (locked s) (k s) (wg s) (started s) (finished s).
Definition set_locked (s : state) (b : bool) : state :=
  mkState (callers s) (tasks s) b (k s) (wg s) (started s) (finished s).
Definition set_k (s : state) (z : Z) : state :=
  mkState (callers s) (tasks s) (locked s) z (wg s) (started s) (finished s).
Definition set_wg (s : state) (z : Z) : state :=
  mkState (callers s) (tasks s) (locked s) (k s) z (started s) (finished s).

Definition at_c (s : state) (i : nat) (p : cpc) (td : list nat) (w : bool) : Prop :=
  nth_error (callers s) i = Some (mkCaller p td w).
Definition at_t (s : state) (j : nat) (p : tpc) (id : nat) : Prop :=
  nth_error (tasks s) j = Some (mkTask p id).

Inductive step (n : Z) : state -> state -> Prop :=
(* conc/queue.go:30-46, Run *)
| s_call : forall s i x td w, at_c s i CIdle (x :: td) w ->
    step n s (set_caller s i (mkCaller CWant (x :: td) w))
| s_lock : forall s i td w, at_c s i CWant td w -> locked s = false ->
    step n s (set_locked (set_caller s i (mkCaller CCheck td w)) true)
| s_full : forall s i td w, at_c s i CCheck td w -> k s >= n ->
    step n s (set_locked (set_caller s i (mkCaller CParked td w)) false)
| s_relock : forall s i td w, at_c s i CWoken td w -> locked s = false ->
    step n s (set_locked (set_caller s i (mkCaller CCheck td w)) true)
| s_free : forall s i td w, at_c s i CCheck td w -> k s < n ->
    step n s (set_caller s i (mkCaller CInc td w))
| s_inc : forall s i td w, at_c s i CInc td w ->
    step n s (set_k (set_caller s i (mkCaller CUnlock td w)) (k s + 1))
| s_unlock : forall s i td w, at_c s i CUnlock td w ->
    step n s (set_locked (set_caller s i (mkCaller CAdd td w)) false)
| s_add : forall s i td w, at_c s i CAdd td w ->
    step n s (set_wg (set_caller s i (mkCaller CSpawn td w)) (wg s + 1))
| s_spawn : forall s i x td w, at_c s i CSpawn (x :: td) w ->
    step n s (let s1 := set_caller s i (mkCaller CIdle td w) in
              mkState (callers s1) (tasks s1 ++ [mkTask TReady x]) (locked s1) (k s1) (wg s1)
                      (started s1) (finished s1))
(* conc/queue.go:49-51, Wait; or the caller simply ends *)
| s_wait : forall s i, at_c s i CIdle [] true ->
    step n s (set_caller s i (mkCaller CWaiting [] true))
| s_waited : forall s i, at_c s i CWaiting [] true -> wg s = 0 ->
    step n s (set_caller s i (mkCaller CDone [] true))
| s_end : forall s i, at_c s i CIdle [] false ->
    step n s (set_caller s i (mkCaller CDone [] false))
(* conc/queue.go:38-45, the task goroutine *)
| s_start : forall s j x, at_t s j TReady x ->
    step n s (let s1 := set_task s j (mkTask TRunning x) in
              mkState (callers s1) (tasks s1) (locked s1) (k s1) (wg s1)
                      (started s1 ++ [x]) (finished s1))
| s_return : forall s j x, at_t s j TRunning x ->
    step n s (let s1 := set_task s j (mkTask TAfter x) in
              mkState (callers s1) (tasks s1) (locked s1) (k s1) (wg s1)
                      (started s1) (finished s1 ++ [x]))
| s_tlock : forall s j x, at_t s j TAfter x -> locked s = false ->
    step n s (set_locked (set_task s j (mkTask TDec x)) true)
| s_dec : forall s j x, at_t s j TDec x ->
    step n s (set_k (set_task s j (mkTask TUnlock x)) (k s - 1))
| s_tunlock : forall s j x, at_t s j TUnlock x ->
    step n s (set_locked (set_task s j (mkTask TSignal x)) false)
| s_signal : forall s j x i td w, at_t s j TSignal x -> at_c s i CParked td w ->
    step n s (set_task (set_caller s i (mkCaller CWoken td w)) j (mkTask TDefer x))
| s_signal_none : forall s j x, at_t s j TSignal x ->
    (forall i td w, ~ at_c s i CParked td w) ->
    step n s (set_task s j (mkTask TDefer x))
| s_done : forall s j x, at_t s j TDefer x ->
    step n s (set_wg (set_task s j (mkTask TEnd x)) (wg s - 1)).

(** Executions. *)
Inductive steps (n : Z) : nat -> state -> state -> Prop :=
| steps_0 : forall s, steps n 0 s s
| steps_S : forall m s s1 s2, steps n m s s1 -> step n s1 s2 -> steps n (S m) s s2.
