(** C110: the shared random generator. *)
From Verif Require Import Base Res Rand RandSpec RandLemmas.
Local Open Scope nat_scope.

(** For any generators, goroutines and schedules: there is one order of all calls, in which each goroutine's
    calls are in its own order; in it the values drawn after a RefreshRandom(s), up to the next one, are
    those of one generator with seed s, whatever happened before; and each goroutine is given the values of
    its own calls. *)
Theorem rand_linearizable : forall (G O V : Type) (src : Z -> G) (step : O -> G -> V * G) (progs : nat -> list (op O)) (sched : list nat),
  let c := runs G O V src step sched (start G O V src progs) in
  seeded G O V src step 101010101 (events O V (hist G O V c)) /\ length (events O V (hist G O V c)) = length (hist G O V c) /\
  forall t, (exists rest, progs t = calls O V (own O V t (hist G O V c)) ++ rest) /\
    (exists rest, drawn O V (own O V t (hist G O V c)) = given V (got G O V (thr G O V c t)) ++ rest /\ length rest <= 1) /\
    (todo G O V (thr G O V c t) = [] -> calls O V (own O V t (hist G O V c)) = progs t /\
       given V (got G O V (thr G O V c t)) = drawn O V (own O V t (hist G O V c))).
Proof. exact linear_l. Qed.
Print Assumptions rand_linearizable.

(** Seed returns the seed set last. *)
Theorem rand_seed : forall (G O V : Type) (src : Z -> G) (step : O -> G -> V * G) progs sched,
  let c := runs G O V src step sched (start G O V src progs) in
  seedOf G O V c = last_seed O V 101010101 (events O V (hist G O V c)).
Proof. exact seed_l. Qed.
Print Assumptions rand_seed.
Example rand_seed_case :
  let c := runs Z unit Z (fun s => s) countStep [1; 1; 1; 1; 1; 0; 0; 0; 0] (start Z unit Z (fun s => s) (two unit (Draw unit tt) (Refresh unit 5))) in
  seedOf Z unit Z c = 5%Z /\ length (hist Z unit Z c) = 2.
Proof. vm_compute. auto. Qed.

(** The calls come to an end: as long as a goroutine has calls to make, one of them can move. *)
Theorem rand_no_deadlock : forall (G O V : Type) (src : Z -> G) (step : O -> G -> V * G) progs sched,
  let c := runs G O V src step sched (start G O V src progs) in
  (exists t, todo G O V (thr G O V c t) <> []) -> exists u c', tick G O V src step u c = Some c'.
Proof. exact progress_l. Qed.
Print Assumptions rand_no_deadlock.

(** Two goroutines, one of which sets the seed; the generator counts. *)
Example rand_linearizable_case :
  let c := runs Z unit Z (fun s => s) countStep [0; 0; 1; 0; 0; 1; 1; 1; 1; 0; 0; 0; 0; 0; 0; 0; 0; 0; 0; 0]
             (start Z unit Z (fun s => s) (fun t => match t with 0 => [Refresh unit 7; Draw unit tt; Draw unit tt] | 1 => [Draw unit tt] | _ => [] end)) in
  given Z (got Z unit Z (thr Z unit Z c 0)) = [8%Z; 9%Z] /\
  hist Z unit Z c = [(0, Refresh unit 7, None); (1, Draw unit tt, Some 7%Z); (0, Draw unit tt, Some 8%Z); (0, Draw unit tt, Some 9%Z)].
Proof. vm_compute. auto. Qed.

(** RefreshRandom(s) returns a generator with seed s, if no other call took effect since. *)
Theorem refresh_returns_partial : forall (G O V : Type) (src : Z -> G) (step : O -> G -> V * G) progs sched t s l h,
  let c := runs G O V src step sched (start G O V src progs) in
  todo G O V (thr G O V c t) = Refresh O s :: l -> ph G O V (thr G O V c t) = Left G V None ->
  hist G O V c = h ++ [(t, Refresh O s, None)] ->
  exists c' p, tick G O V src step t c = Some c' /\ got G O V (thr G O V c' t) = got G O V (thr G O V c t) ++ [RGen V p] /\
    nth_error (heap G O V c') p = Some (src s).
Proof. exact returned_l. Qed.
Print Assumptions refresh_returns_partial.
Example refresh_returns_case : let c := runs Z unit Z (fun s => s) countStep [1; 1; 1] (start Z unit Z (fun s => s) (two unit (Draw unit tt) (Refresh unit 5))) in
  todo Z unit Z (thr Z unit Z c 1) = Refresh unit 5 :: [] /\ ph Z unit Z (thr Z unit Z c 1) = Left Z Z None /\ hist Z unit Z c = [] ++ [(1, Refresh unit 5, None)].
Proof. vm_compute. auto. Qed.

(** In general it does not: Random is read after the lock is released, so that of two goroutines one may be
    given the other's generator. *)
Theorem refresh_returns_refuted : forall (G O V : Type) (src : Z -> G) (step : O -> G -> V * G) (s s' : Z),
  exists sched, let c := runs G O V src step sched (start G O V src (two O (Refresh O s) (Refresh O s'))) in
  exists p, got G O V (thr G O V c 0) = [RGen V p] /\ nth_error (heap G O V c) p = Some (src s').
Proof. exact wrong_gen_l. Qed.
Print Assumptions refresh_returns_refuted.

(** A program with several goroutines is not reproducible, though the generator has a fixed seed: which of
    them is given which value depends on the schedule. *)
Theorem rand_reproducible_refuted : forall (G O V : Type) (src : Z -> G) (step : O -> G -> V * G) (o : O),
  fst (step o (src 101010101%Z)) <> fst (step o (snd (step o (src 101010101%Z)))) ->
  exists sched sched', let c := runs G O V src step sched (start G O V src (two O (Draw O o) (Draw O o))) in
    let c' := runs G O V src step sched' (start G O V src (two O (Draw O o) (Draw O o))) in
  (forall t, todo G O V (thr G O V c t) = [] /\ todo G O V (thr G O V c' t) = []) /\
  given V (got G O V (thr G O V c 0)) <> given V (got G O V (thr G O V c' 0)).
Proof. exact schedules_l. Qed.
Print Assumptions rand_reproducible_refuted.
Example rand_reproducible_case : fst (countStep tt 101010101%Z) <> fst (countStep tt (snd (countStep tt 101010101%Z))).
Proof. vm_compute. discriminate. Qed.
