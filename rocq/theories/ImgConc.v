(** BufferedPGMFToData (io/pgm.go:171-371). Everything up to the loop is sequential; then one goroutine
    per remaining file, at most nprocs at a time. The loop, nrun, cond and wg are those of
    SingleQueue.Run and Wait (conc/queue.go), statement by statement, so they are the transitions of
    Conc.v; here the function that a task runs is modelled too, with its mutex and its writes. Each call
    of fmt.Fprintf is one write. Files can be opened. *)
From Coq Require Import Ascii String.
From Verif Require Import Base Res GoMap Text Img Conc.
Local Open Scope string_scope.
Local Open Scope Z_scope.

(** io/pgm.go:171-303: the sizes returned, what is written so far, and the remaining files with their
    labels. files[0] panics without files. *)
Definition bufferedHead (dir : listing) : res (Z * Z * Z * string * list (string * Z)) :=
  subs <- subdirs dir;
  ins <- subfiles subs 0;
  match ins with
  | [] => Panic
  | f0 :: rest =>
      let '(w, h, max) := pgmSizes (fst f0) in
      let tt := w * h in
      Ok (w, h, max,
          prints (fun i => declare1 i (max + 1)) (upto tt) ++ declare1 tt (Z.of_nat (List.length subs)) ++ pgmRow f0,
          rest)
  end.

(** io/pgm.go:338-351: the values of a file and its label. *)
Definition fileVals (fl : string * Z) : list Z := (pgmPixels (fst fl) ++ [snd fl])%list.

(** Where a task is inside its function, io/pgm.go:321-360. *)
Inductive bpc :=
| BLock                   (* :322 mutex.Lock() *)
| BOpen                   (* :324-329 holds mutex: opens the file and unlocks *)
| BRead                   (* :331-351 reads *)
| BVals (vals : list Z)   (* :353 mutex.Lock() *)
| BWrite (rest : list Z)  (* :354-357 holds mutex: values still to be written *)
| BUnlock                 (* :358 holds mutex: mutex.Unlock() *)
| BEnd.                   (* :360 lf.Close() *)

(** The state of the queue, of each task's function, whether mutex is locked, and the file written. *)
Record bstate := mkB { queue : state; bodies : list bpc; mutex : bool; out : string }.
Definition binitial (files : list (string * Z)) (head : string) : bstate :=
  mkB (initial [(seq 0 (List.length files), true)]) (map (fun _ => BLock) files) false head.

(** io/pgm.go:354-357: the last value is followed by a newline, the others by a blank. *)
Definition writeVal (v : Z) (last : bool) : string := if last then itoa v ++ newline else itoa v ++ " ".

Inductive bstep (n : Z) (files : list (string * Z)) : bstate -> bstate -> Prop :=
| b_queue q q' bs mu o : step n q q' -> finished q' = finished q -> bstep n files (mkB q bs mu o) (mkB q' bs mu o)
| b_return q q' bs mu o x : step n q q' -> finished q' = (finished q ++ [x])%list -> nth_error bs x = Some BEnd ->
    bstep n files (mkB q bs mu o) (mkB q' bs mu o)
| b_lock q bs o j x : at_t q j TRunning x -> nth_error bs x = Some BLock ->
    bstep n files (mkB q bs false o) (mkB q (set_nth x BOpen bs) true o)
| b_open q bs mu o j x : at_t q j TRunning x -> nth_error bs x = Some BOpen ->
    bstep n files (mkB q bs mu o) (mkB q (set_nth x BRead bs) false o)
| b_read q bs mu o j x fl : at_t q j TRunning x -> nth_error bs x = Some BRead -> nth_error files x = Some fl ->
    bstep n files (mkB q bs mu o) (mkB q (set_nth x (BVals (fileVals fl)) bs) mu o)
| b_lock2 q bs o j x vals : at_t q j TRunning x -> nth_error bs x = Some (BVals vals) ->
    bstep n files (mkB q bs false o) (mkB q (set_nth x (BWrite vals) bs) true o)
| b_write q bs mu o j x v u t : at_t q j TRunning x -> nth_error bs x = Some (BWrite (v :: u :: t)) ->
    bstep n files (mkB q bs mu o) (mkB q (set_nth x (BWrite (u :: t)) bs) mu (o ++ writeVal v false))
| b_write_last q bs mu o j x v : at_t q j TRunning x -> nth_error bs x = Some (BWrite [v]) ->
    bstep n files (mkB q bs mu o) (mkB q (set_nth x BUnlock bs) mu (o ++ writeVal v true))
| b_unlock q bs mu o j x : at_t q j TRunning x -> nth_error bs x = Some BUnlock ->
    bstep n files (mkB q bs mu o) (mkB q (set_nth x BEnd bs) false o).

(** Executions. *)
Inductive bsteps (n : Z) (files : list (string * Z)) : nat -> bstate -> bstate -> Prop :=
| bsteps_0 s : bsteps n files 0 s s
| bsteps_S m s s1 s2 : bsteps n files m s s1 -> bstep n files s1 s2 -> bsteps n files (S m) s s2.
