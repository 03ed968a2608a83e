(** The image completion jobs of /repo/app/image.go: ImgTest, one instance after another, and
    ImgTestParallel and ImgCompletion, one goroutine per instance and at most nprocs at a time. The loop,
    nrun, cond and wg are those of SingleQueue.Run and Wait (conc/queue.go), statement by statement, so
    they are the transitions of Conc.v; the function that a goroutine runs, cpmutex and the loop variable
    are modelled here. A row comes with its label, and the learner with StoreMAP on the network it returns
    is a function of the job and its training data. Writing a picture is one step. *)
From Coq Require Import Ascii String.
From Verif Require Import Base Res GoMap Text Img Misc ImgCmpl Conc.
Local Open Scope string_scope.
Local Open Scope Z_scope.

(** io/output.go:14-33: the text of an orientation, and the two lists of them. *)
Definition cmplText (v : cmplType) : string := match v with Top => "TOP" | Bottom => "BOTTOM" | Left => "LEFT" | Right => "RIGHT" end.
Definition Quadrants : list cmplType := [Top; Right; Left; Bottom].
Definition Orientations : list cmplType := [Top; Bottom; Left; Right].

(** The files: the last one written with a name is the one that stays. *)
Definition files := list (string * string).
Fixpoint lookup (d : files) (nm : string) : option string :=
  match d with [] => None | (k, c) :: t => if String.eqb k nm then Some c else lookup t nm end.

Section Job.
Context (learn : nat -> list gmap -> gmap -> res gmap) (rows : list (gmap * Z)) (w h : nat) (max : Z).

(** app/image.go:367-372 and 302-308: the instances other than [id] that [keep] admits by label. *)
Definition trainOn (keep : Z -> bool) (id : nat) : list gmap :=
  map (fun jr => fst (snd jr)) (filter (fun jr => negb (Nat.eqb id (fst jr)) && keep (snd (snd jr))) (combine (seq 0 (List.length rows)) rows)).

(** app/image.go:366-383, the picture of instance [id] with orientation [v]. *)
Definition completionJob (id : nat) (v : cmplType) : res string :=
  il <- idx rows id;
  ch <- halfImg (learn id (trainOn (fun l => negb (l =? snd il)) id)) (fst il) v w h;
  Ok (imgCmplToPGM (snd ch) (fst ch) v (Z.of_nat w) (Z.of_nat h) max).
(** app/image.go:302-315. *)
Definition testJob (id : nat) (v : cmplType) : res string :=
  il <- idx rows id;
  ch <- halfImg (learn id (trainOn (fun _ => true) id)) (fst il) v w h;
  Ok (imgCmplToPGM (snd ch) (fst ch) v (Z.of_nat w) (Z.of_nat h) max).
(** app/image.go:382 and 314. *)
Definition completionName (id : nat) (i : Z) (v : cmplType) : string := "cmpl_" ++ itoa (Z.of_nat id) ++ "-" ++ cmplText v ++ ".pgm".
Definition testName (id : nat) (i : Z) (v : cmplType) : string := "cmpl_" ++ cmplText v ++ "_" ++ itoa i ++ ".pgm".

(** app/image.go:237-261, the files it leaves. The line is drawn for io.Left. *)
Definition imgTest : res files :=
  foldr_ (fun d id =>
    il <- idx rows id;
    foldr_ (fun d q =>
      ch <- halfImg (learn id (trainOn (fun _ => true) id)) (fst il) q w h;
      Ok ((testName id (Z.of_nat id) q, imgCmplToPGM (snd ch) (fst ch) Left (Z.of_nat w) (Z.of_nat h) max) :: d)) Quadrants d)
    (seq 0 (List.length rows)) [].
End Job.

(** Where a goroutine is inside its function, app/image.go:287-325 and 354-397. *)
Inductive jpc :=
| JLock                          (* cpmutex.Lock() *)
| JCopy                          (* holds cpmutex: copies and unlocks *)
| JDraw (todo : list cmplType)   (* pictures still to be drawn *)
| JEnd.

(** The queue, the functions, cpmutex, the variable of the loop over the instances, and the files. *)
Record jstate := mkJ { jqueue : state; jbodies : list jpc; cpmutex : bool; loopvar : Z; disk : files }.
Definition jinitial (ndata : nat) : jstate :=
  mkJ (initial [(seq 0 ndata, true)]) (repeat JLock ndata) false 0 [].

(** The goroutine was started and the loop has not yet reached i++. *)
Definition incPending (ndata : nat) (q : state) (i : Z) : Prop :=
  exists td wt, at_c q 0 CIdle td wt /\ i + Z.of_nat (List.length td) < Z.of_nat ndata.

(** [nameOf id i v] is the name of the file that instance [id] writes while the loop variable is [i]. *)
Inductive jstep (n : Z) (ndata : nat) (orients : list cmplType) (nameOf : nat -> Z -> cmplType -> string) (draw : nat -> cmplType -> res string) :
  jstate -> jstate -> Prop :=
| j_queue q q' bs mu i d : step n q q' -> finished q' = finished q -> (incPending ndata q i -> callers q' = callers q) ->
    jstep n ndata orients nameOf draw (mkJ q bs mu i d) (mkJ q' bs mu i d)
| j_incr q bs mu i d : incPending ndata q i -> jstep n ndata orients nameOf draw (mkJ q bs mu i d) (mkJ q bs mu (i + 1) d)
| j_return q q' bs mu i d x : step n q q' -> finished q' = (finished q ++ [x])%list -> nth_error bs x = Some JEnd ->
    jstep n ndata orients nameOf draw (mkJ q bs mu i d) (mkJ q' bs mu i d)
| j_lock q bs i d j x : at_t q j TRunning x -> nth_error bs x = Some JLock ->
    jstep n ndata orients nameOf draw (mkJ q bs false i d) (mkJ q (set_nth x JCopy bs) true i d)
| j_copy q bs mu i d j x : at_t q j TRunning x -> nth_error bs x = Some JCopy ->
    jstep n ndata orients nameOf draw (mkJ q bs mu i d) (mkJ q (set_nth x (JDraw orients) bs) false i d)
| j_draw q bs mu i d j x v t c : at_t q j TRunning x -> nth_error bs x = Some (JDraw (v :: t)) -> draw x v = Ok c ->
    jstep n ndata orients nameOf draw (mkJ q bs mu i d) (mkJ q (set_nth x (JDraw t) bs) mu i ((nameOf x i v, c) :: d))
| j_drawn q bs mu i d j x : at_t q j TRunning x -> nth_error bs x = Some (JDraw []) ->
    jstep n ndata orients nameOf draw (mkJ q bs mu i d) (mkJ q (set_nth x JEnd bs) mu i d).

(** Executions. *)
Inductive jsteps (n : Z) (ndata : nat) (orients : list cmplType) (nameOf : nat -> Z -> cmplType -> string) (draw : nat -> cmplType -> res string) :
  nat -> jstate -> jstate -> Prop :=
| jsteps_0 s : jsteps n ndata orients nameOf draw 0 s s
| jsteps_S m s s1 s2 : jsteps n ndata orients nameOf draw m s s1 -> jstep n ndata orients nameOf draw s1 s2 -> jsteps n ndata orients nameOf draw (S m) s s2.

(** app/image.go:263-336, the concurrent part, and 340-404. *)
Definition parallelSteps (learn : nat -> list gmap -> gmap -> res gmap) (rows : list (gmap * Z)) (w h : nat) (max n : Z) (m : nat) (s : jstate) : Prop :=
  jsteps n (List.length rows) Quadrants testName (testJob learn rows w h max) m (jinitial (List.length rows)) s.
Definition completionSteps (learn : nat -> list gmap -> gmap -> res gmap) (rows : list (gmap * Z)) (w h : nat) (max n : Z) (m : nat) (s : jstate) : Prop :=
  jsteps n (List.length rows) Orientations completionName (completionJob learn rows w h max) m (jinitial (List.length rows)) s.
