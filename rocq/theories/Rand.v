(** The shared random generator of /repo/sys/rand.go and its callers in several goroutines. *)
From Verif Require Import Base Res.
Local Open Scope nat_scope.

Section Rand.
(** math/rand: the state of a generator, rand.New(rand.NewSource(s)), the kinds of draws (Intn with its
    argument, Float64, NormFloat64) and what a draw gives and leaves. *)
Variables G O V : Type.
Variable src : Z -> G.
Variable step : O -> G -> V * G.

(** sys/rand.go:20-26 (RefreshRandom) and 28-47 (RandIntn, RandFloat64, RandNormFloat64). *)
Inductive op := Refresh (s : Z) | Draw (o : O).

(** What a call returns: a generator, by its address, or a value. *)
Inductive ret := RGen (p : nat) | RVal (v : V).

(** Where a goroutine is in its call: before mu.Lock; after it; after reading the state of the generator
    (29-31: Random.Intn reads it and writes it back); after writing it back, before mu.Unlock; after
    mu.Unlock, before returning. *)
Inductive phase := Idle | Held | Seen (g : G) | Wrote (v : option V) | Left (v : option V).

(** A goroutine: the calls to be made, its place in the first of them, what the others returned. *)
Record thread := mkThread { todo : list op; ph : phase; got : list ret }.

(** sys/rand.go:8-12: mu, seed, Random (an address), the generators made so far; the goroutines; and the
    calls in the order in which they took effect, with the value drawn. *)
Record config := mkConfig { lock : bool; seed : Z; heap : list G; cur : nat; thr : nat -> thread; hist : list (nat * op * option V) }.

(** sys/rand.go:14-17: init. *)
Definition start (progs : nat -> list op) : config :=
  mkConfig false 101010101 [src 101010101] 0 (fun t => mkThread (progs t) Idle []) [].

Definition upd (f : nat -> thread) (t : nat) (x : thread) : nat -> thread := fun u => if u =? t then x else f u.

(** One step of goroutine [t]; None when it cannot move. *)
Definition tick (t : nat) (c : config) : option config :=
  let th := thr c t in
  match ph th, todo th with
  | Idle, _ :: _ => if lock c then None
                    else Some (mkConfig true (seed c) (heap c) (cur c) (upd (thr c) t (mkThread (todo th) Held (got th))) (hist c))
  | Held, Refresh s :: _ =>
      Some (mkConfig (lock c) s (heap c ++ [src s]) (length (heap c))
              (upd (thr c) t (mkThread (todo th) (Wrote None) (got th))) (hist c ++ [(t, Refresh s, None)]))
  | Held, Draw o :: _ =>
      match nth_error (heap c) (cur c) with
      | Some g => Some (mkConfig (lock c) (seed c) (heap c) (cur c) (upd (thr c) t (mkThread (todo th) (Seen g) (got th))) (hist c))
      | None => None
      end
  | Seen g, Draw o :: _ =>
      let (v, g') := step o g in
      Some (mkConfig (lock c) (seed c) (set_nth (cur c) g' (heap c)) (cur c)
              (upd (thr c) t (mkThread (todo th) (Wrote (Some v)) (got th))) (hist c ++ [(t, Draw o, Some v)]))
  | Wrote v, _ => Some (mkConfig false (seed c) (heap c) (cur c) (upd (thr c) t (mkThread (todo th) (Left v) (got th))) (hist c))
  | Left (Some v), _ :: l => Some (mkConfig (lock c) (seed c) (heap c) (cur c) (upd (thr c) t (mkThread l Idle (got th ++ [RVal v]))) (hist c))
  (** sys/rand.go:25: Random is read after mu.Unlock. *)
  | Left None, _ :: l => Some (mkConfig (lock c) (seed c) (heap c) (cur c) (upd (thr c) t (mkThread l Idle (got th ++ [RGen (cur c)]))) (hist c))
  | _, _ => None
  end.

(** A schedule names the goroutine that moves next; one that cannot move waits. *)
Fixpoint runs (sched : list nat) (c : config) : config :=
  match sched with
  | [] => c
  | t :: l => runs l (match tick t c with Some c' => c' | None => c end)
  end.

(** What is observed of a history: the seedings and the values drawn, the calls and the values of one
    goroutine, the values a goroutine was given. *)
Definition events (h : list (nat * op * option V)) : list (Z + O * V) :=
  flat_map (fun e => match e with (_, Refresh s, _) => [inl s] | (_, Draw o, Some v) => [inr (o, v)] | _ => [] end) h.
Definition own (t : nat) (h : list (nat * op * option V)) := filter (fun e => fst (fst e) =? t) h.
Definition calls (h : list (nat * op * option V)) : list op := map (fun e => snd (fst e)) h.
Definition drawn (h : list (nat * op * option V)) : list V := flat_map (fun e => match snd e with Some v => [v] | None => [] end) h.
Definition given (l : list ret) : list V := flat_map (fun r => match r with RVal v => [v] | RGen _ => [] end) l.

(** sys/rand.go:50. *)
Definition seedOf (c : config) : Z := seed c.
End Rand.
