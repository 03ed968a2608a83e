(** What scores mean, independently of the code. *)
From Coq Require Import Reals.
From Verif Require Import Base Res Arith LogSpec GoMap Score.
Local Open Scope Z_scope.

Definition matches (p : Z * Z) : bool := fst p =? snd p.
(** The list of predictions of every score after a client's calls. *)
Definition says (st : list (list (Z * Z))) (c : call) : list (list (Z * Z)) :=
  let of s := nth s st [] in
  match c with
  | CNew => st ++ [[]]
  | CRegister s p e => set_nth s (of s ++ [(p, e)]) st
  | CMerge s t => set_nth s (of s ++ of t) st
  | CAdd s t => st ++ [of s ++ of t]
  | CClear s => set_nth s [] st
  end.
Definition recorded (cs : list call) : list (list (Z * Z)) := fold_left says cs [].
(** Calls on scores that exist. *)
Definition refers_ok (n : nat) (c : call) : Prop :=
  match c with CNew => True | CRegister s _ _ | CClear s => (s < n)%nat | CMerge s t | CAdd s t => (s < n)%nat /\ (t < n)%nat end.
Definition creates (c : call) : nat := match c with CNew | CAdd _ _ => 1 | _ => 0 end.
Fixpoint well_formed (n : nat) (cs : list call) : Prop :=
  match cs with [] => True | c :: t => refers_ok n c /\ well_formed (n + creates c) t end.
Definition no_add (cs : list call) : Prop := forall s t, ~ In (CAdd s t) cs.

(** The counters of a score agree with a list of predictions. *)
Definition tallies (sc : score) (l : list (Z * Z)) : Prop :=
  hits sc = Z.of_nat (length (filter matches l)) /\
  misses sc = Z.of_nat (length (filter (fun p => negb (matches p)) l)) /\
  hits sc + misses sc = total sc /\ total sc = Z.of_nat (length l).

(** Matrices. *)
Definition cell (M : list (list Z)) (i j : nat) : Z := nth j (nth i M []) 0.
Definition sum (l : list Z) : Z := fold_right Z.add 0 l.
Definition total_of (M : list (list Z)) : Z := sum (map sum M).
Definition trace_of (M : list (list Z)) : Z := sum (map (fun i => cell M i i) (seq 0 (length M))).
Definition square (n : nat) (M : list (list Z)) : Prop := length M = n /\ forall row, In row M -> length row = n.
Definition pair_dec (x y : Z * Z) : {x = y} + {x <> y}.
Proof. decide equality; apply Z.eq_dec. Defined.

(** The runtime's usual growth of a small slice: at least double. *)
Definition go_grow (_ cap need : nat) : nat := if (2 * cap <? need)%nat then need else (2 * cap)%nat.

(** All other scores. *)
Definition others_kept (w w' : world) (s : nat) : Prop :=
  forall t sc, t <> s -> nth_error (objs w) t = Some sc -> nth_error (objs w') t = Some sc /\ view w' sc = view w sc.

(** Every slice lies inside its array, array 0 is empty. *)
Definition fits (w : world) (sc : score) : Prop := (len sc <= length (arrs w (arr sc)))%nat /\ (arr sc < anext w)%nat.
Definition wf (w : world) : Prop := arrs w 0%nat = [] /\ (0 < anext w)%nat /\ forall i sc, nth_error (objs w) i = Some sc -> fits w sc.

(** A score without spare capacity. *)
Definition full (w : world) (s : nat) : Prop := forall sc, nth_error (objs w) s = Some sc -> len sc = length (arrs w (arr sc)).
(** Every Add of the program finds its first operand without spare capacity. *)
Definition adds_full (grow : nat -> nat -> nat -> nat) (cs : list call) : Prop :=
  forall pre s t post w, cs = pre ++ CAdd s t :: post -> performs grow pre = Ok w -> full w s.

(** Score s grew by exactly the predictions ps. *)
Definition grown (w w' : world) (s : nat) (ps : list (Z * Z)) : Prop :=
  exists sc sc', nth_error (objs w) s = Some sc /\ nth_error (objs w') s = Some sc' /\
    view w' sc' = view w sc ++ ps /\ total sc' = total sc + Z.of_nat (length ps) /\
    hits sc' = hits sc + Z.of_nat (length (filter matches ps)) /\
    misses sc' = misses sc + Z.of_nat (length (filter (fun p => negb (matches p)) ps)) /\
    length (objs w') = length (objs w) /\ forall t, t <> s -> nth_error (objs w') t = nth_error (objs w) t.

(** m is the first of 0, ..., c - 1 for which q is largest. *)
Definition first_max (q : nat -> R) (c m : nat) : Prop :=
  (m < c)%nat /\ (forall j, (j < c)%nat -> (q j <= q m)%R) /\ (forall j, (j < m)%nat -> (q j < q m)%R).
(** The evidence without v is possible; with v it has a log-space value. *)
Definition possible (value : gmap -> res xreal) (v : Z) (c : nat) (I : gmap) : Prop :=
  (exists e, value (del I v) = Ok (Fin e)) /\ forall j, (j < c)%nat -> exists x, value (put I v (Z.of_nat j)) = Ok x /\ logval x.
(** l is the most probable of the labels 0, ..., c - 1 of v given the other variables of I, the first
    one if there are several. *)
Definition classified (value : gmap -> res xreal) (v : Z) (c : nat) (I : gmap) (l : Z) : Prop :=
  exists q m, (forall j, (j < c)%nat -> exists x, value (put I v (Z.of_nat j)) = Ok x /\ q j = lin x) /\ first_max q c m /\ l = Z.of_nat m.

(** Executions of the concurrent evaluation: any job may do its next instance. *)
Inductive reaches (step : jobs -> nat -> option (res jobs)) (j : jobs) : nat -> jobs -> Prop :=
| here : reaches step j 0 j
| more n j1 id j2 : reaches step j n j1 -> step j1 id = Some (Ok j2) -> reaches step j (S n) j2.
Definition finished (j : jobs) : Prop := forall l, In l (todo j) -> l = [].
