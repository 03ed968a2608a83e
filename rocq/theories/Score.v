(** Model of /repo/score/score.go. A slice of predictions is an array and a length; the capacity is
    the length of the array (no slice here starts inside an array). Array 0 is empty: the nil slice.
    Pairs are (predicted, expected). Counters are unbounded. *)
From Verif Require Import Base Res Arith GoMap Data.
Local Open Scope Z_scope.

(** score/score.go:16-21. *)
Record score := mkS { hits : Z; misses : Z; total : Z; arr : nat; len : nat }.
(** All arrays and all scores of the program. *)
Record world := mkW { arrs : nat -> list (Z * Z); anext : nat; objs : list score }.
Definition world0 : world := mkW (fun _ => []) 1 [].

(** The elements of a score's predictions. *)
Definition view (w : world) (s : score) : list (Z * Z) := firstn (len s) (arrs w (arr s)).

Section Score.
(** The capacity the runtime gives a grown slice: occasion, old capacity, needed length. A smaller
    answer than needed counts as the needed length. *)
Variable grow : nat -> nat -> nat -> nat.

(** Go's append: in place if the capacity suffices, otherwise into a new array. *)
Definition append (w : world) (a n : nat) (xs : list (Z * Z)) : world * nat * nat :=
  let cells := arrs w a in
  let m := (n + length xs)%nat in
  if (m <=? length cells)%nat
  then (mkW (upd (arrs w) a (firstn n cells ++ xs ++ skipn m cells)) (anext w) (objs w), a, m)
  else
    let c := grow (anext w) (length cells) m in
    (mkW (upd (arrs w) (anext w) (firstn n cells ++ xs ++ repeat (0, 0) (c - m))) (S (anext w)) (objs w), anext w, m).

Definition setObj (w : world) (s : nat) (sc : score) : world := mkW (arrs w) (anext w) (set_nth s sc (objs w)).

(** score/score.go:30. *)
Definition newScore (w : world) : world * nat := (mkW (arrs w) (anext w) (objs w ++ [mkS 0 0 0 0 0]), length (objs w)).

(** score/score.go:42-50. *)
Definition register (w : world) (s : nat) (predicted expected : Z) : res world :=
  sc <- idx (objs w) s;
  let h := if predicted =? expected then hits sc + 1 else hits sc in
  let m := if predicted =? expected then misses sc else misses sc + 1 in
  let '(w', a, n) := append w (arr sc) (len sc) [(predicted, expected)] in
  Ok (setObj w' s (mkS h m (total sc + 1) a n)).

(** score/score.go:194-199. *)
Definition merge (w : world) (s t : nat) : res world :=
  ss <- idx (objs w) s; st <- idx (objs w) t;
  let '(w', a, n) := append w (arr ss) (len ss) (view w st) in
  Ok (setObj w' s (mkS (hits ss + hits st) (misses ss + misses st) (total ss + total st) a n)).

(** score/score.go:203-210. *)
Definition add (w : world) (s t : nat) : res (world * nat) :=
  ss <- idx (objs w) s; st <- idx (objs w) t;
  let (w1, m) := newScore w in
  let '(w2, a, n) := append w1 (arr ss) (len ss) (view w1 st) in
  Ok (setObj w2 m (mkS (hits ss + hits st) (misses ss + misses st) (total ss + total st) a n), m).

(** score/score.go:223-226. *)
Definition clear (w : world) (s : nat) : res world :=
  sc <- idx (objs w) s; Ok (setObj w s (mkS 0 0 0 0 0)).

(** A client program: calls on scores, which are numbered in the order of their creation. *)
Inductive call := CNew | CRegister (s : nat) (predicted expected : Z) | CMerge (s t : nat) | CAdd (s t : nat) | CClear (s : nat).
Definition perform (w : world) (c : call) : res world :=
  match c with
  | CNew => Ok (fst (newScore w))
  | CRegister s p e => register w s p e
  | CMerge s t => merge w s t
  | CAdd s t => r <- add w s t; Ok (fst r)
  | CClear s => clear w s
  end.
Definition performs (cs : list call) : res world := foldr_ perform cs world0.

(** score/score.go:182-191. *)
Definition confusionMatrix (w : world) (s : score) (c : Z) : res (list (list Z)) :=
  if c <? 0 then Panic else
  foldr_ (fun M p =>
      row <- idxZ M (snd p); x <- idxZ row (fst p);
      Ok (set_nth (Z.to_nat (snd p)) (set_nth (Z.to_nat (fst p)) (x + 1) row) M))
    (view w s) (repeat (repeat 0 (Z.to_nat c)) (Z.to_nat c)).

(** score/score.go:76 and 97: i > 0 && i%n == 0 divides by zero if n = 0. *)
Definition progress (i n : nat) : res unit := if (0 <? i)%nat && (n =? 0)%nat then Panic else Ok tt.

(** score/score.go:69-86. [smap] is the third result of spn.StoreMAP for an evidence, which the call
    leaves alone. Nothing reads the row between its deletion and its restoration except that call, so
    it is written back once. *)
Definition evaluate (smap : gmap -> res gmap) (h : heap) (w : world) (s : nat) (T : list nat) (L : list Z) (v : Z) : res (heap * world) :=
  let n := (length T / 10)%nat in
  foldi (fun i (st : heap * world) r =>
      let (h, w) := st in
      _ <- progress i n;
      let l := get0 (mem h r) v in
      let I1 := del (mem h r) v in
      M <- smap I1;
      e <- idx L i;
      w' <- register w s (get0 M v) e;
      Ok (store h r (put I1 v l), w')) T (h, w).

Section Posterior.
Context {A : arith}.
Variable value : gmap -> res (F A).   (* StoreInference followed by st.Single(tk, N) *)

(** score/score.go:101-115 and 152-166: hide v, try every label. The result is the map left behind and
    the label. Both loops only touch their own map. *)
Definition posterior (v c : Z) (I : gmap) : res (gmap * Z) :=
  pe <- value (del I v);
  r <- foldr_ (fun (st : gmap * F A * Z) j =>
         let '(J, mp, ml) := st in
         let I1 := put J v j in
         pj <- value I1;
         let pd := fsub pj pe in
         Ok (if fgt pd mp then (del I1 v, pd, j) else (del I1 v, mp, ml)))
       (map Z.of_nat (seq 0 (Z.to_nat c))) (del I v, fninf, 0);
  Ok (fst (fst r), snd r).

(** score/score.go:90-120. *)
Definition evaluatePosterior (h : heap) (w : world) (s : nat) (T : list nat) (L : list Z) (v c : Z) : res (heap * world) :=
  let n := (length T / 10)%nat in
  foldi (fun i (st : heap * world) r =>
      let (h, w) := st in
      _ <- progress i n;
      let l := get0 (mem h r) v in
      q <- posterior v c (mem h r);
      e <- idx L i;
      w' <- register w s (snd q) e;
      Ok (store h r (put (fst q) v l), w')) T (h, w).

(** The goroutines of score/score.go:146-176: for each the instances still to do with their labels.
    The computation on an instance touches nothing the others see and Register happens under the
    mutex, so one instance is one step. *)
Record jobs := mkJ { jheap : heap; jworld : world; todo : list (list (nat * Z)) }.

(** score/score.go:151-174. [None]: job id has nothing to do. [size] is len(D). *)
Definition jobStep (s : nat) (v c : Z) (size : nat) (j : jobs) (id : nat) : option (res jobs) :=
  match nth_error (todo j) id with
  | Some ((r, e) :: rest) => Some (
      q <- posterior v c (mem (jheap j) r);
      w' <- register (jworld j) s (snd q) e;
      sc <- idx (objs w') s;
      if (0 <? total sc) && (size / 10 =? 0)%nat then Panic
      else Ok (mkJ (store (jheap j) r (fst q)) w' (set_nth id rest (todo j))))
  | _ => None
  end.

(** score/score.go:134-178. Either the sequential evaluation, or what the k jobs start from, after
    G[id] and H[id] are taken. [ncpu] is runtime.NumCPU(). *)
Definition evaluatePosteriorConc (ord : nat -> gmap -> gmap) (ncpu : Z) (h : heap) (w : world) (s : nat) (D : list nat) (L : list Z) (v c k : Z)
  : res (heap * world) + res jobs :=
  if Z.of_nat (length D) <? k then inl (evaluatePosterior h w s D L v c) else inr (
    let k := if k <=? 0 then ncpu else k in
    g <- divide ord h D L k;
    let '(h', G, H) := g in
    ws <- mapi (fun id _ => g <- idx G id; l <- idx H id; Ok (combine g l)) (repeat tt (Z.to_nat k));
    Ok (mkJ h' w ws)).
End Posterior.
End Score.
