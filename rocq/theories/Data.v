(** Model of /repo/data/manipulate.go. Datasets are slices of map references. A label slice that
    may be nil is an option. rand.Perm and rand.Shuffle are arguments. *)
From Verif Require Import Base Res Arith GoMap.
Local Open Scope Z_scope.

Section Data.
Variable ord : nat -> gmap -> gmap.

(** One copied row: data/manipulate.go, the pair make/copyMap, followed by append to the output. *)
Definition pushDup (st : heap * list nat) (r : nat) : heap * list nat :=
  let (h', r') := dup ord (fst st) r in (h', snd st ++ [r']).

(** data/manipulate.go:44-65: one instance. I is ranged over once; M[i] is a new map. *)
Definition extractRow (st : heap * list nat * list Z) (r : nat) : heap * list nat * list Z :=
  let '(h, M, L) := st in
  let I := mem h r in
  let es := ord (nxt h) I in
  let '(k, m) := fold_left (fun (s : Z * gmap) e => (if fst e >? fst s then fst e else fst s, put (snd s) (fst e) (snd e))) es (0, []) in
  let (h', r') := alloc h (del m k) in
  (h', M ++ [r'], L ++ [get0 I k]).
(** data/manipulate.go:44-65. The scope is returned unaltered; lv = S[len(S)-1] is left out. *)
Definition extractLabels (h : heap) (D : list nat) : heap * list nat * list Z :=
  fold_left extractRow D (h, [], []).

Section Rounding.
Context {A : arith}.
Variable fround : F A -> Z.   (* int(math.Round(x)) *)

(** data/manipulate.go:9-20. State: s, t, q. *)
Definition cascadeRounding (p : list (F A)) : list Z :=
  snd (fold_left (fun (st : F A * Z * list Z) pi =>
         let '(s, t, q) := st in
         let s' := fadd s pi in let qi := fround (fsub s' (fz t)) in (s', t + qi, q ++ [qi]))
       p (fz 0, 0, [])).

(** data/manipulate.go:83-87: s copies of D[R[k]], D[R[k+1]], ... *)
Fixpoint takeRows (s : nat) (h : heap) (D R : list nat) (k : nat) (out : list nat) : res (heap * list nat * nat) :=
  match s with
  | O => Ok (h, out, k)
  | S s' => i <- idx R k; r <- idx D i; let st := pushDup (h, out) r in takeRows s' (fst st) D R (S k) (snd st)
  end.

(** data/manipulate.go:71-90. R is rand.Perm(n). make([]map, s) panics for s < 0. *)
Definition partition (h : heap) (D : list nat) (R : list nat) (p : list (F A)) : res (heap * list (list nat)) :=
  let sizes := cascadeRounding (map (fun pi => fmul (fz (Z.of_nat (length D))) pi) p) in
  r <- foldr_ (fun (st : heap * list (list nat) * nat) s =>
         let '(h, M, k) := st in
         if s <? 0 then Panic
         else t <- takeRows (Z.to_nat s) h D R k [];
              Ok (fst (fst t), M ++ [snd (fst t)], snd t)) sizes (h, [], 0%nat);
  Ok (fst r).

(** data/manipulate.go:100-104: indices of the instances of each class. *)
Definition byClass (n : nat) (L : list Z) (c : Z) : res (list (list nat)) :=
  if c <? 0 then Panic else
  foldr_ (fun C i => l <- idx L i; cl <- idxZ C l; Ok (set_nth (Z.to_nat l) (cl ++ [i]) C))
         (seq 0 n) (repeat [] (Z.to_nat c)).

Variable ffloor : F A -> F A.   (* math.Floor *)
Variable fabs : F A -> F A.     (* math.Abs *)

(** data/manipulate.go:135-143: z rows of class j. K_j is the class's counter. *)
Fixpoint takeClass (z : nat) (h : heap) (D Rj Cj : list nat) (j : Z) (k : nat) (out : list nat) (lab : list Z)
  : res (heap * list nat * list Z * nat) :=
  match z with
  | O => Ok (h, out, lab, k)
  | S z' => l <- idx Rj k; u <- idx Cj l; r <- idx D u;
            let st := pushDup (h, out) r in takeClass z' (fst st) D Rj Cj j (S k) (snd st) (lab ++ [j])
  end.

(** data/manipulate.go:133-144: the classes of one part. *)
Definition takePart (D : list nat) (C R : list (list nat)) (Si : list Z) (h : heap) (K : list nat)
  : res (heap * list nat * list Z * list nat) :=
  foldi (fun j (st : heap * list nat * list Z * list nat) z =>
           let '(h, out, lab, K) := st in
           k <- idx K j; Rj <- idx R j; Cj <- idx C j;
           t <- takeClass (Z.to_nat z) h D Rj Cj (Z.of_nat j) k out lab;
           let '(h', out', lab', k') := t in Ok (h', out', lab', set_nth j k' K))
        Si (h, [], [], K).

(** data/manipulate.go:110-121: the sizes. Each part's sizes sum over classes is make's argument. *)
Definition partSizes (c : nat) (N : list nat) (p : list (F A)) : res (list (list Z)) :=
  mapi (fun _ pi => Ok (cascadeRounding (map (fun nj => ffloor (fmul (fz (Z.of_nat nj)) pi)) N))) p.

(** data/manipulate.go:147-155. *)
Definition furthest (n : nat) (M : list (list nat)) (p : list (F A)) : res nat :=
  r <- foldi (fun i (st : F A * nat) Mi =>
                pi <- idx p i;
                let u := fdiv (fz (Z.of_nat n)) (fz (Z.of_nat (length Mi))) in
                let du := fabs (fsub u pi) in
                Ok (if fgt du (fst st) then (du, i) else st)) M (fz 0, 0%nat);
  Ok (snd r).

(** data/manipulate.go:157-164: the leftovers of class i go to part di. Note D[l], not D[C[i][l]]. *)
Fixpoint leftClass (ls : list nat) (h : heap) (D : list nat) (i : Z) (out : list nat) (lab : list Z) : res (heap * list nat * list Z) :=
  match ls with
  | [] => Ok (h, out, lab)
  | l :: t => r <- idx D l; let st := pushDup (h, out) r in leftClass t (fst st) D i (snd st) (lab ++ [i])
  end.

(** data/manipulate.go:99-168. R is one rand.Perm per class. A part with a negative share for some
    class is shorter than the rows written into it, which panics. *)
Definition partitionByLabels (h : heap) (D : list nat) (L : list Z) (c : Z) (p : list (F A)) (R : list (list nat))
  : res (heap * list (list nat) * list (list Z)) :=
  C <- byClass (length D) L c;
  sizes <- partSizes (Z.to_nat c) (map (@length nat) C) p;
  r <- foldr_ (fun (st : heap * list (list nat) * list (list Z) * list nat) Si =>
         let '(h, M, U, K) := st in
         if fold_left Z.add Si 0 <? 0 then Panic else
         t <- takePart D C R Si h K;
         let '(h', out, lab, K') := t in
         if fold_left Z.add Si 0 <? Z.of_nat (length out) then Panic else Ok (h', M ++ [out], U ++ [lab], K')) sizes (h, [], [], repeat 0%nat (Z.to_nat c));
  let '(h, M, U, K) := r in
  di <- furthest (length D) M p;
  w <- foldi (fun i (st : heap * list (list nat) * list (list Z)) Ri =>
         let '(h, M, U) := st in
         k <- idx K i;
         match skipn k Ri with
         | [] => Ok st
         | ls =>
             Md <- idx M di; Ud <- idx U di;
             t <- leftClass ls h D (Z.of_nat i) Md Ud;
             let '(h', out, lab) := t in Ok (h', set_nth di out M, set_nth di lab U)
         end) R (h, M, U);
  Ok w.
End Rounding.

(** data/manipulate.go:173-181. *)
Definition split (h : heap) (D : list nat) (c : Z) (L : list Z) : res (heap * list (list nat)) :=
  if c <? 0 then Panic else
  foldi (fun i (st : heap * list (list nat)) l =>
           r <- idx D i;
           let (h', r') := dup ord (fst st) r in
           g <- idxZ (snd st) l; Ok (h', set_nth (Z.to_nat l) (g ++ [r']) (snd st)))
        L (h, repeat [] (Z.to_nat c)).

(** data/manipulate.go:184-202. *)
Definition copy (h : heap) (D : list nat) (L : option (list Z)) : res (heap * list nat * option (list Z)) :=
  match L with
  | Some l => if negb (Nat.eqb (length D) (length l)) then Panic else Ok (fold_left pushDup D (h, []), Some l)
  | None => Ok (fold_left pushDup D (h, []), None)
  end.

(** data/manipulate.go:205-215. [swaps] are the calls rand.Shuffle makes to its callback. *)
Definition swap {T} (l : list T) (i j : nat) : res (list T) :=
  a <- idx l i; b <- idx l j; Ok (set_nth j a (set_nth i b l)).
Definition shuffle (D : list nat) (L : option (list Z)) (swaps : list (nat * nat)) : res (list nat * option (list Z)) :=
  let go := foldr_ (fun (st : list nat * option (list Z)) ij =>
              D' <- swap (fst st) (fst ij) (snd ij);
              match snd st with
              | Some l => l' <- swap l (fst ij) (snd ij); Ok (D', Some l')
              | None => Ok (D', None)
              end) swaps (D, L) in
  match L with Some l => if negb (Nat.eqb (length D) (length l)) then Panic else go | None => go end.

(** data/manipulate.go:218-245. *)
Definition join (h : heap) (D E : list nat) (L M : option (list Z)) : res (heap * list nat * option (list Z)) :=
  match L, M with
  | Some l, Some m =>
      if negb (Nat.eqb (length l) (length D)) || negb (Nat.eqb (length m) (length E)) then Panic
      else Ok (fold_left pushDup E (fold_left pushDup D (h, [])), Some (l ++ m))
  | _, _ => Ok (fold_left pushDup E (fold_left pushDup D (h, [])), None)
  end.

(** data/manipulate.go:250-271. State: heap, S, P, T, Q. *)
Definition subtractLabel (h : heap) (D : list nat) (L : list Z) (l : Z) : res (heap * list nat * list Z * list nat * list Z) :=
  if negb (Nat.eqb (length L) (length D)) then Panic else
  foldi (fun i (st : heap * list nat * list Z * list nat * list Z) li =>
           let '(h, Sl, P, T, Q) := st in
           r <- idx D i;
           let (h', r') := dup ord h r in
           Ok (if li =? l then (h', Sl, P, T ++ [r'], Q ++ [l]) else (h', Sl ++ [r'], P ++ [li], T, Q)))
        L (h, [], [], [], []).

(** data/manipulate.go:276-288. *)
Definition subtractVariable (h : heap) (D : list nat) (u : Z) : heap * list nat :=
  fold_left (fun (st : heap * list nat) r =>
      let (h, E) := st in
      let m := fold_left (fun m e => if fst e =? u then m else put m (fst e) (snd e)) (ord (nxt h) (mem h r)) [] in
      let (h', r') := alloc h m in (h', E ++ [r'])) D (h, []).

(** data/manipulate.go:292-311. The inner loop may return early; it returns false iff some entry
    differs, in whatever order the entries come. *)
Definition identical (h : heap) (D E : list nat) (L M : option (list Z)) : res bool :=
  let rows := foldi (fun i (go : bool) r =>
       if go then s <- idx E i; Ok (forallb (fun e => snd e =? get0 (mem h s) (fst e)) (ord i (mem h r))) else Ok false) D true in
  let labels l m := foldi (fun i (go : bool) li => if go then mi <- idx m i; Ok (mi =? li) else Ok false) l true in
  let lab (l : option (list Z)) := match l with Some x => x | None => [] end in
  let go := b <- rows; if (b : bool) then labels (lab L) (lab M) else Ok false in
  match L, M with
  | Some l, Some m =>
      if negb (Nat.eqb (length l) (length D)) || negb (Nat.eqb (length m) (length E)) then Panic else go
  | _, _ => go
  end.

(** data/manipulate.go:316-325. *)
Definition mergeLabel (h : heap) (D : list nat) (L : list Z) (v : Z) : res (heap * list nat) :=
  foldi (fun i (st : heap * list nat) r =>
           let (h', r') := dup ord (fst st) r in
           l <- idx L i; Ok (store h' r' (put (mem h' r') v l), snd st ++ [r'])) D (h, []).

(** data/manipulate.go:329-362. For k = 0 the writes Gd[0][i] hit a nil slice. *)
Definition divide (h : heap) (D : list nat) (L : list Z) (n : Z) : res (heap * list (list nat) * list (list Z)) :=
  if n =? 0 then Panic else
  let m := Z.of_nat (length D) in
  let k := Z.quot m n in let l := Z.rem m n in
  if k =? 0 then match D with [] => Ok (h, [[]], [[]]) | _ => Panic end
  else if n <? 0 then Panic
  else
    let row (i p : nat) (st : heap * list (list nat) * list (list Z)) :=
      let '(h, Gd, Gl) := st in
      r <- idx D p;
      let (h', r') := dup ord h r in
      gd <- idx Gd i; gl <- idx Gl i; lp <- idx L p;
      Ok (h', set_nth i (gd ++ [r']) Gd, set_nth i (gl ++ [lp]) Gl) in
    let N := Z.to_nat n in let K := Z.to_nat k in
    st <- foldr_ (fun st (ij : nat * nat) => row (fst ij) (fst ij * K + snd ij)%nat st)
            (flat_map (fun i => map (pair i) (seq 0 K)) (seq 0 N)) (h, repeat [] N, repeat [] N);
    foldr_ (fun st i => row i (length D - i - 1)%nat st) (seq 0 (Z.to_nat l)) st.
End Data.
