(** Clustering of /repo/utils/cluster: kmode.go, kmedoid.go, kmeans.go (OldKMeans) and the metric
    of metrics/hamming.go. *)
From Verif Require Import Base Res.
Local Open Scope Z_scope.

(** utils/cluster/metrics/hamming.go:4-13. A second argument that is too short panics. *)
Definition hamming (p q : list Z) : res Z :=
  foldi (fun i s x => y <- idx q i; Ok (if x =? y then s else s + 1)) p 0.

(** A cluster as returned: map[int][]int from row numbers to rows. *)
Definition rowmap := list (nat * list Z).
Definition rget (m : rowmap) (i : nat) : list Z :=
  match find (fun e => Nat.eqb (fst e) i) m with Some e => snd e | None => [] end.
Definition rdel (m : rowmap) (i : nat) : rowmap := filter (fun e => negb (Nat.eqb (fst e) i)) m.
Definition rput (m : rowmap) (i : nat) (v : list Z) : rowmap := rdel m i ++ [(i, v)].

(** chkdata: map[int]int from rows to clusters. *)
Definition assignment := nat -> option Z.

(** kmode.go:110-121, kmedoid.go:125-136, kmeans.go:206-215: the result is read off chkdata.
    Reading a missing key gives 0. *)
Definition collect (k : nat) (data : list (list Z)) (chk : assignment) : res (list rowmap) :=
  foldi (fun i C row =>
           let c := match chk i with Some c => c | None => 0 end in
           m <- idxZ C c;
           Ok (set_nth (Z.to_nat c) (rput m i row) C))
        data (repeat [] k).

(** kmode.go:72-83, kmedoid.go:82-93, kmeans.go:171-182: the cluster of row [i]; [dist j] is the
    distance of the row to the centre of cluster j. [len] is len(data[i]). *)
Definition nearestTo (k : nat) (dist : Z -> res Z) (len : Z) (cur : option Z) : res Z :=
  st <- match cur with
        | Some v => d <- dist v; Ok (d, v)
        | None => Ok (len + 1, -1)
        end;
  st <- foldr_ (fun (st : Z * Z) j =>
          if j =? snd st then Ok st
          else t <- dist j; Ok (if t <? fst st then (t, j) else st))
        (map Z.of_nat (seq 0 k)) st;
  Ok (snd st).

Section Loop.
(** The state of the centres, the distance of a row to the j-th of them, and the updates of the
    centres when row [i] enters or leaves a cluster. *)
Context {T : Type}.
Variable dist : T -> Z -> list Z -> res Z.
Variable insert : Z -> list Z -> nat -> T -> res T.
Variable remove : Z -> list Z -> nat -> T -> res T.
Variable k : nat.
Variable data : list (list Z).

(** kmode.go:71-107, kmedoid.go:81-121, kmeans.go:170-203: one iteration. *)
Definition iterate (i nochange : nat) (chk : assignment) (st : T) : res (nat * assignment * T) :=
  row <- idx data i;
  which <- nearestTo k (fun j => dist st j row) (Z.of_nat (length row)) (chk i);
  match chk i with
  | None => st <- insert which row i st; Ok (O, upd chk i (Some which), st)
  | Some v =>
      if v =? which then Ok (S nochange, chk, st)
      else st <- remove v row i st; st <- insert which row i st;
           Ok (O, upd chk i (Some which), st)
  end.

(** kmode.go:69-107, kmedoid.go:79-121, kmeans.go:168-203. *)
Fixpoint converge (fuel i nochange : nat) (chk : assignment) (st : T) : res (assignment * T) :=
  if (nochange <? length data)%nat then
    match fuel with
    | O => Fuel
    | S f =>
        r <- iterate i nochange chk st;
        let '(nochange, chk, st) := r in
        converge f (if (length data <=? S i)%nat then O else S i) nochange chk st
    end
  else Ok (chk, st).
End Loop.

Section Random.
(** [rnd c n] is the c-th answer of sys.RandIntn, called with n. *)
Variable rnd : nat -> nat -> nat.

(** kmode.go:47-49, kmedoid.go:54-56, kmeans.go:144-146: draw until a row comes up that was not
    drawn before. sys.RandIntn(0) panics. *)
Fixpoint draw (fuel c : nat) (seen : list nat) (n : nat) : res (nat * nat) :=
  match fuel with
  | O => Fuel
  | S f =>
      if Nat.eqb n 0 then Panic else
      let r := rnd c n in
      if memn r seen then draw f (S c) seen n else Ok (r, S c)
  end.

(** ** KMode and OldKMeans *)

(** means: map[int][]int with keys 0, 1, ...; clusters[i]: map[int][]int with keys 0, 1, ...
    from columns to counts. *)
Record modes := mkModes { means : list (list Z); counts : list (list (list Z)) }.

(** means[i]; a missing key gives nil. *)
Definition meanAt (m : list (list Z)) (i : Z) : list Z :=
  if i <? 0 then [] else nth (Z.to_nat i) m [].

(** kmode.go:11-16, kmeans.go:14-19: column [j]. *)
Definition insertColumn (which : Z) (v : list Z) (M : modes) (j : nat) : res modes :=
  cl <- idxZ (counts M) which;
  row <- idx cl j; x <- idx v j; n <- idxZ row x;
  let row := set_nth (Z.to_nat x) (n + 1) row in
  mk <- idx (meanAt (means M) which) j;
  old <- idxZ row mk;
  Ok (mkModes (if n + 1 >? old then set_nth (Z.to_nat which) (set_nth j x (meanAt (means M) which)) (means M)
               else means M)
              (set_nth (Z.to_nat which) (set_nth j row cl) (counts M))).

(** kmode.go:9-18, kmeans.go:12-21. *)
Definition kModeInsert (which : Z) (v : list Z) (M : modes) : res modes :=
  foldr_ (insertColumn which v) (seq 0 (length (meanAt (means M) which))) M.

(** kmode.go:24-29, kmeans.go:27-32: a count is compared with an index. *)
Definition badMax (row : list Z) : Z :=
  fst (fold_left (fun (st : Z * Z) c => (if (fst st <? 0) || (c >? fst st) then snd st else fst st, snd st + 1))
                 row (-1, 0)).

(** kmode.go:22-32, kmeans.go:25-35: column [j]. *)
Definition removeColumn (which : Z) (v : list Z) (M : modes) (j : nat) : res modes :=
  cl <- idxZ (counts M) which;
  row <- idx cl j; x <- idx v j; n <- idxZ row x;
  let row := set_nth (Z.to_nat x) (n - 1) row in
  mk <- idx (meanAt (means M) which) j;
  Ok (mkModes (if mk =? x then set_nth (Z.to_nat which) (set_nth j (badMax row) (meanAt (means M) which)) (means M)
               else means M)
              (set_nth (Z.to_nat which) (set_nth j row cl) (counts M))).

(** kmode.go:20-34, kmeans.go:23-37. *)
Definition kModeRemove (which : Z) (v : list Z) (M : modes) : res modes :=
  foldr_ (removeColumn which v) (seq 0 (length (meanAt (means M) which))) M.

(** kmode.go:55-61, kmeans.go:152-158: the counts of column [j], all zero. *)
Definition zeroCounts (data : list (list Z)) (j : nat) : res (list Z) :=
  mx <- foldr_ (fun mx row => x <- idx row j; Ok (if x >? mx then x else mx)) data (-1);
  Ok (repeat 0 (Z.to_nat (mx + 1))).

(** kmode.go:45-67, kmeans.go:142-165: cluster [i] starts with a row drawn at random. *)
Definition forgy (fuel : nat) (data : list (list Z)) (st : nat * list nat * assignment * modes) (i : nat)
    : res (nat * list nat * assignment * modes) :=
  let '(c, seen, chk, M) := st in
  r <- draw fuel c seen (length data);
  row <- idx data (fst r);
  cl <- mapi (fun j _ => zeroCounts data j) row;
  M <- kModeInsert (Z.of_nat i) row (mkModes (means M ++ [row]) (counts M ++ [cl]));
  Ok (snd r, fst r :: seen, upd chk (fst r) (Some (Z.of_nat i)), M).

(** kmode.go:36-123 (its prints are left out) and kmeans.go:130-216, which is the same code.
    Lines 107-108 of kmode.go read means[0] and means[1] for printing, which cannot panic. *)
Definition kMode (fuel k : nat) (data : list (list Z)) : res (list rowmap) :=
  st <- foldr_ (forgy fuel data) (seq 0 k) (O, [], fun _ => None, mkModes [] []);
  let '(_, _, chk, M) := st in
  r <- converge (fun M j row => hamming (meanAt (means M) j) row)
                (fun w v _ => kModeInsert w v) (fun w v _ => kModeRemove w v)
                k data fuel 0 0 chk M;
  collect k data (fst r).
Definition oldKMeans := kMode.

(** ** KMedoid *)

(** clusters and means (row numbers). *)
Record medoids := mkMed { mclusters : list rowmap; mmeans : list nat }.
(** The order in which range visits a cluster. *)
Variable ord : rowmap -> rowmap.

(** clusters[j][means[j]]; both are slices. *)
Definition medoid (M : medoids) (j : Z) : res (list Z) :=
  cl <- idxZ (mclusters M) j; r <- idxZ (mmeans M) j; Ok (rget cl r).

(** kmedoid.go:8-19. *)
Definition kMedoidInsert (which : Z) (v : list Z) (i : nat) (M : medoids) : res medoids :=
  cl <- idxZ (mclusters M) which;
  let cl := rput cl i v in
  r <- idxZ (mmeans M) which;
  s <- foldr_ (fun (s : Z * Z) e =>
         a <- hamming (rget cl r) (snd e); b <- hamming v (snd e); Ok (fst s + a, snd s + b))
       (ord cl) (0, 0);
  Ok (mkMed (set_nth (Z.to_nat which) cl (mclusters M))
            (if snd s <? fst s then set_nth (Z.to_nat which) i (mmeans M) else mmeans M)).

(** kmedoid.go:21-36. *)
Definition kMedoidRemove (which : Z) (v : list Z) (i : nat) (M : medoids) : res medoids :=
  cl <- idxZ (mclusters M) which;
  let cl := rdel cl i in
  r <- idxZ (mmeans M) which;
  st <- (if Nat.eqb r i then
           foldr_ (fun (st : Z * nat) e =>
             s <- foldr_ (fun s e' => d <- hamming (snd e') (snd e); Ok (s + d)) (ord cl) 0;
             Ok (if s <? fst st then (s, fst e) else st))
             (ord cl) (2000000000, r)
         else Ok (0, r));
  Ok (mkMed (set_nth (Z.to_nat which) cl (mclusters M)) (set_nth (Z.to_nat which) (snd st) (mmeans M))).

(** kmedoid.go:58-69: whether row [r] equals one of the medoids. *)
Definition sameAs (data : list (list Z)) (r : nat) (M : list nat) : res bool :=
  row <- idx data r;
  foldr_ (fun (ok : bool) m =>
    if ok then Ok true else
    other <- idx data m;
    foldi (fun j (ok : bool) x => if ok then y <- idx other j; Ok (x =? y) else Ok false) row true)
    M false.

(** kmedoid.go:53-70: draw until a row differs from all medoids; None when no rows are left.
    chkrnd is [seen]; its size is its length, since only new rows are added. *)
Fixpoint drawNew (fuel c : nat) (seen : list nat) (data : list (list Z)) (M : list nat)
    : res (option nat * nat * list nat) :=
  if (length seen <? length data)%nat then
    match fuel with
    | O => Fuel
    | S f =>
        r <- draw fuel c seen (length data);
        ok <- sameAs data (fst r) M;
        if (ok : bool) then drawNew f (snd r) (fst r :: seen) data M
        else Ok (Some (fst r), snd r, fst r :: seen)
    end
  else Ok (None, c, seen).

(** kmedoid.go:50-84. The loop stops at the first cluster for which no row is left; [go] says
    whether it is still running. At i = 0 the slices already have one element. *)
Definition medoidStart (fuel : nat) (data : list (list Z)) (st : bool * nat * list nat * assignment * medoids) (i : nat)
    : res (bool * nat * list nat * assignment * medoids) :=
  let '(go, c, seen, chk, M) := st in
  if negb go then Ok st else
  d <- drawNew fuel c seen data (firstn i (mmeans M));
  let '(r, c, seen) := d in
  match r with
  | None => Ok (false, c, seen, chk, M)
  | Some r =>
      row <- idx data r;
      let M := if Nat.eqb i 0 then mkMed [[]] [r] else mkMed (mclusters M ++ [[]]) (mmeans M ++ [r]) in
      M <- kMedoidInsert (Z.of_nat i) row r M;
      Ok (true, c, seen, upd chk r (Some (Z.of_nat i)), M)
  end.

(** kmedoid.go:38-138. Before the first cluster is started, clusters holds one nil map; it is
    replaced before its first use, since a row is left unless there are no rows at all. *)
Definition kMedoid (fuel k : nat) (data : list (list Z)) : res (list rowmap) :=
  st <- foldr_ (medoidStart fuel data) (seq 0 k) (true, O, [], fun _ => None, mkMed [[]] [O]);
  let '(_, _, _, chk, M) := st in
  r <- converge (fun M j row => m <- medoid M j; hamming m row) kMedoidInsert kMedoidRemove
                k data fuel 0 0 chk M;
  collect k data (fst r).
End Random.
