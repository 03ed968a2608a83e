(** The seeds of ParsePartitionedData (/repo/io/input.go) and ImgBatchClassify (/repo/app/image.go). *)
From Verif Require Import Base Res GoMap Arith Tables Classify.
Local Open Scope nat_scope.

Section Seed.
(** math/rand: the state of a generator, rand.New(rand.NewSource(s)), Intn. *)
Variable G : Type.
Variable src : Z -> G.
Variable intn : G -> nat -> nat * G.

(** io/input.go:310-313, as pick of Tables.v, with the state of the generator. *)
Fixpoint pickG (fuel : nat) (g : G) (fdata : list (option gmap)) : res (nat * gmap * G) :=
  match fuel with
  | O => Fuel
  | S f =>
      if Nat.eqb (length fdata) 0 then Panic else
      let (l, g') := intn g (length fdata) in
      x <- idx fdata l;
      match x with Some row => Ok (l, row, g') | None => pickG f g' fdata end
  end.

(** io/input.go:309-317. *)
Fixpoint markG (fuel m : nat) (g : G) (fdata : list (option gmap)) : res (list (option gmap) * list (nat * gmap) * G) :=
  match m with
  | O => Ok (fdata, [], g)
  | S m' =>
      p <- pickG fuel g fdata;
      r <- markG fuel m' (snd p) (set_nth (fst (fst p)) None fdata);
      Ok (fst (fst r), fst p :: snd (fst r), snd r)
  end.

Definition split := (list (option gmap) * list gmap * list Z)%type.

(** io/input.go:303-335 after the computation of m, as partition of Tables.v. *)
Definition partitionG (fuel : nat) (g : G) (rows : list gmap) (m nv : nat) : res (split * G) :=
  r <- markG fuel m g (map Some rows);
  train <- discard (sortInts (map fst (snd (fst r)))) (fst (fst r));
  let k := (Z.of_nat nv - 1)%Z in
  Ok (train, map (fun t => del (snd t) k) (snd (fst r)), map (fun t => get0 (snd t) k) (snd (fst r)), snd r).

(** io/input.go:276-277, glrand and glrseed, and the generator of the package math/rand. *)
Record proc := mkProc { glrand : G; glrseed : Z; dflt : G }.

(** A call: the rows of the file, the size of the test set, the number of variables, the seed. *)
Definition call := (list gmap * nat * nat * Z)%type.

(** io/input.go:289-335. *)
Definition parsePartitioned (fuel : nat) (st : proc) (c : call) : res (split * proc) :=
  let '(rows, m, nv, rseed) := c in
  if (rseed <? 0)%Z then
    r <- partitionG fuel (dflt st) rows m nv;
    Ok (fst r, mkProc (glrand st) (glrseed st) (snd r))
  else
    let st := if (glrseed st <? 0)%Z then mkProc (src rseed) rseed (dflt st) else st in
    r <- partitionG fuel (glrand st) rows m nv;
    Ok (fst r, mkProc (snd r) (glrseed st) (dflt st)).

(** A program that calls it again and again. *)
Fixpoint parseMany (fuel : nat) (st : proc) (cs : list call) : res (list split * proc) :=
  match cs with
  | [] => Ok ([], st)
  | c :: t =>
      r <- parsePartitioned fuel st c;
      q <- parseMany fuel (snd r) t;
      Ok (fst r :: fst q, snd q)
  end.

Section Batch.
Context {A : arith}.
(** The learner: the values of the network it makes of the training rows. *)
Variable learn : list (option gmap) -> gmap -> res (F A).

(** app/image.go:27-50: corrects and total; the file is read again in each iteration. [m] is the size of
    the test set. *)
Fixpoint batchLoop (fuel : nat) (st : proc) (vars : list (Z * Z)) (rows : list gmap) (m : nat) (rseed : Z) (iterations : nat)
  (corrects total : Z) : res (Z * Z * proc) :=
  match iterations with
  | O => Ok (corrects, total, st)
  | S i =>
      r <- parsePartitioned fuel st (rows, m, length vars, rseed);
      let '(train, test, lbls) := fst r in
      ct <- imgClassify (learn train) vars test lbls;
      batchLoop fuel (snd r) vars rows m rseed i (corrects + fst ct)%Z (total + snd ct)%Z
  end.
Definition imgBatchClassify fuel st vars rows m rseed iterations := batchLoop fuel st vars rows m rseed iterations 0%Z 0%Z.
End Batch.
End Seed.
