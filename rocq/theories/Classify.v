(** ImgClassify of /repo/app/image.go, after ParsePartitionedData and the learner. *)
From Verif Require Import Base Res GoMap Arith LogMath.
Local Open Scope Z_scope.

Section Classify.
Context {A : arith}.
(** app/image.go:52-57, getValue: the value of the network that StoreInference stores for its root. The
    table is new on each call, since the last one ended with Reset. *)
Context (value : gmap -> res (F A)).

(** app/image.go:99-111: the row afterwards, and imax. *)
Definition imgPredict (v : Z) (nclass : nat) (row : gmap) : res (gmap * Z) :=
  pz <- value row;
  r <- foldr_ (fun (st : gmap * F A * Z) j =>
         let '(row, max, imax) := st in
         let row := put row v j in
         px <- value row;
         let pr := antiLog (fsub px pz) in
         Ok (if fgt pr max then (row, pr, j) else (row, max, imax)))
       (map Z.of_nat (seq 0 nclass)) (row, fz (-1), -1);
  Ok (fst (fst r), snd r).

(** app/image.go:98-118: the rows afterwards, and corrects. lbls[i] is evaluated for every row. *)
Definition imgLoop (v : Z) (nclass : nat) (test : list gmap) (lbls : list Z) : res (list gmap * Z) :=
  foldi (fun i (st : list gmap * Z) row =>
      let (rows, corrects) := st in
      p <- imgPredict v nclass row;
      l <- idx lbls i;
      Ok (rows ++ [del (fst p) v], if snd p =? l then corrects + 1 else corrects)) test ([], 0).

(** app/image.go:127-132: reps[lbls[i]] = test[i], if nothing is there. *)
Definition imgReps (nclass : nat) (test : list gmap) (lbls : list Z) : res (list (option gmap)) :=
  foldi (fun i reps row =>
      l <- idx lbls i;
      old <- idxZ reps l;
      Ok (match old with None => set_nth (Z.to_nat l) (Some row) reps | Some _ => reps end)) test (repeat None nclass).

(** app/image.go:84-135. [vars] lists the variables with their categories; vars[n-1] is nil, and panics,
    if there is none. make([]float64, nclass) panics for a negative nclass, if there is a row, and so does
    make([]map[int]int, nclass). *)
Definition imgClassify (vars : list (Z * Z)) (test : list gmap) (lbls : list Z) : res (Z * Z) :=
  let v := Z.of_nat (length vars) - 1 in
  nclass <- orPanic (get vars v);
  if nclass <? 0 then Panic
  else
    r <- imgLoop v (Z.to_nat nclass) test lbls;
    _ <- imgReps (Z.to_nat nclass) (fst r) lbls;
    Ok (snd r, Z.of_nat (length test)).
End Classify.
