(** The leaf types of gospn: /repo/spn/multinom.go, indicator.go, gaussian.go (constructors and
    evaluation; the codecs are in Serial.v). *)
From Verif Require Import Base Res Arith Spn.
Local Open Scope Z_scope.

Section Leaves.
Context {A : arith}.
Local Notation F := (F A).

(** spn/multinom.go:30-38 with the Node's sc field. *)
Record multinomial := mkMulti {
  m_sc : list Z; m_varid : Z; m_pr : list F; m_modei : Z; m_modev : F }.

(** spn/multinom.go:18-27. *)
Definition computeMode (pr : list F) : Z * F :=
  let '(_, i, m) :=
    fold_left (fun (st : Z * Z * F) p =>
                 let '(j, i, m) := st in if fgt p m then (j + 1, j, p) else (j + 1, i, m))
              pr (0, 0, fz 0) in (i, m).

(** spn/multinom.go:43-62 and 81-100: the mode, ties broken at random ([rnd n] is the answer of
    sys.RandIntn(n)). [miv] is the prefix of the slice filled so far (its length is nmi). *)
Definition modeLoop (rnd : nat -> nat) (dist : list F) : res (Z * F) :=
  let '(_, mi, m, miv) :=
    fold_left (fun (st : Z * Z * F * list Z) p =>
                 let '(i, mi, m, miv) := st in
                 if fgt p m then (i + 1, i, p, [i])
                 else if feq p m then (i + 1, mi, m, miv ++ [i]) else (i + 1, mi, m, miv))
              dist (0, 0, fz (-1), []) in
  if Nat.ltb 1 (length miv) then mi' <- idx miv (rnd (length miv)); Ok (mi', m) else Ok (mi, m).

(** spn/multinom.go:41-64. *)
Definition newMultinomial (rnd : nat -> nat) (varid : Z) (dist : list F) : res multinomial :=
  r <- modeLoop rnd dist; Ok (mkMulti [varid] varid dist (fst r) (snd r)).

(** spn/multinom.go:70-79 and 110-119. *)
Definition countingPr (counts : list Z) : list F :=
  let s := fold_left (fun s c => fadd s (fadd (fz 1) (fz c))) counts (fz 0) in
  map (fun c => fdiv (fz (1 + c)) s) counts.

(** spn/multinom.go:67-103. *)
Definition newCountingMultinomial (rnd : nat -> nat) (varid : Z) (counts : list Z)
  : res multinomial :=
  let pr := countingPr counts in
  r <- modeLoop rnd pr; Ok (mkMulti [varid] varid pr (fst r) (snd r)).

(** spn/multinom.go:107-132. *)
Definition newScopedCountingMultinomial (varid : Z) (esc : list Z) (counts : list Z)
  : multinomial :=
  let pr := countingPr counts in
  let (mi, m) := computeMode pr in mkMulti esc varid pr mi m.

(** spn/multinom.go:136-144. make([]float64, m) with negative m and pr[0] of an empty slice
    panic. *)
Definition newEmptyMultinomial (varid m : Z) : res multinomial :=
  if m <? 0 then Panic
  else let pr := repeat (fdiv (fz 1) (fz m)) (Z.to_nat m) in
       p0 <- idx pr 0; Ok (mkMulti [varid] varid pr 0 p0).

(** m.pr[v]. *)
Definition prAt (pr : list F) (v : Z) : option F :=
  if v <? 0 then None else nth_error pr (Z.to_nat v).

(** spn/multinom.go:154-160. *)
Definition multiValue (m : multinomial) (I : varset) : option F :=
  match I (m_varid m) with Some v => option_map flog (prAt (m_pr m) v) | None => Some (fz 0) end.

(** spn/multinom.go:163-169. *)
Definition multiMax (m : multinomial) (I : varset) : option F :=
  match I (m_varid m) with
  | Some v => option_map flog (prAt (m_pr m) v)
  | None => Some (flog (m_modev m))
  end.

(** spn/multinom.go:172-183. *)
Definition multiArgMax (m : multinomial) (I : varset) : option (varset * F) :=
  match I (m_varid m) with
  | Some v => option_map (fun p => (vsingle (m_varid m) v, flog p)) (prAt (m_pr m) v)
  | None => Some (vsingle (m_varid m) (m_modei m), flog (m_modev m))
  end.

(** The methods of a Multinomial; Sc is Node.Sc (spn/node.go:84-86). *)
Definition multiLeaf (m : multinomial) : leaf A :=
  mkLeaf (m_sc m) (multiValue m) (multiMax m) (multiArgMax m).

(** spn/multinom.go:186-192. *)
Definition mean (m : multinomial) : F :=
  snd (fold_left (fun (st : Z * F) p => let (i, mu) := st in (i + 1, fadd mu (fmul p (fz i))))
                 (m_pr m) (0, fz 0)).

(** spn/multinom.go:195-204 and 207-216. *)
Definition stdDev (m : multinomial) : F :=
  let mu := mean m in
  let sd := snd (fold_left (fun (st : Z * F) (_ : F) =>
                    let (i, sd) := st in
                    let d := fsub (fz i) mu in (i + 1, fadd sd (fmul d d))) (m_pr m) (0, fz 0)) in
  fsqrt (fdiv sd (fz (Z.of_nat (length (m_pr m))))).
Definition muSigma (m : multinomial) : F * F := (mean m, stdDev m).

(** spn/indicator.go:29-35 (Value) and 38-44 (Max). *)
Definition indValue (x v : Z) (I : varset) : F :=
  match I x with None => fz 0 | Some u => if u =? v then fz 0 else fninf end.

(** spn/indicator.go:47-55 (ArgMax): when the variable is unset, u is Go's zero value. *)
Definition indArgMax (x v : Z) (I : varset) : varset * F :=
  match I x with
  | None => (vsingle x 0, fz 0)
  | Some u => if u =? v then (vsingle x u, fz 0) else ((fun _ => None), fninf)
  end.

(** spn/indicator.go:20-22 and 58-63 (constructor, Sc). *)
Definition indLeaf (x v : Z) : leaf A :=
  mkLeaf [x] (fun I => Some (indValue x v I)) (fun I => Some (indValue x v I))
         (fun I => Some (indArgMax x v I)).

(** Gaussian leaves. gonum's Normal.LogProb, and the conversions
    int(mu) and math.Round(mu), are parameters. *)
Section Gaussian.
Variable logProb : F -> F -> F -> F.   (* mu, sigma, x *)
Variables trunc round : F -> Z.

(** spn/gaussian.go:117-122. *)
Definition zeroSigma (v : option Z) (mu : F) : F :=
  match v with
  | Some u => if u =? trunc mu then fz 0 else fninf
  | None => fninf
  end.

(** spn/gaussian.go:126-138. *)
Definition gaussValue (x : Z) (mu sigma : F) (I : varset) : F :=
  if feq sigma (fz 0) then zeroSigma (I x) mu
  else match I x with Some v => logProb mu sigma (fz v) | None => fz 0 end.

(** spn/gaussian.go:141-149. *)
Definition gaussMax (x : Z) (mu sigma : F) (I : varset) : F :=
  if feq sigma (fz 0) then zeroSigma (I x) mu
  else match I x with Some v => logProb mu sigma (fz v) | None => logProb mu sigma mu end.

(** spn/gaussian.go:152-167. *)
Definition gaussArgMax (x : Z) (mu sigma : F) (I : varset) : varset * F :=
  if feq sigma (fz 0) then (vsingle x (trunc mu), fz 0)
  else match I x with
       | Some v => (vsingle x v, logProb mu sigma (fz v))
       | None => (vsingle x (round mu), logProb mu sigma mu)
       end.

(** spn/gaussian.go:26-28 and 175-180 (constructor, Sc). *)
Definition gaussLeaf (x : Z) (mu sigma : F) : leaf A :=
  mkLeaf [x] (fun I => Some (gaussValue x mu sigma I)) (fun I => Some (gaussMax x mu sigma I))
         (fun I => Some (gaussArgMax x mu sigma I)).
End Gaussian.
End Leaves.
Arguments multinomial A : clear implicits.
