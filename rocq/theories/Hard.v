(** DeriveHard of /repo/learn/derive.go and the Sc methods of /repo/spn/sum.go and product.go. *)
From Verif Require Import Base Res Arith GraphSpec Search Storer Spn Walk Struct Derive.

Section Hard.
Context {A : arith}.
Local Notation F := (F A).
Variable net : network A.

(** learn/derive.go:293-312: what is offered to the queue after a node is treated. [T] is the map
    returned by TraceMAP. *)
Definition hardNext (T : nat -> option nat) : graph := fun s =>
  match nk (net s) with
  | KProd => filter (fun c => negb (isLeaf net c)) (nch (net s))
  | KSum _ =>
      match T s with
      | Some mi => match nth_error (nch (net s)) mi with Some mc => [mc] | None => [] end
      | None => []
      end
  | KLeaf _ => []
  end.

(** learn/derive.go:301-311: the table entry of a sum node; ch[mi] may be out of range. *)
Definition hardNode (T : nat -> option nat) (tab : option nat) (st : storer F) (s : nat) : res (storer F) :=
  match nk (net s) with
  | KSum _ =>
      match T s with
      | Some mi =>
          let v := fst (tEntry F (fz 0) st tab s (Z.of_nat mi)) in
          st' <- storeAt st tab s (Z.of_nat mi) (fadd v (fz 1));
          _ <- idx (nch (net s)) mi;
          Ok st'
      | None => Ok st
      end
  | _ => Ok st
  end.

(** learn/derive.go:277-316. *)
Definition deriveHard (rnd : nat -> nat -> nat) (fuelT fuel : nat) (S0 : nat) (st : storer F) (tk : Z) (I : varset)
  : res (storer F * Z) :=
  let (st1, tk1) := ticketFor st tk in
  let tab := fst (table F st1 tk1) in
  T <- traceMAP net rnd fuelT S0 I;
  st2 <- walkFrom (hardNext T) UseQueue (hardNode T tab) fuel S0 st1;
  Ok (st2, tk1).

(** The sc fields: None is nil. spn/node.go:8-13. *)
Definition scache := nat -> option (list Z).

(** append(nil, s...) is nil when s is empty. *)
Definition appendSc (a : option (list Z)) (s : list Z) : option (list Z) :=
  match a, s with None, [] => None | None, _ => Some s | Some l, _ => Some (l ++ s) end.

(** Sc(): spn/sum.go:34-39 (copy into a nil slice copies nothing), spn/product.go:23-30. The
    result is the slice returned and the fields afterwards. Leaves return their own scope. *)
Fixpoint scOf (fuel : nat) (u : nat) (c : scache) : res (list Z * scache) :=
  match fuel with
  | O => Fuel
  | S f =>
      match nk (net u) with
      | KLeaf l => Ok (lsc l, c)
      | KSum _ =>
          match c u with
          | Some s => Ok (s, c)
          | None =>
              c0 <- idx (nch (net u)) 0;
              r <- scOf f c0 c;
              Ok ([], snd r)
          end
      | KProd =>
          match c u with
          | Some s => Ok (s, c)
          | None =>
              r <- foldr_ (fun (a : option (list Z) * scache) x =>
                             r <- scOf f x (snd a);
                             Ok (appendSc (fst a) (fst r), snd r)) (nch (net u)) (None, c);
              Ok (match fst r with Some s => s | None => [] end, upd (snd r) u (fst r))
          end
      end
  end.
End Hard.
