(** Derivatives and gradient steps: /repo/learn/derive.go, and the update functions of
    /repo/learn/generative.go and /repo/learn/discriminative.go. *)
From Verif Require Import Base Res Arith LogMath GraphSpec Search Storer Spn Walk Struct.

Section Derive.
Context {A : arith}.
Local Notation F := (F A).
Local Notation storer := (storer F).

(** The children a traversal may give: cs.Type() != "leaf" (learn/derive.go:78). Leaving out the
    leaves first and testing visited afterwards gives the same sequence of Give calls. *)
Definition inner (net : network A) : graph := fun u => filter (fun c => negb (isLeaf net c)) (nch (net u)).

(** table.Store(s, i, v) through a handle. *)
Definition storeAt (st : storer) (t : option nat) (s : nat) (i : Z) (v : F) : res storer :=
  match tStore F st t s i v with Some (st', _) => Ok st' | None => Panic end.

Section Net.
Variable net : network A.

(** learn/derive.go:57-63: t += inf.Single(ch[j]) for j != i. *)
Definition others (inf : nat -> F) (ch : list nat) (i : nat) (t : F) : F :=
  snd (fold_left (fun (a : nat * F) c => (S (fst a), if Nat.eqb (fst a) i then snd a else fadd (snd a) (inf c)))
                 ch (O, t)).

(** learn/derive.go:43-76: the body of the loop. [t] and [inf] are the handles of lines 35-36. *)
Definition deriveNode (t inf : option nat) (st : storer) (s : nat) : res storer :=
  let ch := nch (net s) in
  let pv := fst (tSingle F (fz 0) st t s) in
  match nk (net s) with
  | KSum W =>
      foldi (fun i st cs =>
        let (v, e) := tSingle F (fz 0) st t cs in
        wi <- idx W i;
        let x := fadd (flog wi) pv in
        storeVia st t cs (if e then logSumExpPair v x else x)) ch st
  | _ =>
      foldi (fun i st cs =>
        let (v, e) := tSingle F (fz 0) st t cs in
        let x := others (fun c => fst (tSingle F (fz 0) st inf c)) ch i pv in
        storeVia st t cs (if e then logSumExpPair v x else x)) ch st
  end.

(** "if tk < 0 { tk = storage.NewTicket() }". *)
Definition ticketFor (st : storer) (tk : Z) : storer * Z :=
  if (tk <? 0)%Z then newTicket F st else (st, tk).

(** learn/derive.go:26-89. [d] is the collection given; nil means a Queue. *)
Definition deriveSPN (d : discipline) (fuel : nat) (S0 : nat) (st : storer) (tk itk : Z)
  : res (storer * (nat * Z)) :=
  let (st1, tk1) := ticketFor st tk in
  let t := fst (table F st1 tk1) in
  let inf := fst (table F st1 itk) in
  st2 <- storeVia st1 t S0 (fz 0);
  st3 <- walkFrom (inner net) d (deriveNode t inf) fuel S0 st2;
  Ok (st3, (S0, tk1)).

(** learn/derive.go:118-126. *)
Definition weightNode (wt dt it : option nat) (st : storer) (s : nat) : res storer :=
  let pv := fst (tSingle F (fz 0) st dt s) in
  match nk (net s) with
  | KSum _ =>
      foldi (fun i st cs => storeAt st wt s (Z.of_nat i) (fadd (fst (tSingle F (fz 0) st it cs)) pv))
            (nch (net s)) st
  | _ => Ok st
  end.

(** learn/derive.go:102-140. *)
Definition deriveWeights (d : discipline) (fuel : nat) (S0 : nat) (st : storer) (tk dtk itk : Z)
  : res (storer * (nat * Z)) :=
  let (st1, tk1) := ticketFor st tk in
  st2 <- walkFrom (inner net) d
           (weightNode (fst (table F st1 tk1)) (fst (table F st1 dtk)) (fst (table F st1 itk))) fuel S0 st1;
  Ok (st2, (S0, tk1)).

(** learn/derive.go:170-184. *)
Definition batchNode (wt dt it : option nat) (st : storer) (s : nat) : res storer :=
  let pv := fst (tSingle F (fz 0) st dt s) in
  match nk (net s) with
  | KSum _ =>
      foldi (fun i st cs =>
        let v := fst (tSingle F (fz 0) st it cs) in
        let (dw, e) := tEntry F (fz 0) st wt s (Z.of_nat i) in
        let ndw := fadd v pv in
        storeAt st wt s (Z.of_nat i) (if e then logSumExpPair ndw dw else ndw))
            (nch (net s)) st
  | _ => Ok st
  end.

(** learn/derive.go:154-198. *)
Definition deriveWeightsBatch (d : discipline) (fuel : nat) (S0 : nat) (st : storer) (tk dtk itk : Z)
  : res (storer * (nat * Z)) :=
  let (st1, tk1) := ticketFor st tk in
  st2 <- walkFrom (inner net) d
           (batchNode (fst (table F st1 tk1)) (fst (table F st1 dtk)) (fst (table F st1 itk))) fuel S0 st1;
  Ok (st2, (S0, tk1)).
End Net.

(** if norm { Normalize(W) }: learn/derive.go:256-258 and the other update functions. *)
Definition maybeNorm (nrm : bool) (W : list F) : list F := if nrm then normalize W else W.

(** W is the node's own slice: writes change the node. *)
Definition setWeights (net : network A) (s : nat) (W : list F) : network A :=
  upd net s (mkNode (KSum W) (nch (net s))).

(** learn/derive.go:246-259. *)
Definition applyNode (eta : F) (nrm : bool) (st : storer) (dt it : option nat) (net : network A) (s : nat)
  : res (network A) :=
  let pv := fst (tSingle F (fz 0) st dt s) in
  match nk (net s) with
  | KSum W0 =>
      W <- foldi (fun i W cs =>
             wi <- idx W i;
             Ok (set_nth i (fadd wi (fmul eta (fexp (fadd (fst (tSingle F (fz 0) st it cs)) pv)))) W))
           (nch (net s)) W0;
      Ok (setWeights net s (maybeNorm nrm W))
  | _ => Ok net
  end.

(** learn/derive.go:235-270. *)
Definition deriveApplyWeights (d : discipline) (fuel : nat) (S0 : nat) (eta : F) (st : storer) (dtk itk : Z)
    (nrm : bool) (net : network A) : res (network A) :=
  walkFrom (inner net) d (applyNode eta nrm st (fst (table F st dtk)) (fst (table F st itk))) fuel S0 net.

(** m[i] of a possibly nil map[int]float64: 0 when absent. *)
Definition mapAt (st : storer) (m : option nat) (i : nat) : F := fst (map_get F (fz 0) st m (Z.of_nat i)).

(** W[i] += (delta / float64(b)) - 2*P.Lambda*W[i]: learn/generative.go:291-293, learn/discriminative.go:202-204.
    Go evaluates 2*P.Lambda*W[i] from the left. *)
Definition stepW (lambda : F) (b : Z) (delta w : F) : F :=
  fadd w (fsub (fdiv delta (fz b)) (fmul (fmul (fz 2) lambda) w)).

(** learn/generative.go:285-298. *)
Definition gdNode (eta lambda : F) (nrm : bool) (b : Z) (st : storer) (wt : option nat) (net : network A) (s : nat)
  : res (network A) :=
  match nk (net s) with
  | KSum W0 =>
      let dW := fst (tValue F st wt s) in
      W <- mapi (fun i wi => Ok (stepW lambda b (fmul eta (fexp (mapAt st dW i))) wi)) W0;
      Ok (setWeights net s (maybeNorm nrm W))
  | _ => Ok net
  end.

(** learn/generative.go:278-309. [lambda] is S.Parameters().Lambda. *)
Definition applyGD (d : discipline) (fuel : nat) (S0 : nat) (eta lambda : F) (wtk : Z) (st : storer) (nrm : bool)
    (b : Z) (net : network A) : res (network A) :=
  walkFrom (inner net) d (gdNode eta lambda nrm b st (fst (table F st wtk))) fuel S0 net.

(** learn/discriminative.go:196-209. *)
Definition dgdNode (eta lambda : F) (nrm : bool) (b : Z) (st : storer) (dwt dut ist izt : option nat)
    (net : network A) (s : nat) : res (network A) :=
  match nk (net s) with
  | KSum W0 =>
      let dW := fst (tValue F st dwt s) in
      let dU := fst (tValue F st dut s) in
      let iS := fst (tValue F st ist s) in
      let iZ := fst (tValue F st izt s) in
      W <- mapi (fun i wi =>
             Ok (stepW lambda b (fmul eta (fsub (fexp (fsub (mapAt st dW i) (mapAt st iS i)))
                                                (fexp (fsub (mapAt st dU i) (mapAt st iZ i))))) wi)) W0;
      Ok (setWeights net s (maybeNorm nrm W))
  | _ => Ok net
  end.

(** The loop of learn/discriminative.go:193-216. Line 211 tests V[cs], so a child is only enqueued
    if it was visited before. *)
Fixpoint dgdLoop (proc : network A -> nat -> res (network A)) (fuel : nat) (Q V : list nat) (net : network A)
  : res (network A) :=
  match fuel with
  | O => Fuel
  | S f =>
      match Q with
      | [] => Ok net
      | n :: Q' =>
          net' <- proc net n;
          let Q2 := fold_left (fun Q c => if negb (isLeaf net c) && memn c V then Q ++ [c] else Q) (nch (net n)) Q' in
          dgdLoop proc f Q2 V net'
      end
  end.

(** learn/discriminative.go:182-217. Tickets d and p are not used. *)
Definition applyDGD (fuel : nat) (S0 : nat) (s w z u : Z) (st : storer) (eta lambda : F) (nrm : bool) (b : Z)
    (net : network A) : res (network A) :=
  dgdLoop (dgdNode eta lambda nrm b st (fst (table F st w)) (fst (table F st u))
                   (fst (table F st s)) (fst (table F st z))) fuel [S0] [S0] net.

(** learn/discriminative.go:33-39. [y] is the caller's slice: y[i] panics when too short. *)
Definition pullValues (I : varset) (Y : list Z) (y : list Z) : res (varset * list Z) :=
  foldi (fun i (Iy : varset * list Z) u =>
    let (I, y) := Iy in
    _ <- idx y i;
    Ok (updZ I u None, set_nth i (match I u with Some v => v | None => 0%Z end) y)) Y (I, y).

(** learn/discriminative.go:41-45. *)
Definition pushValues (I : varset) (Y : list Z) (y : list Z) : res varset :=
  foldi (fun i I u => yi <- idx y i; Ok (updZ I u (Some yi))) Y I.
End Derive.
