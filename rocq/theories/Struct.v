(** Structural functions of /repo/spn/utils.go and node.go: ComputeScope, Complete, Decomposable,
    ComputeHeight, Height, NormalizeSPN, and the Sc methods; Normalize of learn/derive.go. *)
From Verif Require Import Base Res Arith GraphSpec Topo Search Spn Walk.
Local Open Scope Z_scope.

Definition memz (x : Z) (l : list Z) : bool := existsb (Z.eqb x) l.

(** msc[v] = true: [keys] is the set of keys of the map. *)
Definition addKey (keys : list Z) (v : Z) : list Z := if memz v keys then keys else keys ++ [v].

Section Struct.
Context {A : arith}.
Local Notation F := (F A).
Variable net : network A.

(** rawSc and setRawSc, spn/node.go:44-50: the sc fields. *)
Definition scopes := nat -> list Z.

(** The loop body of spn/utils.go:339-356. [ord s keys] is the order in which
    "for k := range msc" yields the keys. *)
Definition scopeStep (ord : nat -> list Z -> list Z) (sc : scopes) (s : nat) : scopes :=
  if Nat.ltb 0 (length (nch (net s))) then
    upd sc s (ord s (fold_left (fun keys c => fold_left addKey (sc c) keys) (nch (net s)) []))
  else sc.

(** spn/utils.go:335-359. The result is the scopes afterwards; the returned value is the root's. *)
Definition computeScope (ord : nat -> list Z -> list Z) (fuel : nat) (S0 : nat) (sc : scopes)
  : res scopes :=
  match topSortTarjan (children net) fuel S0 with
  | None => Fuel
  | Some order => Ok (fold_left (scopeStep ord) order sc)
  end.

(** v[u]++ on a map[int]int. *)
Definition incr (v : Z -> option Z) (u : Z) : Z -> option Z :=
  updZ v u (Some (match v u with Some n => n + 1 | None => 1 end)).

(** "for _, u := range csc { _, e := v[u]; if !e { return false }; v[u]++ }":
    spn/utils.go:388-395 and 438-444. None is the early return. *)
Fixpoint countScope (csc : list Z) (v : Z -> option Z) : option (Z -> option Z) :=
  match csc with
  | [] => Some v
  | u :: t => match v u with None => None | Some _ => countScope t (incr v u) end
  end.

(** spn/utils.go:374-404: the check of a sum node. The keys of v are those of sc, in some order
    that does not matter. *)
Definition checkSum (sc : scopes) (s : nat) : bool :=
  let v0 := fold_left incr (sc s) (fun _ => None) in
  let fix go cs v :=
    match cs with
    | [] => Some v
    | c :: t =>
        if negb (Nat.eqb (length (sc c)) (length (sc s))) then None
        else match countScope (sc c) v with None => None | Some v' => go t v' end
    end in
  match go (nch (net s)) v0 with
  | None => false
  | Some v => forallb (fun u => match v u with Some n => n =? Z.of_nat (length (nch (net s))) + 1 | None => false end)
                      (sc s)
  end.

(** spn/utils.go:428-455: the check of a product node. *)
Definition checkProd (sc : scopes) (s : nat) : bool :=
  let v0 := fold_left incr (sc s) (fun _ => None) in
  let fix go cs v n :=
    match cs with
    | [] => Some (v, n)
    | c :: t => match countScope (sc c) v with
                | None => None
                | Some v' => go t v' (n - Z.of_nat (length (sc c)))
                end
    end in
  match go (nch (net s)) v0 (Z.of_nat (length (sc s))) with
  | None => false
  | Some (v, n) =>
      forallb (fun u => match v u with Some k => k =? 2 | None => false end) (sc s) && (n =? 0)
  end.

Definition isLeaf (u : nat) : bool := match nk (net u) with KLeaf _ => true | _ => false end.

(** The loop of spn/utils.go:370-410 and 424-461: [chk] is the check of the node taken from the
    queue. Line 406/457 tests V[S], with S the root. *)
Fixpoint checkLoop (S0 : nat) (chk : nat -> bool) (fuel : nat) (Q V : list nat) : res bool :=
  match fuel with
  | O => Fuel
  | S f =>
      match Q with
      | [] => Ok true
      | s :: Q' =>
          if chk s then
            let (Q2, V2) :=
              fold_left (fun (QV : list nat * list nat) c =>
                 let (Q, V) := QV in
                 if negb (memn S0 V) && negb (isLeaf c) then (Q ++ [c], c :: V) else QV)
                (nch (net s)) (Q', V) in
            checkLoop S0 chk f Q2 V2
          else Ok false
      end
  end.

(** spn/utils.go:362-413. *)
Definition complete_ (ord : nat -> list Z -> list Z) (fuel : nat) (S0 : nat) (sc : scopes) : res bool :=
  sc' <- computeScope ord fuel S0 sc;
  checkLoop S0 (fun s => match nk (net s) with KSum _ => checkSum sc' s | _ => true end) fuel [S0] [S0].

(** spn/utils.go:416-464. *)
Definition decomposable_ (ord : nat -> list Z -> list Z) (fuel : nat) (S0 : nat) (sc : scopes) : res bool :=
  sc' <- computeScope ord fuel S0 sc;
  checkLoop S0 (fun s => match nk (net s) with KProd => checkProd sc' s | _ => true end) fuel [S0] [S0].

(** spn/node.go:102-116. *)
Fixpoint height (fuel : nat) (u : nat) : res nat :=
  match fuel with
  | O => Fuel
  | S f =>
      match nch (net u) with
      | [] => Ok O
      | _ => v <- foldi (fun _ v c => t <- height f c; Ok (if Nat.ltb v t then t else v)) (nch (net u)) O;
             Ok (S v)
      end
  end.

(** spn/utils.go:317-329. The stack is a list with its top first; [V] is the map of depths. *)
Fixpoint heightLoop (fuel : nat) (T : list nat) (V : nat -> option nat) (h : nat) : res nat :=
  match fuel with
  | O => Fuel
  | S f =>
      match T with
      | [] => Ok h
      | s :: T' =>
          let vs := match V s with Some n => n | None => O end in
          let h' := if isLeaf s && Nat.ltb h vs then vs else h in
          let (T2, V2) :=
            fold_left (fun (TV : list nat * (nat -> option nat)) c =>
               let (T, V) := TV in
               match V c with
               | Some _ => TV
               | None => (c :: T, upd V c (Some (S (match V s with Some n => n | None => O end))))
               end) (nch (net s)) (T', V) in
          heightLoop f T2 V2 h'
      end
  end.

(** spn/utils.go:309-332. *)
Definition computeHeight (fuel : nat) (S0 : nat) : res nat :=
  heightLoop fuel [S0] (upd (fun _ => None) S0 (Some O)) O.
End Struct.

Section Norm.
Context {A : arith}.
Local Notation F := (F A).

(** spn/utils.go:260-265 and learn/derive.go:201-206. *)
Definition minBelow0 (v : list F) : F :=
  fold_left (fun m u => if fgt m u then u else m) v (fz 0).

(** spn/utils.go:272-278 and learn/derive.go:213-221. *)
Definition divBySum (v : list F) : list F :=
  let s := fold_left fadd v (fz 0) in map (fun x => fdiv x s) v.

(** spn/utils.go:259-279. *)
Definition norm (v : list F) : list F :=
  let m := minBelow0 v in
  divBySum (if fgt (fz 0) m then map (fun x => fadd x m) v else v).

(** learn/derive.go:200-231. *)
Definition normalize (v : list F) : list F :=
  let m := minBelow0 v in
  divBySum (if fgt (fz 0) m then map (fun x => fsub x m) v else v).

(** spn/utils.go:290-295: the weights are changed in place. *)
Definition normNode (net : network A) (s : nat) : res (network A) :=
  Ok (match nk (net s) with
      | KSum w => upd net s (mkNode (KSum (norm w)) (nch (net s)))
      | _ => net
      end).

(** spn/utils.go:282-306. *)
Definition normalizeSPN (net : network A) (fuel : nat) (S0 : nat) : res (network A) :=
  walkFrom (children net) UseQueue normNode fuel S0 net.
End Norm.
