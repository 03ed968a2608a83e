(** PrintSPN: spn/print.go. The file is the list of its lines, a line the list of its words. *)
From Coq Require Import String.
From Verif Require Import Base Res GraphSpec Topo Search Text.
Local Open Scope string_scope.

Section Print.
Variable F : Type.
(** fmt's verb %.5f. *)
Variable fmt5 : F -> string.

(** A node as PrintSPN tells them apart: spn/print.go:31-41 and 57-67. A multinomial has MuSigma(),
    a gaussian dist.Mu and dist.Sigma; [PLeaf] is any other leaf type. pch is Ch(), psc is Sc(), which
    PrintSPN does not look at. *)
Inductive pkind := PSum (w : list F) | PProd | PMulti (mu sigma : F) | PGauss (mu sigma : F) | PLeaf.
Record pnode := mkP { pk : pkind; pch : list nat; psc : list Z }.
Definition pnet := nat -> pnode.

(** c and p of spn/print.go:34-41. *)
Definition letterOf (k : pkind) : string * nat :=
  match k with PSum _ => ("S", 0) | PProd => ("P", 1) | _ => ("L", 2) end.

(** The callback of spn/print.go:28-45, at node u; L is a map, T has three counters. *)
Definition nameStep (net : pnet) (LT : (nat -> option string) * list nat) (u : nat)
  : res ((nat -> option string) * list nat) :=
  let (L, T) := LT in
  let (c, p) := letterOf (pk (net u)) in
  t <- idx T p;
  Ok (upd L u (Some (c ++ itoa (Z.of_nat t))), set_nth p (t + 1) T).

(** spn/print.go:25-45. The callback always answers true. *)
Definition nameAll (net : pnet) (fuel : nat) (S0 : nat) : res (nat -> option string) :=
  match topSortTarjanFunc (fun u => pch (net u)) (fun _ => true) fuel S0 with
  | None => Fuel
  | Some ord => LT <- foldr_ (nameStep net) ord (fun _ => None, [0; 0; 0]); Ok (fst LT)
  end.

(** L[c]: "" if absent. *)
Definition nameOf (L : nat -> option string) (c : nat) : string :=
  match L c with Some s => s | None => "" end.

(** The lines written: "%s [", "  ...", "]". *)
Inductive pline := LHead (name : string) | LItem (words : list string) | LEnd.

(** The body of the loop, spn/print.go:54-86, without the queue: the lines for node s. L[s][0]
    panics for a node without a name; a leaf that is neither multinomial nor gaussian panics in the
    type assertion of line 65 (the file keeps the lines written before). *)
Definition printNode (net : pnet) (L : nat -> option string) (s : nat) : res (list pline) :=
  name <- orPanic (L s);
  match pk (net s) with
  | PMulti mu sigma => Ok [LHead name; LItem [fmt5 mu; fmt5 sigma]; LEnd]
  | PGauss mu sigma => Ok [LHead name; LItem [fmt5 mu; fmt5 sigma]; LEnd]
  | PLeaf => Panic
  | PSum w =>
      items <- mapi (fun i c => x <- idx w i; Ok (LItem [nameOf L c; fmt5 x])) (pch (net s));
      Ok (LHead name :: items ++ [LEnd])%list
  | PProd => Ok (LHead name :: map (fun c => LItem [nameOf L c]) (pch (net s)) ++ [LEnd])%list
  end.

(** spn/print.go:53-87. The children of a leaf are not followed. *)
Fixpoint printLoop (net : pnet) (L : nat -> option string) (fuel : nat) (Q V : list nat) (out : list pline)
  : res (list pline) :=
  match fuel with
  | O => Fuel
  | S f =>
      match Q with
      | [] => Ok out
      | s :: Q' =>
          lines <- printNode net L s;
          let (Q2, V2) := match pk (net s) with
                          | PSum _ | PProd => give_children UseQueue (pch (net s)) (Q', V)
                          | _ => (Q', V)
                          end in
          printLoop net L f Q2 V2 (out ++ lines)%list
      end
  end.

(** spn/print.go:17-88. A file that cannot be created is a panic before anything is done (not modelled). *)
Definition printSPN (net : pnet) (fuel : nat) (S0 : nat) : res (list pline) :=
  L <- nameAll net fuel S0; printLoop net L fuel [S0] [S0] [].
End Print.
Arguments mkP {F}. Arguments pk {F}. Arguments pch {F}. Arguments psc {F}.
Arguments PSum {F}. Arguments PProd {F}. Arguments PMulti {F}. Arguments PGauss {F}. Arguments PLeaf {F}.
