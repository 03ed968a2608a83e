(** C103: the text of a network. *)
From Coq Require Import String.
From Verif Require Import Base Res GraphSpec Print PrintSpec PrintLemmas Text.
Local Open Scope string_scope.

(** One entry per node, the root first, under names that tell nodes and kinds apart. *)
Theorem print_text :
  forall (F : Type) (fmt5 : F -> string) (net : pnet F) N r,
  bounded (graph_of net) N -> r < N -> (forall u, reach (graph_of net) r u -> printable (net u)) ->
  exists nm ord, printSPN F fmt5 net (2 * N + 1) r = Ok (concat (map (entry fmt5 nm net) ord)) /\
    enumerates (graph_of net) r ord /\ (exists t, ord = r :: t) /\
    (forall u, reach (graph_of net) r u -> exists x, nm u = initial (pk (net u)) ++ x) /\
    (forall u v, reach (graph_of net) r u -> reach (graph_of net) r v -> nm u = nm v -> u = v).
Proof. exact @print_text_l. Qed.
Print Assumptions print_text.

(** Networks with the same text have the same shape, weights and parameters (up to the digits). *)
Theorem print_determines_partial :
  forall (F : Type) (fmt5 : F -> string) (net net' : pnet F) N N' r r' t,
  bounded (graph_of net) N -> r < N -> (forall u, reach (graph_of net) r u -> printable (net u)) ->
  bounded (graph_of net') N' -> r' < N' -> (forall u, reach (graph_of net') r' u -> printable (net' u)) ->
  printSPN F fmt5 net (2 * N + 1) r = Ok t -> printSPN F fmt5 net' (2 * N' + 1) r' = Ok t ->
  same_network fmt5 net net' r r'.
Proof. exact @print_same_l. Qed.
Print Assumptions print_determines_partial.

(** ... but the variables of the leaves are not in the text. *)
Theorem print_determines_refuted :
  exists (net net' : pnet Z) t, bounded (graph_of net) 1 /\ bounded (graph_of net') 1 /\
  (forall u, printable (net u)) /\ (forall u, printable (net' u)) /\
  printSPN Z itoa net 3 0 = Ok t /\ printSPN Z itoa net' 3 0 = Ok t /\ psc (net 0) <> psc (net' 0).
Proof. exact print_scope_l. Qed.
Print Assumptions print_determines_refuted.

(** A network with a leaf that is neither multinomial nor gaussian panics. *)
Theorem print_indicator_panics :
  forall (F : Type) (fmt5 : F -> string) (net : pnet F) N r,
  bounded (graph_of net) N -> r < N ->
  (forall u, reach (graph_of net) r u -> printable (net u) \/ pk (net u) = PLeaf) ->
  (exists v, reach (graph_of net) r v /\ pk (net v) = PLeaf) -> printSPN F fmt5 net (2 * N + 1) r = Panic.
Proof. exact @print_panic_l. Qed.
Print Assumptions print_indicator_panics.

Example print_case :
  bounded (graph_of exNet) 6 /\ (forall u, printable (exNet u)) /\
  printSPN Z itoa exNet 13 0 = Ok
   [LHead "S0"; LItem ["P1"; "3"]; LItem ["P0"; "7"]; LEnd;
    LHead "P1"; LItem ["L1"]; LItem ["L2"]; LEnd;
    LHead "P0"; LItem ["L1"]; LItem ["L0"]; LEnd;
    LHead "L1"; LItem ["0"; "1"]; LEnd; LHead "L2"; LItem ["5"; "2"]; LEnd; LHead "L0"; LItem ["8"; "2"]; LEnd].
Proof. split; [exact exNet_bounded|]. split; [exact exNet_printable|]. vm_compute. reflexivity. Qed.
Example print_indicator_case : printSPN Z itoa (fun _ => mkP PLeaf [] [0]%Z) 3 0 = Panic.
Proof. reflexivity. Qed.
