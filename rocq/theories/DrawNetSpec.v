(** What a drawing of a network should show. *)
From Coq Require Import String.
From Verif Require Import Base GraphSpec DrawNet.

Section Spec.
Context {F : Type} (ge0 : F -> bool) (fmt3 : F -> string).

Definition graph_of (net : dnet F) : graph := fun u => dch (net u).

(** A node that can be drawn: a weight, not negative, for every child of a sum; a variable and no
    children for a leaf. *)
Definition drawable (n : dnode F) : Prop :=
  match dk n with
  | DSum w => length w = length (dch n) /\ (forall x, In x w -> ge0 x = true)
  | DProd => True
  | DLeaf => dch n = [] /\ dsc n <> []
  end.

(** The node at the end of a path, given by the positions of the children. *)
Fixpoint walk (net : dnet F) (u : nat) (p : list nat) : option nat :=
  match p with
  | [] => Some u
  | i :: p' => match nth_error (dch (net u)) i with None => None | Some c => walk net c p' end
  end.

Definition label_of (n : dnode F) : dlabel :=
  match dk n with DSum _ => LPlus | DProd => LTimes | DLeaf => LVar (hd 0%Z (dsc n)) end.

(** What is drawn as one node: an occurrence of a node (a path), or all leaves of a variable. *)
Inductive key := KPath (p : list nat) | KVar (v : Z).
Definition key_at (tools : bool) (net : dnet F) (r : nat) (p : list nat) : key :=
  match walk net r p with
  | Some u => if (tools && isLeaf (net u))%bool then KVar (hd 0%Z (dsc (net u))) else KPath p
  | None => KPath p
  end.
Definition label_at (net : dnet F) (r : nat) (p : list nat) : dlabel :=
  match walk net r p with Some u => label_of (net u) | None => LPlus end.
(** The weight on the i-th edge of a sum. *)
Definition weight_at (net : dnet F) (r : nat) (p : list nat) (i : nat) : option string :=
  match walk net r p with
  | Some u => match dk (net u) with DSum w => option_map fmt3 (nth_error w i) | _ => None end
  | None => None
  end.

(** The nodes and edges of a drawing. *)
Fixpoint nodes_in (l : list dline) : list (string * dlabel) :=
  match l with [] => [] | DNode n b :: t => (n, b) :: nodes_in t | _ :: t => nodes_in t end.
Fixpoint edges_in (l : list dline) : list (string * string * option string) :=
  match l with [] => [] | DEdge a b t :: r => (a, b, t) :: edges_in r | _ :: r => edges_in r end.

(** The drawing shows the occurrences of nodes below [r], those with the same key as one node, and
    one edge for every occurrence of an edge. *)
Definition shows (tools : bool) (net : dnet F) (r : nat) (lines : list dline) : Prop :=
  exists (nm : key -> string) (ks : list (list nat)) (es : list (list nat * nat)),
    let k := key_at tools net r in
    nodes_in lines = map (fun p => (nm (k p), label_at net r p)) ks /\
    edges_in lines = map (fun e => (nm (k (fst e)), nm (k (fst e ++ [snd e])), weight_at net r (fst e) (snd e))) es /\
    (forall p, In p ks -> walk net r p <> None) /\ NoDup (map k ks) /\
    (forall p, walk net r p <> None -> In (k p) (map k ks)) /\
    (forall p q, walk net r p <> None -> walk net r q <> None -> nm (k p) = nm (k q) -> k p = k q) /\
    NoDup es /\ (forall p i, In (p, i) es <-> walk net r (p ++ [i]) <> None).

(** The usual drawing: one node for every node, one edge for every edge. *)
Definition faithful (net : dnet F) (r : nat) (lines : list dline) : Prop :=
  exists (nm : nat -> string) (us : list nat) (es : list (nat * nat)),
    nodes_in lines = map (fun u => (nm u, label_of (net u))) us /\ enumerates (graph_of net) r us /\
    (forall u v, In u us -> In v us -> nm u = nm v -> u = v) /\
    edges_in lines = map (fun e => (nm (fst e), nm (nth (snd e) (dch (net (fst e))) 0),
       match dk (net (fst e)) with DSum w => option_map fmt3 (nth_error w (snd e)) | _ => None end)) es /\
    NoDup es /\ (forall u i, In (u, i) es <-> reach (graph_of net) r u /\ i < length (dch (net u))).

(** No node is reached in two ways. *)
Definition unshared (net : dnet F) (r : nat) : Prop :=
  forall p q u, walk net r p = Some u -> walk net r q = Some u -> p = q.
End Spec.
