(** Model of /repo/spn/storer.go.

    A Go map is a reference. A StorerTable is a reference [nat] into [theap] (None = nil map);
    the inner map[int]float64 of a node is a reference into [mheap]. Node keys (SPN interface
    values, compared as pointers) are [nat]; tickets and positions are [Z]; float64 is an
    arbitrary type with a zero. sys.Free() (a garbage collector call) has no effect here. *)
From Verif Require Import Base.

Section Storer.
Variable V : Type.
Variable zero : V.

(** spn/storer.go:19-24, plus the heap. *)
Record storer := mkStorer {
  tables : Z -> option nat;
  tickets : Z;
  theap : nat -> nat -> option nat;
  mheap : nat -> Z -> option V;
  tnext : nat;
  mnext : nat }.

(** spn/storer.go:27-29. *)
Definition newStorer : storer :=
  mkStorer (fun _ => None) 0 (fun _ _ => None) (fun _ _ => None) 0 0.

(** s.tables[k] = make(StorerTable), used at lines 35, 156 and 164. *)
Definition make_table (s : storer) (k : Z) : storer :=
  mkStorer (updZ (tables s) k (Some (tnext s))) (tickets s)
           (upd (theap s) (tnext s) (fun _ => None)) (mheap s) (S (tnext s)) (mnext s).

(** delete(s.tables, k). *)
Definition drop_table (s : storer) (k : Z) : storer :=
  mkStorer (updZ (tables s) k None) (tickets s) (theap s) (mheap s) (tnext s) (mnext s).

(** spn/storer.go:32-37. *)
Definition newTicket (s : storer) : storer * Z :=
  let k := tickets s in
  (make_table (mkStorer (tables s) (tickets s + 1) (theap s) (mheap s) (tnext s) (mnext s)) k, k).

(** spn/storer.go:42-45. *)
Definition table (s : storer) (k : Z) : option nat * bool :=
  (tables s k, match tables s k with None => false | Some _ => true end).

(** spn/storer.go:59-62: a read of a nil table gives the zero value. *)
Definition tValue (s : storer) (t : option nat) (N : nat) : option nat * bool :=
  match t with
  | None => (None, false)
  | Some r => (theap s r N, match theap s r N with None => false | Some _ => true end)
  end.

(** spn/storer.go:49-55. *)
Definition sValue (s : storer) (k : Z) (N : nat) : option nat * bool :=
  match tables s k with None => (None, false) | Some t => tValue s (Some t) N end.

(** Reading position [l] of an inner map reference (nil reads as absent). *)
Definition map_get (s : storer) (m : option nat) (l : Z) : V * bool :=
  match m with
  | None => (zero, false)
  | Some r => match mheap s r l with None => (zero, false) | Some v => (v, true) end
  end.

(** spn/storer.go:76-83. *)
Definition tEntry (s : storer) (t : option nat) (N : nat) (l : Z) : V * bool :=
  match tValue s t N with
  | (_, false) => (zero, false)
  | (m, true) => map_get s m l
  end.

(** spn/storer.go:66-72. *)
Definition sEntry (s : storer) (k : Z) (N : nat) (l : Z) : V * bool :=
  match tables s k with None => (zero, false) | Some t => tEntry s (Some t) N l end.

(** spn/storer.go:86 and 89. *)
Definition sSingle (s : storer) (k : Z) (N : nat) := sEntry s k N 0.
Definition tSingle (s : storer) (t : option nat) (N : nat) := tEntry s t N 0.

Definition map_set (s : storer) (r : nat) (l : Z) (v : V) : storer :=
  mkStorer (tables s) (tickets s) (theap s)
           (upd (mheap s) r (updZ (mheap s r) l (Some v))) (tnext s) (mnext s).

(** spn/storer.go:101-110. Writing to a nil table panics (None). *)
Definition tStore (s : storer) (t : option nat) (N : nat) (l : Z) (v : V)
  : option (storer * bool) :=
  match t with
  | None => None
  | Some r =>
      match theap s r N with
      | None =>
          let m := mnext s in
          let s1 := mkStorer (tables s) (tickets s)
                             (upd (theap s) r (upd (theap s r) N (Some m)))
                             (upd (mheap s) m (fun _ => None)) (tnext s) (S m) in
          Some (map_set s1 m l v, true)
      | Some m => Some (map_set s m l v, true)
      end
  end.

(** spn/storer.go:92-98. *)
Definition sStore (s : storer) (k : Z) (N : nat) (l : Z) (v : V) : option (storer * bool) :=
  match table s k with
  | (_, false) => Some (s, false)
  | (t, true) => tStore s t N l v
  end.

(** spn/storer.go:114 and 118. *)
Definition sStoreSingle (s : storer) (k : Z) (N : nat) (v : V) := sStore s k N 0 v.
Definition tStoreSingle (s : storer) (t : option nat) (N : nat) (v : V) := tStore s t N 0 v.

(** spn/storer.go:121-130: s.tables[k] of a missing ticket is a nil map, reads as absent. *)
Definition sExistsSPN (s : storer) (k : Z) (N : nat) : bool := snd (tValue s (tables s k) N).
Definition tExistsSPN (s : storer) (t : option nat) (N : nat) : bool := snd (tValue s t N).

(** spn/storer.go:133-142. *)
Definition sExists (s : storer) (k : Z) (N : nat) (l : Z) : bool :=
  snd (map_get s (fst (tValue s (tables s k) N)) l).
Definition tExists (s : storer) (t : option nat) (N : nat) (l : Z) : bool :=
  snd (map_get s (fst (tValue s t N)) l).

(** spn/storer.go:146-149. *)
Definition delete_ (s : storer) (k : Z) : storer := drop_table s k.

(** spn/storer.go:153-158. *)
Definition reset (s : storer) (k : Z) : storer * Z := (make_table (drop_table s k) k, k).

(** spn/storer.go:161-167. *)
Definition resetTickets (s : storer) (ks : list Z) : storer :=
  fold_left (fun s k => make_table (drop_table s k) k) ks s.

(** spn/storer.go:170-176. Deleting every key while ranging leaves no key. *)
Definition purge (s : storer) : storer :=
  mkStorer (fun _ => None) 0 (theap s) (mheap s) (tnext s) (mnext s).

(** Client programs: calls on the Storer, calls on a table handle, and writes to the inner
    map obtained from Value. *)
Inductive sop :=
| ONew | OStore (k : Z) (N : nat) (l : Z) (v : V) | OStoreSingle (k : Z) (N : nat) (v : V)
| OEntry (k : Z) (N : nat) (l : Z) | OSingle (k : Z) (N : nat)
| OValueGet (k : Z) (N : nat) (l : Z)
| OExistsSPN (k : Z) (N : nat) | OExists (k : Z) (N : nat) (l : Z)
| OHasTable (k : Z)
| ODelete (k : Z) | OReset (k : Z) | OResetTickets (ks : list Z) | OPurge.

Inductive sres := RTicket (k : Z) | ROk (b : bool) | RVal (v : V) (b : bool) | RDone.

(** OValueGet: m, e := s.Value(k, N); then m[l]. *)
Definition sstep (s : storer) (o : sop) : option (storer * sres) :=
  match o with
  | ONew => let (s', k) := newTicket s in Some (s', RTicket k)
  | OStore k N l v =>
      match sStore s k N l v with None => None | Some (s', b) => Some (s', ROk b) end
  | OStoreSingle k N v =>
      match sStoreSingle s k N v with None => None | Some (s', b) => Some (s', ROk b) end
  | OEntry k N l => let (v, b) := sEntry s k N l in Some (s, RVal v b)
  | OSingle k N => let (v, b) := sSingle s k N in Some (s, RVal v b)
  | OValueGet k N l =>
      let (m, e) := sValue s k N in
      let (v, b) := map_get s m l in Some (s, RVal v (andb e b))
  | OExistsSPN k N => Some (s, ROk (sExistsSPN s k N))
  | OExists k N l => Some (s, ROk (sExists s k N l))
  | OHasTable k => Some (s, ROk (snd (table s k)))
  | ODelete k => Some (delete_ s k, RDone)
  | OReset k => let (s', k') := reset s k in Some (s', RTicket k')
  | OResetTickets ks => Some (resetTickets s ks, RDone)
  | OPurge => Some (purge s, RDone)
  end.

Inductive uop :=
| US (o : sop)
| UTStore (t : option nat) (N : nat) (l : Z) (v : V)
| UTEntry (t : option nat) (N : nat) (l : Z)
| UMapSet (m : nat) (l : Z) (v : V).

(** A client only holds references it was given, so a reference that was never allocated
    cannot occur; it is mapped to None. *)
Definition allocated (s : storer) (t : option nat) : bool :=
  match t with None => true | Some r => Nat.ltb r (tnext s) end.

Definition ustep (s : storer) (o : uop) : option (storer * sres) :=
  match o with
  | US o => sstep s o
  | UTStore t N l v =>
      if allocated s t then
        match tStore s t N l v with None => None | Some (s', b) => Some (s', ROk b) end
      else None
  | UTEntry t N l => let (v, b) := tEntry s t N l in Some (s, RVal v b)
  | UMapSet m l v => if Nat.ltb m (mnext s) then Some (map_set s m l v, RDone) else None
  end.
End Storer.
