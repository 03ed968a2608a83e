(** Model of /repo/io/spn.go (SaveSPN, LoadSPN), ReadFromFile of /repo/io/input.go, and of Marshal and
    Unmarshal of /repo/spn/serial.go on bytes, over the values of Serial.v. *)
From Coq Require Import String.
From Verif Require Import Base Res Arith GraphSpec Topo Leaves Codec Serial.
Local Open Scope Z_scope.

Section SaveLoad.
Context {A : arith}.
Variable exact : F A -> num.
Variable near : num -> F A.
Local Notation text := (list (chr (F A))).

(** The values sent through encoding/gob: a uint32, a node (its type and the bytes of GobEncode), the
    link table. *)
Inductive item := INum (k : Z) | INode (n : tag * text) | ILinks (l : list (list Z)).

(** encoding/gob: the bytes that send a value after those sent before it, and reading one value back;
    None is an error. *)
Variable enc : list item -> item -> list Z.
Variable dec : list item -> list Z -> option (item * list Z).

(** The bytes of a sequence of values. *)
Fixpoint encAll (prev l : list item) : list Z :=
  match l with [] => [] | i :: t => enc prev i ++ encAll (prev ++ [i]) t end.

(** The order in which Marshal sends: spn/serial.go:56-57, 61. *)
Definition itemsOf (m : @message A) : list item :=
  flat_map (fun p => [INum (fst p); INode (snd p)]) (nodes m) ++ [ILinks (links m)].

(** spn/serial.go:63-66. *)
Definition bytesOf (m : @message A) : list Z := header m ++ encAll [] (itemsOf m).

(** A gob.Decoder: what was read and what is left; None after an error. An error only arises here at
    the end of what is left (a cut file), and the bytes left are consumed then. *)
Definition decoder := option (list item * list Z).
Definition next (d : decoder) : option item * decoder :=
  match d with
  | None => (None, None)
  | Some (prev, b) =>
      match dec prev b with
      | None => (None, None)
      | Some (i, rest) => (Some i, Some (prev ++ [i], rest))
      end
  end.

(** spn/serial.go:74-79: the error of the number is not looked at (it stays 0), that of the node
    panics (32-38), as does a node that cannot be decoded. *)
Fixpoint readNodes (n : nat) (d : decoder) (h : memory) (M : list (option nat))
  : res (decoder * memory (A := A) * list (option nat)) :=
  match n with
  | O => Ok (d, h, M)
  | S n' =>
      let (i, d1) := next d in
      let k := match i with Some (INum k) => k | _ => 0 end in
      let (z, d2) := next d1 in
      match z with
      | Some (INode (g, t)) =>
          o <- gobDecode near g t;
          c <- orPanic o;
          _ <- idxZ M k;
          readNodes n' d2 (h ++ [(c, [])]) (set_nth (Z.to_nat k) (Some (length h)) M)
      | _ => Panic
      end
  end.

(** spn/serial.go:68-93. Fewer than four bytes make the slice panic; the error of the link table is
    not looked at (it stays empty). *)
Definition unmarshalBytes (b : list Z) : res (memory (A := A) * option nat) :=
  if (length b <? 4)%nat then Panic else
  n <- uint32Of (firstn 4 b);
  r <- readNodes (Z.to_nat n) (Some ([], skipn 4 b)) [] (repeat None (Z.to_nat n));
  let '(d, h, M) := r in
  let l := match fst (next d) with Some (ILinks l) => l | _ => [] end in
  h' <- linkNodes M l h;
  root <- idxZ M ((n - 1) mod 2 ^ 32);
  Ok (h', root).

(** The files, by name. *)
Definition files := string -> option (list Z).
Definition fput (d : files) (f : string) (b : list Z) : files := fun g => if String.eqb f g then Some b else d g.

(** The file system: whether os.Create succeeds, and how many bytes Write puts into the file before it
    fails (None: all). *)
Variable creatable : string -> bool.

(** io/spn.go:10-19; the result is whether the error is nil. The network is in memory (contents and
    children) and does not change. os.Create empties the file first. *)
Definition saveSPN (d : files) (f : string) (cut : option nat) (cont : nat -> content A) (ch : graph) (fuel S : nat)
  : files * res bool :=
  if creatable f then
    match marshal exact cont ch fuel S with
    | Ok m =>
        let b := bytesOf m in
        match cut with
        | None => (fput d f b, Ok true)
        | Some k => (fput d f (firstn k b), Ok false)
        end
    | Panic => (fput d f [], Panic)
    | Fuel => (fput d f [], Fuel)
    end
  else (d, Ok false).

(** io/spn.go:22-29: None is an error. *)
Definition loadSPN (d : files) (f : string) : res (option (memory (A := A) * option nat)) :=
  match d f with
  | None => Ok None
  | Some b => r <- unmarshalBytes b; Ok (Some r)
  end.

(** A caller's sequence of saves that write completely, stopping at the first failure. A network is its
    contents, children, number of nodes and root. *)
Definition net := ((nat -> content A) * graph * nat * nat)%type.
Fixpoint saveAll (d : files) (ws : list (string * net)) : files * res bool :=
  match ws with
  | [] => (d, Ok true)
  | (f, (cont, ch, N, r)) :: t =>
      match saveSPN d f None cont ch (2 * N + 1) r with
      | (d', Ok true) => saveAll d' t
      | x => x
      end
  end.

(** io/input.go:338-347: os.Create, and nil. *)
Definition readFromFile (d : files) (f : string) : files * res (option nat) :=
  if creatable f then (fput d f [], Ok None) else (d, Panic).
End SaveLoad.
