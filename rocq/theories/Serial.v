(** Model of /repo/spn/serial.go: Marshal and Unmarshal.

    encoding/gob is trusted to transport the sequence of values sent, with the bytes given by
    GobEncode. The values are grouped in a record: the four header bytes, the pairs
    (number, node), the link table. *)
From Coq Require Import QArith.
From Verif Require Import Base Res Arith GraphSpec Topo Leaves Codec.
Local Open Scope Z_scope.

(** encoding/binary LittleEndian.PutUint32 and Uint32. *)
Definition putUint32 (n : Z) : list Z :=
  [n mod 256; n / 256 mod 256; n / 65536 mod 256; n / 16777216 mod 256].
Definition uint32Of (b : list Z) : res Z :=
  b0 <- idx b 0; b1 <- idx b 1; b2 <- idx b 2; b3 <- idx b 3;
  Ok (b0 + 256 * b1 + 65536 * b2 + 16777216 * b3).

Section Serial.
Context {A : arith}.
Variable exact : F A -> num.
Variable near : num -> F A.
Local Notation text := (list (chr (F A))).

Record message := mkMsg {
  header : list Z; nodes : list (Z * (tag * text)); links : list (list Z) }.

(** A network in memory: contents and children of each pointer. *)
Variable cont : nat -> content A.
Variable ch : graph.

(** The variables captured by the callback of Marshal: M, list, n and what was sent. *)
Record mstate := mkM {
  mM : nat -> option Z; mlist : list (list Z); mn : Z; msent : list (Z * (tag * text)) }.

(** spn/serial.go:51-54, one child: a child without number reads as 0. *)
Definition linkChild (M : nat -> option Z) (n : Z) (l : list (list Z)) (c : nat)
  : res (list (list Z)) :=
  let p := match M c with Some p => p | None => 0 end in
  row <- idxZ l n; Ok (set_nth (Z.to_nat n) (row ++ [p]) l).

(** spn/serial.go:47-59: the callback; n is a uint32. *)
Definition marshalNode (st : mstate) (z : nat) : res mstate :=
  let M := upd (mM st) z (Some (mn st)) in
  l <- foldr_ (linkChild M (mn st)) (ch z) (mlist st ++ [[]]);
  Ok (mkM M l ((mn st + 1) mod 2 ^ 32) (msent st ++ [(mn st, gobEncode exact (cont z))])).

(** spn/serial.go:40-66: the callback always returns true. *)
Definition marshal (fuel : nat) (S : nat) : res message :=
  match topSortTarjanFunc ch (fun _ => true) fuel S with
  | None => Fuel
  | Some ord =>
      st <- foldr_ marshalNode ord (mkM (fun _ => None) [] 0 []);
      Ok (mkMsg (putUint32 (mn st)) (msent st) (mlist st))
  end.

(** The memory built by Unmarshal: nodes are allocated in sequence; a child may be nil. *)
Definition memory := list (content A * list (option nat)).

(** spn/serial.go:74-79, [n] iterations. Decode fails (and decodeSPN panics) when nothing is
    left or the node cannot be decoded. *)
Fixpoint decodeNodes (n : nat) (sent : list (Z * (tag * text))) (h : memory)
  (M : list (option nat)) : res (list (Z * (tag * text)) * memory * list (option nat)) :=
  match n with
  | O => Ok (sent, h, M)
  | S n' =>
      match sent with
      | [] => Panic
      | (k, (g, t)) :: rest =>
          o <- gobDecode near g t;
          c <- orPanic o;
          _ <- idxZ M k;
          decodeNodes n' rest (h ++ [(c, [])]) (set_nth (Z.to_nat k) (Some (length h)) M)
      end
  end.

(** spn/serial.go:85-88: S.AddChild(M[c]); calling it on a nil S panics. *)
Definition addLink (M : list (option nat)) (s : option nat) (h : memory) (c : Z)
  : res memory :=
  z <- idxZ M c;
  p <- orPanic s;
  nd <- idx h p;
  Ok (set_nth p (fst nd, snd nd ++ [z]) h).

(** spn/serial.go:83-89. *)
Definition linkNodes (M : list (option nat)) (l : list (list Z)) (h : memory) : res memory :=
  foldi (fun i h row => s <- idx M i; foldr_ (addLink M s) row h) l h.

(** spn/serial.go:68-93. When more nodes were sent than the header says, decoding the link table
    fails, the error is ignored and the table stays empty. *)
Definition unmarshal (m : message) : res (memory * option nat) :=
  n <- uint32Of (header m);
  r <- decodeNodes (Z.to_nat n) (nodes m) [] (repeat None (Z.to_nat n));
  let '(rest, h, M) := r in
  h' <- linkNodes M (match rest with [] => links m | _ => [] end) h;
  root <- idxZ M ((n - 1) mod 2 ^ 32);
  Ok (h', root).
End Serial.
