(** What reading a .npy file should give. *)
From Coq Require Import String.
From Verif Require Import Base GoMap Npy MiscSpec.

(** The type names of numpy for integers: byte order, kind and size in bytes, or the long name. *)
Inductive denotes : string -> bool * nat -> Prop :=
| short_name : forall order (signed : bool) digit bytes,
    In order [""; "<"; "|"; ">"]%string ->
    In (digit, bytes) [("1", 1); ("2", 2); ("4", 4); ("8", 8)]%string ->
    denotes (order ++ (if signed then "i" else "u") ++ digit)%string (signed, 8 * bytes)
| long_name : forall (signed : bool) digits bits,
    In (digits, bits) [("8", 8); ("16", 16); ("32", 32); ("64", 64)]%string ->
    denotes ((if signed then "int" else "uint") ++ digits)%string (signed, bits).

(** npyio reads the values of the file one after the other. [at_ p] is the reader before value
    [p]. *)
Record library {St} (rd : St -> nat -> St * option (list Z)) (reopen : St -> St * bool)
  (data : list Z) (at_ : nat -> St) : Prop := {
  lib_read : forall p k, p + k <= length data -> rd (at_ p) k = (at_ (p + k), Some (firstn k (skipn p data)));
  lib_end : forall p k, length data < p + k -> snd (rd (at_ p) k) = None;
  lib_open : forall s, reopen s = (at_ 0, true) }.

(** The answer holds exactly these rows. *)
Definition answers (rows : list (list Z)) (r : npyRes) : Prop :=
  exists ms ls, r = RData (map Some ms) ls /\ length ms = length ls /\ Forall2 row_is rows (combine ms ls).

(** [a] is a part of [b] in the same order, and the last of [b] is the last of [a]. *)
Inductive picked {T} : list T -> list T -> Prop :=
| picked_nil : picked [] []
| picked_skip : forall x a b, a <> [] -> picked a b -> picked a (x :: b)
| picked_take : forall x a b, picked a b -> picked (x :: a) (x :: b).

(** There are enough rows of every class for a balanced batch, and no other labels. *)
Definition enough (rows : list (list Z)) (n c : nat) : Prop :=
  (forall r, In r rows -> (0 <= last r 0 < Z.of_nat c)%Z) /\
  (forall l, l < c -> n <= c * labelled rows (Z.of_nat l)).

(** The results of a session with the file of rows [T]. The state is the number of the next row, or
    None after an error, when nothing is promised until Reset. *)
Inductive session (T : list (list Z)) : option nat -> list npyOp -> list npyRes -> Prop :=
| ses_nil : forall P, session T P [] []
| ses_read : forall p n o r os rs, (o = ORead n \/ (o = OReadAll /\ n = length T)) ->
    p + n <= length T -> answers (firstn n (skipn p T)) r ->
    session T (Some (p + n)) os rs -> session T (Some p) (o :: os) (r :: rs)
| ses_end : forall p n o os rs, (o = ORead n \/ (o = OReadAll /\ n = length T)) ->
    length T < p + n -> session T None os rs -> session T (Some p) (o :: os) (RErr :: rs)
| ses_balanced : forall p q n c taken quota r os rs, p <= q <= length T ->
    picked taken (firstn (q - p) (skipn p T)) -> answers taken r -> length taken = n ->
    even_shares n c quota ->
    (forall i x, nth_error quota i = Some x -> labelled taken (Z.of_nat i) = x) ->
    session T (Some q) os rs -> session T (Some p) (OBalanced n c :: os) (r :: rs)
| ses_lacking : forall p n c os rs, ~ enough (skipn p T) n c ->
    session T None os rs -> session T (Some p) (OBalanced n c :: os) (RErr :: rs)
| ses_lost : forall o r os rs, o <> OReset -> session T None os rs -> session T None (o :: os) (r :: rs)
| ses_reset : forall P os rs, session T (Some 0) os rs -> session T P (OReset :: os) (RReset true :: rs).
