(** C102: reading .npy files. *)
From Coq Require Import String.
From Verif Require Import Base Res GoMap MiscSpec Npy NpySpec NpyLemmas.

(** The type chosen for a file is the one its header names. *)
Theorem npy_type : forall t k, isValid t = Some k -> exists ty, caseType k = Some ty /\ denotes t ty.
Proof. exact isValid_kind_l. Qed.
Print Assumptions npy_type.

Theorem npy_type_unique : forall t a b, denotes t a -> denotes t b -> a = b.
Proof. exact denotes_fun_l. Qed.
Print Assumptions npy_type_unique.

(** Every integer type is accepted but one name, which is left out of the table. *)
Theorem npy_type_all_partial : forall t ty, denotes t ty -> t <> ">u1"%string -> exists k, isValid t = Some k.
Proof. exact isValid_all_l. Qed.
Print Assumptions npy_type_all_partial.

Theorem npy_type_all_refuted : exists t ty, denotes t ty /\ isValid t = None.
Proof. exact isValid_miss_l. Qed.
Print Assumptions npy_type_all_refuted.

Example npy_type_case : isValid "<i4" = Some 6 /\ isValid "uint16" = Some 1 /\ isValid "<f8" = None.
Proof. repeat split; reflexivity. Qed.

(** Every sequence of calls: the rows come back in order, from the first one again after Reset. *)
Theorem npy_session :
  forall St (rd : St -> nat -> St * option (list Z)) reopen (T : list (list Z)) y at_,
  library rd reopen (concat T) at_ -> (forall r, In r T -> length r = S y) ->
  forall fuel os s rs, npyRun St rd reopen (length T) (S y) fuel (at_ 0) os = Ok (s, rs) -> session T (Some 0) os rs.
Proof. exact npy_session_l. Qed.
Print Assumptions npy_session.

(** Reading in pieces of any sizes gives the rows that one read gives. *)
Theorem npy_pieces :
  forall St (rd : St -> nat -> St * option (list Z)) reopen (T : list (list Z)) y at_,
  library rd reopen (concat T) at_ -> (forall r, In r T -> length r = S y) ->
  forall fuel ns, list_sum ns <= length T ->
  exists s rs parts, npyRun St rd reopen (length T) (S y) fuel (at_ 0) (map ORead ns) = Ok (s, rs) /\
    concat parts = firstn (list_sum ns) T /\ Forall2 (fun n part => length part = n) ns parts /\ Forall2 answers parts rs.
Proof. exact npy_pieces_l. Qed.
Print Assumptions npy_pieces.

(** A balanced read returns when enough rows are left. *)
Theorem npy_balanced_returns :
  forall St (rd : St -> nat -> St * option (list Z)) reopen (T : list (list Z)) y at_,
  library rd reopen (concat T) at_ -> (forall r, In r T -> length r = S y) ->
  forall fuel p n c, p <= length T -> length T - p < fuel -> 0 < c -> enough (skipn p T) n c ->
  exists q u l, q <= length T /\ npyBalanced St rd (S y) fuel (at_ (p * S y)) n c = Ok (at_ (q * S y), RData u l) /\
    length u = n /\ length l = n.
Proof. exact npy_balanced_l. Qed.
Print Assumptions npy_balanced_returns.

(** Whatever the library does: n maps and labels if it gives the values asked for, a panic if it
    gives more. *)
Theorem npy_any_library :
  forall St (rd : St -> nat -> St * option (list Z)) cols s n s' m, rd s (n * cols) = (s', Some m) ->
  (length m = n * cols -> exists u l, npyRead St rd cols s n = Ok (s', RData u l) /\ length u = n /\ length l = n) /\
  (n * cols < length m -> npyRead St rd cols s n = Panic).
Proof. exact @read_any_l. Qed.
Print Assumptions npy_any_library.

(** A file of four rows with two columns and a label. *)
Example npy_library_case : library fileRead fileReopen (concat fileRows) (fun p => p).
Proof. exact fileLib. Qed.
Example npy_session_case :
  npyRun nat fileRead fileReopen 4 3 9 0 [ORead 1; ORead 2; OReadAll; OReset; OBalanced 2 2; ORead 1] =
  Ok (12%nat, [RData [Some [(1, 2); (0, 1)]] [0];
          RData [Some [(1, 4); (0, 3)]; Some [(1, 6); (0, 5)]] [0; 1];
          RErr; RReset true;
          RData [Some [(0, 1); (1, 2)]; Some [(0, 5); (1, 6)]] [0; 1];
          RData [Some [(1, 8); (0, 7)]] [1]])%Z.
Proof. vm_compute. reflexivity. Qed.
