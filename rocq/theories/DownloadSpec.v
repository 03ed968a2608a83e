(** What a client expects of the data set functions. *)
From Coq Require Import Ascii String.
From Verif Require Import Base Res GoMap Parse Img Download.
Local Open Scope string_scope.
Local Open Scope Z_scope.

(** No files. *)
Definition emptyDisk : disk := fun _ => Absent.

Section Spec.
(** What is published under a URL. *)
Variable published : string -> string.

Definition site : string := "https://raw.githubusercontent.com/RenatoGeh/datasets/master/".
Definition data_of (u : string) : res (gmap * list gmap) := parseData (fileLines (published u)).

(** Nothing, or the published data. *)
Definition right (c : call) (a : answer) : Prop :=
  match c, a with
  | CSet _, ASet (Ok None) => True
  | CSet name, ASet (Ok (Some x)) => data_of (site ++ name ++ "/compiled/all.data") = Ok x
  | CMnist _ _, AMnist (Ok None) => True
  | CMnist n b, AMnist (Ok (Some (v, t, r))) =>
      exists v', data_of (site ++ "mnist/compiled/test_" ++ Text.itoa b ++ "_" ++ Text.itoa n ++ ".data") = Ok (v, t) /\
        data_of (site ++ "mnist/compiled/train_" ++ Text.itoa b ++ "_" ++ Text.itoa n ++ ".data") = Ok (v', r)
  | _, _ => False
  end.

(** The published data. *)
Definition delivered (c : call) (a : answer) : Prop :=
  right c a /\ match a with ASet r => exists x, r = Ok (Some x) | AMnist r => exists x, r = Ok (Some x) end.

(** The URLs of a data set. *)
Definition sources (c : call) : list string :=
  match c with
  | CSet name => [site ++ name ++ "/compiled/all.data"]
  | CMnist n b => map (fun k => site ++ "mnist/compiled/" ++ k ++ "_" ++ Text.itoa b ++ "_" ++ Text.itoa n ++ ".data") ["test"; "train"]
  end.
Definition source (u : string) : Prop := exists c, In c calls /\ In u (sources c).
(** Every request for a data set is answered with the whole of what is published. *)
Definition reliable (net : nat -> string -> reply) : Prop := forall k u, source u -> exists st, net k u = Reply st (published u) true.
(** A server whose replies are what is published, though connections may fail or break off. *)
Definition honest (net : nat -> string -> reply) : Prop :=
  forall k u, net k u = NoReply \/
    exists text whole, net k u = Reply 200 text whole /\ exists rest, published u = text ++ rest /\ (whole = true -> rest = "").
(** What is published can be parsed. *)
Definition parsable : Prop := forall u, source u -> exists x, data_of u = Ok x.
End Spec.
