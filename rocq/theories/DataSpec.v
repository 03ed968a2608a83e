(** Datasets and their parts, independently of the code. *)
From Coq Require Import Reals.
From Verif Require Import Base GoMap LogSpec.

(** Equal maps. *)
Definition meq (m m' : gmap) : Prop := forall k, get m k = get m' k.
(** Maps have one entry per key. *)
Definition good_heap (h : heap) : Prop := forall r, NoDup (keys (mem h r)).
(** Ranging over a map visits every entry once. *)
Definition visits_all (ord : nat -> gmap -> gmap) : Prop := forall i m, Permutation (ord i m) m.
(** All rows of the dataset exist. *)
Definition rows_exist (h : heap) (D : list nat) : Prop := forall r, In r D -> r < nxt h.

(** Everything that existed before is as it was. *)
Definition unchanged (h h' : heap) : Prop := nxt h <= nxt h' /\ forall r, r < nxt h -> mem h' r = mem h r.
(** New maps, each different from the others and from everything that existed before. *)
Definition newly_made (h h' : heap) (rs : list nat) : Prop := NoDup rs /\ forall r, In r rs -> nxt h <= r < nxt h'.
(** [out] are copies of the instances of D with the positions [is], in that order. *)
Definition copies (h : heap) (D : list nat) (h' : heap) (is out : list nat) : Prop :=
  Forall2 (fun i r' => exists r, nth_error D i = Some r /\ meq (mem h r) (mem h' r')) is out.

(** Rounding half away from zero. *)
Definition go_round (x : R) : Z :=
  if Rle_dec 0 x then Int_part (x + 1 / 2) else (- Int_part (- x + 1 / 2))%Z.

(** The parts M hold copies of the instances with the positions listed in idxs, part by part; all
    copies are new maps and what was there before is untouched. *)
Definition divided (h : heap) (D : list nat) (h' : heap) (idxs M : list (list nat)) : Prop :=
  unchanged h h' /\ newly_made h h' (concat M) /\ Forall2 (copies h D h') idxs M.
(** ls are the labels of the instances with the positions [is]. *)
Definition labels_of (L : list Z) (is : list nat) (ls : list Z) : Prop := Forall2 (fun i l => nth_error L i = Some l) is ls.
(** Every position of a dataset of n instances occurs exactly once. *)
Definition exactly_once (n : nat) (idxs : list (list nat)) : Prop := Permutation (concat idxs) (seq 0 n).
(** The positions whose label satisfies f, in order. *)
Definition where_label (f : Z -> bool) (L : list Z) : list nat :=
  filter (fun i => match nth_error L i with Some x => f x | None => false end) (seq 0 (length L)).

(** Exact size of a proportional part, and distance of the running totals to the exact values. *)
Definition totals_close (n : nat) (p : list R) (M : list (list nat)) : Prop :=
  forall k, k <= length p -> (Rabs (INR (length (concat (firstn k M))) - INR n * Rsum (firstn k p)) <= 1 / 2)%R.
(** The first l of the parts have k + 1 elements, the others k. *)
Definition balanced {T} (k l : nat) (M : list (list T)) : Prop :=
  forall i part, nth_error M i = Some part -> length part = k + (if Nat.ltb i l then 1 else 0).

(** Part i has floor(N_j p_i) instances of each class j of N_j instances. *)
Definition class_shares (L : list Z) (c : nat) (p : list R) (U : list (list Z)) : Prop :=
  forall i pi Ui j, nth_error p i = Some pi -> nth_error U i = Some Ui -> j < c ->
    Z.of_nat (count_occ Z.eq_dec Ui (Z.of_nat j)) = Int_part (INR (length (where_label (Z.eqb (Z.of_nat j)) L)) * pi).
