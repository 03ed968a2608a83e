(** C41, C42: multinomial constructors and statistics; C17: the leaves are univariate. *)
From Coq Require Import Reals Lra.
From Verif Require Import Base Res Arith LogSpec Spn SpnSpec Leaves ProbSpec MultiSpec MultiLemmas.
Local Open Scope R_scope.

(** C41. [rnd n] is the answer of sys.RandIntn(n). *)
Theorem counting_multinomial_smoothed :
  forall (rnd : nat -> nat) (x : Z) (counts : list Z),
  counts <> [] -> (forall c, In c counts -> (0 <= c)%Z) -> (forall n, (0 < n)%nat -> (rnd n < n)%nat) ->
  exists ps mi,
    newCountingMultinomial rnd x counts =
      Ok (@mkMulti XR [x] x (map Fin ps) (Z.of_nat mi) (Fin (nth mi ps 0))) /\
    length ps = length counts /\
    (forall i c, nth_error counts i = Some c ->
       nth i ps 0 = (1 + IZR c) / (INR (length counts) + IZR (fold_right Z.add 0%Z counts))) /\
    (forall p, In p ps -> 0 < p) /\ Rsum ps = 1 /\
    (forall i j ci cj, nth_error counts i = Some ci -> nth_error counts j = Some cj ->
       ((ci <= cj)%Z <-> nth i ps 0 <= nth j ps 0)) /\
    is_mode ps mi.
Proof. exact counting_l. Qed.
Print Assumptions counting_multinomial_smoothed.

(** C41: hence a leaf to which C18-C21 apply. *)
Theorem counting_multinomial_is_leaf :
  forall (rnd : nat -> nat) (x : Z) (counts : list Z) (card : Z -> nat),
  counts <> [] -> (forall c, In c counts -> (0 <= c)%Z) -> (forall n, (0 < n)%nat -> (rnd n < n)%nat) ->
  card x = length counts ->
  exists m, @newCountingMultinomial XR rnd x counts = Ok m /\ multinomial_leaf card (multiLeaf m) x.
Proof. exact counting_leaf_l. Qed.
Print Assumptions counting_multinomial_is_leaf.

Theorem scoped_counting_multinomial_smoothed :
  forall (x : Z) (esc counts : list Z),
  counts <> [] -> (forall c, In c counts -> (0 <= c)%Z) ->
  exists ps mi,
    newScopedCountingMultinomial x esc counts =
      @mkMulti XR esc x (map Fin ps) (Z.of_nat mi) (Fin (nth mi ps 0)) /\
    length ps = length counts /\
    (forall i c, nth_error counts i = Some c ->
       nth i ps 0 = (1 + IZR c) / (INR (length counts) + IZR (fold_right Z.add 0%Z counts))) /\
    is_mode ps mi.
Proof. exact scoped_l. Qed.
Print Assumptions scoped_counting_multinomial_smoothed.

Theorem new_multinomial_mode :
  forall (rnd : nat -> nat) (x : Z) (ps : list R),
  ps <> [] -> (forall p, In p ps -> 0 <= p) -> (forall n, (0 < n)%nat -> (rnd n < n)%nat) ->
  exists mi, @newMultinomial XR rnd x (map Fin ps) =
      Ok (@mkMulti XR [x] x (map Fin ps) (Z.of_nat mi) (Fin (nth mi ps 0))) /\ is_mode ps mi.
Proof. exact new_multi_l. Qed.
Print Assumptions new_multinomial_mode.

Theorem empty_multinomial_uniform :
  forall (x : Z) (n : nat), (0 < n)%nat ->
  let ps := repeat (1 / INR n) n in
  newEmptyMultinomial x (Z.of_nat n) = Ok (@mkMulti XR [x] x (map Fin ps) 0 (Fin (nth 0 ps 0))) /\
  Rsum ps = 1 /\ is_mode ps 0.
Proof. exact empty_multi_l. Qed.
Print Assumptions empty_multinomial_uniform.

Example counting_case : [3; 0; 3]%Z <> [] /\ (forall c, In c [3; 0; 3]%Z -> (0 <= c)%Z) /\
  (forall n, (0 < n)%nat -> (Nat.pred n < n)%nat).
Proof. split; [discriminate|]. split; [intros c [<-|[<-|[<-|[]]]]; lia|intros; lia]. Qed.

(** C42. *)
Theorem multinomial_mean :
  forall sc x (ps : list R) mi mv, mean (@mkMulti XR sc x (map Fin ps) mi mv) = Fin (dist_mean ps).
Proof. exact mean_l. Qed.
Print Assumptions multinomial_mean.

(** C42: false: the deviation is not weighted by the probabilities. *)
Theorem multinomial_stddev_refuted : exists ps mi mv,
  (forall p, In p ps -> 0 <= p) /\ Rsum ps = 1 /\
  stdDev (@mkMulti XR [0%Z] 0%Z (map Fin ps) mi mv) <> Fin (dist_stddev ps).
Proof. exact stddev_refuted_l. Qed.
Print Assumptions multinomial_stddev_refuted.

(** C42: it is right for uniform distributions. *)
Theorem multinomial_stddev_uniform_partial :
  forall sc x n mi mv, (0 < n)%nat ->
  stdDev (@mkMulti XR sc x (map Fin (repeat (1 / INR n) n)) mi mv) = Fin (dist_stddev (repeat (1 / INR n) n)).
Proof. exact stddev_uniform_l. Qed.
Print Assumptions multinomial_stddev_uniform_partial.

Example mean_case : dist_mean [/4; /2; /4] = 1.
Proof. unfold dist_mean, expectation. simpl. lra. Qed.

(** C17: every leaf made by these constructors satisfies the hypothesis of C17. *)
Theorem leaves_are_univariate : forall (A : arith),
  (forall rnd x dist (m : multinomial A), newMultinomial rnd x dist = Ok m -> univariate (multiLeaf m)) /\
  (forall rnd x counts (m : multinomial A), newCountingMultinomial rnd x counts = Ok m -> univariate (multiLeaf m)) /\
  (forall x n (m : multinomial A), newEmptyMultinomial x n = Ok m -> univariate (multiLeaf m)) /\
  (forall x v, univariate (@indLeaf A x v)) /\
  (forall lp tr x mu sigma rd, univariate (@gaussLeaf A lp tr rd x mu sigma)).
Proof. exact leaves_univariate_l. Qed.
Print Assumptions leaves_are_univariate.
