(** C121 and C122: variables that are not observed. *)
From Coq Require Import Reals.
From Verif Require Import Base Res Arith LogSpec GraphSpec Spn GoMap DataSpec Stats Dennis DennisSpec DennisCases ProbSpec ProbCases PoonSpec
  MissingSpec MissingLemmas MissingDennis MissingCases.
Local Open Scope R_scope.

(** C121: with leaves of any kind, the value of a network as a function of one variable, observed or not, is a
    mixture of leaves over that variable. *)
Theorem missing_variable : forall (net : network XR) N r J x vs,
  bounded (children net) N -> (r < N)%nat -> acyclic_from (children net) r ->
  weights_nonneg net r -> own_scope net r -> complete net r -> decomposable net r ->
  (forall o, among vs o -> answers net (observe J x o) r) -> in_scope net r x ->
  exists ts, leaves_over net x r ts /\
    forall o, among vs o -> value net N (observe J x o) r = Ok (xln (mixture ts (observe J x o))).
Proof. exact missing_l. Qed.
Print Assumptions missing_variable.

(** C121: if every leaf over the variable has densities that add up to between lo and hi times its answer
    without the variable, then so does the network. *)
Theorem missing_sums : forall (net : network XR) N r J x lo hi vs,
  bounded (children net) N -> (r < N)%nat -> acyclic_from (children net) r ->
  weights_nonneg net r -> own_scope net r -> complete net r -> decomposable net r ->
  (forall o, among vs o -> answers net (observe J x o) r) -> in_scope net r x ->
  (forall u l, reach (children net) r u -> nk (net u) = KLeaf l -> In x (lsc l) ->
    lo * density l (observe J x None) <= Rsum (map (fun v => density l (observe J x (Some v))) vs) <= hi * density l (observe J x None)) ->
  exists p q, value net N (observe J x None) r = Ok (xln p) /\ 0 <= p /\
    (forall v, In v vs -> value net N (observe J x (Some v)) r = Ok (xln (q v)) /\ 0 <= q v) /\
    lo * p <= Rsum (map q vs) <= hi * p.
Proof. exact missing_sum_l. Qed.
Print Assumptions missing_sums.

(** C121: with normalised weights, evidence for which every leaf answers one has value one. *)
Theorem nothing_observed : forall (net : network XR) N r I,
  bounded (children net) N -> (r < N)%nat -> acyclic_from (children net) r ->
  weights_nonneg net r -> weights_normalised net r -> leaves_normal net I r -> value net N I r = Ok (Fin 0).
Proof. exact nothing_l. Qed.
Print Assumptions nothing_observed.

(** A mixture of multinomials with a Gaussian whose densities at 0 and 1 do not add up to one. *)
Example missing_case : bounded (children (wnet gl)) 6 /\ acyclic_from (children (wnet gl)) 0 /\ weights_nonneg (wnet gl) 0 /\ weights_normalised (wnet gl) 0 /\
  own_scope (wnet gl) 0 /\ complete (wnet gl) 0 /\ decomposable (wnet gl) 0 /\ (forall o, among [0; 1]%Z o -> answers (wnet gl) (observe one2 0 o) 0) /\
  in_scope (wnet gl) 0 0%Z /\ leaves_normal (wnet gl) (fun _ => None) 0 /\
  forall u l, reach (children (wnet gl)) 0 u -> nk (wnet gl u) = KLeaf l -> In 0%Z (lsc l) ->
    /2 * density l (observe one2 0 None) <= Rsum (map (fun v => density l (observe one2 0 (Some v))) [0; 1]%Z) <= 1 * density l (observe one2 0 None).
Proof. exact mixed_case. Qed.

(** C122: the networks of the Dennis-Ventura learner, as long as no standard deviation is zero. *)
Theorem dennis_missing_partial :
  forall ord ordC km kmD db par logProb trunc round rnd fuel D sc k m g t n,
  visits_all ord -> (forall c C, Permutation (ordC c C) C) -> two_clusters km -> good_views kmD db n D k ->
  (forall i, (0 <= rnd i < 10)%Z) -> (0 < m)%nat -> (0 < g)%nat ->
  NoDup (keys sc) -> (2 <= length sc)%nat -> (forall x, member sc x -> (0 <= x < Z.of_nat n)%Z) -> (length sc < fuel)%nat ->
  (forall v i, member sc v -> exists mu s, par v i = (Fin mu, Fin s)) -> (forall mu sigma x, logval (logProb mu sigma x)) ->
  (forall v i, member sc v -> snd (par v i) <> Fin 0) ->
  exists net z N, @structure XR ord ordC km kmD db par logProb trunc round rnd fuel D sc k m g t = Ok (net, z) /\
  (forall I, (forall x, member sc x -> I x = None) -> value net N I z = Ok (Fin 0)) /\
  forall J x lo hi vs, member sc x ->
    (forall i, lo <= Rsum (map (fun v => lin (logProb (fst (par x i)) (snd (par x i)) (Fin (IZR v)))) vs) <= hi) ->
    exists p q, value net N (observe J x None) z = Ok (xln p) /\ 0 <= p /\
      (forall v, In v vs -> value net N (observe J x (Some v)) z = Ok (xln (q v)) /\ 0 <= q v) /\
      lo * p <= Rsum (map q vs) <= hi * p.
Proof. exact dennis_missing_l. Qed.
Print Assumptions dennis_missing_partial.

(** The hypotheses on the structure are those of C74; here those on the parameters. *)
Example dennis_missing_case : (forall v i, member sc3 v -> exists mu s, par2 v i = (Fin mu, Fin s)) /\
  (forall mu sigma x, logval (flat mu sigma x)) /\ (forall v i, member sc3 v -> snd (par2 v i) <> Fin 0).
Proof. exact par2_l. Qed.

(** C122: a variable with standard deviation zero in every Gaussian: without it, everything has probability zero. *)
Theorem dennis_constant_variable :
  forall ord ordC km kmD db par logProb trunc round rnd fuel D sc k m g t n,
  visits_all ord -> (forall c C, Permutation (ordC c C) C) -> two_clusters km -> good_views kmD db n D k ->
  (forall i, (0 <= rnd i < 10)%Z) -> (0 < m)%nat -> (0 < g)%nat ->
  NoDup (keys sc) -> (2 <= length sc)%nat -> (forall x, member sc x -> (0 <= x < Z.of_nat n)%Z) -> (length sc < fuel)%nat ->
  (forall v i, member sc v -> exists mu s, par v i = (Fin mu, Fin s)) -> (forall mu sigma x, logval (logProb mu sigma x)) ->
  forall x, member sc x -> (forall i, snd (par x i) = Fin 0) ->
  exists net z N, @structure XR ord ordC km kmD db par logProb trunc round rnd fuel D sc k m g t = Ok (net, z) /\
  forall J, value net N (observe J x None) z = Ok NInf.
Proof. exact dennis_constant_l. Qed.
Print Assumptions dennis_constant_variable.

(** C122: this happens when more Gaussians are asked for than there are rows, and there is one row: MuSigma
    gives standard deviation zero, whatever the (positive) value ... *)
Theorem one_value_sigma : forall c, (0 < c)%Z -> histMuSigma (A:=XR) [c] = (Fin 0, Fin 0).
Proof. exact one_value. Qed.
Print Assumptions one_value_sigma.

(** ... and every evidence lacking a variable has probability zero. *)
Theorem dennis_missing_refuted :
  exists net z N, constant_net = Ok (net, z) /\ forall J x, member sc3 x -> value net N (observe J x None) z = Ok NInf.
Proof. exact constant_l. Qed.
Print Assumptions dennis_missing_refuted.
