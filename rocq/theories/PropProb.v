(** C18-C20: what Value, Max and ArgMax mean on networks of discrete leaves. *)
From Coq Require Import Reals.
From Verif Require Import Base Res Arith LogSpec GraphSpec Spn SpnSpec Leaves ProbSpec ProbLemmas ArgLemmas ProbCases.
Local Open Scope R_scope.

(** C18: exp(Value) on partial evidence is the sum over the completions; with normalised weights
    it is 1 when nothing in scope is set. *)
Theorem value_marginalises :
  forall (net : network XR) (card : Z -> nat) (N r : nat),
  bounded (children net) N -> (r < N)%nat -> acyclic (children net) ->
  weights_nonneg net r -> discrete_leaves net card r -> complete net r -> decomposable net r ->
  exists p : varset -> R,
    (forall I, evidence_ok card I -> value net N I r = Ok (xln (p I)) /\ 0 <= p I) /\
    (forall I xs, evidence_ok card I -> NoDup xs -> (forall x, In x xs -> in_scope net r x /\ I x = None) ->
       p I = sum_over card xs p I) /\
    (weights_normalised net r -> forall I, (forall x, in_scope net r x -> I x = None) ->
       evidence_ok card I -> p I = 1).
Proof. exact marginals_l. Qed.
Print Assumptions value_marginalises.

(** C18: the probabilities of all complete assignments sum to one. *)
Theorem assignments_sum_to_one :
  forall (net : network XR) (card : Z -> nat) (N r : nat) (xs : list Z),
  bounded (children net) N -> (r < N)%nat -> acyclic (children net) ->
  weights_nonneg net r -> weights_normalised net r -> discrete_leaves net card r ->
  complete net r -> decomposable net r ->
  NoDup xs -> (forall x, In x xs <-> in_scope net r x) ->
  sum_over card xs (fun I => match value net N I r with Ok x => lin x | _ => 0 end) (fun _ => None) = 1.
Proof. exact total_one_l. Qed.
Print Assumptions assignments_sum_to_one.

(** C19, for every node of the network. *)
Theorem value_is_log_probability :
  forall (net : network XR) (card : Z -> nat) (N r : nat) (I : varset),
  bounded (children net) N -> (r < N)%nat -> acyclic (children net) ->
  weights_nonneg net r -> weights_normalised net r -> discrete_leaves net card r -> evidence_ok card I ->
  forall u, reach (children net) r u ->
  exists x m, value net N I u = Ok x /\ max_ net N I u = Ok m /\
    (x = NInf \/ exists y, y <= 0 /\ x = Fin y) /\ xge x m = true.
Proof. exact value_prob_l. Qed.
Print Assumptions value_is_log_probability.

(** A network with a shared leaf and an indicator meeting all hypotheses of C18 and C19. *)
Example prob_case :
  let net := wnet (@indLeaf XR 0 1) in
  bounded (children net) 6 /\ acyclic (children net) /\ weights_nonneg net 0 /\ weights_normalised net 0 /\
  discrete_leaves net wcard 0 /\ complete net 0 /\ decomposable net 0 /\
  (forall x, In x [0; 1]%Z <-> in_scope net 0 x) /\ evidence_ok wcard (setvar (fun _ => None) 1 2).
Proof. exact wnet_case. Qed.

(** C20: false with indicator leaves: an unset variable is completed with 0. *)
Theorem argmax_refuted :
  exists (net : network XR) card N r (I : varset) J,
    bounded (children net) N /\ (r < N)%nat /\ acyclic (children net) /\
    weights_nonneg net r /\ discrete_leaves net card r /\ complete net r /\ decomposable net r /\
    evidence_ok card I /\ max_ net N I r = Ok (Fin 0) /\
    argMax net N I r = Ok (J, Fin 0) /\ value net N J r = Ok NInf.
Proof. exact argmax_refuted_l. Qed.
Print Assumptions argmax_refuted.

(** C20, for multinomial leaves and possible evidence (Max(I) is not -inf). *)
Theorem argmax_multinomial_partial :
  forall (net : network XR) (card : Z -> nat) (N r : nat) (I : varset) (m : R),
  bounded (children net) N -> (r < N)%nat -> acyclic (children net) ->
  weights_nonneg net r -> multinomial_leaves net card r -> complete net r -> decomposable net r ->
  evidence_ok card I -> max_ net N I r = Ok (Fin m) ->
  exists J v, argMax net N I r = Ok (J, Fin m) /\
    (forall x, J x <> None <-> in_scope net r x) /\
    (forall x a, in_scope net r x -> I x = Some a -> J x = Some a) /\
    evidence_ok card J /\
    value net N J r = Ok v /\ xge v (Fin m) = true.
Proof. exact argmax_l. Qed.
Print Assumptions argmax_multinomial_partial.

Example argmax_case :
  bounded (children (wnet wl5)) 6 /\ acyclic (children (wnet wl5)) /\ weights_nonneg (wnet wl5) 0 /\
  multinomial_leaves (wnet wl5) wcard 0 /\ complete (wnet wl5) 0 /\ decomposable (wnet wl5) 0 /\
  evidence_ok wcard (fun _ => None) /\ exists m, max_ (wnet wl5) 6 (fun _ => None) 0 = Ok (Fin m).
Proof. exact wnet_case2. Qed.
