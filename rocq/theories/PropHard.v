(** C67 and C68: scopes without preparation, hard derivatives. *)
From Coq Require Import Reals QArith.
From Verif Require Import Base Res Arith LogSpec GraphSpec Storer Spn SpnSpec ProbSpec MapSpec Derive
  Hard HardSpec HardLemmas SerialCases HardCases.

(** C68, for every arithmetic and random choice: from any reachable table, exactly the chosen edges
    of the tree recorded by TraceMAP gain one. *)
Theorem hard_counts :
  forall (A : arith) (net : network A) (T : nat -> option nat) (N r : nat) rnd fuelT I (st : storer (F A)) ops tk,
  let tk' := if (tk <? 0)%Z then tickets (F A) st else tk in
  let old := fun x l => if (tk <? 0)%Z then (fz 0, false) else sEntry (F A) (fz 0) st tk x l in
  run_state (ustep (F A) (fz 0)) (newStorer (F A)) ops = Some st ->
  bounded (children net) N -> (r < N)%nat ->
  ((0 <= tk)%Z -> snd (table (F A) st tk) = true) ->
  traceMAP net rnd fuelT r I = Ok T ->
  exists st', deriveHard net rnd fuelT (S N) r st tk I = Ok (st', tk') /\
    (forall x l, chosen_edge net T r x l -> sEntry (F A) (fz 0) st' tk' x l = (fadd (fst (old x l)) (fz 1), true)) /\
    (forall x l, ~ chosen_edge net T r x l -> sEntry (F A) (fz 0) st' tk' x l = old x l) /\
    (forall k x l, k <> tk' -> sEntry (F A) (fz 0) st' k x l = sEntry (F A) (fz 0) st k x l).
Proof. exact @hard_counts_l. Qed.
Print Assumptions hard_counts.

(** C68, C22: in decomposable networks every sum node of that tree has a chosen edge. *)
Theorem trace_map_covers_decomposable :
  forall (A : arith) (net : network A) rnd fuel r I T,
  acyclic (children net) -> decomposable net r -> (forall u, reach (children net) r u -> exists x, in_scope net u x) ->
  traceMAP net rnd fuel r I = Ok T ->
  forall u w, reach (followed net T) r u -> nk (net u) = KSum w -> exists i, T u = Some i.
Proof. exact @traceMAP_covers. Qed.
Print Assumptions trace_map_covers_decomposable.

Example hard_case : bounded (children hnet) 7 /\ acyclic (children hnet) /\ decomposable hnet 0 /\ leaves_childless hnet /\
  (forall u, reach (children hnet) 0 u -> exists x, in_scope hnet u x).
Proof. exact hnet_case_l. Qed.

(** Two calls on one table: the selected edges have count 2, the others no entry. *)
Example hard_run : exists T (st1 st2 : storer (F QA)) rnd,
  traceMAP hnet rnd 15 0 (fun _ => None) = Ok T /\
  chosen_edge hnet T 0 1 0 /\ chosen_edge hnet T 0 2 1 /\
  deriveHard hnet rnd 15 8 0 (newStorer (F QA)) (-1) (fun _ => None) = Ok (st1, 0%Z) /\
  deriveHard hnet rnd 15 8 0 st1 0 (fun _ => None) = Ok (st2, 0%Z) /\
  map (fun xl => sEntry (F QA) (@fz QA 0) st2 0 (fst xl) (snd xl)) [(1%nat, 0%Z); (1%nat, 1%Z); (2%nat, 0%Z); (2%nat, 1%Z)] =
    [(2 # 1, true); (0 # 1, false); (0 # 1, false); (2 # 1, true)]%Q.
Proof. exact hard_run_l. Qed.

(** C68: false when two selected sums share their selected child: the second has no count. *)
Theorem hard_counts_refuted :
  exists (net : network XR) (N u : nat) (rnd : nat -> nat -> nat) (T : nat -> option nat) (st' : storer xreal),
    bounded (children net) N /\ acyclic (children net) /\ leaves_childless net /\ weights_nonneg net 0 /\
    traceMAP net rnd (2 * N + 1) 0 (fun _ => None) = Ok T /\
    reach (followed net T) 0 u /\ (exists w, nk (net u) = KSum w) /\ nch (net u) <> [] /\
    deriveHard net rnd (2 * N + 1) (S N) 0 (newStorer xreal) (-1) (fun _ => None) = Ok (st', 0%Z) /\
    forall l, snd (sEntry xreal (Fin 0) st' 0 u l) = false.
Proof. exact hard_refuted_l. Qed.
Print Assumptions hard_counts_refuted.

(** C67: false: Sc() of a sum over a leaf on variable 3 is empty. *)
Theorem sc_refuted : exists (net : network QA) (N : nat) c',
  bounded (children net) N /\ acyclic (children net) /\ leaves_childless net /\
  scOf net N 0 (fun _ => None) = Ok ([], c') /\ in_scope net 0 3.
Proof. exact sc_refuted_l. Qed.
Print Assumptions sc_refuted.

(** C67: a sum without a scope never has one after Sc(). *)
Theorem sc_uncached_sum :
  forall (A : arith) (net : network A) fuel u w c s c',
  nk (net u) = KSum w -> c u = None -> scOf net fuel u c = Ok (s, c') -> s = [].
Proof. exact @sc_uncached_sum_l. Qed.
Print Assumptions sc_uncached_sum.

(** C67: holds when every sum below already has its scope; what Sc() stores is right.
    Missing: sums without a scope, where it is false. *)
Theorem sc_partial :
  forall (A : arith) (net : network A) N r c,
  bounded (children net) N -> (r < N)%nat -> acyclic (children net) -> leaves_childless net -> scopes_held net c r ->
  exists s c', scOf net N r c = Ok (s, c') /\ scope_list net r s /\ scopes_held net c' r.
Proof. exact @sc_held_l. Qed.
Print Assumptions sc_partial.

Example sc_case : let c := fun u => match u with 1 => Some [0%Z] | 2 => Some [1%Z] | _ => None end%nat in
  bounded (children hnet) 7 /\ acyclic (children hnet) /\ leaves_childless hnet /\ scopes_held hnet c 0 /\
  exists c', scOf hnet 7 0 c = Ok ([0; 1]%Z, c').
Proof. exact sc_case_l. Qed.
