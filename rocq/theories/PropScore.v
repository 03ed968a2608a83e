(** Properties of classification scores and of parameter bindings (C49-C52, C71). *)
From Coq Require Import Reals Lra.
From Verif Require Import Base Res Arith LogSpec GoMap Data DataSpec DataCases Score ScoreSpec ScoreLemmas EvalLemmas EvalConc ScoreCases Params ParamsSpec ParamsLemmas.
Local Open Scope Z_scope.

(** C49: any sequence of calls other than Add, on any number of scores. *)
Theorem score_bookkeeping : forall grow cs, well_formed 0 cs -> no_add cs ->
  exists w, performs grow cs = Ok w /\ length (objs w) = length (recorded cs) /\
  forall s sc l, nth_error (objs w) s = Some sc -> nth_error (recorded cs) s = Some l -> view w sc = l /\ tallies sc l /\
  forall c : nat, (forall p e, In (p, e) l -> 0 <= p < Z.of_nat c /\ 0 <= e < Z.of_nat c) ->
  exists M, confusionMatrix w sc (Z.of_nat c) = Ok M /\ square c M /\
    (forall e p, (e < c)%nat -> (p < c)%nat -> cell M e p = Z.of_nat (count_occ pair_dec l (Z.of_nat p, Z.of_nat e))) /\
    total_of M = total sc /\ trace_of M = hits sc.
Proof. exact bookkeeping. Qed.
Print Assumptions score_bookkeeping.

Example bookkeeping_case : let cs := [CNew; CRegister 0 1 1; CRegister 0 0 2; CNew; CRegister 1 2 2; CMerge 0 1; CMerge 0 0; CClear 1] in
  well_formed 0 cs /\ no_add cs /\ recorded cs = [[(1, 1); (0, 2); (2, 2); (1, 1); (0, 2); (2, 2)]; []].
Proof. split; [simpl; repeat split; lia|]. split; [intros s t H; simpl in H; intuition discriminate|reflexivity]. Qed.

(** C49, C50: with Adds as well, the counters agree with the number of predictions
    and every slice lies inside its array. *)
Theorem score_counts : forall grow cs, well_formed 0 cs -> exists w, performs grow cs = Ok w /\ wf w /\
  forall i sc, nth_error (objs w) i = Some sc -> hits sc + misses sc = total sc /\ total sc = Z.of_nat (length (view w sc)).
Proof. exact counts_always_l. Qed.
Print Assumptions score_counts.

(** C50: Adds whose first operand has no spare capacity. Missing: the others (refuted below). *)
Theorem score_add_partial : forall grow cs, well_formed 0 cs -> adds_full grow cs ->
  exists w, performs grow cs = Ok w /\ Forall2 (fun sc l => view w sc = l /\ tallies sc l) (objs w) (recorded cs).
Proof. exact add_isolated. Qed.
Print Assumptions score_add_partial.

(** Two predictions fill the array of a score grown by doubling. *)
Example score_add_case : let cs := [CNew; CRegister 0 1 1; CRegister 0 0 2; CAdd 0 0; CRegister 0 3 4; CRegister 1 5 5] in
  well_formed 0 cs /\ adds_full go_grow cs /\ recorded cs = [[(1, 1); (0, 2); (3, 4)]; [(1, 1); (0, 2); (1, 1); (0, 2); (5, 5)]].
Proof. exact add_case_w. Qed.

(** C50: a sum changes when a prediction is registered with its first operand. *)
Theorem score_add_refuted : exists cs c w w' m sc, well_formed 0 (cs ++ [c]) /\ performs go_grow cs = Ok w /\ perform go_grow w c = Ok w' /\
  (exists s t, In (CAdd s t) cs) /\ c = CRegister 0 9 9 /\ m <> 0%nat /\ nth_error (objs w) m = Some sc /\ nth_error (objs w') m = Some sc /\ view w' sc <> view w sc.
Proof. exact add_refuted_w. Qed.
Print Assumptions score_add_refuted.

(** C51: Evaluate. Missing: test sets of 2 to 9 instances (refuted below), instances without the
    class variable. *)
Theorem evaluate_partial : forall grow smap h w s T L v, wf w -> (s < length (objs w))%nat -> length L = length T -> (length T <= 1 \/ 10 <= length T)%nat ->
  (forall r, In r T -> get (mem h r) v <> None) -> (forall r, In r T -> exists M, smap (del (mem h r) v) = Ok M) ->
  exists h' w' ps, evaluate grow smap h w s T L v = Ok (h', w') /\ wf w' /\ nxt h' = nxt h /\ (forall r, meq (mem h' r) (mem h r)) /\
    map snd ps = L /\ Forall2 (fun r p => exists M, smap (del (mem h r) v) = Ok M /\ fst p = get0 M v) T ps /\ grown w w' s ps.
Proof. exact evaluate_ok. Qed.
Print Assumptions evaluate_partial.

(** Ten copies of one instance; the classifier answers with the value of variable 0. *)
Example evaluate_case : exists h' w', evaluate go_grow (fun I => Ok (put I 1 (get0 I 0))) three score1 0 (repeat 0%nat 10) (repeat 3 10) 1 = Ok (h', w') /\
  map hits (objs w') = [10] /\ get (mem h' 0) 1 = Some 4.
Proof. eexists. eexists. split; [vm_compute; reflexivity|]. split; reflexivity. Qed.

(** C51: EvaluatePosterior registers the most probable label. *)
Theorem evaluate_posterior_partial : forall grow (value : gmap -> res (F XR)) h w s T L v c, wf w -> (s < length (objs w))%nat -> length L = length T ->
  (length T <= 1 \/ 10 <= length T)%nat -> 1 <= c ->
  (forall r, In r T -> get (mem h r) v <> None) -> (forall r, In r T -> possible value v (Z.to_nat c) (mem h r)) ->
  exists h' w' ps, @evaluatePosterior grow XR value h w s T L v c = Ok (h', w') /\ wf w' /\ nxt h' = nxt h /\ (forall r, meq (mem h' r) (mem h r)) /\
    map snd ps = L /\ Forall2 (fun r p => classified value v (Z.to_nat c) (mem h r) (fst p)) T ps /\ grown w w' s ps.
Proof. exact evaluatePosterior_ok. Qed.
Print Assumptions evaluate_posterior_partial.

(** C51: EvaluatePosteriorConc, for every interleaving of the jobs. *)
Theorem evaluate_concurrent_partial : forall grow (value : gmap -> res (F XR)) ord ncpu h w s D L v c k,
  let k' := if k <=? 0 then ncpu else k in
  visits_all ord -> good_heap h -> rows_exist h D -> length L = length D -> (forall a b, meq a b -> value a = value b) -> 1 <= c -> (10 <= length D)%nat -> 0 < k' <= Z.of_nat (length D) ->
  wf w -> (s < length (objs w))%nat -> (forall r, In r D -> possible value v (Z.to_nat c) (mem h r)) ->
  exists start, @evaluatePosteriorConc grow XR value ord ncpu h w s D L v c k = inr (Ok start) /\
  forall n j, reaches (@jobStep grow XR value s v c (length D)) start n j ->
    (n <= length D)%nat /\ (forall id r, @jobStep grow XR value s v c (length D) j id = Some r -> exists j', r = Ok j') /\
    (finished j \/ exists id j', @jobStep grow XR value s v c (length D) j id = Some (Ok j')) /\ unchanged h (jheap j) /\
    (finished j -> n = length D /\ wf (jworld j) /\ exists ps ps', map snd ps = L /\ Forall2 (fun r p => classified value v (Z.to_nat c) (mem h r) (fst p)) D ps /\
       Permutation ps' ps /\ grown w (jworld j) s ps').
Proof. exact conc_ok. Qed.
Print Assumptions evaluate_concurrent_partial.

(** A classifier that depends on variable 0 and the class variable 1. *)
Example concurrent_case : (forall a b, meq a b -> prefer a = prefer b) /\ (forall r, In r [0; 2; 0; 2; 0; 2; 0; 2; 0; 2]%nat -> possible prefer 1 2 (mem three r)) /\
  wf score1 /\ (0 < length (objs score1))%nat /\ rows_exist three [0; 2; 0; 2; 0; 2; 0; 2; 0; 2]%nat.
Proof. exact concurrent_case_w. Qed.

(** C51: every test set of 2 to 9 instances makes Evaluate panic. *)
Theorem evaluate_small_panics : forall grow smap h w s T L v, wf w -> (s < length (objs w))%nat -> length L = length T -> (2 <= length T <= 9)%nat ->
  (forall I, exists M, smap I = Ok M) -> evaluate grow smap h w s T L v = Panic.
Proof. exact evaluate_small. Qed.
Print Assumptions evaluate_small_panics.

Theorem evaluate_refuted : exists grow smap h w s T L v, wf w /\ (s < length (objs w))%nat /\ length L = length T /\ T <> [] /\
  (forall r, In r T -> get (mem h r) v <> None) /\ (forall I, exists M, smap I = Ok M) /\ evaluate grow smap h w s T L v = Panic.
Proof. exact evaluate_refuted_w. Qed.
Print Assumptions evaluate_refuted.

(** C52: every answer is the one the history of calls demands. *)
Theorem parameters_history : forall cs as_ t i c a, prun table0 cs = (t, as_) -> nth_error cs i = Some c -> nth_error as_ i = Some a ->
  right (rev (combine (firstn i cs) (firstn i as_))) c a.
Proof. exact retrieve_right. Qed.
Print Assumptions parameters_history.

Example parameters_case : let e := (TSum, 5%nat) in let f := (TLeaf 1, 5%nat) in
  snd (prun table0 [PNew defaultP; PBind e 0; PRetrieve f; PRetrieve e; PParameters e; PUnbind e; PExists e; PParameters e; PRetrieve e]) =
  [APtr (Some 0%nat); AUnit; APtr None; APtr (Some 0%nat); APtr (Some 0%nat); AUnit; ABool false; APtr (Some 1%nat); APtr (Some 1%nat)].
Proof. reflexivity. Qed.

(** C52: the Parameters method of sums and products. Missing: leaves (refuted below). *)
Theorem parameters_method_partial : forall t e p q t1, (fst e = TSum \/ fst e = TProduct) -> parametersOf (bindP t e p) e = (t1, q) -> q = p.
Proof. exact sum_bound. Qed.
Print Assumptions parameters_method_partial.

Theorem parameters_leaf_refuted : exists t e p q t1, fst e = TLeaf 0 /\ (p < length (ps t))%nat /\ parametersOf (bindP t e p) e = (t1, q) /\ q <> p.
Proof. exact leaf_refuted_w. Qed.
Print Assumptions parameters_leaf_refuted.

(** C71: callers of Parameters on an object that is bound already. Missing: the first calls (refuted
    below). *)
Theorem parameters_concurrent_partial : forall o p sched t ths t' ths', retrieve t (receiver o) = Some p ->
  (forall th, In th ths -> th = Calling o \/ th = Got p) -> interleave sched t ths = (t', ths') ->
  forall th, In th ths' -> th = Calling o \/ th = Got p.
Proof. exact interleave_bound. Qed.
Print Assumptions parameters_concurrent_partial.

Example parameters_concurrent_case : let o := (TSum, 3%nat) in retrieve (bindP table0 o 7) (receiver o) = Some 7%nat /\
  interleave [1; 0]%nat (bindP table0 o 7) [Calling o; Calling o] = (bindP table0 o 7, [Got 7; Got 7]).
Proof. split; reflexivity. Qed.

(** C71: two first calls can return different objects, one of which is not the one bound afterwards. *)
Theorem parameters_concurrent_refuted : exists o sched t ths p q, interleave sched table0 [Calling o; Calling o] = (t, ths) /\ ths = [Got p; Got q] /\
  p <> q /\ retrieve t (receiver o) = Some q.
Proof. exact concurrent_refuted_w. Qed.
Print Assumptions parameters_concurrent_refuted.
