(** C27-C31: derivatives and gradient steps. *)
From Coq Require Import Reals.
From Verif Require Import Base Res Arith LogMath LogSpec GraphSpec Search Storer Spn SpnSpec ProbSpec ProbCases StructSpec
  Derive DeriveSpec DeriveLemmas GradLemmas StepLemmas DeriveCases PipeLemmas.

(** C27: false with a Queue (the default) when a node has parents at different depths: the stored
    entry is the log of 1/2, the derivative is 1. *)
Theorem derive_spn_refuted :
  exists (net : network XR) (N u : nat),
    bounded (children net) N /\ acyclic (children net) /\ leaves_childless net /\
    weights_nonneg net 0 /\ leaf_values net (fun _ => None) 0 /\
    derive_counterexample net N UseQueue u /\ node_derivative net (fun _ => None) N 0 u 1.
Proof. exact queue_refuted_l. Qed.
Print Assumptions derive_spn_refuted.

(** C27: false with a Stack, even on a layered network. *)
Theorem derive_spn_stack_refuted :
  exists (net : network XR) (N u : nat),
    bounded (children net) N /\ acyclic (children net) /\ uniform_depth (children net) 0 /\ leaves_childless net /\
    weights_nonneg net 0 /\ leaf_values net (fun _ => None) 0 /\
    derive_counterexample net N UseStack u /\ node_derivative net (fun _ => None) N 0 u 1.
Proof. exact stack_refuted_l. Qed.
Print Assumptions derive_spn_stack_refuted.

(** C27: with a Queue it holds when all the paths to a node have the same length, with any
    collection on trees. Missing: other DAGs, where it is false. *)
Theorem derive_spn_partial :
  forall (net : network XR) (N r : nat) (I : varset) (d : discipline) (tk itk : Z) (st : storer xreal) ops,
  run_state (ustep xreal (Fin 0)) (newStorer xreal) ops = Some st ->
  bounded (children net) N -> r < N -> acyclic (children net) ->
  (d = UseQueue /\ uniform_depth (children net) r \/ tree (children net) r) ->
  leaves_childless net -> weights_nonneg net r -> leaf_values net I r ->
  ((0 <= tk)%Z -> snd (table xreal st tk) = true /\
     forall u, reach (children net) r u -> snd (sSingle xreal (Fin 0) st tk u) = false) ->
  (forall u, reach (children net) r u ->
     exists v, value net N I u = Ok v /\ sSingle xreal (Fin 0) st itk u = (v, true)) ->
  itk <> (if (tk <? 0)%Z then tickets xreal st else tk) ->
  exists st' tk', @deriveSPN XR net d (S N) r st tk itk = Ok (st', (r, tk')) /\
    tk' = (if (tk <? 0)%Z then tickets xreal st else tk) /\
    (forall u, reach (children net) r u -> exists D, (0 <= D)%R /\
       sSingle xreal (Fin 0) st' tk' u = (xln D, true) /\ node_derivative net I N r u D) /\
    (forall k x l, k <> tk' -> sEntry xreal (Fin 0) st' k x l = sEntry xreal (Fin 0) st k x l).
Proof. exact deriveSPN_l. Qed.
Print Assumptions derive_spn_partial.

(** A layered network with shared leaves: all the hypotheses hold and the call succeeds. *)
Example derive_case : exists (ops : list (uop xreal)) (st : storer xreal),
  run_state (ustep xreal (Fin 0)) (newStorer xreal) ops = Some st /\
  (forall u, reach (children (wnet wl5)) 0 u ->
     exists v, value (wnet wl5) 6 (fun _ => None) u = Ok v /\ sSingle xreal (Fin 0) st 0 u = (v, true)) /\
  exists st', @deriveSPN XR (wnet wl5) UseQueue 7 0 st (-1) 0 = Ok (st', (0, 1%Z)) /\
    forall u, reach (children (wnet wl5)) 0 u -> exists D, (0 <= D)%R /\
       sSingle xreal (Fin 0) st' 1 u = (xln D, true) /\ node_derivative (wnet wl5) (fun _ => None) 6 0 u D.
Proof. exact derive_case_l. Qed.

(** C28, for every arithmetic and collection: exactly the positions of the reachable sum nodes are
    written, with child value plus parent derivative. *)
Theorem derive_weights_entries :
  forall (A : arith) (net : network A) (N r : nat) (d : discipline) (st : storer (F A)) ops tk dtk itk,
  let tk' := if (tk <? 0)%Z then tickets (F A) st else tk in
  run_state (ustep (F A) (fz 0)) (newStorer (F A)) ops = Some st ->
  bounded (children net) N -> r < N -> leaves_childless net ->
  ((0 <= tk)%Z -> snd (table (F A) st tk) = true) -> dtk <> tk' -> itk <> tk' ->
  exists st', deriveWeights net d (S N) r st tk dtk itk = Ok (st', (r, tk')) /\
    (forall u w i c, reach (children net) r u -> nk (net u) = KSum w -> nth_error (nch (net u)) i = Some c ->
       sEntry (F A) (fz 0) st' tk' u (Z.of_nat i) =
         (fadd (fst (sSingle (F A) (fz 0) st itk c)) (fst (sSingle (F A) (fz 0) st dtk u)), true)) /\
    (forall k x l, k <> tk' -> sEntry (F A) (fz 0) st' k x l = sEntry (F A) (fz 0) st k x l) /\
    (forall x l, (0 <= tk)%Z -> (~ reach (children net) r x \/ ~ sumPos net x l) ->
       sEntry (F A) (fz 0) st' tk' x l = sEntry (F A) (fz 0) st tk' x l).
Proof. exact @deriveWeights_entries_l. Qed.
Print Assumptions derive_weights_entries.

(** C28, batch version: the new value is log-added to the one stored, if there is one. *)
Theorem derive_weights_batch_entries :
  forall (A : arith) (net : network A) (N r : nat) (d : discipline) (st : storer (F A)) ops tk dtk itk,
  run_state (ustep (F A) (fz 0)) (newStorer (F A)) ops = Some st ->
  bounded (children net) N -> r < N -> leaves_childless net ->
  (0 <= tk)%Z -> snd (table (F A) st tk) = true -> dtk <> tk -> itk <> tk ->
  exists st', deriveWeightsBatch net d (S N) r st tk dtk itk = Ok (st', (r, tk)) /\
    (forall u w i c, reach (children net) r u -> nk (net u) = KSum w -> nth_error (nch (net u)) i = Some c ->
       let v := fadd (fst (sSingle (F A) (fz 0) st itk c)) (fst (sSingle (F A) (fz 0) st dtk u)) in
       let old := sEntry (F A) (fz 0) st tk u (Z.of_nat i) in
       sEntry (F A) (fz 0) st' tk u (Z.of_nat i) = (if snd old then logSumExpPair v (fst old) else v, true)) /\
    (forall k x l, k <> tk -> sEntry (F A) (fz 0) st' k x l = sEntry (F A) (fz 0) st k x l) /\
    (forall x l, (~ reach (children net) r x \/ ~ sumPos net x l) ->
       sEntry (F A) (fz 0) st' tk x l = sEntry (F A) (fz 0) st tk x l).
Proof. exact @deriveWeightsBatch_entries_l. Qed.
Print Assumptions derive_weights_batch_entries.

(** C28: given the values and the derivatives, the entries are the logs of the derivatives with
    respect to the weights. *)
Theorem derive_weights_derivative :
  forall (net : network XR) (N r : nat) (I : varset) (d : discipline) (st : storer xreal) ops tk dtk itk,
  let tk' := if (tk <? 0)%Z then tickets xreal st else tk in
  run_state (ustep xreal (Fin 0)) (newStorer xreal) ops = Some st ->
  bounded (children net) N -> r < N -> acyclic (children net) -> leaves_childless net ->
  weights_nonneg net r -> leaf_values net I r ->
  ((0 <= tk)%Z -> snd (table xreal st tk) = true) -> dtk <> tk' -> itk <> tk' ->
  (forall u, reach (children net) r u ->
     exists v, value net N I u = Ok v /\ sSingle xreal (Fin 0) st itk u = (v, true)) ->
  (forall u, reach (children net) r u ->
     exists D, (0 <= D)%R /\ sSingle xreal (Fin 0) st dtk u = (xln D, true) /\ node_derivative net I N r u D) ->
  exists st', @deriveWeights XR net d (S N) r st tk dtk itk = Ok (st', (r, tk')) /\
    (forall u ws i w, reach (children net) r u -> nk (net u) = @KSum XR (map Fin ws) -> nth_error ws i = Some w ->
       exists D, (0 <= D)%R /\ sEntry xreal (Fin 0) st' tk' u (Z.of_nat i) = (xln D, true) /\
                 weight_derivative net I N r u i w D).
Proof. exact deriveWeights_real. Qed.
Print Assumptions derive_weights_derivative.

(** The tables required above exist for the network of derive_case. *)
Example derive_weights_case :
  exists ops (st : storer xreal), run_state (ustep xreal (Fin 0)) (newStorer xreal) ops = Some st /\
  (forall u, reach (children (wnet wl5)) 0 u ->
     exists v, value (wnet wl5) 6 (fun _ => None) u = Ok v /\ sSingle xreal (Fin 0) st 0 u = (v, true)) /\
  (forall u, reach (children (wnet wl5)) 0 u ->
     exists D, (0 <= D)%R /\ sSingle xreal (Fin 0) st 1 u = (xln D, true) /\
               node_derivative (wnet wl5) (fun _ => None) 6 0 u D).
Proof. exact wnet_tables. Qed.

(** C27 and C28 together: StoreInference, DeriveSPN and DeriveWeights on one storage object. *)
Theorem derive_pipeline :
  forall (net : network XR) (N r : nat) (I : varset) (d : discipline) (st0 : storer xreal) ops,
  run_state (ustep xreal (Fin 0)) (newStorer xreal) ops = Some st0 ->
  bounded (children net) N -> r < N -> acyclic (children net) -> siblings_ok (children net) ->
  (d = UseQueue /\ uniform_depth (children net) r \/ tree (children net) r) ->
  leaves_childless net -> sums_nonempty net -> nch (net r) <> [] -> weights_nonneg net r -> leaf_values net I r ->
  forall d2, exists st1 itk st2 dtk st3 wtk,
    storeInference net (2 * N + 1) r I (-1) st0 = Ok (st1, (Some r, itk)) /\
    @deriveSPN XR net d (S N) r st1 (-1) itk = Ok (st2, (r, dtk)) /\
    @deriveWeights XR net d2 (S N) r st2 (-1) dtk itk = Ok (st3, (r, wtk)) /\
    (forall u ws i w, reach (children net) r u -> nk (net u) = @KSum XR (map Fin ws) -> nth_error ws i = Some w ->
       exists D, (0 <= D)%R /\ sEntry xreal (Fin 0) st3 wtk u (Z.of_nat i) = (xln D, true) /\
                 weight_derivative net I N r u i w D).
Proof. exact pipeline_l. Qed.
Print Assumptions derive_pipeline.

Example derive_pipeline_case :
  bounded (children (wnet wl5)) 6 /\ acyclic (children (wnet wl5)) /\ siblings_ok (children (wnet wl5)) /\
  uniform_depth (children (wnet wl5)) 0 /\ leaves_childless (wnet wl5) /\ sums_nonempty (wnet wl5) /\
  nch (wnet wl5 0) <> [] /\ weights_nonneg (wnet wl5) 0 /\ leaf_values (wnet wl5) (fun _ => None) 0.
Proof. exact wnet_pipe_case. Qed.

(** C29, for every arithmetic: each weight of each reachable sum is updated exactly once. *)
Theorem apply_weights_once :
  forall (A : arith) (net : network A) (N r : nat) (d : discipline) (eta : F A) (st : storer (F A)) dtk itk nrm,
  bounded (children net) N -> r < N -> leaves_childless net ->
  (forall u w, reach (children net) r u -> nk (net u) = KSum w -> length w = length (nch (net u))) ->
  exists net', deriveApplyWeights d (S N) r eta st dtk itk nrm net = Ok net' /\
    (forall u w, reach (children net) r u -> nk (net u) = KSum w ->
       exists W, net' u = mkNode (KSum (maybeNorm nrm W)) (nch (net u)) /\ length W = length w /\
         forall i c wi, nth_error (nch (net u)) i = Some c -> nth_error w i = Some wi ->
           nth_error W i = Some (fadd wi (fmul eta (fexp (fadd (fst (sSingle (F A) (fz 0) st itk c))
                                                              (fst (sSingle (F A) (fz 0) st dtk u))))))) /\
    (forall u, (~ reach (children net) r u \/ forall w, nk (net u) <> KSum w) -> net' u = net u).
Proof. exact @applyWeights_l. Qed.
Print Assumptions apply_weights_once.

(** C29: the step is eta times the derivative; with normalisation the weights are a distribution. *)
Theorem apply_weights_gradient :
  forall (net : network XR) (N r : nat) (I : varset) (d : discipline) (st : storer xreal) dtk itk (eta : R) nrm,
  bounded (children net) N -> r < N -> acyclic (children net) -> leaves_childless net ->
  weights_nonneg net r -> leaf_values net I r ->
  (forall u, reach (children net) r u ->
     exists v, value net N I u = Ok v /\ sSingle xreal (Fin 0) st itk u = (v, true)) ->
  (forall u, reach (children net) r u ->
     exists D, (0 <= D)%R /\ sSingle xreal (Fin 0) st dtk u = (xln D, true) /\ node_derivative net I N r u D) ->
  exists net', @deriveApplyWeights XR d (S N) r (Fin eta) st dtk itk nrm net = Ok net' /\
    (forall u, children net' u = children net u) /\
    (forall u ws, reach (children net) r u -> nk (net u) = @KSum XR (map Fin ws) ->
       exists ws', length ws' = length ws /\
         (forall i w, nth_error ws i = Some w ->
            exists D, (0 <= D)%R /\ weight_derivative net I N r u i w D /\ nth_error ws' i = Some (w + eta * D)%R) /\
         (nrm = false -> nk (net' u) = @KSum XR (map Fin ws')) /\
         (nrm = true -> (exists x, In x ws' /\ (0 < x)%R) ->
            exists qs, nk (net' u) = @KSum XR (map Fin qs) /\ normalised_like ws' qs)) /\
    (forall u, (~ reach (children net) r u \/ forall w, nk (net u) <> KSum w) -> net' u = net u).
Proof. exact applyWeights_real. Qed.
Print Assumptions apply_weights_gradient.

(** C29, applyGD: the entry of a weight without stored derivative reads 0, so it moves by eta*exp(0). *)
Theorem apply_gd_once :
  forall (A : arith) (net : network A) (N r : nat) (d : discipline) (eta lambda : F A) wtk (st : storer (F A)) nrm b,
  bounded (children net) N -> r < N -> leaves_childless net ->
  exists net', applyGD d (S N) r eta lambda wtk st nrm b net = Ok net' /\
    (forall u w, reach (children net) r u -> nk (net u) = KSum w ->
       exists W, net' u = mkNode (KSum (maybeNorm nrm W)) (nch (net u)) /\ length W = length w /\
         forall i wi, nth_error w i = Some wi ->
           nth_error W i = Some (fadd wi (fsub (fdiv (fmul eta (fexp (fst (sEntry (F A) (fz 0) st wtk u (Z.of_nat i)))))
                                                     (fz b))
                                               (fmul (fmul (fz 2) lambda) wi)))) /\
    (forall u, (~ reach (children net) r u \/ forall w, nk (net u) <> KSum w) -> net' u = net u).
Proof. exact @applyGD_l. Qed.
Print Assumptions apply_gd_once.

(** C30: false, whatever the tables and parameters. *)
Theorem discriminative_step_refuted :
  exists (net : network XR) r u W, acyclic (children net) /\ reach (children net) r u /\ nk (net u) = KSum W /\
  forall s w z u0 st eta lambda nrm b,
    exists net', applyDGD 2 r s w z u0 st eta lambda nrm b net = Ok net' /\ net' u = net u.
Proof. exact dgd_refuted_l. Qed.
Print Assumptions discriminative_step_refuted.

(** C30: what it does on every acyclic network: the root is updated, nothing else is. Missing: the
    sums below the root, where the property is false. *)
Theorem discriminative_step_partial :
  forall (A : arith) (net : network A) r s w z u0 (st : storer (F A)) (eta lambda : F A) nrm b,
  acyclic (children net) ->
  exists net', applyDGD 2 r s w z u0 st eta lambda nrm b net = Ok net' /\
    (forall W, nk (net r) = KSum W ->
       exists W', net' r = mkNode (KSum (maybeNorm nrm W')) (nch (net r)) /\ length W' = length W /\
       forall i wi, nth_error W i = Some wi ->
         nth_error W' i = Some (stepW lambda b (fmul eta (fsub
            (fexp (fsub (fst (sEntry (F A) (fz 0) st w r (Z.of_nat i))) (fst (sEntry (F A) (fz 0) st s r (Z.of_nat i)))))
            (fexp (fsub (fst (sEntry (F A) (fz 0) st u0 r (Z.of_nat i))) (fst (sEntry (F A) (fz 0) st z r (Z.of_nat i)))))))
            wi)) /\
    (forall x, (x <> r \/ forall W, nk (net r) <> KSum W) -> net' x = net x).
Proof. exact @applyDGD_l. Qed.
Print Assumptions discriminative_step_partial.

Example discriminative_case : acyclic (children gnet) /\ reach (children gnet) 0 1.
Proof. exact gnet_graph. Qed.

(** C31: false when a query variable is missing from the instance, or listed twice. *)
Theorem pull_push_refuted :
  (exists I Y y I1 y1 I2, NoDup Y /\ length y = length Y /\
     pullValues I Y y = Ok (I1, y1) /\ pushValues I1 Y y1 = Ok I2 /\ exists u, I u = None /\ I2 u = Some 0%Z) /\
  (exists I Y y I1 y1 I2, (forall u, In u Y -> I u <> None) /\ length y = length Y /\
     pullValues I Y y = Ok (I1, y1) /\ pushValues I1 Y y1 = Ok I2 /\ exists u, I u = Some 7%Z /\ I2 u = Some 0%Z).
Proof. exact pull_push_refuted_l. Qed.
Print Assumptions pull_push_refuted.

(** C31: holds for distinct query variables all present. Missing: the other lists, where it is false. *)
Theorem pull_push_partial :
  forall (I : varset) Y y, NoDup Y -> length y = length Y -> (forall u, In u Y -> I u <> None) ->
  exists I1 y1 I2, pullValues I Y y = Ok (I1, y1) /\ pushValues I1 Y y1 = Ok I2 /\ (forall u, I2 u = I u) /\
    (forall u, In u Y -> I1 u = None) /\ (forall u, ~ In u Y -> I1 u = I u) /\
    forall j u v, nth_error Y j = Some u -> nth_error y1 j = Some v -> I u = Some v.
Proof. exact pull_push_l. Qed.
Print Assumptions pull_push_partial.

Example pull_push_case : let I := updZ (updZ (fun _ => None) 3 (Some 1%Z)) 8 (Some 2%Z) in
  NoDup [8; 3]%Z /\ forall u, In u [8; 3]%Z -> I u <> None.
Proof. exact pull_push_case_l. Qed.
