(** C86 to C88: the networks of the Poon-Domingos learner. *)
From Coq Require Import Reals QArith.
From Verif Require Import Base Res Arith GraphSpec Spn ProbSpec Leaves Build Poon PoonSpec PoonLearn PoonLearnSpec Train TrainSpec TrainCases PoonLearnCases.
Local Open Scope Z_scope.

(** C86: with two or more sums per region and one training image of one cell, whenever the first random
    choice for a region is not its first sum, the network returned has no variables at all. *)
Theorem structure_covers_refuted :
  forall w logProb trunc round rnd I m g,
  2 <= w -> codes_fit w w -> log_density logProb -> draws rnd -> (forall c, rnd c m <> 0%nat) -> (2 <= m)%nat -> (2 <= g)%nat ->
  exists H z, @structure XR w w logProb trunc round rnd [I] m g w = Ok (H, z) /\ forall p, ~ in_scope (netOf H) z p.
Proof. exact structure_empty_root_l. Qed.
Print Assumptions structure_covers_refuted.

Example structure_covers_refuted_case : 2 <= 2 /\ codes_fit 2 2 /\ log_density normalLog /\ draws lastOf /\ (forall c, lastOf c 2 <> 0%nat) /\
  exists H z, @structure XR 2 2 normalLog (fun _ => 0) (fun _ => 0) lastOf [shade 1] 2 2 2 = Ok (H, z) /\ forall p, ~ in_scope (netOf H) z p.
Proof.
  assert (codes_fit 2 2) by discriminate. assert (forall c, lastOf c 2 <> 0%nat) by discriminate.
  pose proof normalLog_ok. pose proof lastOf_ok. do 5 (split; [auto; discriminate|]). apply structure_covers_refuted; auto; discriminate.
Qed.

(** C86 for one sum per region: the network covers exactly the pixels and is valid, every weight is 1. *)
Theorem structure_one_sum_partial :
  forall (A : arith) w h logProb trunc round rnd data g r H z,
  0 < w -> 0 < h -> codes_fit w h -> 0 < r -> (r | w) -> (r | h) -> data <> [] ->
  @structure A w h logProb trunc round rnd data 1 g r = Ok (H, z) ->
  image_network w h (netOf H) z /\ unit_weights (netOf H) z /\ no_empty_sums (netOf H) z.
Proof. exact structure_one_l. Qed.
Print Assumptions structure_one_sum_partial.

Example structure_one_sum_case : codes_fit 4 2 /\ (2 | 4) /\ (2 | 2) /\
  sizeNQ (runNQ 4 2 (fun _ _ => 0%nat) [shade 0; shade 1; shade 2] 1 2 2) = Ok (46, 0, 11)%nat.
Proof. split; [discriminate|]. split; [exists 2; auto|]. split; [exists 1; auto|]. vm_compute. reflexivity. Qed.

(** C86 for any number of sums: what remains true. *)
Theorem structure_any_sums_partial :
  forall (A : arith) w h logProb trunc round rnd data m g r H z,
  0 < w -> 0 < h -> codes_fit w h -> 0 < r -> (r | w) -> (r | h) -> (0 < m)%nat ->
  @structure A w h logProb trunc round rnd data m g r = Ok (H, z) ->
  (forall p, in_scope (netOf H) z p -> 0 <= p < w * h) /\ decomposable (netOf H) z /\
  acyclic_from (children (netOf H)) z /\ unit_weights (netOf H) z.
Proof. exact structure_any_l. Qed.
Print Assumptions structure_any_sums_partial.

(** Three images of two cells: the last product of the run has a sum without children below it. *)
Example structure_any_sums_case :
  sizeNQ (runNQ 4 2 (fun _ _ => 0%nat) [shade 0; shade 1; shade 1] 3 2 2) = Ok (70, 0, 21)%nat /\
  hollow (runNQ 4 2 (fun _ _ => 0%nat) [shade 0; shade 1; shade 1] 3 2 2) = [69%nat].
Proof. split; vm_compute; reflexivity. Qed.

(** C87: resolution 1 panics. *)
Theorem structure_resolution_one_refuted :
  forall (A : arith) w h logProb trunc round rnd data m g,
  0 < w -> 0 < h -> codes_fit w h -> 1 < w * h -> (0 < m)%nat -> (0 < g)%nat -> data <> [] ->
  @structure A w h logProb trunc round rnd data m g 1 = Panic.
Proof. exact structure_unit_l. Qed.
Print Assumptions structure_resolution_one_refuted.

Example structure_resolution_one_case : runNQ 2 2 (fun _ _ => 0%nat) [shade 0; shade 1; shade 2] 1 2 1 = Panic.
Proof. vm_compute. reflexivity. Qed.

(** C87: one Gaussian per pixel panics when two pixels, one above the other, are always 0. *)
Theorem structure_blank_pixels_refuted :
  forall w h logProb trunc round rnd data m r,
  0 < w -> 0 < h -> codes_fit w h -> (forall x, logProb NaN NaN x = NaN) -> 2 <= r -> (r | w) -> (r | h) -> (0 < m)%nat ->
  data <> [] -> (forall I, In I data -> I 0 = Some 0 /\ I w = Some 0) ->
  @structure XR w h logProb trunc round rnd data m 1 r = Panic.
Proof. exact structure_hist_l. Qed.
Print Assumptions structure_blank_pixels_refuted.

Example structure_blank_pixels_case : @structure XR 4 2 normalLog (fun _ => 0) (fun _ => 0) lastOf [shade 0; shade 0] 2 1 2 = Panic.
Proof.
  apply structure_blank_pixels_refuted; try reflexivity; try discriminate; auto.
  - exists 2. auto.
  - intros I [<-|[<-|[]]]; auto.
Qed.

(** C87: otherwise, with two or more Gaussians per pixel and a resolution above 1, it returns. *)
Theorem structure_returns_partial :
  forall w h logProb trunc round rnd data m g r,
  0 < w -> 0 < h -> codes_fit w h -> draws rnd -> log_density logProb -> 2 <= r -> (r | w) -> (r | h) ->
  (0 < m)%nat -> (2 <= g)%nat -> data <> [] ->
  exists H z, @structure XR w h logProb trunc round rnd data m g r = Ok (H, z).
Proof. exact structure_total_l. Qed.
Print Assumptions structure_returns_partial.

Example structure_returns_case : exists H z, @structure XR 4 2 normalLog (fun _ => 0) (fun _ => 0) lastOf [shade 0; shade 3] 2 2 2 = Ok (H, z).
Proof.
  apply structure_returns_partial; try reflexivity; try discriminate; auto.
  - apply lastOf_ok.
  - apply normalLog_ok.
  - exists 2. auto.
Qed.

(** C88: LearnGD changes nothing of Structure's network but the weights. *)
Theorem learn_gd_changes_only_weights :
  forall (A : arith) w h logProb trunc round rnd ordN ordP rndT data m g r eta lambda iter fuelT fuel net z,
  @learnGD A w h logProb trunc round rnd ordN ordP rndT data m g r eta lambda iter fuelT fuel = Ok (net, z) ->
  exists H, structure w h logProb trunc round rnd data m g r = Ok (H, z) /\
  forall N M, ranges_nodes N ordN -> ranges_entries M ordP -> (forall u, reach (children (netOf H)) z u -> (u < N)%nat) ->
  at_most M z (netOf H) -> (forall u, nch (net u) = nch (netOf H u)) /\
    forall u, nk (net u) = nk (netOf H u) \/ exists a b, nk (netOf H u) = KSum a /\ nk (net u) = KSum b /\ length b = length a.
Proof. exact learn_gd_weights_l. Qed.
Print Assumptions learn_gd_changes_only_weights.

(** C88: so with one sum per region it returns a valid network over all pixels. *)
Theorem learn_gd_image_network :
  forall (A : arith) w h logProb trunc round rnd ordN ordP rndT data g r eta lambda iter fuelT fuel net z H z0 N M,
  0 < w -> 0 < h -> codes_fit w h -> 0 < r -> (r | w) -> (r | h) -> data <> [] ->
  structure w h logProb trunc round rnd data 1 g r = Ok (H, z0) ->
  (forall u, reach (children (netOf H)) z0 u -> (u < N)%nat) -> at_most M z0 (netOf H) -> ranges_nodes N ordN -> ranges_entries M ordP ->
  @learnGD A w h logProb trunc round rnd ordN ordP rndT data 1 g r eta lambda iter fuelT fuel = Ok (net, z) ->
  z = z0 /\ image_network w h net z /\ no_empty_sums net z.
Proof. exact learn_gd_image_l. Qed.
Print Assumptions learn_gd_image_network.

(** Two epochs: the weights of a sum with two children have changed. *)
Example learn_gd_case : ranges_nodes 200 (ascN 200) /\ ranges_entries (V := F NQ) 9 (ascP 9) /\
  exists net, gdNQ 4 2 [shade 0; shade 1; shade 2] 1 2 2 = Ok (net, 0%nat) /\ nch (net 9%nat) = [27; 38]%nat /\
    nk (net 9%nat) = @KSum NQ [Some (1032257268 # 2048512411); Some (1016255143 # 2048512411)]%Q.
Proof. exact learn_gd_case_l. Qed.
