(** Witnesses for C23-C26. *)
From Coq Require Import Reals Lra.
From Verif Require Import Base Res Arith LogSpec LogLemmas GraphSpec GraphLemmas Topo TopoLemmas Search
  Spn SpnLemmas ProbSpec Struct StructSpec StructLemmas.

(** A leaf with no behaviour of interest. *)
Definition sleaf : @kind XR := KLeaf (@mkLeaf XR [] (fun _ => None) (fun _ => None) (fun _ => None)).

(** A layered network: 0 sum -> 1, 2 products -> 3, 4, 5 leaves, 4 being shared. *)
Definition snet : network XR := fun u =>
  match u with
  | 0 => mkNode (@KSum XR [Fin 1; Fin 3]) [1; 2]
  | 1 => mkNode (@KProd XR) [3; 4]
  | 2 => mkNode (@KProd XR) [5; 4]
  | _ => mkNode sleaf []
  end.
Definition ssc : nat -> list Z := fun u => match u with 3 => [7%Z] | 4 => [8%Z] | 5 => [7%Z] | _ => [] end.
Definition slev (u : nat) : nat := match u with 0 => 0 | 1 => 1 | 2 => 1 | _ => 2 end.

Lemma snet_bounded : bounded (children snet) 6.
Proof. unfold bounded. intros u c H. unfold children in H. do 3 (destruct u as [|u]; [simpl in H; intuition lia|]). destruct u; destruct H. Qed.
Lemma snet_graded : graded (children snet) slev.
Proof.
  intros u c H. unfold children in H.
  do 3 (destruct u as [|u]; [simpl in H; repeat destruct H as [<-|H]; try contradiction; reflexivity|]).
  destruct u; destruct H.
Qed.
Lemma snet_acyclic : acyclic (children snet).
Proof. apply (graded_siblings_acyclic _ slev snet_graded). Qed.
Lemma snet_siblings : siblings_ok (children snet).
Proof. apply (graded_siblings_ok _ slev snet_graded). Qed.
Lemma snet_leaf_scopes : forall v, reach (children snet) 0 v -> children snet v = [] -> NoDup (ssc v).
Proof.
  intros v _ _. do 6 (destruct v as [|v]; [simpl; repeat constructor; simpl; tauto|]). simpl. constructor.
Qed.
Lemma snet_leaves : forall v, reach (children snet) 0 v -> children snet v = [] -> isLeaf snet v = true.
Proof. intros v _ E. do 3 (destruct v as [|v]; [discriminate|]). destruct v; reflexivity. Qed.
Lemma snet_uniform : uniform_depth (children snet) 0.
Proof. eapply graded_uniform. apply snet_graded. Qed.

(** 0 -> 1, 2; 2 -> 1; 1 -> 3: node 2 is handled before its child 1. *)
Definition shnet : network XR := fun u =>
  match u with
  | 0 => mkNode (@KProd XR) [1; 2] | 1 => mkNode (@KProd XR) [3] | 2 => mkNode (@KProd XR) [1]
  | _ => mkNode sleaf []
  end.
Definition shsc : nat -> list Z := fun u => match u with 3 => [7%Z] | _ => [] end.

Lemma computeScope_refuted_l : exists (net : network XR) N r sc0 sc u x,
  bounded (children net) N /\ r < N /\ acyclic (children net) /\
  (forall v, reach (children net) r v -> children net v = [] -> NoDup (sc0 v)) /\
  computeScope net (fun _ l => l) (2 * N + 1) r sc0 = Ok sc /\ reach (children net) r u /\
  below (children net) sc0 u x /\ sc u = [].
Proof.
  exists shnet, 4, 0, shsc. eexists. exists 2, 7%Z.
  assert (Hr : forall u c, In c (children shnet u) ->
     (fun u => match u with 0 => 3 | 2 => 2 | 1 => 1 | _ => 0 end) c < (fun u => match u with 0 => 3 | 2 => 2 | 1 => 1 | _ => 0 end) u).
  { intros u c H. unfold children in H.
    do 3 (destruct u as [|u]; [simpl in H; repeat destruct H as [<-|H]; try contradiction; simpl; lia|]). destruct u; destruct H. }
  split; [|split; [lia|split; [|split; [|split; [reflexivity|split; [|split]]]]]].
  - intros u c H. unfold children in H. do 3 (destruct u as [|u]; [simpl in H; intuition lia|]). destruct u; destruct H.
  - eapply ranked_acyclic. exact Hr.
  - intros v _ _. do 4 (destruct v as [|v]; [simpl; repeat constructor; simpl; tauto|]). simpl. constructor.
  - eapply reach_step; [|apply reach_refl]. simpl. auto.
  - exists 3. split; [|split; [reflexivity|simpl; auto]].
    eapply reach_step; [|eapply reach_step; [|apply reach_refl]]; [simpl; left; reflexivity|simpl; auto].
  - reflexivity.
Qed.

(** 0 product -> 1 sum -> 2, 3 leaves over different variables. *)
Definition cnet : network XR := fun u =>
  match u with
  | 0 => mkNode (@KProd XR) [1] | 1 => mkNode (@KSum XR [Fin 1; Fin 1]) [2; 3] | _ => mkNode sleaf []
  end.
Definition csc : nat -> list Z := fun u => match u with 2 => [7%Z] | 3 => [8%Z] | _ => [] end.
(** 0 sum -> 1 product -> 2, 3 leaves over the same variable. *)
Definition dnet : network XR := fun u =>
  match u with
  | 0 => mkNode (@KSum XR [Fin 1]) [1] | 1 => mkNode (@KProd XR) [2; 3] | _ => mkNode sleaf []
  end.
Definition dsc : nat -> list Z := fun u => match u with 2 => [7%Z] | 3 => [7%Z] | _ => [] end.
Definition clev (u : nat) : nat := match u with 0 => 0 | 1 => 1 | _ => 2 end.

Lemma cnet_graded : graded (children cnet) clev.
Proof.
  intros u c H. unfold children in H.
  do 2 (destruct u as [|u]; [simpl in H; repeat destruct H as [<-|H]; try contradiction; reflexivity|]).
  destruct u; destruct H.
Qed.
Lemma dnet_graded : graded (children dnet) clev.
Proof.
  intros u c H. unfold children in H.
  do 2 (destruct u as [|u]; [simpl in H; repeat destruct H as [<-|H]; try contradiction; reflexivity|]).
  destruct u; destruct H.
Qed.
Lemma cnet_bounded : bounded (children cnet) 4.
Proof. intros u c H. unfold children in H. do 2 (destruct u as [|u]; [simpl in H; intuition lia|]). destruct u; destruct H. Qed.
Lemma dnet_bounded : bounded (children dnet) 4.
Proof. intros u c H. unfold children in H. do 2 (destruct u as [|u]; [simpl in H; intuition lia|]). destruct u; destruct H. Qed.

Lemma complete_refuted_l : exists (net : network XR) N r sc0 u w c c' x,
  bounded (children net) N /\ r < N /\ acyclic (children net) /\ siblings_ok (children net) /\
  (forall v, reach (children net) r v -> children net v = [] -> NoDup (sc0 v)) /\
  complete_ net (fun _ l => l) (2 * N + 1) r sc0 = Ok true /\
  reach (children net) r u /\ nk (net u) = KSum w /\ In c (children net u) /\ In c' (children net u) /\
  below (children net) sc0 c x /\ ~ below (children net) sc0 c' x.
Proof.
  exists cnet, 4, 0, csc, 1. eexists. exists 2, 3, 7%Z.
  split; [apply cnet_bounded|]. split; [lia|]. split; [apply (graded_siblings_acyclic _ _ cnet_graded)|].
  split; [apply (graded_siblings_ok _ _ cnet_graded)|]. split.
  { intros v _ _. do 4 (destruct v as [|v]; [simpl; repeat constructor; simpl; tauto|]). simpl. constructor. }
  split; [reflexivity|]. split; [apply reach_child; simpl; auto|]. split; [reflexivity|].
  split; [simpl; auto|]. split; [simpl; auto|]. split.
  - exists 2. split; [apply reach_refl|]. split; [reflexivity|simpl; auto].
  - rewrite below_childless by reflexivity. simpl. intros [H|[]]. discriminate.
Qed.

Lemma decomposable_refuted_l : exists (net : network XR) N r sc0 u i j c c' x,
  bounded (children net) N /\ r < N /\ acyclic (children net) /\ siblings_ok (children net) /\
  (forall v, reach (children net) r v -> children net v = [] -> NoDup (sc0 v)) /\
  decomposable_ net (fun _ l => l) (2 * N + 1) r sc0 = Ok true /\
  reach (children net) r u /\ nk (net u) = KProd /\ i <> j /\
  nth_error (children net u) i = Some c /\ nth_error (children net u) j = Some c' /\
  below (children net) sc0 c x /\ below (children net) sc0 c' x.
Proof.
  exists dnet, 4, 0, dsc, 1, 0, 1, 2, 3, 7%Z.
  split; [apply dnet_bounded|]. split; [lia|]. split; [apply (graded_siblings_acyclic _ _ dnet_graded)|].
  split; [apply (graded_siblings_ok _ _ dnet_graded)|]. split.
  { intros v _ _. do 4 (destruct v as [|v]; [simpl; repeat constructor; simpl; tauto|]). simpl. constructor. }
  split; [reflexivity|]. split; [apply reach_child; simpl; auto|]. split; [reflexivity|].
  split; [lia|]. split; [reflexivity|]. split; [reflexivity|]. split.
  - exists 2. split; [apply reach_refl|]. split; [reflexivity|simpl; auto].
  - exists 3. split; [apply reach_refl|]. split; [reflexivity|simpl; auto].
Qed.

(** 0 -> 1, 2; 1 -> 2. *)
Definition hnet : network XR := fun u =>
  match u with 0 => mkNode (@KProd XR) [1; 2] | 1 => mkNode (@KProd XR) [2] | _ => mkNode sleaf [] end.
Lemma computeHeight_refuted_l : exists (net : network XR) N r,
  bounded (children net) N /\ r < N /\ acyclic (children net) /\
  (forall v, reach (children net) r v -> children net v = [] -> isLeaf net v = true) /\
  height net N r = Ok 2 /\ computeHeight net (S N) r = Ok 1.
Proof.
  exists hnet, 3, 0. split; [|split; [lia|split; [|split; [|split; reflexivity]]]].
  - intros u c H. unfold children in H. do 2 (destruct u as [|u]; [simpl in H; intuition lia|]). destruct u; destruct H.
  - apply ranked_acyclic with (rank := fun u => match u with 0 => 2 | 1 => 1 | _ => 0 end).
    intros u c H. unfold children in H.
    do 2 (destruct u as [|u]; [simpl in H; repeat destruct H as [<-|H]; try contradiction; simpl; lia|]). destruct u; destruct H.
  - intros v _ E. do 2 (destruct v as [|v]; [discriminate|]). destruct v; reflexivity.
Qed.

Lemma snet_weights : weights_nonneg snet 0 /\
  (forall u ws, reach (children snet) 0 u -> nk (snet u) = @KSum XR (map Fin ws) -> (0 < Rsum ws)%R).
Proof.
  split.
  - intros u w _ E. destruct u as [|[|[|u]]]; try discriminate. injection E as <-. split; [discriminate|].
    exists [1; 3]%R. split; [reflexivity|]. split; [reflexivity|]. intros x [<-|[<-|[]]]; lra.
  - intros u ws _ E. destruct u as [|[|[|u]]]; try discriminate. injection E as E.
    destruct ws as [|a [|b [|c t]]]; try discriminate. injection E as <- <-. simpl. lra.
Qed.
