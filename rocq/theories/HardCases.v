From Coq Require Import Reals Lra QArith.
From Verif Require Import Base Res Arith LogMath LogSpec LogLemmas GraphSpec GraphLemmas Topo Search Storer Spn SpnSpec Leaves
  ProbSpec MapSpec Struct Derive Hard HardSpec HardLemmas SerialCases.

(** Two sums share their only child: the second one is not recorded. *)
Definition shnet (A : arith) (one v : F A) : network A := fun u =>
  match u with
  | 0 => mkNode KProd [1; 2]
  | 1 | 2 => mkNode (@KSum A [one]) [3]
  | _ => mkNode (KLeaf (@mkLeaf A [0%Z] (fun _ => Some v) (fun _ => Some v) (fun _ => Some ((fun _ => None), v)))) []
  end%nat.

Lemma shnet_graph A one v : bounded (children (shnet A one v)) 4 /\ acyclic (children (shnet A one v)) /\ leaves_childless (shnet A one v).
Proof.
  split; [intros [|[|[|u]]] c H; simpl in H; intuition lia|]. split.
  - apply (ranked_acyclic _ (fun u => 3 - u)%nat). intros [|[|[|u]]] c H; simpl in H; intuition (subst; simpl; lia).
  - intros [|[|[|u]]] l H; simpl in *; try discriminate; auto.
Qed.

Lemma shnet_trace A one v I : fgt (fadd (flog one) v) (@fninf A) = true ->
  exists T, traceMAP (shnet A one v) (fun _ _ => 0%nat) 9 0 I = Ok T /\ T 1%nat = Some 0%nat /\ T 2%nat = None.
Proof.
  intros H. set (o := topSortTarjan (children (shnet A one v)) 9 0). vm_compute in o.
  unfold traceMAP. fold o. unfold o. clear o.
  cbn -[fgt fadd flog fninf fz]. rewrite H. cbn -[fgt fadd flog fninf fz].
  rewrite ?H. cbn -[fgt fadd flog fninf fz]. eexists. split; [reflexivity|]. split; reflexivity.
Qed.

Lemma hard_refuted_l :
  exists (net : network XR) (N u : nat) (rnd : nat -> nat -> nat) (T : nat -> option nat) (st' : storer xreal),
    bounded (children net) N /\ acyclic (children net) /\ leaves_childless net /\ weights_nonneg net 0 /\
    traceMAP net rnd (2 * N + 1) 0 (fun _ => None) = Ok T /\
    reach (followed net T) 0 u /\ (exists w, nk (net u) = KSum w) /\ nch (net u) <> [] /\
    deriveHard net rnd (2 * N + 1) (S N) 0 (newStorer xreal) (-1) (fun _ => None) = Ok (st', 0%Z) /\
    forall l, snd (sEntry xreal (Fin 0) st' 0 u l) = false.
Proof.
  destruct (shnet_graph XR (Fin 1) (Fin 0)) as (G1 & G2 & G3).
  destruct (shnet_trace XR (Fin 1) (Fin 0) (fun _ => None)) as (T & ET & T1 & T2).
  { simpl. destruct (Rlt_dec 0 1); [reflexivity|lra]. }
  destruct (hard_counts_l (shnet XR (Fin 1) (Fin 0)) T 4 0 (fun _ _ => 0%nat) 9 (fun _ => None) (newStorer xreal) [] (-1)%Z eq_refl G1 ltac:(lia) ltac:(lia) ET)
    as (st' & E & _ & Hno & _).
  exists (shnet XR (Fin 1) (Fin 0)), 4%nat, 2%nat, (fun _ _ => 0%nat), T, st'.
  split; auto. split; auto. split; auto. split.
  { intros u w _ EK. destruct u as [|[|[|u]]]; simpl in EK; try discriminate; injection EK as <-;
      (split; [discriminate|]); exists [1%R]; simpl; repeat split; auto; intros x [<-|[]]; lra. }
  split; [exact ET|]. split; [apply GraphLemmas.reach_child; simpl; auto|]. split; [simpl; eauto|]. split; [discriminate|].
  split; [exact E|]. intros l. cbv zeta in Hno. change (if (-1 <? 0)%Z then tickets (F XR) (newStorer xreal) else (-1)%Z) with 0%Z in Hno.
  change (sEntry xreal (Fin 0) st' 0 2 l) with (sEntry (F XR) (fz 0) st' 0 2 l). rewrite Hno; [reflexivity|].
  intros (_ & _ & i & Ei & _). congruence.
Qed.

(** A decomposable network with two sums and four leaves, over the rationals. *)
Definition qleaf (x : Z) (v : Q) : leaf QA := @mkLeaf QA [x] (fun _ => Some v) (fun _ => Some v) (fun _ => Some ((fun _ => None), v)).
Definition hnet : network QA := fun u =>
  match u with
  | 0 => mkNode KProd [1; 2]
  | 1 => mkNode (@KSum QA [1 # 4; 3 # 4]) [3; 4]
  | 2 => mkNode (@KSum QA [1 # 2; 1 # 2]) [5; 6]
  | 3 => mkNode (KLeaf (qleaf 0 (-1 # 1))) []
  | 4 => mkNode (KLeaf (qleaf 0 (-2 # 1))) []
  | 5 => mkNode (KLeaf (qleaf 1 (-1 # 1))) []
  | _ => mkNode (KLeaf (qleaf 1 (-1 # 2))) []
  end%nat.

Lemma hnet_scope u x : in_scope hnet u x -> match u with 1%nat | 3%nat | 4%nat => x = 0%Z | 0%nat => True | _ => x = 1%Z end.
Proof.
  intros (v & l & Hr & EK & Hx).
  assert (X : match u with 1%nat | 3%nat | 4%nat => v = 1 \/ v = 3 \/ v = 4 | 0%nat => True | _ => v <> 0 /\ v <> 1 /\ v <> 3 /\ v <> 4 end%nat).
  { revert Hr. clear. intros Hr. induction Hr as [u|u c v Hc Hr IH].
    - destruct u as [|[|[|[|[|u]]]]]; auto; repeat split; lia.
    - destruct u as [|[|[|[|[|[|u]]]]]]; simpl in Hc; auto; try (destruct Hc; fail); destruct Hc as [<-|[<-|[]]]; simpl in IH; intuition (subst; auto). }
  destruct u as [|[|[|[|[|u]]]]]; auto; destruct v as [|[|[|[|[|[|v]]]]]]; simpl in EK; try discriminate; injection EK as <-; simpl in Hx;
    intuition (try discriminate; auto).
Qed.

Lemma hnet_case_l : bounded (children hnet) 7 /\ acyclic (children hnet) /\ decomposable hnet 0 /\ leaves_childless hnet /\
  (forall u, reach (children hnet) 0 u -> exists x, in_scope hnet u x).
Proof.
  split; [intros [|[|[|[|[|[|u]]]]]] c H; simpl in H; intuition lia|]. split.
  { apply (ranked_acyclic _ (fun u => match u with 0 => 2 | 1 | 2 => 1 | _ => 0 end)%nat).
    intros [|[|[|[|[|[|u]]]]]] c H; simpl in H; intuition (subst; simpl; lia). }
  split; [|split].
  - intros u i j c c' x _ EK Hij Hi Hj Hx Hx'. destruct u as [|[|[|[|[|[|u]]]]]]; simpl in EK; try discriminate.
    simpl in Hi, Hj. destruct i as [|[|[|i]]], j as [|[|[|j]]]; simpl in Hi, Hj; try discriminate; try congruence;
      injection Hi as <-; injection Hj as <-; apply hnet_scope in Hx, Hx'; lia.
  - intros u l H. destruct u as [|[|[|[|[|[|u]]]]]]; simpl in *; try discriminate; auto.
  - assert (L : forall u l x, nk (hnet u) = KLeaf l -> In x (lsc l) -> in_scope hnet u x).
    { intros u l x EK Hx. exists u, l. split; [constructor|auto]. }
    assert (U : forall u c x, In c (children hnet u) -> in_scope hnet c x -> in_scope hnet u x).
    { intros u c x Hc (v & l & Hv & H). exists v, l. split; auto. econstructor; eauto. }
    assert (S1 : in_scope hnet 1 0) by (apply (U 1 3)%nat; [simpl; auto|eapply L; [reflexivity|simpl; auto]]).
    intros u _. destruct u as [|[|[|[|[|[|u]]]]]].
    + exists 0%Z. apply (U 0 1)%nat; simpl; auto.
    + exists 0%Z. auto.
    + exists 1%Z. apply (U 2 5)%nat; [simpl; auto|eapply L; [reflexivity|simpl; auto]].
    + exists 0%Z. eapply L; [reflexivity|simpl; auto].
    + exists 0%Z. eapply L; [reflexivity|simpl; auto].
    + exists 1%Z. eapply L; [reflexivity|simpl; auto].
    + exists 1%Z. eapply L; [reflexivity|simpl; auto].
Qed.

(** Two calls on the same table: the counts of the selected edges are 2. *)
Lemma hard_run_l : exists T (st1 st2 : storer (F QA)) rnd,
  traceMAP hnet rnd 15 0 (fun _ => None) = Ok T /\
  chosen_edge hnet T 0 1 0 /\ chosen_edge hnet T 0 2 1 /\
  deriveHard hnet rnd 15 8 0 (newStorer (F QA)) (-1) (fun _ => None) = Ok (st1, 0%Z) /\
  deriveHard hnet rnd 15 8 0 st1 0 (fun _ => None) = Ok (st2, 0%Z) /\
  map (fun xl => sEntry (F QA) (@fz QA 0) st2 0 (fst xl) (snd xl)) [(1%nat, 0%Z); (1%nat, 1%Z); (2%nat, 0%Z); (2%nat, 1%Z)] =
    [(2 # 1, true); (0 # 1, false); (0 # 1, false); (2 # 1, true)]%Q.
Proof.
  eexists. eexists. eexists. exists (fun _ _ => 0%nat).
  split; [vm_compute; reflexivity|].
  split. { split; [apply GraphLemmas.reach_child; simpl; auto|]. split; [eexists; reflexivity|]. exists 0%nat. split; reflexivity. }
  split. { split; [apply GraphLemmas.reach_child; simpl; auto|]. split; [eexists; reflexivity|]. exists 1%nat. split; reflexivity. }
  split; [vm_compute; reflexivity|].
  split; vm_compute; reflexivity.
Qed.

(** Sc() of a sum over one leaf. *)
Lemma sc_refuted_l : exists (net : network QA) (N : nat) c',
  bounded (children net) N /\ acyclic (children net) /\ leaves_childless net /\
  scOf net N 0 (fun _ => None) = Ok ([], c') /\ in_scope net 0 3.
Proof.
  exists (fun u => match u with 0 => mkNode (@KSum QA [1 # 1]%Q) [1] | _ => mkNode (KLeaf (qleaf 3 (-1 # 1))) [] end)%nat, 2%nat.
  eexists. split; [intros [|u] c H; simpl in H; intuition lia|]. split.
  { apply (ranked_acyclic _ (fun u => 1 - u)%nat). intros [|u] c H; simpl in H; intuition (subst; simpl; lia). }
  split; [intros [|u] l H; simpl in *; try discriminate; auto|].
  split; [vm_compute; reflexivity|]. exists 1%nat. eexists. split; [apply GraphLemmas.reach_child; simpl; auto|]. split; [reflexivity|simpl; auto].
Qed.

(** Scopes set on the sums only: Sc() of the root is the concatenation. *)
Lemma sc_case_l : let c := fun u => match u with 1 => Some [0%Z] | 2 => Some [1%Z] | _ => None end%nat in
  bounded (children hnet) 7 /\ acyclic (children hnet) /\ leaves_childless hnet /\ scopes_held hnet c 0 /\
  exists c', scOf hnet 7 0 c = Ok ([0; 1]%Z, c').
Proof.
  destruct hnet_case_l as (H1 & H2 & _ & H4 & H5). cbv zeta. split; auto. split; auto. split; auto. split.
  - intros u Hu. split.
    + intros s E. destruct u as [|[|[|u]]]; try discriminate; injection E as <-; intros x;
        (destruct (H5 _ Hu) as (y & Hy); pose proof (hnet_scope _ _ Hy) as Ey; simpl in Ey; subst y);
        (split; [intros [<-|[]]; auto|intros Hx; apply hnet_scope in Hx; left; auto]).
    + intros w EK. destruct u as [|[|[|[|[|[|u]]]]]]; simpl in EK; try discriminate.
  - eexists. vm_compute. reflexivity.
Qed.
