(** Instances for the theorems about the Dennis-Ventura learner. *)
From Verif Require Import Base Res Arith GraphSpec Spn Leaves GoMap Build Dennis DennisSpec DataSpec PoonSpec InferLemmas.

(** The first point against the others; everything in one cluster. *)
Definition firstRest (c : nat) (M : list (list Z)) : list nat := 0 :: repeat 1 (length M - 1).
Definition oneCluster (c : nat) (M : list (list Z)) : list nat := repeat 0 (length M).
(** Three variables, two rows. *)
Definition sc3 : gmap := [(0, 10); (1, 11); (2, 12)]%Z.
Definition data3 : list gmap := [[(0, 1); (1, 0); (2, 5)]; [(2, 4); (0, 1); (1, 1)]]%Z.

Definition zraw (km : nat -> list (list Z) -> list nat) (sc : gmap) (k : Z) (m g : nat) : res (nodes ZA * nat) :=
  @structureRaw ZA (fun _ s => s) (fun _ C => C) km (fun D => [D; D]) (fun D => []) (fun p i => (p, Z.of_nat i))
    (fun mu _ x => (mu - x)%Z) (fun z => z) (fun z => z) (fun i => Z.of_nat i mod 10)%Z 10 data3 sc k m g 1%Z.
Definition shape (r : res (nodes ZA * nat)) : res (list (list nat) * nat) :=
  Hz <- r; Ok (map (@nch ZA) (fst Hz), snd Hz).

Lemma firstRest_l : two_clusters firstRest.
Proof.
  intros c M L. unfold firstRest. split; [simpl; rewrite repeat_length; lia|]. split.
  - intros j [<-|Hj]; [lia|]. apply repeat_spec in Hj. lia.
  - split; [left; auto|right]. destruct (length M - 1) eqn:E; [lia|left; auto].
Qed.

Lemma data3_l : complete_rows 3 data3.
Proof.
  split; [discriminate|]. intros I [<-|[<-|[]]]; (split; [repeat constructor; simpl; lia|]);
  intros k; unfold member; simpl; lia.
Qed.

Lemma sc3_l : NoDup (keys sc3) /\ 2 <= length sc3 /\ forall x, member sc3 x -> (0 <= x < Z.of_nat 3)%Z.
Proof.
  split; [repeat constructor; simpl; lia|]. split; [simpl; lia|]. intros x. unfold member. simpl. lia.
Qed.

(** With an empty cluster the root becomes its own descendant. *)
Lemma one_cluster_l : exists H z, zraw oneCluster sc3 1 2 2 = Ok (H, z) /\ ~ acyclic_from (children (netOf H)) z.
Proof.
  destruct (zraw oneCluster sc3 1 2 2) as [[H z]| |] eqn:E.
  - exists H, z. split; auto.
    assert (Es : shape (zraw oneCluster sc3 1 2 2) = Ok ([[]; []; [3; 4]; [2; 0]; [2; 1]], 2)) by (vm_compute; reflexivity).
    rewrite E in Es. simpl in Es. injection Es as Ec ->.
    assert (N : forall u, children (netOf H) u = nth u [[]; []; [3; 4]; [2; 0]; [2; 1]] []).
    { intros u. rewrite <- Ec. unfold children, netOf. change [] with (nch (mkNode (A:=ZA) KProd [])) at 2. rewrite map_nth. auto. }
    intros Ac. apply (Ac 2 3).
    + constructor.
    + rewrite N. simpl. auto.
    + eapply reach_step; [rewrite N; simpl; left; reflexivity|constructor].
  - vm_compute in E. discriminate.
  - vm_compute in E. discriminate.
Qed.
