(** Runs of the hard trainers over the rationals. *)
From Coq Require Import QArith.
From Verif Require Import Base Res Arith GraphSpec GraphLemmas Storer Spn SpnSpec SerialCases Hard HardCases Train TrainSpec TrainCases.

(** A sum over two leaves that look at variable 0. *)
Definition pleafQ (a b : Q) : leaf QA :=
  @mkLeaf QA [0%Z] (fun I => Some (match I 0%Z with Some 0%Z => a | _ => b end)) (fun I => Some (match I 0%Z with Some 0%Z => a | _ => b end))
    (fun I => Some ((fun _ => None), match I 0%Z with Some 0%Z => a | _ => b end)).
Definition dnet : network QA := fun u =>
  match u with
  | 0 => mkNode (@KSum QA [1 # 4; 3 # 4]) [1; 2]
  | 1 => mkNode (KLeaf (pleafQ (-1 # 1) (-9 # 1))) []
  | _ => mkNode (KLeaf (pleafQ (-9 # 1) (-1 # 1))) []
  end%nat.
Definition see0 : varset := fun v => if (v =? 0)%Z then Some 0%Z else None.
Definition see1 : varset := fun v => if (v =? 0)%Z then Some 1%Z else None.

Definition hP : params QA := @mkParams QA false 0 (1 # 2) 2 (1 # 4) 1.
Definition rnd0 : nat -> nat -> nat -> nat := fun _ _ _ => 0%nat.
Definition weightsAt (n : network QA) (u : nat) : list Q := match nk (n u) with KSum w => map Qred w | _ => [] end.

Lemma dnet_case : at_most 2 0 dnet /\ bounded (children dnet) 3 /\ leaves_childless dnet /\ acyclic (children dnet).
Proof.
  split; [|split; [|split]].
  - split; [lia|]. intros u _. split; [destruct u as [|[|u]]; simpl; lia|]. intros w. destruct u as [|[|u]]; simpl; try discriminate. intros E. injection E as <-. simpl. lia.
  - intros u c. unfold children. destruct u as [|[|u]]; simpl; intros H; intuition lia.
  - intros u l. destruct u as [|[|u]]; simpl; try discriminate; auto.
  - apply (ranked_acyclic _ (fun u => match u with 0 => 1 | _ => 0 end)%nat). intros u c. unfold children.
    destruct u as [|[|u]]; simpl; intros H; intuition (subst; simpl; lia).
Qed.

(** Three instances in batches of two: both weights are selected once in the first batch, the second in the last. *)
Lemma hard_bgd_run : exists net', generativeHardBGD (ascN 3) (ascP 2) rnd0 7 4 0 hP [see0; see1; see1] dnet = Ok net' /\
  weightsAt net' 0 = [9 # 8; 577 # 816].
Proof. eexists. split; vm_compute; reflexivity. Qed.
Lemma hard_gd_run : exists net', generativeHardGD (ascP 2) rnd0 7 4 0 hP [see0; see1] dnet = Ok net' /\ weightsAt net' 0 = [17 # 8; 25 # 24].
Proof. eexists. split; vm_compute; reflexivity. Qed.
Lemma hard_dgd_run : exists net' data', discriminativeHardGD (ascN 3) (ascP 2) rnd0 7 4 0 hP [0%Z] [see0; see1] dnet = Ok (net', data') /\ weightsAt net' 0 = [17 # 8; -7 # 24].
Proof. do 2 eexists. split; vm_compute; reflexivity. Qed.
Lemma hard_dbgd_run : exists net' data', discriminativeHardBGD (ascN 3) (ascP 2) rnd0 7 4 0 hP [0%Z] [see0; see0; see1] dnet = Ok (net', data') /\ weightsAt net' 0 = [17 # 8; -7 # 24].
Proof. do 2 eexists. split; vm_compute; reflexivity. Qed.
