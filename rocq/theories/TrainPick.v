(** The learner chosen by the parameters, and one batch of DiscriminativeBGD. *)
From Coq Require Import Reals QArith Lra.
From Verif Require Import Base Res Arith LogSpec GraphSpec Search Storer Spn SpnSpec ProbSpec ProbCases Struct StructSpec DeriveSpec Hard HardSpec SerialCases DeriveCases
  Train TrainSpec TrainAll TrainDisc TrainRoot TrainGrad TrainSteps TrainBgd TrainHard TrainOne TrainDiscHard TrainGradD TrainCases TrainRuns TrainProps TrainGradB TrainPickSpec.

Lemma isHard_hard t : hard_type t -> isHard t = true.
Proof. intros [->| ->]; reflexivity. Qed.
Lemma isHard_soft t : soft_type t -> isHard t = false.
Proof. intros [->| ->]; reflexivity. Qed.

Section Any.
Context {A : arith} (net : network A) (r N M : nat).
Lemma hard_pick_l ordN ordP rnd fuelT (P : params A) Y data :
  hard_type (ptype P) -> at_most M r net -> bounded (children net) N -> (r < N)%nat -> leaves_childless net -> ranges_nodes N ordN -> ranges_entries M ordP ->
  NoDup Y -> (forall I, In I data -> forall v, In v Y -> I v <> None) ->
  (forall net', generative ordN ordP rnd fuelT (S N) r P data net = Ok net' ->
     (pbatch P <= 1)%Z /\ chain (fun I => hard_step r (pnorm P) (peta P) (plambda P) 1 [I]) (concat (repeat data (Z.to_nat (piter P)))) net net' \/
     (1 < pbatch P)%Z /\ exists cs, batches (Z.to_nat (pbatch P)) data cs /\
       chain (hard_step r (pnorm P) (peta P) (plambda P) (pbatch P)) (concat (repeat cs (Z.to_nat (piter P)))) net net') /\
  (forall net' data', discriminative ordN ordP rnd fuelT (S N) r P Y data net = Ok (net', data') -> data' = data /\
     ((pbatch P <= 1)%Z /\ chain (fun I => hard_disc_step r (pnorm P) (peta P) (plambda P) 1 Y [I]) (concat (repeat data (Z.to_nat (piter P)))) net net' \/
      (1 < pbatch P)%Z /\ exists cs, batches (Z.to_nat (pbatch P)) (concat (repeat data (Z.to_nat (piter P)))) cs /\
        chain (hard_disc_step r (pnorm P) (peta P) (plambda P) (pbatch P) Y) cs net net')).
Proof.
  intros Ht HM HB Hr HL HN HP HY HD.
  destruct (hard_gen_l net r N M ordN ordP rnd fuelT P data HM HB Hr HL HN HP) as [G1 G2].
  destruct (hard_disc_l net r N M ordN ordP rnd fuelT P Y data HM HB Hr HN HP HY HD) as [D1 D2].
  unfold generative, discriminative. rewrite (isHard_hard _ Ht). split.
  - intros net' E. destruct (Z.ltb_spec 1 (pbatch P)) as [H|H]; [right|left]; (split; [lia|]); [apply G2; auto; lia|apply G1; auto].
  - intros net' data' E. destruct (Z.ltb_spec 1 (pbatch P)) as [H|H]; [destruct (D2 net' data') as [E1 E2]; auto; try lia|destruct (D1 net' data') as [E1 E2]; auto].
Qed.
End Any.

Lemma soft_pick_l (net : network XR) (N r M : nat) ordN ordP rnd (P : params XR) (eta lambda : R) data :
  soft_type (ptype P) -> peta P = Fin eta -> (0 <= eta)%R -> plambda P = Fin lambda -> (0 <= lambda < 1/2)%R ->
  learnable net N r UseQueue -> (pnorm P = true -> weights_live net r) -> at_most M r net -> ranges_nodes N ordN -> ranges_entries M ordP ->
  (forall I, In I data -> leaf_values net I r) ->
  exists net', @generative XR ordN ordP rnd (2 * N + 1) (S N) r P data net = Ok net' /\
    ((pbatch P <= 1)%Z /\ chain (fun I => gradient_step N r (pnorm P) eta 0 1 [I]) (concat (repeat data (Z.to_nat (piter P)))) net net' \/
     (1 < pbatch P)%Z /\ exists cs, batches (Z.to_nat (pbatch P)) data cs /\
       chain (gradient_step N r (pnorm P) eta lambda (IZR (pbatch P))) (concat (repeat cs (Z.to_nat (piter P)))) net net').
Proof.
  intros Ht HE He HLm Hlm Hl Hw HM HN HP HV. unfold generative. rewrite (isHard_soft _ Ht). destruct (Z.ltb_spec 1 (pbatch P)) as [H|H].
  - destruct (generative_bgd_l net N r M UseQueue P eta lambda ordN ordP data HE He HLm Hlm ltac:(lia) Hl Hw HM HN HP HV) as (cs & net' & B & E & C & _).
    exists net'. split; auto. right. split; auto. exists cs. auto.
  - destruct (generative_gd_l net N r UseQueue P eta data HE He Hl Hw HV) as (net' & E & C & _). exists net'. split; auto.
Qed.

Lemma soft_disc_pick_l (net : network XR) (N r M : nat) ordN ordP rnd (P : params XR) (eta lambda : R) Y data ws :
  soft_type (ptype P) -> (1 < pbatch P)%Z -> learnable net N r UseQueue -> at_most M r net -> peta P = Fin eta -> plambda P = Fin lambda -> NoDup Y ->
  nk (net r) = @KSum XR (map Fin ws) -> ranges_nodes N ordN -> ranges_entries M ordP ->
  piter P = 1%Z -> data <> [] -> (Z.of_nat (length data) <= pbatch P)%Z ->
  (forall I, In I data -> (forall v, In v Y -> I v <> None) /\ leaf_values net I r /\ leaf_values net (without Y I) r /\
     (0 < lval net I (fun _ => None) N r)%R /\ (0 < lval net (without Y I) (fun _ => None) N r)%R) ->
  exists net' ws', @discriminative XR ordN ordP rnd (2 * N + 1) (S N) r P Y data net = Ok (net', data) /\ length ws' = length ws /\
    net' r = mkNode (@KSum XR (if pnorm P then @normalize XR (map Fin ws') else map Fin ws')) (nch (net r)) /\
    (forall x, x <> r -> net' x = net x) /\
    forall i w, nth_error ws i = Some w -> exists Gs, Forall2 (batch_term net N r Y i w) data Gs /\
      nth_error ws' i = Some (w + eta * Rsum Gs / IZR (pbatch P) - 2 * lambda * w)%R.
Proof.
  intros Ht Hb Hl HM HE HLm HY EK HN HP Hi Hne Hlen HF. unfold discriminative. rewrite (isHard_soft _ Ht). destruct (Z.ltb_spec 1 (pbatch P)); [|lia].
  destruct (dbgd_batch_l N r M net Hl HM P eta lambda HE HLm Y HY ws EK ordN ordP HN HP data Hi Hne Hlen) as (net' & E & ws' & L & E1 & E2 & Hw).
  { intros I HI. destruct (HF I HI) as (H1 & H2 & H3 & H4 & H5). repeat split; auto. }
  exists net', ws'. split; auto. split; auto. split; auto. split; auto. intros i w Ew. destruct (Hw i w Ew) as (Gs & F2 & E3). exists Gs. split; [|exact E3].
  clear - F2. induction F2 as [|I G l l' H _ IH]; constructor; auto. destruct H as (D & E & H1 & H2 & ->). exists D, E. split; auto. split; auto. destruct i; reflexivity.
Qed.

(** An EM key runs the gradient descent of the same hardness. *)
Lemma em_is_gd_l {A : arith} (net : network A) r ordN ordP rnd fuelT fuel (P : params A) Y data : (ptype P = 0 \/ ptype P = 1)%Z ->
  generative ordN ordP rnd fuelT fuel r (keyed P (em_key (ptype P))) data net = generative ordN ordP rnd fuelT fuel r P data net /\
  discriminative ordN ordP rnd fuelT fuel r (keyed P (em_key (ptype P))) Y data net = discriminative ordN ordP rnd fuelT fuel r P Y data net.
Proof. destruct P as [nm t e b l it]. cbn. intros [->| ->]; split; reflexivity. Qed.

Definition emP (eta : Q) : params QA := @mkParams QA false 2 eta 2 (1 # 4) 1.
Lemma em_eta_l : exists (P P' : params QA) (net : network QA) (r N M : nat) ordN ordP rnd fuelT data net1 net2 u,
  ptype P = 2%Z /\ P' = rated P (peta P') /\ at_most M r net /\ bounded (children net) N /\ (r < N)%nat /\ leaves_childless net /\ ranges_nodes N ordN /\ ranges_entries M ordP /\
  generative ordN ordP rnd fuelT (S N) r P data net = Ok net1 /\ generative ordN ordP rnd fuelT (S N) r P' data net = Ok net2 /\ nk (net1 u) <> nk (net2 u).
Proof.
  exists (emP (1 # 2)), (emP (1 # 4)), dnet, 0%nat, 3%nat, 2%nat, (ascN 3), (ascP 2), rnd0, 7%nat, [see0; see1; see1].
  destruct (generative (ascN 3) (ascP 2) rnd0 7 4 0 (emP (1 # 2)) [see0; see1; see1] dnet) as [n1| |] eqn:E1; [|vm_compute in E1; discriminate|vm_compute in E1; discriminate].
  destruct (generative (ascN 3) (ascP 2) rnd0 7 4 0 (emP (1 # 4)) [see0; see1; see1] dnet) as [n2| |] eqn:E2; [|vm_compute in E2; discriminate|vm_compute in E2; discriminate].
  exists n1, n2, 0%nat. destruct dnet_case as (H1 & H2 & H3 & _). split; [reflexivity|]. split; [reflexivity|]. split; auto. split; auto. split; [lia|]. split; auto. split; [apply ascN_ok|]. split; [apply ascP_ok|].
  split; auto. split; auto.
  assert (W1 : match generative (ascN 3) (ascP 2) rnd0 7 4 0 (emP (1 # 2)) [see0; see1; see1] dnet with Ok n => weightsAt n 0 | _ => [] end = [9 # 8; 577 # 816]) by (vm_compute; reflexivity).
  rewrite E1 in W1.
  assert (W2 : match generative (ascN 3) (ascP 2) rnd0 7 4 0 (emP (1 # 4)) [see0; see1; see1] dnet with Ok n => weightsAt n 0 | _ => [] end <> [9 # 8; 577 # 816]) by (vm_compute; discriminate).
  rewrite E2 in W2. unfold weightsAt in *. intros E. rewrite <- E in W2. congruence.
Qed.

Lemma pick_case_l : let P := @mkParams XR true 1 (Fin (/10)) 2 (Fin (/100)) 1 in
  soft_type (ptype P) /\ learnable (wnet wl5) 6 0 UseQueue /\ at_most 2 0 (wnet wl5) /\ ranges_nodes 6 (ascN 6) /\ ranges_entries (V := xreal) 2 (ascP 2) /\
  (exists ws, nk (wnet wl5 0%nat) = @KSum XR (map Fin ws)) /\
  forall I, In I [seen; seen] -> (forall v, In v [0%Z] -> I v <> None) /\ leaf_values (wnet wl5) I 0 /\ leaf_values (wnet wl5) (without [0%Z] I) 0 /\
     (0 < lval (wnet wl5) I (fun _ => None) 6 0)%R /\ (0 < lval (wnet wl5) (without [0%Z] I) (fun _ => None) 6 0)%R.
Proof.
  destruct train_case_l as (H1 & H2 & H3 & H4 & H5 & H6 & H7 & H8). cbn [ptype]. split; [left; reflexivity|]. split; auto. split; auto. split; [apply ascN_ok|]. split; [apply ascP_ok|].
  split. { destruct (H2 0%nat _ (reach_refl _ _) eq_refl) as (ws & E & _). exists ws. rewrite <- E. reflexivity. }
  intros I [<-|[<-|[]]]; (split; [intros v [<-|[]]; congruence|]; split; [auto|]; split; [rewrite unseen; auto|]; split; [rewrite H7; lra|rewrite H8; lra]).
Qed.
