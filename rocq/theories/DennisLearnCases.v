(** A network that LearnGD of the Dennis-Ventura learner makes of one row of three variables. *)
From Coq Require Import Reals Lra Lia.
From Verif Require Import Base Res Arith LogSpec GraphSpec GraphLemmas Spn GoMap DataSpec Dennis DennisSpec DennisCases DennisTop PoonSpec PoonLearnSpec PoonLearnCases ProbSpec ProbLemmas MissingCases
  Train TrainSpec TrainCases DennisLearn DennisLearnLemmas.
Local Open Scope R_scope.

Lemma at_most_net (net : network XR) N z : bounded (children net) N -> (z < N)%nat -> exists M, at_most M z net.
Proof.
  intros Hb Hz. assert (K : exists M, (0 < M)%nat /\ forall u, (u < N)%nat -> (length (nch (net u)) <= M)%nat /\ forall w, nk (net u) = @KSum XR w -> (length w <= M)%nat).
  { clear Hb Hz. induction N as [|N (M & M0 & HM)]; [exists 1%nat; split; [lia|intros u Hu; lia]|].
    exists (M + length (nch (net N)) + match nk (net N) with KSum w => length w | _ => 0 end)%nat. split; [lia|]. intros u Hu.
    destruct (Nat.eq_dec u N) as [->|Nu].
    - split; [lia|]. intros w ->. lia.
    - destruct (HM u ltac:(lia)) as [A1 A2]. split; [lia|]. intros w E. specialize (A2 w E). lia. }
  destruct K as (M & M0 & HM). exists M. split; auto. intros u Ru. apply HM. eapply reach_bounded; eauto.
Qed.

Definition hardP : params XR := mkParams (A:=XR) true 0 (Fin (1/10)) 1 (Fin (1/100)) 4.
Definition softP : params XR := mkParams (A:=XR) true 1 (Fin (1/10)) 50 (Fin (1/100)) 4.

Definition learned3 (P : params XR) (N M : nat) := @learnGD XR (fun _ s => s) (fun _ C => C) firstRest (fun D => [D; D]) (fun D => []) par2
  normalLog (fun _ => 0%Z) (fun _ => 0%Z) (fun i => Z.of_nat i mod 10)%Z 10 (ascN N) (ascP M) (fun _ _ _ => 0%nat) (2 * N + 1) (S N) [row1] sc3 1 2 2 (Fin 1) P.

Lemma par2_pos v i : member sc3 v -> exists mu s, par2 v i = (Fin mu, Fin s) /\ 0 < s.
Proof. intros _. exists (IZR v), (INR i + /2). split; [reflexivity|]. pose proof (pos_INR i). lra. Qed.

Lemma dennis_learned_case_l : forall P, P = hardP \/ P = softP -> exists N M net z, learned3 P N M = Ok (net, z) /\ (forall x, in_scope net z x <-> member sc3 x) /\
  value net N (fun _ => None) z = Ok (Fin 0) /\ exists y, value net N (get row1) z = Ok (Fin y).
Proof.
  intros P EP. destruct sc3_l as (S1 & S2 & S3).
  assert (V : visits_all (fun _ s => s)) by (intros i m; apply Permutation_refl).
  assert (Gv : good_views (fun D => [D; D]) (fun D => []) 3 [row1] 1) by (split; [lia|]; split; [intros _; exact row1_l|lia]).
  assert (R10 : forall i, (0 <= Z.of_nat i mod 10 < 10)%Z) by (intros i; apply Z.mod_pos_bound; lia).
  assert (L10 : (length sc3 < 10)%nat) by (simpl; lia).
  destruct (structure_l (fun _ s => s) (fun _ C => C) firstRest (fun D => [D; D]) (fun D => []) par2 normalLog (fun _ => 0%Z) (fun _ => 0%Z)
    (fun i => Z.of_nat i mod 10)%Z 10 [row1] sc3 1 2 2 (Fin 1) 3) as (net0 & z & E & _ & _ & _ & _ & _ & _ & N1 & Lz & Bd); auto using firstRest_l; try lia.
  destruct (dennis_learned_l (fun _ s => s) (fun _ C => C) firstRest (fun D => [D; D]) (fun D => []) par2 normalLog (fun _ => 0%Z) (fun _ => 0%Z)
    (fun i => Z.of_nat i mod 10)%Z 10 [row1] sc3 1 2 2 (Fin 1) 3 P (1/10) (1/100)) as (net1 & z1 & N0 & E1 & K); auto using firstRest_l, par2_pos, normalLog_ok; try lia; try lra; try (destruct EP as [-> | ->]; cbn; intros; lra); try (destruct EP as [-> | ->]; reflexivity).
  assert (Q : net1 = net0 /\ z1 = z) by (pose proof (eq_trans (eq_sym E1) E) as X; injection X; auto). destruct Q as [-> ->].
  destruct (at_most_net net0 N1 z Bd Lz) as (M & HM).
  destruct (K N0 M (ascN N0) (ascP M) (fun _ _ _ => 0%nat) (le_n _) HM (ascN_ok _) (ascP_ok _) ltac:(auto)) as (net & El & Sc & _ & _ & _ & Pos & Z0 & _).
  exists N0, M, net, z. split; auto.
Qed.
