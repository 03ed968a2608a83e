(** A learned network over images of 4 by 2 pixels. *)
From Coq Require Import Reals Lra Lia.
From Verif Require Import Base Res Arith LogSpec GraphSpec Spn Build Poon PoonSpec PoonLearn PoonLearnSpec PoonLearnCases Train TrainSpec TrainCases PoonMissing.
Local Open Scope Z_scope.

Lemma at_most_some (H : nodes XR) z : exists M, at_most M z (netOf H).
Proof.
  assert (K : exists M, (0 < M)%nat /\ forall n, In n H -> (length (nch n) <= M)%nat /\ forall w, nk n = @KSum XR w -> (length w <= M)%nat).
  { induction H as [|n H (M & M0 & HM)]; [exists 1%nat; split; [lia|intros n []]|].
    exists (M + length (nch n) + match nk n with KSum w => length w | _ => 0 end)%nat. split; [lia|]. intros x [<-|Hx].
    - split; [lia|]. intros w ->. lia.
    - destruct (HM x Hx) as [A1 A2]. split; [lia|]. intros w E. specialize (A2 w E). lia. }
  destruct K as (M & M0 & HM). exists M. split; auto. intros u _. destruct (net_node H u) as [(n & En & ->)| ->].
  - apply HM. eapply nth_error_In; eauto.
  - cbn. split; [lia|discriminate].
Qed.

Lemma learned_case : exists N M net z, @learnGD XR 4 2 normalLog (fun _ => 0) (fun _ => 0) lastOf (ascN N) (ascP M) (fun _ _ _ => 0%nat)
    [shade 0; shade 3] 1 2 2 (Fin (1/10)) (Fin (1/100)) 5 (2 * N + 1) (S N) = Ok (net, z) /\
  image_network 4 2 net z /\ value net N (fun _ => None) z = Ok (Fin 0).
Proof.
  destruct (poon_learned_l 4 2 normalLog (fun _ => 0) (fun _ => 0) lastOf [shade 0; shade 3] 2 2 (1/10) (1/100)) as (H & z & _ & K); try lia; try lra; try discriminate.
  - apply lastOf_ok.
  - apply normalLog_ok.
  - exists 2. auto.
  - exists 1. auto.
  - destruct (at_most_some H z) as (M & HM).
    destruct (K (length H) M (ascN (length H)) (ascP M) (fun _ _ _ => 0%nat) 5 (le_n _) HM (ascN_ok _) (ascP_ok _) ltac:(auto)) as (net & E & Im & _ & _ & Z0 & _).
    exists (length H), M, net, z. split; auto.
Qed.
