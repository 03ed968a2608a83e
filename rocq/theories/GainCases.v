From Coq Require Import Reals Lra Lia FunctionalExtensionality.
From Verif Require Import Base Res Arith LogMath LogSpec LogLemmas GraphSpec GraphLemmas Spn SpnSpec SpnLemmas Leaves ProbSpec ProbLemmas ProbCases
  Search Derive DeriveSpec DiffLemmas ArgLemmas DeriveCases Train TrainSpec TrainGrad TrainSteps TrainCases TrainProps GainSpec GainLemmas.
Local Open Scope R_scope.

(** The network of C18: a mixture of two products; variable 0 takes 1, variable 1 takes 0. *)
Definition drawn : varset := fun x => if (x =? 0)%Z then Some 1%Z else if (x =? 1)%Z then Some 0%Z else None.
Lemma drawn_ok : evidence_ok wcard drawn.
Proof. intros y v. unfold drawn. destruct (Z.eqb_spec y 0); [|destruct (Z.eqb_spec y 1); [|discriminate]]; intros E; injection E as <-; subst y; unfold wcard; simpl; lia. Qed.
Lemma drawn_values : leaf_values (wnet wl5) drawn 0.
Proof.
  destruct wnet_case2 as (_ & _ & _ & HM & _). pose proof (multi_discrete _ _ _ HM) as HL.
  intros u l Hu EK. destruct (HL u l Hu EK) as (_ & x & HD).
  pose proof drawn_ok as He.
  destruct (dleaf_value wcard l x _ HD He) as (E1 & _ & E2 & _). rewrite E1. eexists. split; [reflexivity|]. apply logval_xln.
Qed.
Lemma wnet_child I c p : leaf_values (wnet wl5) I 0 -> (c = 1 \/ c = 2)%nat -> lval (wnet wl5) I (fun _ => None) 6 c = p -> 0 <= p /\ value (wnet wl5) 6 I c = Ok (xln p).
Proof.
  intros HV Hc E. pose proof wnet_learnable as (Hb & Hr & Ha & _ & _ & _ & _ & _ & HW).
  assert (Hu : reach (children (wnet wl5)) 0 c) by (eapply reach_step; [|apply reach_refl]; destruct Hc as [-> | ->]; cbn; auto).
  rewrite (lval_none (wnet wl5) 6 0 I Hb Hr Ha HW HV 6 c Hu) in E by lia. subst p. destruct (P_gen (wnet wl5) 6 0 Hb Hr Ha HW I HV c Hu) as (H1 & H2 & _). auto.
Qed.
Lemma wnet_sum u w : reach (children (wnet wl5)) 0 u -> nk (wnet wl5 u) = KSum w -> u = 0%nat.
Proof. intros _. destruct u as [|[|[|[|[|u]]]]]; cbn; auto; discriminate. Qed.
Lemma drawn_mixture : mixture_of (wnet wl5) 6 0 drawn [/4; 3/4] [1/3; 2/5].
Proof.
  split; [reflexivity|]. split; [exact wnet_sum|]. split; [|cbn; lra]. cbn [wnet nch]. constructor; [|constructor; [|constructor]].
  - apply wnet_child; [apply drawn_values|auto|]. cbn [lval wnet nk nch map Rprod]. rewrite (leaf_lin 0 [/3; 2/3] 1 drawn 1 (2/3)), (leaf_lin 1 [/2; /4; /4] 0 drawn 0 (/2)) by (auto; lra). lra.
  - apply wnet_child; [apply drawn_values|auto|]. cbn [lval wnet nk nch map Rprod]. unfold wl5. rewrite (leaf_lin 0 [/5; 4/5] 1 drawn 1 (4/5)), (leaf_lin 1 [/2; /4; /4] 0 drawn 0 (/2)) by (auto; lra). lra.
Qed.
Lemma unset_mixture : mixture_of (wnet wl5) 6 0 (fun _ => None) [/4; 3/4] [1; 1].
Proof.
  split; [reflexivity|]. split; [exact wnet_sum|]. split; [|cbn; lra]. cbn [wnet nch]. constructor; [|constructor; [|constructor]].
  all: apply wnet_child; [apply wnet_leaf_values|auto|]; cbn [lval wnet nk nch map Rprod]; unfold wl5; rewrite !leaf_one by auto; lra.
Qed.

Lemma likelihood_falls_l : exists (net : network XR) N r (card : Z -> nat) (I : varset),
  learnable net N r UseQueue /\ weights_normalised net r /\ complete net r /\ decomposable net r /\ multinomial_leaves net card r /\ evidence_ok card I /\
  forall (P : params XR) eta, peta P = Fin eta -> 0 < eta -> (0 < piter P)%Z ->
  exists net' p p' z, @generativeGD XR (2 * N + 1) (S N) r UseQueue P [I] net = Ok net' /\
    value net N I r = Ok (xln p) /\ value net N (fun _ => None) r = Ok (xln 1) /\
    value net' N I r = Ok (xln p') /\ value net' N (fun _ => None) r = Ok (xln z) /\ 0 < z /\ (pnorm P = true -> z = 1) /\ p' / z < p.
Proof.
  exists (wnet wl5), 6%nat, 0%nat, wcard, drawn. destruct wnet_case2 as (_ & _ & _ & HM & HC & HD & _). destruct (wnet_weights wl5) as (_ & HN).
  split; [apply wnet_learnable|]. split; [auto|]. split; [auto|]. split; [auto|]. split; [auto|]. split; [exact drawn_ok|].
  intros P eta HE He Hk. destruct (mixture_training_l (wnet wl5) 6 0 UseQueue P eta drawn [/4; 3/4] [1/3; 2/5] HE (Rlt_le _ _ He) wnet_learnable drawn_values drawn_mixture ltac:(cbn; lra))
    as (net' & ws' & E & Ek & L & Hp & Hn & HJ & Eq).
  destruct (HJ drawn _ drawn_values drawn_mixture) as (V1 & V2). destruct (HJ (fun _ => None) _ wnet_leaf_values unset_mixture) as (V3 & V4).
  exists net', (dot [1/3; 2/5] [/4; 3/4]), (dot [1/3; 2/5] ws'), (Rsum ws'). split; [exact E|]. split; [exact V1|].
  split; [rewrite V3; do 2 f_equal; cbn; lra|]. split; [exact V2|]. split; [|split; [exact Hp|split; [exact Hn|]]].
  - rewrite V4. do 2 f_equal. destruct ws' as [|a [|b [|c ws']]]; try discriminate. cbn. lra.
  - assert (Hq : 0 < dot [1/3; 2/5] [/4; 3/4] - self_mean [1/3; 2/5]) by (unfold self_mean, dot; cbn; lra).
    set (q := self_mean [1/3; 2/5]) in *. set (D := dot [1/3; 2/5] [/4; 3/4]) in *.
    set (G := Rsum [1/3; 2/5]) in *. assert (HG : 0 < eta * G) by (apply Rmult_lt_0_compat; [auto|unfold G; cbn; lra]).
    assert (X : forall k, 1 < k -> (D - q) / k < D - q).
    { intros k Hk'. apply Rmult_lt_reg_r with k; [lra|]. unfold Rdiv. rewrite Rmult_assoc, Rinv_l, Rmult_1_r by lra. rewrite <- (Rmult_1_r (D - q)) at 1. apply Rmult_lt_compat_l; auto. }
    enough (1 < (if pnorm P then (1 + eta * G) ^ Z.to_nat (piter P) else 1 + INR (Z.to_nat (piter P)) * (eta * G))) as K by (specialize (X _ K); lra).
    destruct (Z.to_nat (piter P)) as [|k] eqn:Ek'; [lia|]. destruct (pnorm P).
    + apply Rlt_pow_R1; [lra|lia].
    + rewrite S_INR. pose proof (pos_INR k). assert (0 <= INR k * (eta * G)) by (apply Rmult_le_pos; lra). lra.
Qed.
