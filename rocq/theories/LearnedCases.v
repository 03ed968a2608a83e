From Coq Require Import QArith Reals Lra.
From Verif Require Import Base Res Arith LogMath LogSpec LogLemmas GraphSpec Spn Leaves ProbSpec ProbLemmas ProbCases Build GoMap DataSpec DennisSpec Gens GensSpec GensTree GensParts GensLemmas GensCases LearnedSpec LearnedLemmas.
Local Open Scope nat_scope.

Section L.
Variable ordS : list nat -> nat -> scope -> scope.
Variable ordD : list nat -> nat -> gmap -> gmap.
Variable km : list nat -> list (list (F XR)) -> res (list Z).
Variable rnd : list nat -> nat -> nat -> nat.
Variable chi2 : F XR -> Z -> F XR.
Variable toInt : F XR -> Z.
Variable logProb : F XR -> F XR -> F XR -> F XR.
Variables trunc round : F XR -> Z.
Variables ufuel fuel : nat.
Variables (k mp : Z) (pval eps : F XR) (Sc : scope) (D : list gmap) (card : Z -> nat).
Hypothesis Ha : admissible ordS ordD rnd toInt.
Hypothesis Hk : (0 < k)%Z.
Hypothesis Hkm : uses_all_labels k km.
Hypothesis HL : learnable Sc D.
Hypothesis HC : card_of Sc card.
Hypothesis F2 : length Sc * length Sc < ufuel.
Hypothesis F3 : length D * length D + 2 * length D + 2 <= ufuel.
Local Notation learn := (learn ordS ordD km rnd chi2 toInt logProb trunc round ufuel k mp pval eps).
Local Notation learnConcurrent := (learnConcurrent ordS ordD km rnd chi2 toInt logProb trunc round ufuel k mp pval eps).

Lemma learnable_cards : cards card Sc.
Proof.
  intros x v H. split; [|rewrite (ln_id _ _ HL x v H); apply HC; auto].
  pose proof (ln_data _ _ HL) as Dn. destruct (ln_vars _ _ HL) as (vars & _ & Hs & Hv). destruct D as [|I D']; [congruence|].
  assert (Hx : In x vars) by (apply Hv, (in_map fst _ (x, v)); auto). destruct (Hs I (or_introl eq_refl)) as (_ & Hk').
  assert (E : exists y, get I x = Some y) by (destruct (get I x) as [y|] eqn:E; [eauto|]; exfalso; apply (proj2 (Hk' x)), keys_get in Hx; congruence).
  destruct E as (y & E). pose proof (ln_cat _ _ HL I x v y (or_introl eq_refl) H E). lia.
Qed.

Lemma learned_l : length Sc + length D < fuel -> exists t, learn fuel Sc D = Ok t /\ answers_as_distribution Sc card (valued t) /\ (2 <= length Sc -> answers_as_distribution Sc card (asked t)).
Proof.
  intros F1. destruct (@learn_l XR ordS ordD km rnd chi2 toInt logProb trunc round ufuel fuel k mp pval eps Sc D Ha Hk Hkm HL F1 F2 F3) as (t & E & V).
  exists t. split; auto. assert (M : made (positive_leaf card) t).
  { destruct Ha as (A1 & A2 & A3 & A4). unfold Gens.learn in E. eapply (learn_made _ _ _ _ _ _ _ _ _ _ _ _ _ _ card A1 A3); eauto; [apply learnable_cards|apply (ln_id _ _ HL)]. }
  split; [apply valued_l; auto|intros L2; apply answers_l; auto; apply (ln_keys _ _ HL)].
Qed.
Lemma learned_concurrent_l sched t : length Sc + length D <= fuel -> learn (S fuel) Sc D = Ok t -> Permutation sched (seq 0 (arity t)) ->
  exists t', learnConcurrent fuel sched Sc D = Ok t' /\ answers_as_distribution Sc card (valued t') /\ (2 <= length Sc -> answers_as_distribution Sc card (asked t')).
Proof.
  intros F1 E Hp. destruct (@concurrent_valid XR ordS ordD km rnd chi2 toInt logProb trunc round ufuel fuel k mp pval eps Sc D t sched Ha Hk Hkm HL F1 F2 F3 E Hp) as (t' & E' & R & V).
  exists t'. split; auto. assert (M : made (positive_leaf card) t').
  { destruct Ha as (A1 & A2 & A3 & A4). eapply made_reordered; [|exact R]. unfold Gens.learn in E. eapply (learn_made _ _ _ _ _ _ _ _ _ _ _ _ _ _ card A1 A3); eauto; [apply learnable_cards|apply (ln_id _ _ HL)]. }
  split; [apply valued_l; auto|intros L2; apply answers_l; auto; apply (ln_keys _ _ HL)].
Qed.

(** A network of one leaf is answered with log 1, whatever is asked. *)
Lemma learned_single x v : Sc = [(x, v)] -> (2 <= v_cat v)%Z -> length Sc + length D < fuel ->
  exists t, learn fuel Sc D = Ok t /\ (forall I, asked t I = Ok (Fin 0)) /\ ~ answers_as_distribution Sc card (asked t).
Proof.
  intros ES Hc F1. destruct (@learn_l XR ordS ordD km rnd chi2 toInt logProb trunc round ufuel fuel k mp pval eps Sc D Ha Hk Hkm HL F1 F2 F3) as (t & E & _).
  exists t. split; auto. assert (Et : exists l, t = TLeaf l).
  { unfold Gens.learn in E. destruct fuel as [|f]; [discriminate|]. cbn [learnAt] in E. unfold learnOnce in E. rewrite ES in E. unfold newMultinom in E.
    destruct (countValues v D); try discriminate. cbn [bind] in E. destruct (newCountingMultinomial _ _ _) as [m| |]; try discriminate. cbn [bind] in E. injection E as <-. eauto. }
  destruct Et as (l & ->). assert (As : forall I, asked (TLeaf l) I = Ok (Fin 0)) by (intros I; reflexivity). split; auto.
  intros (p & P1 & P2 & P3). assert (Cx : Z.of_nat (card x) = v_cat v) by (apply HC; rewrite ES; left; auto).
  assert (One : forall I, evidence_ok card I -> p I = 1%R).
  { intros I HI. destruct (P1 I HI) as (E1 & Hp). rewrite As in E1. injection E1 as E1. rewrite <- (exp_ln (p I)) by lra. rewrite <- E1. apply exp_0. }
  specialize (P2 (fun _ => None) [x] (evidence_empty card) ltac:(repeat constructor; auto)). rewrite P3 in P2. cbn [sum_over] in P2.
  rewrite (Rsum_ext _ (fun _ => 1%R)) in P2.
  - assert (Hs : forall n s, Rsum (map (fun _ : nat => 1%R) (seq s n)) = INR n).
    { induction n as [|n IH]; intros s; [reflexivity|]. rewrite S_INR. cbn [seq map Rsum]. rewrite IH. lra. }
    rewrite Hs in P2. assert (1 < INR (card x))%R by (apply (lt_INR 1); lia). rewrite ES in P2. specialize (P2 ltac:(intros y [<-|[]]; split; [left; auto|auto])). lra.
  - intros n Hn. apply in_seq in Hn. apply One. intros y w. destruct (Z.eqb_spec y x) as [->|]; [|discriminate]. intros Hw. injection Hw as <-. lia.
Qed.
End L.

(** Conversions over the extended reals. *)
Definition xInt (v : F XR) : Z := match v with Fin r => (up r - 1)%Z | _ => 0%Z end.
Lemma admissible_x : @admissible XR oS oD first xInt.
Proof.
  split; [intros p i s; apply Permutation_sym, Permutation_rev|]. split; [intros p i m; apply Permutation_sym, Permutation_rev|]. split; [intros p i n H; exact H|].
  intros x. unfold xInt. cbn. rewrite <- (tech_up (IZR x) (x + 1)); [lia| |]; rewrite plus_IZR; lra.
Qed.
Lemma alternate_x : @uses_all_labels (list (F XR)) 2 alternate.
Proof.
  intros p M L. eexists. split; [reflexivity|]. split; [rewrite map_length, seq_length; auto|]. split.
  - intros g H. apply in_map_iff in H as (i & <- & _). pose proof (Nat.mod_upper_bound i 2 ltac:(lia)). lia.
  - intros c Hc. apply in_map_iff. exists (Z.to_nat c). assert (Z.to_nat c < 2) by lia. split; [rewrite Nat.mod_small by auto; lia|apply in_seq; lia].
Qed.
Definition card2 (x : Z) : nat := 2.
Lemma card2_ok : card_of sc2 card2.
Proof. intros x v [E|[E|[]]]; injection E as <- <-; reflexivity. Qed.

Definition sc1 : scope := [(0, mkVar 0 2)]%Z.
Definition rows1 : list gmap := [[(0, 0)]; [(0, 1)]]%Z.
Lemma learnable_1 : learnable sc1 rows1.
Proof.
  constructor; try discriminate.
  - repeat constructor; simpl; intuition congruence.
  - intros x v [E|[]]; injection E as <- <-; reflexivity.
  - exists [0%Z]. split; [repeat constructor; auto|]. split.
    + intros I H. repeat (destruct H as [<-|H]; [split; [repeat constructor; simpl; intuition congruence|intros x; simpl; tauto]|]). destruct H.
    + simpl. auto.
  - intros I x v y [<-|[<-|[]]] [E|[]]; injection E as <- <-; unfold get; simpl; intros E; injection E as <-; simpl; lia.
Qed.
Lemma learned_refuted_l : exists ordS ordD km rnd chi2 toInt logProb trunc round ufuel fuel k mp pval eps Sc D card,
  @admissible XR ordS ordD rnd toInt /\ (0 < k)%Z /\ uses_all_labels k km /\ learnable Sc D /\ card_of Sc card /\ length Sc + length D < fuel /\ length Sc * length Sc < ufuel /\ length D * length D + 2 * length D + 2 <= ufuel /\
  exists t, @learn XR ordS ordD km rnd chi2 toInt logProb trunc round ufuel k mp pval eps fuel Sc D = Ok t /\ (forall I, asked t I = Ok (Fin 0)) /\ ~ answers_as_distribution Sc card (asked t).
Proof.
  exists oS, oD, alternate, first, (fun _ _ => Fin 0), xInt, (fun _ _ _ => Fin 0), (fun _ => 0%Z), (fun _ => 0%Z), 20, 4, 2%Z, 1%Z, (Fin (1 / 2)), (Fin 1), sc1, rows1, card2.
  assert (Hc : card_of sc1 card2) by (intros x v [E|[]]; injection E as <- <-; reflexivity).
  split; [exact admissible_x|]. split; [lia|]. split; [exact alternate_x|]. split; [exact learnable_1|]. split; auto. split; [simpl; lia|]. split; [simpl; lia|]. split; [simpl; lia|].
  eapply (learned_single oS oD alternate first (fun _ _ => Fin 0) xInt (fun _ _ _ => Fin 0) (fun _ => 0%Z) (fun _ => 0%Z) 20 4 2%Z 1%Z (Fin (1 / 2)) (Fin 1) sc1 rows1 card2); eauto using admissible_x, alternate_x, learnable_1; try (simpl; lia). reflexivity. simpl. lia.
Qed.
