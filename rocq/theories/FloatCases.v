From Coq Require Import Reals Lra Lia.
From Verif Require Import Base Res Arith LogMath LogSpec LogLemmas GraphSpec GraphLemmas Spn SpnSpec SpnLemmas Leaves ProbSpec ProbLemmas FloatSpec FloatLemmas FloatNet.
Local Open Scope R_scope.

Section Theorems.
Context {A : arith}.
Lemma value_rounding_l (real : F A -> xreal) eps M B X (net : network A) (net' : network XR) N r I E :
  rounding A real eps M -> 0 <= eps -> bounded (children net) N -> (r < N)%nat -> acyclic (children net) ->
  exact_counterpart real net net' r I E -> error_bound net r eps E -> in_range net net' N r I eps M B X E ->
  exists x y, value net N I r = Ok x /\ value net' N I r = Ok y /\ within (E r) (real x) y.
Proof.
  intros RA He Hb Hr Ha Hx Hbd Hrg. destruct (rounded_value real eps M B X net net' N r I E RA He Hb Hr Ha Hx Hbd Hrg r (reach_refl _ r)) as (V1 & V2).
  destruct (exact_values real net net' N r I E Hb Hr Ha Hx r (reach_refl _ r)) as (V3 & _). eauto.
Qed.
Lemma inference_rounding_l (real : F A -> xreal) eps M B X (net : network A) (net' : network XR) N r I E :
  rounding A real eps M -> 0 <= eps -> bounded (children net) N -> (r < N)%nat -> acyclic (children net) ->
  siblings_ok (children net) -> leaves_childless net -> leaves_childless net' -> nch (net r) <> [] ->
  exact_counterpart real net net' r I E -> error_bound net r eps E -> in_range net net' N r I eps M B X E ->
  exists x y, inference net (2 * N + 1) r I = Ok x /\ inference net' (2 * N + 1) r I = Ok y /\ within (E r) (real x) y.
Proof.
  intros RA He Hb Hr Ha Hs Hl Hl' Hne Hx Hbd Hrg. destruct (value_rounding_l real eps M B X net net' N r I E RA He Hb Hr Ha Hx Hbd Hrg) as (x & y & V1 & V2 & W).
  pose proof (same_ch real net net' r I E Hx) as Ec. exists x, y. split; [|split; auto].
  - rewrite <- V1. apply inference_value_l; auto.
  - rewrite <- V2. apply inference_value_l; rewrite ?Ec; auto. change (nch (net' r)) with (children net' r). rewrite Ec. exact Hne.
Qed.
End Theorems.

(** Numbers rounded down to thousandths after every operation. *)
Definition rnd (x : R) : R := IZR (up (x * 1000) - 1) / 1000.
Definition rx (x : xreal) : xreal := match x with Fin a => Fin (rnd a) | _ => x end.
Definition thousandths : arith :=
  mkArith xreal (fun z => Fin (IZR z)) NInf (fun x y => rx (xadd x y)) (fun x y => rx (xsub x y)) (fun x y => rx (xmul x y)) (fun x y => rx (xdiv x y))
    (fun x => rx (xlog x)) (fun x => rx (xlog (xadd (Fin 1) x))) (fun x => rx (xexp x)) (fun x => rx (xsqrt x)) xgt xge xeq xisinf.
Definition whole : F thousandths -> xreal := fun x => x.
Lemma rnd_near x : Rabs (rnd x - x) <= 1 / 1000.
Proof. unfold rnd. rewrite minus_IZR. destruct (archimed (x * 1000)) as (H1 & H2). apply Rabs_le. lra. Qed.
Lemma thousandths_rounding M : rounding thousandths whole (1 / 1000) M.
Proof.
  split; unfold whole; cbn.
  - reflexivity.
  - intros x y a b -> -> _ _. apply rnd_near.
  - intros x y [(-> & H)|(H & ->)]; [destruct y|destruct x]; cbn in *; tauto.
  - intros x y a b -> -> _ _. apply rnd_near.
  - intros x y b -> ->. reflexivity.
  - intros x a -> (H & _). cbn. destruct (Rlt_dec 0 a); [|lra]. apply rnd_near.
  - intros x ->. cbn. destruct (Rlt_dec 0 0); [lra|]. destruct (Rlt_dec 0 0); [lra|reflexivity].
  - intros x a -> _. apply rnd_near.
  - intros x ->. cbn. f_equal. unfold rnd. replace (up (0 * 1000)) with 1%Z; [cbn; lra|]. apply tech_up; lra.
  - intros x y Hx Hy. destruct x, y; cbn in *; tauto.
  - intros x Hx. destruct x; cbn in *; tauto.
Qed.
(** An addition that is really rounded. *)
Lemma thousandths_rounds : fadd (Fin (1 / 3) : F thousandths) (Fin (1 / 3)) = Fin (666 / 1000).
Proof. cbn. f_equal. unfold rnd. replace (up ((1 / 3 + 1 / 3) * 1000)) with 667%Z; [cbn; lra|]. apply tech_up; lra. Qed.

(** A product of a mixture of two indicators of variable 0 and an indicator of variable 1. *)
Definition mix_ch : graph := fun u => match u with O => [1; 2] | S O => [3; 4] | _ => [] end%nat.
Definition mixture (A : arith) (w1 w2 : F A) : network A := fun u =>
  mkNode (match u with O => KProd | S O => KSum [w1; w2] | S (S O) => KLeaf (indLeaf 1 1) | S (S (S O)) => KLeaf (indLeaf 0 0) | _ => KLeaf (indLeaf 0 1) end) (mix_ch u).
Definition rounded_net : network thousandths := mixture thousandths (Fin (1 / 4)) (Fin (3 / 4)).
Definition exact_net : network XR := mixture XR (Fin (1 / 4)) (Fin (3 / 4)).
Definition seen : varset := fun x => if (x =? 0)%Z then Some 1%Z else None.
Definition mix_error (u : nat) : R := match u with O => 22 / 1000 | S O => 20 / 1000 | _ => 0 end.

Lemma mix_bounded : bounded mix_ch 5.
Proof. intros u c Hc. destruct u as [|[|u]]; cbn in Hc; [| |destruct Hc]; destruct Hc as [<-|[<-|[]]]; lia. Qed.
Lemma mix_up u v : reach mix_ch u v -> u = v \/ (u < v)%nat.
Proof. induction 1 as [|x c y Hc H IH]; auto. right. destruct x as [|[|x]]; cbn in Hc; [| |destruct Hc]; destruct Hc as [<-|[<-|[]]]; lia. Qed.
Lemma mix_acyclic : acyclic mix_ch.
Proof. intros u c Hc H. apply mix_up in H. destruct u as [|[|u]]; cbn in Hc; [| |destruct Hc]; destruct Hc as [<-|[<-|[]]]; lia. Qed.
Lemma mix_siblings : siblings_ok mix_ch.
Proof.
  intros p l1 a l2 v l3 E N H. apply mix_up in H.
  assert (Hv : (a < v)%nat).
  { destruct p as [|[|p]]; cbn in E; [| |destruct l1; discriminate];
    destruct l1 as [|z [|z' [|z'' l1]]]; try discriminate; injection E; intros; subst; destruct l2 as [|y [|y' l2]]; try discriminate; injection H0; intros; subst; try lia; try discriminate; destruct l2; discriminate. }
  lia.
Qed.
Lemma mix_counterpart : exact_counterpart whole rounded_net exact_net 0 seen mix_error.
Proof.
  split; [reflexivity|]. intros u _. destruct u as [|[|[|[|u]]]]; cbn.
  - exact Logic.I.
  - repeat split; [discriminate|]. exists [1 / 4; 3 / 4]. split; auto. intros x [<-|[<-|[]]]; lra.
  - do 2 eexists. repeat split. cbn. rewrite Rminus_diag_eq, Rabs_R0; lra.
  - do 2 eexists. repeat split.
  - do 2 eexists. repeat split. cbn. rewrite Rminus_diag_eq, Rabs_R0; lra.
Qed.
Lemma mix_bound : error_bound rounded_net 0 (1 / 1000) mix_error.
Proof.
  intros u _. destruct u as [|[|[|[|u]]]]; cbn; (split; [lra|]); auto; try lra.
  intros c [<-|[<-|[]]]; cbn; lra.
Qed.
Lemma ln_above x : 0 < x <= 1 -> 1 - / x <= ln x <= 0.
Proof.
  intros (H & H1). split.
  - pose proof (exp_ineq1_le (- ln x)) as Hx. rewrite exp_Ropp, exp_ln in Hx by auto. lra.
  - rewrite <- ln_1. destruct (Req_dec x 1) as [->|]; [lra|]. left. apply ln_increasing; lra.
Qed.
Lemma mix_range : in_range rounded_net exact_net 5 0 seen (1 / 1000) 20 3 (1 / 2) mix_error.
Proof.
  assert (V : forall u, reach (children rounded_net) 0 u -> exists p, value exact_net 5 seen u = Ok (xln p) /\ (p = 0 \/ 3 / 4 <= p <= 1)).
  { intros u Hu. pose proof (fun v => exact_values whole rounded_net exact_net 5 0 seen mix_error mix_bounded ltac:(lia) mix_acyclic mix_counterpart v) as X.
    assert (P4 : P exact_net 5 seen 4 = 1). { destruct (X 4%nat) as (_ & _ & E4); [apply (reach_step _ 0 1); [cbn; auto|]; eapply (reach_step _ 1); [|apply reach_refl]; cbn; auto|]. exact (eq_trans E4 exp_0). }
    assert (P3 : P exact_net 5 seen 3 = 0). { destruct (X 3%nat) as (_ & _ & E3); [apply (reach_step _ 0 1); [cbn; auto|]; eapply (reach_step _ 1); [|apply reach_refl]; cbn; auto|]. exact E3. }
    assert (P2 : P exact_net 5 seen 2 = 1). { destruct (X 2%nat) as (_ & _ & E2); [eapply (reach_step _ 0); [|apply reach_refl]; cbn; auto|]. exact (eq_trans E2 exp_0). }
    assert (P1 : P exact_net 5 seen 1 = 3 / 4). { destruct (X 1%nat) as (_ & _ & E1); [eapply (reach_step _ 0); [|apply reach_refl]; cbn; auto|]. change (nk (exact_net 1%nat)) with (@KSum XR (map Fin [1 / 4; 3 / 4])) in E1. rewrite (E1 [1 / 4; 3 / 4] eq_refl). unfold psum. cbn -[P]. rewrite P3, P4. lra. }
    assert (P0 : P exact_net 5 seen 0 = 3 / 4). { destruct (X 0%nat) as (_ & _ & E0); [apply reach_refl|]. change (nk (exact_net 0%nat)) with (@KProd XR) in E0. rewrite E0. cbn -[P]. rewrite P1, P2. lra. }
    exists (P exact_net 5 seen u). split; [apply X; auto|].
    assert (Lu : (u < 5)%nat) by (apply (reach_bounded (children rounded_net) 5 0); [exact mix_bounded|lia|auto]).
    destruct u as [|[|[|[|[|u]]]]]; [| | | | |lia]; rewrite ?P0, ?P1, ?P2, ?P3, ?P4; lra. }
  split; [lra|]. split; [|split; [|split]].
  - intros u b Hu Eb. destruct (V u Hu) as (p & E & Hp). rewrite E in Eb. unfold xln in Eb. destruct (Rlt_dec 0 p); [|discriminate]. injection Eb as <-. destruct Hp as [->|Hp]; [lra|].
    destruct (ln_above p) as (L1 & L2); [lra|]. assert (/ p <= 4 / 3) by (replace (4 / 3) with (/ (3 / 4)) by lra; apply Rinv_le_contravar; lra). apply Rabs_le. lra.
  - intros u ws x _ Ek Hx Hp. destruct u as [|[|[|[|u]]]]; try discriminate. cbn in Ek. injection Ek as Ek. destruct ws as [|a [|b [|c ws]]]; try discriminate. injection Ek as <- <-.
    assert (Q : 1 / 4 <= x <= 1) by (destruct Hx as [<-|[<-|[]]]; lra). destruct (ln_above x) as (L1 & L2); [lra|].
    assert (/ x <= 4) by (replace 4 with (/ (1 / 4)) by lra; apply Rinv_le_contravar; lra). apply Rabs_le. lra.
  - intros u _. destruct u as [|[|u]]; cbn; lra.
  - intros u _. destruct u as [|[|u]]; cbn; lra.
Qed.
Lemma mix_leaves (A : arith) w1 w2 : leaves_childless (mixture A w1 w2).
Proof. intros u l. destruct u as [|[|u]]; cbn; [discriminate|discriminate|auto]. Qed.
