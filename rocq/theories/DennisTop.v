(** The Dennis-Ventura learner as a whole. *)
From Coq Require Import Reals Lra.
From Verif Require Import Base Res Arith GraphSpec Spn Leaves GoMap Build Struct StructSpec StructLemmas Search Walk WalkLemmas DataSpec Dennis DennisSpec
  DennisScope DennisGraph DennisExpand DennisPost DennisBuild PoonSpec ProbSpec LogSpec.

Lemma structureRaw_l (A : arith) ord ordC km kmD db par logProb trunc round rnd fuel D sc k m g t n :
  visits_all ord -> (forall c C, Permutation (ordC c C) C) -> two_clusters km -> good_views kmD db n D k ->
  (forall i, (0 <= rnd i < 10)%Z) -> 0 < m -> 0 < g ->
  NoDup (keys sc) -> 2 <= length sc -> (forall x, member sc x -> (0 <= x < Z.of_nat n)%Z) -> length sc < fuel ->
  exists H z, @structureRaw A ord ordC km kmD db par logProb trunc round rnd fuel D sc k m g t = Ok (H, z) /\
  (forall u c, In c (children (netOf H) u) -> c < length H) /\ z < length H /\
  (forall x, in_scope (netOf H) z x <-> member sc x) /\ complete (netOf H) z /\ decomposable (netOf H) z /\
  acyclic_from (children (netOf H)) z /\ small_weights (A:=A) (netOf H) z /\ gaussian_leaves par logProb trunc round (netOf H).
Proof.
  intros all allC km2 Gv R10 M1 G1 N L2 Sc Lf. unfold structureRaw.
  destruct (buildRegionGraph_l (A:=A) ord ordC km all allC km2 sc kmD db fuel D k t n N L2 ltac:(lia) Sc Gv) as (G & EG & I & U).
  rewrite EG. cbn [bind]. apply (buildSPN_l sc G I); auto.
Qed.

Lemma same_reach (g g' : graph) : (forall u, g' u = g u) -> forall u v, reach g' u v -> reach g u v.
Proof. intros E u v R. induction R; [constructor|]. rewrite E in *. eapply reach_step; eauto. Qed.

Lemma small_fin (ws : list (F XR)) : (forall x, In x ws -> exists n, (1 <= n <= 10)%Z /\ x = fz n) ->
  exists rs, ws = map Fin rs /\ forall q, In q rs -> (1 <= q)%R.
Proof.
  induction ws as [|x ws IH]; intros H; [exists []; simpl; tauto|].
  destruct IH as (rs & -> & Hr); [intros; apply H; right; auto|]. destruct (H x ltac:(left; auto)) as (n & Ln & ->).
  exists (IZR n :: rs). split; auto. intros q [<-|Hq]; auto. apply (IZR_le 1). lia.
Qed.

Lemma Rsum_pos rs : rs <> [] -> (forall q, In q rs -> (1 <= q)%R) -> (0 < Rsum rs)%R.
Proof.
  intros Ne H. destruct rs as [|x rs]; [congruence|]. simpl.
  assert (0 <= Rsum rs)%R.
  { assert (H' : forall q, In q rs -> (1 <= q)%R) by (intros; apply H; right; auto). clear H. induction rs as [|y rs IH]; simpl; [lra|].
    assert (1 <= y)%R by (apply H'; left; auto). assert (0 <= Rsum rs)%R by (apply IH; [discriminate|intros; apply H'; right; auto]). lra. }
  assert (1 <= x)%R by (apply H; left; auto). lra.
Qed.

(** Changing weights only. *)
Definition reweighted {A : arith} (net net' : network A) : Prop :=
  forall u, net' u = net u \/ exists w w', nk (net u) = KSum w /\ net' u = mkNode (KSum w') (nch (net u)).

Lemma reweighted_l {A : arith} (net net' : network A) z : reweighted net net' ->
  (forall u, children net' u = children net u) /\
  (forall u x, in_scope net' u x <-> in_scope net u x) /\ (complete net z -> complete net' z) /\
  (decomposable net z -> decomposable net' z) /\ (acyclic_from (children net) z -> acyclic_from (children net') z).
Proof.
  intros Rw.
  assert (Ch : forall u, children net' u = children net u).
  { intros u. unfold children. destruct (Rw u) as [->|(w & w' & _ & ->)]; auto. }
  assert (Ch' : forall u, children net u = children net' u) by auto.
  assert (Lf : forall u l, nk (net' u) = KLeaf l <-> nk (net u) = KLeaf l).
  { intros u l. destruct (Rw u) as [->|(w & w' & E & ->)]; [tauto|]. rewrite E. simpl. split; discriminate. }
  assert (Pr : forall u, nk (net' u) = KProd <-> nk (net u) = KProd).
  { intros u. destruct (Rw u) as [->|(w & w' & E & ->)]; [tauto|]. rewrite E. simpl. split; discriminate. }
  assert (Sm : forall u w, nk (net' u) = KSum w -> exists w', nk (net u) = KSum w').
  { intros u w. destruct (Rw u) as [->|(w1 & w' & E & ->)]; eauto. }
  assert (Nc : forall u, nch (net' u) = nch (net u)) by exact Ch.
  assert (Sc : forall u x, in_scope net' u x <-> in_scope net u x).
  { intros u x. split; intros (v & l & R & K & Hx); exists v, l; (split; [|split; [apply Lf; auto|auto]]).
    - apply (same_reach _ _ Ch); auto.
    - apply (same_reach _ _ Ch'); auto. }
  split; auto. split; auto. split; [|split].
  - intros C u w c c' x R K Hc Hc' Hx. rewrite Nc in Hc, Hc'. destruct (Sm u w K) as (w' & K'). apply Sc.
    apply (C u w' c c' x); auto; [apply (same_reach _ _ Ch); auto|apply Sc; auto].
  - intros D u i j c c' x R K ij Ei Ej Hx Hx'. rewrite Nc in Ei, Ej.
    eapply (D u i j c c' x); eauto; [apply (same_reach _ _ Ch); auto|apply Pr; auto|apply Sc; auto|apply Sc; auto].
  - intros Ac u c R Hc Rc. rewrite Ch in Hc. apply (Ac u c); auto; apply (same_reach _ _ Ch); auto.
Qed.

Lemma normalise_small (net : network XR) N z : bounded (children net) N -> z < N -> small_weights (A:=XR) net z ->
  exists net', normalizeSPN net (S N) z = Ok net' /\ reweighted net net' /\ proper_weights net' z.
Proof.
  intros Hb Hz Sw. destruct (normalizeSPN_struct net N z Hb Hz) as (net' & E & H1 & H2). exists net'. split; auto.
  assert (Dec : forall u, reach (children net) z u \/ ~ reach (children net) z u).
  { intros u. destruct (WalkLemmas.walk_fold (children net) UseQueue N z Hb Hz) as (calls & _ & (_ & He) & _).
    destruct (in_dec Nat.eq_dec u calls) as [Hin|Hin]; rewrite He in Hin; auto. }
  assert (Rw : reweighted net net').
  { intros u. destruct (Dec u) as [R|R]; [|left; auto]. rewrite H1 by auto. destruct (nk (net u)) as [w| |l] eqn:K; auto.
    right. exists w, (norm w). auto. }
  split; auto. intros u w R K. destruct (reweighted_l net net' z Rw) as (Ch & _).
  apply (same_reach _ _ Ch) in R. rewrite H1 in K |- * by auto. destruct (nk (net u)) as [w0| |l] eqn:K0; try congruence.
  simpl in K. injection K as <-. destruct (Sw u w0 R K0) as (Ne & L & Sm). simpl. split; auto.
  destruct (small_fin w0 Sm) as (rs & -> & Hr). rewrite map_length in L.
  assert (Nr : rs <> []) by (intros ->; destruct (nch (net u)); [congruence|discriminate]).
  pose proof (Rsum_pos rs Nr Hr) as Pos.
  exists (map (fun x => (x / Rsum rs)%R) rs). split; [|split; [rewrite map_length; auto|split]].
  - unfold norm. assert (Nn : forall w, In w rs -> (0 <= w)%R) by (intros w Hw; specialize (Hr w Hw); lra).
    rewrite minBelow0_l, Rmin0_zero by auto. cbn [fgt fz XR xgt]. destruct (Rlt_dec 0 0); [lra|]. apply divBySum_l. lra.
  - intros q Hq. apply in_map_iff in Hq as (x & <- & Hx). specialize (Hr x Hx). apply Rdiv_lt_0_compat; lra.
  - apply div_normalised; auto. intros w Hw. specialize (Hr w Hw). lra.
Qed.

Lemma structure_l ord ordC km kmD db par logProb trunc round rnd fuel D sc k m g t n :
  visits_all ord -> (forall c C, Permutation (ordC c C) C) -> two_clusters km -> good_views kmD db n D k ->
  (forall i, (0 <= rnd i < 10)%Z) -> 0 < m -> 0 < g ->
  NoDup (keys sc) -> 2 <= length sc -> (forall x, member sc x -> (0 <= x < Z.of_nat n)%Z) -> length sc < fuel ->
  exists net z, @structure XR ord ordC km kmD db par logProb trunc round rnd fuel D sc k m g t = Ok (net, z) /\
  (forall x, in_scope net z x <-> member sc x) /\ complete net z /\ decomposable net z /\
  acyclic_from (children net) z /\ proper_weights net z /\ gaussian_leaves par logProb trunc round net /\
  exists N, z < N /\ bounded (children net) N.
Proof.
  intros all allC km2 Gv R10 M1 G1 N L2 Sc Lf.
  destruct (structureRaw_l XR ord ordC km kmD db par logProb trunc round rnd fuel D sc k m g t n all allC km2 Gv R10 M1 G1 N L2 Sc Lf)
    as (H & z & E & B & Lz & S1 & S2 & S3 & S4 & S5 & S6).
  destruct (normalise_small (netOf H) (length H) z B Lz S5) as (net' & En & Rw & Pw).
  unfold structure. rewrite E. cbn [bind fst snd]. rewrite En. cbn [bind]. exists net', z. split; auto.
  destruct (reweighted_l (netOf H) net' z Rw) as (T0 & T1 & T2 & T3 & T4).
  split; [intros x; rewrite T1; auto|]. split; auto. split; auto. split; auto. split; auto. split.
  - intros u l K. destruct (Rw u) as [Eu|(w & w' & _ & Eu)]; rewrite Eu in *; [|discriminate]. apply S6; auto.
  - exists (length H). split; auto. intros u c Hc. rewrite T0 in Hc. eauto.
Qed.
