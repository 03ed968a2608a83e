(** No child of a node built by the Dennis-Ventura learner is below another child of that node. *)
From Verif Require Import Base Res Arith GraphSpec GraphLemmas Spn Leaves GoMap Build DataSpec Dennis DennisSpec DennisScope DennisGraph
  DennisExpand DennisPost DennisBuild PoonSpec ProbSpec ScopedLemmas.

Section B.
Context {A : arith}.
Local Notation F := (F A).
Variable sc : gmap.
Variable G : rgraph.
Hypothesis I : ginv sc G.
Variable par : Z -> nat -> F * F.
Variable logProb : F -> F -> F -> F.
Variables trunc round : F -> Z.
Variable rnd : nat -> Z.
Hypothesis rnd10 : forall i, (0 <= rnd i < 10)%Z.
Hypothesis expanded : forall i, ~ unexpanded G i.
Variables nd m g : nat.
Hypothesis m1 : 0 < m.
Hypothesis g1 : 0 < g.

Lemma buildSPN_order fuel H z : 2 <= length sc -> length sc < fuel -> buildSPN par logProb trunc round rnd fuel G nd m g = Ok (H, z) ->
  (forall u c c', In c (children (netOf H) u) -> In c' (children (netOf H) u) -> reach (children (netOf H)) c c' -> c = c') /\
  nch (netOf H z) <> [].
Proof.
  intros L2 Lf EB. destruct (postorder_l sc G I fuel Lf) as (R & ER & Rd & H0R).
  destruct (buildRegions_l sc G I par logProb trunc round rnd rnd10 expanded nd m g m1 g1 R Rd L2) as (H1 & k & T & rep & E & [LT O1] & Rp).
  unfold buildSPN in EB. rewrite ER in EB. cbn [bind] in EB. rewrite E in EB. cbn [bind fst snd] in EB.
  destruct (Rp 0 H0R) as [N0 R0]. destruct (rep 0) as [|z1 zs]; [congruence|]. unfold idx in EB. cbn [nth_error bind] in EB.
  injection EB as E1 E2. subst H1 z1. destruct (R0 z ltac:(left; auto)) as (nz & Ez & Kz & Tz). clear R0 Rp.
  assert (Node : forall u x, nth_error H u = Some x -> netOf H u = x) by (intros u x Eu; unfold netOf; apply nth_error_nth; auto).
  assert (Tag : forall u c, In c (children (netOf H) u) -> exists x i, nth_error H u = Some x /\ nth_error T u = Some i /\ nodeOk G par logProb trunc round H T i x).
  { intros u c Hc. unfold children in Hc. destruct (nth_error H u) as [x|] eqn:Eu.
    - destruct (nth_error T u) as [i|] eqn:Et; [|apply nth_error_None in Et; assert (u < length H) by (apply nth_error_Some; congruence); lia].
      exists x, i. split; auto. split; auto. eapply O1; eauto.
    - apply nth_error_None in Eu. unfold netOf in Hc. rewrite nth_overflow in Hc by auto. destruct Hc. }
  set (lab := fun u x => exists i r, nth_error T u = Some i /\ nth_error (regs G) i = Some r /\ member (rsc r) x).
  assert (Lab : forall u i r x, nth_error T u = Some i -> nth_error (regs G) i = Some r -> lab u x <-> member (rsc r) x).
  { intros u i r x Et Er. split; [|intros; exists i, r; auto]. intros (i' & r' & Et' & Er' & Hx). congruence. }
  assert (Step : forall u c x, In c (children (netOf H) u) -> lab c x -> lab u x).
  { intros u c x Hc Hx. destruct (Tag u c Hc) as (n & i & En & Et & ri & Er & M). unfold children in Hc. rewrite (Node u n En) in Hc.
    apply (Lab u i ri x Et Er). destruct (nk n) as [ws| |l].
    - destruct M as (_ & _ & _ & P). destruct (P c Hc) as (nc & _ & _ & Tc). apply (Lab c i ri x Tc Er). auto.
    - destruct M as (a & b & c1 & c2 & ra & rb & Ech & (n1 & _ & _ & T1) & (n2 & _ & _ & T2) & Ea & Eb & (Un & _)). apply Un. rewrite Ech in Hc.
      destruct Hc as [<-|[<-|[]]]; [left; apply (Lab c1 a ra x T1 Ea)|right; apply (Lab c2 b rb x T2 Eb)]; auto.
    - destruct M as (M & _). rewrite M in Hc. destruct Hc. }
  assert (Down : forall u v x, reach (children (netOf H)) u v -> lab v x -> lab u x).
  { intros u v x Ruv. induction Ruv; auto. intros Hx. eapply Step; eauto. }
  assert (Some_ : forall a ra, nth_error (regs G) a = Some ra -> exists x, member (rsc ra) x).
  { intros a ra Ea. destruct (g_reg sc G I a ra Ea) as (_ & Na & _). destruct (rsc ra) as [|(x & y) l]; [congruence|]. exists x. left. reflexivity. }
  assert (Prod : forall u n i ri, nth_error H u = Some n -> nth_error T u = Some i -> nth_error (regs G) i = Some ri -> nk n = KProd ->
    forall c, In c (nch n) -> ~ (forall x, member (rsc ri) x -> lab c x)).
  { intros u n i ri En Et Er Kn c Hc All. pose proof (O1 u n i En Et ltac:(intros [])) as (ri' & Er' & M). assert (ri' = ri) by congruence. subst ri'.
    rewrite Kn in M. destruct M as (a & b & c1 & c2 & ra & rb & Ech & (n1 & _ & _ & T1) & (n2 & _ & _ & T2) & Ea & Eb & (Un & Dj)). rewrite Ech in Hc.
    destruct Hc as [<-|[<-|[]]].
    - destruct (Some_ b rb Eb) as (x & Hx). apply (Dj x); auto. apply (Lab c1 a ra x T1 Ea). apply All. apply Un. auto.
    - destruct (Some_ a ra Ea) as (x & Hx). apply (Dj x); auto. apply (Lab c2 b rb x T2 Eb). apply All. apply Un. auto. }
  split.
  - intros u c c' Hc Hc' Rc. destruct (Tag u c Hc) as (n & i & En & Et & ri & Er & M). unfold children in Hc, Hc'. rewrite (Node u n En) in Hc, Hc'.
    destruct (nk n) as [ws| |l].
    + destruct M as (_ & _ & _ & P). destruct (P c Hc) as (nc & Ec & Kc & Tc). destruct (P c' Hc') as (nc' & Ec' & Kc' & Tc').
      destruct Rc as [|c d c' Hd Rd']; auto. exfalso. unfold children in Hd. rewrite (Node c nc Ec) in Hd.
      apply (Prod c nc i ri Ec Tc Er Kc d Hd). intros x Hx. apply (Down d c' x Rd'). apply (Lab c' i ri x Tc' Er). auto.
    + destruct M as (a & b & c1 & c2 & ra & rb & Ech & (n1 & _ & _ & T1) & (n2 & _ & _ & T2) & Ea & Eb & (Un & Dj)). rewrite Ech in Hc, Hc'.
      destruct Hc as [<-|[<-|[]]], Hc' as [<-|[<-|[]]]; auto; exfalso.
      * destruct (Some_ b rb Eb) as (x & Hx). apply (Dj x); auto. apply (Lab c1 a ra x T1 Ea). apply (Down c1 c2); auto. apply (Lab c2 b rb x T2 Eb). auto.
      * destruct (Some_ a ra Ea) as (x & Hx). apply (Dj x); auto. apply (Lab c2 b rb x T2 Eb). apply (Down c2 c1); auto. apply (Lab c1 a ra x T1 Ea). auto.
    + destruct M as (M & _). rewrite M in Hc. destruct Hc.
  - rewrite (Node z nz Ez). pose proof (O1 z nz 0 Ez Tz ltac:(intros [])) as (r0 & Er0 & M). destruct (nk nz) as [ws| |l]; [tauto|congruence|].
    destruct M as (_ & x & v & Es & _). destruct (g_root sc G I) as (r1 & E1 & Er1). assert (r1 = r0) by congruence. subst r1. rewrite Es in Er1. rewrite <- Er1 in L2. simpl in L2. lia.
Qed.
End B.

Lemma structureRaw_order (A : arith) ord ordC km kmD db par logProb trunc round rnd fuel D sc k m g t n H z :
  visits_all ord -> (forall c C, Permutation (ordC c C) C) -> two_clusters km -> good_views kmD db n D k ->
  (forall i, (0 <= rnd i < 10)%Z) -> 0 < m -> 0 < g ->
  NoDup (keys sc) -> 2 <= length sc -> (forall x, member sc x -> (0 <= x < Z.of_nat n)%Z) -> length sc < fuel ->
  @structureRaw A ord ordC km kmD db par logProb trunc round rnd fuel D sc k m g t = Ok (H, z) ->
  (forall u c c', In c (children (netOf H) u) -> In c' (children (netOf H) u) -> reach (children (netOf H)) c c' -> c = c') /\
  nch (netOf H z) <> [].
Proof.
  intros all allC km2 Gv R10 M1 G1 N L2 Sc Lf. unfold structureRaw.
  destruct (buildRegionGraph_l (A:=A) ord ordC km all allC km2 sc kmD db fuel D k t n N L2 ltac:(lia) Sc Gv) as (G & EG & I & U).
  rewrite EG. cbn [bind]. apply (buildSPN_order sc G I); auto.
Qed.
