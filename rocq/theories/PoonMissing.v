(** The networks of the Poon-Domingos learner and missing pixels. *)
From Coq Require Import Reals Lra Lia.
From Verif Require Import Base Res Arith LogSpec LogLemmas GraphSpec GraphLemmas Spn SpnSpec Leaves Build Struct StructLemmas Poon PoonSpec PoonLemmas PoonLearn PoonLearnSpec
  ProbSpec ProbLemmas PoonRun PoonTotal PoonOrder PoonWhole PoonLearnCases Train TrainSpec TrainProps TrainShape MapSpec DeriveSpec HardGainSpec HardKeepSpec BelowLemmas HardKeepLemmas DennisSpec DennisTop MissingSpec MissingLemmas MissingDennis.
Local Open Scope Z_scope.

Section G.
Variables w h : Z.
Variable logProb : xreal -> xreal -> xreal -> xreal.
Variables trunc round : xreal -> Z.
Variable rnd : nat -> nat -> nat.
Hypothesis w1 : 0 < w.
Hypothesis h1 : 0 < h.
Hypothesis fit : codes_fit w h.
Hypothesis dr : draws rnd.
Hypothesis lp : log_density logProb.
Variables (m g : nat) (r : Z) (data : list varset).
Hypothesis r2 : 2 <= r.
Hypothesis rw : (r | w).
Hypothesis rh : (r | h).
Hypothesis m1 : (0 < m)%nat.
Hypothesis g2 : (2 <= g)%nat.
Hypothesis Nd : data <> [].

(** A Gaussian over a pixel with one of the computed parameters, the deviation being positive. *)
Definition pixel_gauss (l : leaf XR) : Prop :=
  exists p i mu sd, 0 <= p < w * h /\ (i < g)%nat /\ @unitPar XR data g p i = (Fin mu, Fin sd) /\ (0 < sd)%R /\
    l = gaussLeaf (A := XR) logProb trunc round p (Fin mu) (Fin sd).

Lemma net_node (H : nodes XR) u : (exists n, nth_error H u = Some n /\ netOf H u = n) \/ netOf H u = mkNode KProd [].
Proof.
  unfold netOf. destruct (nth_error H u) as [n|] eqn:E.
  - left. exists n. split; auto. apply nth_error_nth. auto.
  - right. apply nth_overflow. apply nth_error_None. auto.
Qed.

Lemma reach_parent (ch : graph) x y : reach ch x y -> y = x \/ exists v, reach ch x v /\ In y (ch v).
Proof.
  intros R. induction R as [x|x c y Hc R IH]; auto. right. destruct IH as [->|(v & Hv & Hy)].
  - exists x. split; [constructor|auto].
  - exists v. split; auto. eapply reach_step; eauto.
Qed.

Lemma under_regions (H : nodes XR) G L : good w h L H G -> forall u v, reach (children (netOf H)) u v ->
  left (G u) <= left (G v) /\ right (G v) <= right (G u) /\ top (G u) <= top (G v) /\ bottom (G v) <= bottom (G u).
Proof.
  intros Gd u v R. induction R as [x|x c y Hc R IH]; [lia|].
  assert (K : left (G x) <= left (G c) /\ right (G c) <= right (G x) /\ top (G x) <= top (G c) /\ bottom (G c) <= bottom (G x)); [|lia].
  unfold children in Hc. destruct (net_node H x) as [(n & En & E)|E]; rewrite E in Hc; [|destruct Hc]. pose proof (Gd x n En) as (_ & K). destruct (nk n) as [ws| |l].
  - destruct K as (_ & _ & K). destruct (K c Hc) as (-> & _). lia.
  - destruct K as (a & b & _ & _ & Ech & Ct & _). rewrite Ech in Hc. destruct (cut_part _ _ _ Ct) as [(P1 & P2 & P3 & P4 & _) (Q1 & Q2 & Q3 & Q4 & _)]. destruct Hc as [<-|[<-|[]]]; lia.
  - destruct K as (K & _). rewrite K in Hc. destruct Hc.
Qed.

Lemma structure_gauss H z : @structure XR w h logProb trunc round rnd data m g r = Ok (H, z) ->
  bounded (children (netOf H)) (length H) /\ (z < length H)%nat /\ leaves_childless (netOf H) /\
  siblings_below (children (netOf H)) z /\ (exists ws, nk (netOf H z) = KSum ws) /\
  forall u l, reach (children (netOf H)) z u -> nk (netOf H u) = KLeaf l -> pixel_gauss l.
Proof.
  intros E. destruct (structure_J w h logProb trunc round rnd w1 h1 fit dr lp m g r r2 rw rh m1 g2 data Nd) as (H' & z' & E' & L & s & Hs & (V & Ni & U & _) & (R & LR & IR)).
  assert (EE : Ok (H', z') = Ok (H, z)) by (rewrite <- E; symmetry; exact E'). injection EE as -> ->. clear E'. unfold Inv, InvC in V. rewrite Hs in V, U.
  destruct V as (G & Gd & Tb & _). pose proof (n_ch _ _ _ _ Ni) as Nc. rewrite Hs in Nc.
  assert (Ir : inside w h (Rect 0 0 w h)) by (unfold PoonSpec.inside; simpl; lia).
  destruct (Tb _ R Ir LR) as [_ Rz]. destruct (Rz z IR) as (nz & Ez & _ & _ & Sz).
  assert (Nu : ~ unitR (Rect 0 0 w h)). { unfold unitR. simpl. intros [X _]. apply Z.divide_pos_le in rw; lia. }
  specialize (Sz Nu).
  assert (Lt : forall u n, nth_error H u = Some n -> (u < length H)%nat) by (intros u n X; apply nth_error_Some; congruence).
  split; [|split; [eauto|split; [|split; [|split]]]].
  - intros u c. unfold children. destruct (net_node H u) as [(n & En & ->)| ->]; [|intros []]. intros Hc. pose proof (Gd u n En) as (_ & K).
    destruct (nk n) as [ws| |l].
    + destruct K as (_ & _ & K). destruct (K c Hc) as (_ & n' & X & _). eauto.
    + destruct K as (a & b & na & nb & Ech & _ & Ea & Eb & _). rewrite Ech in Hc. destruct Hc as [<-|[<-|[]]]; eauto.
    + destruct K as (K & _). rewrite K in Hc. destruct Hc.
  - intros u l. destruct (net_node H u) as [(n & En & ->)| ->]; [|discriminate]. intros K. pose proof (Gd u n En) as (_ & K'). rewrite K in K'. apply K'.
  - intros p l1 a l2 v l3 _ Ech Hn Rv.
    assert (Hp : In a (children (netOf H) p) /\ In v (children (netOf H) p)) by (rewrite Ech; split; apply in_or_app; right; [left; auto|right; apply in_or_app; right; left; auto]).
    assert (Nv : v <> a) by (intros ->; apply Hn; apply in_or_app; right; left; auto). destruct Hp as [Ha Hv]. unfold children in Ha, Hv, Ech.
    destruct (net_node H p) as [(n & En & Ep)|Ep]; rewrite Ep in Ha, Hv, Ech; [|destruct Ha].
    pose proof (Gd p n En) as (Ip & K). destruct (nk n) as [ws| |l].
    + destruct K as (_ & _ & K). destruct (K a Ha) as (Ga & _). destruct (K v Hv) as (Gv & nv & Env & Pv).
      apply reach_inv in Rv. destruct Rv as [->|(c & Hc & Rc)]; [congruence|]. unfold children in Hc. destruct (net_node H v) as [(n2 & En2 & E2)|E2]; rewrite E2 in Hc; [|destruct Hc].
      assert (Q2 : n2 = nv) by congruence. rewrite Q2 in Hc. clear Q2. destruct (under_regions H G L Gd c a Rc) as (A1 & A2 & A3 & A4).
      pose proof (Gd v nv Env) as (Iv & Kv). unfold isProd in Pv. destruct (nk nv); try destruct Pv. destruct Kv as (c1 & c2 & _ & _ & Ech2 & Ct & _). rewrite Ech2 in Hc.
      destruct (cut_part _ _ _ Ct) as [P1 P2]. rewrite Ga, <- Gv in *.
      assert (Pc : part (G c) (G v)) by (destruct Hc as [<-|[<-|[]]]; auto). destruct Pc as (B1 & B2 & B3 & B4 & B5). apply B5. destruct (G c), (G v); cbn in *; f_equal; lia.
    + destruct K as (c1 & c2 & na & nb & Ech2 & Ct & Ec1 & Ec2 & _). rewrite Ech2 in Ech.
      assert (X : (a = c1 /\ v = c2) \/ (a = c2 /\ v = c1)).
      { rewrite Ech2 in Ha, Hv. destruct Ha as [<-|[<-|[]]], Hv as [<-|[<-|[]]]; auto; congruence. }
      destruct (under_regions H G L Gd v a Rv) as (A1 & A2 & A3 & A4). pose proof (Gd c1 na Ec1) as [I1 _]. pose proof (Gd c2 nb Ec2) as [I2 _]. unfold PoonSpec.inside in I1, I2.
      destruct Ct as [(x & Bx & [[Q1 Q2]|[Q1 Q2]])|(y & By & [[Q1 Q2]|[Q1 Q2]])]; destruct X as [[-> ->]|[-> ->]]; rewrite Q1, Q2 in *; cbn in *; lia.
    + destruct K as (K & _). rewrite K in Ha. destruct Ha.
  - unfold netOf. rewrite (nth_error_nth _ _ _ Ez). unfold isSum in Sz. destruct (nk nz); try destruct Sz. eauto.
  - intros u l Hu K.
    destruct (reach_parent _ _ _ Hu) as [->|(v & Hv & Hc)].
    { exfalso. unfold netOf in K. rewrite (nth_error_nth _ _ _ Ez) in K. unfold isSum in Sz. rewrite K in Sz. auto. }
    unfold children in Hc. destruct (net_node H u) as [(n & En & Eu)|Eu]; rewrite Eu in K; [|discriminate].
    destruct (net_node H v) as [(nv & Ev & Env)|Env]; rewrite Env in Hc; [|destruct Hc].
    pose proof (Gd v nv Ev) as (Iv & Kv). destruct (nk nv) as [ws| |lv] eqn:Knv.
    + destruct Kv as (_ & _ & Kv). destruct (Kv u Hc) as (_ & n' & X & Pr). assert (n' = n) by congruence. subst n'. unfold isProd in Pr. rewrite K in Pr. destruct Pr.
    + assert (Hh : held w h L G u).
      { destruct Kv as (a & b & na & nb & Ech & _ & _ & _ & _ & _ & Ha & Hb). rewrite Ech in Hc. destruct Hc as [<-|[<-|[]]]; auto. }
      destruct Hh as (Ru & LRu & IRu). pose proof (Gd u n En) as (Iu & Ku). rewrite K in Ku. destruct Ku as (_ & Uu & _).
      apply In_nth_error in IRu. destruct IRu as (i & Hi).
      destruct (U (G u) Ru Iu Uu LRu i u Hi) as (l' & Hl' & (Li & El) & _).
      assert (Hl : leafAt H u l) by (exists n; auto). rewrite (leaf_one H u l' l Hl' Hl) in El.
      assert (Gl : goodLeaf l). { apply (Nc v nv Ev) with (c := u); auto. unfold isProd. rewrite Knv. exact Logic.I. }
      set (p := pixelOf w (G u)) in *.
      destruct (unitPar_ok m g m1 g2 data p i Nd Li) as [(mu & sd & Ep & Sd)|[_ Ep]].
      * exists p, i, mu, sd. split; [|split; [|split; [|split]]]; auto.
        -- unfold p, pixelOf. unfold PoonSpec.inside in Iu. destruct Uu. nia.
        -- rewrite Ep in El. exact El.
      * exfalso. rewrite Ep in El. destruct (Gl (fun _ => Some 0)) as (x & Ex). rewrite El in Ex. cbn in Ex. destruct lp as [_ LP2]. rewrite LP2 in Ex. discriminate.
    + destruct Kv as (Kv & _). rewrite Kv in Hc. destruct Hc.
Qed.

Section V.
Variables (net : network XR) (z : nat).
Hypothesis PG : forall u l, reach (children net) z u -> nk (net u) = KLeaf l -> nch (net u) = [] /\ pixel_gauss l.

Lemma gauss_at p mu sd I : (0 < sd)%R -> lvalue (gaussLeaf (A := XR) logProb trunc round p (Fin mu) (Fin sd)) I =
  Some (match I p with Some v => logProb (Fin mu) (Fin sd) (Fin (IZR v)) | None => Fin 0 end).
Proof.
  intros Sd. cbn [lvalue gaussLeaf]. unfold gaussValue. change (@feq XR (Fin sd) (fz 0)) with (xeq (Fin sd) (Fin 0)). cbn [xeq].
  destruct (Req_EM_T sd 0); [lra|]. destruct (I p); reflexivity.
Qed.

Lemma pixel_own : own_scope net z.
Proof.
  intros u l Hu K. destruct (PG u l Hu K) as (E & p & i & mu & sd & Bp & Hi & Ep & Sd & ->). split; auto.
  intros I J HIJ. rewrite !gauss_at by auto. rewrite (HIJ p) by (left; reflexivity). reflexivity.
Qed.

Lemma pixel_finite I u l : reach (children net) z u -> nk (net u) = KLeaf l -> exists y, lvalue l I = Some (Fin y).
Proof.
  intros Hu K. destruct (PG u l Hu K) as (E & p & i & mu & sd & Bp & Hi & Ep & Sd & ->). rewrite gauss_at by auto.
  destruct (I p) as [v|]; [|eauto]. destruct lp as [LP1 _]. destruct (LP1 mu sd (IZR v) Sd) as (y & Ey). exists y. f_equal. exact Ey.
Qed.

Lemma pixel_answers I : answers net I z.
Proof. intros u l Hu K. destruct (pixel_finite I u l Hu K) as (y & ->). eexists. split; [reflexivity|exact Logic.I]. Qed.

Lemma pixel_normal I : (forall p, 0 <= p < w * h -> I p = None) -> leaves_normal net I z.
Proof.
  intros HI u l Hu K. destruct (PG u l Hu K) as (E & p & i & mu & sd & Bp & Hi & Ep & Sd & ->). rewrite gauss_at by auto. rewrite HI by auto. reflexivity.
Qed.

Lemma pixel_sum J x lo hi vs u l :
  (forall i mu sd, (i < g)%nat -> @unitPar XR data g x i = (Fin mu, Fin sd) -> (0 < sd)%R ->
     (lo <= Rsum (map (fun v => lin (logProb (Fin mu) (Fin sd) (Fin (IZR v)))) vs) <= hi)%R) ->
  reach (children net) z u -> nk (net u) = KLeaf l -> In x (lsc l) ->
  (lo * density l (observe J x None) <= Rsum (map (fun v => density l (observe J x (Some v))) vs) <= hi * density l (observe J x None))%R.
Proof.
  intros HB Hu K Hx. destruct (PG u l Hu K) as (E & p & i & mu & sd & Bp & Hi & Ep & Sd & ->). destruct Hx as [->|[]].
  assert (D : forall o, density (gaussLeaf (A := XR) logProb trunc round x (Fin mu) (Fin sd)) (observe J x o) =
     match o with Some v => lin (logProb (Fin mu) (Fin sd) (Fin (IZR v))) | None => 1%R end).
  { intros o. unfold density. rewrite gauss_at by auto. unfold observe. rewrite Z.eqb_refl. destruct o; auto. apply exp_0. }
  rewrite D, !Rmult_1_r. rewrite (Rsum_ext _ (fun v => lin (logProb (Fin mu) (Fin sd) (Fin (IZR v))))) by (intros v _; apply D).
  apply (HB i); auto.
Qed.

Lemma pixel_max I : leaves_answer net I z.
Proof.
  intros u l Hu K. destruct (PG u l Hu K) as (E & p & i & mu & sd & Bp & Hi & Ep & Sd & ->). destruct lp as [LP1 _].
  assert (Nz : @feq XR (Fin sd) (fz 0) = false) by (change (xeq (Fin sd) (Fin 0) = false); cbn [xeq]; destruct (Req_EM_T sd 0); [lra|auto]).
  cbn [lmax largmax gaussLeaf]. unfold gaussMax, gaussArgMax. rewrite Nz.
  destruct (I p) as [v|].
  - destruct (LP1 mu sd (IZR v) Sd) as (y & Ey). do 3 eexists. split; [reflexivity|]. split; [|reflexivity].
    change (@fz XR v) with (Fin (IZR v)). rewrite Ey. exact Logic.I.
  - destruct (LP1 mu sd mu Sd) as (y & Ey). do 3 eexists. split; [reflexivity|]. split; [|reflexivity]. rewrite Ey. exact Logic.I.
Qed.
End V.
End G.

Lemma live1_nonneg net z : weights_live1 net z -> no_empty_sums net z -> weights_nonneg net z /\ weights_normalised net z.
Proof.
  intros W Ne. apply proper_nonneg. intros u ws Hu K. split; [eapply Ne; eauto|]. destruct (W u ws Hu K) as (rs & -> & L & P & S). eauto 10.
Qed.

(** Positive weights and leaves with positive densities: a positive density. *)
Lemma positive_l (net : network XR) N r I : bounded (children net) N -> (r < N)%nat -> acyclic_from (children net) r ->
  weights_live1 net r -> no_empty_sums net r -> (forall u l, reach (children net) r u -> nk (net u) = KLeaf l -> exists y, lvalue l I = Some (Fin y)) ->
  exists y, value net N I r = Ok (Fin y).
Proof.
  intros Hb Hr Ac HL HS HI. destruct (live1_nonneg net r HL HS) as [HW _]. destruct (prune net N r Hb Hr Ac) as (net' & Hb' & Ac' & Sm & Bk).
  rewrite <- (same_value _ _ _ Sm). apply (same_weights _ _ _ Sm) in HW.
  assert (HL' : weights_live1 net' r) by (intros u w Hu; rewrite Sm by auto; apply HL; auto).
  assert (HI' : forall u l, reach (children net') r u -> nk (net' u) = KLeaf l -> exists y, lvalue l I = Some (Fin y)) by (intros u l Hu; rewrite Sm by auto; apply HI; auto).
  assert (HA : answers net' I r) by (intros u l Hu K; destruct (HI' u l Hu K) as (y & ->); exists (Fin y); split; [auto|exact Logic.I]).
  assert (X : forall u, reach (children net') r u -> (0 < P net' N I u)%R).
  { apply (node_ind (children net') N r (fun u => (0 < P net' N I u)%R)); auto. intros u Hu IH.
    destruct (P_gen net' N r Hb' Hr Ac' HW I HA u Hu) as (_ & _ & E). destruct (nk (net' u)) as [w| |l] eqn:EK.
    - destruct (HL' u w Hu EK) as (ws & -> & Len & Pos & Sum1). rewrite (E ws) by auto. unfold psum. change (children net' u) with (nch (net' u)) in IH.
      apply rsum_pos.
      + destruct ws as [|q ws]; [cbn in Sum1; lra|]. destruct (nch (net' u)); discriminate.
      + intros x Hx. apply in_map_iff in Hx. destruct Hx as ((c & q) & <- & Hx). apply in_combine_wt in Hx. destruct Hx as [Hc Hq]. cbn [fst snd]. apply Rmult_lt_0_compat; auto.
    - rewrite E. clear -IH. change (children net' u) with (nch (net' u)) in IH. revert IH. generalize (nch (net' u)) as cs.
      induction cs as [|c cs IHc]; intros IH; simpl; [lra|]. apply Rmult_lt_0_compat; [apply IH; left; auto|apply IHc; intros; apply IH; right; auto].
    - rewrite E. unfold pleaf. destruct (HI' u l Hu EK) as (y & ->). simpl. apply exp_pos. }
  destruct (P_gen net' N r Hb' Hr Ac' HW I HA r) as (-> & _); [constructor|]. specialize (X r (reach_refl _ _)).
  exists (ln (P net' N I r)). unfold xln. destruct (Rlt_dec 0 (P net' N I r)); [auto|lra].
Qed.

Lemma poon_learned_l w h logProb trunc round rnd data g r eta lambda :
  0 < w -> 0 < h -> codes_fit w h -> draws rnd -> log_density logProb -> 2 <= r -> (r | w) -> (r | h) -> (2 <= g)%nat -> data <> [] ->
  (0 <= eta)%R -> (2 * lambda < 1 + eta / 50)%R ->
  exists H z, @structure XR w h logProb trunc round rnd data 1 g r = Ok (H, z) /\
  forall N M ordN ordP rndT iter, (length H <= N)%nat -> at_most M z (netOf H) -> ranges_nodes N ordN -> ranges_entries M ordP ->
  (forall c i n, (0 < n)%nat -> (rndT c i n < n)%nat) ->
  exists net, @learnGD XR w h logProb trunc round rnd ordN ordP rndT data 1 g r (Fin eta) (Fin lambda) iter (2 * N + 1) (S N) = Ok (net, z) /\
  image_network w h net z /\ weights_live1 net z /\
  (forall I, exists y, value net N I z = Ok (Fin y)) /\
  (forall I, (forall p, 0 <= p < w * h -> I p = None) -> value net N I z = Ok (Fin 0)) /\
  (forall J x lo hi vs, 0 <= x < w * h ->
    (forall i mu sd, (i < g)%nat -> @unitPar XR data g x i = (Fin mu, Fin sd) -> (0 < sd)%R ->
       (lo <= Rsum (map (fun v => lin (logProb (Fin mu) (Fin sd) (Fin (IZR v)))) vs) <= hi)%R) ->
    exists p q, value net N (observe J x None) z = Ok (xln p) /\ (0 <= p)%R /\
      (forall v, In v vs -> value net N (observe J x (Some v)) z = Ok (xln (q v)) /\ (0 <= q v)%R) /\
      (lo * p <= Rsum (map q vs) <= hi * p)%R).
Proof.
  intros w1 h1 fit dr lp r2 rw rh g2 Nd E0 EL.
  destruct (structure_total w h logProb trunc round rnd w1 h1 fit dr lp 1 g r r2 rw rh (le_n 1) g2 data Nd) as (H & z & Es).
  exists H, z. split; auto. intros N M ordN ordP rndT iter LN HM HN HP HR.
  destruct (structure_gauss w h logProb trunc round rnd w1 h1 fit dr lp 1 g r data r2 rw rh (le_n 1) g2 Nd H z Es) as (Bd & Lz & Lc & Sb & (rws & Rs) & PG).
  destruct (structure_one_l XR w h logProb trunc round rnd data g r H z w1 h1 fit ltac:(lia) rw rh Nd Es) as ((I1 & I2 & I3 & I4) & U1 & U2).
  assert (Bd' : bounded (children (netOf H)) N) by (intros u c Hc; specialize (Bd u c Hc); lia).
  assert (Sw : small_weights (A:=XR) (netOf H) z).
  { intros u ws Hu K. destruct (U1 u ws Hu K) as [L1 L2]. split; [eapply U2; eauto|]. split; auto. intros x Hx. exists 1. split; [lia|].
    rewrite Forall_forall in L2. symmetry. auto. }
  destruct (normalise_small (netOf H) N z Bd' ltac:(lia) Sw) as (n1 & En & Rw & Pw). pose proof (normalize_reW _ _ _ _ En) as ReW.
  destruct (reweighted_l (netOf H) n1 z Rw) as (Ch & T1 & T2 & T3 & T4).
  assert (Ech : children n1 = children (netOf H)) by (apply FunctionalExtensionality.functional_extensionality; auto).
  assert (Lf : forall u l, nk (n1 u) = KLeaf l -> nk (netOf H u) = KLeaf l).
  { intros u l K. destruct (ReW u) as [_ [Q|(a & b & Qa & Qb & _)]]; congruence. }
  assert (Hl : hard_learnable_below n1 N M z).
  { unfold hard_learnable_below. rewrite !Ech. split; [auto|]. split; [lia|]. split; [auto|]. split; [auto|]. split; [|split; [|split; [|split]]].
    - intros u l K. rewrite (proj1 (ReW u)). apply (Lc u l). auto.
    - intros u ws. rewrite Ech. intros Hu K. rewrite (proj1 (ReW u)). destruct (ReW u) as [_ [Q|(a & b & Qa & _)]]; [apply (U2 u ws)|apply (U2 u a)]; congruence.
    - rewrite (proj1 (ReW z)). apply (U2 z rws); auto. apply reach_refl.
    - destruct HM as [HM1 HM2]. split; auto. intros u Ru. rewrite Ech in Ru. destruct (HM2 u Ru) as [L1 L2]. destruct (ReW u) as [C K]. split; [rewrite C; auto|].
      intros v Kv. destruct K as [K|(a & b & Ka & Kb & L)]; [apply L2; congruence|]. assert (v = b) by congruence. subst v. rewrite L. auto.
    - intros u ws Hu K. destruct (Pw u ws Hu K) as (_ & rs & -> & L & P & S). eauto. }
  assert (PG1 : forall u l, reach (children n1) z u -> nk (n1 u) = KLeaf l -> nch (n1 u) = [] /\ pixel_gauss w h logProb trunc round g data l).
  { intros u l Hu K. split; [rewrite (proj1 (ReW u)); apply (Lc u l); auto|]. rewrite Ech in Hu. apply (PG u); auto. }
  destruct (hard_keeps_l n1 N M z eta lambda (@mkParams XR true 0 (Fin eta) 50 (Fin lambda) iter) data ordN ordP rndT) as [_ HK]; auto.
  { intros I _. split; [eapply pixel_max; eauto|]. intros u l Hu K. exact (pixel_answers w h logProb trunc round lp g data n1 z PG1 I u l Hu K). }
  destruct (HK eq_refl EL) as (net & Eg & Ow & (Bn & Ln & An & _ & _ & Sn & _ & _ & Wn)). clear HK.
  exists net.
  assert (EG : @learnGD XR w h logProb trunc round rnd ordN ordP rndT data 1 g r (Fin eta) (Fin lambda) iter (2 * N + 1) (S N) = Ok (net, z)).
  { unfold learnGD. change (F XR) with xreal in *. rewrite Es. cbn [bind fst snd].
    match goal with |- context [bind (normalizeSPN ?a ?b ?c) _] => replace (normalizeSPN a b c) with (Ok n1) by (symmetry; exact En) end. cbn [bind].
    match goal with |- context [bind ?e _] => replace e with (Ok net) by (symmetry; exact Eg) end. reflexivity. }
  split; auto.
  assert (Hb : forall u, reach (children (netOf H)) z u -> (u < N)%nat).
  { intros u Hu. destruct (reach_parent _ _ _ Hu) as [->|(v & _ & Hv)]; [lia|]. apply (Bd' v u Hv). }
  destruct (learn_gd_image_l XR w h logProb trunc round rnd ordN ordP rndT data g r (Fin eta) (Fin lambda) iter (2 * N + 1) (S N) net z H z N M
    w1 h1 fit ltac:(lia) rw rh Nd Es Hb HM HN HP EG) as (_ & Im & Ne). pose proof Im as (J1 & J2 & J3 & J4).
  destruct (live1_nonneg net z Wn Ne) as [W1 W2]. pose proof (ow_children z n1 net Ow) as Ecn.
  assert (PG' : forall u l, reach (children net) z u -> nk (net u) = KLeaf l -> nch (net u) = [] /\ pixel_gauss w h logProb trunc round g data l).
  { intros u l Hu K. rewrite Ecn in Hu. rewrite (proj1 Ow). apply PG1; auto. destruct (proj2 Ow u) as [Q|(_ & a & b & _ & Q & _)]; congruence. }
  split; auto. split; auto. split; [|split].
  - intros I. apply positive_l; auto. intros u l Hu K. exact (pixel_finite w h logProb trunc round lp g data net z PG' I u l Hu K).
  - intros I HI. apply nothing_l; auto. eapply pixel_normal; eauto.
  - intros J x lo hi vs Hx HB. apply missing_sum_l; auto.
    + eapply pixel_own; eauto.
    + intros o _. eapply pixel_answers; eauto.
    + apply J1; auto.
    + intros u l Hu K Hxl. eapply pixel_sum; eauto.
Qed.
