From Coq Require Import Reals Lra Lia Classical_Prop FunctionalExtensionality.
From Verif Require Import Base Res Arith LogMath LogSpec LogLemmas GraphSpec GraphLemmas Topo TopoLemmas Search SearchLemmas
  Storer StorerSpec StorerLemmas Spn DP SpnSpec SpnLemmas Leaves ProbSpec ProbLemmas Walk WalkLemmas
  Struct StructSpec StructLemmas MapSpec MapLemmas Derive DeriveSpec DiffLemmas DeriveLemmas GradLemmas StepLemmas Hard HardSpec HardLemmas PipeLemmas
  Train TrainSpec TrainRange TrainKeep TrainShape TrainAll TrainKept TrainGrad TrainSteps TrainBatch TrainHard GainLemmas HardGainSpec.

(** ** More fuel and other random numbers do not change what TraceMAP returns *)
Lemma tarjan_mono ch : forall f k stk V P out l, tarjan_loop ch f stk V P out = Some l -> tarjan_loop ch (f + k) stk V P out = Some l.
Proof.
  induction f as [|f IH]; intros k stk V P out l E; [discriminate|]. cbn [tarjan_loop Nat.add] in *. destruct stk as [|u stk]; auto.
  destruct (memn u P); auto. destruct (push_children (ch u) (u :: stk, V)) as [a b]. auto.
Qed.
Section Trace.
Context {A : arith}.
Variable net : network A.
Lemma traceLoop_mono rnd rnd' look : (forall i n, rnd i n < n -> rnd' i n = rnd i n) -> forall f k i Q V P T,
  traceLoop net rnd look f i Q V P = Ok T -> traceLoop net rnd' look (f + k) i Q V P = Ok T.
Proof.
  intros HR. induction f as [|f IH]; intros k i Q V P T E; [discriminate|]. cbn [traceLoop Nat.add] in *. destruct Q as [|s Q]; auto.
  destruct (nk (net s)) as [w| |l].
  - destruct (bestIndices look w (nch (net s))) as [b| |]; try discriminate. cbn [bind] in *. destruct (Nat.eqb (length (snd b)) 0); [discriminate|].
    unfold idx in *. destruct (nth_error (snd b) (rnd i (length (snd b)))) as [mi|] eqn:Em; [|discriminate].
    rewrite HR by (apply nth_error_Some; congruence). rewrite Em. cbn [bind orPanic] in *. destruct (nth_error (nch (net s)) mi) as [c|]; [|discriminate]. cbn [bind orPanic] in *.
    destruct (memn c V); auto.
  - destruct (fold_left _ _ _) as [Q2 V2]. auto.
  - auto.
Qed.
Lemma traceMAP_mono rnd rnd' f k r I T : (forall i n, rnd i n < n -> rnd' i n = rnd i n) -> traceMAP net rnd f r I = Ok T -> traceMAP net rnd' (f + k) r I = Ok T.
Proof.
  intros HR. unfold traceMAP, topSortTarjan. destruct (tarjan_loop (children net) f [r] [r] [] []) as [ord|] eqn:Eo; [|discriminate].
  rewrite (tarjan_mono _ _ k _ _ _ _ _ Eo). destruct (foldr_ (traceNode net I) ord (fun _ => None)); try discriminate. cbn [bind]. apply traceLoop_mono; auto.
Qed.
Lemma traceLoop_keeps rnd look u : forall f i Q V P T, traceLoop net rnd look f i Q V P = Ok T -> P u <> None -> T u <> None.
Proof.
  induction f as [|f IH]; intros i Q V P T E HP; [discriminate|]. cbn [traceLoop] in E. destruct Q as [|s Q]; [congruence|].
  destruct (nk (net s)) as [w| |l].
  - destruct (bestIndices look w (nch (net s))) as [b| |]; try discriminate. cbn [bind] in *. destruct (Nat.eqb (length (snd b)) 0); [discriminate|].
    destruct (idx (snd b) (rnd i (length (snd b)))) as [mi| |]; try discriminate. cbn [bind] in *. destruct (idx (nch (net s)) mi) as [c| |]; try discriminate. cbn [bind] in *.
    destruct (memn c V); eapply IH; eauto. unfold upd. destruct (Nat.eqb _ _); auto. discriminate.
  - destruct (fold_left _ _ _) as [Q2 V2]. eauto.
  - eauto.
Qed.
Lemma trace_root rnd f r I T W : acyclic (children net) -> nk (net r) = KSum W -> traceMAP net rnd f r I = Ok T -> T r <> None.
Proof.
  intros Ha EK. unfold traceMAP. destruct (topSortTarjan (children net) f r) as [ord|]; [|discriminate]. destruct (foldr_ (traceNode net I) ord (fun _ => None)) as [tab| |]; try discriminate. cbn [bind].
  destruct f as [|f]; [discriminate|]. cbn [traceLoop]. rewrite EK. destruct (bestIndices (getV tab) W (nch (net r))) as [b| |]; try discriminate. cbn [bind].
  destruct (Nat.eqb (length (snd b)) 0); [discriminate|]. destruct (idx (snd b) _) as [mi| |]; try discriminate. cbn [bind]. destruct (idx (nch (net r)) mi) as [c| |] eqn:Ec; try discriminate. cbn [bind].
  assert (Hc : In c (children net r)). { unfold idx in Ec. destruct (nth_error (nch (net r)) mi) eqn:E; [|discriminate]. injection Ec as <-. eapply nth_error_In; eauto. }
  destruct (memn c [r]) eqn:Em.
  - exfalso. unfold memn in Em. cbn in Em. destruct (Nat.eqb_spec r c) as [->|]; [|destruct (Nat.eqb_spec c r) as [->|]; [|discriminate]]; eapply Ha; eauto using reach_refl.
  - intros E. eapply traceLoop_keeps; [exact E|]. rewrite upd_same. discriminate.
Qed.
End Trace.

Lemma trace_attains (net : network XR) N r I rnd f T :
  bounded (children net) N -> r < N -> acyclic (children net) -> siblings_ok (children net) -> leaves_childless net -> weights_nonneg net r -> leaves_answer net I r ->
  traceMAP net rnd f r I = Ok T -> forall u j, T u = Some j -> reach (children net) r u /\ attains_at net N I u j.
Proof.
  intros Hb Hr Ha Hs HL HW HA E.
  set (rnd' := fun i n => if Nat.ltb (rnd i n) n then rnd i n else 0).
  assert (H1 : forall i n, rnd i n < n -> rnd' i n = rnd i n) by (intros i n H; unfold rnd'; destruct (Nat.ltb_spec (rnd i n) n); auto; lia).
  assert (H2 : forall i n, 0 < n -> rnd' i n < n) by (intros i n H; unfold rnd'; destruct (Nat.ltb_spec (rnd i n) n); auto).
  destruct (traceMAP_l net N r I rnd' Hb Hr Ha Hs HL HW HA H2) as (P & EP & HP & _).
  pose proof (traceMAP_mono net rnd rnd' f (2 * N + 1) r I T H1 E) as E1. pose proof (traceMAP_mono net rnd' rnd' (2 * N + 1) f r I P (fun _ _ _ => eq_refl) EP) as E2.
  rewrite Nat.add_comm in E2. assert (P = T) by congruence. subst P. exact HP.
Qed.

Local Open Scope R_scope.
(** ** The step on the reals *)
Fixpoint bump (j : nat) (a : R) (ws : list R) : list R :=
  match ws, j with
  | [], _ => []
  | w :: t, O => w + a :: t
  | w :: t, S j => w :: bump j a t
  end.
Lemma bump_nth a ws : forall j i, nth_error (bump j a ws) i = if Nat.eqb i j then option_map (fun w => w + a) (nth_error ws i) else nth_error ws i.
Proof. induction ws as [|w ws IH]; intros [|j] [|i]; simpl; auto. destruct (Nat.eqb i j); auto. Qed.
Lemma bump_len a ws : forall j, length (bump j a ws) = length ws.
Proof. induction ws as [|w ws IH]; intros [|j]; simpl; auto. Qed.
Lemma bump_sum a ws : forall j w, nth_error ws j = Some w -> Rsum (bump j a ws) = Rsum ws + a.
Proof. induction ws as [|w ws IH]; intros [|j] v E; simpl in *; try discriminate; [lra|]. rewrite (IH j v E). lra. Qed.
Lemma bump_ge a ws : 0 <= a -> forall j x, In x (bump j a ws) -> exists w, In w ws /\ w <= x.
Proof.
  intros Ha. induction ws as [|w ws IH]; intros [|j] x; simpl; try tauto; (intros [<-|H]; [exists w; split; auto; lra|]).
  - exists x. split; auto. lra.
  - destruct (IH j x H) as (v & H1 & H2). eauto.
Qed.
Lemma nth_ext_error {X} (l l' : list X) : (forall i, nth_error l i = nth_error l' i) -> l = l'.
Proof.
  revert l'. induction l as [|x l IH]; intros [|y l'] H; auto; try (specialize (H 0%nat); discriminate).
  f_equal; [specialize (H 0%nat); cbn in H; congruence|]. apply IH. intros i. exact (H (S i)).
Qed.
Lemma rsum_ge ws : (forall x, In x ws -> 0 < x) -> 0 <= Rsum ws /\ forall w, In w ws -> w <= Rsum ws.
Proof.
  induction ws as [|a ws IH]; intros H; cbn [Rsum]; [split; [lra|intros w []]|]. destruct (IH (fun x Hx => H x (or_intror Hx))) as [H1 H2]. pose proof (H a (or_introl eq_refl)).
  split; [lra|]. intros w [<-|Hw]; [lra|]. specialize (H2 w Hw). lra.
Qed.
Lemma rsum_div k ws : Rsum (map (fun x => x / k) ws) = Rsum ws / k.
Proof. induction ws as [|a ws IH]; cbn [Rsum map]; [unfold Rdiv; lra|]. rewrite IH. unfold Rdiv. lra. Qed.

Section Gain.
Variables (N M r : nat) (eta lambda : R).
Hypothesis Heta : 0 < eta.
Hypothesis Hlam : 0 <= 2 * lambda <= eta.
Variable I : varset.
Local Notation step := (@hard_step XR r true (Fin eta) (Fin lambda) 1 [I]).

Definition gain (w : R) : R := eta / w - 2 * lambda * w.
Lemma gain_pos w : 0 < w <= 1 -> 0 <= gain w.
Proof.
  intros Hw. unfold gain. assert (eta <= eta / w). { unfold Rdiv. rewrite <- (Rmult_1_r eta) at 1. apply Rmult_le_compat_l; [lra|]. rewrite <- Rinv_1 at 1. apply Rinv_le_contravar; lra. }
  assert (2 * lambda * w <= 2 * lambda * 1) by (apply Rmult_le_compat_l; lra). lra.
Qed.

Lemma live_nonneg (n : network XR) : sums_nonempty n -> weights_live1 n r -> weights_nonneg n r.
Proof.
  intros HS HW u w Hu EK. destruct (HW u w Hu EK) as (ws & -> & L & Hp & _). split; [eapply HS; eauto|]. exists ws. split; auto. split; auto. intros x Hx. specialize (Hp x Hx). lra.
Qed.

Lemma hard_one_T (n n' : network XR) : hard_learnable n N M r -> leaves_answer n I r -> step n n' ->
  exists rnd f T, traceMAP n rnd f r I = Ok T /\
  forall u, n' u = n u /\ (forall j, ~ chosen_edge n T r u (Z.of_nat j)) \/ exists ws j w, reach (children n) r u /\ nk (n u) = @KSum XR (map Fin ws) /\ nth_error ws j = Some w /\ attains_at n N I u j /\
    n' u = mkNode (@KSum XR (map Fin (map (fun x => x / (1 + gain w)) (bump j (gain w) ws)))) (nch (n u)).
Proof.
  intros (Hb & Hr & Ha & Hs & HL & HS & Hne & HM & HW) HA (Ts & HT & G1 & G2).
  inversion HT as [|? T ? l0 (rnd & f & ET) HT0]; subst. inversion HT0; subst. clear HT HT0. exists rnd, f, T. split; auto. intros u.
  pose proof (live_nonneg n HS HW) as HW0. pose proof (trace_attains n N r I rnd f T Hb Hr Ha Hs HL HW0 HA ET) as HAt.
  destruct (classic (exists j, chosen_edge n T r u (Z.of_nat j))) as [(j & Hj)|Hno].
  2:{ left. split; [|intros j Hc; apply Hno; eauto]. apply G1. right. intros T' i [<-|[]] Hc. apply Hno. eauto. }
  right. pose proof Hj as (_ & (W & EK) & i0 & ETj & Ez). assert (i0 = j) by lia. subst i0. destruct (HAt u j ETj) as (Hu & At).
  destruct (HW u W Hu EK) as (ws & -> & Lw & Hp & Hsum). destruct (G2 u _ T j EK (or_introl eq_refl) Hj) as (W' & LW & En & HW').
  assert (Hw : exists w, nth_error ws j = Some w).
  { destruct At as (ws1 & w1 & c & x & E1 & _ & E2 & _). destruct (nth_error ws j) as [w|] eqn:E; eauto. apply nth_error_None in E.
    assert (j < length (nch (n u)))%nat by (apply nth_error_Some; congruence). lia. }
  destruct Hw as (w & Hw). exists ws, j, w. split; auto. split; auto. split; auto. split; auto.
  assert (w_in : In w ws) by (eapply nth_error_In; eauto). pose proof (Hp w w_in) as Hw0. pose proof (proj2 (rsum_ge ws Hp) w w_in) as Hw1. rewrite Hsum in Hw1.
  assert (EW : W' = map Fin (bump j (gain w) ws)).
  { apply nth_ext_error. intros i. rewrite nth_error_map, bump_nth. destruct (nth_error ws i) as [wi|] eqn:Ewi.
    - assert (E1 : nth_error (map Fin ws) i = Some (Fin wi)) by (rewrite nth_error_map, Ewi; reflexivity). destruct (HW' i (Fin wi) E1) as (k & Hk & Ek). etransitivity; [exact Ek|].
      inversion Hk as [|? ? n0 Hc Hk0|? ? n0 Hc Hk0]; subst; inversion Hk0; subst.
      + assert (i = j) by (destruct Hc as (_ & _ & i1 & Ei & Ez'); assert (i1 = i) by lia; congruence). subst i. rewrite Nat.eqb_refl. assert (wi = w) by congruence. subst wi. cbn [Nat.eqb option_map].
        unfold times. cbn [Nat.iter]. unfold fsub, fadd, fmul, fdiv, fz. cbn [XR xadd xsub xmul xdiv]. cbn. destruct (Req_EM_T (w * 1) 0); [lra|]. cbn. do 2 f_equal. unfold gain. field. lra.
      + destruct (Nat.eqb_spec i j) as [->|]; [contradiction|]. reflexivity.
    - assert (nth_error W' i = None) by (apply nth_error_None; rewrite LW, map_length; apply nth_error_None; auto). rewrite H. destruct (Nat.eqb i j); reflexivity. }
  pose proof (gain_pos w ltac:(lra)) as Hg.
  rewrite En. f_equal. f_equal. rewrite EW. rewrite (normalize_exact (bump j (gain w) ws)).
  - do 2 f_equal. rewrite (bump_sum _ _ _ _ Hw), Hsum. reflexivity.
  - intros x Hx. destruct (bump_ge _ _ Hg j x Hx) as (v & H1 & H2). specialize (Hp v H1). lra.
  - rewrite (bump_sum _ _ _ _ Hw), Hsum. lra.
Qed.

Lemma hard_one_real (n n' : network XR) : hard_learnable n N M r -> leaves_answer n I r -> step n n' ->
  forall u, n' u = n u \/ exists ws j w, reach (children n) r u /\ nk (n u) = @KSum XR (map Fin ws) /\ nth_error ws j = Some w /\ attains_at n N I u j /\
    n' u = mkNode (@KSum XR (map Fin (map (fun x => x / (1 + gain w)) (bump j (gain w) ws)))) (nch (n u)).
Proof. intros H1 H2 H3 u. destruct (hard_one_T n n' H1 H2 H3) as (rnd & f & T & _ & H). destruct (H u) as [[E _]|E]; auto. Qed.

(** The root, if it is a sum, is always changed. *)
Lemma hard_one_root (n n' : network XR) W : hard_learnable n N M r -> leaves_answer n I r -> step n n' -> nk (n r) = KSum W ->
  exists ws j w, nk (n r) = @KSum XR (map Fin ws) /\ nth_error ws j = Some w /\ attains_at n N I r j /\
    n' r = mkNode (@KSum XR (map Fin (map (fun x => x / (1 + gain w)) (bump j (gain w) ws)))) (nch (n r)).
Proof.
  intros H1 H2 H3 EK. destruct (hard_one_T n n' H1 H2 H3) as (rnd & f & T & ET & H). destruct (H r) as [[_ Hno]|(ws & j & w & _ & K)]; [|exists ws, j, w; exact K].
  exfalso. destruct (T r) as [j|] eqn:ETr; [|eapply (trace_root n rnd f r I T W); eauto; apply H1].
  apply (Hno j). split; [apply reach_refl|]. split; eauto.
Qed.

Lemma hard_one_keeps (n n' : network XR) : hard_learnable n N M r -> leaves_answer n I r -> step n n' ->
  hard_learnable n' N M r /\ only_weights r n n' /\ leaves_answer n' I r.
Proof.
  intros Hl HA St. pose proof (hard_one_real n n' Hl HA St) as HU. pose proof Hl as (Hb & Hr & Ha & Hs & HL & HS & Hne & HM & HW).
  assert (Ho : only_weights r n n').
  { split; intros u; destruct (HU u) as [E|(ws & j & w & Hu & EK & Ew & _ & E)]; rewrite E; auto. right. split; auto. exists (map Fin ws). eexists. split; auto. split; [reflexivity|].
    rewrite !map_length, bump_len. reflexivity. }
  pose proof (ow_children r n n' Ho) as Ech. split; [|split; auto].
  - unfold hard_learnable. rewrite !Ech. split; auto. split; auto. split; auto. split; auto.
    assert (Hk : forall u, nch (n' u) = nch (n u)) by apply Ho.
    split; [|split; [|split; [|split]]].
    + intros u l EK. rewrite Hk. destruct (proj2 Ho u) as [E|(_ & w & w' & _ & E & _)]; [|congruence]. apply (HL u l). congruence.
    + intros u w EK. rewrite Hk. destruct (proj2 Ho u) as [E|(_ & w0 & w' & E & _ & _)]; [apply (HS u w)|apply (HS u w0)]; congruence.
    + rewrite Hk. auto.
    + destruct HM as (H1 & H2). split; auto. intros u. rewrite Ech, Hk. intros Hu. destruct (H2 u Hu) as (H3 & H4). split; auto. intros w EK.
      destruct (proj2 Ho u) as [E|(_ & w0 & w' & E1 & E2 & E3)]; [apply H4; congruence|]. rewrite E2 in EK. injection EK as <-. rewrite E3. auto.
    + intros u w. rewrite Ech, Hk. intros Hu EK. destruct (HU u) as [E|(ws & j & w0 & _ & EK0 & Ew & _ & E)]; [apply HW; auto; congruence|].
      rewrite E in EK. cbn [nk] in EK. injection EK as <-. destruct (HW u _ Hu EK0) as (ws1 & E1 & L1 & P1 & S1). apply map_inj_Fin in E1. subst ws1.
      assert (Hw : 0 < w0 <= 1) by (pose proof (nth_error_In _ _ Ew); pose proof (proj2 (rsum_ge ws P1) w0 H); specialize (P1 w0 H); lra). pose proof (gain_pos w0 Hw) as Hg.
      eexists. split; [reflexivity|]. rewrite !map_length, bump_len. split; auto. split.
      * intros x Hx. apply in_map_iff in Hx. destruct Hx as (y & <- & Hy). destruct (bump_ge _ _ Hg j y Hy) as (v & H1 & H2). specialize (P1 v H1). apply Rdiv_lt_0_compat; lra.
      * rewrite rsum_div, (bump_sum _ _ _ _ Ew), S1. field. lra.
  - intros u l. rewrite Ech. intros Hu EK. apply (HA u l Hu). destruct (proj2 Ho u) as [E|(_ & w & w' & _ & E & _)]; congruence.
Qed.

Lemma pmax_ge (p : nat -> R) cs ws i c w : nth_error cs i = Some c -> nth_error ws i = Some w -> w * p c <= pmax p cs ws.
Proof.
  intros Hc Hw. unfold pmax. apply (proj1 (proj2 (Rmaxl_spec _ 0))). apply in_map_iff. exists (c, w). split; auto. apply nth_error_In with (n := i).
  revert ws i Hc Hw. induction cs as [|a cs IH]; intros [|b ws] [|i] Hc Hw; simpl in *; try discriminate; [congruence|auto].
Qed.
Lemma pmax_le (p p' : nat -> R) cs ws : (forall x, In x ws -> 0 <= x) -> (forall c, In c cs -> p c <= p' c) -> pmax p cs ws <= pmax p' cs ws.
Proof.
  intros Hw Hp. unfold pmax at 1. destruct (Rmaxl_spec (map (fun cw : nat * R => snd cw * p (fst cw)) (combine cs ws)) 0) as (_ & _ & [E|E]).
  - rewrite E. unfold pmax. apply (proj1 (Rmaxl_spec _ 0)).
  - apply in_map_iff in E. destruct E as ((c, w) & E & Hc). rewrite <- E. cbn [fst snd]. destruct (In_nth_error _ _ Hc) as (i & Hi).
    assert (Hn : nth_error cs i = Some c /\ nth_error ws i = Some w).
    { clear - Hi. revert ws i Hi. induction cs as [|a cs IH]; intros [|b ws] [|i] Hi; simpl in *; try discriminate; [injection Hi as <- <-; auto|auto]. }
    destruct Hn as [H1 H2]. eapply Rle_trans; [|apply (pmax_ge p' cs ws i c w H1 H2)]. apply Rmult_le_compat_l; [apply Hw|apply Hp]; eapply nth_error_In; eauto.
Qed.

Lemma live_max (n : network XR) : hard_learnable n N M r -> leaves_answer n I r -> forall u, reach (children n) r u ->
  max_ n N I u = Ok (xln (MX n N I u)) /\ 0 <= MX n N I u /\
  match nk (n u) with
  | KSum w => forall ws, w = map Fin ws -> MX n N I u = pmax (MX n N I) (nch (n u)) ws
  | KProd => MX n N I u = Rprod (map (MX n N I) (nch (n u)))
  | KLeaf l => MX n N I u = mleaf l I
  end.
Proof.
  intros (Hb & Hr & Ha & Hs & HL & HS & Hne & HM & HW) HA u Hu. apply (M_gen n N r Hb Hr Ha (live_nonneg n HS HW) I); auto.
  intros v l Hv E. destruct (HA v l Hv E) as (m & J & y & H1 & H2 & _). eauto.
Qed.

Lemma hard_one_raises (n n' : network XR) : hard_learnable n N M r -> leaves_answer n I r -> step n n' ->
  forall u, reach (children n) r u -> 0 <= MX n N I u <= MX n' N I u.
Proof.
  intros Hl HA St. destruct (hard_one_keeps n n' Hl HA St) as (Hl' & Ho & HA'). pose proof (hard_one_real n n' Hl HA St) as HU.
  pose proof (live_max n Hl HA) as G1. pose proof (live_max n' Hl' HA') as G2. rewrite (ow_children r n n' Ho) in G2.
  pose proof Hl as (Hb & Hr & Ha & _ & _ & HS & _ & _ & HW).
  apply (node_ind (children n) N r); auto. intros u Hu IH. destruct (G1 u Hu) as (V1 & P1 & E1). destruct (G2 u Hu) as (_ & P2 & E2). split; auto.
  destruct (HU u) as [E|(ws & j & w & _ & EK & Ew & At & E)].
  - rewrite E in E2. destruct (nk (n u)) as [w| |l] eqn:EK.
    + destruct (HW u w Hu EK) as (ws & -> & L & Hp & _). rewrite (E1 ws eq_refl), (E2 ws eq_refl). apply pmax_le; [intros x Hx; specialize (Hp x Hx); lra|]. intros c Hc. apply IH. auto.
    + rewrite E1, E2. apply rprod_le. apply forall2_same. intros c Hc. apply IH. auto.
    + lra.
  - rewrite E in E2. cbn [nk nch] in E2. rewrite (E2 _ eq_refl).
    destruct At as (ws0 & w0 & c & x & K1 & K2 & K3 & K4 & K5). rewrite EK in K1. injection K1 as <-. rewrite nth_error_map, Ew in K2. cbn in K2. injection K2 as <-.
    destruct (HW u _ Hu EK) as (ws1 & F1 & L1 & Hp & S1). apply map_inj_Fin in F1. subst ws1.
    assert (Hw : 0 < w <= 1) by (pose proof (nth_error_In _ _ Ew); pose proof (proj2 (rsum_ge ws Hp) w H); specialize (Hp w H); lra). pose proof (gain_pos w Hw) as Hg.
    assert (Hc : In c (children n u)) by (eapply nth_error_In; eauto). destruct (IH c Hc) as (Q1 & Q2).
    destruct (G1 c) as (V3 & _); [eapply reach_snoc; eauto|].
    assert (EM : MX n N I u = w * MX n N I c).
    { rewrite V3 in K4. injection K4 as <-. rewrite xlog_nonneg, xadd_xln in K5 by lra. unfold MX at 1. rewrite K5. apply lin_xln. apply Rmult_le_pos; lra. }
    assert (Hn : nth_error (map (fun x => x / (1 + gain w)) (bump j (gain w) ws)) j = Some ((w + gain w) / (1 + gain w))) by (rewrite nth_error_map, bump_nth, Nat.eqb_refl, Ew; reflexivity).
    eapply Rle_trans; [|apply (pmax_ge (MX n' N I) _ _ j c _ K3 Hn)]. rewrite EM.
    assert (w <= (w + gain w) / (1 + gain w)).
    { apply Rmult_le_reg_r with (1 + gain w); [lra|]. unfold Rdiv. rewrite Rmult_assoc, Rinv_l, Rmult_1_r by lra. assert (w * gain w <= 1 * gain w) by (apply Rmult_le_compat_r; lra). lra. }
    apply Rmult_le_compat; lra.
Qed.

Lemma chain_raises k : forall n n', hard_learnable n N M r -> leaves_answer n I r -> chain (fun _ : varset => step) (repeat I k) n n' ->
  hard_learnable n' N M r /\ leaves_answer n' I r /\ only_weights r n n' /\ 0 <= MX n N I r <= MX n' N I r.
Proof.
  induction k as [|k IH]; intros n n' Hl HA C; cbn [repeat] in C; inversion C as [|x l s s1 s2 St C']; subst.
  - split; auto. split; auto. split; [apply ow_refl|]. destruct (live_max n' Hl HA r (reach_refl _ _)) as (_ & H & _). lra.
  - destruct (hard_one_keeps n s1 Hl HA St) as (Hl1 & Ho1 & HA1). destruct (IH s1 n' Hl1 HA1 C') as (H1 & H2 & H3 & H4). split; auto. split; auto. split; [eapply ow_trans; eauto|].
    pose proof (hard_one_raises n s1 Hl HA St r (reach_refl _ _)). lra.
Qed.
End Gain.

(** ** GenerativeHardGD returns *)
(** ** Networks with one explanation *)
Section Selective.
Variables (N M r : nat) (I : varset).
Lemma psum_pmax (p : nat -> R) cs : forall ws, (forall c, In c cs -> 0 <= p c) -> (forall x, In x ws -> 0 <= x) ->
  (forall i j c c', i <> j -> nth_error cs i = Some c -> nth_error cs j = Some c' -> p c = 0 \/ p c' = 0) -> psum p cs ws = pmax p cs ws.
Proof.
  induction cs as [|c cs IH]; intros [|w ws] Hp Hw H1; try reflexivity. unfold psum, pmax. cbn [combine map Rsum fst snd].
  assert (IH' : psum p cs ws = pmax p cs ws).
  { apply IH; [intros; apply Hp; right; auto|intros; apply Hw; right; auto|]. intros i j a b Hij Hi Hj. apply (H1 (S i) (S j)); auto. }
  unfold psum, pmax in IH'. destruct (Req_dec (p c) 0) as [E|E].
  - rewrite E, Rmult_0_l, Rmult_0_r, Rplus_0_l. unfold Rmaxl at 1. cbn [fold_left]. destruct (Rlt_dec 0 0); [lra|]. exact IH'.
  - assert (Hz : forall x, In x (map (fun cw : nat * R => snd cw * p (fst cw)) (combine cs ws)) -> x = 0).
    { intros x Hx. apply in_map_iff in Hx. destruct Hx as ((c', w') & <- & Hx). cbn [fst snd]. apply in_combine_l in Hx. destruct (In_nth_error _ _ Hx) as (j & Hj).
      destruct (H1 0%nat (S j) c c' ltac:(lia) eq_refl Hj) as [|E']; [contradiction|]. rewrite E'. lra. }
    assert (E0 : Rmaxl (map (fun cw : nat * R => snd cw * p (fst cw)) (combine cs ws)) 0 = 0).
    { destruct (Rmaxl_spec (map (fun cw : nat * R => snd cw * p (fst cw)) (combine cs ws)) 0) as (_ & _ & [E'|E']); auto. }
    rewrite IH', E0. unfold Rmaxl at 1. cbn [fold_left]. fold (Rmaxl (map (fun cw : nat * R => snd cw * p (fst cw)) (combine cs ws)) (if Rlt_dec 0 (w * p c) then w * p c else 0)).
    assert (0 <= w * p c) by (apply Rmult_le_pos; [apply Hw; left; auto|apply Hp; left; auto]).
    set (a := if Rlt_dec 0 (w * p c) then w * p c else 0). assert (Ea : a = w * p c) by (unfold a; destruct (Rlt_dec 0 (w * p c)); lra).
    destruct (Rmaxl_spec (map (fun cw : nat * R => snd cw * p (fst cw)) (combine cs ws)) a) as (K1 & _ & [K2|K2]); [rewrite K2; lra|]. apply Hz in K2. lra.
Qed.

Lemma live_value (n : network XR) : hard_learnable n N M r -> leaf_values n I r -> forall u, reach (children n) r u ->
  value n N I u = Ok (xln (P n N I u)) /\ 0 <= P n N I u /\
  match nk (n u) with
  | KSum w => forall ws, w = map Fin ws -> P n N I u = psum (P n N I) (nch (n u)) ws
  | KProd => P n N I u = Rprod (map (P n N I) (nch (n u)))
  | KLeaf l => P n N I u = pleaf l I
  end.
Proof. intros (Hb & Hr & Ha & Hs & HL & HS & Hne & HM & HW) HV u Hu. apply (P_gen n N r Hb Hr Ha (live_nonneg r n HS HW) I); auto. Qed.

Lemma one_P (n : network XR) : hard_learnable n N M r -> leaf_values n I r -> leaves_answer n I r -> leaves_decided n I r -> one_explanation n N I r ->
  forall u, reach (children n) r u -> P n N I u = MX n N I u.
Proof.
  intros Hl HV HA HD H1. pose proof (live_value n Hl HV) as G1. pose proof (live_max N M r I n Hl HA) as G2. pose proof Hl as (Hb & Hr & Ha & _ & _ & HS & _ & _ & HW).
  apply (node_ind (children n) N r); auto. intros u Hu IH. destruct (G1 u Hu) as (_ & _ & E1). destruct (G2 u Hu) as (_ & _ & E2).
  assert (Hc : forall c, In c (nch (n u)) -> reach (children n) r c) by (intros c Hc; eapply reach_snoc; eauto).
  destruct (nk (n u)) as [w| |l] eqn:EK.
  - destruct (HW u w Hu EK) as (ws & -> & L & Hp & _). rewrite (E1 ws eq_refl), (E2 ws eq_refl). rewrite psum_pmax.
    + unfold pmax. f_equal. apply map_ext_in. intros (c, x) Hx. cbn [fst snd]. rewrite IH; auto. eapply in_combine_l; eauto.
    + intros c Hx. apply G1. auto.
    + intros x Hx. specialize (Hp x Hx). lra.
    + intros i j c c' Hij Hi Hj. assert (Z0 : forall c, In c (nch (n u)) -> value n N I c = Ok NInf -> P n N I c = 0) by (intros x Hx Ex; unfold P; rewrite Ex; reflexivity).
      destruct (H1 u _ i j c c' Hu EK Hij Hi Hj) as [E|E]; [left|right]; apply Z0; auto; eapply nth_error_In; eauto.
  - rewrite E1, E2. f_equal. apply map_ext_in. auto.
  - rewrite E1, E2. unfold pleaf, mleaf. rewrite (HD u l Hu EK). reflexivity.
Qed.

Lemma prod_zero l : Rprod l = 0 <-> In 0 l.
Proof. induction l as [|x l IH]; cbn [Rprod In]; [split; [lra|intros []]|]. rewrite <- IH. split; [intros H; apply Rmult_integral in H; destruct H; auto|intros [-> | ->]; lra]. Qed.
Lemma psum_zero (p : nat -> R) cs : forall ws, length ws = length cs -> (forall c, In c cs -> 0 <= p c) -> (forall x, In x ws -> 0 < x) -> (psum p cs ws = 0 <-> forall c, In c cs -> p c = 0).
Proof.
  unfold psum. induction cs as [|c cs IH]; intros [|w ws] L Hp Hw; try discriminate; cbn [combine map Rsum fst snd]; [split; [intros _ c []|auto]|].
  assert (Hw1 : forall x, In x ws -> 0 < x) by (intros; apply Hw; right; auto). assert (Hp1 : forall x, In x cs -> 0 <= p x) by (intros; apply Hp; right; auto).
  specialize (IH ws ltac:(cbn in L; lia) Hp1 Hw1). assert (0 < w) by (apply Hw; left; auto). assert (0 <= p c) by (apply Hp; left; auto).
  assert (0 <= p c * w) by (apply Rmult_le_pos; lra). assert (0 <= Rsum (map (fun cw : nat * R => p (fst cw) * snd cw) (combine cs ws))).
  { clear - Hw1 Hp1. revert ws Hw1. induction cs as [|a cs IH]; intros [|b ws] Hw1; cbn [combine map Rsum]; try lra. cbn [fst snd].
    assert (0 <= p a * b) by (apply Rmult_le_pos; [apply Hp1; left; auto|apply Rlt_le, Hw1; left; auto]). specialize (IH (fun c Hc => Hp1 c (or_intror Hc)) ws (fun c Hc => Hw1 c (or_intror Hc))). lra. }
  split.
  - intros E. assert (E1 : p c * w = 0) by lra. apply Rmult_integral in E1. intros x [<-|Hx]; [destruct E1; [auto|lra]|]. apply IH; auto. lra.
  - intros K. rewrite (K c (or_introl eq_refl)). rewrite (proj2 IH); [lra|]. intros x Hx. apply K. right. auto.
Qed.

(** Other positive weights leave the same values at zero. *)
Lemma same_zeros (n n' : network XR) : hard_learnable n N M r -> hard_learnable n' N M r -> only_weights r n n' -> leaf_values n I r ->
  forall u, reach (children n) r u -> (P n N I u = 0 <-> P n' N I u = 0).
Proof.
  intros Hl Hl' Ho HV. pose proof (leaf_values_ow r n n' I Ho HV) as HV'. pose proof (live_value n Hl HV) as G1. pose proof (live_value n' Hl' HV') as G2. pose proof (ow_children r n n' Ho) as Ech.
  rewrite Ech in G2. pose proof Hl as (Hb & Hr & Ha & _ & _ & _ & _ & _ & HW). pose proof Hl' as (_ & _ & _ & _ & _ & _ & _ & _ & HW'). unfold weights_live1 in HW'. rewrite Ech in HW'.
  apply (node_ind (children n) N r); auto. intros u Hu IH. destruct (G1 u Hu) as (_ & _ & E1). destruct (G2 u Hu) as (_ & _ & E2).
  assert (Hc : forall c, In c (nch (n u)) -> reach (children n) r c) by (intros c Hc; eapply reach_snoc; eauto). rewrite (proj1 Ho u) in E2.
  destruct (nk (n u)) as [w| |l] eqn:EK.
  - destruct (HW u w Hu EK) as (ws & -> & L & Hp & _). destruct (nk (n' u)) as [w'| |l'] eqn:EK'.
    + destruct (HW' u w' Hu EK') as (ws' & -> & L' & Hp' & _). rewrite (proj1 Ho u) in L'. rewrite (E1 ws eq_refl), (E2 ws' eq_refl).
      rewrite !psum_zero; auto; try (intros c Hx; apply G1 || apply G2; auto; fail). split; intros K c Hx; apply IH; auto.
    + exfalso. destruct (proj2 Ho u) as [E|(_ & a & b & _ & E & _)]; congruence.
    + exfalso. destruct (proj2 Ho u) as [E|(_ & a & b & _ & E & _)]; congruence.
  - assert (EK' : nk (n' u) = KProd) by (destruct (proj2 Ho u) as [E|(_ & a & b & E & _)]; congruence). rewrite EK' in E2. rewrite E1, E2, !prod_zero, !in_map_iff.
    split; intros (c & E & Hx); exists c; (split; [apply IH|]; auto).
  - assert (EK' : nk (n' u) = KLeaf l) by (destruct (proj2 Ho u) as [E|(_ & a & b & E & _)]; congruence). rewrite EK' in E2. rewrite E1, E2. reflexivity.
Qed.
Lemma one_keeps (n n' : network XR) : hard_learnable n N M r -> hard_learnable n' N M r -> only_weights r n n' -> leaf_values n I r -> one_explanation n N I r -> one_explanation n' N I r.
Proof.
  intros Hl Hl' Ho HV H1 u w i j c c'. pose proof (ow_children r n n' Ho) as Ech. rewrite Ech, (proj1 Ho u). intros Hu EK Hij Hi Hj.
  assert (EK0 : exists w0, nk (n u) = KSum w0) by (destruct (proj2 Ho u) as [E|(_ & a & b & E & _)]; [exists w; congruence|eauto]). destruct EK0 as (w0 & EK0).
  pose proof (live_value n' Hl' (leaf_values_ow r n n' I Ho HV)) as G2. rewrite Ech in G2. pose proof (same_zeros n n' Hl Hl' Ho HV) as HZ.
  assert (K : forall c i, nth_error (nch (n u)) i = Some c -> value n N I c = Ok NInf -> value n' N I c = Ok NInf).
  { intros x k Hk E. assert (Hr : reach (children n) r x) by (eapply reach_snoc; eauto; eapply nth_error_In; eauto). destruct (G2 x Hr) as (E2 & _). rewrite E2. rewrite (proj1 (HZ x Hr)).
    - unfold xln. destruct (Rlt_dec 0 0); [lra|reflexivity].
    - unfold P. rewrite E. reflexivity. }
  destruct (H1 u w0 i j c c' Hu EK0 Hij Hi Hj) as [E|E]; [left|right]; eauto.
Qed.
End Selective.

Section Total.
Variables (N M r : nat) (eta lambda : R).
Hypothesis Heta : 0 < eta.
Hypothesis Hlam : 0 <= 2 * lambda <= eta.
Variable I : varset.
Variable P : params XR.
Hypothesis HE : peta P = Fin eta.
Hypothesis HLm : plambda P = Fin lambda.
Hypothesis Hnrm : pnorm P = true.
Variable net0 : network XR.
Hypothesis Hl0 : hard_learnable net0 N M r.
Hypothesis HA0 : leaves_answer net0 I r.
Hypothesis HV0 : leaf_values net0 I r.
Variables (ordP : nat -> nat -> (Z -> option (F XR)) -> list (Z * F XR)) (rnd : nat -> nat -> nat -> nat).
Hypothesis HP : ranges_entries M ordP.
Hypothesis Hrnd : forall c i n, (0 < n)%nat -> (rnd c i n < n)%nat.
(** A loop over the nodes in the order of their numbers. *)
Definition byNumber (occ : nat) (K : nat -> bool) : list nat := filter K (seq 0 N).
Lemma byNumber_ranges : ranges_nodes N byNumber.
Proof.
  intros occ K HK. split; [apply NoDup_filter, seq_NoDup|]. intros x. unfold byNumber. rewrite filter_In, in_seq. split; [tauto|]. intros H. split; auto. specialize (HK x H). lia.
Qed.
Local Notation step := (@hard_step XR r true (Fin eta) (Fin lambda) 1 [I]).
Local Notation KS := (KS r M net0).

Lemma hgd_returns s : KS s -> hard_learnable (tnet s) N M r -> leaves_answer (tnet s) I r ->
  exists s', @hgdInstance XR ordP rnd (2 * N + 1) (S N) r P s I = Ok s' /\ step (tnet s) (tnet s') /\ KS s'.
Proof.
  intros HK Hl HA. pose proof HK as (Ho & HKH). pose proof Hl as (Hb & Hr & Ha & Hs & HL & HS & Hne & HM & HW). pose proof Hl0 as (Hb0 & _ & _ & _ & HL0 & _ & _ & HM0 & _).
  pose proof (leaf_values_ow r net0 (tnet s) I Ho HV0) as HV. pose proof HKH as (_ & HG & Hsok & _). pose proof HG as ((ops & Hst) & HT).
  set (n := tnet s) in *.
  assert (E : exists s', @hgdInstance XR ordP rnd (2 * N + 1) (S N) r P s I = Ok s').
  2:{ destruct E as (s' & E). exists s'. split; auto.
      destruct (hgd_step r N M net0 HM0 Hb0 Hr HL0 byNumber ordP byNumber_ranges HP rnd (2 * N + 1) P s I s' HK E) as (H1 & H2). rewrite HE, HLm, Hnrm in H1. auto. }
  unfold hgdInstance. fold n.
  destruct (@storeInference_l XR n N r I 1 (tst s) ops Hst Hb Hr Ha Hs HL HS Hne (fun _ => HT _ ltac:(simpl; auto))) as [[HPn _]|(st1 & tk1 & E1 & _)].
  { destruct (P_gen n N r Hb Hr Ha (live_nonneg r n HS HW) I HV r (reach_refl _ _)) as (Ev & _). rewrite Ev in HPn. discriminate. }
  rewrite E1. cbn [bind fst].
  destruct (traceMAP_l n N r I (rnd (tcnt s)) Hb Hr Ha Hs HL (live_nonneg r n HS HW) HA (Hrnd (tcnt s))) as (T & ET & _).
  assert (HG1 : good [0; 1]%Z st1).
  { refine (good_call _ (tst s) 1%Z st1 HG _). intros K1 K2. exact (kept_storeInference n r _ _ I 1%Z (tst s) st1 _ ltac:(lia) K1 K2 E1). }
  pose proof HG1 as ((ops1 & Hst1) & HT1).
  destruct (hard_counts_l n T N r (rnd (tcnt s)) (2 * N + 1) I st1 ops1 0 Hst1 Hb Hr (fun _ => HT1 0%Z ltac:(simpl; auto)) ET) as (st2 & E2 & _). cbn [Z.ltb Z.compare] in E2.
  rewrite E2. cbn [bind fst].
  destruct (hard_one r N M net0 HM0 Hb0 Hr rnd (2 * N + 1) n [] s I st1 _ st2 _ Ho HKH E1 E2) as (T' & ET' & HKT). assert (T' = T) by congruence. subst T'. destruct (HKT 0%nat) as [(_ & _ & Hs2 & _ & HC) _]. cbn [tst app] in *.
  rewrite (applyHGD_range r N M net0 Hb0 Hr HL0 byNumber ordP byNumber_ranges HP (peta P) (plambda P) 0 (pnorm P) 1 (tcnt s) (tcnt s) st2 n Ho Hs2).
  unfold applyFastHGD, applyRange. set (t := fst (table (F XR) st2 0)).
  destruct (byNumber_ranges (tcnt s) (keysOf st2 t)) as [A1 A2]; [intros x Hx; apply (HB0 r N net0 Hb0 Hr); eapply keys_below; eauto|].
  destruct (local_cases (rangeNode ordP (hardStep (peta P) (plambda P) 1) (pnorm P) (tcnt s) st2 t) (gR ordP (hardStep (peta P) (plambda P) 1) (pnorm P) (tcnt s) st2 t)
    (rangeNode_local ordP _ _ _ _ _) (gR_nofuel _ _ _ _ _ _) n (byNumber (tcnt s) (keysOf st2 t)) A1) as [(n1 & -> & _)|[(x & _ & Hx) _]]; [eexists; reflexivity|].
  exfalso. unfold gR in Hx. destruct (nk (n x)) as [W| |] eqn:EK; try discriminate. destruct (fst (tValue (F XR) st2 t x)) as [m|] eqn:Em; try discriminate.
  destruct Hs2 as (_ & Hs2). destruct (HP (tcnt s) x (mheap _ st2 m) (Hs2 m)) as [B1 B2].
  destruct (rangeWeights_cases (hardStep (peta P) (plambda P) 1) _ (mheap _ st2 m) W B1 B2) as [[_ E3]|[(i & v & Hv & Hi) _]]; [rewrite E3 in Hx; discriminate|].
  destruct (HC x i) as (k & Hk & Ek). rewrite sEntry_cval in Ek. unfold t in Em. rewrite tValue_cnode in Em. unfold cval in Ek. rewrite Em in Ek. rewrite Hv in Ek.
  destruct k as [|k]; [discriminate|]. inversion Hk as [|? ? n0 Hc Hk0|? ? n0 Hc Hk0]; subst; [|inversion Hk0].
  destruct Hc as (Hx' & _ & j & Hj & ->). destruct (proj2 (traceMAP_rec n (rnd (tcnt s)) (2 * N + 1) r I T ET x j Hj)) as (c & Hc).
  assert (Hjl : (j < length (nch (n x)))%nat) by (apply nth_error_Some; congruence).
  assert (Hrx : reach (children n) r x). { clear -Hx'. induction Hx'; [apply reach_refl|]. eapply reach_step; [apply (followed_sub n T)|]; eauto. }
  destruct (HW x W Hrx EK) as (ws & -> & L & _). apply Hi. rewrite map_length. lia.
Qed.

Lemma hard_training_chain : exists net', @generativeHardGD XR ordP rnd (2 * N + 1) (S N) r P [I] net0 = Ok net' /\ chain (fun _ : varset => step) (repeat I (Z.to_nat (piter P))) net0 net'.
Proof.
  unfold generativeHardGD.
  destruct (chain_epochs P (foldr_ (@hgdInstance XR ordP rnd (2 * N + 1) (S N) r P) [I]) (@tnet XR) (fun _ : varset => step) (fun s => KS s /\ hard_learnable (tnet s) N M r /\ leaves_answer (tnet s) I r) [I]) with (s := @start XR 2 net0) as (s' & E & H1 & H2).
  - intros s Hs. apply chain_fold; auto. intros J s1 [<-|[]] (K1 & K2 & K3). destruct (hgd_returns s1 K1 K2 K3) as (s2 & E & St & K). exists s2. split; auto. split; auto. split; auto.
    destruct (hard_one_keeps N M r eta lambda Heta Hlam I _ _ K2 K3 St) as (G1 & _ & G2). auto.
  - split; [apply KS_start|]. auto.
  - rewrite E. cbn [bind]. assert (EC : concat (repeat [I] (Z.to_nat (piter P))) = repeat I (Z.to_nat (piter P))) by (clear; induction (Z.to_nat (piter P)) as [|k IH]; [reflexivity|]; cbn [repeat concat app]; f_equal; exact IH).
    rewrite EC in H1. eauto.
Qed.
Lemma hard_training_l : exists net' m m', @generativeHardGD XR ordP rnd (2 * N + 1) (S N) r P [I] net0 = Ok net' /\ only_weights r net0 net' /\ hard_learnable net' N M r /\
  max_ net0 N I r = Ok (xln m) /\ max_ net' N I r = Ok (xln m') /\ 0 <= m <= m'.
Proof.
  destruct hard_training_chain as (net' & E & C). destruct (chain_raises N M r eta lambda Heta Hlam I _ _ _ Hl0 HA0 C) as (G1 & G2 & G3 & G4).
  exists net', (MX net0 N I r), (MX net' N I r). split; auto. split; auto. split; auto. split; [|split; auto]; apply (live_max N M r I); auto; apply reach_refl.
Qed.
Lemma selective_training_l : leaves_decided net0 I r -> one_explanation net0 N I r ->
  exists net' p p', @generativeHardGD XR ordP rnd (2 * N + 1) (S N) r P [I] net0 = Ok net' /\ value net0 N I r = Ok (xln p) /\ value net' N I r = Ok (xln p') /\ 0 <= p <= p'.
Proof.
  intros HD H1. destruct hard_training_chain as (net' & E & C). destruct (chain_raises N M r eta lambda Heta Hlam I _ _ _ Hl0 HA0 C) as (G1 & G2 & G3 & G4).
  pose proof (leaf_values_ow r _ _ I G3 HV0) as HV'. pose proof (one_keeps N M r I net0 net' Hl0 G1 G3 HV0 H1) as H1'.
  assert (HD' : leaves_decided net' I r).
  { intros u l. rewrite (ow_children r net0 net' G3). intros Hu EK. apply (HD u l Hu). destruct (proj2 G3 u) as [E'|(_ & a & b & _ & E' & _)]; congruence. }
  exists net', (ProbLemmas.P net0 N I r), (ProbLemmas.P net' N I r). split; auto. split; [apply (live_value N M r I net0 Hl0 HV0); apply reach_refl|]. split; [apply (live_value N M r I net' G1 HV'); apply reach_refl|].
  rewrite (one_P N M r I net0 Hl0 HV0 HA0 HD H1 r (reach_refl _ _)), (one_P N M r I net' G1 HV' G2 HD' H1' r (reach_refl _ _)). auto.
Qed.
End Total.
