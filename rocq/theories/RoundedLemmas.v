From Coq Require Import QArith Qabs Qreals Reals Lra.
From Verif Require Import Base Res Arith LogMath LogSpec LogLemmas GraphSpec GraphLemmas Topo TopoLemmas Spn Leaves ProbSpec ProbLemmas Codec Serial SerialSpec CodecLemmas SerialLemmas SerialCases RoundedSpec.
Local Open Scope R_scope.

Section Close.
Variable eta : R.
Hypothesis He : 0 <= eta < 1.
Definition close (n : nat) (a b : R) : Prop := (1 - eta) ^ n * a <= b <= (1 + eta) ^ n * a.

Lemma close_0 a : close 0 a a.
Proof. unfold close. simpl. lra. Qed.
Lemma close_nonneg n a b : 0 <= a -> close n a b -> 0 <= b.
Proof. intros Ha (H & _). assert (0 <= (1 - eta) ^ n) by (apply pow_le; lra). pose proof (Rmult_le_pos _ _ H0 Ha). lra. Qed.
Lemma close_more n n' a b : (n <= n')%nat -> 0 <= a -> close n a b -> close n' a b.
Proof.
  intros Hn Ha (H1 & H2). split.
  - apply Rle_trans with ((1 - eta) ^ n * a); auto. apply Rmult_le_compat_r; auto.
    replace n' with (n + (n' - n))%nat by lia. rewrite pow_add. assert (0 <= (1 - eta) ^ n) by (apply pow_le; lra).
    assert (0 <= (1 - eta) ^ (n' - n) <= 1). { split; [apply pow_le; lra|]. pose proof (pow_incr (1 - eta) 1 (n' - n) ltac:(lra)) as Q. rewrite pow1 in Q. auto. }
    rewrite <- (Rmult_1_r ((1 - eta) ^ n)) at 2. apply Rmult_le_compat_l; tauto.
  - apply Rle_trans with ((1 + eta) ^ n * a); auto. apply Rmult_le_compat_r; auto. apply Rle_pow; [lra|auto].
Qed.
Lemma close_mult n n' a b a' b' : 0 <= a -> 0 <= a' -> close n a b -> close n' a' b' -> close (n + n') (a * a') (b * b').
Proof.
  intros Ha Ha' H H'. pose proof (close_nonneg _ _ _ Ha H) as Hb. pose proof (close_nonneg _ _ _ Ha' H') as Hb'. destruct H as (H1 & H2), H' as (H3 & H4).
  assert (0 <= (1 - eta) ^ n * a) by (apply Rmult_le_pos; auto; apply pow_le; lra). assert (0 <= (1 - eta) ^ n' * a') by (apply Rmult_le_pos; auto; apply pow_le; lra).
  unfold close. rewrite !pow_add. split.
  - replace ((1 - eta) ^ n * (1 - eta) ^ n' * (a * a')) with (((1 - eta) ^ n * a) * ((1 - eta) ^ n' * a')) by ring. apply Rmult_le_compat; auto.
  - replace ((1 + eta) ^ n * (1 + eta) ^ n' * (a * a')) with (((1 + eta) ^ n * a) * ((1 + eta) ^ n' * a')) by ring. apply Rmult_le_compat; auto.
Qed.
Lemma close_prod (p q : nat -> R) m cs : (forall c, In c cs -> 0 <= p c /\ close (m c) (p c) (q c)) ->
  0 <= Rprod (map p cs) /\ close (fold_right Nat.add 0%nat (map m cs)) (Rprod (map p cs)) (Rprod (map q cs)).
Proof.
  induction cs as [|c cs IH]; intros H; [cbn; split; [lra|apply close_0]|]. cbn [map fold_right Rprod]. destruct (H c (or_introl eq_refl)) as (H1 & H2).
  destruct (IH (fun d Hd => H d (or_intror Hd))) as (H3 & H4). split; [apply Rmult_le_pos; auto|]. apply close_mult; auto.
Qed.
Lemma close_psum (p q : nat -> R) n cs : (forall c, In c cs -> 0 <= p c /\ close n (p c) (q c)) -> forall ws vs, length ws = length cs -> Forall2 (fun w v => 0 <= w /\ close 1 w v) ws vs ->
  0 <= psum p cs ws /\ close (S n) (psum p cs ws) (psum q cs vs).
Proof.
  intros H ws vs L F. unfold psum. revert cs H L. induction F as [|w v ws vs (Hw & Hv) F IH]; intros [|c cs] H L; try discriminate; [cbn; unfold close; lra|].
  cbn [combine map Rsum fst snd]. destruct (H c (or_introl eq_refl)) as (H1 & H2). destruct (IH cs (fun d Hd => H d (or_intror Hd)) ltac:(cbn in L; lia)) as (H3 & H4).
  pose proof (close_mult _ _ _ _ _ _ H1 Hw H2 Hv) as (H5 & H6). replace (n + 1)%nat with (S n) in * by lia. destruct H4. split; [pose proof (Rmult_le_pos _ _ H1 Hw); lra|].
  unfold close. lra.
Qed.
End Close.

Section Loaded.
Variable exact : F XR -> num.
Variable near : num -> F XR.
Variables (del lo : R).
Variable logProb : F XR -> F XR -> F XR -> F XR.
Variables trunc round : F XR -> Z.
Hypothesis RR : reads_rationals exact near del.
Hypothesis Hlp : forall mu sigma x, logval (logProb mu sigma x).
Hypothesis Hlo : 0 < lo.
Local Notation eta := ((5 / 10000000 + del) / lo).
Hypothesis Heta : eta < 1.
Local Notation K := (kind_of logProb trunc round).
Local Notation re := (recontent exact near).

Lemma del_nonneg : 0 <= del.
Proof. destruct RR as (_ & H & _). destruct (H 0%Z) as (x & _ & Hx). pose proof (Rabs_pos (x - Q2R (sixth 0))). lra. Qed.
Lemma eta_range : 0 <= eta < 1.
Proof. split; auto. pose proof del_nonneg. unfold Rdiv at 1. apply Rmult_le_pos; [lra|]. left. apply Rinv_0_lt_compat. auto. Qed.
Lemma scaled_zero q : Q2R q = 0 -> scaled q = 0%Z.
Proof.
  intros H. assert (E : (q == 0)%Q) by (apply eqR_Qeq; rewrite H; unfold Q2R; simpl; lra). unfold Qeq in E. cbn in E. assert (Z0 : Qnum q = 0%Z) by lia.
  unfold scaled. rewrite Z0. reflexivity.
Qed.
Lemma reread_close w : zero_or_above exact lo w -> exists a b, w = Fin a /\ reread exact near w = Fin b /\ 0 <= a /\ close eta 1 a b.
Proof.
  intros (q & E & Hq). destruct RR as (R1 & R2 & R3). exists (Q2R q). unfold reread. rewrite E. destruct Hq as [Hq|Hq].
  - rewrite (scaled_zero q Hq). exists 0. rewrite Hq. split; [rewrite (R1 w q E), Hq; auto|]. split; auto. split; [lra|]. unfold close. lra.
  - destruct (R2 (scaled q)) as (x & Ex & Hx). exists x. split; auto. split; auto. split; [lra|].
    pose proof (scaled_close q) as C. apply Qabs_Qle_condition in C as (C1 & C2). apply Qle_Rle in C1, C2. rewrite Q2R_minus in C1, C2. rewrite Q2R_opp in C1.
    assert (E5 : Q2R (5 # 10000000) = 5 / 10000000) by (unfold Q2R; simpl; lra). rewrite E5 in C1, C2. apply Rabs_def2 in Hx || idtac.
    assert (Hx' : - del <= x - Q2R (sixth (scaled q)) <= del). { split; [|pose proof (Rle_abs (x - Q2R (sixth (scaled q)))); lra]. pose proof (Rle_abs (- (x - Q2R (sixth (scaled q))))). rewrite Rabs_Ropp in H. lra. }
    assert (He : 5 / 10000000 + del <= eta * Q2R q). { pose proof del_nonneg. replace (5 / 10000000 + del) with (eta * lo) at 1 by (field; lra). apply Rmult_le_compat_l; [apply eta_range|auto]. }
    unfold close. rewrite !pow_1. lra.
Qed.
Lemma reread_list w : Forall (zero_or_above exact lo) w -> exists ws vs, w = map Fin ws /\ map (reread exact near) w = map Fin vs /\ Forall2 (fun a b => 0 <= a /\ close eta 1 a b) ws vs.
Proof.
  induction 1 as [|x l Hx _ (ws & vs & E1 & E2 & F)]; [exists [], []; auto|]. destruct (reread_close x Hx) as (a & b & -> & Eb & Ha & Hc).
  exists (a :: ws), (b :: vs). cbn [map]. rewrite Eb, E2, E1. auto.
Qed.

Section Net.
Variables (cont : nat -> content XR) (ch : graph) (N r : nat) (m : nat -> nat) (I : varset).
Hypothesis HB : bounded ch N.
Hypothesis Hr : (r < N)%nat.
Hypothesis HA : acyclic ch.
Hypothesis HP : parameters_above exact lo cont ch r.
Hypothesis HM : counts_parameters cont ch r m.
Hypothesis HI : within_categories cont ch r I.
Local Notation net := (network_of K cont ch).
Local Notation net' := (network_of K (fun u => re (cont u)) ch).

Lemma sum_nonneg_old : weights_nonneg net r.
Proof.
  intros u w R Ek. specialize (HP u R). cbn in Ek. destruct (cont u); try discriminate. injection Ek as ->. destruct HP as (Hne & L & F). split; auto.
  destruct (reread_list _ F) as (ws & vs & E1 & E2 & F2). exists ws. split; auto. split; [cbn; rewrite <- L, E1, map_length; auto|].
  intros x Hx. clear -F2 Hx. induction F2 as [|a b ws vs (Ha & _) F2 IH]; [destruct Hx|destruct Hx as [<-|Hx]; auto].
Qed.
Lemma sum_nonneg_new : weights_nonneg net' r.
Proof.
  intros u w R Ek. specialize (HP u R). cbn in Ek. destruct (cont u) as [w0| | | |] eqn:Ec; try discriminate. cbn in Ek. injection Ek as <-. destruct HP as (Hne & L & F). split; auto.
  destruct (reread_list _ F) as (ws & vs & E1 & E2 & F2). exists vs. split; auto. split.
  - cbn. rewrite <- L. apply (f_equal (@length _)) in E2. rewrite !map_length in E2. auto.
  - intros x Hx. clear -F2 Hx RR Hlo Heta. induction F2 as [|a b ws vs (Ha & Hc) F2 IH]; [destruct Hx|destruct Hx as [<-|Hx]; auto]. eapply (close_nonneg _ eta_range); eauto.
Qed.
Lemma leaf_close u l l' : reach ch r u -> nk (net u) = KLeaf l -> nk (net' u) = KLeaf l' ->
  (exists x, lvalue l I = Some x /\ logval x) /\ (exists x, lvalue l' I = Some x /\ logval x) /\ close eta (m u) (pleaf l I) (pleaf l' I).
Proof.
  intros R E E'. pose proof (HP u R) as Hp. pose proof (HM u R) as Hm. cbn [network_of nk] in E, E'. destruct (cont u) as [w| |mm|x v|x mu sigma] eqn:Ec; try discriminate; cbn [kind_of recontent] in E, E';
    (assert (X : forall a b : leaf XR, KLeaf a = KLeaf b -> a = b) by congruence); apply X in E, E'; subst l l'; clear X.
  - destruct (reread_list _ Hp) as (ws & vs & E1 & E2 & F2). unfold pleaf, multiLeaf, lvalue, multiValue. cbn [m_varid m_pr m_modev]. rewrite E2.
    destruct (I (m_varid mm)) as [v|] eqn:Ev.
    + pose proof (HI u mm v R Ec Ev) as Hv. rewrite E1 in *. rewrite map_length in Hv.
      assert (L : length vs = length ws) by (clear -F2; induction F2; cbn; auto).
      rewrite !prAt_ok by (rewrite ?L; auto). cbn [option_map]. change (@flog XR) with xlog.
      assert (Hc : 0 <= nth (Z.to_nat v) ws 0 /\ close eta 1 (nth (Z.to_nat v) ws 0) (nth (Z.to_nat v) vs 0)).
      { assert (Hn : (Z.to_nat v < length ws)%nat) by lia. clear -F2 Hn. revert Hn. generalize (Z.to_nat v) as n. induction F2 as [|a b ws vs H F2 IH]; intros n Hn; cbn in Hn; [lia|]. destruct n as [|n]; cbn; auto. apply IH. lia. }
      destruct Hc as (Ha & Hc). pose proof (close_nonneg eta eta_range _ _ _ Ha Hc) as Hb. rewrite !xlog_nonneg by auto. split; [eexists; split; [reflexivity|apply logval_xln]|]. split; [eexists; split; [reflexivity|apply logval_xln]|].
      rewrite !lin_xln by auto. eapply (close_more eta eta_range 1); auto.
    + split; [eexists; split; [reflexivity|exact Logic.I]|]. split; [eexists; split; [reflexivity|exact Logic.I]|]. eapply (close_more eta eta_range 0); [lia|apply lin_nonneg|apply close_0].
  - assert (Hl : logval (@indValue XR x v I)) by (unfold indValue; destruct (I x) as [y|]; [destruct (y =? v)%Z|]; exact Logic.I).
    split; [eexists; split; [reflexivity|auto]|]. split; [eexists; split; [reflexivity|auto]|]. eapply (close_more eta eta_range 0); [lia|apply lin_nonneg|apply close_0].
  - assert (Hl : logval (gaussValue logProb trunc x mu sigma I)).
    { unfold gaussValue. destruct (feq sigma (fz 0)); [unfold zeroSigma; destruct (I x) as [y|]; [destruct (y =? trunc mu)%Z|]; exact Logic.I|]. destruct (I x); [apply Hlp|exact Logic.I]. }
    split; [eexists; split; [reflexivity|auto]|]. split; [eexists; split; [reflexivity|auto]|]. eapply (close_more eta eta_range 0); [lia|apply lin_nonneg|apply close_0].
Qed.
Lemma both_leaves u l : nk (net u) = KLeaf l -> exists l', nk (net' u) = KLeaf l'.
Proof. cbn. destruct (cont u); cbn; intros; try discriminate; eauto. Qed.
Lemma both_leaves' u l : nk (net' u) = KLeaf l -> exists l', nk (net u) = KLeaf l'.
Proof. cbn. destruct (cont u); cbn; intros; try discriminate; eauto. Qed.

Lemma values_close : forall u, reach ch r u ->
  value net N I u = Ok (xln (P net N I u)) /\ value net' N I u = Ok (xln (P net' N I u)) /\ 0 <= P net N I u /\ close eta (m u) (P net N I u) (P net' N I u).
Proof.
  pose proof (P_gen net N r HB Hr HA sum_nonneg_old I
    (fun u l R E => match both_leaves u l E with ex_intro _ l' E' => proj1 (leaf_close u l l' R E E') end)) as G1.
  pose proof (P_gen net' N r HB Hr HA sum_nonneg_new I
    (fun u l R E => match both_leaves' u l E with ex_intro _ l' E' => proj1 (proj2 (leaf_close u l' l R E' E)) end)) as G2.
  apply (node_ind ch N r); auto. intros u R IH. destruct (G1 u R) as (V1 & N1 & E1). destruct (G2 u R) as (V2 & N2 & E2). split; auto. split; auto. split; auto.
  pose proof (HP u R) as Hp. pose proof (HM u R) as Hm. destruct (nk (net u)) as [w| |l] eqn:Ek.
  - cbn in Ek. destruct (cont u) as [w0| | | |] eqn:Ec; cbn in Ek; try discriminate. injection Ek as ->.
    destruct Hp as (Hne & L & F). destruct (reread_list _ F) as (ws & vs & Ew & Ev & F2). cbn in E2. rewrite Ec in E2. cbn in E2.
    rewrite (E1 ws Ew), (E2 vs Ev). cbn [network_of nch]. destruct (m u) as [|k] eqn:Em.
    { destruct (ch u) as [|c cs] eqn:Eh; [congruence|]. specialize (Hm c (or_introl eq_refl)). lia. }
    eapply (close_psum eta eta_range); [|rewrite <- L, Ew, map_length; auto|auto].
    intros c Hc. destruct (IH c Hc) as (_ & _ & Hn & Hcl). split; auto. eapply (close_more eta eta_range (m c)); auto. specialize (Hm c Hc). lia.
  - cbn in Ek. destruct (cont u) as [w0| | | |] eqn:Ec; cbn in Ek; try discriminate. cbn in E2. rewrite Ec in E2. cbn in E2. rewrite E1, E2. cbn [network_of nch].
    destruct (close_prod eta eta_range (P net N I) (P net' N I) m (ch u)) as (Hn & Hcl); [intros c Hc; destruct (IH c Hc) as (_ & _ & A & B); auto|].
    eapply (close_more eta eta_range); [exact Hm|auto|auto].
  - destruct (both_leaves u l Ek) as (l' & Ek'). rewrite Ek' in E2. rewrite E1, E2. apply (leaf_close u l l' R Ek Ek').
Qed.
End Net.
End Loaded.

(** What is loaded computes what the network with re-read contents computes. *)
Lemma loaded_value {A : arith} (exact : F A -> num) (near : num -> F A) K cont ch N r : bounded ch N -> (r < N)%nat -> (Z.of_nat N < 2 ^ 32)%Z ->
  (forall u, reach ch r u -> ints_ok (cont u)) -> acyclic ch -> siblings_ok ch ->
  exists m h r', marshal exact cont ch (2 * N + 1) r = Ok m /\ unmarshal near m = Ok (h, Some r') /\
    forall net', describes K h net' -> forall fuel I, value net' fuel I r' = value (network_of K (fun u => recontent exact near (cont u)) ch) fuel I r.
Proof.
  intros HB Hr HN HI HA HS. destruct (tarjan_order_full ch N r HB Hr HA HS) as (l & HT & HD).
  destruct (roundtrip_copy exact near cont ch N r l HB Hr HN HI HT HD) as (m & h & r' & Hm & Hu & _ & f & -> & Hinj & Hf).
  exists m, h, (f r). split; auto. split; auto. intros net' HD' fuel I. set (net := network_of _ _ ch).
  apply (value_rename net net' f r); [|constructor]. intros u Hu'. destruct (Hf u Hu') as (c' & E & ->). cbn. apply HD'. rewrite E, map_map. reflexivity.
Qed.

Lemma saved_close_l exact near del lo (logProb : F XR -> F XR -> F XR -> F XR) (trunc round : F XR -> Z) cont ch N r m : reads_rationals exact near del -> (forall mu sigma x, logval (logProb mu sigma x)) -> 0 < lo -> (5 / 10000000 + del) / lo < 1 ->
  bounded ch N -> (r < N)%nat -> (Z.of_nat N < 2 ^ 32)%Z -> (forall u, reach ch r u -> ints_ok (cont u)) -> acyclic ch -> siblings_ok ch ->
  parameters_above exact lo cont ch r -> counts_parameters cont ch r m ->
  exists msg h r', marshal exact cont ch (2 * N + 1) r = Ok msg /\ unmarshal near msg = Ok (h, Some r') /\
    forall net', describes (kind_of logProb trunc round) h net' -> forall I, within_categories cont ch r I ->
    exists p p', value (network_of (kind_of logProb trunc round) cont ch) N I r = Ok (xln p) /\ value net' N I r' = Ok (xln p') /\ 0 <= p /\
      (1 - (5 / 10000000 + del) / lo) ^ m r * p <= p' <= (1 + (5 / 10000000 + del) / lo) ^ m r * p.
Proof.
  intros RR Hlp Hlo He HB Hr HN HI HA HS HP HM. destruct (loaded_value exact near (kind_of logProb trunc round) cont ch N r HB Hr HN HI HA HS) as (msg & h & r' & E1 & E2 & Hv).
  exists msg, h, r'. split; auto. split; auto. intros net' Hd I Hin. eexists _, _. rewrite (Hv net' Hd).
  destruct (values_close exact near del lo logProb trunc round RR Hlp Hlo He cont ch N r m I HB Hr HA HP HM Hin r (reach_refl _ _)) as (V1 & V2 & Hn & Hc). rewrite V1, V2. split; [reflexivity|]. split; [reflexivity|]. auto.
Qed.
