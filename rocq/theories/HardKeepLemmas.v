(** Hard learning with normalisation keeps the weights of every sum a distribution, and comes to an end. *)
From Coq Require Import Reals Lra Lia Classical FunctionalExtensionality.
From Verif Require Import Base Res Arith LogMath LogSpec LogLemmas GraphSpec GraphLemmas Topo TopoLemmas Search SearchLemmas
  Storer StorerSpec StorerLemmas Spn DP SpnSpec SpnLemmas Leaves ProbSpec ProbLemmas Walk WalkLemmas
  Struct StructSpec StructLemmas MapSpec MapLemmas Derive DeriveSpec DiffLemmas DeriveLemmas GradLemmas StepLemmas Hard HardSpec HardLemmas PipeLemmas
  Train TrainSpec TrainRange TrainKeep TrainShape TrainAll TrainKept TrainGrad TrainSteps TrainBatch TrainHard TrainOne TrainProps GainLemmas HardGainSpec HardGainLemmas PoonSpec PoonLearnSpec HardKeepSpec BelowLemmas.
Local Open Scope R_scope.

Lemma times_x n : @times XR n = Fin (INR n).
Proof.
  induction n as [|n IH]; [reflexivity|]. unfold times in *. cbn [Nat.iter nat_rect]. change (xadd (@times XR n) (Fin 1) = Fin (INR (S n))). unfold times. rewrite IH. cbn [xadd]. rewrite S_INR. reflexivity.
Qed.
Lemma all_fin (W : list xreal) : (forall x, In x W -> exists v, x = Fin v /\ 0 < v) -> exists ws, W = map Fin ws /\ forall x, In x ws -> 0 < x.
Proof.
  induction W as [|x W IH]; intros H; [exists []; split; [reflexivity|intros x []]|].
  destruct (H x (or_introl eq_refl)) as (v & -> & Hv). destruct IH as (ws & -> & Hw); [intros; apply H; right; auto|].
  exists (v :: ws). split; auto. intros y [<-|Hy]; auto.
Qed.
Lemma rsum_pos ws : ws <> [] -> (forall x, In x ws -> 0 < x) -> 0 < Rsum ws.
Proof.
  intros Ne H. destruct ws as [|a ws]; [congruence|]. cbn [Rsum]. pose proof (proj1 (rsum_ge ws (fun x Hx => H x (or_intror Hx)))). specialize (H a (or_introl eq_refl)). lra.
Qed.

Section Keep.
Variables (r : nat) (eta lambda : R) (b : Z).
Hypothesis Heta : 0 <= eta.
Hypothesis Hlam : 2 * lambda < 1 + eta / IZR b.
Hypothesis Hb : (0 < b)%Z.
Local Notation step := (@hard_step XR r true (Fin eta) (Fin lambda) b).

Lemma new_weight w k : 0 < w <= 1 -> exists v,
  (if Nat.eqb k 0 then Fin w else @fsub XR (@fadd XR (Fin w) (@fmul XR (Fin eta) (@fdiv XR (times k) (@fmul XR (Fin w) (@fz XR b))))) (@fmul XR (@fmul XR (@fz XR 2) (Fin lambda)) (Fin w))) = Fin v /\ 0 < v.
Proof.
  intros Hw. destruct (Nat.eqb_spec k 0) as [|Hk]; [exists w; split; [reflexivity|lra]|]. rewrite times_x. unfold fsub, fadd, fmul, fdiv, fz. cbn [XR xadd xsub xmul xdiv].
  assert (B : 0 < IZR b) by (apply IZR_lt; lia). assert (D : 0 < w * IZR b) by (apply Rmult_lt_0_compat; lra).
  cbn. destruct (Req_EM_T (w * IZR b) 0); [lra|]. cbn. eexists. split; [reflexivity|].
  assert (K : 1 <= INR k) by (apply (le_INR 1); lia).
  assert (X : eta / IZR b <= eta * (INR k / (w * IZR b))).
  { unfold Rdiv. apply Rmult_le_compat_l; auto. rewrite <- (Rmult_1_l (/ IZR b)). apply Rmult_le_compat; try lra.
    - left. apply Rinv_0_lt_compat. auto.
    - apply Rinv_le_contravar; auto. rewrite <- (Rmult_1_l (IZR b)) at 2. apply Rmult_le_compat_r; lra. }
  assert (Y : 0 <= eta / IZR b). { apply Rmult_le_pos; auto. left. apply Rinv_0_lt_compat. auto. }
  destruct (Rle_dec (2 * lambda) 1) as [L|L].
  - assert (2 * lambda * w <= 1 * w) by (apply Rmult_le_compat_r; lra). destruct (Req_dec (2 * lambda) 1) as [E|E].
    + rewrite E in *. lra.
    + assert (2 * lambda * w < 1 * w) by (apply Rmult_lt_compat_r; lra). lra.
  - assert ((2 * lambda - 1) * w <= (2 * lambda - 1) * 1) by (apply Rmult_le_compat_l; lra). lra.
Qed.

Lemma chosen_reach (n : network XR) T u l : chosen_edge n T r u l -> reach (children n) r u.
Proof. intros (H & _). induction H; [apply reach_refl|]. eapply reach_step; [apply (followed_sub n T)|]; eauto. Qed.

Lemma step_weights (n n' : network XR) c : weights_live1 n r -> step c n n' ->
  forall u, n' u = n u \/ exists ws ws', reach (children n) r u /\ nk (n u) = @KSum XR (map Fin ws) /\ length ws' = length ws /\
    (forall x, In x ws' -> 0 < x) /\ Rsum ws' = 1 /\ n' u = mkNode (@KSum XR (map Fin ws')) (nch (n u)).
Proof.
  intros HW (Ts & _ & G1 & G2) u.
  destruct (classic (exists T j, In T Ts /\ chosen_edge n T r u (Z.of_nat j))) as [(T & j & HT & Hj)|Hno].
  2:{ left. apply G1. right. intros T i HT Hc. apply Hno. eauto. }
  right. pose proof (chosen_reach n T u _ Hj) as Hu. pose proof Hj as (_ & (W & EK) & _). destruct (HW u W Hu EK) as (ws & -> & L & Pos & Sm).
  destruct (G2 u _ T j EK HT Hj) as (W' & LW & En & HW'). rewrite map_length in LW.
  destruct (all_fin W') as (w1 & -> & P1).
  { intros x Hx. apply In_nth_error in Hx. destruct Hx as (i & Hi). assert (Hl : (i < length ws)%nat) by (rewrite <- LW; apply nth_error_Some; intros Hn; pose proof (eq_trans (eq_sym Hi) Hn); discriminate).
    destruct (nth_error ws i) as [w|] eqn:Ew; [|apply nth_error_None in Ew; lia].
    destruct (HW' i (Fin w)) as (k & _ & Ek); [rewrite nth_error_map, Ew; reflexivity|]. pose proof (eq_trans (eq_sym Hi) Ek) as Ex. injection Ex as ->.
    apply new_weight. pose proof (nth_error_In _ _ Ew) as Hin. pose proof (proj2 (rsum_ge ws Pos) w Hin) as Hle. specialize (Pos w Hin). lra. }
  rewrite map_length in LW. assert (Ne : w1 <> []). { intros ->. destruct ws; [cbn in Sm; lra|discriminate]. }
  pose proof (rsum_pos w1 Ne P1) as S1. exists ws, (map (fun x => x / Rsum w1) w1). split; auto. split; auto. rewrite map_length. split; auto. split; [|split].
  - intros x Hx. apply in_map_iff in Hx. destruct Hx as (y & <- & Hy). apply Rdiv_lt_0_compat; auto.
  - rewrite rsum_div. field. lra.
  - rewrite En. rewrite (normalize_exact w1); auto. intros x Hx. specialize (P1 x Hx). lra.
Qed.

Lemma step_ow (n n' : network XR) c : weights_live1 n r -> step c n n' -> only_weights r n n'.
Proof.
  intros HW St. pose proof (step_weights n n' c HW St) as HU. split; intros u; destruct (HU u) as [E|(ws & ws' & Hu & EK & L & _ & _ & E)]; rewrite E; auto.
  right. split; auto. exists (map Fin ws). eexists. split; auto. split; [reflexivity|]. rewrite !map_length. auto.
Qed.
Lemma step_live (n n' : network XR) c : weights_live1 n r -> step c n n' -> weights_live1 n' r.
Proof.
  intros HW St. pose proof (step_weights n n' c HW St) as HU. pose proof (step_ow n n' c HW St) as Ho. intros u w. rewrite (ow_children r n n' Ho), (proj1 Ho). intros Hu EK.
  destruct (HU u) as [E|(ws & ws' & _ & EK0 & L & Pos & Sm & E)]; rewrite E in EK; [apply HW; auto|]. cbn [nk] in EK. injection EK as <-.
  exists ws'. split; auto. split; auto. destruct (HW u _ Hu EK0) as (w1 & E1 & L1 & _). apply map_inj_Fin in E1. subst w1. congruence.
Qed.
Lemma chain_live cs : forall n n', weights_live1 n r -> chain step cs n n' -> weights_live1 n' r /\ only_weights r n n'.
Proof.
  induction cs as [|c cs IH]; intros n n' HW C; inversion C as [|x l s s1 s2 St C']; subst; [split; auto; apply ow_refl|].
  destruct (IH s1 n' (step_live n s1 c HW St) C') as [H1 H2]. split; auto. eapply ow_trans; [|exact H2]. eapply step_ow; eauto.
Qed.

(** The other conditions depend on nothing but the shape. *)
Lemma hl_ow (n n' : network XR) N M : hard_learnable n N M r -> only_weights r n n' -> weights_live1 n' r -> hard_learnable n' N M r.
Proof.
  intros (Hbd & Hr & Ha & Hs & HL & HS & Hne & HM & HW) Ho HW'. pose proof (ow_children r n n' Ho) as Ech. pose proof (proj1 Ho) as Hk.
  unfold hard_learnable. rewrite !Ech. do 4 (split; auto). split; [|split; [|split; [|split]]]; auto.
  - intros u l EK. rewrite Hk. destruct (proj2 Ho u) as [E|(_ & w & w' & _ & E & _)]; [|congruence]. apply (HL u l). congruence.
  - intros u w EK. rewrite Hk. destruct (proj2 Ho u) as [E|(_ & w0 & w' & E & _ & _)]; [apply (HS u w)|apply (HS u w0)]; congruence.
  - rewrite Hk. auto.
  - destruct HM as (H1 & H2). split; auto. intros u. rewrite Ech, Hk. intros Hu. destruct (H2 u Hu) as (H3 & H4). split; auto. intros w EK.
    destruct (proj2 Ho u) as [E|(_ & w0 & w' & E1 & E2 & E3)]; [apply H4; congruence|]. rewrite E2 in EK. injection EK as <-. rewrite E3. auto.
Qed.

Lemma hlb_ow (n n' : network XR) N M : hard_learnable_below n N M r -> only_weights r n n' -> weights_live1 n' r -> hard_learnable_below n' N M r.
Proof.
  intros (Hbd & Hr & Ha & Hs & HL & HS & Hne & HM & HW) Ho HW'. pose proof (ow_children r n n' Ho) as Ech. pose proof (proj1 Ho) as Hk.
  unfold hard_learnable_below. rewrite !Ech. do 4 (split; auto). split; [|split; [|split; [|split]]]; auto.
  - intros u l EK. rewrite Hk. destruct (proj2 Ho u) as [E|(_ & w & w' & _ & E & _)]; [|congruence]. apply (HL u l). congruence.
  - intros u w. rewrite Ech. intros Hu EK. rewrite Hk. destruct (proj2 Ho u) as [E|(_ & w0 & w' & E & _ & _)]; [apply (HS u w)|apply (HS u w0)]; congruence.
  - rewrite Hk. auto.
  - destruct HM as (H1 & H2). split; auto. intros u. rewrite Ech, Hk. intros Hu. destruct (H2 u Hu) as (H3 & H4). split; auto. intros w EK.
    destruct (proj2 Ho u) as [E|(_ & w0 & w' & E1 & E2 & E3)]; [apply H4; congruence|]. rewrite E2 in EK. injection EK as <-. rewrite E3. auto.
Qed.
End Keep.

Section Total.
Variables (N M r : nat) (eta lambda : R).
Hypothesis Heta : 0 <= eta.
Variable P : params XR.
Hypothesis HE : peta P = Fin eta.
Hypothesis HLm : plambda P = Fin lambda.
Hypothesis Hnrm : pnorm P = true.
Hypothesis Hbt : (0 < pbatch P)%Z.
Variable net0 : network XR.
Hypothesis Hl0 : hard_learnable_below net0 N M r.
Variable data : list varset.
Hypothesis HA0 : forall I, In I data -> leaves_answer net0 I r.
Hypothesis HV0 : forall I, In I data -> leaf_values net0 I r.
Variables (ordN : nat -> (nat -> bool) -> list nat) (ordP : nat -> nat -> (Z -> option (F XR)) -> list (Z * F XR)) (rnd : nat -> nat -> nat -> nat).
Hypothesis HN : ranges_nodes N ordN.
Hypothesis HP : ranges_entries M ordP.
Hypothesis Hrnd : forall c i n, (0 < n)%nat -> (rnd c i n < n)%nat.
Local Notation step := (@hard_step XR r true (Fin eta) (Fin lambda) (pbatch P)).
Local Notation KS := (KS r M net0).
Local Notation KH := (KH r M net0).

Lemma answer_ow n I : only_weights r net0 n -> In I data -> leaves_answer n I r.
Proof.
  intros Ho HI u l. rewrite (ow_children r net0 n Ho). intros Hu EK. apply (HA0 I HI u l Hu). destruct (proj2 Ho u) as [E|(_ & w & w' & _ & E & _)]; congruence.
Qed.

(** One instance. *)
Lemma instance_returns n Ts s I : only_weights r net0 n -> hard_learnable_below n N M r -> In I data -> KH n Ts s ->
  exists s' T, @hbgdInstance XR rnd (2 * N + 1) (S N) r s I = Ok s' /\ traceMAP n (rnd (tcnt s)) (2 * N + 1) r I = Ok T /\ KH n (Ts ++ [T]) s'.
Proof.
  intros Ho Hl HI HK. pose proof Hl as (Hbd & Hr & Ha & Hs & HL & HS & Hne & HM & HW). pose proof Hl0 as (Hb0 & _ & _ & _ & HL0 & _ & _ & HM0 & _).
  pose proof (leaf_values_ow r net0 n I Ho (HV0 I HI)) as HV. pose proof (answer_ow n I Ho HI) as HA. pose proof HK as (En & HG & Hsok & _). pose proof HG as ((ops & Hst) & HT).
  unfold hbgdInstance. rewrite En.
  destruct (prune_below n N M r Hl) as (n1 & Hag & (Hbd1 & _ & Ha1 & Hs1 & HL1 & HS1 & Hne1 & _ & HW1)). pose proof (reach_below n n1 r Hag) as Rb.
  assert (HV1 : leaf_values n1 I r) by (intros u l Hu; apply Rb in Hu; rewrite Hag by auto; apply HV; auto).
  assert (HA1 : leaves_answer n1 I r) by (intros u l Hu; apply Rb in Hu; rewrite Hag by auto; apply HA; auto).
  destruct (@storeInference_l XR n1 N r I 1 (tst s) ops Hst Hbd1 Hr Ha1 Hs1 HL1 HS1 Hne1 (fun _ => HT _ ltac:(simpl; auto))) as [[HPn _]|(st1 & tk1 & E1 & _)].
  { destruct (P_gen n1 N r Hbd1 Hr Ha1 (live_nonneg r n1 HS1 HW1) I HV1 r (reach_refl _ _)) as (Ev & _). rewrite Ev in HPn. discriminate. }
  rewrite (storeInference_below n n1 r Hag) in E1. rewrite E1. cbn [bind fst].
  destruct (traceMAP_l n1 N r I (rnd (tcnt s)) Hbd1 Hr Ha1 Hs1 HL1 (live_nonneg r n1 HS1 HW1) HA1 (Hrnd (tcnt s))) as (T & ET & _).
  rewrite (traceMAP_below n n1 r Hag) in ET.
  assert (HG1 : good [0; 1]%Z st1).
  { refine (good_call _ (tst s) 1%Z st1 HG _). intros K1 K2. exact (kept_storeInference n r _ _ I 1%Z (tst s) st1 _ ltac:(lia) K1 K2 E1). }
  pose proof HG1 as ((ops1 & Hst1) & HT1).
  destruct (hard_counts_l n T N r (rnd (tcnt s)) (2 * N + 1) I st1 ops1 0 Hst1 Hbd Hr (fun _ => HT1 0%Z ltac:(simpl; auto)) ET) as (st2 & E2 & _). cbn [Z.ltb Z.compare] in E2.
  rewrite E2. cbn [bind fst].
  destruct (hard_one r N M net0 HM0 Hb0 Hr rnd (2 * N + 1) n Ts s I st1 _ st2 _ Ho HK E1 E2) as (T' & ET' & HKT). assert (T' = T) by congruence. subst T'.
  eexists. exists T. split; [reflexivity|]. split; auto. apply HKT.
Qed.

(** One batch. *)
Lemma instances_return n : only_weights r net0 n -> hard_learnable_below n N M r -> forall c, incl c data -> forall Ts s, KH n Ts s ->
  (forall T, In T Ts -> exists I rd f, traceMAP n rd f r I = Ok T) ->
  exists s' Ts', foldr_ (@hbgdInstance XR rnd (2 * N + 1) (S N) r) c s = Ok s' /\ KH n Ts' s' /\ forall T, In T Ts' -> exists I rd f, traceMAP n rd f r I = Ok T.
Proof.
  intros Ho Hl. induction c as [|I c IH]; intros Hc Ts s HK HT; cbn [foldr_]; [eauto|].
  destruct (instance_returns n Ts s I Ho Hl (Hc I (or_introl eq_refl)) HK) as (s1 & T & E & ET & HK1). rewrite E. cbn [bind].
  apply IH with (Ts := Ts ++ [T]); auto; [intros x Hx; apply Hc; right; auto|]. intros T' HIn. apply in_app_or in HIn. destruct HIn as [HIn|[<-|[]]]; eauto.
Qed.

Lemma batch_returns s c : KS s -> hard_learnable_below (tnet s) N M r -> incl c data ->
  exists s', runBatch (@hbgdInstance XR rnd (2 * N + 1) (S N) r) (flushWith (applyFastHGD ordN ordP (peta P) (plambda P) 0 (pnorm P) (pbatch P)) 0) s c = Ok s' /\
    step c (tnet s) (tnet s') /\ KS s'.
Proof.
  intros HK Hl Hc. pose proof Hl as (Hbd & Hr & Ha & Hs & HL & HS & Hne & HM & HW). pose proof Hl0 as (Hb0 & _ & _ & _ & HL0 & _ & _ & HM0 & _).
  assert (E : exists s', runBatch (@hbgdInstance XR rnd (2 * N + 1) (S N) r) (flushWith (applyFastHGD ordN ordP (peta P) (plambda P) 0 (pnorm P) (pbatch P)) 0) s c = Ok s').
  2:{ destruct E as (s' & E). exists s'. split; auto. destruct (hbgd_batch r N M net0 HM0 Hb0 Hr ordN ordP HN HP rnd (2 * N + 1) P c s s' HK E) as (H1 & H2).
      rewrite HE, HLm, Hnrm in H1. auto. }
  destruct HK as (Ho & HKH). set (n := tnet s) in *.
  destruct (instances_return n Ho Hl c Hc [] s HKH ltac:(intros T [])) as (s2 & Ts & E2 & HK2 & HT). unfold runBatch. rewrite E2. cbn [bind].
  unfold flushWith. rewrite (proj1 HK2). destruct HK2 as (_ & _ & Hs2 & _ & HC). unfold applyFastHGD, applyRange. set (st2 := tst s2) in *. set (t := fst (table (F XR) st2 0)). set (occ := tcnt s2).
  destruct (HN occ (keysOf st2 t)) as [A1 A2]; [intros x Hx; apply (HB0 r N net0 Hb0 Hr); eapply keys_below; eauto|].
  destruct (local_cases (rangeNode ordP (hardStep (peta P) (plambda P) (pbatch P)) (pnorm P) occ st2 t) (gR ordP (hardStep (peta P) (plambda P) (pbatch P)) (pnorm P) occ st2 t)
    (rangeNode_local ordP _ _ _ _ _) (gR_nofuel _ _ _ _ _ _) n (ordN occ (keysOf st2 t)) A1) as [(n1 & -> & _)|[(x & _ & Hx) _]]; [eexists; reflexivity|].
  exfalso. unfold gR in Hx. destruct (nk (n x)) as [W| |] eqn:EK; try discriminate. destruct (fst (tValue (F XR) st2 t x)) as [m|] eqn:Em; try discriminate.
  destruct Hs2 as (_ & Hs2). destruct (HP occ x (mheap _ st2 m) (Hs2 m)) as [B1 B2].
  destruct (rangeWeights_cases (hardStep (peta P) (plambda P) (pbatch P)) _ (mheap _ st2 m) W B1 B2) as [[_ E3]|[(i & v & Hv & Hi) _]]; [rewrite E3 in Hx; discriminate|].
  destruct (HC x i) as (k & Hk & Ek). rewrite sEntry_cval in Ek. unfold t in Em. rewrite tValue_cnode in Em. unfold cval in Ek. rewrite Em in Ek. rewrite Hv in Ek.
  destruct k as [|k]; [discriminate|].
  destruct (classic (exists T, In T Ts /\ chosen_edge n T r x i)) as [(T & K1 & Hch)|Hno].
  2:{ assert (S k = 0)%nat; [|discriminate]. apply (counted_zero _ _ _ Hk). intros T K1 K2. apply Hno. eauto. }
  destruct (HT T K1) as (I & rd & f & ET). pose proof (chosen_reach r n T x i Hch) as Hrx. destruct Hch as (_ & _ & j & Hj & ->).
  destruct (proj2 (traceMAP_rec n rd f r I T ET x j Hj)) as (d & Hd). assert (Hjl : (j < length (nch (n x)))%nat) by (apply nth_error_Some; congruence).
  destruct (HW x W Hrx EK) as (ws & -> & L & _). apply Hi. rewrite map_length. lia.
Qed.

Lemma batches_incl {X} b (l : list X) cs : batches b l cs -> forall c, In c cs -> incl c l.
Proof.
  induction 1 as [|l H1 H2|c l cs H1 H2 IH]; intros d Hd; [destruct Hd| |].
  - destruct Hd as [<-|[]]. apply incl_refl.
  - destruct Hd as [<-|Hd]; [apply incl_appl; apply incl_refl|apply incl_appr; auto].
Qed.

Hypothesis Hlam : 2 * lambda < 1 + eta / IZR (pbatch P).
Lemma hard_keeps_batch : exists net', @generativeHardBGD XR ordN ordP rnd (2 * N + 1) (S N) r P data net0 = Ok net' /\ only_weights r net0 net' /\ hard_learnable_below net' N M r.
Proof.
  destruct (batches_exist (Z.to_nat (pbatch P)) ltac:(lia) data) as (cs & Hcs). unfold generativeHardBGD.
  destruct (chain_epochs P (batchEpoch (pbatch P) (@hbgdInstance XR rnd (2 * N + 1) (S N) r) (flushWith (applyFastHGD ordN ordP (peta P) (plambda P) 0 (pnorm P) (pbatch P)) 0) data)
    (@tnet XR) step (fun s => KS s /\ hard_learnable_below (tnet s) N M r) cs) with (s := @start XR 2 net0) as (s' & E & H1 & (H2 & H3)).
  - intros s Hs. rewrite (batchEpoch_runs _ Hbt _ _ data cs s Hcs). apply chain_fold; auto. intros c s1 Hc (K1 & K2).
    destruct (batch_returns s1 c K1 K2 (batches_incl _ _ _ Hcs c Hc)) as (s2 & E & St & K3). exists s2. split; auto. split; auto. split; auto.
    pose proof K2 as (_ & _ & _ & _ & _ & _ & _ & _ & HW). apply (hlb_ow r (tnet s1) (tnet s2) N M); auto; [eapply step_ow|eapply step_live]; eauto.
  - split; [apply KS_start|]. auto.
  - rewrite E. cbn [bind]. exists (tnet s'). split; auto. split; auto. apply H2.
Qed.
End Total.

Lemma hard_keeps_l (net : network XR) N M r eta lambda (P : params XR) data ordN ordP rnd :
  0 <= eta -> peta P = Fin eta -> plambda P = Fin lambda -> pnorm P = true ->
  hard_learnable_below net N M r -> (forall I, In I data -> leaves_answer net I r /\ leaf_values net I r) ->
  ranges_nodes N ordN -> ranges_entries M ordP -> (forall c i n, (0 < n)%nat -> (rnd c i n < n)%nat) ->
  (2 * lambda < 1 + eta ->
    exists net', @generativeHardGD XR ordP rnd (2 * N + 1) (S N) r P data net = Ok net' /\ only_weights r net net' /\ hard_learnable_below net' N M r) /\
  ((0 < pbatch P)%Z -> 2 * lambda < 1 + eta / IZR (pbatch P) ->
    exists net', @generativeHardBGD XR ordN ordP rnd (2 * N + 1) (S N) r P data net = Ok net' /\ only_weights r net net' /\ hard_learnable_below net' N M r).
Proof.
  intros He HE HL Hn Hh HAV HN HP Hr. assert (HA : forall I, In I data -> leaves_answer net I r) by (intros; apply HAV; auto). assert (HV : forall I, In I data -> leaf_values net I r) by (intros; apply HAV; auto). split.
  2:{ intros Hb Hl. apply (hard_keeps_batch N M r eta lambda); auto. }
  intros Hl. set (P1 := mkParams (A:=XR) (pnorm P) (ptype P) (peta P) 1 (plambda P) (piter P)).
  destruct (hard_keeps_batch N M r eta lambda He P1 HE HL Hn ltac:(reflexivity) net Hh data HA HV ordN ordP rnd HN HP Hr) as (net' & E & H1 & H2); [cbn; lra|].
  exists net'. split; auto. pose proof Hh as (Hb & Hr0 & _ & _ & HLc & _ & _ & HM & _).
  rewrite (@hard_batch_one_l XR net r N M ordN ordP rnd (2 * N + 1) P1 data HM Hb Hr0 HLc HN HP eq_refl) in E. exact E.
Qed.

