(** Learning ends with distributions, and examples for the trainers. *)
From Coq Require Import Reals Lra FunctionalExtensionality Classical_Prop.
From Verif Require Import Base Res Arith LogMath LogSpec LogLemmas GraphSpec GraphLemmas Search SearchLemmas Topo TopoLemmas Storer StorerSpec StorerLemmas
  Spn DP SpnSpec SpnLemmas Leaves ProbSpec ProbLemmas ProbCases ArgLemmas Walk WalkLemmas Struct StructSpec StructLemmas Derive DeriveSpec DiffLemmas DeriveLemmas GradLemmas StepLemmas DeriveCases Hard PipeLemmas
  Train TrainSpec TrainRange TrainKeep TrainShape TrainAll TrainKept TrainGrad TrainSteps TrainBatch TrainBgd TrainHard TrainOne TrainDisc TrainRoot TrainGradD.

(** ** Distributions at the end *)
Definition finite_w (r : nat) (net : network XR) : Prop :=
  forall u w, reach (children net) r u -> nk (net u) = KSum w -> exists ws, w = map Fin ws.

Lemma step_children N r nrm eta lambda b c (n n' : network XR) : finite_w r n -> gradient_step N r nrm eta lambda b c n n' ->
  children n' = children n /\ finite_w r n'.
Proof.
  intros HF (H1 & H2). assert (E : children n' = children n).
  { extensionality u. unfold children. destruct (classic (reach (children n) r u)) as [Hu|Hu]; [|rewrite H1; auto].
    destruct (nk (n u)) as [W| |] eqn:EK; [|rewrite H1; auto; right; congruence|rewrite H1; auto; right; congruence].
    destruct (HF u W Hu EK) as (ws & ->). destruct (H2 u ws Hu EK) as (w1 & _ & _ & ->). reflexivity. }
  split; auto. intros u w. rewrite E. intros Hu.
  destruct (nk (n u)) as [W| |] eqn:EK; [|rewrite H1; [congruence|right; congruence]|rewrite H1; [congruence|right; congruence]].
  destruct (HF u W Hu EK) as (ws & ->). destruct (H2 u ws Hu EK) as (w1 & _ & _ & ->). cbn [nk]. intros Ew. injection Ew as <-. eauto.
Qed.

Lemma Rsum_scale (l : list R) c : Rsum (map (fun x => x / c)%R l) = (Rsum l / c)%R.
Proof. induction l as [|x l IH]; simpl; [unfold Rdiv; rewrite Rmult_0_l; auto|]. rewrite IH. unfold Rdiv. ring. Qed.

Lemma ends_normalised N r eta lambda b cs (n n' : network XR) : finite_w r n -> cs <> [] -> chain (gradient_step N r true eta lambda b) cs n n' ->
  weights_live n' r -> weights_normalised n' r.
Proof.
  intros HF Hne Hc. revert HF. induction Hc as [s|c cs a m z Hs Hc IH]; [congruence|]. intros HF HL.
  destruct (step_children _ _ _ _ _ _ _ _ _ HF Hs) as [Ec Hm]. destruct cs as [|c' cs]; [|apply IH; auto; discriminate].
  inversion Hc; subst. intros u ws Hu EK. rewrite Ec in Hu. destruct Hs as (H1 & H2).
  destruct (nk (a u)) as [W| |] eqn:Ea; [|rewrite H1 in EK; [congruence|right; congruence]|rewrite H1 in EK; [congruence|right; congruence]].
  destruct (HF u W Hu Ea) as (w0 & ->). destruct (H2 u w0 Hu Ea) as (w1 & _ & _ & E1).
  destruct (HL u (map Fin ws)) as (ws' & Ew & _ & _ & Hpos); auto; [rewrite Ec; auto|]. apply map_inj_Fin in Ew. subst ws'.
  rewrite E1 in EK. cbn [nk] in EK. injection EK as EK. apply map_inj_Fin in EK. subst ws.
  rewrite Rsum_scale in *. apply Rinv_r. intros E0. rewrite E0 in Hpos. unfold Rdiv in Hpos. rewrite Rmult_0_l in Hpos. lra.
Qed.

Lemma chain_step {X S} (s1 s2 : X -> S -> S -> Prop) l a b : (forall x a b, s1 x a b -> s2 x a b) -> chain s1 l a b -> chain s2 l a b.
Proof. intros H. induction 1; econstructor; eauto. Qed.

Lemma live_ok (net : network XR) N r d : learnable net N r d -> weights_live net r -> state_ok N r d true net.
Proof. split; auto. Qed.
Lemma concat_ne {X} (l : list X) n : l <> [] -> 0 < n -> concat (repeat l n) <> [].
Proof. intros H Hn. destruct n; [lia|]. simpl. destruct l; [congruence|discriminate]. Qed.
Lemma nonneg_finite r (net : network XR) : weights_nonneg net r -> finite_w r net.
Proof. intros H u w Hu E. destruct (H u w Hu E) as (_ & ws & -> & _). eauto. Qed.

Section Norm.
Variables (N r M : nat) (d : discipline).
Variable P : params XR.
Variables eta lambda : R.
Hypothesis HE : peta P = Fin eta.
Hypothesis Heta : (0 <= eta)%R.
Hypothesis HNm : pnorm P = true.
Hypothesis Hit : (0 < piter P)%Z.
Variable net0 : network XR.
Variables (ordN : nat -> (nat -> bool) -> list nat) (ordP : nat -> nat -> (Z -> option xreal) -> list (Z * xreal)).
Variable data : list varset.
Hypothesis Hne : data <> [].
Hypothesis HV : forall I, In I data -> leaf_values net0 I r.
Hypothesis Hl : learnable net0 N r d.
Hypothesis Hw : weights_live net0 r.

Lemma gd_distributions : exists net', @generativeGD XR (2 * N + 1) (S N) r d P data net0 = Ok net' /\ weights_nonneg net' r /\ weights_normalised net' r.
Proof.
  destruct (generativeGD_real N r d P eta HE Heta net0 data HV) as (net' & E & C & Hok); [rewrite HNm; split; auto|].
  exists net'. split; auto. rewrite HNm in C, Hok. destruct Hok as (Hl' & Hlive). split; [apply Hl'|].
  assert (Hc : chain (gradient_step N r true eta 0 1) (map (fun I => [I]) (concat (repeat data (Z.to_nat (piter P))))) net0 net').
  { revert C. generalize (concat (repeat data (Z.to_nat (piter P)))). intros l C. revert C. generalize net0, net'. clear. induction l as [|x l IH]; intros a b C; inversion C; subst; simpl; econstructor; eauto. }
  refine (ends_normalised _ _ _ _ _ _ _ _ _ _ Hc (Hlive eq_refl)); [apply nonneg_finite; apply Hl|].
  assert (Hn : concat (repeat data (Z.to_nat (piter P))) <> []) by (apply concat_ne; auto; lia).
  destruct (concat _); [congruence|discriminate].
Qed.

Hypothesis HLm : plambda P = Fin lambda.
Hypothesis Hlam : (0 <= lambda < 1/2)%R.
Hypothesis Hb : (0 < pbatch P)%Z.
Hypothesis HM : at_most M r net0.
Hypothesis HN : ranges_nodes N ordN.
Hypothesis HP : ranges_entries M ordP.
Lemma bgd_distributions : exists net', @generativeBGD XR ordN ordP (2 * N + 1) (S N) r d P data net0 = Ok net' /\ weights_nonneg net' r /\ weights_normalised net' r.
Proof.
  destruct (generativeBGD_real N r M d P eta lambda HE HLm Heta Hlam Hb net0 HM ordN ordP HN HP data HV) as (cs & net' & Hcs & E & C & Hok); [rewrite HNm; split; auto|].
  exists net'. split; auto. rewrite HNm in C, Hok. destruct Hok as (Hl' & Hlive). split; [apply Hl'|].
  refine (ends_normalised _ _ _ _ _ _ _ _ _ _ C (Hlive eq_refl)); [apply nonneg_finite; apply Hl|].
  apply concat_ne; [|lia]. inversion Hcs; subst; try discriminate. congruence.
Qed.
End Norm.

(** ** Range orders *)
Definition ascN (N : nat) : nat -> (nat -> bool) -> list nat := fun _ K => filter K (seq 0 N).
Definition descN (N : nat) : nat -> (nat -> bool) -> list nat := fun _ K => rev (filter K (seq 0 N)).
Definition entriesOf {V} (m : Z -> option V) (M : nat) : list (Z * V) :=
  flat_map (fun i => match m (Z.of_nat i) with Some v => [(Z.of_nat i, v)] | None => [] end) (seq 0 M).
Definition ascP {V} (M : nat) : nat -> nat -> (Z -> option V) -> list (Z * V) := fun _ _ m => entriesOf m M.
Definition descP {V} (M : nat) : nat -> nat -> (Z -> option V) -> list (Z * V) := fun _ _ m => rev (entriesOf m M).

Lemma ascN_ok N : ranges_nodes N (ascN N).
Proof.
  intros occ K HK. split; [apply NoDup_filter, seq_NoDup|]. intros x. unfold ascN. rewrite filter_In, in_seq. split; [tauto|]. intros H. pose proof (HK x H). split; auto. lia.
Qed.
Lemma descN_ok N : ranges_nodes N (descN N).
Proof.
  intros occ K HK. destruct (ascN_ok N occ K HK) as [H1 H2]. split; [apply NoDup_rev; exact H1|]. intros x. unfold descN. rewrite <- in_rev. apply H2.
Qed.
Lemma entries_fst {V} (m : Z -> option V) M : map fst (entriesOf m M) = map Z.of_nat (filter (fun i => match m (Z.of_nat i) with Some _ => true | None => false end) (seq 0 M)).
Proof.
  unfold entriesOf. induction (seq 0 M) as [|i l IH]; auto. cbn [flat_map filter]. destruct (m (Z.of_nat i)); simpl; rewrite IH; auto.
Qed.
Lemma ascP_ok {V} M : @ranges_entries V M (ascP M).
Proof.
  intros occ s m Hm. unfold ascP. split.
  - rewrite entries_fst. apply FinFun.Injective_map_NoDup; [intros a b E; lia|]. apply NoDup_filter, seq_NoDup.
  - intros i v. unfold entriesOf. rewrite in_flat_map. split.
    + intros (x & _ & Hin). destruct (m (Z.of_nat x)) eqn:E; [|destruct Hin]. destruct Hin as [Hin|[]]. injection Hin as <- <-. auto.
    + intros E. pose proof (Hm i v E). exists (Z.to_nat i). rewrite in_seq. split; [lia|]. rewrite Z2Nat.id by lia. rewrite E. left; auto.
Qed.
Lemma descP_ok {V} M : @ranges_entries V M (descP M).
Proof.
  intros occ s m Hm. destruct (@ascP_ok V M occ s m Hm) as [H1 H2]. unfold descP. split.
  - rewrite map_rev. apply NoDup_rev. exact H1.
  - intros i v. rewrite <- in_rev. apply H2.
Qed.

(** ** The example network *)
Lemma wnet_learnable : learnable (wnet wl5) 6 0 UseQueue.
Proof.
  destruct wnet_pipe_case as (H1 & H2 & H3 & H4 & H5 & H6 & H7 & H8 & _). split; auto. split; [lia|]. auto 12.
Qed.
Lemma wnet_reach u : reach (children (wnet wl5)) 0 u -> u < 6.
Proof. intros H. destruct wnet_pipe_case as (Hb & _). eapply (SpnLemmas.reach_bounded (children (wnet wl5))); [exact Hb| |exact H]. lia. Qed.
Lemma wnet_live : weights_live (wnet wl5) 0.
Proof.
  intros u w _ E. destruct u as [|[|[|[|[|u]]]]]; simpl in E; try discriminate. injection E as <-. exists [/4; 3/4]%R. split; auto. split; auto.
  split; [intros x [<-|[<-|[]]]; lra|simpl; lra].
Qed.
Lemma wnet_most : at_most 2 0 (wnet wl5).
Proof.
  split; [lia|]. intros u Hu. split.
  - destruct u as [|[|[|[|[|u]]]]]; simpl; lia.
  - intros w. destruct u as [|[|[|[|[|u]]]]]; simpl; try discriminate. intros E. injection E as <-. simpl. lia.
Qed.
Definition seen : varset := setvar (fun _ => None) 0 0.
Lemma seen_values : leaf_values (wnet wl5) seen 0.
Proof.
  destruct wnet_case2 as (_ & _ & _ & HM & _). pose proof (multi_discrete _ _ _ HM) as HL.
  intros u l Hu EK. destruct (HL u l Hu EK) as (_ & x & HD).
  assert (He : evidence_ok wcard seen).
  { intros y v. unfold seen, setvar. destruct (Z.eqb_spec y 0); [|discriminate]. intros E. injection E as <-. subst y. unfold wcard. simpl. lia. }
  destruct (dleaf_value wcard l x _ HD He) as (E1 & _ & E2 & _). rewrite E1. eexists. split; [reflexivity|]. apply logval_xln.
Qed.
Lemma unseen : without [0]%Z seen = (fun _ => None).
Proof. extensionality v. unfold without, seen, setvar. destruct (in_dec Z.eq_dec v [0]%Z) as [|Hn]; auto. destruct (Z.eqb_spec v 0); auto. subst. exfalso. apply Hn. left; auto. Qed.



Lemma leaf_lin (x : Z) ps mi (I : varset) v p : I x = Some (Z.of_nat v) -> nth_error ps v = Some p -> (0 < p)%R ->
  match lvalue (mleafR x ps mi) I with Some v => lin v | None => 0%R end = p.
Proof.
  intros Hx Hp H. unfold mleafR, multiLeaf, multiValue. cbn [lvalue m_varid m_pr]. rewrite Hx. unfold prAt.
  destruct (Z.ltb_spec (Z.of_nat v) 0); [lia|]. rewrite Nat2Z.id, nth_error_map, Hp. simpl. destruct (Rlt_dec 0 p); [|lra]. simpl. apply exp_ln. auto.
Qed.
Lemma leaf_one (x : Z) ps mi (I : varset) : I x = None ->
  match lvalue (mleafR x ps mi) I with Some v => lin v | None => 0%R end = 1%R.
Proof. intros Hx. unfold mleafR, multiLeaf, multiValue. cbn [lvalue m_varid m_pr]. rewrite Hx. simpl. apply exp_0. Qed.

Lemma seen_lval t : lval (set_weight (wnet wl5) 0 1 t) seen (fun _ => None) 6 0 = (/12 + /5 * t)%R.
Proof.
  cbn [lval set_weight Nat.eqb wnet nk nch firstn skipn map app combine fst snd unfin Rsum Rprod]. unfold wl5.
  rewrite (leaf_lin 0 [/3; 2/3]%R 1 seen 0 (/3)), (leaf_lin 0 [/5; 4/5]%R 1 seen 0 (/5)), (leaf_one 1) by (auto; lra). field.
Qed.
Lemma unseen_lval t : lval (set_weight (wnet wl5) 0 1 t) (fun _ => None) (fun _ => None) 6 0 = (/4 + t)%R.
Proof.
  cbn [lval set_weight Nat.eqb wnet nk nch firstn skipn map app combine fst snd unfin Rsum Rprod]. unfold wl5.
  rewrite !leaf_one by auto. field.
Qed.
Lemma seen_total : lval (wnet wl5) seen (fun _ => None) 6 0 = (7/30)%R.
Proof.
  cbn [lval wnet nk nch map combine fst snd unfin Rsum Rprod]. unfold wl5.
  rewrite (leaf_lin 0 [/3; 2/3]%R 1 seen 0 (/3)), (leaf_lin 0 [/5; 4/5]%R 1 seen 0 (/5)), (leaf_one 1) by (auto; lra). field.
Qed.
Lemma unseen_total : lval (wnet wl5) (fun _ => None) (fun _ => None) 6 0 = 1%R.
Proof.
  cbn [lval wnet nk nch map combine fst snd unfin Rsum Rprod]. unfold wl5. rewrite !leaf_one by auto. field.
Qed.
Lemma affine_derivative (f : R -> R) a b x : (forall t, f t = a + b * t)%R -> derivable_pt_lim f x b.
Proof.
  intros H eps He. exists (mkposreal 1 Rlt_0_1). intros h Hh _. rewrite !H. replace ((a + b * (x + h) - (a + b * x)) / h - b)%R with 0%R by (field; auto).
  rewrite Rabs_R0. auto.
Qed.
Lemma seen_derivative D : weight_derivative (wnet wl5) seen 6 0 0 1 (3/4) D -> D = (/5)%R.
Proof. intros H. eapply uniqueness_limite; [exact H|]. apply (affine_derivative _ (/12)). intros t. apply seen_lval. Qed.
Lemma unseen_derivative D : weight_derivative (wnet wl5) (fun _ => None) 6 0 0 1 (3/4) D -> D = 1%R.
Proof. intros H. eapply uniqueness_limite; [exact H|]. apply (affine_derivative _ (/4)). intros t. rewrite unseen_lval. lra. Qed.

(** ** DiscriminativeGD does not follow the gradient of its comment *)
Definition dP : params XR := @mkParams XR false 0 (Fin 1) 1 (Fin 0) 1.

Lemma dgd_gradient_refuted_l : exists (net : network XR) (N r : nat) (P : params XR) (eta lambda : R) (Y : list Z) (I : varset) (ws : list R) net' ws' i w,
  learnable net N r UseQueue /\ peta P = Fin eta /\ plambda P = Fin lambda /\ pnorm P = false /\ piter P = 1%Z /\ NoDup Y /\ (forall v, In v Y -> I v <> None) /\
  leaf_values net I r /\ leaf_values net (without Y I) r /\ (0 < lval net I (fun _ => None) N r)%R /\ (0 < lval net (without Y I) (fun _ => None) N r)%R /\
  nk (net r) = @KSum XR (map Fin ws) /\ @discriminativeGD XR (2 * N + 1) (S N) r P Y [I] net = Ok (net', [I]) /\
  nk (net' r) = @KSum XR (map Fin ws') /\ nth_error ws i = Some w /\
  forall w', nth_error ws' i = Some w' -> ~ conditional_update net I (without Y I) N r r i eta lambda w w'.
Proof.
  destruct (dgd_one_l 6 0 (wnet wl5) wnet_learnable dP 1 0 eq_refl eq_refl eq_refl [0]%Z ltac:(repeat constructor; intros []) seen [/4; 3/4]%R)
    as (net' & ws' & E & _ & En & _ & Hw).
  { intros v [<-|[]]. discriminate. }
  { apply seen_values. }
  { rewrite unseen. apply wnet_leaf_values. }
  { reflexivity. }
  { rewrite seen_total. lra. }
  { rewrite unseen, unseen_total. lra. }
  exists (wnet wl5), 6, 0, dP, 1%R, 0%R, [0]%Z, seen, [/4; 3/4]%R, net', ws', 1, (3/4)%R.
  split; [apply wnet_learnable|]. do 4 (split; [reflexivity|]). split; [repeat constructor; intros []|]. split; [intros v [<-|[]]; discriminate|].
  split; [apply seen_values|]. rewrite unseen in *. split; [apply wnet_leaf_values|]. rewrite seen_total, unseen_total in *. split; [lra|]. split; [lra|].
  split; [reflexivity|]. split; [exact E|]. split; [rewrite En; reflexivity|]. split; [reflexivity|].
  intros w' Hw' (D & Q & HD & HQ & Ew). destruct (Hw 1 (3/4)%R eq_refl) as (D1 & Q1 & HD1 & HQ1 & Ew1). rewrite Ew1 in Hw'. injection Hw' as <-.
  apply seen_derivative in HD, HD1. apply unseen_derivative in HQ, HQ1. subst. rewrite seen_total, unseen_total in Ew. simpl in Ew. lra.
Qed.

(** ** GenerativeGD ignores Lambda *)
Definition lP : params XR := @mkParams XR false 0 (Fin 0) 1 (Fin (/4)) 1.
Lemma lambda_ignored_l : exists (net : network XR) (N r M : nat) (P : params XR) (lambda : R) (data : list varset)
    (ordN : nat -> (nat -> bool) -> list nat) (ordP : nat -> nat -> (Z -> option xreal) -> list (Z * xreal)) net1 net2,
  learnable net N r UseQueue /\ at_most M r net /\ ranges_nodes N ordN /\ ranges_entries M ordP /\ (forall I, In I data -> leaf_values net I r) /\
  pbatch P = 1%Z /\ pnorm P = false /\ plambda P = Fin lambda /\ (0 < lambda < 1/2)%R /\
  @generativeGD XR (2 * N + 1) (S N) r UseQueue P data net = Ok net1 /\ @generativeBGD XR ordN ordP (2 * N + 1) (S N) r UseQueue P data net = Ok net2 /\
  nk (net1 r) = nk (net r) /\ nk (net2 r) <> nk (net1 r).
Proof.
  assert (HV : forall I, In I [(fun _ => None) : varset] -> leaf_values (wnet wl5) I 0) by (intros I [<-|[]]; apply wnet_leaf_values).
  assert (Hok : state_ok 6 0 UseQueue (pnorm lP) (wnet wl5)) by (split; [apply wnet_learnable|discriminate]).
  assert (H0 : (0 <= 0)%R) by lra. assert (H4 : (0 <= / 4 < 1 / 2)%R) by lra. assert (H1 : (0 < pbatch lP)%Z) by reflexivity.
  destruct (generativeGD_real 6 0 UseQueue lP 0 eq_refl H0 (wnet wl5) [fun _ => None] HV Hok) as (n1 & E1 & C1 & _).
  destruct (generativeBGD_real 6 0 2 UseQueue lP 0 (/4) eq_refl eq_refl H0 H4 H1 (wnet wl5) wnet_most (ascN 6) (ascP 2) (ascN_ok 6) (ascP_ok 2) [fun _ => None] HV Hok)
    as (cs & n2 & Hcs & E2 & C2 & _).
  assert (cs = [[fun _ => None]]) as -> by (apply batches_one_inv in Hcs; exact Hcs).
  exists (wnet wl5), 6, 0, 2, lP, (/4)%R, [fun _ => None], (ascN 6), (ascP 2), n1, n2.
  split; [apply wnet_learnable|]. split; [apply wnet_most|]. split; [apply ascN_ok|]. split; [apply ascP_ok|]. split; [exact HV|].
  do 3 (split; [reflexivity|]). split; [lra|]. split; [exact E1|]. split; [exact E2|].
  change (Z.to_nat (piter lP)) with 1 in *. cbn [repeat concat app] in C1, C2.
  inversion C1 as [|? ? ? m1 ? S1 C1']; subst. inversion C1'; subst. inversion C2 as [|? ? ? m2 ? S2 C2']; subst. inversion C2'; subst.
  destruct S1 as (_ & S1). destruct S2 as (_ & S2). specialize (S1 0 [/4; 3/4]%R (reach_refl _ _) eq_refl). specialize (S2 0 [/4; 3/4]%R (reach_refl _ _) eq_refl).
  destruct S1 as (w1 & L1 & V1 & K1), S2 as (w2 & L2 & V2 & K2).
  change (pnorm lP) with false in *. cbv iota in K1, K2.
  destruct (V1 0 _ eq_refl) as (D1 & _ & X1). destruct (V1 1 _ eq_refl) as (D2 & _ & X2). destruct (V2 0 _ eq_refl) as (D3 & _ & X3).
  destruct w1 as [|a1 [|b1 [|]]]; try discriminate. simpl in X1, X2. injection X1 as ->. injection X2 as ->.
  destruct w2 as [|a2 w2]; try discriminate. simpl in X3. injection X3 as ->.
  split.
  - rewrite K1. cbn [nk wnet map]. assert (Q1 : forall x y : R, (x + 0 * y / 1 - 2 * 0 * x)%R = x) by (intros; field). rewrite !Q1. reflexivity.
  - rewrite K1, K2. cbn [nk map]. intros E. injection E as E _. change (pbatch lP) with 1%Z in E. assert (Q1 : forall x y : R, (x + 0 * y / 1 - 2 * 0 * x)%R = x) by (intros; field). rewrite Q1 in E.
    assert (Q2 : forall x y : R, (x + 0 * y / 1 - 2 * /4 * x)%R = (x / 2)%R) by (intros; field). rewrite Q2 in E. lra.
Qed.
