(** The trainers only change weights, and do not depend on the order of range loops. *)
From Coq Require Import FunctionalExtensionality.
From Verif Require Import Base Res Arith LogMath GraphSpec GraphLemmas Search SearchLemmas Topo TopoLemmas Storer Spn DP SpnSpec Walk WalkLemmas
  Struct Derive DeriveLemmas Hard Train TrainSpec TrainRange TrainKeep.

(** Two programs that agree on the states satisfying [J], which they preserve. *)
Definition agree {S} (J : S -> Prop) (x y : res S) : Prop := x = y /\ forall s, x = Ok s -> J s.

Section Agree.
Context {S X : Type}.
Variable J : S -> Prop.
Lemma agree_ok s : J s -> agree J (Ok s) (Ok s).
Proof. intros H. split; auto. intros s' E. injection E as <-. auto. Qed.
Lemma agree_bind {T} (K : T -> Prop) (x y : res T) (f g : T -> res S) :
  agree K x y -> (forall t, K t -> agree J (f t) (g t)) -> agree J (bind x f) (bind y g).
Proof.
  intros (-> & H) Hf. destruct y as [t| |]; cbn [bind]; [apply Hf; apply H; auto|split; auto; discriminate|split; auto; discriminate].
Qed.
Lemma agree_foldr (f g : S -> X -> res S) l : (forall x s, In x l -> J s -> agree J (f s x) (g s x)) ->
  forall s, J s -> agree J (foldr_ f l s) (foldr_ g l s).
Proof.
  induction l as [|x l IH]; intros H s Hs; simpl; [apply agree_ok; auto|].
  apply agree_bind with (K := J); [apply H; auto; left; auto|]. intros t Ht. apply IH; auto. intros y u Hy. apply H. right; auto.
Qed.
Lemma agree_foldi (f g : nat -> S -> X -> res S) l : (forall i x s, In x l -> J s -> agree J (f i s x) (g i s x)) ->
  forall i s, J s -> agree J (foldi_from i f l s) (foldi_from i g l s).
Proof.
  induction l as [|x l IH]; intros H i s Hs; simpl; [apply agree_ok; auto|].
  apply agree_bind with (K := J); [apply H; auto; left; auto|]. intros t Ht. apply IH; auto. intros j y u Hy. apply H. right; auto.
Qed.
Lemma agree_refl (x : res S) : (forall s, x = Ok s -> J s) -> agree J x x.
Proof. split; auto. Qed.
End Agree.

Lemma walk_agree {St} (J : St -> Prop) (K : nat -> Prop) (g : graph) d (p1 p2 : St -> nat -> res St) :
  (forall u c, K u -> In c (g u) -> K c) -> (forall s u, K u -> J s -> agree J (p1 s u) (p2 s u)) ->
  forall fuel r s, K r -> J s -> agree J (walkFrom g d p1 fuel r s) (walkFrom g d p2 fuel r s).
Proof.
  intros Hc Hp fuel r s Hr. unfold walkFrom.
  enough (G : forall fuel Fr V s, (forall x, In x Fr -> K x) -> J s -> agree J (walk g d p1 fuel Fr V s) (walk g d p2 fuel Fr V s)).
  { apply G. intros x [<-|[]]. auto. }
  clear fuel s r Hr. induction fuel as [|k IH]; intros Fr V s HF Hs; [split; auto; discriminate|]. simpl. destruct Fr as [|u Fr]; [apply agree_ok; auto|].
  apply agree_bind with (K := J); [apply Hp; auto; apply HF; left; auto|]. intros t Ht.
  destruct (give_children d (g u) (Fr, V)) as [F2 V2] eqn:EG. apply IH; auto.
  intros x Hx. pose proof (give_children_in d (g u) Fr V x) as H. rewrite EG in H. destruct (H Hx) as [H1|H1]; [apply HF; right; auto|].
  apply (Hc u); auto. apply HF. left; auto.
Qed.

Section Shape.
Context {A : arith}.
Local Notation F := (F A).
Local Notation storer := (storer F).

Lemma normalize_len (W : list F) : length (normalize W) = length W.
Proof. unfold normalize, divBySum. rewrite map_length. match goal with |- context [if ?c then _ else _] => destruct c end; rewrite ?map_length; auto. Qed.
Lemma maybeNorm_len nrm (W : list F) : length (maybeNorm nrm W) = length W.
Proof. destruct nrm; auto. apply normalize_len. Qed.

Lemma rangeWeights_len f es : forall (W W' : list F), rangeWeights f es W = Ok W' -> length W' = length W.
Proof.
  intros W W'. unfold rangeWeights. apply foldr_ind with (J := fun W' => length W' = length W); auto.
  intros x s s' _ Hs E. destruct (idxZ s (fst x)) as [w| |]; try discriminate. injection E as <-. rewrite set_nth_len. auto.
Qed.
Lemma rangeWeights_nofuel f es : forall (W : list F), rangeWeights f es W <> Fuel.
Proof.
  unfold rangeWeights. induction es as [|e es IH]; intros W; simpl; [discriminate|].
  unfold idxZ, idx. destruct (fst e <? 0)%Z; [discriminate|]. destruct (nth_error W (Z.to_nat (fst e))); cbn [bind]; [apply IH|discriminate].
Qed.

Variable r : nat.

Lemma ow_refl (net : network A) : only_weights r net net.
Proof. split; auto. Qed.
Lemma ow_children (net net' : network A) : only_weights r net net' -> children net' = children net.
Proof. intros (H & _). apply functional_extensionality. intros u. unfold children. auto. Qed.
Lemma ow_trans (a b c : network A) : only_weights r a b -> only_weights r b c -> only_weights r a c.
Proof.
  intros H1 H2. pose proof (ow_children _ _ H1) as E. destruct H1 as (A1 & B1), H2 as (A2 & B2). split; [intros u; congruence|].
  intros u. destruct (B1 u) as [E1|(R1 & w & w1 & K1 & K2 & L1)], (B2 u) as [E2|(R2 & w2 & w3 & K3 & K4 & L2)].
  - left. congruence.
  - right. rewrite E in R2. split; auto. exists w2, w3. split; [congruence|auto].
  - right. split; auto. exists w, w1. split; auto. split; [congruence|auto].
  - right. split; auto. exists w, w3. split; auto. split; auto. rewrite K2 in K3. injection K3 as <-. congruence.
Qed.
Lemma ow_set (net : network A) u w w' : reach (children net) r u -> nk (net u) = KSum w -> length w' = length w ->
  only_weights r net (upd net u (mkNode (KSum w') (nch (net u)))).
Proof.
  intros Hu EK HL. split.
  - intros x. unfold upd. destruct (Nat.eqb_spec x u) as [->|]; auto.
  - intros x. unfold upd. destruct (Nat.eqb_spec x u) as [->|]; auto. right. split; auto. exists w, w'. auto.
Qed.
Lemma upd_id (net : network A) u : upd net u (net u) = net.
Proof. apply functional_extensionality. intros x. unfold upd. destruct (Nat.eqb_spec x u); congruence. Qed.
Lemma at_most_ow M (a b : network A) : only_weights r a b -> at_most M r a -> at_most M r b.
Proof.
  intros H (H1 & H2). split; auto. rewrite (ow_children _ _ H). intros u Hu. destruct (H2 u Hu) as [C W]. destruct H as (E & K). rewrite E. split; auto.
  intros w Ew. destruct (K u) as [E1|(_ & w1 & w2 & K1 & K2 & L)]; [apply W; congruence|]. rewrite K2 in Ew. injection Ew as <-. rewrite L. apply W. auto.
Qed.

(** ** Updates from tables *)
Section Orders.
Variables N M : nat.
Variables (ordN ordN' : nat -> (nat -> bool) -> list nat) (ordP ordP' : nat -> nat -> (Z -> option F) -> list (Z * F)).
Hypothesis HN : ranges_nodes N ordN.
Hypothesis HN' : ranges_nodes N ordN'.
Hypothesis HP : ranges_entries M ordP.
Hypothesis HP' : ranges_entries M ordP'.

Definition gR (o : nat -> nat -> (Z -> option F) -> list (Z * F)) f nrm occ (st : storer) t (s : nat) (nd : node A) : res (node A) :=
  match nk nd, fst (tValue F st t s) with
  | KSum W0, Some m => W <- rangeWeights f (o occ s (mheap F st m)) W0; Ok (mkNode (KSum (maybeNorm nrm W)) (nch nd))
  | _, _ => Ok nd
  end.
Lemma rangeNode_local o f nrm occ st t net s :
  rangeNode o f nrm occ st t net s = (nd <- gR o f nrm occ st t s (net s); Ok (upd net s nd)).
Proof.
  unfold rangeNode, gR. destruct (nk (net s)) as [w| |]; cbn [bind]; rewrite ?upd_id; auto.
  destruct (fst (tValue F st t s)); cbn [bind]; rewrite ?upd_id; auto. destruct (rangeWeights _ _ _); auto.
Qed.
Lemma gR_nofuel o f nrm occ st t s nd : gR o f nrm occ st t s nd <> Fuel.
Proof.
  unfold gR. destruct (nk nd) as [w| |]; try discriminate. destruct (fst (tValue F st t s)); try discriminate.
  pose proof (rangeWeights_nofuel f (o occ s (mheap F st n)) w). destruct (rangeWeights _ _ _); try discriminate. congruence.
Qed.
Lemma gR_same K f nrm occ occ' st t s nd : sok M K st -> gR ordP f nrm occ st t s nd = gR ordP' f nrm occ' st t s nd.
Proof.
  intros (_ & H). unfold gR. destruct (nk nd) as [w| |]; auto. destruct (fst (tValue F st t s)) as [m|]; auto.
  destruct (HP occ s (mheap F st m) (H m)) as [A1 A2]. destruct (HP' occ' s (mheap F st m) (H m)) as [B1 B2].
  rewrite (rangeWeights_order f _ _ (mheap F st m) w A1 A2 B1 B2). auto.
Qed.

Lemma local_ow (proc : network A -> nat -> res (network A)) g (net : network A) l net' :
  (forall net s, proc net s = (nd <- g s (net s); Ok (upd net s nd))) ->
  (forall s nd nd', g s nd = Ok nd' -> nch nd' = nch nd /\ (nk nd' = nk nd \/ exists w w', nk nd = KSum w /\ nk nd' = KSum w' /\ length w' = length w)) ->
  (forall s, In s l -> reach (children net) r s) -> foldr_ proc l net = Ok net' -> only_weights r net net'.
Proof.
  intros Hp Hg Hl E. apply (foldr_ind (only_weights r net)) with (f := proc) (l := l) (s := net); auto; [|apply ow_refl].
  intros s n1 n2 Hs H1 E1. rewrite Hp in E1. destruct (g s (n1 s)) as [nd| |] eqn:Eg; try discriminate. injection E1 as <-.
  apply ow_trans with (b := n1); auto. destruct (Hg _ _ _ Eg) as (C & [K|(w & w' & K1 & K2 & L)]).
  - assert (nd = n1 s) by (destruct nd, (n1 s); cbn in *; congruence). subst nd. rewrite upd_id. apply ow_refl.
  - assert (nd = mkNode (KSum w') (nch (n1 s))) by (destruct nd; cbn in *; congruence). subst nd. eapply ow_set; eauto.
    rewrite (ow_children _ _ H1). auto.
Qed.
Lemma gR_shape o f nrm occ st t s nd nd' : gR o f nrm occ st t s nd = Ok nd' ->
  nch nd' = nch nd /\ (nk nd' = nk nd \/ exists w w', nk nd = KSum w /\ nk nd' = KSum w' /\ length w' = length w).
Proof.
  unfold gR. destruct (nk nd) as [w| |] eqn:EK; try (intros E; injection E as <-; auto; fail).
  destruct (fst (tValue F st t s)) as [m|]; [|intros E; injection E as <-; auto].
  destruct (rangeWeights f _ w) as [W| |] eqn:E; try discriminate. cbn [bind]. intros E'. injection E' as <-. cbn. split; auto. right.
  exists w, (maybeNorm nrm W). rewrite maybeNorm_len. apply rangeWeights_len in E. auto.
Qed.

Variable net : network A.
Local Notation below := (reach (children net) r).
Hypothesis HB : forall u, below u -> u < N.

Lemma keys_below (st : storer) t x : sok M below st -> keysOf st t x = true -> below x.
Proof.
  intros (H & _). unfold keysOf. destruct t as [t|]; [|discriminate]. destruct (theap F st t x) as [m|] eqn:E; [|discriminate]. intros _. eapply H; eauto.
Qed.
Lemma tValue_keys (st : storer) t x : keysOf st t x = false -> fst (tValue F st t x) = None.
Proof. unfold keysOf, tValue. destruct t as [t|]; auto. cbn. destruct (theap F st t x); auto. discriminate. Qed.

Lemma applyRange_agree f nrm occ occ' (st : storer) tk n : only_weights r net n -> sok M below st ->
  agree (only_weights r net) (applyRange ordN ordP f nrm occ st tk n) (applyRange ordN' ordP' f nrm occ' st tk n).
Proof.
  intros Hn Hs. unfold applyRange. set (t := fst (table F st tk)).
  destruct (HN occ (keysOf st t)) as [A1 A2]; [intros x Hx; apply HB; eapply keys_below; eauto|].
  destruct (HN' occ' (keysOf st t)) as [B1 B2]; [intros x Hx; apply HB; eapply keys_below; eauto|].
  split.
  - apply local_same with (g1 := gR ordP f nrm occ st t) (g2 := gR ordP' f nrm occ' st t);
      auto using rangeNode_local, gR_nofuel.
    + intros s Hx. left. apply B2, A2. auto.
    + intros s Hx. left. apply A2, B2. auto.
    + intros s _ _. eapply gR_same; eauto.
  - intros n' E. apply ow_trans with (b := n); auto. eapply local_ow in E; eauto using rangeNode_local, gR_shape.
    intros s Hx. rewrite (ow_children _ _ Hn). eapply keys_below; eauto. apply A2. auto.
Qed.

Definition gH (o : nat -> nat -> (Z -> option F) -> list (Z * F)) eta lambda nrm b occ (st : storer) dt pt (s : nat) (nd : node A) : res (node A) :=
  match nk nd with
  | KSum W0 => W <- rangeWeights (hdStep eta lambda b) (o occ s (countDiff st dt pt s)) W0; Ok (mkNode (KSum (maybeNorm nrm W)) (nch nd))
  | _ => Panic
  end.
Lemma hdNode_local o eta lambda nrm b occ st dt pt n s :
  hdNode o eta lambda nrm b occ st dt pt n s = (nd <- gH o eta lambda nrm b occ st dt pt s (n s); Ok (upd n s nd)).
Proof. unfold hdNode, gH. destruct (nk (n s)) as [w| |]; auto. destruct (rangeWeights _ _ _); auto. Qed.
Lemma gH_nofuel o eta lambda nrm b occ st dt pt s nd : gH o eta lambda nrm b occ st dt pt s nd <> Fuel.
Proof.
  unfold gH. destruct (nk nd) as [w| |]; try discriminate.
  pose proof (rangeWeights_nofuel (hdStep eta lambda b) (o occ s (countDiff st dt pt s)) w). destruct (rangeWeights _ _ _); try discriminate. congruence.
Qed.
Lemma gH_shape o eta lambda nrm b occ st dt pt s nd nd' : gH o eta lambda nrm b occ st dt pt s nd = Ok nd' ->
  nch nd' = nch nd /\ (nk nd' = nk nd \/ exists w w', nk nd = KSum w /\ nk nd' = KSum w' /\ length w' = length w).
Proof.
  unfold gH. destruct (nk nd) as [w| |]; try discriminate.
  destruct (rangeWeights _ _ w) as [W| |] eqn:E; try discriminate. cbn [bind]. intros E'. injection E' as <-. cbn. split; auto. right.
  exists w, (maybeNorm nrm W). rewrite maybeNorm_len. apply rangeWeights_len in E. auto.
Qed.
Lemma tEntry_pos (st : storer) t s i v : sok M below st -> tEntry F (fz 0) st t s i = (v, true) -> (0 <= i < Z.of_nat M)%Z.
Proof.
  intros (_ & H). unfold tEntry, tValue, map_get. destruct t as [t|]; [|discriminate]. destruct (theap F st t s) as [m|]; [|discriminate].
  destruct (mheap F st m i) as [x|] eqn:E; [|discriminate]. intros _. eapply H; eauto.
Qed.
Lemma countDiff_pos (st : storer) dt pt s : sok M below st -> forall i v, countDiff st dt pt s i = Some v -> (0 <= i < Z.of_nat M)%Z.
Proof.
  intros H i v. unfold countDiff. destruct (tEntry F (fz 0) st dt s i) as [d [|]] eqn:E1; [intros _; eapply tEntry_pos; eauto|].
  destruct (tEntry F (fz 0) st pt s i) as [p [|]] eqn:E2; [intros _; eapply tEntry_pos; eauto|discriminate].
Qed.

Lemma applyHDGD_agree eta lambda d p nrm b occ occ' (st : storer) n : only_weights r net n -> sok M below st ->
  agree (only_weights r net) (applyHDGD ordN ordP eta lambda d p nrm b occ st n) (applyHDGD ordN' ordP' eta lambda d p nrm b occ' st n).
Proof.
  intros Hn Hs. unfold applyHDGD. set (dt := fst (table F st d)). set (pt := fst (table F st p)).
  assert (HK : forall x, keysOf st dt x || keysOf st pt x = true -> below x).
  { intros x Hx. apply orb_true_iff in Hx as [Hx|Hx]; eapply keys_below; eauto. }
  destruct (HN occ (fun s => keysOf st dt s || keysOf st pt s)) as [A1 A2]; [auto|].
  destruct (HN' occ' (fun s => keysOf st dt s || keysOf st pt s)) as [B1 B2]; [auto|].
  split.
  - apply local_same with (g1 := gH ordP eta lambda nrm b occ st dt pt) (g2 := gH ordP' eta lambda nrm b occ' st dt pt);
      auto using hdNode_local, gH_nofuel.
    + intros s Hx. left. apply B2, A2. auto.
    + intros s Hx. left. apply A2, B2. auto.
    + intros s _ _. unfold gH. destruct (nk (n s)) as [w| |]; auto.
      destruct (HP occ s _ (countDiff_pos st dt pt s Hs)) as [C1 C2]. destruct (HP' occ' s _ (countDiff_pos st dt pt s Hs)) as [D1 D2].
      rewrite (rangeWeights_order _ _ _ _ w C1 C2 D1 D2). auto.
  - intros n' E. apply ow_trans with (b := n); auto. eapply local_ow in E; eauto using hdNode_local, gH_shape.
    intros s Hx. rewrite (ow_children _ _ Hn). apply HK. apply A2. auto.
Qed.

Lemma applyHGD_agree fuel eta lambda tk nrm b occ occ' (st : storer) n : only_weights r net n -> sok M below st ->
  agree (only_weights r net) (applyHGD ordP fuel r eta lambda tk nrm b occ st n) (applyHGD ordP' fuel r eta lambda tk nrm b occ' st n).
Proof.
  intros Hn Hs. unfold applyHGD.
  apply walk_agree with (K := reach (children n) r); auto.
  - intros u c Hu Hc. apply inner_sub in Hc. eapply reach_snoc; eauto.
  - intros n1 u Hu Hn1. rewrite !rangeNode_local. split.
    + rewrite (gR_same below _ nrm occ occ' st _ u (n1 u)) by auto. auto.
    + intros n2 E. apply ow_trans with (b := n1); auto.
      apply (local_ow (fun n s => nd <- gR ordP (hardStep eta lambda b) nrm occ st (fst (table F st tk)) s (n s); Ok (upd n s nd))
              (gR ordP (hardStep eta lambda b) nrm occ st (fst (table F st tk))) n1 [u] n2); auto.
      * intros. eapply gR_shape; eauto.
      * intros s [<-|[]]. rewrite (ow_children _ _ Hn1). rewrite (ow_children _ _ Hn) in Hu. auto.
      * cbn [foldr_]. rewrite E. reflexivity.
  - constructor.
Qed.
End Orders.

(** ** Updates without range loops *)
Lemma applyNode_ow eta nrm (st : storer) dt it (n n' : network A) u : reach (children n) r u -> applyNode eta nrm st dt it n u = Ok n' -> only_weights r n n'.
Proof.
  intros Hu. unfold applyNode. destruct (nk (n u)) as [W| |] eqn:EK; try (intros E; injection E as <-; apply ow_refl).
  destruct (foldi _ (nch (n u)) W) as [W'| |] eqn:E; try discriminate. cbn [bind]. intros E'. injection E' as <-.
  eapply ow_set; eauto. rewrite maybeNorm_len. revert E. apply foldi_ind with (J := fun W' => length W' = length W); auto.
  intros i x s s' _ Hs E. destruct (idx s i) as [wi| |]; try discriminate. injection E as <-. rewrite set_nth_len. auto.
Qed.
Lemma deriveApply_ow d fuel eta (st : storer) dtk itk nrm (n n' : network A) :
  deriveApplyWeights d fuel r eta st dtk itk nrm n = Ok n' -> only_weights r n n'.
Proof.
  unfold deriveApplyWeights. apply (walk_ind (only_weights r n) (reach (children n) r)); [| |constructor|apply ow_refl].
  - intros u c Hu Hc. apply inner_sub in Hc. eapply reach_snoc; eauto.
  - intros n1 u n2 Hu H1 E. apply ow_trans with (b := n1); auto. eapply applyNode_ow; eauto. rewrite (ow_children _ _ H1). auto.
Qed.
Lemma applyDGD_ow fuel s w z u (st : storer) eta lambda nrm b (n n' : network A) :
  applyDGD fuel r s w z u st eta lambda nrm b n = Ok n' -> only_weights r n n'.
Proof.
  unfold applyDGD. generalize (fst (table F st w)), (fst (table F st u)), (fst (table F st s)), (fst (table F st z)). intros dwt dut ist izt.
  enough (G : forall fuel Q n1, (forall x, In x Q -> x = r) -> only_weights r n n1 ->
     dgdLoop (dgdNode eta lambda nrm b st dwt dut ist izt) fuel Q [r] n1 = Ok n' -> only_weights r n n').
  { apply G; [intros x [<-|[]]; auto|apply ow_refl]. }
  clear fuel. induction fuel as [|k IH]; intros Q n1 HQ Hn E; [discriminate|]. simpl in E. destruct Q as [|q Q]; [congruence|].
  assert (q = r) by (apply HQ; left; auto). subst q.
  destruct (dgdNode eta lambda nrm b st dwt dut ist izt n1 r) as [n2| |] eqn:E1; try discriminate. cbn [bind] in E. apply IH in E; auto.
  - assert (X : forall cs Q, (forall x, In x Q -> x = r) -> forall x, In x (fold_left (fun Q0 c => if negb (isLeaf n1 c) && (Nat.eqb c r || false) then Q0 ++ [c] else Q0) cs Q) -> x = r).
    { clear. induction cs as [|c cs IH]; intros Q HQ x Hx; simpl in Hx; [auto|].
      destruct (negb (isLeaf n1 c) && (Nat.eqb c r || false)) eqn:Ec; [|eapply IH; eauto].
      eapply IH in Hx; eauto. intros y Hy. apply in_app_or in Hy as [Hy|[<-|[]]]; auto. apply andb_prop in Ec as [_ Ec].
      destruct (Nat.eqb_spec c r); auto; discriminate. }
    apply X. intros x Hx. apply HQ. right; auto.
  - apply ow_trans with (b := n1); auto. unfold dgdNode in E1. destruct (nk (n1 r)) as [W| |] eqn:EK; try (injection E1 as <-; apply ow_refl).
    destruct (mapi _ W) as [W'| |] eqn:EM; try discriminate. cbn [bind] in E1. injection E1 as <-.
    eapply ow_set; eauto; [constructor|]. rewrite maybeNorm_len. apply mapi_from_spec in EM. apply EM.
Qed.
End Shape.
