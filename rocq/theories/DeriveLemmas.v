From Coq Require Import Reals Lra.
From Verif Require Import Base Res Arith LogMath LogSpec LogLemmas GraphSpec GraphLemmas Topo TopoLemmas Search SearchLemmas
  Storer StorerSpec StorerLemmas Spn DP SpnSpec SpnLemmas ProbSpec ProbLemmas Walk WalkLemmas Struct StructSpec StructLemmas
  Derive DeriveSpec DiffLemmas.

(** The graph of inner nodes. *)
Section Inner.
Context {A : arith}.
Variable net : network A.
Local Notation ch := (children net).

Lemma inner_sub u c : In c (inner net u) -> In c (ch u).
Proof. unfold inner. rewrite filter_In. tauto. Qed.

Lemma inner_bounded N : bounded ch N -> bounded (inner net) N.
Proof. intros H u c Hc. eapply H. apply inner_sub. eauto. Qed.

Lemma inner_reach r u : reach (inner net) r u -> reach ch r u.
Proof.
  intros H. induction H as [|x c y Hc _ IH]; [apply reach_refl|]. eapply reach_step; eauto. apply inner_sub. auto.
Qed.

Lemma reach_last (g : graph) r u : reach g r u -> u = r \/ exists q, reach g r q /\ In u (g q).
Proof.
  intros H. induction H as [|x c y Hc _ IH]; auto. right. destruct IH as [->|(q & Hq & Hin)].
  - exists x. split; auto. apply reach_refl.
  - exists q. split; auto. eapply reach_step; eauto.
Qed.

Lemma reach_inner_parent r : leaves_childless net -> forall u, reach ch r u ->
  reach (inner net) r u \/ (isLeaf net u = true /\ ch u = [] /\ u <> r).
Proof.
  intros HL.
  assert (X : forall u n, path_len ch r u n -> reach (inner net) r u \/ (isLeaf net u = true /\ ch u = [] /\ u <> r)).
  { intros u n H. remember r as s eqn:Es. induction H as [|s y c n H IH Hc]; [left; apply reach_refl|].
    subst s. specialize (IH eq_refl). destruct IH as [IH|(_ & E & _)]; [|rewrite E in Hc; destruct Hc].
    destruct (isLeaf net c) eqn:El.
    - destruct (Nat.eq_dec c r) as [->|Hn]; [left; apply reach_refl|]. right. split; auto. split; auto.
      unfold isLeaf in El. unfold children. destruct (nk (net c)) eqn:EK; try discriminate. eapply HL; eauto.
    - left. apply reach_snoc with y; auto. unfold inner. rewrite filter_In, El. auto. }
  intros u Hu. destruct (reach_path _ _ _ Hu) as (n & Hp). eauto.
Qed.

Lemma path_inner r u n : path_len (inner net) r u n -> path_len ch r u n.
Proof. intros H. induction H; [constructor|]. eapply path_len_S; eauto. apply inner_sub; auto. Qed.

(** Parents come first. *)
Definition topdown (r : nat) (calls : list nat) : Prop :=
  forall a p b, calls = a ++ p :: b -> forall q, reach ch r q -> In p (ch q) -> In q a.

Lemma parent_called r calls q p : leaves_childless net -> enumerates (inner net) r calls ->
  reach ch r q -> In p (ch q) -> In q calls.
Proof.
  intros HL [_ He] Hq Hp. apply He. destruct (reach_inner_parent r HL q Hq) as [H|(_ & E & _)]; auto.
  rewrite E in Hp. destruct Hp.
Qed.

Lemma topdown_queue N r calls : leaves_childless net -> bounded ch N -> r < N -> acyclic ch -> uniform_depth ch r ->
  searchFunc (inner net) UseQueue (fun _ _ => 0%Z) (S N) r = Some calls -> enumerates (inner net) r calls ->
  topdown r calls.
Proof.
  intros HL Hb Hr Ha Hu Es He a p b E q Hq Hp.
  pose proof (parent_called r calls q p HL He Hq Hp) as Hin. rewrite E in Hin.
  apply in_app_or in Hin as [Hin|Hin]; auto. exfalso.
  assert (Hqp : q <> p) by (intros ->; eapply Ha; [exact Hp|apply reach_refl]).
  destruct Hin as [Hin|Hin]; [congruence|].
  assert (Hpi : reach (inner net) r p) by (apply He; rewrite E; apply in_or_app; right; left; auto).
  assert (Hqi : reach (inner net) r q) by (apply He; rewrite E; apply in_or_app; right; right; auto).
  assert (HD : forall x n, path_len (inner net) r x n -> distance (inner net) r x n).
  { intros x n Hx. split; auto. intros m Hm. rewrite (Hu x n m); auto; apply path_inner; auto. }
  destruct (reach_path _ _ _ Hpi) as (np & Hnp). destruct (reach_path _ _ _ Hqi) as (nq & Hnq).
  pose proof (bfs_order _ _ _ _ Es a p b E q np nq Hin (HD _ _ Hnp) (HD _ _ Hnq)) as Hle.
  assert (np = S nq); [|lia]. apply (Hu p); [apply path_inner; auto|]. eapply path_len_S; eauto. apply path_inner; auto.
Qed.
End Inner.

(** Every called node except the first was given by a node called before it. *)
Lemma search_given g d r k : forall F V calls calls',
  search_loop g d (fun _ _ => 0%Z) k F V calls = Some calls' ->
  (forall x, In x F -> x = r \/ exists q, In q calls /\ In x (g q)) ->
  (forall a p b, calls = a ++ p :: b -> p = r \/ exists q, In q a /\ In p (g q)) ->
  forall a p b, calls' = a ++ p :: b -> p = r \/ exists q, In q a /\ In p (g q).
Proof.
  induction k as [|k IH]; intros F V calls calls' E HF HC; [discriminate|]. simpl in E.
  destruct F as [|u F]; [injection E as <-; auto|].
  assert (GC : forall cs F V F2 V2, give_children d cs (F, V) = (F2, V2) -> forall x, In x F2 -> In x F \/ In x cs).
  { clear. induction cs as [|c cs IH]; intros F V F2 V2 E x Hx; simpl in E.
    - injection E as <- <-. auto.
    - unfold give_children in E. cbn [fold_left] in E. destruct (memn c V).
      + destruct (IH _ _ _ _ E x Hx); simpl; auto.
      + destruct (IH _ _ _ _ E x Hx) as [H|H]; [|simpl; auto]. destruct d; simpl in H.
        * apply in_app_or in H as [H|[<-|[]]]; simpl; auto.
        * destruct H as [<-|H]; simpl; auto. }
  destruct (give_children d (g u) (F, V)) as [F2 V2] eqn:EG.
  apply (IH F2 V2 (calls ++ [u]) calls' E).
  - intros x Hx. destruct (GC _ _ _ _ _ EG x Hx) as [H|H].
    + destruct (HF x (or_intror H)) as [->|(q & Hq & Hin)]; auto. right. exists q. split; auto. apply in_or_app; auto.
    + right. exists u. split; auto. apply in_or_app; right; left; auto.
  - intros a p b Eab. destruct b as [|y b] using rev_ind.
    + apply app_inj_tail in Eab as [<- <-]. apply HF. left; auto.
    + rewrite app_comm_cons, app_assoc in Eab. apply app_inj_tail in Eab as [-> _]. eapply HC; eauto.
Qed.

Lemma topdown_tree {A : arith} (net : network A) d N r calls : leaves_childless net -> tree (children net) r ->
  searchFunc (inner net) d (fun _ _ => 0%Z) (S N) r = Some calls -> enumerates (inner net) r calls ->
  topdown net r calls.
Proof.
  intros HL (H1 & H2 & H3) Es He a p b E q Hq Hp. unfold searchFunc in Es.
  destruct (search_given _ d r _ _ _ _ _ Es) with (a := a) (p := p) (b := b) as [->|(q' & Hq' & Hin)]; auto.
  - intros x [<-|[]]; auto.
  - intros a' p' b' E'. destruct a'; discriminate.
  - exfalso. eapply H1; eauto.
  - assert (q' = q); [|subst; auto]. eapply H3; eauto. apply inner_sub; auto.
Qed.

(** Accumulating contributions in a table. *)
Section Acc.
Variables (k : Z) (t : nat) (base : storer xreal).
Hypothesis Ht : tables xreal base k = Some t.
Variable ok : nat -> Prop.
Local Notation tinv := (@tinv XR k base).
Local Notation tget := (@tget XR k).
Local Open Scope R_scope.

Definition acc (L : list (nat * R)) (c : nat) : R := Rsum (map (fun p => ind (fst p) c * snd p) L).
Definition has (L : list (nat * R)) (c : nat) : bool := existsb (fun p => Nat.eqb (fst p) c) L.
Definition tab (L : list (nat * R)) (st : storer xreal) : Prop :=
  forall c, ok c -> tget st c = if has L c then Some (xln (acc L c)) else None.
Definition pos (L : list (nat * R)) : Prop := forall p, In p L -> 0 <= snd p.

Lemma acc_app L M c : acc (L ++ M) c = acc L c + acc M c.
Proof. unfold acc. rewrite map_app, Rsum_app. auto. Qed.
Lemma has_app L M c : has (L ++ M) c = has L c || has M c.
Proof. unfold has. apply existsb_app. Qed.
Lemma has_In L c : has L c = true <-> exists a, In (c, a) L.
Proof.
  unfold has. rewrite existsb_exists. split.
  - intros ((x, a) & H1 & H2). apply Nat.eqb_eq in H2. simpl in H2. subst. eauto.
  - intros (a & H). exists (c, a). rewrite Nat.eqb_refl. auto.
Qed.
Lemma acc_none L c : has L c = false -> acc L c = 0.
Proof.
  unfold has, acc. induction L as [|(x, a) L IH]; simpl; auto. destruct (Nat.eqb x c) eqn:E; [discriminate|].
  simpl. intros H. rewrite IH by auto. unfold ind. rewrite E. lra.
Qed.
Lemma acc_nonneg L c : pos L -> 0 <= acc L c.
Proof.
  intros H. apply Rsum_nonneg. intros x Hx. apply in_map_iff in Hx as (p & <- & Hp). unfold ind.
  specialize (H p Hp). destruct (Nat.eqb (fst p) c); lra.
Qed.
Lemma acc_one c a x : acc [(c, a)] x = ind c x * a.
Proof. unfold acc. simpl. lra. Qed.

Lemma addOne st L c a : tinv st -> tab L st -> pos L -> ok c -> 0 <= a ->
  exists st', (let (v, e) := tSingle xreal (Fin 0) st (Some t) c in
     @storeVia XR st (Some t) c (if e then @logSumExpPair XR v (xln a) else xln a)) = Ok st' /\
    tinv st' /\ tab (L ++ [(c, a)]) st'.
Proof.
  intros HI HT HP Hc Ha.
  pose proof (@tSingle_get XR k t base Ht st c HI) as E. change (@fz XR 0) with (Fin 0) in E. 
  change (F XR) with xreal in E. rewrite E. pose proof (HT c Hc) as Hg. rewrite Hg.
  destruct (has L c) eqn:Eh.
  - rewrite logSumExpPair_l by apply logval_xln. rewrite !lin_xln by (auto; apply acc_nonneg; auto).
    destruct (@storeVia_ok XR k t base Ht st c (xln (acc L c + a)) HI) as (st' & E' & HI' & Hs & Ho).
    exists st'. split; auto. split; auto. intros x Hx. rewrite has_app, acc_app, acc_one. unfold ind.
    destruct (Nat.eq_dec x c) as [->|Hn].
    + rewrite Hs, Eh, Nat.eqb_refl. simpl. f_equal. f_equal. lra.
    + rewrite Ho by auto. rewrite (HT x Hx). assert (En : Nat.eqb c x = false) by (apply Nat.eqb_neq; auto). rewrite En.
      replace (has [(c, a)] x) with false by (unfold has; cbn [existsb fst]; rewrite En; auto).
      rewrite orb_false_r. destruct (has L x); auto. f_equal. f_equal. lra.
  - destruct (@storeVia_ok XR k t base Ht st c (xln a) HI) as (st' & E' & HI' & Hs & Ho).
    exists st'. split; auto. split; auto. intros x Hx. rewrite has_app, acc_app, acc_one. unfold ind.
    destruct (Nat.eq_dec x c) as [->|Hn].
    + rewrite Hs, (acc_none _ _ Eh), Nat.eqb_refl.
      replace (has [(c, a)] c) with true by (unfold has; cbn [existsb fst]; rewrite Nat.eqb_refl; auto).
      rewrite orb_true_r. f_equal. f_equal. lra.
    + rewrite Ho by auto. rewrite (HT x Hx). assert (En : Nat.eqb c x = false) by (apply Nat.eqb_neq; auto). rewrite En.
      replace (has [(c, a)] x) with false by (unfold has; cbn [existsb fst]; rewrite En; auto).
      rewrite orb_false_r. destruct (has L x); auto. f_equal. f_equal. lra.
Qed.

Lemma addMany (f : nat -> storer xreal -> nat -> res (storer xreal)) (D : R) : forall cs es i st L,
  length es = length cs ->
  (forall j c e, nth_error cs j = Some c -> nth_error es j = Some e -> forall st, tinv st ->
     f (i + j)%nat st c = (let (v, b) := tSingle xreal (Fin 0) st (Some t) c in
        @storeVia XR st (Some t) c (if b then @logSumExpPair XR v (xln (D * e)) else xln (D * e)))) ->
  (forall c, In c cs -> ok c) -> 0 <= D -> (forall e, In e es -> 0 <= e) -> tinv st -> tab L st -> pos L ->
  exists st', foldi_from i f cs st = Ok st' /\ tinv st' /\
    tab (L ++ map (fun ce => (fst ce, D * snd ce)) (combine cs es)) st'.
Proof.
  induction cs as [|c cs IH]; intros es i st L HL Hf Hok HD He HI HT HP.
  - exists st. simpl. rewrite app_nil_r. auto.
  - destruct es as [|e es]; [discriminate|]. cbn [foldi_from].
    pose proof (Hf 0%nat c e eq_refl eq_refl st HI) as E0. rewrite Nat.add_0_r in E0.
    destruct (addOne st L c (D * e)) as (st1 & E1 & HI1 & HT1); auto.
    { apply Hok; left; auto. }
    { apply Rmult_le_pos; auto. apply He; left; auto. }
    assert (E2 : f i st c = Ok st1) by exact (eq_trans E0 E1). rewrite E2. cbn [bind].
    destruct (IH es (i + 1)%nat st1 (L ++ [(c, D * e)])) as (st2 & E3 & HI2 & HT2); auto.
    + intros j c' e' Hc' He' st' HI'. rewrite <- Nat.add_assoc. apply (Hf (1 + j)%nat); auto.
    + intros; apply Hok; right; auto.
    + intros; apply He; right; auto.
    + intros p Hp. apply in_app_or in Hp as [Hp|[<-|[]]]; auto. simpl. apply Rmult_le_pos; auto. apply He; left; auto.
    + exists st2. split; auto. split; auto. rewrite <- app_assoc in HT2. exact HT2.
Qed.
End Acc.

(** learn/derive.go:57-63. *)
Lemma others_xln (p : nat -> R) cs i a : (forall c, In c cs -> (0 <= p c)%R) -> (0 <= a)%R -> i < length cs ->
  @others XR (fun c => xln (p c)) cs i (xln a) = xln (a * nth i (oth (map p cs)) 0)%R.
Proof.
  unfold others.
  assert (X1 : forall cs k a, (forall c, In c cs -> (0 <= p c)%R) -> (0 <= a)%R -> i < k ->
    snd (fold_left (fun (b : nat * xreal) c => (S (fst b), if Nat.eqb (fst b) i then snd b else xadd (snd b) (xln (p c)))) cs (k, xln a))
    = xln (a * Rprod (map p cs))%R).
  { induction cs0 as [|c cs0 IH]; intros k a0 Hp Ha Hk; simpl.
    - f_equal. lra.
    - destruct (Nat.eqb_spec k i); [lia|]. rewrite xadd_xln by (auto; apply Hp; left; auto).
      rewrite IH; [f_equal; lra|intros; apply Hp; right; auto| |lia].
      apply Rmult_le_pos; auto. apply Hp; left; auto. }
  assert (X2 : forall cs k a, (forall c, In c cs -> (0 <= p c)%R) -> (0 <= a)%R -> k <= i < k + length cs ->
    snd (fold_left (fun (b : nat * xreal) c => (S (fst b), if Nat.eqb (fst b) i then snd b else xadd (snd b) (xln (p c)))) cs (k, xln a))
    = xln (a * nth (i - k) (oth (map p cs)) 0)%R).
  { induction cs0 as [|c cs0 IH]; intros k a0 Hp Ha Hk; simpl in Hk; [lia|]. simpl.
    destruct (Nat.eqb_spec k i) as [->|Hn].
    - rewrite Nat.sub_diag. apply X1; [intros; apply Hp; right; auto|auto|lia].
    - rewrite xadd_xln by (auto; apply Hp; left; auto).
      rewrite IH; [|intros; apply Hp; right; auto| |lia].
      + destruct (i - k) as [|m] eqn:Em; [lia|]. replace (i - S k) with m by lia. f_equal.
        assert (En : nth m (map (Rmult (p c)) (oth (map p cs0))) 0%R = (p c * nth m (oth (map p cs0)) 0)%R).
        { rewrite nth_indep with (d' := (p c * 0)%R).
          - apply (map_nth (Rmult (p c))).
          - rewrite map_length, oth_length, map_length. lia. }
        rewrite En. lra.
      + apply Rmult_le_pos; auto. apply Hp; left; auto. }
  intros Hp Ha Hi. pose proof (X2 cs 0 a Hp Ha ltac:(lia)) as H. rewrite Nat.sub_0_r in H. exact H.
Qed.

Lemma others_ext {A : arith} (f g : nat -> F A) cs i a : (forall c, In c cs -> f c = g c) -> others f cs i a = others g cs i a.
Proof.
  intros H. unfold others. f_equal. revert H. generalize (O, a) as q. induction cs as [|c cs IH]; intros q H; auto.
  cbn [fold_left]. rewrite (H c) by (left; auto). apply IH. intros; apply H; right; auto.
Qed.

Section Spn.
Variable net : network XR.
Variables N r : nat.
Variable I : varset.
Local Notation ch := (children net).
Hypothesis Hb : bounded ch N.
Hypothesis Hr : r < N.
Hypothesis Ha : acyclic ch.
Hypothesis HW : weights_nonneg net r.
Hypothesis HV : leaf_values net I r.
Hypothesis HL : leaves_childless net.
Local Notation P := (P net N I).
Local Notation edges := (edges net N I).
Variables (k ik : Z) (t ti : nat) (base : storer xreal).
Hypothesis Ht : tables xreal base k = Some t.
Hypothesis Hti : tables xreal base ik = Some ti.
Hypothesis Hk : ik <> k.
Hypothesis Hinf : forall u, reach ch r u -> cval xreal base ik u 0 = Some (xln (P u)).
Local Notation tinv := (@tinv XR k base).
Local Notation tget := (@tget XR k).
Local Notation tab := (tab k (reach ch r)).
Local Open Scope R_scope.

Definition contrib (Dm : nat -> R) (p : nat) : list (nat * R) := map (fun ce => (fst ce, Dm p * snd ce)) (edges p).

Lemma P_pos u : reach ch r u -> 0 <= P u.
Proof. intros Hu. apply (P_gen net N r Hb Hr Ha HW I HV u Hu). Qed.

Lemma inf_read st u : tinv st -> reach ch r u -> tSingle xreal (Fin 0) st (Some ti) u = (xln (P u), true).
Proof.
  intros (W & E & _ & Ho) Hu. change (F XR) with xreal in *. unfold tSingle. rewrite (tEntry_cval xreal (Fin 0) st ik ti u 0) by (rewrite E; auto).
  rewrite Ho by auto. rewrite Hinf; auto.
Qed.

Lemma deriveNode_ok p st L : reach ch r p -> tinv st -> tab L st -> pos L -> has L p = true ->
  exists st', @deriveNode XR net (Some t) (Some ti) st p = Ok st' /\ tinv st' /\ tab (L ++ contrib (acc L) p) st'.
Proof.
  intros Hp HI HT HP Hh.
  assert (HD : 0 <= acc L p) by (apply acc_nonneg; auto).
  assert (Epv : fst (tSingle xreal (Fin 0) st (Some t) p) = xln (acc L p)).
  { pose proof (@tSingle_get XR k t base Ht st p HI) as E. change (@fz XR 0) with (Fin 0) in E.
    change (F XR) with xreal in E. rewrite E, (HT p Hp), Hh. reflexivity. }
  assert (Hch : forall c, In c (nch (net p)) -> reach ch r c) by (intros c Hc; eapply reach_snoc; [exact Hp|exact Hc]).
  unfold deriveNode. change (@fz XR 0) with (Fin 0). change (F XR) with xreal.
  rewrite Epv. unfold contrib, DiffLemmas.edges. destruct (nk (net p)) as [w| |l] eqn:EK.
  - destruct (HW p w Hp EK) as (Hne & ws & -> & HLen & Hnn). rewrite map_map. cbn [unfin]. rewrite map_id.
    unfold foldi. apply (addMany k t base Ht (reach ch r)); auto.
    intros j c e Hc He st' HI'. simpl Nat.add. destruct (tSingle xreal (Fin 0) st' (Some t) c) as [v b].
    unfold idx. rewrite nth_error_map, He. cbn [option_map bind].
    assert (0 <= e) by (apply Hnn; eapply nth_error_In; eauto).
    change (@flog XR) with xlog. change (@fadd XR) with xadd. rewrite xlog_nonneg by auto.
    rewrite xadd_xln by auto. rewrite (Rmult_comm e). reflexivity.
  - unfold foldi. apply (addMany k t base Ht (reach ch r)); auto.
    + rewrite oth_length, map_length. auto.
    + intros j c e Hc He st' HI'. simpl Nat.add. destruct (tSingle xreal (Fin 0) st' (Some t) c) as [v b].
      assert (Eo : @others XR (fun c0 => fst (tSingle xreal (Fin 0) st' (Some ti) c0)) (nch (net p)) j (xln (acc L p))
        = xln (acc L p * e)).
      { transitivity (@others XR (fun c0 => xln (P c0)) (nch (net p)) j (xln (acc L p))).
        - apply others_ext. intros d Hd. rewrite (inf_read st' d HI' (Hch d Hd)). reflexivity.
        - rewrite others_xln; auto.
          + f_equal. f_equal. apply nth_error_nth. auto.
          + intros c0 Hc0. apply P_pos. auto.
          + apply nth_error_Some. congruence. }
      rewrite Eo. reflexivity.
    + apply oth_nonneg. intros x Hx. apply in_map_iff in Hx as (c & <- & Hc). apply P_pos; auto.
  - rewrite (HL p l EK). exists st. simpl. rewrite app_nil_r. auto.
Qed.

Lemma contrib_pos Dm p : 0 <= Dm p -> reach ch r p -> pos (contrib Dm p).
Proof.
  intros HD Hp q Hq. apply in_map_iff in Hq as (ce & <- & Hin). simpl. apply Rmult_le_pos; auto.
  eapply (edges_nonneg net N r I); eauto.
Qed.

Lemma contrib_has Dm p c : reach ch r p -> (has (contrib Dm p) c = true <-> In c (ch p)).
Proof.
  intros Hp. rewrite has_In, (edges_in net N r I HW HL p c Hp). unfold contrib. split.
  - intros (a & H). apply in_map_iff in H as ((d, e) & E & Hin). simpl in E. injection E as -> _. eauto.
  - intros (e & H). exists (Dm p * e). apply in_map_iff. exists (c, e). auto.
Qed.

Lemma flat_has Dm a c : (forall p, In p a -> reach ch r p) ->
  (has (flat_map (contrib Dm) a) c = true <-> exists p, In p a /\ In c (ch p)).
Proof.
  intros Hr'. rewrite has_In. split.
  - intros (x & H). apply in_flat_map in H as (p & Hp & Hin). exists p. split; auto.
    apply (contrib_has Dm p c (Hr' p Hp)). apply has_In. eauto.
  - intros (p & Hp & Hc). apply (contrib_has Dm p c (Hr' p Hp)) in Hc. apply has_In in Hc as (x & Hx).
    exists x. apply in_flat_map. eauto.
Qed.

Definition J (a : list nat) (st : storer xreal) : Prop :=
  tinv st /\ exists Dm, let L := (r, 1) :: flat_map (contrib Dm) a in
    tab L st /\ pos L /\ forall p, In p a -> Dm p = acc L p.

Lemma has_called Dm a p : topdown net r (a ++ [p]) -> (forall q, In q (a ++ [p]) -> reach ch r q) -> 
  has ((r, 1) :: flat_map (contrib Dm) a) p = true.
Proof.
  intros HT Hre. destruct (reach_last ch r p) as [->|(q & Hq & Hin)].
  { apply Hre. apply in_or_app; right; left; auto. }
  - unfold has. simpl. rewrite Nat.eqb_refl. auto.
  - assert (Hqa : In q a) by (eapply HT; eauto).
    unfold has. cbn [existsb]. apply orb_true_iff. right. apply flat_has; eauto.
    intros x Hx. apply Hre. apply in_or_app; auto.
Qed.

Lemma deriveLoop_ok calls st0 : enumerates (inner net) r calls -> topdown net r calls -> J [] st0 ->
  exists st, foldr_ (@deriveNode XR net (Some t) (Some ti)) calls st0 = Ok st /\ J calls st.
Proof.
  intros [Hn He] HT H0. apply foldr_inv; auto.
  intros a p b s E (HI & Dm & HTb & HP & HD).
  assert (Hre : forall q, In q calls -> reach ch r q) by (intros q Hq; apply inner_reach; apply He; auto).
  assert (Hpc : reach ch r p) by (apply Hre; rewrite E; apply in_or_app; right; left; auto).
  assert (Hra : forall q, In q a -> reach ch r q) by (intros q Hq; apply Hre; rewrite E; apply in_or_app; auto).
  assert (Hpa : ~ In p a).
  { rewrite E in Hn. intros Hin. apply NoDup_remove_2 in Hn. apply Hn. apply in_or_app; auto. }
  set (L := (r, 1) :: flat_map (contrib Dm) a) in *.
  assert (Hh : has L p = true).
  { apply has_called.
    - intros a' p' b' E' q Hq Hin. eapply HT; eauto. rewrite E. change (p :: b) with ([p] ++ b). rewrite app_assoc, E'.
      rewrite <- app_assoc. reflexivity.
    - intros q Hq. apply Hre. rewrite E. apply in_app_or in Hq as [Hq|[<-|[]]]; apply in_or_app; simpl; auto. }
  destruct (deriveNode_ok p s L Hpc HI HTb HP Hh) as (s' & Es & HI' & HT').
  exists s'. split; auto. split; auto. exists (upd Dm p (acc L p)). cbv zeta.
  assert (Efm : flat_map (contrib (upd Dm p (acc L p))) (a ++ [p]) = flat_map (contrib Dm) a ++ contrib (acc L) p).
  { rewrite flat_map_app. simpl. rewrite app_nil_r. f_equal.
    - generalize (acc L p) as v. intros v. clear - Hpa. induction a as [|q a IH]; auto. simpl. f_equal.
      + unfold contrib. rewrite upd_diff; auto. intros ->. apply Hpa; left; auto.
      + apply IH. intros H. apply Hpa; right; auto.
    - unfold contrib. rewrite upd_same. auto. }
  rewrite Efm. change ((r, 1) :: flat_map (contrib Dm) a ++ contrib (acc L) p) with (L ++ contrib (acc L) p).
  split; auto. split.
  - intros q Hq. apply in_app_or in Hq as [Hq|Hq]; auto. eapply contrib_pos; eauto. apply acc_nonneg; auto.
  - assert (Hnc : forall q, In q (a ++ [p]) -> acc (contrib (acc L) p) q = 0).
    { intros q Hq. apply acc_none. destruct (has (contrib (acc L) p) q) eqn:Eq; auto. exfalso.
      apply contrib_has in Eq; auto. apply in_app_or in Hq as [Hq|[<-|[]]].
      - apply in_split in Hq as (a1 & a2 & Ea). assert (Hin : In p a1).
        { eapply (HT a1 q (a2 ++ p :: b)); eauto. rewrite E, Ea, <- app_assoc. reflexivity. }
        apply Hpa. rewrite Ea. apply in_or_app; auto.
      - eapply Ha; [exact Eq|apply reach_refl]. }
    intros q Hq. rewrite acc_app, (Hnc q Hq), Rplus_0_r. apply in_app_or in Hq as [Hq|[<-|[]]].
    + rewrite upd_diff by (intros ->; contradiction). auto.
    + apply upd_same.
Qed.

Lemma flat_acc (Dm D : nat -> R) c : forall cs, (forall p, In p cs -> Dm p = D p) ->
  Rsum (map (fun p => ind (fst p) c * snd p) (flat_map (contrib Dm) cs)) =
  Rsum (map (fun x => Rsum (map (fun ce => ind (fst ce) c * (D x * snd ce)) (edges x))) cs).
Proof.
  induction cs as [|p cs IH]; intros HD; simpl; auto.
  rewrite map_app, Rsum_app. rewrite IH by (intros; apply HD; right; auto).
  f_equal. unfold contrib. rewrite map_map. apply Rsum_ext. intros (d, e) _. simpl. rewrite (HD p) by (left; auto). auto.
Qed.

Lemma deriveLoop_final calls st : enumerates (inner net) r calls -> topdown net r calls -> J calls st ->
  tinv st /\ forall u, reach ch r u -> exists D, 0 <= D /\ tget st u = Some (xln D) /\ node_derivative net I N r u D.
Proof.
  intros [Hn He] HT (HI & Dm & HTb & HP & HD). split; auto.
  set (L := (r, 1) :: flat_map (contrib Dm) calls) in *.
  assert (Hre : forall q, In q calls -> reach ch r q) by (intros q Hq; apply inner_reach; apply He; auto).
  intros u Hu. exists (acc L u). split; [apply acc_nonneg; auto|]. split.
  - rewrite (HTb u Hu). destruct (has L u) eqn:Eh; auto. exfalso. destruct (reach_last ch r u Hu) as [->|(q & Hq & Hin)].
    + unfold L, has in Eh. simpl in Eh. rewrite Nat.eqb_refl in Eh. discriminate.
    + assert (Hqc : In q calls) by (eapply parent_called; eauto; split; auto).
      assert (has (flat_map (contrib Dm) calls) u = true) by (apply flat_has; eauto).
      unfold L, has in Eh. cbn [existsb] in Eh. apply orb_false_iff in Eh as [_ Eh]. unfold has in H. congruence.
  - apply (backward_derivative net N r I Hb Hr Ha HW HV HL (acc L) calls); auto.
    + intros x Hx Hnx. destruct (reach_inner_parent net r HL x Hx) as [H|(_ & E & _)]; auto.
      exfalso. apply Hnx. apply He. auto.
    + intros c Hc. unfold L at 1. unfold acc. cbn [map Rsum fst snd]. rewrite (ind_sym c r). f_equal; [lra|].
      apply flat_acc. auto.
Qed.
End Spn.
