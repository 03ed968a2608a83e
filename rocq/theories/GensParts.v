(** The parts of the learner of Gens and Domingos: scopes, restricted data, counts and clusters. *)
From Verif Require Import Base Res Arith GraphSpec Spn Build GoMap Tables TablesSpec TablesLemmas DataSpec DataLemmas Leaves Stats StatsLemmas
  Indep IndepSpec IndGraphLemmas ClusterSpec Dbscan DbscanLemmas DbscanData Gens GensSpec GensTree.

(** Running a loop whose steps either succeed or fail for a known reason. *)
Lemma mapi_or {T U} (f : nat -> T -> res U) (Q : nat -> U -> Prop) (B : Prop) : forall l k,
  (forall i x, nth_error l i = Some x -> (exists y, f (k + i) x = Ok y /\ Q i y) \/ (B /\ f (k + i) x = Panic)) ->
  (exists ys, mapi_from k f l = Ok ys /\ length ys = length l /\ forall i y, nth_error ys i = Some y -> Q i y) \/ (B /\ mapi_from k f l = Panic).
Proof.
  intros l. revert Q. induction l as [|x l IH]; intros Q k H; cbn [mapi_from].
  - left. exists []. split; auto. split; auto. intros [|i] y E; discriminate.
  - destruct (H 0 x eq_refl) as [(y & E & Hy)|(HB & E)]; rewrite Nat.add_0_r in E; rewrite E; cbn [bind]; auto.
    destruct (IH (fun i => Q (S i)) (S k)) as [(ys & E' & L & Hq)|(HB & E')].
    { intros i x' Hx. replace (S k + i) with (k + S i) by lia. apply (H (S i) x'). auto. }
    + rewrite E'. left. exists (y :: ys). split; auto. split; [simpl; lia|]. intros [|i] z Ez; cbn [nth_error] in Ez; [injection Ez as <-; auto|auto].
    + rewrite E'. auto.
Qed.

(** ** Maps and scopes *)
Lemma keys_get m x : In x (keys m) <-> get m x <> None.
Proof. pose proof (get_None m x). destruct (in_dec Z.eq_dec x (keys m)) as [H1|H1]; split; auto; [intros _ E|intros E; exfalso; apply E]; apply H in E || apply H; auto. Qed.

Lemma restrict_nodup ks I : NoDup (keys (restrictTo ks I)).
Proof.
  unfold restrictTo. assert (G : forall ks a, NoDup (keys a) -> NoDup (keys (fold_left (fun t k => put t k (get0 I k)) ks a))).
  { induction ks0 as [|k ks0 IH]; intros a Ha; cbn [fold_left]; auto. apply IH, NoDup_put; auto. }
  apply G. constructor.
Qed.
Lemma restrict_get ks I x : get (restrictTo ks I) x = if in_dec Z.eq_dec x ks then Some (get0 I x) else None.
Proof.
  unfold restrictTo. assert (G : forall ks a, get (fold_left (fun t k => put t k (get0 I k)) ks a) x = if in_dec Z.eq_dec x ks then Some (get0 I x) else get a x).
  { induction ks0 as [|k ks0 IH]; intros a; cbn [fold_left]; auto. rewrite IH, get_put.
    destruct (in_dec Z.eq_dec x ks0) as [H|H]; destruct (in_dec Z.eq_dec x (k :: ks0)) as [H'|H']; auto; simpl in H'.
    - exfalso. auto.
    - destruct (Z.eqb_spec k x) as [->|N]; auto. exfalso. destruct H'; auto.
    - destruct (Z.eqb_spec k x) as [->|N]; auto. exfalso. auto. }
  apply G.
Qed.

Lemma lookup_in Sc x v : NoDup (map fst Sc) -> In (x, v) Sc -> lookup Sc x = Some v.
Proof.
  unfold lookup. induction Sc as [|[y w] Sc IH]; intros N H; [destruct H|]. cbn [List.find fst map] in *. apply NoDup_cons_iff in N as (N1 & N2).
  destruct (Z.eqb_spec y x) as [->|Ne].
  - destruct H as [E|H]; [injection E as <-; auto|]. exfalso. apply N1, in_map_iff. exists (x, v). auto.
  - destruct H as [E|H]; [congruence|auto].
Qed.
Lemma lookup_some Sc x : In x (map fst Sc) -> exists v, lookup Sc x = Some v /\ In (x, v) Sc.
Proof.
  unfold lookup. induction Sc as [|[y w] Sc IH]; intros H; [destruct H|]. cbn [List.find fst map] in *.
  destruct (Z.eqb_spec y x) as [->|Ne]; [exists w; split; auto; left; auto|]. destruct H as [E|H]; [congruence|]. destruct (IH H) as (v & E & I). exists v. split; auto. right; auto.
Qed.

Lemma subScope_l Sc ks : (forall x, In x ks -> In x (map fst Sc)) ->
  exists nsc, subScope Sc ks = Ok nsc /\ map fst nsc = ks /\ (forall x v, In (x, v) nsc -> v_id v = x /\ exists w, In (x, w) Sc /\ v_cat v = v_cat w).
Proof.
  unfold subScope, mapi. generalize 0. induction ks as [|k ks IH]; intros n H; cbn [mapi_from].
  - exists []. split; auto. split; auto. intros x v [].
  - destruct (lookup_some Sc k (H k (or_introl eq_refl))) as (v & -> & Hv). cbn [orPanic bind].
    destruct (IH (S n)) as (nsc & -> & E & Hn); [intros; apply H; right; auto|]. cbn [bind].
    eexists. split; [reflexivity|]. split; [cbn [map fst]; congruence|]. intros x w [E'|Hw]; [injection E' as <- <-; cbn [v_id v_cat]; split; auto; exists v; auto|auto].
Qed.

(** A group of variables is learnable. *)
Lemma learnable_group Sc D ks nsc : learnable Sc D -> ks <> [] -> NoDup ks -> (forall x, In x ks -> In x (map fst Sc)) ->
  map fst nsc = ks -> (forall x v, In (x, v) nsc -> v_id v = x /\ exists w, In (x, w) Sc /\ v_cat v = v_cat w) ->
  learnable nsc (map (restrictTo ks) D).
Proof.
  intros L Ne Nd Hin Ek Hv. destruct (ln_vars _ _ L) as (vars & V1 & V2 & V3). constructor.
  - intros ->. simpl in Ek. congruence.
  - rewrite Ek. auto.
  - intros x v H. apply (Hv x v H).
  - intros E. apply map_eq_nil in E. apply (ln_data _ _ L E).
  - exists ks. split; auto. split; [|rewrite Ek; auto]. intros I HI. apply in_map_iff in HI as (J & <- & HJ). split; [apply restrict_nodup|].
    intros x. rewrite keys_get, restrict_get. destruct (in_dec Z.eq_dec x ks); split; intros; try congruence; auto.
  - intros I x v y HI H Hy. apply in_map_iff in HI as (J & <- & HJ). rewrite restrict_get in Hy. destruct (in_dec Z.eq_dec x ks) as [Hx|]; [|discriminate]. injection Hy as <-.
    destruct (Hv x v H) as (_ & w & Hw & ->). apply (ln_cat _ _ L J x w); auto. unfold get0. destruct (get J x) as [y|] eqn:Ey; auto.
    exfalso. apply get_None in Ey. apply Ey. apply (proj2 (V2 J HJ)), V3, Hin. auto.
Qed.

(** So is a cluster. *)
Lemma learnable_cluster Sc D cl : learnable Sc D -> cl <> [] ->
  (forall I, In I cl -> NoDup (keys I) /\ exists J, In J D /\ forall v, get I v = get J v) -> learnable Sc cl.
Proof.
  intros L Ne Hc. destruct (ln_vars _ _ L) as (vars & V1 & V2 & V3). constructor; try apply L; auto.
  - exists vars. split; auto. split; auto. intros I HI. destruct (Hc I HI) as (Nk & J & HJ & E). split; auto. intros x. rewrite keys_get, E, <- keys_get. apply (V2 J HJ).
  - intros I x v y HI H Hy. destruct (Hc I HI) as (_ & J & HJ & E). rewrite E in Hy. apply (ln_cat _ _ L J x v); auto.
Qed.

Lemma learnable_value Sc D I x v : learnable Sc D -> In I D -> In (x, v) Sc -> (0 <= get0 I x < v_cat v)%Z.
Proof.
  intros L HI H. destruct (ln_vars _ _ L) as (vars & V1 & V2 & V3). unfold get0. destruct (get I x) as [y|] eqn:E; [apply (ln_cat _ _ L I x v); auto|].
  exfalso. apply get_None in E. apply E, (V2 I HI), V3, in_map_iff. exists (x, v). auto.
Qed.

(** ** The graph of dependences *)
Lemma pairs_len n : length (pairs n) <= n * n.
Proof.
  unfold pairs. rewrite flat_map_concat_map.
  assert (G : forall l, length (concat (map (fun i => map (pair i) (range (S i) n)) l)) <= length l * n).
  { induction l as [|i l IH]; simpl; auto. rewrite app_length, map_length. assert (length (range (S i) n) <= n) by (unfold range; rewrite seq_length; lia). lia. }
  etransitivity; [apply G|]. unfold range. rewrite seq_length. apply Nat.mul_le_mono_r. lia.
Qed.

Lemma graph_l {A : arith} (chi2 : F A -> Z -> F A) Sc vs D (pval : F A) ufuel : learnable Sc D -> Permutation vs Sc -> length Sc * length Sc < ufuel ->
  exists a K, newUFIndepGraph chi2 (dataToVarData D vs) pval ufuel = Ok (a, K) /\ Permutation (concat K) (map fst Sc) /\ forall ks, In ks K -> ks <> [].
Proof.
  intros L P Hf. assert (LV : length (dataToVarData D vs) = length Sc) by (unfold dataToVarData; rewrite map_length; apply Permutation_length; auto).
  assert (Eid : map vd_id (dataToVarData D vs) = map fst vs).
  { unfold dataToVarData. rewrite map_map. cbn [vd_id]. apply map_ext_in. intros [x v] H. apply (ln_id _ _ L). eapply Permutation_in; eauto. }
  assert (W : well_formed (dataToVarData D vs)).
  { assert (HD : forall d, In d (dataToVarData D vs) -> exists x v, In (x, v) Sc /\ d = mkVD x (v_cat v) (extractInstance x D)).
    { intros d Hd. apply in_map_iff in Hd as ([x v] & <- & H). assert (H' : In (x, v) Sc) by (eapply Permutation_in; eauto). exists x, v. split; auto. cbn [snd]. rewrite (ln_id _ _ L x v H'). auto. }
    split; [|split].
    - intros d Hd y Hy. destruct (HD d Hd) as (x & v & H & ->). cbn [vd_data vd_cat] in *. apply in_map_iff in Hy as (I & <- & HI). eapply learnable_value; eauto.
    - intros d e Hd He. destruct (HD d Hd) as (x & v & _ & ->). destruct (HD e He) as (x' & v' & _ & ->). cbn [vd_data]. unfold extractInstance. rewrite !map_length. auto.
    - intros d Hd. destruct (HD d Hd) as (x & v & H & ->). cbn [vd_cat]. destruct D as [|I D']; [destruct (ln_data _ _ L eq_refl)|].
      pose proof (learnable_value _ _ I x v L (or_introl eq_refl) H). lia. }
  destruct (uf_graph chi2 (dataToVarData D vs) pval ufuel) as (a & K & E & C1 & C2 & _).
  - apply tests_run; auto.
  - unfold ids. rewrite Eid. eapply Permutation_NoDup; [symmetry; apply Permutation_map; eauto|apply L].
  - pose proof (pairs_len (length (dataToVarData D vs))). rewrite LV in *. lia.
  - exists a, K. split; auto. split; auto. unfold ids in C1. rewrite Eid in C1. etransitivity; [apply C1|]. apply Permutation_map; auto.
Qed.

(** ** Leaves *)
Lemma countValues_l Sc D x v : learnable Sc D -> In (x, v) Sc -> exists c, countValues v D = Ok c.
Proof.
  intros L H. unfold countValues, makeInts. assert (Hc : (0 <= v_cat v)%Z).
  { destruct D as [|I D']; [destruct (ln_data _ _ L eq_refl)|]. pose proof (learnable_value _ _ I x v L (or_introl eq_refl) H). lia. }
  destruct (Z.ltb_spec (v_cat v) 0); [lia|]. cbn [bind].
  assert (G : forall l c, (forall I, In I l -> In I D) -> length c = Z.to_nat (v_cat v) -> exists c', foldr_ (fun c I => n <- idxZ c (get0 I (v_id v)); Ok (set_nth (Z.to_nat (get0 I (v_id v))) (n + 1)%Z c)) l c = Ok c').
  { induction l as [|I l IH]; intros c Hl Lc; cbn [foldr_]; [eauto|]. rewrite (ln_id _ _ L x v H).
    pose proof (learnable_value _ _ I x v L (Hl I (or_introl eq_refl)) H) as B. unfold idxZ. destruct (Z.ltb_spec (get0 I x) 0); [lia|]. unfold idx.
    destruct (nth_error c (Z.to_nat (get0 I x))) eqn:E; [|apply nth_error_None in E; lia]. cbn [bind orPanic]. rewrite (ln_id _ _ L x v H) in IH. apply IH; [intros; apply Hl; right; auto|]. rewrite set_nth_length. auto. }
  apply G; auto. apply repeat_length.
Qed.

Section Leaf.
Context {A : arith}.

Lemma modeLoop_l (r : nat -> nat) (dist : list (F A)) : (forall n, 0 < n -> r n < n) -> exists m, modeLoop r dist = Ok m.
Proof.
  intros Hr. unfold modeLoop. destruct (fold_left _ dist _) as [[[i mi] m] miv]. destruct (Nat.ltb_spec 1 (length miv)); [|eauto].
  unfold idx. destruct (nth_error miv (r (length miv))) eqn:E; [cbn [orPanic bind]; eauto|]. apply nth_error_None in E. specialize (Hr (length miv)). lia.
Qed.

Lemma newMultinom_l (r : nat -> nat) Sc D x v : (forall n, 0 < n -> r n < n) -> learnable Sc D -> In (x, v) Sc ->
  exists t, newMultinom (A := A) r v D = Ok t /\ fits (fun y => y = x) t.
Proof.
  intros Hr L H. unfold newMultinom. destruct (countValues_l Sc D x v L H) as (c & ->). cbn [bind]. unfold newCountingMultinomial.
  destruct (modeLoop_l r (countingPr c) Hr) as (m & ->). cbn [bind]. eexists. split; [reflexivity|]. eapply f_leaf; [reflexivity|]. cbn [m_varid]. rewrite (ln_id _ _ L x v H). tauto.
Qed.

Lemma newGaussMix_l (logProb : F A -> F A -> F A -> F A) (trunc round : F A -> Z) x g D : (0 < g)%Z ->
  exists t, newGaussMix logProb trunc round x g D = Ok t /\ fits (fun y => y = x) t.
Proof.
  intros Hg. unfold newGaussMix. destruct (quantile_run A (extractInstance x D) (Z.to_nat g) ltac:(lia)) as (l & _ & _ & E). rewrite Z2Nat.id in E by lia. rewrite E. cbn [bind].
  set (Q := map blockStats _). assert (LQ : length Q = Z.to_nat g) by (unfold Q, blocks; rewrite !map_length, seq_length; auto).
  eexists. split; [reflexivity|]. apply f_sum.
  - intros E'. apply map_eq_nil in E'. rewrite E' in LQ. simpl in LQ. lia.
  - intros i w c Hi. apply map_nth_error_inv in Hi as (q & _ & Eq). injection Eq as <- <-. eapply f_leaf; [reflexivity|tauto].
  - exists (repeat 1%Z (length Q)), (Z.of_nat (length Q)). split; [|split].
    + rewrite map_map. cbn [fst]. clearbody Q. clear. generalize (Z.of_nat (length Q)). intros n. induction Q as [|q Q IH]; [reflexivity|]. cbn [map length repeat]. f_equal. exact IH.
    + intros a Ha. apply repeat_spec in Ha. lia.
    + clear. induction (length Q) as [|n IH]; auto. cbn [repeat fold_right]. rewrite IH. lia.
Qed.
End Leaf.
