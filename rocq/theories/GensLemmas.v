(** The learner of Gens and Domingos returns valid networks. *)
From Coq Require Import FinFun.
From Verif Require Import Base Res Arith GraphSpec Spn Build GoMap Tables TablesSpec DataSpec DataLemmas ProbSpec PoonSpec
  Indep IndepSpec Dbscan Gens GensSpec GensTree GensParts GensClusters.

Lemma nth_error_same {T} : forall l l' : list T, (forall i, nth_error l i = nth_error l' i) -> l = l'.
Proof.
  induction l as [|x l IH]; intros [|y l'] H; auto; try (specialize (H 0); discriminate).
  f_equal; [specialize (H 0); injection H; auto|]. apply IH. intros i. apply (H (S i)).
Qed.
Lemma nodup_app_r {T} (l l' : list T) : NoDup (l ++ l') -> NoDup l'.
Proof. induction l as [|x l IH]; auto. cbn [app]. intros N. apply NoDup_cons_iff in N as (_ & N). auto. Qed.
Lemma nodup_app_l {T} (l l' : list T) : NoDup (l ++ l') -> NoDup l.
Proof. induction l as [|x l IH]; cbn [app]; intros N; [constructor|]. apply NoDup_cons_iff in N as (H & N). constructor; auto. intros Hx. apply H, in_app_iff. auto. Qed.
Lemma two_parts {T} (C : list (list T)) cl : 2 <= length C -> (forall c, In c C -> c <> []) -> In cl C -> length cl < length (concat C).
Proof.
  intros L Ne H. apply in_split in H as (C1 & C2 & ->). rewrite concat_app. cbn [concat]. rewrite !app_length in *. cbn [length] in L.
  assert (G : forall X, X <> [] -> (forall c, In c X -> c <> []) -> 0 < length (@concat T X)).
  { intros [|c X] HX HN; [congruence|]. cbn [concat]. rewrite app_length. specialize (HN c (or_introl eq_refl)). destruct c; [congruence|simpl; lia]. }
  destruct C1 as [|c C1].
  - assert (0 < length (concat C2)); [|lia]. apply G; [intros ->; simpl in L; lia|]. intros c Hc. apply Ne. right; auto.
  - assert (0 < length (concat (c :: C1))); [|lia]. apply G; [congruence|]. intros c' Hc. apply Ne, in_app_iff. auto.
Qed.

Section Fits.
Context {A : arith}.

Lemma fits_ext (Vs : Z -> Prop) t : fits (A := A) Vs t -> forall Vs' : Z -> Prop, (forall x, Vs x <-> Vs' x) -> fits Vs' t.
Proof.
  induction 1 as [Vs l v Hl HV|Vs cs Ne _ IH Sh|Vs cs Ws F _ HV Hd]; intros Vs' E.
  - eapply f_leaf; eauto. intros x. rewrite <- E. auto.
  - apply f_sum; auto. intros i w c Hc. eapply IH; eauto.
  - eapply f_prod; eauto. intros x. rewrite <- E. auto.
Qed.

Lemma shares_perm (ws ws' : list (F A)) : shares ws -> Permutation ws ws' -> shares ws'.
Proof.
  intros (ns & n & -> & Hp & Hs) P. symmetry in P. apply Permutation_map_inv in P as (ns' & -> & P). exists ns', n. split; auto. split.
  - intros a Ha. apply Hp. eapply Permutation_in; [symmetry|]; eauto.
  - rewrite <- Hs. clear -P. induction P; cbn [fold_right]; lia.
Qed.

Lemma fits_reordered (Vs : Z -> Prop) (t t' : tree A) : fits Vs t -> reordered t t' -> fits Vs t'.
Proof.
  intros H R. destruct R as [t|cs cs' P|cs cs' P]; auto; inversion H as [|? ? Ne Hc Sh|? ? Ws Hc HV Hd]; subst.
  - apply f_sum.
    + intros ->. apply Ne. apply Permutation_nil. symmetry. auto.
    + intros i w c Hi. apply nth_error_In in Hi. apply (Permutation_in _ (Permutation_sym P)) in Hi. apply In_nth_error in Hi as (j & Hj). eapply Hc; eauto.
    + eapply shares_perm; eauto. apply Permutation_map. auto.
  - apply Permutation_nth_error_bis in P as (f & Hi & Hb & Hf).
    assert (L : length cs' = length cs).
    { destruct (Nat.lt_trichotomy (length cs') (length cs)) as [Hl|[Hl|Hl]]; auto; exfalso.
      - assert (E : nth_error cs' (length cs') = None) by (apply nth_error_None; lia). rewrite Hf in E. apply nth_error_None in E. specialize (Hb _ Hl). lia.
      - assert (E : nth_error cs' (length cs) <> None) by (apply nth_error_Some; auto). rewrite Hf in E. apply nth_error_Some in E.
        assert (Hs : bSurjective (length cs) f). { apply bInjective_bSurjective; auto. intros a b _ _. apply Hi. }
        destruct (Hs _ E) as (y & Hy & Ey). apply Hi in Ey. lia. }
    assert (Hs : bSurjective (length cs) f). { apply bInjective_bSurjective; auto. intros a b _ _. apply Hi. }
    apply (f_prod _ _ (fun i => Ws (f i))).
    + intros i c Hc'. rewrite Hf in Hc'. eapply Hc; eauto.
    + intros x. rewrite HV, L. split.
      * intros (i & Li & Hx). destruct (Hs i Li) as (j & Lj & <-). exists j. auto.
      * intros (i & Li & Hx). exists (f i). auto.
    + rewrite L. intros i j x Li Lj Hij. apply Hd; auto.
Qed.

Lemma arrange_l {T} (cs : list T) sched : Permutation sched (seq 0 (length cs)) -> exists cs', arrange (Some sched) cs = Ok cs' /\ Permutation cs cs'.
Proof.
  intros P. destruct cs as [|d cs0]. { simpl in P. symmetry in P. apply Permutation_nil in P as ->. exists []. auto. }
  set (cs := d :: cs0) in *. exists (map (fun i => nth i cs d) sched). split.
  - unfold arrange, mapi. assert (Hin : forall i, In i sched -> i < length cs) by (intros i Hi; apply (Permutation_in _ P), in_seq in Hi; lia). clear P. generalize 0. revert Hin.
    induction sched as [|i sched IH]; intros Hin n; auto. cbn [mapi_from map]. unfold idx. rewrite (nth_error_nth' cs d) by (apply Hin; left; auto). cbn [orPanic bind].
    rewrite IH; auto. intros; apply Hin; right; auto.
  - transitivity (map (fun i => nth i cs d) (seq 0 (length cs))); [|apply Permutation_map; symmetry; auto].
    assert (E : map (fun i => nth i cs d) (seq 0 (length cs)) = cs); [|rewrite E; auto]. clear.
    apply nth_ext with (d := d) (d' := d); [rewrite map_length, seq_length; auto|]. intros n Hn. rewrite map_length, seq_length in Hn.
    rewrite (nth_indep _ d (nth 0 cs d)) by (rewrite map_length, seq_length; auto). rewrite (map_nth (fun i => nth i cs d)), seq_nth; auto.
Qed.
End Fits.

Section Learn.
Context {A : arith}.
Variable ordS : list nat -> nat -> scope -> scope.
Variable ordD : list nat -> nat -> gmap -> gmap.
Variable km : list nat -> list (list (F A)) -> res (list Z).
Variable rnd : list nat -> nat -> nat -> nat.
Variable chi2 : F A -> Z -> F A.
Variable toInt : F A -> Z.
Variable logProb : F A -> F A -> F A -> F A.
Variables trunc round : F A -> Z.
Variable ufuel : nat.
Variables (k mp : Z) (pval eps : F A).

Hypothesis Hscope : visits_scope ordS.
Hypothesis Hord : forall p, visits_all (ordD p).
Hypothesis Hrnd : forall p i n, 0 < n -> rnd p i n < n.
Hypothesis Hint : forall x, toInt (fz x) = x.
Hypothesis Hkm : (0 < k)%Z -> uses_all_labels k km.

Local Notation fullyFactorized := (newFullyFactorized ordS rnd logProb trunc round).
Local Notation once := (learnOnce ordS ordD km rnd chi2 toInt logProb trunc round ufuel k mp pval eps).
Local Notation at_ := (learnAt ordS ordD km rnd chi2 toInt logProb trunc round ufuel k mp pval eps).

Definition vars_of (Sc : scope) : Z -> Prop := fun x => In x (map fst Sc).

Lemma factorized_l p g D Sc : learnable Sc D -> exists t, fullyFactorized p g D Sc = Ok t /\ fits (vars_of Sc) t.
Proof.
  intros L. unfold newFullyFactorized. pose proof (Hscope p 1 Sc) as P. set (vs := ordS p 1 Sc) in *. clearbody vs.
  set (Ws := fun i x => match nth_error vs i with Some e => x = fst e | None => False end).
  destruct (mapi_or (fun i e => if (g <=? 0)%Z then newMultinom (A := A) (rnd p i) (snd e) D else newGaussMix logProb trunc round (v_id (snd e)) g D) (fun i t => fits (Ws i) t) False vs 0) as [(cs & E & Lc & Hq)|([] & _)].
  { intros i [x v] Hi. left. cbn [snd]. assert (H : In (x, v) Sc) by (eapply Permutation_in; [exact P|]; eapply nth_error_In; eauto).
    assert (G : exists t, (if (g <=? 0)%Z then newMultinom (A := A) (rnd p (0 + i)) v D else newGaussMix logProb trunc round (v_id v) g D) = Ok t /\ fits (fun y => y = x) t).
    { destruct (Z.leb_spec g 0); [apply (newMultinom_l _ Sc); auto|]. rewrite (ln_id _ _ L x v H). apply newGaussMix_l. auto. }
    destruct G as (t & E & Ft). exists t. split; auto. eapply fits_ext; eauto. intros y. unfold Ws. rewrite Hi. tauto. }
  unfold mapi. rewrite E. cbn [bind]. eexists. split; [reflexivity|]. apply (f_prod _ _ Ws); auto.
  - intros x. unfold vars_of. rewrite Lc. split.
    + intros Hx. apply (Permutation_in _ (Permutation_map fst (Permutation_sym P))) in Hx. apply in_map_iff in Hx as (e & <- & He). apply In_nth_error in He as (i & Hi).
      exists i. split; [apply nth_error_Some; congruence|]. unfold Ws. rewrite Hi. auto.
    + intros (i & _ & Hx). unfold Ws in Hx. destruct (nth_error vs i) as [e|] eqn:Ei; [|destruct Hx]. subst x. apply (Permutation_in _ (Permutation_map fst P)), in_map. eapply nth_error_In; eauto.
  - intros i j x _ _ Hij Hi Hj. unfold Ws in Hi, Hj. destruct (nth_error vs i) as [e|] eqn:Ei; [|destruct Hi]. destruct (nth_error vs j) as [e'|] eqn:Ej; [|destruct Hj].
    assert (Nd : NoDup (map fst vs)) by (eapply Permutation_NoDup; [apply Permutation_map; symmetry; exact P|apply L]). apply Hij.
    apply (proj1 (NoDup_nth_error (map fst vs)) Nd); [rewrite map_length; apply nth_error_Some; congruence|]. rewrite (map_nth_error fst _ _ Ei), (map_nth_error fst _ _ Ej). congruence.
Qed.

Definition good (r : res (tree A)) (Vs : Z -> Prop) : Prop := (exists t, r = Ok t /\ fits Vs t) \/ ((k <= 0)%Z /\ r = Panic).

Section Step.
Variable rec : list nat -> scope -> list gmap -> res (tree A).

Lemma indep_l p Sc D K : learnable Sc D -> Permutation (concat K) (map fst Sc) -> (forall ks, In ks K -> ks <> []) -> 1 < length K ->
  (forall p' Sc' D', learnable Sc' D' -> length Sc' + length D' < length Sc + length D -> length Sc' <= length Sc -> length D' <= length D -> good (rec p' Sc' D') (vars_of Sc')) ->
  good (indepStep rec None p D Sc K) (vars_of Sc).
Proof.
  intros L P Ne L1 IH. unfold indepStep, mapi. set (Ws := fun i x => match nth_error K i with Some ks => In x ks | None => False end).
  assert (Nc : NoDup (concat K)) by (eapply Permutation_NoDup; [symmetry; exact P|apply L]).
  destruct (mapi_or (fun i ks => nsc <- subScope Sc ks; rec (i :: p) nsc (map (restrictTo ks) D)) (fun i t => fits (Ws i) t) (k <= 0)%Z K 0) as [(cs & E & Lc & Hq)|(Hk & E)].
  { intros i ks Hi. pose proof (nth_error_In _ _ Hi) as HK.
    assert (Hs : forall x, In x ks -> In x (map fst Sc)). { intros x Hx. apply (Permutation_in _ P), in_concat. exists ks. auto. }
    assert (Nk : NoDup ks). { apply in_split in HK as (K1 & K2 & ->). rewrite concat_app in Nc. cbn [concat] in Nc. apply nodup_app_r in Nc. apply nodup_app_l in Nc. auto. }
    destruct (subScope_l Sc ks Hs) as (nsc & -> & En & Hn). cbn [bind].
    assert (Ls : length nsc < length Sc). { rewrite <- (map_length fst nsc), <- (map_length fst Sc), En, <- (Permutation_length P). apply two_parts; auto. }
    destruct (IH ((0 + i) :: p) nsc (map (restrictTo ks) D)) as [(t & Et & Ft)|(Hk & Et)]; try rewrite map_length; try lia.
    - apply (learnable_group Sc D ks nsc); auto.
    - left. exists t. split; auto. eapply fits_ext; eauto. intros x. unfold vars_of, Ws. rewrite En, Hi. tauto.
    - right. auto. }
  - rewrite E. cbn [bind arrange]. left. eexists. split; [reflexivity|]. apply (f_prod _ _ Ws); auto.
    + intros x. unfold vars_of. rewrite Lc. split.
      * intros Hx. apply (Permutation_in _ (Permutation_sym P)), in_concat in Hx as (ks & HK & Hx). apply In_nth_error in HK as (i & Hi). exists i. split; [apply nth_error_Some; congruence|]. unfold Ws. rewrite Hi. auto.
      * intros (i & _ & Hx). unfold Ws in Hx. destruct (nth_error K i) as [ks|] eqn:Ei; [|destruct Hx]. apply (Permutation_in _ P), in_concat. exists ks. split; auto. eapply nth_error_In; eauto.
    + intros i j x _ _ Hij Hi Hj. unfold Ws in Hi, Hj. destruct (nth_error K i) as [ks|] eqn:Ei; [|destruct Hi]. destruct (nth_error K j) as [ks'|] eqn:Ej; [|destruct Hj].
      clear -Nc Hij Ei Ej Hi Hj. revert i j Hij Ei Ej. induction K as [|c K IHK]; intros i j Hij Ei Ej; [destruct i; discriminate|]. cbn [concat] in Nc.
      assert (Dj : forall y, In y c -> In y (concat K) -> False). { clear -Nc. induction c as [|a c IH]; intros y H1 H2; [destruct H1|]. cbn [app] in Nc. apply NoDup_cons_iff in Nc as (N1 & N2). destruct H1 as [->|H1]; [apply N1, in_app_iff; auto|eauto]. }
      destruct i as [|i], j as [|j]; cbn [nth_error] in *; [congruence| | |].
      * injection Ei as ->. apply (Dj x Hi). apply in_concat. exists ks'. split; auto. eapply nth_error_In; eauto.
      * injection Ej as ->. apply (Dj x Hj). apply in_concat. exists ks. split; auto. eapply nth_error_In; eauto.
      * apply nodup_app_r in Nc. eapply (IHK Nc i j); eauto.
  - rewrite E. right. auto.
Qed.

Lemma cluster_step_l p g Sc D : learnable Sc D -> length D * length D + 2 * length D + 2 <= ufuel ->
  (forall p' Sc' D', learnable Sc' D' -> length Sc' + length D' < length Sc + length D -> length Sc' <= length Sc -> length D' <= length D -> good (rec p' Sc' D') (vars_of Sc')) ->
  good (clusterStep ordS ordD km rnd toInt logProb trunc round ufuel k mp eps rec None p g D Sc) (vars_of Sc).
Proof.
  intros L Hf IH. unfold clusterStep. pose proof (factorized_l p g D Sc L) as FF.
  destruct ((0 <? k)%Z && (Z.of_nat (length D) <? k)%Z) eqn:Eb; [left; exact FF|].
  assert (Hk : (0 < k -> k <= Z.of_nat (length D))%Z). { intros K0. destruct (Z.ltb_spec 0 k); [|lia]. cbn [andb] in Eb. apply Z.ltb_ge in Eb. auto. }
  destruct (clustersOf_l toInt km ordD ufuel k mp eps Hord Hint Hkm p Sc D L Hk Hf) as [(C & EC & C1 & C2 & C3)|(K0 & EC)]; rewrite EC; cbn [bind]; [|right; auto].
  destruct (Nat.eqb_spec (length C) 1) as [E1|E1]; [left; exact FF|].
  assert (L2 : 2 <= length C). { destruct C as [|a [|b C]]; simpl in *; try lia. destruct D; [destruct (ln_data _ _ L eq_refl)|discriminate]. }
  unfold mapi. set (wt := fun cl : list gmap => @fdiv A (fz (Z.of_nat (length cl))) (fz (Z.of_nat (length D)))).
  destruct (mapi_or (fun i cl => t <- rec (i :: p) Sc cl; Ok (fdiv (fz (Z.of_nat (length cl))) (fz (Z.of_nat (length D))), t))
    (fun i y => fits (vars_of Sc) (snd y) /\ option_map wt (nth_error C i) = Some (fst y)) (k <= 0)%Z C 0) as [(cs & E & Lc & Hq)|(K0 & E)].
  { intros i cl Hi. pose proof (nth_error_In _ _ Hi) as HC. pose proof (two_parts C cl L2 C2 HC) as Hl. rewrite C1 in Hl.
    destruct (IH ((0 + i) :: p) Sc cl) as [(t & Et & Ft)|(K0 & Et)]; try lia.
    - apply (learnable_cluster Sc D); auto. intros I HI. apply (C3 cl I); auto.
    - left. rewrite Et. cbn [bind]. eexists. split; [reflexivity|]. cbn [fst snd]. rewrite Hi. auto.
    - right. rewrite Et. auto. }
  - rewrite E. cbn [bind arrange]. left. eexists. split; [reflexivity|]. apply f_sum.
    + intros ->. simpl in Lc. lia.
    + intros i w c Hi. apply (Hq i (w, c) Hi).
    + assert (Ew : map fst cs = map wt C).
      { apply nth_error_same. intros i. destruct (nth_error cs i) as [y|] eqn:Ei.
        - rewrite (map_nth_error fst _ _ Ei). destruct (Hq i y Ei) as (_ & Hw). destruct (nth_error C i) as [cl|] eqn:Ec; [|discriminate]. rewrite (map_nth_error wt _ _ Ec). cbn [option_map] in Hw. congruence.
        - pose proof Ei as Ei'. apply nth_error_None in Ei'. rewrite (proj2 (nth_error_None (map fst cs) i)), (proj2 (nth_error_None (map wt C) i)); auto; rewrite map_length; lia. }
      rewrite Ew. exists (map (fun cl => Z.of_nat (length cl)) C), (Z.of_nat (length D)). split; [rewrite map_map; auto|]. split.
      * intros a Ha. apply in_map_iff in Ha as (cl & <- & Hcl). specialize (C2 cl Hcl). destruct cl; [congruence|simpl; lia].
      * rewrite <- C1. clear. induction C as [|c C IH]; auto. cbn [map fold_right concat]. rewrite IH, app_length. lia.
  - rewrite E. right. auto.
Qed.

Lemma once_l gauss g p Sc D : learnable Sc D -> (gauss = true -> (0 < g)%Z) ->
  length Sc * length Sc < ufuel -> length D * length D + 2 * length D + 2 <= ufuel ->
  (forall p' Sc' D', learnable Sc' D' -> length Sc' + length D' < length Sc + length D -> length Sc' <= length Sc -> length D' <= length D -> good (rec p' Sc' D') (vars_of Sc')) ->
  good (once rec None gauss g p Sc D) (vars_of Sc).
Proof.
  intros L Hg Hf1 Hf2 IH. unfold learnOnce.
  assert (Step : good (G <- newUFIndepGraph chi2 (dataToVarData D (ordS p 0 Sc)) pval ufuel;
      if 1 <? length (snd G) then indepStep rec None p D Sc (snd G) else clusterStep ordS ordD km rnd toInt logProb trunc round ufuel k mp eps rec None p g D Sc) (vars_of Sc)).
  { destruct (graph_l chi2 Sc (ordS p 0 Sc) D pval ufuel L (Hscope p 0 Sc) Hf1) as (a & K & -> & PK & NK). cbn [bind snd].
    destruct (Nat.ltb_spec 1 (length K)); [apply indep_l; auto|apply cluster_step_l; auto]. }
  destruct Sc as [|[x v] [|e Sc]]; auto. clear Step. left.
  assert (G : exists t, (if gauss then newGaussMix logProb trunc round (v_id v) g D else newMultinom (rnd p 0) v D) = Ok t /\ fits (fun y => y = x) t).
  { destruct gauss; [rewrite (ln_id _ _ L x v (or_introl eq_refl)); apply newGaussMix_l; auto|]. apply (newMultinom_l _ [(x, v)]); auto. left; auto. }
  destruct G as (t & E & Ft). exists t. split; auto. eapply fits_ext; eauto. intros y. unfold vars_of. simpl. intuition.
Qed.
End Step.

Lemma at_l : forall fuel gauss g p Sc D, learnable Sc D -> (gauss = true -> (0 < g)%Z) -> length Sc + length D < fuel ->
  length Sc * length Sc < ufuel -> length D * length D + 2 * length D + 2 <= ufuel ->
  good (at_ fuel gauss g p Sc D) (vars_of Sc).
Proof.
  induction fuel as [|fuel IH]; intros gauss g p Sc D L Hg Hf Hu1 Hu2; [lia|]. cbn [learnAt]. apply once_l; auto.
  intros p' Sc' D' L' Hm H1 H2. apply IH; auto; try lia; nia.
Qed.

(** Tasks finishing in another order. *)

Lemma factorized_prod p g D Sc t : fullyFactorized p g D Sc = Ok t -> exists cs, t = TProd cs.
Proof. unfold newFullyFactorized. intros E. apply bind_ok in E as (cs & _ & E). injection E as <-. eauto. Qed.

Lemma sched_l rec gauss g p Sc D t sched : once rec None gauss g p Sc D = Ok t -> Permutation sched (seq 0 (arity t)) ->
  exists t', once rec (Some sched) gauss g p Sc D = Ok t' /\ reordered t t'.
Proof.
  unfold learnOnce.
  assert (Step : (G <- newUFIndepGraph chi2 (dataToVarData D (ordS p 0 Sc)) pval ufuel;
      if 1 <? length (snd G) then indepStep rec None p D Sc (snd G) else clusterStep ordS ordD km rnd toInt logProb trunc round ufuel k mp eps rec None p g D Sc) = Ok t ->
    Permutation sched (seq 0 (arity t)) -> exists t', (G <- newUFIndepGraph chi2 (dataToVarData D (ordS p 0 Sc)) pval ufuel;
      if 1 <? length (snd G) then indepStep rec (Some sched) p D Sc (snd G) else clusterStep ordS ordD km rnd toInt logProb trunc round ufuel k mp eps rec (Some sched) p g D Sc) = Ok t' /\ reordered t t').
  { intros E P. apply bind_ok in E as (G & -> & E). cbn [bind]. destruct (1 <? length (snd G)).
    - unfold indepStep in *. apply bind_ok in E as (cs & -> & E). cbn [bind arrange] in E. injection E as <-. cbn [arity] in P.
      destruct (arrange_l cs sched P) as (cs' & Ea & Pc). cbn [bind]. rewrite Ea. cbn [bind]. eexists. split; [reflexivity|]. apply re_prod; auto.
    - unfold clusterStep in *. destruct (_ && _); [exists t; split; auto; constructor|]. apply bind_ok in E as (C & -> & E). cbn [bind].
      destruct (length C =? 1); [exists t; split; auto; constructor|]. apply bind_ok in E as (cs & -> & E). cbn [bind arrange] in E. injection E as <-. cbn [arity] in P.
      destruct (arrange_l cs sched P) as (cs' & Ea & Pc). cbn [bind]. rewrite Ea. cbn [bind]. eexists. split; [reflexivity|]. apply re_sum; auto. }
  destruct Sc as [|[x v] [|e Sc]]; auto. intros E _. exists t. split; auto. constructor.
Qed.
End Learn.

Section Top.
Context {A : arith}.
Variable ordS : list nat -> nat -> scope -> scope.
Variable ordD : list nat -> nat -> gmap -> gmap.
Variable km : list nat -> list (list (F A)) -> res (list Z).
Variable rnd : list nat -> nat -> nat -> nat.
Variable chi2 : F A -> Z -> F A.
Variable toInt : F A -> Z.
Variable logProb : F A -> F A -> F A -> F A.
Variables trunc round : F A -> Z.
Variables ufuel fuel : nat.
Variables (k mp : Z) (pval eps : F A) (Sc : scope) (D : list gmap).

Local Notation learn := (learn ordS ordD km rnd chi2 toInt logProb trunc round ufuel k mp pval eps).
Local Notation learnGauss := (learnGauss ordS ordD km rnd chi2 toInt logProb trunc round ufuel k mp pval eps).
Local Notation learnConcurrent := (learnConcurrent ordS ordD km rnd chi2 toInt logProb trunc round ufuel k mp pval eps).
Local Notation learnGaussConcurrent := (learnGaussConcurrent ordS ordD km rnd chi2 toInt logProb trunc round ufuel k mp pval eps).

Lemma good_valid (r : res (tree A)) : good k r (vars_of Sc) -> (exists t, r = Ok t /\ valid_over Sc t) \/ ((k <= 0)%Z /\ r = Panic).
Proof. intros [(t & E & Ft)|H]; [left; exists t; split; auto; apply fits_valid; auto|auto]. Qed.

Lemma learn_any gauss g : admissible ordS ordD rnd toInt -> ((0 < k)%Z -> uses_all_labels k km) -> learnable Sc D -> (gauss = true -> (0 < g)%Z) ->
  length Sc + length D < fuel -> length Sc * length Sc < ufuel -> length D * length D + 2 * length D + 2 <= ufuel ->
  good k (learnAt ordS ordD km rnd chi2 toInt logProb trunc round ufuel k mp pval eps fuel gauss g [] Sc D) (vars_of Sc).
Proof. intros (H1 & H2 & H3 & H4) Hkm L Hg F1 F2 F3. apply at_l; auto. Qed.

Lemma learn_l : admissible ordS ordD rnd toInt -> (0 < k)%Z -> uses_all_labels k km -> learnable Sc D ->
  length Sc + length D < fuel -> length Sc * length Sc < ufuel -> length D * length D + 2 * length D + 2 <= ufuel ->
  exists t, learn fuel Sc D = Ok t /\ valid_over Sc t.
Proof. intros Ha K0 Hk L F1 F2 F3. destruct (good_valid _ (learn_any false 0 Ha (fun _ => Hk) L ltac:(discriminate) F1 F2 F3)) as [H|(H & _)]; [exact H|lia]. Qed.

Lemma learnGauss_l g : admissible ordS ordD rnd toInt -> (0 < k)%Z -> uses_all_labels k km -> learnable Sc D -> (0 < g)%Z ->
  length Sc + length D < fuel -> length Sc * length Sc < ufuel -> length D * length D + 2 * length D + 2 <= ufuel ->
  exists t, learnGauss fuel g Sc D = Ok t /\ valid_over Sc t.
Proof. intros Ha K0 Hk L G F1 F2 F3. destruct (good_valid _ (learn_any true g Ha (fun _ => Hk) L (fun _ => G) F1 F2 F3)) as [H|(H & _)]; [exact H|lia]. Qed.

Lemma learn_dbscan : admissible ordS ordD rnd toInt -> (k <= 0)%Z -> learnable Sc D ->
  length Sc + length D < fuel -> length Sc * length Sc < ufuel -> length D * length D + 2 * length D + 2 <= ufuel ->
  (exists t, learn fuel Sc D = Ok t /\ valid_over Sc t) \/ learn fuel Sc D = Panic.
Proof. intros Ha K0 L F1 F2 F3. destruct (good_valid _ (learn_any false 0 Ha ltac:(lia) L ltac:(discriminate) F1 F2 F3)) as [H|(_ & H)]; auto. Qed.

Lemma concurrent_l t sched : learn (S fuel) Sc D = Ok t -> Permutation sched (seq 0 (arity t)) ->
  exists t', learnConcurrent fuel sched Sc D = Ok t' /\ reordered t t'.
Proof. intros E P. unfold Gens.learn in E. cbn [learnAt] in E. eapply sched_l; eauto. Qed.

Lemma concurrent_gauss_l g t sched : learnGauss (S fuel) g Sc D = Ok t -> Permutation sched (seq 0 (arity t)) ->
  exists t', learnGaussConcurrent fuel g sched Sc D = Ok t' /\ reordered t t'.
Proof. intros E P. unfold Gens.learnGauss in E. cbn [learnAt] in E. eapply sched_l; eauto. Qed.

Lemma concurrent_valid t sched : admissible ordS ordD rnd toInt -> (0 < k)%Z -> uses_all_labels k km -> learnable Sc D ->
  length Sc + length D <= fuel -> length Sc * length Sc < ufuel -> length D * length D + 2 * length D + 2 <= ufuel ->
  learn (S fuel) Sc D = Ok t -> Permutation sched (seq 0 (arity t)) ->
  exists t', learnConcurrent fuel sched Sc D = Ok t' /\ reordered t t' /\ valid_over Sc t'.
Proof.
  intros (H1 & H2 & H3 & H4) K0 Hk L F1 F2 F3 E P. destruct (concurrent_l t sched E P) as (t' & E' & R). exists t'. split; auto. split; auto.
  destruct (at_l ordS ordD km rnd chi2 toInt logProb trunc round ufuel k mp pval eps H1 H2 H3 H4 (fun _ => Hk) (S fuel) false 0 [] Sc D L ltac:(discriminate) ltac:(lia) F2 F3)
    as [(t0 & E0 & Ft)|(? & _)]; [|lia]. unfold Gens.learn in E. rewrite E in E0. injection E0 as <-.
  apply fits_valid. eapply fits_reordered; eauto.
Qed.
Lemma concurrent_gauss_valid g t sched : admissible ordS ordD rnd toInt -> (0 < k)%Z -> uses_all_labels k km -> learnable Sc D -> (0 < g)%Z ->
  length Sc + length D <= fuel -> length Sc * length Sc < ufuel -> length D * length D + 2 * length D + 2 <= ufuel ->
  learnGauss (S fuel) g Sc D = Ok t -> Permutation sched (seq 0 (arity t)) ->
  exists t', learnGaussConcurrent fuel g sched Sc D = Ok t' /\ reordered t t' /\ valid_over Sc t'.
Proof.
  intros (H1 & H2 & H3 & H4) K0 Hk L G F1 F2 F3 E P. destruct (concurrent_gauss_l g t sched E P) as (t' & E' & R). exists t'. split; auto. split; auto.
  destruct (at_l ordS ordD km rnd chi2 toInt logProb trunc round ufuel k mp pval eps H1 H2 H3 H4 (fun _ => Hk) (S fuel) true g [] Sc D L (fun _ => G) ltac:(lia) F2 F3)
    as [(t0 & E0 & Ft)|(? & _)]; [|lia]. unfold Gens.learnGauss in E. rewrite E in E0. injection E0 as <-.
  apply fits_valid. eapply fits_reordered; eauto.
Qed.
End Top.
