From Coq Require Import Reals Lra.
From Verif Require Import Base Res Arith LogMath LogSpec LogLemmas GraphSpec GraphLemmas Topo Spn DP SpnSpec SpnLemmas InferLemmas Leaves ProbSpec ProbLemmas ProbCases MultiLemmas Build GoMap DataSpec DennisSpec Gens GensSpec GensTree GensParts GensLemmas GensCases LearnedSpec Indep.
Local Open Scope nat_scope.

(** Trees whose leaves satisfy a property. *)
Section Made.
Context {A : arith}.
Variable Q : leaf A -> Prop.
Inductive made : tree A -> Prop :=
| m_leaf : forall l, Q l -> made (TLeaf l)
| m_sum : forall cs, (forall i w c, nth_error cs i = Some (w, c) -> made c) -> made (TSum cs)
| m_prod : forall cs, (forall i c, nth_error cs i = Some c -> made c) -> made (TProd cs).

Lemma made_reordered t t' : made t -> reordered t t' -> made t'.
Proof.
  intros M R. inversion R as [s Es Et|cs cs' Hp Es Et|cs cs' Hp Es Et]; subst; auto; inversion M as [|cs0 H E0|cs0 H E0]; subst.
  - constructor. intros i w c Hi. apply nth_error_In in Hi. apply (Permutation_in _ (Permutation_sym Hp)) in Hi. apply In_nth_error in Hi as (j & Hj). eapply H; eauto.
  - constructor. intros i c Hi. apply nth_error_In in Hi. apply (Permutation_in _ (Permutation_sym Hp)) in Hi. apply In_nth_error in Hi as (j & Hj). eapply H; eauto.
Qed.

(** The nodes of a subtree lie next to each other. *)
Definition apart (H : nodes A) (lo : nat -> nat) (b e : nat) : Prop :=
  forall u, b <= u < e -> b <= lo u <= u /\ (forall l, nk (netOf H u) = KLeaf l -> Q l /\ nch (netOf H u) = []) /\
    (forall i c, nth_error (nch (netOf H u)) i = Some c -> lo u <= lo c /\ lo c <= c < u) /\
    (forall i j c d, i < j -> nth_error (nch (netOf H u)) i = Some c -> nth_error (nch (netOf H u)) j = Some d -> c < lo d).
Definition laid (t : tree A) : Prop :=
  forall H, exists N lo, place t H = (H ++ N, length H + length N - 1) /\ 0 < length N /\ lo (length H + length N - 1) = length H /\ apart (H ++ N) lo (length H) (length (H ++ N)).

Lemma apart_ext H N lo lo' b e b' : e <= length H -> b' <= b -> (forall u, b <= u < e -> lo' u = lo u) -> apart H lo b e ->
  forall u, b <= u < e -> b' <= lo' u <= u /\ (forall l, nk (netOf (H ++ N) u) = KLeaf l -> Q l /\ nch (netOf (H ++ N) u) = []) /\
    (forall i c, nth_error (nch (netOf (H ++ N) u)) i = Some c -> lo' u <= lo' c /\ lo' c <= c < u) /\
    (forall i j c d, i < j -> nth_error (nch (netOf (H ++ N) u)) i = Some c -> nth_error (nch (netOf (H ++ N) u)) j = Some d -> c < lo' d).
Proof.
  intros Le Lb E S u Hu. destruct (S u Hu) as (S1 & S2 & S3 & S4). rewrite netOf_app by lia. rewrite (E u Hu). split; [lia|]. split; [exact S2|].
  assert (C : forall i c, nth_error (nch (netOf H u)) i = Some c -> lo' c = lo c) by (intros i c Hc; apply E; specialize (S3 i c Hc); lia).
  split.
  - intros i c Hc. rewrite (C i c Hc). apply (S3 i c Hc).
  - intros i j c d Hij Hi Hj. rewrite (C j d Hj). eapply S4; eauto.
Qed.

Lemma laidAll : forall cs, (forall i c, nth_error cs i = Some c -> laid c) ->
  forall H, exists N lo zs, placeAll cs H = (H ++ N, zs) /\ length zs = length cs /\
    (forall i z, nth_error zs i = Some z -> length H <= lo z <= z /\ z < length (H ++ N)) /\
    (forall i j y z, i < j -> nth_error zs i = Some y -> nth_error zs j = Some z -> y < lo z) /\
    apart (H ++ N) lo (length H) (length (H ++ N)).
Proof.
  induction cs as [|c cs IH]; intros HP H; cbn [placeAll].
  - exists [], (fun _ => 0), []. rewrite app_nil_r. split; auto. split; auto. split; [intros [|i] z E; discriminate|]. split; [intros [|i] j y z _ E; discriminate|]. intros u Hu. lia.
  - destruct (HP 0 c eq_refl H) as (N1 & lo1 & E1 & L1 & R1 & S1). rewrite E1.
    destruct (IH (fun i c' Hc => HP (S i) c' Hc) (H ++ N1)) as (N2 & lo2 & zs & E2 & L2 & R2 & T2 & S2). rewrite E2.
    set (z := length H + length N1 - 1) in *. set (lo := fun u => if u <? length (H ++ N1) then lo1 u else lo2 u).
    exists (N1 ++ N2), lo, (z :: zs). rewrite app_assoc. split; auto. split; [simpl; lia|]. rewrite !app_length in *.
    assert (Lz : lo z = length H). { unfold lo. destruct (Nat.ltb_spec z (length (H ++ N1))); rewrite app_length in *; [auto|unfold z in *; lia]. }
    assert (Lo : forall i q, nth_error zs i = Some q -> lo q = lo2 q).
    { intros i q Hq. destruct (R2 i q Hq) as (B & _). unfold lo. destruct (Nat.ltb_spec q (length (H ++ N1))); auto. rewrite app_length in *. lia. }
    split; [|split].
    + intros [|i] q Eq; cbn [nth_error] in Eq.
      * injection Eq as <-. rewrite Lz. unfold z. lia.
      * rewrite (Lo i q Eq). destruct (R2 i q Eq). lia.
    + intros i j y q Hij Hi Hj. destruct j as [|j]; [lia|]. cbn [nth_error] in Hj. rewrite (Lo j q Hj). destruct (R2 j q Hj) as (B & _). destruct i as [|i]; cbn [nth_error] in Hi.
      * injection Hi as <-. unfold z. lia.
      * apply (T2 i j); auto. lia.
    + intros u Hu. destruct (Nat.lt_ge_cases u (length H + length N1)) as [Lu|Lu].
      * apply (apart_ext (H ++ N1) N2 lo1 lo (length H) (length H + length N1)); auto; [rewrite app_length; auto| |].
        -- intros v Hv. unfold lo. destruct (Nat.ltb_spec v (length (H ++ N1))); auto. rewrite app_length in *. lia.
        -- lia.
      * rewrite <- (app_nil_r ((H ++ N1) ++ N2)).
        apply (apart_ext ((H ++ N1) ++ N2) [] lo2 lo (length H + length N1) (length H + length N1 + length N2)); try (rewrite ?app_length; lia).
        -- intros v Hv. unfold lo. destruct (Nat.ltb_spec v (length (H ++ N1))); auto. rewrite app_length in *. lia.
        -- intros v Hv. apply S2. lia.
Qed.

Lemma laid_node H N lo zs n : (forall i z, nth_error zs i = Some z -> length H <= lo z <= z /\ z < length (H ++ N)) ->
  (forall i j y z, i < j -> nth_error zs i = Some y -> nth_error zs j = Some z -> y < lo z) ->
  apart (H ++ N) lo (length H) (length (H ++ N)) -> nch n = zs -> (forall l, nk n = KLeaf l -> Q l /\ zs = []) ->
  exists N' lo', newNode n (H ++ N) = (H ++ N', length H + length N' - 1) /\ 0 < length N' /\ lo' (length H + length N' - 1) = length H /\ apart (H ++ N') lo' (length H) (length (H ++ N')).
Proof.
  intros Hz Ho Sg En Hl. exists (N ++ [n]), (fun u => if u =? length (H ++ N) then length H else lo u). unfold newNode. rewrite <- app_assoc. rewrite !app_length. cbn [length].
  assert (Eq : length H + (length N + 1) - 1 = length H + length N) by lia. rewrite Eq. split; [reflexivity|]. split; [lia|]. rewrite Nat.eqb_refl. split; [reflexivity|].
  intros u Hu. rewrite app_assoc. destruct (Nat.eq_dec u (length H + length N)) as [->|Nu].
  - assert (Enet : netOf ((H ++ N) ++ [n]) (length H + length N) = n).
    { unfold netOf. rewrite app_nth2; rewrite app_length; [|lia]. rewrite Nat.sub_diag. auto. }
    rewrite Enet, En, Nat.eqb_refl. split; [lia|]. split; [exact Hl|]. rewrite app_length in Hz.
    assert (G : forall i z, nth_error zs i = Some z -> (if z =? length H + length N then length H else lo z) = lo z).
    { intros i z Hi. destruct (Hz i z Hi). destruct (Nat.eqb_spec z (length H + length N)); auto. lia. }
    split.
    + intros i c Hi. rewrite (G i c Hi). destruct (Hz i c Hi). lia.
    + intros i j c d Hij Hi Hj. rewrite (G j d Hj). eapply Ho; eauto.
  - apply (apart_ext (H ++ N) [n] lo (fun u => if u =? length H + length N then length H else lo u) (length H) (length (H ++ N))); auto; try (rewrite ?app_length; lia).
    intros v Hv. rewrite app_length in Hv. destruct (Nat.eqb_spec v (length H + length N)); auto. lia.
Qed.

Lemma made_laid t : made t -> laid t.
Proof.
  induction 1 as [l Hl|cs _ IH|cs _ IH]; intros H.
  - cbn [place]. destruct (laid_node H [] (fun _ => 0) [] (mkNode (KLeaf l) [])) as (N & lo & R); auto.
    + intros [|i] z Hz; discriminate.
    + intros [|i] j y z _ Hz; discriminate.
    + intros u Hu. rewrite app_nil_r in Hu. lia.
    + intros l' E. injection E as <-. auto.
    + rewrite app_nil_r in R. eauto.
  - rewrite place_sum. destruct (laidAll (map snd cs)) with (H := H) as (N & lo & zs & E & L & R & T & S).
    { intros i c Hc. assert (exists w, nth_error cs i = Some (w, c)) as (w & Hw).
      { destruct (nth_error cs i) as [[w c']|] eqn:Ei; [|rewrite (proj2 (nth_error_None (map snd cs) i)) in Hc; [discriminate|rewrite map_length; apply nth_error_None; auto]].
        rewrite (map_nth_error snd _ _ Ei) in Hc. injection Hc as <-. eauto. }
      eapply IH; eauto. }
    rewrite E. apply (laid_node H N lo zs (mkNode (KSum (map fst cs)) zs)); auto. intros l El. discriminate.
  - rewrite place_prod. destruct (laidAll cs IH H) as (N & lo & zs & E & L & R & T & S). rewrite E. apply (laid_node H N lo zs (mkNode KProd zs)); auto. intros l El. discriminate.
Qed.

Lemma made_network t : made t -> exists H z, place t [] = (H, z) /\ z < length H /\ acyclic (children (netOf H)) /\ siblings_ok (children (netOf H)) /\
  (forall u l, nk (netOf H u) = KLeaf l -> Q l /\ nch (netOf H u) = []).
Proof.
  intros M. destruct (made_laid t M []) as (N & lo & E & L & R & S). cbn [app length] in *. exists N, (length N - 1). split; auto. split; [lia|].
  assert (O : forall u, length N <= u -> netOf N u = mkNode KProd []) by (intros u Hu; unfold netOf; apply nth_overflow; auto).
  assert (Cl : forall u c, In c (children (netOf N) u) -> u < length N /\ lo u <= lo c /\ lo c <= c < u).
  { intros u c Hc. destruct (Nat.lt_ge_cases u (length N)) as [Lu|Lu]; [|unfold children in Hc; rewrite O in Hc by auto; destruct Hc].
    apply In_nth_error in Hc as (i & Hi). destruct (S u ltac:(lia)) as (_ & _ & S3 & _). split; auto. apply (S3 i c Hi). }
  assert (Rl : forall a b, reach (children (netOf N)) a b -> b <= a).
  { induction 1 as [|a c b I R' IH]; auto. apply Cl in I. lia. }
  assert (Rlo : forall a b, reach (children (netOf N)) a b -> a < length N -> lo a <= b).
  { induction 1 as [a|a c b I R' IH]; intros Ha; [apply (S a); lia|]. apply Cl in I. specialize (IH ltac:(lia)). lia. }
  split; [|split].
  - intros x c Hc Hr. apply Cl in Hc. apply Rl in Hr. lia.
  - intros p l1 a l2 v l3 Ep _ Hr.
    assert (Ia : nth_error (children (netOf N) p) (length l1) = Some a) by (rewrite Ep, nth_error_app2, Nat.sub_diag by lia; reflexivity).
    assert (Iv : nth_error (children (netOf N) p) (length l1 + Datatypes.S (length l2)) = Some v).
    { rewrite Ep, nth_error_app2 by lia. replace (length l1 + Datatypes.S (length l2) - length l1) with (Datatypes.S (length l2)) by lia. cbn [nth_error]. rewrite nth_error_app2, Nat.sub_diag by lia. reflexivity. }
    destruct (Cl p v (nth_error_In _ _ Iv)) as (Lp & Hv). destruct (S p ltac:(lia)) as (_ & _ & _ & S4). assert (Hlt : length l1 < length l1 + Datatypes.S (length l2)) by lia. specialize (S4 _ _ a v Hlt Ia Iv). apply Rlo in Hr; lia.
  - intros u l Hk. destruct (Nat.lt_ge_cases u (length N)) as [Lu|Lu]; [apply (S u); auto; lia|]. rewrite O in Hk by auto. discriminate.
Qed.
End Made.

Lemma in_set_nth {T} (l : list T) x y : forall i, In y (set_nth i x l) -> y = x \/ In y l.
Proof. induction l as [|a l IH]; intros [|i] H; cbn [set_nth] in H; try (destruct H; fail); destruct H as [H|H]; simpl; auto. destruct (IH i H); auto. Qed.

(** The leaves of Learn are smoothed distributions. *)
Definition positive_leaf (card : Z -> nat) (l : leaf XR) : Prop :=
  exists x ps mi, l = multiLeaf (@mkMulti XR [x] x (map Fin ps) (Z.of_nat mi) (Fin (nth mi ps 0%R))) /\
    length ps = card x /\ (forall p, In p ps -> (0 < p)%R) /\ Rsum ps = 1%R /\ mi < length ps /\ forall p, In p ps -> (p <= nth mi ps 0)%R.

Lemma countValues_nonneg v : forall D c0 c, foldr_ (fun c I => n <- idxZ c (get0 I (v_id v)); Ok (set_nth (Z.to_nat (get0 I (v_id v))) (n + 1)%Z c)) D c0 = Ok c ->
  (forall n, In n c0 -> (0 <= n)%Z) -> length c = length c0 /\ forall n, In n c -> (0 <= n)%Z.
Proof.
  induction D as [|I D IH]; intros c0 c E H; cbn [foldr_] in E; [injection E as <-; auto|].
  destruct (idxZ c0 (get0 I (v_id v))) as [n| |] eqn:En; try discriminate. cbn [bind] in E. apply IH in E.
  - destruct E as (L & P). split; auto. rewrite L. apply set_nth_length.
  - intros m Hm. unfold idxZ in En. destruct (_ <? 0)%Z; try discriminate. unfold idx in En. destruct (nth_error c0 _) as [q|] eqn:Eq; try discriminate. injection En as <-. apply nth_error_In in Eq.
    apply in_set_nth in Hm as [->|Hm]; auto. specialize (H q Eq). lia.
Qed.

Lemma lookup_found Sc x v : lookup Sc x = Some v -> In (x, v) Sc.
Proof. unfold lookup. intros H. destruct (List.find _ Sc) as [[y w]|] eqn:E; [|discriminate]. injection H as <-. apply find_some in E as (I & E). cbn [fst] in E. apply Z.eqb_eq in E as ->. exact I. Qed.
Lemma repeat_nonneg n : forall m, In m (repeat 0%Z n) -> (0 <= m)%Z.
Proof. intros m H. apply repeat_spec in H. lia. Qed.

Section Learn.
Variable ordS : list nat -> nat -> scope -> scope.
Variable ordD : list nat -> nat -> gmap -> gmap.
Variable km : list nat -> list (list (F XR)) -> res (list Z).
Variable rnd : list nat -> nat -> nat -> nat.
Variable chi2 : F XR -> Z -> F XR.
Variable toInt : F XR -> Z.
Variable logProb : F XR -> F XR -> F XR -> F XR.
Variables trunc round : F XR -> Z.
Variable ufuel : nat.
Variables (k mp : Z) (pval eps : F XR).
Variable card : Z -> nat.
Hypothesis Hscope : visits_scope ordS.
Hypothesis Hrnd : forall p i n, 0 < n -> rnd p i n < n.

Definition cards (Sc : scope) : Prop := forall x v, In (x, v) Sc -> (0 < v_cat v)%Z /\ Z.of_nat (card (v_id v)) = v_cat v.

Lemma multinom_made r v D t : (forall n, 0 < n -> r n < n) -> (0 < v_cat v)%Z -> Z.of_nat (card (v_id v)) = v_cat v ->
  newMultinom (A := XR) r v D = Ok t -> made (positive_leaf card) t.
Proof.
  intros Hr Hc Hcard E. unfold newMultinom in E. destruct (countValues v D) as [c| |] eqn:Ec; try discriminate. cbn [bind] in E.
  unfold countValues, Indep.makeInts in Ec. destruct (Z.ltb_spec (v_cat v) 0); try discriminate. cbn [bind] in Ec.
  apply countValues_nonneg in Ec as (Lc & Pc); [|apply repeat_nonneg]. rewrite repeat_length in Lc.
  destruct (counting_l r (v_id v) c) as (ps & mi & Em & H1 & _ & H2 & H3 & _ & H4 & H5); auto.
  { intros ->. simpl in Lc. lia. }
  rewrite Em in E. cbn [bind] in E. injection E as <-. constructor. exists (v_id v), ps, mi. split; auto. split; [lia|]. auto.
Qed.
Lemma mapi_made {X} (f : nat -> X -> res (tree XR)) Q : forall l i cs, mapi_from i f l = Ok cs ->
  (forall j x t, nth_error l j = Some x -> f (i + j) x = Ok t -> made Q t) -> forall j c, nth_error cs j = Some c -> made Q c.
Proof.
  induction l as [|x l IH]; intros i cs E H j c Hc; cbn [mapi_from] in E; [injection E as <-; destruct j; discriminate|].
  destruct (f i x) as [t| |] eqn:Et; try discriminate. cbn [bind] in E. destruct (mapi_from (S i) f l) as [ts| |] eqn:Ets; try discriminate. injection E as <-.
  destruct j as [|j]; cbn [nth_error] in Hc.
  - injection Hc as <-. apply (H 0 x t eq_refl). rewrite Nat.add_0_r. auto.
  - eapply (IH (S i) ts Ets); eauto. intros j' x' t' Hx Ht. apply (H (S j') x' t'); auto. rewrite Nat.add_succ_r. auto.
Qed.
Lemma factorized_made p D Sc t : cards Sc -> newFullyFactorized ordS rnd logProb trunc round p 0 D Sc = Ok t -> made (positive_leaf card) t.
Proof.
  intros HC E. unfold newFullyFactorized in E. cbn [Z.leb Z.compare] in E. destruct (mapi _ _) as [cs| |] eqn:Ec; try discriminate. cbn [bind] in E. injection E as <-.
  constructor. intros i c Hc. eapply (mapi_made _ _ _ _ _ Ec); eauto. intros j [x v] t Hx Ht. cbn [snd] in Ht.
  apply nth_error_In in Hx. apply (Permutation_in _ (Hscope p 1 Sc)) in Hx. destruct (HC x v Hx). eapply multinom_made; eauto.
Qed.
Lemma subScope_cards Sc : cards Sc -> (forall x v, In (x, v) Sc -> v_id v = x) -> forall ks i nsc, mapi_from i (fun _ t => v <- orPanic (lookup Sc t); Ok (t, mkVar t (v_cat v))) ks = Ok nsc ->
  cards nsc /\ (forall x v, In (x, v) nsc -> v_id v = x).
Proof.
  intros HC HI. induction ks as [|t ks IH]; intros i nsc E; cbn [mapi_from] in E; [injection E as <-; split; intros x v []|].
  destruct (lookup Sc t) as [v|] eqn:El; try discriminate. cbn [orPanic bind] in E. destruct (mapi_from (S i) _ ks) as [r| |] eqn:Er; try discriminate. injection E as <-.
  destruct (IH (S i) r Er) as (I1 & I2). apply lookup_found in El. destruct (HC t v El) as (H1 & H2). rewrite (HI t v El) in H2.
  split; intros x w [Hw|Hw]; eauto; injection Hw as <- <-; cbn [v_cat v_id]; auto.
Qed.

Lemma learn_made : forall fuel p Sc D t, cards Sc -> (forall x v, In (x, v) Sc -> v_id v = x) ->
  learnAt ordS ordD km rnd chi2 toInt logProb trunc round ufuel k mp pval eps fuel false 0 p Sc D = Ok t -> made (positive_leaf card) t.
Proof.
  induction fuel as [|fuel IH]; intros p Sc D t HC HI E; [discriminate|]. cbn [learnAt Z.ltb Z.compare] in E. unfold learnOnce in E.
  assert (Step : (G <- newUFIndepGraph chi2 (dataToVarData D (ordS p 0 Sc)) pval ufuel;
      if 1 <? length (snd G) then indepStep (learnAt ordS ordD km rnd chi2 toInt logProb trunc round ufuel k mp pval eps fuel false 0) None p D Sc (snd G)
      else clusterStep ordS ordD km rnd toInt logProb trunc round ufuel k mp eps (learnAt ordS ordD km rnd chi2 toInt logProb trunc round ufuel k mp pval eps fuel false 0) None p 0 D Sc) = Ok t -> made (positive_leaf card) t).
  { clear E. intros E. destruct (newUFIndepGraph _ _ _ _) as [G| |]; try discriminate. cbn [bind] in E. destruct (1 <? length (snd G)).
    - unfold indepStep in E. destruct (mapi _ (snd G)) as [cs| |] eqn:Ec; try discriminate. cbn [bind arrange] in E. injection E as <-.
      constructor. intros i c Hc. eapply (mapi_made _ _ _ _ _ Ec); eauto. intros j ks t Hx Ht. destruct (subScope Sc ks) as [nsc| |] eqn:En; try discriminate. cbn [bind] in Ht.
      unfold subScope, mapi in En. apply subScope_cards in En as (I1 & I2); auto. eapply IH; eauto.
    - unfold clusterStep in E. destruct (_ && _); [eapply factorized_made; eauto|]. destruct (clustersOf _ _ _ _ _ _ _ _ _) as [C| |]; try discriminate. cbn [bind] in E.
      destruct (Nat.eqb (length C) 1); [eapply factorized_made; eauto|]. destruct (mapi _ C) as [cs| |] eqn:Ec; try discriminate. cbn [bind arrange] in E. injection E as <-.
      constructor. intros i w c Hc. assert (G2 : forall l i0 cs, mapi_from i0 (fun i cl => t <- learnAt ordS ordD km rnd chi2 toInt logProb trunc round ufuel k mp pval eps fuel false 0 (i :: p) Sc cl;
          Ok (@fdiv XR (fz (Z.of_nat (length cl))) (fz (Z.of_nat (length D))), t)) l = Ok cs -> forall i w c, nth_error cs i = Some (w, c) -> made (positive_leaf card) c).
      { clear -IH HC HI. induction l as [|x l IHl]; intros i0 cs E i w c Hc; cbn [mapi_from] in E; [injection E as <-; destruct i; discriminate|].
        destruct (learnAt _ _ _ _ _ _ _ _ _ _ _ _ _ _ fuel false 0 (i0 :: p) Sc x) as [t| |] eqn:Et; try discriminate. cbn [bind] in E. destruct (mapi_from (S i0) _ l) as [ts| |] eqn:Ets; try discriminate. cbn [bind] in E.
        injection E as <-. destruct i as [|i]; cbn [nth_error] in Hc; [|eapply IHl; eauto]. injection Hc as <- <-. eapply IH; eauto. }
      eapply G2; eauto. }
  destruct Sc as [|[x v] [|e Sc]]; auto. clear Step. destruct (HC x v (or_introl eq_refl)). eapply multinom_made; eauto.
Qed.
End Learn.

(** Positive leaves and weights give positive values. *)
Lemma positive_discrete card l : positive_leaf card l -> exists x, multinomial_leaf card l x.
Proof. intros (x & ps & mi & E & L & P & S & M & Q). exists x, ps, mi. split; auto. split; auto. split; [intros p Hp; left; auto|]. auto. Qed.
Lemma positive_value card l I : positive_leaf card l -> evidence_ok card I -> (0 < pleaf l I)%R.
Proof.
  intros (x & ps & mi & -> & HL & Hp & Hs & Hm & Hmax) HI. unfold pleaf, multiLeaf, lvalue, multiValue. cbn [m_varid m_pr m_modev].
  destruct (I x) as [v|] eqn:E.
  - pose proof (HI x v E) as Hv. rewrite <- HL in Hv. rewrite prAt_ok by auto. cbn [option_map]. change (@flog XR) with xlog.
    assert (Hin : In (nth (Z.to_nat v) ps 0%R) ps) by (apply nth_In; lia). specialize (Hp _ Hin). rewrite xlog_nonneg by lra. rewrite lin_xln by lra. auto.
  - change (@fz XR 0) with (Fin 0). rewrite <- xln_one, lin_xln; lra.
Qed.
Section Pos.
Variable net : network XR.
Variable card : Z -> nat.
Variables N r : nat.
Local Notation ch := (children net).
Hypothesis Hb : bounded ch N.
Hypothesis Hr : r < N.
Hypothesis Ha : acyclic ch.
Hypothesis HW : proper_weights net r.
Hypothesis HL : forall u l, nk (net u) = KLeaf l -> positive_leaf card l /\ nch (net u) = [].

Lemma pos_nonneg : weights_nonneg net r.
Proof. intros u w R K. destruct (HW u w R K) as (Ne & ws & E & L & P & _). split; auto. exists ws. split; auto. split; auto. intros x Hx. left. auto. Qed.
Lemma pos_normalised : weights_normalised net r.
Proof.
  intros u ws R K. destruct (HW u _ R K) as (_ & ws' & E & _ & _ & S). assert (ws = ws'); [|subst; auto].
  clear -E. revert ws' E. induction ws as [|a ws IH]; intros [|b ws'] H; try discriminate; auto. injection H as -> H. f_equal. auto.
Qed.
Lemma pos_discrete : discrete_leaves net card r.
Proof. intros u l R K. destruct (HL u l K) as (P & E). split; auto. destruct (positive_discrete card l P) as (x & M). exists x. auto. Qed.
Lemma pos_value I : evidence_ok card I -> forall u, reach ch r u -> (0 < P net N I u)%R.
Proof.
  intros HI. apply (node_ind ch N r); auto. intros u Hu IH. destruct (P_spec net card N r Hb Hr Ha pos_nonneg pos_discrete I HI u Hu) as (_ & _ & E).
  destruct (nk (net u)) as [w| |l] eqn:K.
  - destruct (HW u w Hu K) as (Ne & ws & Ew & L & Pw & _). rewrite (E ws Ew). unfold psum. unfold children in IH.
    destruct (nch (net u)) as [|c cs]; [congruence|]. destruct ws as [|q ws]; [discriminate|]. cbn [combine map Rsum fst snd].
    apply Rplus_lt_le_0_compat; [apply Rmult_lt_0_compat; [apply IH|apply Pw]; left; auto|].
    apply Rsum_nonneg. intros x Hx. apply in_map_iff in Hx as ([d y] & <- & Hin). apply in_combine_wt in Hin as (H1 & H2). cbn [fst snd].
    apply Rmult_le_pos; left; [apply IH; right; auto|apply Pw; right; auto].
  - rewrite E. apply Rprod_pos. intros x Hx. apply in_map_iff in Hx as (c & <- & Hc). apply IH. auto.
  - rewrite E. apply (positive_value card); auto. apply (HL u l K).
Qed.
End Pos.

Lemma valued_l Sc card t : valid_over (A := XR) Sc t -> made (positive_leaf card) t -> answers_as_distribution Sc card (valued t).
Proof.
  intros (H & z & E & Lz & Hb & Sco & HC & HD & _ & HS) M. destruct (made_network _ t M) as (H' & z' & E' & _ & Ha & Hsib & HL). rewrite E in E'. injection E' as <- <-.
  pose proof (shares_proper _ _ HS) as HW. pose proof (pos_nonneg _ _ HW) as Wn. pose proof (pos_normalised _ _ HW) as Wo. pose proof (pos_discrete (netOf H) card z HL) as Wd.
  exists (fun I => P (netOf H) (length H) I z). split; [|split].
  - intros I HI. unfold valued. rewrite E.
    destruct (P_spec (netOf H) card (length H) z Hb Lz Ha Wn Wd I HI z (reach_refl _ _)) as (Ev & _ & _). pose proof (pos_value (netOf H) card (length H) z Hb Lz Ha HW HL I HI z (reach_refl _ _)) as Hp.
    destruct (value_prob_l (netOf H) card (length H) z I Hb Lz Ha Wn Wo Wd HI z (reach_refl _ _)) as (x & m & Ex & _ & Hx & _).
    rewrite Ev in Ex |- *. rewrite xln_pos in Ex |- * by auto. split; auto. split; auto. injection Ex as <-. destruct Hx as [Hx|(y & Hy & Hx)]; [discriminate|]. injection Hx as Hx.
    apply Rnot_lt_le. intros Hlt. assert (ln 1 < ln (P (netOf H) (length H) I z))%R by (apply ln_increasing; lra). rewrite ln_1 in *. lra.
  - intros I xs HI Hn Hx. apply P_sum_over; auto. intros x Hi. destruct (Hx x Hi) as (H1 & H2). split; auto. apply Sco. auto.
  - apply (P_one (netOf H) card (length H) z); auto using evidence_empty. apply reach_refl.
Qed.

(** With two variables there is more than a leaf, and Inference agrees with Value. *)
Lemma asked_valued Sc card t : 2 <= length Sc -> NoDup (map fst Sc) -> valid_over (A := XR) Sc t -> made (positive_leaf card) t -> forall I, asked t I = valued t I.
Proof.
  intros L2 Hnd (H & z & E & Lz & Hb & Sco & _) M I. destruct (made_network _ t M) as (H' & z' & E' & _ & Ha & Hsib & HL). rewrite E in E'. injection E' as <- <-.
  assert (Hne : nch (netOf H z) <> []).
  { intros En. destruct Sc as [|[x vx] [|[y vy] Sc]]; cbn [length] in L2; try lia.
    assert (Ix : in_scope (netOf H) z x) by (apply Sco; left; auto). assert (Iy : in_scope (netOf H) z y) by (apply Sco; right; left; auto).
    assert (Lf : forall q, in_scope (netOf H) z q -> exists l, nk (netOf H z) = KLeaf l /\ In q (lsc l)).
    { intros q (v & l & R & K & Hq). apply reach_inv in R as [<-|(c & Hc & _)]; [exists l; auto|]. unfold children in Hc. rewrite En in Hc. destruct Hc. }
    apply Lf in Ix as (l & K & Ix). apply Lf in Iy as (l' & K' & Iy). rewrite K in K'. injection K' as <-.
    destruct (HL z l K) as ((q & ps & mi & -> & _) & _). cbn in Ix, Iy. assert (x = y) by (destruct Ix as [<-|[]], Iy as [<-|[]]; auto). subst y.
    apply NoDup_cons_iff in Hnd as (Nx & _). apply Nx. left. auto. }
  assert (Hlc : leaves_childless (netOf H)) by (intros u l K; apply (HL u l K)).
  unfold asked, valued. rewrite E. destruct (@inference_value_l XR (netOf H) (length H) z I) as (Ei & _); auto.
Qed.
Lemma answers_l Sc card t : 2 <= length Sc -> NoDup (map fst Sc) -> valid_over (A := XR) Sc t -> made (positive_leaf card) t -> answers_as_distribution Sc card (asked t).
Proof.
  intros L2 Hnd V M. destruct (valued_l Sc card t V M) as (p & P1 & P2). exists p. split; auto. intros I HI. rewrite (asked_valued Sc card t); auto.
Qed.
