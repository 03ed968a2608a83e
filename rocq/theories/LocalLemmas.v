(** Evidence on variables that a network does not have. *)
From Verif Require Import Base Res Arith GraphSpec GraphLemmas Topo Storer Spn Leaves ProbSpec BelowLemmas LocalSpec.

Section Local.
Context {A : arith}.
Variables (net : network A) (r : nat) (I J : varset).
Local Notation S := (reach (children net) r).
Hypothesis HV : forall u l, S u -> nk (net u) = KLeaf l -> lvalue l I = lvalue l J /\ lmax l I = lmax l J /\ largmax l I = largmax l J.

Lemma mapi_from_ext {T U} (f g : nat -> T -> res U) (l : list T) : (forall i c, In c l -> f i c = g i c) -> forall i, mapi_from i f l = mapi_from i g l.
Proof. induction l as [|c l IH]; intros H i; cbn [mapi_from]; auto. rewrite H by (left; auto). rewrite IH by (intros; apply H; right; auto). auto. Qed.
Lemma mapi_local {T U} (f g : nat -> T -> res U) (l : list T) : (forall i c, In c l -> f i c = g i c) -> mapi f l = mapi g l.
Proof. intros H. apply mapi_from_ext. auto. Qed.
Lemma foldi_from_ext {T U} (f g : nat -> U -> T -> res U) (l : list T) : (forall i s c, In c l -> f i s c = g i s c) -> forall i s, foldi_from i f l s = foldi_from i g l s.
Proof.
  induction l as [|c l IH]; intros H i s; cbn [foldi_from]; auto. rewrite H by (left; auto). destruct (g i s c); auto. cbn [bind]. apply IH. intros; apply H; right; auto.
Qed.
Lemma foldi_local {T U} (f g : nat -> U -> T -> res U) (l : list T) s : (forall i s c, In c l -> f i s c = g i s c) -> foldi f l s = foldi g l s.
Proof. intros H. apply foldi_from_ext. auto. Qed.
Lemma foldr_local {T U} (f g : U -> T -> res U) (l : list T) : (forall s c, In c l -> f s c = g s c) -> forall s, foldr_ f l s = foldr_ g l s.
Proof. induction l as [|c l IH]; intros H s; cbn [foldr_]; auto. rewrite H by (left; auto). destruct (g s c); auto. cbn [bind]. apply IH. intros; apply H; right; auto. Qed.

Lemma value_local : forall f u, S u -> value net f I u = value net f J u.
Proof.
  induction f as [|f IH]; intros u Hu; [reflexivity|]. cbn [value]. destruct (nk (net u)) as [w| |l] eqn:EK.
  - unfold sumVals. erewrite mapi_local; [reflexivity|]. intros i c Hc. cbn beta. rewrite IH; auto. eapply reach_snoc; eauto.
  - erewrite mapi_local; [reflexivity|]. intros i c Hc. cbn beta. apply IH. eapply reach_snoc; eauto.
  - destruct (HV u l Hu EK) as (-> & _). auto.
Qed.
Lemma max_local : forall f u, S u -> max_ net f I u = max_ net f J u.
Proof.
  induction f as [|f IH]; intros u Hu; [reflexivity|]. cbn [max_]. destruct (nk (net u)) as [w| |l] eqn:EK.
  - apply foldi_local. intros i s c Hc. cbn beta. rewrite IH; auto. eapply reach_snoc; eauto.
  - apply foldi_local. intros i s c Hc. cbn beta. rewrite IH; auto. eapply reach_snoc; eauto.
  - destruct (HV u l Hu EK) as (_ & -> & _). auto.
Qed.
Lemma argMax_local : forall f u, S u -> argMax net f I u = argMax net f J u.
Proof.
  induction f as [|f IH]; intros u Hu; [reflexivity|]. cbn [argMax]. destruct (nk (net u)) as [w| |l] eqn:EK.
  - set (g := fun i (st : F A * option nat) c => wi <- idx w i; v <- max_ net f J c; let m := fadd (flog wi) v in Ok (if fgt m (fst st) then (m, Some c) else st)).
    rewrite (foldi_local _ g) by (intros i s c Hc; unfold g; rewrite max_local; auto; eapply reach_snoc; eauto).
    assert (K : forall l i st q, (forall c, In c l -> In c (nch (net u))) -> (forall c, snd st = Some c -> In c (nch (net u))) ->
        foldi_from i g l st = Ok q -> forall c, snd q = Some c -> In c (nch (net u))).
    { induction l as [|c l IHl]; intros i st q Hl Hs; cbn [foldi_from].
      - intros E. injection E as <-. auto.
      - unfold g at 1. destruct (idx w i); cbn [bind]; try discriminate. destruct (max_ net f J c); cbn [bind]; try discriminate. cbv zeta.
        apply IHl; [intros; apply Hl; right; auto|]. intros c'. destruct (fgt _ _); auto. cbn [snd]. intros E. injection E as <-. apply Hl. left; auto. }
    destruct (foldi g (nch (net u)) (fninf, None)) as [q| |] eqn:E; auto. cbn [bind]. destruct (snd q) as [c|] eqn:Ec; auto.
    rewrite IH; auto. eapply reach_snoc; [exact Hu|]. apply (K (nch (net u)) 0%nat (fninf, None) q); auto. intros c'. discriminate.
  - apply foldi_local. intros i s c Hc. cbn beta. rewrite IH; auto. eapply reach_snoc; eauto.
  - destruct (HV u l Hu EK) as (_ & _ & ->). auto.
Qed.

Lemma inference_local f : inference net f r I = inference net f r J.
Proof.
  unfold inference. destruct (Nat.eqb _ 0); auto. destruct (topSortTarjan (children net) f r) as [ord|] eqn:E; auto.
  rewrite (foldr_local (inferNode net I) (inferNode net J)); auto. intros V u Hu. apply (top_out net r) with (x := u) in E; auto. unfold inferNode.
  destruct (nk (net u)) as [w| |l] eqn:EK; auto. destruct (HV u l E EK) as (-> & _). auto.
Qed.
Lemma storeLoop_local t : forall ord st, (forall x, In x ord -> S x) -> storeLoop net I t ord st = storeLoop net J t ord st.
Proof.
  induction ord as [|u ord IH]; intros st Ho; [reflexivity|]. cbn [storeLoop].
  assert (E : storeNode net I t st u = storeNode net J t st u).
  { unfold storeNode. destruct (nk (net u)) as [w| |l] eqn:EK; auto. destruct (HV u l (Ho u (or_introl eq_refl)) EK) as (-> & _). auto. }
  rewrite E. destruct (storeNode net J t st u) as [[st' go]| |]; auto. cbn [bind]. destruct go; auto. apply IH. intros; apply Ho; right; auto.
Qed.
Lemma storeInference_local f tk st : storeInference net f r I tk st = storeInference net f r J tk st.
Proof.
  unfold storeInference. destruct (Nat.eqb _ 0); auto. destruct (if (tk <? 0)%Z then _ else _) as [st1 tk1].
  destruct (topSortTarjan (children net) f r) as [ord|] eqn:E; auto. rewrite storeLoop_local; auto. eapply top_out; eauto.
Qed.

Lemma mapLoop_local rnd look : forall f i Q V M, (forall x, In x Q -> S x) -> mapLoop net rnd I look f i Q V M = mapLoop net rnd J look f i Q V M.
Proof.
  induction f as [|f IH]; intros i Q V M HQ; [reflexivity|]. cbn [mapLoop]. destruct Q as [|s Q]; [reflexivity|].
  assert (Ss : S s) by (apply HQ; left; auto). assert (HQ' : forall x, In x Q -> S x) by (intros; apply HQ; right; auto).
  destruct (nk (net s)) as [w| |l] eqn:EK.
  - destruct (bestChildren look w (nch (net s))) as [b| |] eqn:Eb; auto. cbn [bind]. destruct (Nat.eqb _ 0); auto.
    destruct (idx (snd b) _) as [c| |] eqn:Ec; auto. cbn [bind].
    assert (Sc : S c).
    { eapply reach_snoc; [exact Ss|]. unfold idx in Ec. destruct (nth_error (snd b) _) eqn:En; [|discriminate]. injection Ec as ->. apply nth_error_In in En.
      assert (K : forall l i st q, (forall c, In c l -> In c (nch (net s))) -> (forall c, In c (snd st) -> In c (nch (net s))) ->
        foldi_from i (fun i (st : F A * list nat) c => let (m, mv) := st in wi <- idx w i; let u := fadd (flog wi) (look c) in
           Ok (if fgt u m then (u, [c]) else if feq u m then (m, mv ++ [c]) else st)) l st = Ok q -> forall c, In c (snd q) -> In c (nch (net s))).
      { clear. induction l as [|c l IHl]; intros i [m mv] q Hl Hs; cbn [foldi_from].
        - intros E. injection E as <-. auto.
        - destruct (idx w i); cbn [bind]; try discriminate. cbv zeta. apply IHl; [intros; apply Hl; right; auto|].
          assert (Hc : In c (nch (net s))) by (apply Hl; left; auto). cbn [snd] in Hs. intros c'. destruct (fgt _ _); [|destruct (feq _ _)]; cbn [snd]; auto.
          + intros [<-|[]]. auto.
          + intros H. apply in_app_or in H. destruct H as [H|[<-|[]]]; auto. }
      eapply (K (nch (net s)) 0%nat (fninf, []) b); auto. intros x []. }
    unfold push. destruct (memn c V); apply IH; auto. intros x Hx. apply in_app_or in Hx. destruct Hx as [Hx|[<-|[]]]; auto.
  - pose proof (fold_push net r (nch (net s)) Q V) as Hp. destruct (fold_left _ _ _) as [Q2 V2]. apply IH. apply Hp; auto. intros x Hx. eapply reach_snoc; eauto.
  - destruct (HV s l Ss EK) as (_ & _ & ->). destruct (largmax l J); auto. cbn [orPanic bind]. apply IH; auto.
Qed.
Lemma storeMAP_local rnd f tk st : storeMAP net rnd f r I tk st = storeMAP net rnd f r J tk st.
Proof.
  unfold storeMAP. destruct (Nat.eqb _ 0); auto. destruct (if (tk <? 0)%Z then _ else _) as [st1 tk1].
  destruct (topSortTarjan (children net) f r) as [ord|] eqn:E; auto. cbv zeta.
  rewrite (foldr_local (mapNode net I (fst (table (F A) st1 tk1))) (mapNode net J (fst (table (F A) st1 tk1)))).
  - destruct (foldr_ _ ord st1) as [st2| |]; auto. cbn [bind]. rewrite mapLoop_local; auto. intros x [<-|[]]. apply reach_refl.
  - intros s u Hu. apply (top_out net r) with (x := u) in E; auto. unfold mapNode. destruct (nk (net u)) as [w| |l] eqn:EK; auto. destruct (HV u l E EK) as (_ & -> & _). auto.
Qed.
Lemma traceMAP_local rnd f : traceMAP net rnd f r I = traceMAP net rnd f r J.
Proof.
  unfold traceMAP. destruct (topSortTarjan (children net) f r) as [ord|] eqn:E; auto.
  rewrite (foldr_local (traceNode net I) (traceNode net J)); auto. intros s u Hu. apply (top_out net r) with (x := u) in E; auto. unfold traceNode.
  destruct (nk (net u)) as [w| |l] eqn:EK; auto. destruct (HV u l E EK) as (_ & -> & _). auto.
Qed.
End Local.

Lemma leaf_local {A : arith} logProb trunc round (l : leaf A) I J : gospn_leaf logProb trunc round l -> (forall x, In x (lsc l) -> I x = J x) ->
  lvalue l I = lvalue l J /\ lmax l I = lmax l J /\ largmax l I = largmax l J.
Proof.
  intros [(m & -> & Hm)|[(x & v & ->)|(x & mu & sigma & ->)]] H.
  - cbn [multiLeaf lvalue lmax largmax lsc] in *. unfold multiValue, multiMax, multiArgMax. rewrite (H _ Hm). auto.
  - cbn [indLeaf lvalue lmax largmax lsc] in *. unfold indValue, indArgMax. rewrite (H x (or_introl eq_refl)). auto.
  - cbn [gaussLeaf lvalue lmax largmax lsc] in *. unfold gaussValue, gaussMax, gaussArgMax. rewrite (H x (or_introl eq_refl)). auto.
Qed.

Lemma local_l (A : arith) (net : network A) logProb trunc round (r : nat) (I J : varset) :
  (forall u l, reach (children net) r u -> nk (net u) = KLeaf l -> gospn_leaf logProb trunc round l) -> same_evidence net r I J ->
  forall fuel, value net fuel I r = value net fuel J r /\ max_ net fuel I r = max_ net fuel J r /\ argMax net fuel I r = argMax net fuel J r /\
    inference net fuel r I = inference net fuel r J /\
    (forall tk st, storeInference net fuel r I tk st = storeInference net fuel r J tk st) /\
    (forall rnd tk st, storeMAP net rnd fuel r I tk st = storeMAP net rnd fuel r J tk st) /\
    (forall rnd, traceMAP net rnd fuel r I = traceMAP net rnd fuel r J).
Proof.
  intros HL HE fuel. assert (HV : forall u l, reach (children net) r u -> nk (net u) = KLeaf l -> lvalue l I = lvalue l J /\ lmax l I = lmax l J /\ largmax l I = largmax l J).
  { intros u l Hu EK. eapply leaf_local; [eapply HL; eauto|]. intros x Hx. apply HE. exists u, l. auto. }
  pose proof (reach_refl (children net) r) as Hr.
  split; [apply (value_local net r I J HV); auto|]. split; [apply (max_local net r I J HV); auto|]. split; [apply (argMax_local net r I J HV); auto|].
  split; [apply inference_local; auto|]. split; [intros; apply storeInference_local; auto|]. split; [intros; apply storeMAP_local; auto|]. intros; apply traceMAP_local; auto.
Qed.
