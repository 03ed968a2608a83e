(** The networks returned by Structure. *)
From Verif Require Import Base Res Arith LogMath GraphSpec Storer Spn Leaves Build Stats Poon PoonSpec PoonCodes PoonLemmas
  PoonLink PoonConn PoonTop PoonLearn ProbSpec ScopedLemmas GraphLemmas PoonRun PoonBuilt.
Local Open Scope Z_scope.

Section Struct.
Context {A : arith}.
Local Notation F := (F A).
Variables w h : Z.
Variable logProb : F -> F -> F -> F.
Variables trunc round : F -> Z.
Variable rnd : nat -> nat -> nat.
Hypothesis w1 : 0 < w.
Hypothesis h1 : 0 < h.
Hypothesis fit : codes_fit w h.
Variable m g : nat.
Variable r : Z.
Hypothesis r1 : 0 < r.
Hypothesis rw : (r | w).
Hypothesis rh : (r | h).
Hypothesis m1 : (0 < m)%nat.
Local Notation root := (Rect 0 0 w h).

Lemma start_Inv L H0 : created w h (region_at r) (H0, L) -> Inv w h L r (startL (A := A) L r H0) /\
  (forall a, inside w h a -> region_at r a -> L (code w h a) <> None).
Proof.
  intros (G & C1 & C2 & C3). cbn [fst snd] in *. split; [|exact C3]. exists G. cbn [startL lH lE lP lB]. split; [|split; [|split; [|split; [|split]]]].
  - intros u n E. destruct (C1 u n E) as [Iu [->|(l & -> & U & Sc)]]; (split; [auto|]); cbn [nk nch].
    + split; [auto|]. split; [constructor|intros c []].
    + auto.
  - exact C2.
  - intros u n ws E K. destruct (C1 u n E) as [_ [->|(l & -> & _)]]; [|discriminate]. injection K as <-. constructor.
  - intros u n E Pn. destruct (C1 u n E) as [_ [->|(l & -> & _)]]; destruct Pn.
  - intros a d _ Hd. unfold startB in Hd. destruct (L (code w h a)); [|destruct Hd]. destruct (r =? 1); [destruct Hd|]. apply repeat_spec in Hd. discriminate.
  - intros d [].
Qed.

Lemma structure_start data H' z : structure w h logProb trunc round rnd data m g r = Ok (H', z) ->
  exists H0 L, created w h (region_at r) (H0, L) /\ info w h m g r L /\
    maxThroughData w h rnd L r H0 data = Ok (H', z).
Proof.
  unfold structure. destruct (Nat.eqb_spec g 0); [discriminate|]. intros E. bk E.
  destruct (createRegions_l w h (unitPar data g) logProb trunc round w1 h1 fit m g r m1 ltac:(lia) r1 rw rh) as (H0 & L & E' & C).
  rewrite E0 in E'. injection E' as ->. exists H0, L. split; auto. split; auto.
  eapply createRegions_info; eauto.
Qed.

(** All sums below [z] have one weight for each child, equal to 1. *)
Definition weightsOne (net : network A) (z : nat) : Prop :=
  forall u ws, reach (children net) z u -> nk (net u) = KSum ws -> length ws = length (nch (net u)) /\ Forall (eq (fz 1)) ws.

Lemma structure_any data H' z : structure w h logProb trunc round rnd data m g r = Ok (H', z) ->
  (forall p, in_scope (netOf H') z p -> 0 <= p < w * h) /\ decomposable (netOf H') z /\
  acyclic_from (children (netOf H')) z /\ weightsOne (netOf H') z.
Proof.
  intros E. destruct (structure_start data H' z E) as (H0 & L & C & Li & E'). destruct (start_Inv L H0 C) as [V0 _].
  destruct (maxThroughData_ok w h rnd w1 h1 fit m g r r1 rw rh L Li H0 H' data z V0 E') as (s & -> & (G & Gd & Tb & On & _) & Ez & _).
  unfold firstInner in Ez. destruct (L (code w h root)) as [RR|] eqn:Er; [|discriminate]. apply idx_ok in Ez. apply nth_error_In in Ez.
  assert (Ir : inside w h root) by (unfold inside; simpl; lia).
  destruct (Tb root RR Ir Er) as [_ Rk]. destruct (Rk z Ez) as (nz & Enz & Gz & _).
  set (H := lH s) in *.
  set (P := fun u => exists n, nth_error H u = Some n).
  assert (Ar : forall u n, nth_error H u = Some n -> 0 < area (G u)).
  { intros u n En. destruct (Gd u n En) as [Iu _]. unfold inside in Iu. unfold area. nia. }
  assert (Fits : forall u, P u -> under_label (netOf H) (fun u => pixel w (G u)) u).
  { intros u (n & En). unfold under_label. rewrite (netOf_nth H u n En). destruct (Gd u n En) as [Iu K]. destruct (nk n) as [ws| |l] eqn:Kn.
    - intros c Hc x. destruct K as (_ & _ & K). destruct (K c Hc) as [-> _]. tauto.
    - destruct K as (b & c & nb & nc & -> & Ct & _). destruct (cut_pixel w h _ _ _ Iu Ct) as [Cov Dis]. split.
      + intros x d Hd. rewrite Cov. destruct Hd as [<-|[<-|[]]]; auto.
      + intros i j d d' x ij Ei Ej Hd Hd'.
        destruct i as [|[|i]]; simpl in Ei; try (destruct i; discriminate); injection Ei as <-;
        destruct j as [|[|j]]; simpl in Ej; try (destruct j; discriminate); injection Ej as <-;
        try congruence; eapply Dis; eauto.
    - destruct K as (Nl & [U1 U2] & Sc). split; auto. intros x. rewrite Sc. unfold pixel.
      intros [<-|[]]. exists (left (G u)), (top (G u)). repeat split; lia. }
  assert (Closed : forall u c, P u -> In c (nch (netOf H u)) -> P c /\ (rk H G c < rk H G u)%nat).
  { intros u c (n & En). rewrite (netOf_nth H u n En). intros Hc.
    destruct (Gd u n En) as [Iu K]. unfold rk. rewrite (netOf_nth H u n En).
    destruct (nk n) as [ws| |l] eqn:Kn.
    - destruct K as (_ & _ & K). destruct (K c Hc) as [Eg (nc & Ec & Pc)].
      rewrite (netOf_nth H c nc Ec). rewrite Eg. split; [exists nc; auto|].
      unfold isProd in Pc. destruct (nk nc); try contradiction. pose proof (Ar u n En). lia.
    - destruct K as (b & d & nb & nd & Ech & Ct & Eb & Ed & _).
      unfold inside in Iu. destruct (cut_area _ _ _ Ct) as [Ab Ad]; try lia.
      rewrite Ech in Hc. destruct Hc as [<-|[<-|[]]].
      + split; [exists nb; auto|]. destruct (nk (netOf H b)); lia.
      + split; [exists nd; auto|]. destruct (nk (netOf H d)); lia.
    - destruct K as [Nl _]. rewrite Nl in Hc. destruct Hc. }
  destruct (under_network (netOf H) (fun u => pixel w (G u)) (rk H G) P Fits Closed z) as (S1 & S2 & S3); [exists nz; auto|].
  split; [|split; [auto|split; [auto|]]].
  - intros p Hp. apply pixel_all; auto. rewrite <- Gz. apply S1. auto.
  - intros u ws R K. destruct (P_reach (netOf H) (rk H G) P Closed z u R) as (n & En); [exists nz; auto|]. rewrite (netOf_nth H u n En) in *.
    destruct (Gd u n En) as [_ Kg]. rewrite K in Kg. split; [tauto|]. eapply On; eauto.
Qed.

Lemma structure_one data H' z : m = 1%nat -> data <> [] -> structure w h logProb trunc round rnd data m g r = Ok (H', z) ->
  (forall p, in_scope (netOf H') z p <-> 0 <= p < w * h) /\ complete (netOf H') z /\ decomposable (netOf H') z /\
  acyclic_from (children (netOf H')) z /\ weightsOne (netOf H') z /\
  (forall u ws, reach (children (netOf H')) z u -> nk (netOf H' u) = KSum ws -> nch (netOf H' u) <> []).
Proof.
  intros Em Ne E. destruct (structure_any data H' z E) as (_ & _ & _ & Wo).
  destruct (structure_start data H' z E) as (H0 & L & C & Li & E'). destruct (start_Inv L H0 C) as [V0 _].
  destruct (maxThroughData_ok w h rnd w1 h1 fit m g r r1 rw rh L Li H0 H' data z V0 E') as (s & -> & (G & Gd & Tb & _ & HP & _) & Ez & Fl).
  unfold firstInner in Ez. destruct (L (code w h root)) as [RR|] eqn:Er; [|discriminate]. apply idx_ok in Ez. apply nth_error_In in Ez.
  assert (Ir : inside w h root) by (unfold inside; simpl; lia).
  destruct (Tb root RR Ir Er) as [_ Rk]. destruct (Rk z Ez) as (nz & Enz & Gz & _).
  destruct (valid_l w h L (lH s) G Gd Tb (region_at r)) with (z := z) (a := root) as (S1 & S2 & S3 & S4 & S5).
  - intros u n c Eu Pu Hc _. destruct (HP u n Eu Pu) as [K _]. auto.
  - intros a R Ia Ra Ua EL. apply (Fl Ne a Ia Ra Ua R EL). destruct (Li a R Ia EL) as (_ & _ & _ & _ & L1 & L2).
    destruct (Z.eq_dec w r) as [Ew|Nw]; [destruct (Z.eq_dec h r) as [Eh|Nh]|].
    + rewrite <- Em. apply L2; auto.
    + destruct (Z.eq_dec (code w h a) (code w h root)) as [Ec|Nc].
      * apply code_inj in Ec; auto. apply L1; auto. tauto.
      * rewrite <- Em. apply L2; auto. left. congruence.
    + destruct (Z.eq_dec (code w h a) (code w h root)) as [Ec|Nc].
      * apply code_inj in Ec; auto. apply L1; auto. tauto.
      * rewrite <- Em. apply L2; auto. left. congruence.
  - exists nz. split; auto. rewrite Gz. split; [apply root_region; auto|]. intros _. exists RR. rewrite Gz. auto.
  - auto.
  - split; [intros p; rewrite S1; apply pixel_all; auto|]. split; auto. split; auto. split; auto. split; auto.
    intros u ws Ru Ku. apply (S5 u ws Ru Ku).
Qed.

Lemma orPanic_nf {T} (o : option T) : orPanic o <> Fuel.
Proof. destruct o; discriminate. Qed.
Lemma idx_nf {T} (l : list T) i : idx l i <> Fuel.
Proof. unfold idx. destruct (nth_error l i); discriminate. Qed.
Lemma idxZ_nf {T} (l : list T) i : idxZ l i <> Fuel.
Proof. unfold idxZ. destruct (i <? 0); [discriminate|]. apply idx_nf. Qed.
Lemma pick_nf {T} (l : list T) (s : lstate A) : pick rnd l s <> Fuel.
Proof. unfold pick. destruct l; [discriminate|]. intros E. apply bind_fuel in E. destruct E as [E|(x & _ & E)]; [apply idx_nf in E; auto|discriminate]. Qed.
Lemma storeInf_nf (s : lstate A) u v : storeInf s u v <> Fuel.
Proof. unfold storeInf, storeVia. destruct (tStoreSingle F _ _ u v) as [[st b]|]; discriminate. Qed.
Lemma setAt_nf {T} (l : list T) i x : setAt l i x <> Fuel.
Proof. unfold setAt. destruct (i <? length l)%nat; discriminate. Qed.
Lemma foldr_nf {T U} (f : U -> T -> res U) l : (forall s x, f s x <> Fuel) -> forall s, foldr_ f l s <> Fuel.
Proof.
  intros Hf. induction l as [|x l IH]; intros s; simpl; [discriminate|]. intros E. apply bind_fuel in E. destruct E as [E|(y & _ & E)]; [eapply Hf; eauto|eapply IH; eauto].
Qed.
Lemma foldi_nf {T U} (f : nat -> U -> T -> res U) l : (forall i s x, f i s x <> Fuel) -> forall s, foldi f l s <> Fuel.
Proof.
  intros Hf. unfold foldi. generalize 0%nat. induction l as [|x l IH]; intros i s; simpl; [discriminate|]. intros E. apply bind_fuel in E. destruct E as [E|(y & _ & E)]; [eapply Hf; eauto|eapply IH; eauto].
Qed.

Ltac nf H := let E := fresh "E" in let x := fresh "x" in apply bind_fuel in H; destruct H as [H|(x & E & H)];
  [try (first [apply orPanic_nf in H|apply idx_nf in H|apply idxZ_nf in H|apply pick_nf in H|apply storeInf_nf in H|apply setAt_nf in H]; contradiction)|].

Lemma tryCut_nf L (s : lstate A) Dm pq : tryCut L s Dm pq <> Fuel.
Proof.
  unfold tryCut. intros H. nf H. nf H. nf H. nf H. cbv zeta in H.
  match type of H with (let '(_, _) := ?e in _) = _ => destruct e end. discriminate.
Qed.

Lemma compUnitRegions_nf L I (s : lstate A) : compUnitRegions w h L I s <> Fuel.
Proof.
  unfold compUnitRegions. apply foldr_nf. intros t [x y]. unfold compUnit. cbv zeta. intros H. nf H. nf H; [|discriminate]. revert H. apply foldi_nf.
  intros i [q mq] u. unfold unitBest. destruct (nk (netOf (lH q) u)); try discriminate. intros H. nf H.
  destruct ((lM q _ =? -1) || fgt _ mq); nf H; discriminate.
Qed.

(** With r = 1 the regions have no room for decompositions: the first one computed panics. *)
Lemma compRect_panic L I (s : lstate A) a : inside w h a -> (forall u, nch (netOf (lH s) u) = []) -> (forall k, lB s k = []) ->
  compRect w h rnd L I s (left a) (top a) (right a) (bottom a) = Panic.
Proof.
  intros Ia Ch Bt. unfold compRect. cbv zeta. change (encode w h (left a) (top a) (right a) (bottom a)) with (code w h a).
  destruct (L (code w h a)) as [R|]; [|reflexivity]. cbn [orPanic bind]. unfold compMap. cbv zeta. set (s0 := withM s _ _) in *.
  assert (Ch0 : forall u, nch (netOf (lH s0) u) = []) by exact Ch. assert (B0 : forall k, lB s0 k = []) by exact Bt. clearbody s0.
  match goal with |- bind ?e _ = _ => destruct e as [[cU s1]| |] eqn:E1 end; [|reflexivity|exfalso].
  2:{ destruct (unused (lH s0) R); [discriminate|]. apply pick_nf in E1. auto. }
  cbn [bind].
  assert (K1 : lH s1 = lH s0 /\ lB s1 = lB s0).
  { destruct (unused (lH s0) R); [injection E1 as _ <-; auto|]. apply pick_ok in E1. destruct E1 as (_ & (K & _) & K' & _). auto. }
  destruct K1 as [K1 K1']. rewrite (decode_code w h w1 h1 fit a Ia). cbn [bind].
  match goal with |- bind ?e _ = _ => destruct e as [Dm| |] eqn:E2 end; [|reflexivity|exfalso; revert E2; apply foldr_nf; intros; apply tryCut_nf]. cbn [bind].
  match goal with |- bind ?e _ = _ => destruct e as [[cD s2]| |] eqn:E3 end; [|reflexivity|exfalso; eapply pick_nf; eauto]. cbn [bind].
  apply pick_ok in E3. destruct E3 as (_ & (K2 & _) & K2' & _).
  assert (Id : forall l st, lH (fst (fst (fst st))) = lH s2 -> foldi (usedSum rnd (code w h a) I cD (snd Dm)) l st = Ok st).
  { unfold foldi. generalize 0%nat. intros i l. revert i. induction l as [|u l IH]; intros i [[[q b] o] mx] Eq; simpl; auto. cbn [fst] in Eq. unfold usedSum at 1.
    rewrite Eq, K2, K1, Ch0. cbn [length Nat.eqb bind]. apply IH. auto. }
  rewrite Id by reflexivity. cbn [bind].
  match goal with |- bind ?e _ = _ => destruct e as [nu| |] eqn:E4 end; [|reflexivity|exfalso; revert E4; apply idx_nf]. cbn [bind].
  match goal with |- bind ?e _ = _ => destruct e as [s3| |] eqn:E5 end; [|reflexivity|exfalso; revert E5; apply storeInf_nf]. cbn [bind].
  destruct (storeInf_ok _ _ _ _ E5) as [_ Q]. rewrite Q, K2', K1', B0. reflexivity.
Qed.

Lemma structure_unit data : r = 1 -> 1 < w * h -> (0 < g)%nat -> data <> [] -> structure w h logProb trunc round rnd data m g r = Panic.
Proof.
  intros Er Big g1 Ne. destruct data as [|I data]; [congruence|]. unfold structure. destruct (Nat.eqb_spec g 0); [lia|].
  destruct (createRegions_l w h (unitPar (I :: data) g) logProb trunc round w1 h1 fit m g r m1 g1 r1 rw rh) as (H0 & L & E & C).
  rewrite E. cbn [bind fst snd].
  unfold maxThroughData. cbn [foldr_]. cut (mapInference w h rnd L r (startL L r H0) I = Panic); [intros ->; reflexivity|].
  assert (Ch : forall u, nch (netOf H0 u) = []).
  { intros u. unfold netOf. destruct (nth_error H0 u) as [nd|] eqn:En; [|rewrite nth_overflow; [reflexivity|apply nth_error_None; auto]]. rewrite (nth_error_nth _ _ _ En).
    destruct C as (G & C1 & _). destruct (C1 u nd En) as [_ [->|(l & -> & _)]]; reflexivity. }
  assert (B0 : forall k, lB (startL (A := A) L r H0) k = []).
  { intros k. cbn [startL lB]. unfold startB. rewrite Er. destruct (L k); reflexivity. }
  unfold mapInference. destruct (compUnitRegions w h L I (startL L r H0)) as [s2| |] eqn:E2; [|reflexivity|exfalso]; cbn [bind].
  2:{ revert E2. apply compUnitRegions_nf. }
  destruct (compUnitRegions_ok w h L I _ s2 E2) as (K1 & _ & _ & _ & K5). cbn [startL lH] in K1.
  assert (E3 : foldr_ (compFine w h rnd L I) (fine r (Z.quot w r) (Z.quot h r)) s2 = Ok s2).
  { assert (Hf : forall i, In i (fine r (Z.quot w r) (Z.quot h r)) -> fst (fst (fst i)) = 1 /\ snd (fst (fst i)) = 1).
    { intros [[[x y] x1] y1] Hi. apply in_fine in Hi. cbn [fst snd]. lia. }
    revert Hf. generalize (fine r (Z.quot w r) (Z.quot h r)). induction l as [|i l IH]; intros Hf; simpl; [congruence|]. destruct (Hf i (or_introl eq_refl)) as [Ex Ey].
    destruct i as [[[x y] x1] y1]. cbn [fst snd] in *. subst x y. cbn [compFine Z.eqb Pos.eqb andb bind]. apply IH. intros j Hj. apply Hf. right. auto. }
  rewrite E3. cbn [bind].
  assert (Hc : forall i, In i (coarse w h r (Z.quot w r) (Z.quot h r)) -> forall a, coarseR r i a -> inside w h a) by (intros i Hi a Ha; eapply coarse_inside; eauto).
  assert (He : exists i a, In i (coarse w h r (Z.quot w r) (Z.quot h r)) /\ coarseR r i a).
  { assert (D1 : forall z, (1 | z)) by apply Z.divide_1_l. rewrite Er. rewrite !Z.quot_1_r.
    destruct (Z.eq_dec w 1) as [Ew|Nw].
    - exists (1, 2, 0, 0), (Rect 0 0 (0 + 1 * 1) (0 + 2 * 1)). split; [|split; auto; lia]. apply in_coarse; [lia|]. split; [lia|]. split; [nia|]. split; (split; [nia|auto]).
    - exists (2, 1, 0, 0), (Rect 0 0 (0 + 2 * 1) (0 + 1 * 1)). split; [|split; auto; lia]. apply in_coarse; [lia|]. split; [lia|]. split; [nia|]. split; (split; [nia|auto]). }
  revert Hc He. generalize (coarse w h r (Z.quot w r) (Z.quot h r)). induction l as [|i l IH]; intros Hc He; simpl; [destruct He as (? & ? & [] & _)|].
  destruct i as [[[ca cb] x1] y1]. unfold compCoarse at 1. destruct ((ca =? 1) && (cb =? 1)) eqn:U.
  - cbn [bind]. apply IH; [intros j Hj; apply Hc; right; auto|]. destruct He as (j & b & [<-|Hj] & Rj); [|eauto].
    destruct Rj as [Nj _]. apply andb_prop in U. destruct U as [U1 U2]. apply Z.eqb_eq in U1, U2. lia.
  - assert (N : ca <> 1 \/ cb <> 1) by (apply andb_false_iff in U; destruct U as [U|U]; apply Z.eqb_neq in U; auto).
    assert (Ia : inside w h (Rect x1 y1 (x1 + ca * r) (y1 + cb * r))) by (apply (Hc (ca, cb, x1, y1)); [left; auto|split; auto]).
    pose proof (compRect_panic L I s2 (Rect x1 y1 (x1 + ca * r) (y1 + cb * r)) Ia) as Pn. cbn [left top right bottom] in Pn.
    rewrite Pn; auto; [rewrite K1; auto|intros k; rewrite K5; auto].
Qed.
End Struct.
