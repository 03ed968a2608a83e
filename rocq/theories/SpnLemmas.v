From Verif Require Import Base Res Arith LogMath GraphSpec GraphLemmas Topo TopoLemmas
  Storer StorerSpec StorerLemmas Spn SpnSpec DP.

Lemma nodup_bound l N : NoDup l -> (forall x, In x l -> x < N) -> length l <= N.
Proof.
  intros Hn H. rewrite <- (seq_length N 0). apply NoDup_incl_length; auto.
  intros x Hx. apply in_seq. specialize (H x Hx). lia.
Qed.

Lemma reach_bounded ch N r x : bounded ch N -> r < N -> reach ch r x -> x < N.
Proof. intros Hb Hr H. induction H; auto. apply IHreach. eapply Hb; eauto. Qed.

Section L.
Context {A : arith}.
Local Notation F := (F A).
Variable net : network A.
Local Notation ch := (children net).

(** What one node computes from its children. *)
Definition evV (I : varset) (look : nat -> res F) (u : nat) : res F :=
  match nk (net u) with
  | KSum w => vals <- sumVals look w (nch (net u)); sumCompute vals
  | KProd => vals <- mapi (fun _ c => look c) (nch (net u)); Ok (prodCompute vals)
  | KLeaf l => orPanic (lvalue l I)
  end.

Lemma value_val f I u : value net f I u = val F (evV I) f u.
Proof.
  revert u. induction f as [|f IH]; intros u; simpl; auto. unfold evV.
  destruct (nk (net u)) as [w| |l]; auto.
  - unfold sumVals, mapi. erewrite mapi_from_ext; [reflexivity|]. intros j c _. simpl. rewrite IH. auto.
  - unfold mapi. erewrite mapi_from_ext; [reflexivity|]. intros j c _. simpl. auto.
Qed.

Lemma evV_ext I u l1 l2 : (forall c, In c (ch u) -> l1 c = l2 c) -> evV I l1 u = evV I l2 u.
Proof.
  unfold children, evV. intros H. destruct (nk (net u)) as [w| |l]; auto.
  - unfold sumVals, mapi. erewrite mapi_from_ext; [reflexivity|]. intros j c Hc. simpl. rewrite H; auto.
  - unfold mapi. erewrite mapi_from_ext; [reflexivity|]. intros j c Hc. simpl. auto.
Qed.

Lemma logSumExp_nofuel (a : list F) : logSumExp a <> Fuel.
Proof.
  unfold logSumExp. unfold idx. destruct (nth_error a 0); simpl; [|discriminate].
  destruct (fisinf _); discriminate.
Qed.

Lemma orPanic_nofuel {X} (o : option X) : orPanic o <> Fuel.
Proof. destruct o; discriminate. Qed.

Lemma idx_nofuel {X} (l : list X) i : idx l i <> Fuel.
Proof. unfold idx. destruct (nth_error l i); discriminate. Qed.

Lemma bind_nofuel {X Y} (x : res X) (f : X -> res Y) :
  x <> Fuel -> (forall a, f a <> Fuel) -> bind x f <> Fuel.
Proof. destruct x; simpl; intros; auto; discriminate. Qed.

Lemma evV_nofuel I u look : (forall c, In c (ch u) -> look c <> Fuel) -> evV I look u <> Fuel.
Proof.
  unfold children, evV. intros H. destruct (nk (net u)) as [w| |l].
  - apply bind_nofuel; [|apply logSumExp_nofuel]. apply mapi_from_nofuel. intros j c Hc.
    apply bind_nofuel; auto. intros v. apply bind_nofuel; [apply idx_nofuel|discriminate].
  - apply bind_nofuel; [|discriminate]. apply mapi_from_nofuel. auto.
  - apply orPanic_nofuel.
Qed.

Lemma evV_panic I u look c : leaves_childless net -> (forall c, In c (ch u) -> look c <> Fuel) ->
  In c (ch u) -> look c = Panic -> evV I look u = Panic.
Proof.
  unfold children, evV. intros HL H Hc HP. destruct (nk (net u)) as [w| |l] eqn:E.
  - unfold sumVals, mapi. erewrite mapi_from_panic; [reflexivity| |exact Hc|].
    + intros j d Hd. apply bind_nofuel; auto. intros v. apply bind_nofuel; [apply idx_nofuel|discriminate].
    + intros j. simpl. rewrite HP. reflexivity.
  - unfold mapi. erewrite mapi_from_panic; [reflexivity| |exact Hc|]; auto.
  - rewrite (HL _ _ E) in Hc. destruct Hc.
Qed.

(** The order used by the iterative functions, for networks satisfying the C12 condition. *)
Lemma good_order N r : bounded ch N -> r < N -> acyclic ch -> siblings_ok ch ->
  exists l l0, topSortTarjan ch (2 * N + 1) r = Some l /\ dependency_order ch l /\
    NoDup l /\ (forall x, In x l <-> reach ch r x) /\ length l <= N /\ l = l0 ++ [r].
Proof.
  intros Hb Hr Ha Hs. destruct (tarjan_full ch N r Hb Hr) as (l & E & (Hn & He) & l0 & Hl).
  destruct (tarjan_order_full ch N r Hb Hr Ha Hs) as (l' & E' & Hd). rewrite E in E'. injection E' as <-.
  exists l, l0. repeat split; auto; try apply He.
  apply nodup_bound; auto. intros x Hx. eapply reach_bounded; eauto. apply He; auto.
Qed.

Lemma value_stable N r I : bounded ch N -> r < N -> acyclic ch ->
  forall u f, reach ch r u -> N <= f ->
  value net f I u = value net N I u /\ value net f I u <> Fuel /\
  value net f I u = evV I (value net f I) u.
Proof.
  intros Hb Hr Ha u f Hu Hf.
  destruct (tarjanRec_full ch N r Hb Hr) as (l & _ & _ & (Hn & He) & _ & Ho).
  destruct (Ho Ha) as [Hd _].
  assert (HL : length l <= N).
  { apply nodup_bound; auto. intros x Hx. eapply reach_bounded; eauto. apply He; auto. }
  rewrite !value_val.
  assert (X : forall c, value net f I c = val F (evV I) f c) by (intros; apply value_val).
  rewrite (evV_ext I u _ (val F (evV I) f)) by auto.
  pose proof (val_total F ch (evV I) (fun _ => True) (evV_ext I)
                (fun u l _ => evV_nofuel I u l) l Hd (fun _ _ => Logic.I) u f (proj2 (He u) Hu) ltac:(lia)) as [T1 T2].
  split; [|split]; auto.
  apply (val_more F ch (evV I) (fun _ => True) (evV_ext I)
                (fun u l _ => evV_nofuel I u l) l Hd); auto; try lia. apply He; auto.
Qed.

Definition getF (s : nat -> option F) : nat -> option F := s.

(** The general form: any step function that stores what the node computes from the stored
    values of its children. *)
Lemma loop_gen (ev : (nat -> res F) -> nat -> res F) N r (S : Type) (get : S -> nat -> option F)
  (Inv : S -> Prop) (step : S -> nat -> res S) l s0 :
  (forall u l1 l2, (forall c, In c (ch u) -> l1 c = l2 c) -> ev l1 u = ev l2 u) ->
  (forall u lk, (forall c, In c (ch u) -> lk c <> Fuel) -> ev lk u <> Fuel) ->
  (forall u lk c, (forall c, In c (ch u) -> lk c <> Fuel) -> In c (ch u) -> lk c = Panic ->
     ev lk u = Panic) ->
  dependency_order ch l -> NoDup l -> (forall x, In x l <-> reach ch r x) -> length l <= N ->
  Inv s0 ->
  (forall s u, reach ch r u -> Inv s -> (forall c, In c (ch u) -> get s c <> None) ->
     match ev (fun c => Ok (dflt F (fz 0) (get s c))) u with
     | Ok v => exists s', step s u = Ok s' /\ Inv s' /\ get s' u = Some v /\
                          forall x, x <> u -> get s' x = get s x
     | Panic => step s u = Panic
     | Fuel => False
     end) ->
  match foldr_ step l s0 with
  | Ok s => Inv s /\ (forall u, reach ch r u -> exists v, get s u = Some v /\ val F ev N u = Ok v) /\
            (forall u, ~ reach ch r u -> get s u = get s0 u)
  | Panic => val F ev N r = Panic
  | Fuel => False
  end.
Proof.
  intros Hext Hnf Hpan Hd Hn He Hlen HI Hstep.
  pose proof (dp_loop F ch ev (fun u => reach ch r u) Hext
     (fun u l _ => Hnf u l) S get (fz 0) Inv step Hstep l N s0 Hd Hn
     (fun u H => proj1 (He u) H) Hlen HI) as H.
  destruct (foldr_ step l s0) as [s| |].
  - destruct H as (H1 & H2 & H3). split; auto. split.
    + intros u Hu. apply (H2 u (proj2 (He u) Hu)).
    + intros u Hu. apply H3. intros Hin. apply Hu, He; auto.
  - destruct H as (u & Hu & E).
    apply (val_panic_up F ch ev (fun _ => True) Hext
             (fun u l _ => Hnf u l)) with (l := l) (u := u); auto.
    + intros x lk c _. apply Hpan.
    + apply He; auto.
    + apply He. apply reach_refl.
  - destruct H.
Qed.

Lemma inferNode_step I (s : nat -> option F) u :
  match evV I (fun c => Ok (dflt F (fz 0) (s c))) u with
  | Ok v => exists s', inferNode net I s u = Ok s' /\ True /\ s' u = Some v /\
                       forall x, x <> u -> s' x = s x
  | Panic => inferNode net I s u = Panic
  | Fuel => False
  end.
Proof.
  pose proof (evV_nofuel I u (fun c => Ok (dflt F (fz 0) (s c))) ltac:(discriminate)) as HN.
  assert (E : inferNode net I s u =
    (v <- evV I (fun c => Ok (dflt F (fz 0) (s c))) u; Ok (upd s u (Some v)))).
  { unfold inferNode, evV. destruct (nk (net u)); reflexivity. }
  rewrite E. destruct (evV I _ u) as [v| |]; simpl; auto; try congruence.
  eexists. split; [reflexivity|]. split; auto. split; [apply upd_same|]. intros; apply upd_diff; auto.
Qed.

(** C15 *)
Lemma inference_value_l N r I : bounded ch N -> r < N -> acyclic ch -> siblings_ok ch ->
  leaves_childless net -> nch (net r) <> [] ->
  inference net (2 * N + 1) r I = value net N I r /\ value net N I r <> Fuel.
Proof.
  intros Hb Hr Ha Hs HL Hne. split; [|apply (value_stable N r I); auto; apply reach_refl].
  destruct (good_order N r Hb Hr Ha Hs) as (l & l0 & E & Hd & Hn & He & Hlen & _).
  unfold inference. destruct (Nat.eqb_spec (length (nch (net r))) 0) as [H0|_].
  { apply length_zero_iff_nil in H0. contradiction. }
  rewrite E.
  pose proof (loop_gen (evV I) N r _ getF (fun _ => True) (inferNode net I) l (fun _ => None)
    (evV_ext I) (evV_nofuel I) (fun u lk c => evV_panic I u lk c HL)
    Hd Hn He Hlen Logic.I (fun s u _ _ _ => inferNode_step I s u)) as H.
  destruct (foldr_ (inferNode net I) l (fun _ => None)) as [V| |]; simpl.
  2:{ rewrite value_val. auto. }
  2:{ destruct H. }
  destruct H as (_ & H & _). destruct (H r (reach_refl _ _)) as (v & E1 & E2).
  rewrite value_val, E2.
  unfold getF in E1. unfold getV. rewrite E1. reflexivity.
Qed.

(** C17 *)
Lemma inferenceY_l fuel r I Y y : (forall u l, nk (net u) = KLeaf l -> univariate l) ->
  inferenceY net fuel r I Y y = inference net fuel r (setvar I Y y).
Proof.
  intros HU. unfold inferenceY, inference. destruct (Nat.eqb _ 0); auto.
  destruct (topSortTarjan ch fuel r) as [l|]; auto. f_equal.
  assert (X : forall V u, inferNodeY net I Y y V u = inferNode net (setvar I Y y) V u).
  { intros V u. unfold inferNodeY, inferNode. destruct (nk (net u)) as [w| |lf] eqn:E; auto.
    destruct (HU _ _ E) as (x & t & Es & Hloc). rewrite Es. simpl.
    destruct (Z.eqb_spec x Y) as [->|Hxy].
    - rewrite (Hloc (vsingle Y y) (setvar I Y y)); auto.
      unfold vsingle, setvar. rewrite updZ_same, Z.eqb_refl. reflexivity.
    - rewrite (Hloc I (setvar I Y y)); auto. unfold setvar.
      destruct (Z.eqb_spec x Y); congruence. }
  generalize (fun _ : nat => @None F) as V. induction l as [|u l IH]; intros V; simpl; auto.
  rewrite X. destruct (inferNode net (setvar I Y y) V u); simpl; auto.
Qed.

(** C16 *)
Section Table.
Variables (k : Z) (t : nat) (base : storer F).
Definition tinv (st : storer F) : Prop :=
  wf F st /\ tables F st = tables F base /\ tickets F st = tickets F base /\
  forall k' x l, (k' <> k \/ l <> 0%Z) -> cval F st k' x l = cval F base k' x l.
Definition tget (st : storer F) (u : nat) : option F := cval F st k u 0.
Hypothesis Ht : tables F base k = Some t.

Lemma tSingle_get st u : tinv st -> tSingle F (fz 0) st (Some t) u =
  match tget st u with None => (fz 0, false) | Some v => (v, true) end.
Proof.
  intros (W & E & _). unfold tSingle. rewrite (tEntry_cval F (fz 0) st k t u 0); auto.
  rewrite E; auto.
Qed.

Lemma storeVia_ok st u v : tinv st -> exists st', storeVia st (Some t) u v = Ok st' /\ tinv st' /\
  tget st' u = Some v /\ forall x, x <> u -> tget st' x = tget st x.
Proof.
  intros (W & E & E2 & Ho). unfold storeVia, tStoreSingle.
  destruct (tstore_ok F st k t u 0 v W) as (st' & -> & W' & E' & E2' & Hv & Hoth); [rewrite E; auto|].
  exists st'. split; auto. split; [|split; auto].
  - split; auto. split; [congruence|]. split; [congruence|]. intros k' x l Hd.
    rewrite Hoth; auto. intros (-> & -> & ->). destruct Hd; auto.
  - intros x Hx. apply Hoth. intros (_ & -> & _). auto.
Qed.

Lemma storeSumVals_ok st w cs i : tinv st -> (forall c, In c cs -> tget st c <> None) ->
  storeSumVals st (Some t) i w cs =
  (vs <- mapi_from i (fun i c => v <- Ok (dflt F (fz 0) (tget st c)); wi <- idx w i; Ok (fadd v (flog wi))) cs;
   Ok (Some vs)).
Proof.
  intros HI. revert i. induction cs as [|c cs IH]; intros i H; simpl; auto.
  rewrite tSingle_get by auto. pose proof (H c ltac:(left; auto)) as Hc.
  destruct (tget st c) as [v|] eqn:E; [|congruence]. simpl.
  destruct (idx w i) as [wi| |]; simpl; auto.
  rewrite IH by (intros; apply H; right; auto).
  destruct (mapi_from (S i) _ cs); reflexivity.
Qed.

(** Turns the early return into an outcome of its own. *)
Definition storeStep (I : varset) (st : storer F) (s : nat) : res (storer F) :=
  r <- storeNode net I (Some t) st s; if snd r then Ok (fst r) else Fuel.

Lemma storeLoop_step I l st : foldr_ (storeStep I) l st <> Fuel ->
  storeLoop net I (Some t) l st = (st' <- foldr_ (storeStep I) l st; Ok (st', true)).
Proof.
  revert st. induction l as [|u l IH]; intros st H; simpl in *; auto.
  unfold storeStep at 1. unfold storeStep at 1 in H.
  destruct (storeNode net I (Some t) st u) as [[st' [|]]| |]; simpl in *; auto; congruence.
Qed.

Lemma storeStep_ok I st u : (forall w, nk (net u) = KSum w -> nch (net u) <> []) ->
  tinv st -> (forall c, In c (ch u) -> tget st c <> None) ->
  match evV I (fun c => Ok (dflt F (fz 0) (tget st c))) u with
  | Ok v => exists s', storeStep I st u = Ok s' /\ tinv s' /\ tget s' u = Some v /\
                       forall x, x <> u -> tget s' x = tget st x
  | Panic => storeStep I st u = Panic
  | Fuel => False
  end.
Proof.
  intros Hne HI Hc. unfold children in Hc.
  pose proof (evV_nofuel I u (fun c => Ok (dflt F (fz 0) (tget st c))) ltac:(discriminate)) as HN.
  assert (E : storeStep I st u =
    (v <- evV I (fun c => Ok (dflt F (fz 0) (tget st c))) u; storeVia st (Some t) u v)).
  { unfold storeStep, storeNode, evV. destruct (nk (net u)) as [w| |lf].
    - rewrite storeSumVals_ok by auto. unfold sumVals, mapi.
      destruct (mapi_from 0 _ (nch (net u))) as [vs| |]; simpl; auto.
      destruct (Nat.eqb_spec (length (nch (net u))) 0) as [H0|_].
      { apply length_zero_iff_nil in H0. exfalso. eapply Hne; eauto. }
      destruct (sumCompute vs) as [v| |]; simpl; auto.
      destruct (storeVia st (Some t) u v); reflexivity.
    - assert (M : mapi (fun _ c => Ok (dflt F (fz 0) (tget st c))) (nch (net u)) =
        Ok (map (fun c => fst (tSingle F (fz 0) st (Some t) c)) (nch (net u)))).
      { clear Hne Hc HN. unfold mapi. generalize 0 at 1. induction (nch (net u)) as [|c cs IH]; intros i; simpl; auto.
        rewrite IH. simpl. rewrite tSingle_get by auto.
        destruct (tget st c); reflexivity. }
      rewrite M. simpl. destruct (storeVia st (Some t) u _); reflexivity.
    - destruct (lvalue lf I) as [v|]; simpl; auto. destruct (storeVia st (Some t) u v); reflexivity. }
  rewrite E. destruct (evV I _ u) as [v| |]; simpl; auto; try congruence.
  apply storeVia_ok; auto.
Qed.
End Table.

Lemma storeInference_l N r I tk (st : storer F) ops :
  run_state (ustep F (fz 0)) (newStorer F) ops = Some st ->
  bounded ch N -> r < N -> acyclic ch -> siblings_ok ch ->
  leaves_childless net -> sums_nonempty net -> nch (net r) <> [] ->
  ((0 <= tk)%Z -> snd (table F st tk) = true) ->
  (value net N I r = Panic /\ storeInference net (2 * N + 1) r I tk st = Panic) \/
  exists st' tk', storeInference net (2 * N + 1) r I tk st = Ok (st', (Some r, tk')) /\
    tk' = (if (tk <? 0)%Z then tickets F st else tk) /\
    (forall u, reach ch r u -> exists v, value net N I u = Ok v /\ sSingle F (fz 0) st' tk' u = (v, true)) /\
    (forall k x l, k <> tk' -> sEntry F (fz 0) st' k x l = sEntry F (fz 0) st k x l) /\
    (forall x l, (0 <= tk)%Z -> (l <> 0%Z \/ ~ reach ch r x) ->
       sEntry F (fz 0) st' tk' x l = sEntry F (fz 0) st tk' x l).
Proof.
  intros Hst Hb Hr Ha Hs HL HS Hne Htk.
  pose proof (wf_run F (fz 0) ops _ _ (wf_new F) Hst) as W.
  destruct (good_order N r Hb Hr Ha Hs) as (l & l0 & E & Hd & Hn & He & Hlen & _).
  unfold storeInference. destruct (Nat.eqb_spec (length (nch (net r))) 0) as [H0|_].
  { apply length_zero_iff_nil in H0. contradiction. }
  set (b := if (tk <? 0)%Z then newTicket F st else (st, tk)).
  assert (Hb1 : wf F (fst b) /\ snd b = (if (tk <? 0)%Z then tickets F st else tk) /\
    (exists t, tables F (fst b) (snd b) = Some t) /\
    (forall k x l, k <> snd b \/ (0 <= tk)%Z -> cval F (fst b) k x l = cval F st k x l)).
  { subst b. destruct (Z.ltb_spec tk 0).
    - pose proof (newTicket_ok F st W) as H1. destruct (newTicket F st) as [s1 k1]. simpl.
      destruct H1 as (H1 & H2 & H3 & _ & H4). split; auto. split; auto. split; auto.
      intros k x l' [Hk|Hk]; [auto|lia].
    - simpl. split; auto. split; auto. split; auto. specialize (Htk H). unfold table in Htk.
      simpl in Htk. destruct (tables F st tk) as [t|]; eauto. discriminate. }
  destruct b as [st1 tk1]. simpl in Hb1. destruct Hb1 as (W1 & Etk & (t & Et) & Hoth).
  rewrite E. unfold table. rewrite Et. simpl fst.
  pose proof (loop_gen (evV I) N r _ (tget tk1) (tinv tk1 st1) (storeStep t I) l st1
    (evV_ext I) (evV_nofuel I) (fun u lk c => evV_panic I u lk c HL) Hd Hn He Hlen) as H.
  specialize (H ltac:(split; auto)).
  specialize (H (fun s u _ => storeStep_ok tk1 t st1 Et I s u (HS u))).
  destruct (foldr_ (storeStep t I) l st1) as [st2| |] eqn:EF.
  - right. rewrite storeLoop_step by congruence. rewrite EF. simpl.
    destruct H as ((W2 & Et2 & _ & Ho2) & Hv & Hout).
    exists st2, tk1. split; auto. split; auto. split; [|split].
    + intros u Hu. destruct (Hv u Hu) as (v & E1 & E2). exists v. rewrite value_val. split; auto.
      unfold sSingle. rewrite sEntry_cval. unfold tget in E1. rewrite E1. reflexivity.
    + intros k x l' Hk. rewrite !sEntry_cval. rewrite Ho2 by auto. rewrite Hoth by auto. reflexivity.
    + intros x l' Hz Hx. rewrite !sEntry_cval. rewrite <- Hoth by auto.
      destruct Hx as [Hx|Hx]; [rewrite Ho2 by auto; reflexivity|].
      destruct (Z.eq_dec l' 0) as [->|Hl]; [|rewrite Ho2 by auto; reflexivity].
      specialize (Hout x Hx). unfold tget in Hout. rewrite Hout. reflexivity.
  - left. rewrite value_val. split; auto. rewrite storeLoop_step by congruence. rewrite EF. reflexivity.
  - destruct H.
Qed.
End L.
