(** Structure over extended reals: each step succeeds. *)
From Coq Require Import Reals Lra.
From Verif Require Import Base Res Arith LogMath LogSpec LogLemmas GraphSpec GraphLemmas TopoLemmas Search Storer StorerLemmas Spn SpnLemmas Leaves Build
  Poon PoonSpec PoonCodes PoonLemmas PoonLink PoonConn PoonLearn ProbSpec PoonRun PoonBuilt.
Local Open Scope Z_scope.

(** A leaf with a finite value for every instance. *)
Definition goodLeaf (l : leaf XR) : Prop := forall I, exists x, lvalue l I = Some (Fin x).
Definition leafAt (H : nodes XR) (u : nat) (l : leaf XR) : Prop := exists n, nth_error H u = Some n /\ nk n = KLeaf l.
Definition nice (H : nodes XR) (u : nat) : Prop := forall l, leafAt H u l -> goodLeaf l.

Lemma logval_add a b : logval a -> logval b -> logval (xadd a b).
Proof. destruct a, b; simpl; tauto. Qed.
Lemma logval_sub a x : logval a -> logval (xsub a (Fin x)).
Proof. destruct a; simpl; tauto. Qed.
Lemma xeq_refl a : logval a -> xeq a a = true.
Proof. destruct a; simpl; try tauto. intros _. destruct (Req_EM_T r r); congruence. Qed.
Lemma logval_pair a b : logval a -> logval b -> logval (@logSumExpPair XR a b).
Proof. intros Ha Hb. rewrite logSumExpPair_l by auto. apply logval_xln. Qed.

(** The tables hold proper values. *)
Record stOk (H : nodes XR) (st : storer xreal) : Prop := {
  so_wf : wf xreal st;
  so_0 : exists t, tables xreal st 0 = Some t;
  so_1 : exists t, tables xreal st 1 = Some t;
  so_v : forall u v, cval xreal st 0 u 0 = Some v -> nice H u -> logval v;
  so_c : forall u v, cval xreal st 1 u 0 = Some v -> exists c, v = Fin c /\ (0 <= c)%R }.

Lemma read_l st k t u : tables xreal st k = Some t ->
  tSingle xreal (Fin 0) st (Some t) u = match cval xreal st k u 0 with None => (Fin 0, false) | Some v => (v, true) end.
Proof. intros E. unfold tSingle. apply tEntry_cval. auto. Qed.

Lemma read0 H st u : stOk H st -> nice H u -> logval (fst (tSingle xreal (Fin 0) st (fst (Storer.table xreal st 0)) u)).
Proof.
  intros S N. destruct (so_0 _ _ S) as (t & E). unfold Storer.table. rewrite E. cbn [fst]. rewrite (read_l st 0 t u E).
  destruct (cval xreal st 0 u 0) eqn:C; cbn [fst]; [eapply so_v; eauto|exact Logic.I].
Qed.
Lemma read1 H st u : stOk H st -> exists c, fst (tSingle xreal (Fin 0) st (fst (Storer.table xreal st 1)) u) = Fin c /\ (0 <= c)%R.
Proof.
  intros S. destruct (so_1 _ _ S) as (t & E). unfold Storer.table. rewrite E. cbn [fst]. rewrite (read_l st 1 t u E).
  destruct (cval xreal st 1 u 0) eqn:C; cbn [fst]; [eapply so_c; eauto|]. exists 0%R. split; auto. lra.
Qed.
Lemma store0 H st u v : stOk H st -> (nice H u -> logval v) -> exists st', @storeVia XR st (fst (Storer.table xreal st 0)) u v = Ok st' /\ stOk H st'.
Proof.
  intros S Hv. destruct (so_0 _ _ S) as (t & E). unfold Storer.table. rewrite E. cbn [fst]. unfold storeVia, tStoreSingle. change (F XR) with xreal.
  destruct (tstore_ok xreal st 0 t u 0 v (so_wf _ _ S) E) as (st' & -> & W' & T' & _ & C' & O'). exists st'. split; auto. split; auto.
  - rewrite T'. apply S.
  - rewrite T'. apply S.
  - intros x y. destruct (Nat.eq_dec x u) as [->|D].
    + rewrite C'. intros Ey. injection Ey as <-. auto.
    + rewrite O' by tauto. apply S.
  - intros x y. rewrite O' by lia. apply S.
Qed.
Lemma store1 H st u c : stOk H st -> (0 <= c)%R -> exists st', @storeVia XR st (fst (Storer.table xreal st 1)) u (Fin c) = Ok st' /\ stOk H st'.
Proof.
  intros S Hv. destruct (so_1 _ _ S) as (t & E). unfold Storer.table. rewrite E. cbn [fst]. unfold storeVia, tStoreSingle. change (F XR) with xreal.
  destruct (tstore_ok xreal st 1 t u 0 (Fin c) (so_wf _ _ S) E) as (st' & -> & W' & T' & _ & C' & O'). exists st'. split; auto. split; auto.
  - rewrite T'. apply S.
  - rewrite T'. apply S.
  - intros x y. rewrite O' by lia. apply S.
  - intros x y. destruct (Nat.eq_dec x u) as [->|D].
    + rewrite C'. intros Ey. injection Ey as <-. eauto.
    + rewrite O' by tauto. apply S.
Qed.

Section Total.
Variables w h : Z.
Variable rnd : nat -> nat -> nat.
Hypothesis w1 : 0 < w.
Hypothesis h1 : 0 < h.
Hypothesis fit : codes_fit w h.
Hypothesis rndlt : forall c n, (0 < n)%nat -> (rnd c n < n)%nat.
Variable L : Poon.table.
Variable m g : nat.
Variable r : Z.
Hypothesis r1 : 0 < r.
Hypothesis rw : (r | w).
Hypothesis rh : (r | h).
Hypothesis Li : info w h m g r L.
Hypothesis Lall : forall a, inside w h a -> region_at r a -> L (code w h a) <> None.

Local Notation inside := (inside w h).
Local Notation code := (code w h).
Local Notation good := (good w h L).
Local Notation lstate := (lstate XR).
Local Notation Inv := (Inv w h L r).
Local Notation decOf := (decOf w h r).

Lemma pick_total {T} (l : list T) (s : lstate) : l <> [] -> exists x s', pick rnd l s = Ok (x, s') /\ In x l /\ same s s' /\ lB s' = lB s /\ lst s' = lst s.
Proof.
  intros Ne. destruct (nth_error l (rnd (lc s) (length l))) as [x|] eqn:E.
  - exists x, (mkL (lH s) (lst s) (lE s) (lP s) (lQ s) (lM s) (lB s) (S (lc s))). split.
    + unfold pick, idx. rewrite E. destruct l; [congruence|reflexivity].
    + split; [eapply nth_error_In; eauto|]. split; [repeat split|split; reflexivity].
  - exfalso. apply nth_error_None in E. assert (0 < length l)%nat by (destruct l; [congruence|simpl; lia]). pose proof (rndlt (lc s) (length l) H). lia.
Qed.

(** The two nodes named by a decomposition exist and are proper. *)
Definition decN (H : nodes XR) (d : dec) : Prop :=
  (exists P u, L (dp d) = Some P /\ idxZ (rinner P) (dr d) = Ok u /\ nice H u) /\
  (exists Q v, L (dq d) = Some Q /\ idxZ (rinner Q) (ds d) = Ok v /\ nice H v).

Record NInv (s : lstate) : Prop := {
  n_st : stOk (lH s) (lst s);
  n_ch : forall u n, nth_error (lH s) u = Some n -> isProd n -> forall c, In c (nch n) -> nice (lH s) c;
  n_len : forall a R, inside a -> ~ unitR a -> L (code a) = Some R -> length (lB s (code a)) = length (rinner R);
  n_B : forall a d, inside a -> In (Some d) (lB s (code a)) -> decN (lH s) d;
  n_P : forall u d, lP s u = Some d -> decN (lH s) d;
  n_Q : forall d, In d (lE s) -> lQ s d <> None }.

Definition doneAt (s : lstate) (a : rect) : Prop :=
  exists R u, L (code a) = Some R /\ idxZ (rinner R) (lM s (code a)) = Ok u /\ nice (lH s) u.

(** *** Cuts *)
Definition cutState (H : nodes XR) (a : rect) (Dm : list dec * xreal) : Prop :=
  logval (snd Dm) /\ forall d, In d (fst Dm) -> decOf a d /\ decN H d.

Lemma tryCut_total (s : lstate) a Dm pq : NInv s -> cutState (lH s) a Dm ->
  (exists b c, pq = (code b, code c) /\ cut a b c /\ region_at r b /\ region_at r c /\ doneAt s b /\ doneAt s c) ->
  exists Dm', @tryCut XR L s Dm pq = Ok Dm' /\ cutState (lH s) a Dm' /\ fst Dm' <> [].
Proof.
  intros N [Lm HD] (b & c & -> & Ct & Rb & Rc & (P & u & LP & Iu & Nu) & (Q & v & LQ & Iv & Nv)).
  unfold tryCut. cbn [fst snd]. rewrite LP. cbn [orPanic bind]. rewrite Iu. cbn [bind]. rewrite LQ. cbn [orPanic bind]. rewrite Iv. cbn [bind]. cbv zeta.
  assert (Vu : logval (@inf XR s u)) by (apply (read0 (lH s)); [apply N|auto]).
  assert (Vv : logval (@inf XR s v)) by (apply (read0 (lH s)); [apply N|auto]).
  set (x := if @feq XR (inf s u) fninf || @feq XR (inf s v) fninf then @fninf XR else @fadd XR (inf s u) (inf s v)).
  assert (Vx : logval x). { unfold x. destruct (_ || _); [exact Logic.I|apply logval_add; auto]. }
  clearbody x. destruct Dm as [D mx]. cbn [fst snd] in *.
  set (d := mkDec (code b) (code c) (lM s (code b)) (lM s (code c))).
  assert (Hd : decOf a d /\ decN (lH s) d).
  { split; [exists b, c; auto|]. split; [exists P, u|exists Q, v]; auto. }
  clearbody d.
  assert (K : forall D' mx', logval mx' -> incl D' D -> (D' <> [] \/ mx' = x) ->
     exists Dm', @Ok (list dec * xreal) (if xeq x mx' then D' ++ [d] else D', mx') = Ok Dm' /\ cutState (lH s) a Dm' /\ fst Dm' <> []).
  { intros D' mx' Vm Inc Or. eexists. split; [reflexivity|]. cbn [fst snd]. split; [split; cbn [fst snd]; auto|].
    - intros e He. destruct (xeq x mx'); [apply in_app_or in He; destruct He as [He|[<-|[]]]|]; auto.
    - destruct (xeq x mx') eqn:Ex; [intros Ap; apply app_eq_nil in Ap; destruct Ap; discriminate|]. destruct Or as [Or| ->]; auto. rewrite xeq_refl in Ex by auto. discriminate. }
  change (@feq XR) with xeq. change (@fgt XR) with xgt.
  destruct D as [|d0 D]; [apply K; auto; intros z []|]. destruct (xgt x mx); [apply K; auto; intros z []|].
  apply K; auto using incl_refl. left. discriminate.
Qed.

Lemma tryCuts_total (s : lstate) a cs : NInv s ->
  (forall pq, In pq cs -> exists b c, pq = (code b, code c) /\ cut a b c /\ region_at r b /\ region_at r c /\ doneAt s b /\ doneAt s c) ->
  forall Dm, cutState (lH s) a Dm -> exists Dm', foldr_ (@tryCut XR L s) cs Dm = Ok Dm' /\ cutState (lH s) a Dm' /\ (cs <> [] -> fst Dm' <> []).
Proof.
  intros N. induction cs as [|pq cs IH]; intros Hc Dm HD; simpl.
  - exists Dm. split; [auto|]. split; [auto|congruence].
  - destruct (tryCut_total s a Dm pq N HD (Hc pq (or_introl eq_refl))) as (D1 & E1 & H1 & Ne1). rewrite E1. cbn [bind].
    destruct (IH (fun q Hq => Hc q (or_intror Hq)) D1 H1) as (D2 & E2 & H2 & Ne2). exists D2. split; auto. split; auto.
    intros _. destruct cs; [simpl in E2; injection E2 as <-; auto|]. apply Ne2. discriminate.
Qed.

(** *** Inference below a sum *)
Lemma storeSumVals_total H st t ws cs i : stOk H st -> tables xreal st 0 = Some t -> (forall c, In c cs -> nice H c) ->
  (i + length cs <= length ws)%nat -> Forall (eq (@fz XR 1)) ws ->
  exists o, @storeSumVals XR st (Some t) i ws cs = Ok o /\ forall vs, o = Some vs -> length vs = length cs /\ forall x, In x vs -> logval x.
Proof.
  intros S Et. revert i. induction cs as [|c cs IH]; intros i Hn Le Fw; simpl.
  - exists (Some []). split; auto. intros vs E. injection E as <-. split; auto. intros x [].
  - change (F XR) with xreal in *. change (@fz XR 0) with (Fin 0). rewrite (read_l st 0 t c Et). destruct (cval xreal st 0 c 0) as [v|] eqn:Cv.
    + destruct (nth_error ws i) as [wi|] eqn:Ew; [|apply nth_error_None in Ew; simpl in Le; lia]. unfold idx. change (F XR) with xreal in *. rewrite Ew. cbn [bind].
      destruct (IH (Datatypes.S i)) as (o & Eo & Ho); auto; [intros; apply Hn; right; auto|simpl in Le; lia|]. rewrite Eo. cbn [bind].
      eexists. split; [reflexivity|]. intros vs E. destruct o as [vs0|]; [|discriminate]. injection E as <-. destruct (Ho vs0 eq_refl) as [Hl Hv]. split; [simpl; auto|].
      intros x [<-|Hx]; auto. apply logval_add; [eapply so_v; eauto; apply Hn; left; auto|].
      rewrite Forall_forall in Fw. rewrite <- (Fw wi (nth_error_In _ _ Ew)). simpl. destruct (Rlt_dec 0 1); [exact Logic.I|lra].
    + exists None. split; auto. discriminate.
Qed.

Definition stepNode (s : lstate) (u : nat) : Prop :=
  exists n, nth_error (lH s) u = Some n /\ nice (lH s) u.

Lemma fold_add_logval l a : logval a -> (forall x, In x l -> logval x) -> logval (fold_left xadd l a).
Proof. revert a. induction l as [|x l IH]; intros a Ha Hl; simpl; auto. apply IH; [apply logval_add; auto; apply Hl; left; auto|]. intros; apply Hl; right; auto. Qed.

Lemma storeNode_total (s : lstate) G I st u : good (lH s) G -> ones (lH s) -> NInv s -> stOk (lH s) st -> stepNode s u ->
  exists st' b, @storeNode XR (netOf (lH s)) I (fst (Storer.table xreal st 0)) st u = Ok (st', b) /\ stOk (lH s) st' /\ tables xreal st' = tables xreal st.
Proof.
  intros Gd On N S (n & En & Nu). unfold storeNode. rewrite (netOf_nth (lH s) u n En). destruct (Gd u n En) as [_ K].
  assert (Sto : forall v, (nice (lH s) u -> logval v) -> exists st', @storeVia XR st (fst (Storer.table xreal st 0)) u v = Ok st' /\ stOk (lH s) st' /\ tables xreal st' = tables xreal st).
  { intros v Hv. destruct (store0 (lH s) st u v S Hv) as (st' & E & S'). exists st'. split; auto. split; auto.
    unfold storeVia, tStoreSingle in E. change (F XR) with xreal in *. destruct (so_0 _ _ S) as (t & Et). unfold Storer.table in E. rewrite Et in E. cbn [fst] in E.
    destruct (tstore_ok xreal st 0 t u 0 v (so_wf _ _ S) Et) as (st2 & E2 & _ & T2 & _). rewrite E2 in E. injection E as <-. auto. }
  destruct (nk n) as [ws| |l] eqn:Kn.
  - destruct K as (Lw & _ & Kc). destruct (so_0 _ _ S) as (t & Et).
    assert (Tt : fst (Storer.table xreal st 0) = Some t) by (unfold Storer.table; rewrite Et; reflexivity).
    destruct (storeSumVals_total (lH s) st t ws (nch n) 0 S Et) as (o & Eo & Ho).
    + intros c Hc. destruct (Kc c Hc) as [_ (nc & Ec & Pc)]. intros l (n' & En' & Kl). assert (n' = nc) by congruence. subst. unfold isProd in Pc. rewrite Kl in Pc. destruct Pc.
    + change (F XR) with xreal in *. lia.
    + eapply On; eauto.
    + rewrite Tt. rewrite Eo. cbn [bind]. destruct o as [vs|]; [|exists st, false; auto].
      destruct (Ho vs eq_refl) as [Hl Hv]. rewrite <- Tt.
      assert (Vv : exists v, (if (length (nch n) =? 0)%nat then Ok fninf else @sumCompute XR vs) = Ok v /\ logval v).
      { destruct (Nat.eqb_spec (length (nch n)) 0); [exists NInf; split; [reflexivity|exact Logic.I]|]. unfold sumCompute. exists (xln (Rsum (map lin vs))). split; [|apply logval_xln].
        apply logSumExp_l; auto. intros ->. simpl in Hl. lia. }
      destruct Vv as (v & -> & Vv). cbn [bind]. destruct (Sto v (fun _ => Vv)) as (st' & -> & S' & T'). cbn [bind]. exists st', true. auto.
  - destruct K as (a & b & na & nb & Ech & _).
    destruct (Sto (@prodCompute XR (map (fun c => fst (tSingle (F XR) (fz 0) st (fst (Storer.table xreal st 0)) c)) (nch n)))) as (st' & E & S' & T').
    + intros _. apply (fold_add_logval _ (Fin 0)); [exact Logic.I|]. intros x Hx. apply in_map_iff in Hx. destruct Hx as (c & <- & Hc). apply (read0 (lH s)); auto.
      eapply (n_ch s N u n); eauto. unfold isProd. rewrite Kn. exact Logic.I.
    + change (F XR) with xreal in *. rewrite E. cbn [bind]. exists st', true. auto.
  - assert (Gl : goodLeaf l) by (apply Nu; exists n; auto). destruct (Gl I) as (x & Ex). rewrite Ex. cbn [orPanic bind].
    destruct (Sto (Fin x)) as (st' & E & S' & T'); [intros _; exact Logic.I|]. rewrite E. cbn [bind]. exists st', true. auto.
Qed.

Lemma storeLoop_total (s : lstate) G I : good (lH s) G -> ones (lH s) -> NInv s -> forall l st, stOk (lH s) st ->
  (forall u, In u l -> stepNode s u) -> forall tb, tb = fst (Storer.table xreal st 0) ->
  exists st' b, @storeLoop XR (netOf (lH s)) I tb l st = Ok (st', b) /\ stOk (lH s) st'.
Proof.
  intros Gd On N. induction l as [|u l IH]; intros st S Hl tb Etb; simpl.
  - eauto.
  - destruct (storeNode_total s G I st u Gd On N S (Hl u (or_introl eq_refl))) as (st1 & b1 & E1 & S1 & T1). subst tb.
    change (F XR) with xreal in *. rewrite E1. cbn [bind]. destruct b1; [|eauto]. apply IH; auto.
    + intros; apply Hl; right; auto.
    + unfold Storer.table. rewrite T1. reflexivity.
Qed.

Lemma storeInference_total (s : lstate) G I u : good (lH s) G -> ones (lH s) -> NInv s ->
  (exists n, nth_error (lH s) u = Some n /\ isSum n) ->
  exists st' x, @storeInference XR (netOf (lH s)) (2 * length (lH s) + 1) u I 0 (lst s) = Ok (st', x) /\ stOk (lH s) st'.
Proof.
  intros Gd On N (n & En & Sn). unfold storeInference. destruct (Nat.eqb (length (nch (netOf (lH s) u))) 0); [exists (lst s); eexists; split; [reflexivity|apply N]|].
  change (0 <? 0) with false. cbv iota.
  assert (Cl : forall v, stepNode s v -> forall c, In c (nch (netOf (lH s) v)) -> stepNode s c).
  { intros v (nv & Env & Nv) c Hc. rewrite (netOf_nth (lH s) v nv Env) in Hc. destruct (Gd v nv Env) as [_ K]. destruct (nk nv) as [ws| |l] eqn:Kn.
    - destruct K as (_ & _ & K). destruct (K c Hc) as [_ (nc & Ec & Pc)]. exists nc. split; auto. intros l (n' & En' & Kl). assert (n' = nc) by congruence. subst. unfold isProd in Pc. rewrite Kl in Pc. destruct Pc.
    - assert (Nc : nice (lH s) c) by (eapply (n_ch s N v nv); eauto; unfold isProd; rewrite Kn; exact Logic.I).
      destruct K as (a & b & na & nb & Ech & _ & Ea & Eb & _). rewrite Ech in Hc. destruct Hc as [<-|[<-|[]]]; [exists na|exists nb]; auto.
    - destruct K as [K _]. rewrite K in Hc. destruct Hc. }
  assert (Bd : bounded (children (netOf (lH s))) (length (lH s))).
  { intros v c Hc. unfold children in Hc. destruct (nth_error (lH s) v) as [nv|] eqn:Env.
    - rewrite (netOf_nth (lH s) v nv Env) in Hc. destruct (Gd v nv Env) as [_ K]. apply nth_error_Some. destruct (nk nv) as [ws| |l] eqn:Kn.
      + destruct K as (_ & _ & K). destruct (K c Hc) as [_ (nc & Ec & Pc)]. congruence.
      + destruct K as (a & b & na & nb & Ech & _ & Ea & Eb & _). rewrite Ech in Hc. destruct Hc as [<-|[<-|[]]]; congruence.
      + destruct K as [K _]. rewrite K in Hc. destruct Hc.
    - unfold netOf in Hc. rewrite nth_overflow in Hc by (apply nth_error_None; auto). destruct Hc. }
  destruct (tarjan_full (children (netOf (lH s))) (length (lH s)) u Bd) as (l & El & [_ Enm] & _); [apply nth_error_Some; congruence|].
  rewrite El. destruct (storeLoop_total s G I Gd On N l (lst s) (n_st s N)) with (tb := fst (Storer.table xreal (lst s) 0)) as (st' & b & E & S'); auto.
  - intros v Hv. apply Enm in Hv. assert (Su : stepNode s u).
    { exists n. split; auto. intros l' (n' & En' & Kl). assert (n' = n) by congruence. subst. unfold isSum in Sn. rewrite Kl in Sn. destruct Sn. }
    clear - Cl Hv Su. induction Hv as [|x c y Hc Hr IH]; auto. apply IH. eapply Cl; eauto.
  - change (F XR) with xreal in *. rewrite E. cbn [bind]. destruct b; eauto.
Qed.

(** *** One sum in use *)
Definition someN (H : nodes XR) (a : rect) (x : option dec) : Prop := exists d, x = Some d /\ decOf a d /\ decN H d.

Lemma bestChild_total (s : lstate) v bm c H a : logval v -> logval (@inf XR s c) -> logval (snd bm) ->
  someN H a (lP s c) -> Forall (someN H a) (fst bm) ->
  let bm' := @bestChild XR s v bm c in logval (snd bm') /\ Forall (someN H a) (fst bm') /\ fst bm' <> [].
Proof.
  intros Vv Vc Vm Hc Hb. unfold bestChild. cbv zeta. pose proof (logval_pair v (inf s c) Vv Vc) as Vy. change (F XR) with xreal in *.
  set (y := @logSumExpPair XR v (inf s c)) in *. clearbody y. destruct bm as [b mb]. cbn [fst snd] in *.
  assert (K : forall b' m', logval m' -> Forall (someN H a) b' -> (b' <> [] \/ m' = y) ->
    logval (snd (if xeq m' y then b' ++ [lP s c] else b', m')) /\ Forall (someN H a) (fst (if xeq m' y then b' ++ [lP s c] else b', m')) /\ fst (if xeq m' y then b' ++ [lP s c] else b', m') <> []).
  { intros b' m' V' F' Or. cbn [fst snd]. split; auto. destruct (xeq m' y) eqn:Ex.
    - split; [apply Forall_app; auto|]. intros Ap. apply app_eq_nil in Ap. destruct Ap. discriminate.
    - split; auto. destruct Or as [Or| ->]; auto. rewrite xeq_refl in Ex by auto. discriminate. }
  change (@feq XR) with xeq. change (@fgt XR) with xgt.
  destruct b as [|b0 b]; [apply (K [] y); auto|]. destruct (xgt y mb); [apply (K [] y); auto|]. apply (K (b0 :: b) mb); auto. left. discriminate.
Qed.

Lemma bestChildren_total (s : lstate) v H a cs : logval v -> (forall c, In c cs -> logval (@inf XR s c) /\ someN H a (lP s c)) ->
  forall bm, logval (snd bm) -> Forall (someN H a) (fst bm) ->
  let bm' := fold_left (@bestChild XR s v) cs bm in logval (snd bm') /\ Forall (someN H a) (fst bm') /\ (cs <> [] -> fst bm' <> []).
Proof.
  intros Vv. induction cs as [|c cs IH]; intros Hc bm Vm Hb; cbv zeta; simpl.
  - split; [auto|]. split; [auto|congruence].
  - destruct (Hc c (or_introl eq_refl)) as [Vc Pc]. destruct (bestChild_total s v bm c H a Vv Vc Vm Pc Hb) as (V1 & F1 & N1).
    destruct (IH (fun d Hd => Hc d (or_intror Hd)) _ V1 F1) as (V2 & F2 & N2). split; auto. split; auto. intros _.
    destruct cs; [simpl; auto|]. apply N2. discriminate.
Qed.

Lemma NInv_st (s : lstate) st : NInv s -> stOk (lH s) st -> NInv (withSt s st).
Proof. intros N S. destruct N. split; auto. Qed.

Lemma storeInf_total (s : lstate) u v : NInv s -> (nice (lH s) u -> logval v) -> exists s', @storeInf XR s u v = Ok s' /\ NInv s' /\ same s s' /\ lB s' = lB s.
Proof.
  intros N Hv. unfold storeInf. destruct (store0 (lH s) (lst s) u v (n_st s N) Hv) as (st & E & S). change (F XR) with xreal in *. rewrite E. cbn [bind].
  exists (withSt s st). split; auto. split; [apply NInv_st; auto|]. split; [repeat split|reflexivity].
Qed.

Lemma NInv_same (s s' : lstate) : same s s' -> lst s' = lst s -> lB s' = lB s -> NInv s -> NInv s'.
Proof.
  intros (S1 & S2 & S3 & S4 & S5) S6 S7 N. destruct N. split; rewrite ?S1, ?S2, ?S3, ?S4, ?S6, ?S7; auto.
Qed.
Lemma Inv_same' (s s' : lstate) : same s s' -> lB s' = lB s -> Inv s -> Inv s'.
Proof. intros S B V. eapply Inv_same; eauto. rewrite B. destruct V as (G & _ & _ & _ & _ & HB & _). exact HB. Qed.

Lemma NInv_B (s : lstate) a i x : inside a -> NInv s -> someN (lH s) a x -> NInv (withB s (code a) (set_nth i x (lB s (code a)))).
Proof.
  intros Ia N (d & -> & _ & Hd). destruct N. split; auto; cbn [withB lB lH].
  - intros b R Ib Ub LR. destruct (Z.eq_dec (code b) (code a)) as [Ec|Nc].
    + rewrite Ec, updZ_same, set_nth_length. rewrite <- Ec. auto.
    + rewrite updZ_diff by auto. auto.
  - intros b e Ib He. destruct (Z.eq_dec (code b) (code a)) as [Ec|Nc].
    + rewrite Ec, updZ_same in He. apply in_set_nth in He. destruct He as [He|He]; [injection He as ->; auto|]. rewrite <- Ec in He. eauto.
    + rewrite updZ_diff in He by auto. eauto.
Qed.
Lemma Inv_B (s : lstate) a i x : inside a -> Inv s -> someN (lH s) a x -> Inv (withB s (code a) (set_nth i x (lB s (code a)))).
Proof.
  intros Ia V (d & -> & Hd & _). eapply Inv_same; [..|exact V]; [repeat split|]. intros b e Ib He. cbn [withB lB] in He.
  destruct V as (G & _ & _ & _ & _ & HB & _). destruct (Z.eq_dec (code b) (code a)) as [Ec|Nc].
  - rewrite Ec, updZ_same in He. apply code_inj in Ec; auto. subst b. apply in_set_nth in He. destruct He as [He|He]; [injection He as ->; auto|]. auto.
  - rewrite updZ_diff in He by auto. auto.
Qed.

(** What the loop over the sums of region [R] of [a] maintains. *)
Definition sumState (s0 : lstate) (a : rect) (R : region) (x : lstate * list (option dec) * list nat * xreal) : Prop :=
  let '(s, best, opts, ms) := x in Inv s /\ NInv s /\ same s0 s /\ Forall (someN (lH s) a) best /\ logval ms /\
  (forall i, In i opts -> exists d, nth_error (lB s (code a)) i = Some (Some d)).

Lemma usedSum_total s0 a R I cD mp i x u : inside a -> ~ unitR a -> L (code a) = Some R -> sumState s0 a R x ->
  decOf a cD -> decN (lH s0) cD -> logval mp -> nth_error (rinner R) i = Some u ->
  exists x', @usedSum XR rnd (code a) I cD mp i x u = Ok x' /\ sumState s0 a R x'.
Proof.
  destruct x as [[[s best] opts] ms]. intros Ia Ua La (V & N & Sm & Hb & Vm & Ho) DcD NcD Vmp Eu. unfold usedSum.
  destruct (Nat.eqb_spec (length (nch (netOf (lH s) u))) 0) as [Z0|NZ].
  { eexists. split; [reflexivity|]. split; auto. }
  pose proof V as (G & Gd & Tb & On & HP & HB & HE). destruct (Tb a R Ia La) as [_ TR].
  destruct (TR u (nth_error_In _ _ Eu)) as (n & En & Gu & _ & Sn). specialize (Sn Ua).
  destruct (storeInference_total s G I u Gd On N) as (st' & y & Es & Ss); [exists n; auto|]. rewrite Es. cbn [bind fst]. cbv zeta.
  assert (H0 : lH s = lH s0) by apply Sm. rewrite <- H0 in NcD.
  set (s1 := withSt s st'). assert (N1 : NInv s1) by (apply NInv_st; auto). assert (V1 : Inv s1) by exact V. assert (Sm1 : same s0 s1) by exact Sm.
  assert (Nu : nice (lH s) u). { intros l (n' & En' & Kl). assert (n' = n) by congruence. subst. unfold isSum in Sn. rewrite Kl in Sn. destruct Sn. }
  assert (Vu : logval (@inf XR s1 u)) by (apply (read0 (lH s)); [apply N1|auto]).
  destruct (read1 (lH s) (lst s1) u (n_st s1 N1)) as (c0 & Ec0 & Pc0).
  change (fst (tSingle xreal (Fin 0) (lst s1) (fst (Storer.table xreal (lst s1) 1)) u)) with (@count XR s1 u) in Ec0.
  change (F XR) with xreal in *. rewrite Ec0.
  assert (Vl : logval (@flog XR (Fin c0))). { simpl. destruct (Rlt_dec 0 c0); [exact Logic.I|]. destruct (Rlt_dec c0 0); [lra|exact Logic.I]. }
  assert (Va : logval (@fadd XR (inf s1 u) (@flog XR (Fin c0)))) by (apply logval_add; auto).
  destruct (bestChildren_total s1 (@fadd XR (inf s1 u) (@flog XR (Fin c0))) (lH s) a (nch (netOf (lH s1) u)) Va) with (bm := (best, @fz XR 0)) as (V2 & F2 & Ne2); auto.
  { intros c Hc. change (lH s1) with (lH s) in Hc. rewrite (netOf_nth (lH s) u n En) in Hc. destruct (Gd u n En) as [_ K]. unfold isSum in Sn. destruct (nk n); try contradiction.
    destruct K as (_ & _ & K). destruct (K c Hc) as [Gc (nc & Ec & Pc)]. split.
    - apply (read0 (lH s)); [apply N1|]. intros l (n' & En' & Kl). assert (n' = nc) by congruence. subst. unfold isProd in Pc. rewrite Kl in Pc. destruct Pc.
    - destruct (HP c nc Ec Pc) as [_ (d & Ed & Dd)]. change (lP s1) with (lP s). exists d. split; auto. rewrite Gc, Gu in Dd. split; auto. eapply (n_P s N); eauto. }
  { exact Logic.I. }
  cbv zeta in V2, F2, Ne2.
  match type of V2 with logval (snd ?e) => match goal with |- context [fold_left ?f ?l ?b] => change (fold_left f l b) with e end; destruct e as [b1 m1] end. cbn [fst snd] in *.
  specialize (Ne2 ltac:(intros Nl; apply NZ; change (lH s1) with (lH s) in Nl; rewrite Nl; reflexivity)).
  assert (K : forall b2 m2, logval m2 -> Forall (someN (lH s) a) b2 -> b2 <> [] ->
    exists x', (s2 <- @storeInf XR s1 u (@fsub XR m2 (@flog XR (@fadd XR (Fin c0) (@fz XR 1))));
      r0 <- pick rnd b2 s2; B <- setAt (lB (snd r0) (code a)) i (fst r0);
      let '(opts0, maxSum) := match opts with [] => ([], @inf XR s1 u) | _ :: _ => if @fgt XR (inf s1 u) ms then ([], @inf XR s1 u) else (opts, ms) end in
      Ok (withB (snd r0) (code a) B, b2, if @feq XR (inf s1 u) maxSum then opts0 ++ [i] else opts0, maxSum)) = Ok x' /\ sumState s0 a R x').
  { intros b2 m2 Vm2 Fb2 Nb2.
    destruct (storeInf_total s1 u (@fsub XR m2 (@flog XR (@fadd XR (Fin c0) (@fz XR 1)))) N1) as (s2 & E2 & N2 & Sm2 & B2).
    { intros _. simpl. destruct (Rlt_dec 0 (c0 + 1)); [apply logval_sub; auto|lra]. }
    change (F XR) with xreal in *. rewrite E2. cbn [bind]. destruct (pick_total b2 s2 Nb2) as (y2 & s3 & E3 & I3 & Sm3 & B3 & T3). rewrite E3. cbn [bind fst snd].
    assert (Sm13 : same s1 s3) by (eapply same_trans; eauto). assert (BB : lB s3 = lB s) by (rewrite B3, B2; reflexivity).
    assert (HH : lH s3 = lH s) by apply Sm13.
    assert (Ln : (i < length (lB s3 (code a)))%nat) by (rewrite BB, (n_len s N a R Ia Ua La); apply nth_error_Some; congruence).
    unfold setAt. destruct (Nat.ltb_spec i (length (lB s3 (code a)))); [|lia]. cbn [bind].
    assert (Hy2 : someN (lH s3) a y2) by (rewrite HH; rewrite Forall_forall in Fb2; auto).
    assert (N3 : NInv s3) by (apply (NInv_same s2 s3); auto). assert (V3 : Inv s3) by (apply (Inv_same' s1 s3); auto).
    assert (Kx : forall opts0 mx, incl opts0 opts -> logval mx -> exists x', @Ok (lstate * list (option dec) * list nat * xreal) (withB s3 (code a) (set_nth i y2 (lB s3 (code a))), b2, if xeq (inf s1 u) mx then opts0 ++ [i] else opts0, mx) = Ok x' /\ sumState s0 a R x').
    { intros opts0 mx Io Vx. eexists. split; [reflexivity|]. cbn [sumState]. split; [apply Inv_B; auto|]. split; [apply NInv_B; auto|].
      split; [destruct Sm as (Q1 & Q2 & Q3 & Q4 & Q5); destruct Sm13 as (P1 & P2 & P3 & P4 & P5); repeat split; cbn [withB lH lE lP lQ lM];
        [rewrite P1; exact Q1|rewrite P2; exact Q2|rewrite P3; exact Q3|rewrite P4; exact Q4|rewrite P5; exact Q5]|].
      split; [cbn [withB lH]; rewrite HH; auto|]. split; auto.
      intros j Hj. cbn [withB lB]. rewrite updZ_same. destruct (Nat.eq_dec j i) as [->|Dj].
      - rewrite nth_error_set_nth_same by auto. destruct Hy2 as (d & -> & _). eauto.
      - rewrite nth_error_set_nth_diff by auto. rewrite BB. apply Ho. apply Io. destruct (xeq (inf s1 u) mx); auto. apply in_app_or in Hj. destruct Hj as [Hj|[Hj|[]]]; [auto|congruence]. }
    change (@feq XR) with xeq. destruct opts as [|o0 opts]; [apply Kx; auto; intros z []|]. destruct (@fgt XR (inf s1 u) ms); apply Kx; auto; [intros z []|apply incl_refl]. }
  destruct (exists_ cD s1); [apply K; auto|].
  assert (Vv : logval (if @feq XR (inf s1 u) (@fninf XR) then mp else @logSumExpPair XR mp (@fadd XR (inf s1 u) (@flog XR (Fin c0))))).
  { destruct (@feq XR (inf s1 u) (@fninf XR)); auto. apply logval_pair; auto. }
  assert (Fc : Forall (someN (lH s) a) [Some cD]) by (constructor; auto; exists cD; auto).
  destruct b1 as [|b0 b1]; [apply K; auto; discriminate|].
  match goal with |- context [@fgt XR ?v m1] => destruct (@fgt XR v m1) end; apply K; auto; discriminate.
Qed.

Lemma foldi_total {T U} (P : U -> Prop) (f : nat -> U -> T -> res U) l :
  (forall i s x, nth_error l i = Some x -> P s -> exists s', f i s x = Ok s' /\ P s') -> forall s, P s -> exists s', foldi f l s = Ok s' /\ P s'.
Proof.
  unfold foldi. assert (K : forall i0, (forall i s x, nth_error l i = Some x -> P s -> exists s', f (i0 + i)%nat s x = Ok s' /\ P s') -> forall s, P s -> exists s', foldi_from i0 f l s = Ok s' /\ P s').
  { induction l as [|x l IH]; intros i0 Hf s Ps; simpl; eauto. destruct (Hf 0%nat s x eq_refl Ps) as (s1 & E1 & P1). rewrite Nat.add_0_r in E1. rewrite E1. cbn [bind].
    apply IH; auto. intros i t y Hy Pt. replace (i0 + 1 + i)%nat with (i0 + S i)%nat by lia. apply Hf; auto. }
  intros Hf. apply K. exact Hf.
Qed.
Lemma foldr_total {T U} (P : U -> Prop) (f : U -> T -> res U) l :
  (forall s x, In x l -> P s -> exists s', f s x = Ok s' /\ P s') -> forall s, P s -> exists s', foldr_ f l s = Ok s' /\ P s'.
Proof.
  induction l as [|x l IH]; intros Hf s Ps; simpl; eauto. destruct (Hf s x (or_introl eq_refl) Ps) as (s1 & E1 & P1). rewrite E1. cbn [bind]. apply IH; auto. intros; apply Hf; auto. right; auto.
Qed.

(** *** The chosen decomposition *)
Definition kept (H H' : nodes XR) : Prop := forall u l, leafAt H' u l <-> leafAt H u l.
Lemma kept_nice H H' u : kept H H' -> (nice H' u <-> nice H u).
Proof. intros K. split; intros N l Hl; apply N, K; auto. Qed.
Lemma kept_dec H H' d : kept H H' -> decN H d -> decN H' d.
Proof. intros K [(P & u & A1 & A2 & A3) (Q & v & B1 & B2 & B3)]. split; [exists P, u|exists Q, v]; repeat split; auto; eapply kept_nice; eauto. Qed.
Lemma kept_st H H' st : kept H H' -> stOk H st -> stOk H' st.
Proof. intros K S. destruct S. split; auto. intros u v E N. apply (so_v0 u v E). apply (kept_nice H H' u K). exact N. Qed.

Lemma useDec_total a R mi d (s : lstate) su : inside a -> ~ unitR a -> L (code a) = Some R -> Inv s -> NInv s -> decOf a d -> decN (lH s) d ->
  nth_error (rinner R) mi = Some su ->
  exists s', @useDec XR L R mi d s = Ok s' /\ NInv s' /\ kept (lH s) (lH s') /\ lM s' = lM s.
Proof.
  intros Ia Ua La V N Dd Nd Esu. unfold useDec.
  assert (Cn : forall (s1 : lstate) pi, NInv s1 -> exists s', @storeCount XR s1 pi (@fadd XR (count s1 pi) (@fz XR 1)) = Ok s' /\ NInv s' /\ lH s' = lH s1 /\ lM s' = lM s1).
  { intros s1 pi N1. destruct (read1 (lH s1) (lst s1) pi (n_st s1 N1)) as (c0 & Ec0 & Pc0).
    change (fst (tSingle xreal (Fin 0) (lst s1) (fst (Storer.table xreal (lst s1) 1)) pi)) with (@count XR s1 pi) in Ec0. change (F XR) with xreal in *. rewrite Ec0.
    change (@fadd XR (Fin c0) (@fz XR 1)) with (Fin (c0 + 1)). unfold storeCount.
    destruct (store1 (lH s1) (lst s1) pi (c0 + 1) (n_st s1 N1)) as (st & E & S); [lra|]. change (F XR) with xreal in *. rewrite E. cbn [bind]. exists (withSt s1 st). split; auto. split; [apply NInv_st; auto|auto]. }
  destruct (exists_ d s) eqn:Ex.
  - unfold exists_ in Ex. apply existsb_exists in Ex. destruct Ex as (d' & Hd & Ed). apply decEqb_eq in Ed. subst d'.
    destruct (lQ s d) as [pi|] eqn:Eq; [|exfalso; eapply (n_Q s N); eauto]. cbn [orPanic bind].
    destruct (Cn s pi N) as (s' & E & N' & H' & M'). exists s'. split; auto. split; auto. rewrite H'. split; auto. intros u l. tauto.
  - destruct Nd as [(P & u & LP & Iu & Nu) (Q & v & LQ & Iv & Nv)]. rewrite LP. cbn [orPanic bind]. rewrite Iu. cbn [bind]. rewrite LQ. cbn [orPanic bind]. rewrite Iv. cbn [bind].
    unfold newNode. unfold idx at 1. change (F XR) with xreal in *. rewrite Esu. cbn [bind].
    pose proof V as (G & Gd & Tb & On & HP & HB & HE). destruct (Tb a R Ia La) as [_ TR]. destruct (TR su (nth_error_In _ _ Esu)) as (ns & Ens & Gs & _ & Sn). specialize (Sn Ua).
    assert (Ls : (su < length (lH s))%nat) by (apply nth_error_Some; congruence).
    unfold addChildW. rewrite nth_error_app1 by auto. rewrite Ens. destruct ns as [[ws| |] chs]; try (destruct Sn; fail). cbn [bind]. cbv zeta.
    set (H1 := lH s ++ [mkNode KProd [u; v]]). set (ns' := mkNode (KSum (ws ++ [@fz XR 1])) (chs ++ [length (lH s)])). set (H2 := set_nth su ns' H1).
    assert (Kp : kept (lH s) H2).
    { intros x l. unfold leafAt, H2. destruct (Nat.eq_dec x su) as [->|D].
      - rewrite nth_error_set_nth_same by (unfold H1; rewrite app_length; simpl; lia). split; intros (n & En & Kl).
        + injection En as <-. discriminate.
        + assert (n = mkNode (KSum ws) chs) by congruence. subst. discriminate.
      - rewrite nth_error_set_nth_diff by auto. unfold H1. destruct (Nat.lt_ge_cases x (length (lH s))) as [lt|ge].
        + rewrite nth_error_app1 by auto. tauto.
        + rewrite nth_error_app2 by auto. rewrite (proj2 (nth_error_None (lH s) x)) by auto. split; intros (n & En & Kl); [|discriminate].
          destruct (x - length (lH s))%nat as [|j]; [injection En as <-; discriminate|destruct j; discriminate]. }
    match goal with |- exists s', storeCount ?t _ _ = _ /\ _ => set (s1 := t) end.
    assert (N1 : NInv s1).
    { destruct N. split; unfold s1; cbn [lH lst lE lP lQ lM lB].
      - eapply kept_st; eauto.
      - intros x n En Pn c Hc. apply (kept_nice _ _ c Kp). unfold H2 in En. destruct (Nat.eq_dec x su) as [->|D].
        + rewrite nth_error_set_nth_same in En by (unfold H1; rewrite app_length; simpl; lia). injection En as <-. destruct Pn.
        + rewrite nth_error_set_nth_diff in En by auto. unfold H1 in En. destruct (Nat.lt_ge_cases x (length (lH s))) as [lt|ge].
          * rewrite nth_error_app1 in En by auto. eauto.
          * rewrite nth_error_app2 in En by auto. destruct (x - length (lH s))%nat as [|j]; [|destruct j; discriminate]. injection En as <-. cbn [nch] in Hc. destruct Hc as [<-|[<-|[]]]; auto.
      - auto.
      - intros b e Ib He. eapply kept_dec; eauto.
      - intros x e. unfold upd. destruct (Nat.eqb x (length (lH s))); [|intros; eapply kept_dec; eauto]. intros E. injection E as <-.
        eapply kept_dec; [exact Kp|]. split; [exists P, u|exists Q, v]; auto.
      - intros e [<-|He].
        + rewrite (proj2 (decEqb_eq d d)) by auto. discriminate.
        + destruct (decEqb e d); [discriminate|]. auto. }
    destruct (Cn s1 (length (lH s)) N1) as (s' & E & N' & H' & M'). exists s'. split; auto. split; auto. split; [rewrite H'; exact Kp|]. rewrite M'. reflexivity.
Qed.

(** *** compMap *)
Lemma unused_lt (H : nodes XR) R i : In i (unused H R) -> (i < length (rinner R))%nat.
Proof. unfold unused. intros Hi. apply filter_In in Hi. destruct Hi as [Hi _]. apply in_seq in Hi. lia. Qed.

Lemma mapCuts_ne d a : inside a -> 0 < d -> d < right a - left a \/ d < bottom a - top a -> mapCuts w h d (left a) (top a) (right a) (bottom a) <> [].
Proof.
  intros Ia Dp Big E. apply app_eq_nil in E. destruct E as [E1 E2]. apply map_eq_nil in E1, E2. destruct Big as [B|B].
  - assert (I : In (left a + d) (steps (left a + d) (right a - 1) d)).
    { apply In_steps; auto. split; [lia|]. rewrite Z.sub_diag. apply Z.divide_0_r. }
    rewrite E1 in I. destruct I.
  - assert (I : In (top a + d) (steps (top a + d) (bottom a - 1) d)).
    { apply In_steps; auto. split; [lia|]. rewrite Z.sub_diag. apply Z.divide_0_r. }
    rewrite E2 in I. destruct I.
Qed.

Lemma compMap_total a R I (s : lstate) : inside a -> ~ unitR a -> L (code a) = Some R -> Inv s -> NInv s ->
  (forall b c, cut a b c -> region_at r b -> region_at r c -> doneAt s b /\ doneAt s c) ->
  exists s', @compMap XR w h rnd L (code a) R I s = Ok s' /\ Inv s' /\ NInv s' /\ doneAt s' a /\ (forall b, b <> a -> inside b -> doneAt s b -> doneAt s' b) /\ kept (lH s) (lH s').
Proof.
  intros Ia Ua La V N Dn.
  destruct (Li a R Ia La) as (_ & Ok_ & Big & _). specialize (Big Ua).
  assert (Dp : 0 < rstep R) by (destruct Ok_ as [[-> _]|[-> _]]; lia).
  cut (exists s', @compMap XR w h rnd L (code a) R I s = Ok s' /\ NInv s' /\ doneAt s' a /\ (forall b, b <> a -> inside b -> doneAt s b -> doneAt s' b) /\ kept (lH s) (lH s')).
  { intros (s' & E & N' & D' & O'). exists s'. split; auto. split; auto.
    eapply (compMap_ok w h rnd w1 h1 fit L r r1); eauto. intros b Rb Ib Eb. apply (Li b Rb Ib Eb). }
  unfold compMap. cbv zeta. set (s0 := withM s (code a) (-1)).
  assert (N0 : NInv s0) by (destruct N; split; auto). assert (V0 : Inv s0) by exact V.
  pose proof V as (G & Gd & Tb & _). destruct (Tb a R Ia La) as [Rne TR].
  assert (Lp : (0 < length (rinner R))%nat) by (destruct (rinner R); [congruence|simpl; lia]).
  assert (E1 : exists cU s1, (match unused (lH s0) R with [] => Ok (0%nat, s0) | _ :: _ => pick rnd (unused (lH s0) R) s0 end) = Ok (cU, s1) /\ (cU < length (rinner R))%nat /\ same s0 s1 /\ lB s1 = lB s0 /\ lst s1 = lst s0).
  { destruct (unused (lH s0) R) as [|x0 l0] eqn:Eu; [exists 0%nat, s0; auto using same_refl|].
    destruct (pick_total (x0 :: l0) s0) as (x & s1 & E & Ix & Sm & B & T); [discriminate|]. exists x, s1. split; auto. split; auto. apply unused_lt with (lH s0). rewrite Eu. auto. }
  destruct E1 as (cU & s1 & E1 & LcU & Sm1 & B1 & T1). 
  match goal with |- context [bind ?e _] => replace e with (@Ok (nat * lstate) (cU, s1)) by (symmetry; rewrite <- E1; destruct (unused (lH s0) R); reflexivity) end. cbn [bind].
  rewrite (decode_code w h w1 h1 fit a Ia). cbn [bind].
  assert (N1 : NInv s1) by (eapply NInv_same; eauto). assert (V1 : Inv s1) by (eapply Inv_same'; eauto).
  assert (H1 : lH s1 = lH s) by apply Sm1. assert (M1 : lM s1 = updZ (lM s) (code a) (-1)) by (apply Sm1).
  destruct (tryCuts_total s1 a (mapCuts w h (rstep R) (left a) (top a) (right a) (bottom a)) N1) with (Dm := ([] : list dec, NInf)) as (Dm & E2 & [VDm HDm] & NeD).
  { intros pq Ipq. destruct (mapCuts_good w h r r1 (rstep R) a Ia Ok_ pq Ipq) as (b & c & -> & Ct & Rb & Rc). exists b, c. split; auto. split; auto. split; auto. split; auto.
    destruct (cut_inside w h a b c Ia Ct) as [Ib Ic].
    assert (Nb : b <> a /\ c <> a).
    { unfold PoonSpec.inside in Ia. destruct (cut_area a b c Ct) as [A1 A2]; try lia. split; intros ->; lia. }
    destruct (Dn b c Ct Rb Rc) as [Db Dc].
    assert (Mv : forall e, inside e -> e <> a -> doneAt s e -> doneAt s1 e).
    { intros e Ie Ne (Re & ue & A1 & A2 & A3). exists Re, ue. split; auto. rewrite M1, H1. rewrite updZ_diff; [auto|]. intros Ec. apply code_inj in Ec; auto. }
    destruct Nb. auto. }
  { split; [exact Logic.I|intros d []]. }
  change (@fninf XR) with NInf. change (F XR) with xreal in *. rewrite E2. cbn [bind].
  specialize (NeD (mapCuts_ne (rstep R) a Ia Dp Big)).
  destruct (pick_total (fst Dm) s1 NeD) as (cD & s2 & E3 & IcD & Sm2 & B2 & T2). rewrite E3. cbn [bind].
  destruct (HDm cD IcD) as [DcD NcD].
  assert (N2 : NInv s2) by (eapply NInv_same; eauto). assert (V2 : Inv s2) by (eapply Inv_same'; eauto). assert (H2 : lH s2 = lH s1) by apply Sm2.
  destruct (foldi_total (sumState s2 a R) (@usedSum XR rnd (code a) I cD (snd Dm)) (rinner R)) with (s := (s2, @nil (option dec), @nil nat, NInf)) as ([[[s3 best] opts] ms] & E4 & V3 & N3 & Sm3 & _ & Vms & Ho).
  { intros i x u Eu Hx. apply usedSum_total; auto. rewrite H2. auto. }
  { split; auto. split; auto. split; [apply same_refl|]. split; [constructor|]. split; [exact Logic.I|]. intros i []. }
  change (F XR) with xreal in *. rewrite E4. cbn [bind].
  destruct (nth_error (rinner R) cU) as [n|] eqn:En; [|apply nth_error_None in En; lia]. unfold idx at 1. rewrite En. cbn [bind].
  destruct (read1 (lH s3) (lst s3) n (n_st s3 N3)) as (c0 & Ec0 & Pc0).
  change (fst (tSingle xreal (Fin 0) (lst s3) (fst (Storer.table xreal (lst s3) 1)) n)) with (@count XR s3 n) in Ec0. rewrite Ec0.
  set (v := @fsub XR (snd Dm) (@flog XR (@fadd XR (Fin c0) (@fz XR 1)))).
  assert (Vv : logval v). { unfold v. simpl. destruct (Rlt_dec 0 (c0 + 1)); [apply logval_sub; auto|lra]. }
  destruct (storeInf_total s3 n v N3 (fun _ => Vv)) as (s4 & E5 & N4 & Sm4 & B4). change (F XR) with xreal in *. rewrite E5. cbn [bind].
  assert (V4 : Inv s4) by (eapply Inv_same'; eauto). assert (H4 : lH s4 = lH s3) by apply Sm4. assert (H3 : lH s3 = lH s2) by apply Sm3.
  assert (Lb : length (lB s4 (code a)) = length (rinner R)) by (apply (n_len s4 N4); auto).
  unfold setAt. destruct (Nat.ltb_spec cU (length (lB s4 (code a)))); [|lia]. cbn [bind].
  assert (ScD : someN (lH s4) a (Some cD)) by (exists cD; split; auto; split; auto; rewrite H4, H3, H2; auto).
  set (s5 := withB s4 (code a) (set_nth cU (Some cD) (lB s4 (code a)))).
  assert (N5 : NInv s5) by (apply NInv_B; auto). assert (V5 : Inv s5) by (apply Inv_B; auto).
  set (opts' := match opts with [] => [cU] | _ :: _ => if @fgt XR v ms then [cU] else opts end).
  assert (Ho5 : opts' <> [] /\ forall i, In i opts' -> exists d, nth_error (lB s5 (code a)) i = Some (Some d)).
  { assert (KU : exists d, nth_error (lB s5 (code a)) cU = Some (Some d)).
    { unfold s5. cbn [withB lB]. rewrite updZ_same, nth_error_set_nth_same by lia. eauto. }
    assert (KO : forall i, In i opts -> exists d, nth_error (lB s5 (code a)) i = Some (Some d)).
    { intros i Hi. destruct (Nat.eq_dec i cU) as [->|D]; auto. unfold s5. cbn [withB lB]. rewrite updZ_same, nth_error_set_nth_diff by auto. rewrite B4. auto. }
    unfold opts'. destruct opts as [|o0 opts]; [split; [discriminate|intros i [<-|[]]; auto]|]. destruct (@fgt XR v ms); (split; [discriminate|]); auto. intros i [<-|[]]; auto. }
  destruct Ho5 as [Ne5 Ho5].
  match goal with |- context [pick rnd ?o s5] => change o with opts' end.
  destruct (pick_total opts' s5 Ne5) as (mi & s6 & E6 & Imi & Sm6 & B6 & T6). rewrite E6. cbn [bind withM lB].
  assert (N6 : NInv s6) by (eapply NInv_same; eauto). assert (V6 : Inv s6) by (eapply Inv_same'; eauto).
  destruct (Ho5 mi Imi) as (bD & EbD). rewrite <- B6 in EbD. unfold idx. rewrite EbD. cbn [bind orPanic].
  assert (Lmi : (mi < length (rinner R))%nat) by (rewrite <- (n_len s6 N6 a R Ia Ua La); apply nth_error_Some; congruence).
  destruct (nth_error (rinner R) mi) as [su|] eqn:Esu; [|apply nth_error_None in Esu; lia].
  set (s7 := withM s6 (code a) (Z.of_nat mi)). assert (N7 : NInv s7) by (destruct N6; split; auto). assert (V7 : Inv s7) by exact V6.
  assert (DbD : decOf a bD). { destruct V6 as (G' & _ & _ & _ & _ & HB & _). apply HB; auto. eapply nth_error_In; eauto. }
  assert (NbD : decN (lH s7) bD) by (apply (n_B s6 N6 a); auto; eapply nth_error_In; eauto).
  destruct (useDec_total a R mi bD s7 su Ia Ua La V7 N7 DbD NbD Esu) as (s' & E7 & N' & Kp & M').
  exists s'. split; [exact E7|]. split; auto.
  assert (H7 : lH s7 = lH s).
  { unfold s7. cbn [withM lH]. destruct Sm6 as (Q6 & _). rewrite Q6. unfold s5. cbn [withB lH]. rewrite H4, H3, H2, H1. reflexivity. }
  split; [|split; [|rewrite <- H7; exact Kp]].
  - exists R, su. split; auto. rewrite M'. unfold s7. cbn [withM lM]. rewrite updZ_same. unfold idxZ. destruct (Z.ltb_spec (Z.of_nat mi) 0); [lia|]. rewrite Nat2Z.id. unfold idx. rewrite Esu. split; auto.
    apply (kept_nice _ _ su Kp). rewrite H7. intros l (n' & En' & Kl). destruct (TR su (nth_error_In _ _ Esu)) as (ns & Ens & _ & _ & Sn). assert (n' = ns) by congruence. subst. specialize (Sn Ua). unfold isSum in Sn. rewrite Kl in Sn. destruct Sn.
  - intros b Nb Ib (Rb & ub & A1 & A2 & A3). exists Rb, ub. split; auto.
    assert (Nc : code b <> code a) by (intros Ec; apply code_inj in Ec; auto).
    rewrite M'. unfold s7. cbn [withM lM]. rewrite updZ_diff by auto.
    assert (M6 : lM s6 (code b) = lM s (code b)).
    { destruct Sm6 as (_ & _ & _ & _ & Q6). rewrite Q6. unfold s5. cbn [withB lM]. destruct Sm4 as (_ & _ & _ & _ & Q4). rewrite Q4. destruct Sm3 as (_ & _ & _ & _ & Q3). rewrite Q3.
      destruct Sm2 as (_ & _ & _ & _ & Q2). rewrite Q2, M1. apply updZ_diff. auto. }
    rewrite M6. split; auto. apply (kept_nice _ _ ub Kp). rewrite H7. auto.
Qed.
End Total.
