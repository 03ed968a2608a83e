(** Proofs about linkRegions. *)
From Verif Require Import Base Res Arith GraphSpec Spn Leaves Build Poon PoonSpec PoonCodes PoonLemmas
  ProbSpec ScopedLemmas.
Local Open Scope Z_scope.

Lemma cut_inside w h a b c : inside w h a -> cut a b c -> inside w h b /\ inside w h c.
Proof.
  unfold inside. intros I [(x & X & [[-> ->]|[-> ->]])|(y & Y & [[-> ->]|[-> ->]])]; simpl; lia.
Qed.

Lemma cut_unit a b c : cut a b c -> ~ unitR a.
Proof. unfold unitR. intros [(x & X & _)|(y & Y & _)] [U1 U2]; lia. Qed.

Section Link.
Context {A : arith}.
Local Notation F := (F A).
Variables w h : Z.
Variable rnd : nat -> Z.
Hypothesis w1 : 0 < w.
Hypothesis h1 : 0 < h.
Hypothesis fit : codes_fit w h.
Hypothesis rnd10 : forall i, 0 <= rnd i < 10.
Variable L : table.

Local Notation inside := (inside w h).
Local Notation code := (code w h).
Local Notation good := (good w h L).
Local Notation held := (held w h L).

(** [H'] extends [H]: old nodes keep their type and rectangle; only sums get more children; new
    products have children with rectangles satisfying [C]. *)
Definition ext (C : rect -> Prop) (H : nodes A) (G : nat -> rect) (H' : nodes A) (G' : nat -> rect) : Prop :=
  (forall u n, nth_error H u = Some n -> G' u = G u /\
     exists n', nth_error H' u = Some n' /\ incl (nch n) (nch n') /\
       (isSum n -> isSum n') /\ (~ isSum n -> n' = n)) /\
  (forall u n, nth_error H' u = Some n -> isProd n ->
     nth_error H u = Some n \/ forall c, In c (nch n) -> C (G' c)).

Lemma ext_refl C H G : ext C H G H G.
Proof.
  split; [|auto]. intros u n E. split; auto. exists n. split; auto. split; [apply incl_refl|auto].
Qed.

Lemma ext_trans C H1 G1 H2 G2 H3 G3 : good H2 G2 ->
  ext C H1 G1 H2 G2 -> ext C H2 G2 H3 G3 -> ext C H1 G1 H3 G3.
Proof.
  intros Gd [A1 A2] [B1 B2]. split.
  - intros u n E. destruct (A1 u n E) as [Eg (n2 & E2 & I2 & S2 & K2)].
    destruct (B1 u n2 E2) as [Eg' (n3 & E3 & I3 & S3 & K3)].
    split; [congruence|]. exists n3. split; auto. split; [eapply incl_tran; eauto|]. split; auto.
    intros Ns. specialize (K2 Ns). subst n2. auto.
  - intros u n E P. destruct (B2 u n E P) as [E2|Hc]; auto.
    destruct (A2 u n E2 P) as [E1|Hc]; auto. right. intros c I. specialize (Hc c I).
    pose proof (Gd u n E2) as [_ K]. unfold isProd in P. destruct (nk n); try contradiction.
    destruct K as (a & b & na & nb & Ech & _ & Ea & Eb & _). rewrite Ech in I.
    destruct I as [<-|[<-|[]]].
    + destruct (B1 a na Ea) as [-> _]. auto.
    + destruct (B1 b nb Eb) as [-> _]. auto.
Qed.

Lemma ext_prod C H G H' G' u n : ext C H G H' G' -> nth_error H u = Some n -> isProd n ->
  nth_error H' u = Some n.
Proof.
  intros [E _] Hu P. destruct (E u n Hu) as [_ (n' & E' & _ & _ & K)].
  rewrite E', K; auto. unfold isSum, isProd in *. destruct (nk n); auto.
Qed.

Lemma ext_region C H G H' G' a R : ext C H G H' G' -> regionOk H G a R -> regionOk H' G' a R.
Proof.
  intros [E _] [Ne Ok]. split; auto. intros u Hu. destruct (Ok u Hu) as (n & En & Gu & Un & Nu).
  destruct (E u n En) as [Eg (n' & E' & _ & S' & K)]. exists n'. split; auto. split; [congruence|].
  split; intros U.
  - rewrite K; auto. specialize (Un U). unfold isSum, isLeaf in *. destruct (nk n); auto.
  - auto.
Qed.

Lemma ext_table C H G H' G' : ext C H G H' G' -> tableOk w h L H G -> tableOk w h L H' G'.
Proof. intros E T a R Ia EL. eapply ext_region; eauto. Qed.

(** All nodes of a region have children. *)
Definition filled (H : nodes A) (R : region) : Prop :=
  forall u, In u (rinner R) -> exists n, nth_error H u = Some n /\ nch n <> [].

Lemma ext_filled C H G H' G' R : ext C H G H' G' -> filled H R -> filled H' R.
Proof.
  intros [E _] Fl u Hu. destruct (Fl u Hu) as (n & En & Ne). destruct (E u n En) as [_ (n' & E' & I & _)].
  exists n'. split; auto. intros Nl. destruct (nch n) as [|x t]; [congruence|].
  specialize (I x (or_introl eq_refl)). rewrite Nl in I. destruct I.
Qed.

Lemma addChildW_l C H G s ns pi np wt :
  good H G -> nth_error H s = Some ns -> isSum ns -> nth_error H pi = Some np -> isProd np ->
  G pi = G s -> okWeight wt ->
  exists H', addChildW s pi wt H = Ok H' /\ good H' G /\ ext C H G H' G /\
    exists n', nth_error H' s = Some n' /\ nch n' <> [].
Proof.
  intros Gd Es Ss Ep Pp Eg Ow. unfold addChildW. rewrite Es. destruct ns as [k chs].
  unfold isSum in Ss. simpl in Ss. destruct k as [ws| |l]; try contradiction.
  set (n' := mkNode (KSum (ws ++ [wt])) (chs ++ [pi])).
  assert (Ls : (s < length H)%nat) by (apply nth_error_Some; congruence).
  exists (set_nth s n' H). split; [reflexivity|].
  assert (Same : nth_error (set_nth s n' H) s = Some n') by (apply nth_error_set_nth_same; auto).
  assert (Diff : forall u, u <> s -> nth_error (set_nth s n' H) u = nth_error H u)
    by (intros; apply nth_error_set_nth_diff; auto).
  assert (KeepP : forall u n, nth_error H u = Some n -> ~ isSum n -> nth_error (set_nth s n' H) u = Some n).
  { intros u n E Ns. rewrite Diff; auto. intros ->. rewrite Es in E. injection E as <-. apply Ns. exact Logic.I. }
  assert (PS : forall n : node A, isProd n -> ~ isSum n) by (intros n; unfold isProd, isSum; destruct (nk n); auto).
  assert (KeepN : forall u n, nth_error H u = Some n -> ~ isProd n ->
            exists n2, nth_error (set_nth s n' H) u = Some n2 /\ ~ isProd n2).
  { intros u n E Np. destruct (Nat.eq_dec u s) as [-> |D].
    - exists n'. split; auto.
    - exists n. rewrite Diff; auto. }
  split; [|split; [|exists n'; split; [auto|unfold n'; simpl; destruct chs; discriminate]]].
  - intros u n E. destruct (Nat.eq_dec u s) as [-> |D].
    + rewrite Same in E. injection E as <-. destruct (Gd s _ Es) as [Is (Lw & Fw & Cw)].
      split; auto. cbn [n' nk nch] in *. split; [rewrite !app_length; simpl; lia|].
      split; [apply Forall_app; split; auto|]. intros c I. apply in_app_or in I.
      destruct I as [I|[<-|[]]].
      * destruct (Cw c I) as [Ec (nc & En & Pc)]. split; auto. exists nc. split; auto.
      * split; auto. exists np. split; auto.
    + rewrite Diff in E by auto. destruct (Gd u n E) as [Iu K]. split; auto.
      destruct (nk n) as [ws'| |l].
      * destruct K as (Lw & Fw & Cw). split; auto. split; auto. intros c I.
        destruct (Cw c I) as [Ec (nc & En & Pc)]. split; auto. exists nc. split; auto.
      * destruct K as (a & b & na & nb & Ech & Ct & Ea & Eb & Na & Nb & Ha & Hb).
        destruct (KeepN a na Ea Na) as (na' & Ea' & Na'). destruct (KeepN b nb Eb Nb) as (nb' & Eb' & Nb').
        exists a, b, na', nb'. tauto.
      * auto.
  - split.
    + intros u n E. split; auto. destruct (Nat.eq_dec u s) as [-> |D].
      * exists n'. split; auto. rewrite Es in E. injection E as <-. split; [apply incl_appl, incl_refl|].
        split; [intros; exact Logic.I|]. intros X. exfalso. apply X. exact Logic.I.
      * exists n. rewrite Diff by auto. split; auto. split; [apply incl_refl|]. auto.
    + intros u n E P. left. destruct (Nat.eq_dec u s) as [-> |D].
      * rewrite Same in E. injection E as <-. destruct P.
      * rewrite Diff in E by auto. auto.
Qed.

Lemma addProd_l (C : rect -> Prop) H G a s t ns nt :
  good H G -> inside a -> nth_error H s = Some ns -> nth_error H t = Some nt ->
  ~ isProd ns -> ~ isProd nt -> held G s -> held G t -> cut a (G s) (G t) -> C (G s) -> C (G t) ->
  good (H ++ [mkNode KProd [s; t]]) (upd G (length H) a) /\
  ext C H G (H ++ [mkNode KProd [s; t]]) (upd G (length H) a).
Proof.
  intros Gd Ia Es Et Ns Nt Hs Ht Ct Cs Cc.
  assert (Lt : forall u n, nth_error H u = Some n -> (u < length H)%nat)
    by (intros u n E; apply nth_error_Some; congruence).
  assert (K1 : forall u n, nth_error H u = Some n -> nth_error (H ++ [mkNode KProd [s; t]]) u = Some n).
  { intros u n E. rewrite nth_error_app1; eauto. }
  assert (K2 : forall u n, nth_error H u = Some n -> upd G (length H) a u = G u).
  { intros u n E. apply upd_diff. specialize (Lt u n E). lia. }
  assert (Hd : forall u n, nth_error H u = Some n -> held G u -> held (upd G (length H) a) u).
  { intros u n E [R [E' I]]. exists R. rewrite (K2 u n E). auto. }
  assert (Last : forall u n, nth_error (H ++ [mkNode KProd [s; t]]) u = Some n ->
            nth_error H u = Some n \/ (u = length H /\ n = mkNode KProd [s; t])).
  { intros u n E. destruct (Nat.lt_ge_cases u (length H)) as [l|l].
    - rewrite nth_error_app1 in E by auto. auto.
    - rewrite nth_error_app2 in E by auto. destruct (u - length H)%nat as [|k] eqn:Ek.
      + injection E as <-. right. split; auto. lia.
      + simpl in E. destruct k; discriminate. }
  split.
  - intros u n E. destruct (Last u n E) as [E'|[-> ->]].
    + destruct (Gd u n E') as [Iu K]. unfold node_good. rewrite (K2 u n E'). split; auto.
      destruct (nk n) as [ws| |l].
      * destruct K as (Lw & Fw & Cw). split; auto. split; auto. intros c I.
        destruct (Cw c I) as [Ec (nc & En & Pc)]. rewrite (K2 c nc En). split; auto. exists nc. auto.
      * destruct K as (x & y & nx & ny & Ech & Cxy & Ex & Ey & Nx & Ny & Hx & Hy).
        exists x, y, nx, ny. rewrite (K2 x nx Ex), (K2 y ny Ey). eauto 12.
      * auto.
    + unfold node_good. rewrite upd_same. split; auto. cbn [nk nch].
      exists s, t, ns, nt. rewrite (K2 s ns Es), (K2 t nt Et). eauto 12.
  - split.
    + intros u n E. split; [eapply K2; eauto|]. exists n. split; auto. split; [apply incl_refl|]. auto.
    + intros u n E P. destruct (Last u n E) as [E'|[-> ->]]; auto. right. intros c [<-|[<-|[]]].
      * rewrite (K2 s ns Es). auto.
      * rewrite (K2 t nt Et). auto.
Qed.

Lemma linkSums_l C a pi : forall R H G c np, good H G ->
  (forall u, In u R -> exists n, nth_error H u = Some n /\ G u = a /\ isSum n) ->
  nth_error H pi = Some np -> isProd np -> G pi = a ->
  exists H' c', linkSums rnd pi R (H, c) = Ok (H', c') /\ good H' G /\ ext C H G H' G /\
    forall u, In u R -> exists n, nth_error H' u = Some n /\ nch n <> [].
Proof.
  induction R as [|s R IH]; intros H G c np Gd HR Ep Pp Eg.
  - exists H, c. split; [reflexivity|]. split; auto. split; [apply ext_refl|]. intros u [].
  - destruct (HR s (or_introl eq_refl)) as (ns & Es & Gs & Ss).
    destruct (addChildW_l C H G s ns pi np (fz (rnd c + 1)) Gd Es Ss Ep Pp) as (H1 & E1 & Gd1 & X1 & n1 & En1 & Ne1).
    { congruence. }
    { exists (rnd c + 1). specialize (rnd10 c). split; auto. lia. }
    destruct (IH H1 G (S c) np) as (H' & c' & E' & Gd' & X' & Fl'); auto.
    { intros u Hu. destruct (HR u (or_intror Hu)) as (n & En & Gu & Su).
      destruct X1 as [X1 _]. destruct (X1 u n En) as [_ (n' & En' & _ & S' & _)]. exists n'. auto. }
    { eapply ext_prod; eauto. }
    exists H', c'. split.
    + unfold linkSums in *. cbn [foldr_ fst snd]. rewrite E1. cbn [bind]. exact E'.
    + split; [exact Gd'|]. split; [eapply ext_trans; [exact Gd1|exact X1|exact X']|]. intros u Hu. destruct Hu as [<-|Hu]; [|apply Fl'; exact Hu].
      destruct X' as [X' _]. destruct (X' s n1 En1) as [_ (n' & En' & I' & _)]. exists n'. split; auto.
      intros Nl. destruct (nch n1) as [|x t]; [congruence|]. specialize (I' x (or_introl eq_refl)).
      rewrite Nl in I'. destruct I'.
Qed.

Definition either (b c : rect) : rect -> Prop := fun x => x = b \/ x = c.

Lemma linkInner_l a b c RR s : inside a -> ~ unitR a ->
  forall T H G k, good H G -> regionOk H G a RR -> cut a b c ->
  (exists ns, nth_error H s = Some ns /\ ~ isProd ns /\ G s = b /\ held G s) ->
  (forall t, In t T -> exists nt, nth_error H t = Some nt /\ ~ isProd nt /\ G t = c /\ held G t) ->
  exists H' G' k', foldr_ (fun st t =>
      let (H, pi) := newNode (mkNode KProd [s; t]) (fst st) in
      linkSums rnd pi (rinner RR) (H, snd st)) T (H, k) = Ok (H', k') /\
    good H' G' /\ ext (either b c) H G H' G' /\ (T <> [] -> filled H' RR).
Proof.
  intros Ia Ua. induction T as [|t T IH]; intros H G k Gd Rk Ct Hs HT.
  - exists H, G, k. split; [reflexivity|]. split; auto. split; [apply ext_refl|congruence].
  - destruct Hs as (ns & Es & Ns & Gs & Hs). destruct (HT t (or_introl eq_refl)) as (nt & Et & Nt & Gt & Ht).
    cbn [foldr_ fst snd newNode].
    destruct (addProd_l (either b c) H G a s t ns nt Gd Ia Es Et Ns Nt Hs Ht) as [Gd1 X1].
    { congruence. } { left; auto. } { right; auto. }
    set (H1 := H ++ [mkNode KProd [s; t]]) in *. set (G1 := upd G (length H) a) in *.
    assert (Ep : nth_error H1 (length H) = Some (mkNode KProd [s; t])).
    { unfold H1. rewrite nth_error_app2, Nat.sub_diag by auto. reflexivity. }
    destruct (linkSums_l (either b c) a (length H) (rinner RR) H1 G1 k (mkNode KProd [s; t]) Gd1)
      as (H2 & k2 & E2 & Gd2 & X2 & Fl2); auto.
    { intros u Hu. pose proof (ext_region _ _ _ _ _ _ _ X1 Rk) as [_ Rk1].
      destruct (Rk1 u Hu) as (n & En & Gu & _ & Su). exists n. auto. }
    { exact Logic.I. }
    { unfold G1. apply upd_same. }
    unfold newNode. cbn [fst snd]. fold H1. rewrite E2. cbn [bind].
    assert (X12 : ext (either b c) H G H2 G1) by (eapply ext_trans; [exact Gd1|exact X1|exact X2]).
    assert (Keep : forall u n r, nth_error H u = Some n -> ~ isProd n -> G u = r -> held G u ->
       exists n', nth_error H2 u = Some n' /\ ~ isProd n' /\ G1 u = r /\ held G1 u).
    { intros u n r0 E Np Er Hh. destruct X12 as [X _]. destruct (X u n E) as [Eg (n' & E' & _ & S' & K)].
      exists n'. split; auto. split; [|split; [congruence|]].
      - unfold isProd, isSum in *. destruct (nk n) eqn:Kn; [|contradiction|].
        + intros P. specialize (S' Logic.I). destruct (nk n'); contradiction.
        + rewrite K; [rewrite Kn; auto|auto].
      - destruct Hh as (R0 & E0 & I0). exists R0. rewrite Eg. auto. }
    destruct (IH H2 G1 k2) as (H3 & G3 & k3 & E3 & Gd3 & X3 & Fl3); auto.
    { eapply ext_region; eauto. }
    { eapply Keep; eauto. }
    { intros t' It. destruct (HT t' (or_intror It)) as (n' & En' & Nn' & Gn' & Hn'). eapply Keep; eauto. }
    exists H3, G3, k3. split; [exact E3|]. split; auto.
    split; [eapply ext_trans; [exact Gd2|exact X12|exact X3]|]. intros _. eapply ext_filled; eauto.
Qed.

(** Linking a region with the two parts of a cut. *)
Lemma linkRegions_l a b c RR SS TT H G k :
  inside a -> cut a b c -> good H G -> tableOk w h L H G ->
  L (code a) = Some RR -> L (code b) = Some SS -> L (code c) = Some TT ->
  exists H' G' k', linkRegions rnd (Some RR) (Some SS) (Some TT) (H, k) = Ok (H', k') /\
    good H' G' /\ ext (either b c) H G H' G' /\ filled H' RR.
Proof.
  intros Ia Ct Gd Tb La Lb Lc. destruct (cut_inside w h a b c Ia Ct) as [Ib Ic].
  pose proof (cut_unit a b c Ct) as Ua.
  unfold linkRegions.
  assert (Sc : forall x R H G, inside x -> L (code x) = Some R -> regionOk H G x R ->
    forall u, In u (rinner R) -> exists n, nth_error H u = Some n /\ ~ @isProd A n /\ G u = x /\ held G u).
  { intros x R H0 G0 Ix Lx [_ Rk] u Hu. destruct (Rk u Hu) as (n & En & Gu & U & NU). exists n.
    split; auto. split; [|split; auto].
    - destruct (Z.eq_dec (right x) (left x + 1)) as [e1|n1], (Z.eq_dec (bottom x) (top x + 1)) as [e2|n2].
      + assert (isLeaf n) by (apply U; split; auto). unfold isLeaf, isProd in *. destruct (nk n); auto.
      + assert (isSum n) by (apply NU; intros [? ?]; auto). unfold isSum, isProd in *. destruct (nk n); auto.
      + assert (isSum n) by (apply NU; intros [? ?]; auto). unfold isSum, isProd in *. destruct (nk n); auto.
      + assert (isSum n) by (apply NU; intros [? ?]; auto). unfold isSum, isProd in *. destruct (nk n); auto.
    - exists R. rewrite Gu. auto. }
  destruct (Tb b SS Ib Lb) as [NeS _].
  assert (Go : forall Sl, incl Sl (rinner SS) -> forall H G k, good H G -> tableOk w h L H G ->
    exists H' G' k', foldr_ (fun st s => foldr_ (fun st t =>
              let (H, pi) := newNode (mkNode KProd [s; t]) (fst st) in
              linkSums rnd pi (rinner RR) (H, snd st)) (rinner TT) st) Sl (H, k) = Ok (H', k') /\
      good H' G' /\ ext (either b c) H G H' G' /\ (Sl <> [] -> filled H' RR)).
  { induction Sl as [|s Sl IH]; intros Inc H0 G0 k0 Gd0 Tb0.
    - exists H0, G0, k0. split; [reflexivity|]. split; auto. split; [apply ext_refl|congruence].
    - cbn [foldr_].
      destruct (linkInner_l a b c RR s Ia Ua (rinner TT) H0 G0 k0) as (H1 & G1 & k1 & E1 & Gd1 & X1 & F1); auto.
      + eapply Sc; eauto. apply Inc. left; auto.
      + eapply Sc; eauto.
      + rewrite E1. cbn [bind]. destruct (IH (fun x i => Inc x (or_intror i)) H1 G1 k1) as (H2 & G2 & k2 & E2 & Gd2 & X2 & F2); auto.
        { eapply ext_table; eauto. }
        exists H2, G2, k2. split; [exact E2|]. split; auto. split; [eapply ext_trans; [exact Gd1|exact X1|exact X2]|].
        intros _. eapply ext_filled; eauto. apply F1. destruct (Tb0 c TT Ic Lc); auto. }
  destruct (Go (rinner SS) (incl_refl _) H G k Gd Tb) as (H' & G' & k' & E & Gd' & X & Fl).
  exists H', G', k'. split; [exact E|]. auto.
Qed.
End Link.
