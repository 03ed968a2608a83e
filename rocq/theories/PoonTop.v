(** The networks built by conRegions and connectRegions. *)
From Verif Require Import Base Res Arith GraphSpec Spn Leaves Build Poon PoonSpec PoonCodes PoonLemmas
  PoonLink PoonConn ProbSpec ScopedLemmas.
Local Open Scope Z_scope.

Section Top.
Context {A : arith}.
Local Notation F := (F A).
Variables w h : Z.
Variable rnd : nat -> Z.
Hypothesis w1 : 0 < w.
Hypothesis h1 : 0 < h.
Hypothesis fit : codes_fit w h.
Hypothesis rnd10 : forall i, 0 <= rnd i < 10.
Variable L : table.
Variable r : Z.
Hypothesis r1 : 0 < r.
Hypothesis rw : (r | w).
Hypothesis rh : (r | h).
Hypothesis Lall : forall a, inside w h a -> region_at r a -> L (code w h a) <> None.

Local Notation inside := (inside w h).
Local Notation code := (code w h).
Local Notation good := (good w h L).
Local Notation root := (Rect 0 0 w h).

Lemma root_inside : inside root.
Proof. unfold PoonSpec.inside; simpl; lia. Qed.
Lemma root_region : region_at r root.
Proof. left. simpl. auto using Z.divide_0_r. Qed.

(** Queue invariant. [B] is the region being expanded, exempt from being filled. *)
Definition qinv (B : rect -> Prop) (H : nodes A) (Q V : list Z) : Prop :=
  exists G, good H G /\ tableOk w h L H G /\
    NoDup V /\ incl Q V /\
    (forall k, In k V -> exists a, inside a /\ region_at r a /\ k = code a) /\
    (forall u n c, nth_error H u = Some n -> isProd n -> In c (nch n) -> In (code (G c)) V) /\
    (forall a R, inside a -> In (code a) V -> ~ In (code a) Q -> ~ B a -> ~ unitR a ->
       L (code a) = Some R -> filled H R).

Lemma visit_l p Q V : NoDup V -> incl Q V ->
  let '(Q', V') := visit p (Q, V) in
  NoDup V' /\ incl Q' V' /\ incl V V' /\ incl Q Q' /\ In p V' /\ (length Q' + length V = length Q + length V')%nat /\
  (forall k, In k V' -> In k V \/ k = p) /\ (forall k, In k V' -> In k V \/ In k Q').
Proof.
  intros N I. unfold visit. destruct (existsb (Z.eqb p) V) eqn:E.
  - apply existsb_exists in E. destruct E as (x & Hx & Ex). apply Z.eqb_eq in Ex. subst x.
    repeat split; auto using incl_refl.
  - assert (Np : ~ In p V).
    { intros X. rewrite (proj2 (existsb_exists _ _)) in E; [discriminate|]. exists p. split; auto. apply Z.eqb_refl. }
    split; [constructor; auto|]. split.
    { intros x Hx. apply in_app_or in Hx. destruct Hx as [Hx|[<-|[]]]; [right; auto|left; auto]. }
    split; [intros x Hx; right; auto|]. split; [intros x Hx; apply in_or_app; auto|]. split; [left; auto|].
    split; [rewrite app_length; simpl; lia|]. split.
    + intros k [<-|K]; auto.
    + intros k [<-|K]; auto. right. apply in_or_app. right. left. auto.
Qed.

Lemma conCut_l a (Ia : inside a) (Ra : region_at r a) :
  forall cs, goodCuts w h r a cs -> forall H k Q V,
  qinv (fun b => b = a) H Q V -> In (code a) V ->
  exists H' k' Q' V', foldr_ (conCut rnd L (code a)) cs ((H, k), (Q, V)) = Ok ((H', k'), (Q', V')) /\
    qinv (fun b => b = a /\ cs = []) H' Q' V' /\ incl V V' /\
    (length Q' + length V = length Q + length V')%nat.
Proof.
  induction cs as [|pq cs IH]; intros Gc H k Q V QI IaV.
  - exists H, k, Q, V. split; [reflexivity|]. split; [|split; [apply incl_refl|lia]].
    destruct QI as (G & Q1 & Q2 & Q3 & Q4 & Q5 & Q6 & Q7). exists G. repeat (split; [assumption|]).
    intros b R Ib Iv Nq Nb. apply Q7; auto.
  - destruct (Gc pq (or_introl eq_refl)) as (b & c & -> & Ct & Rb & Rc).
    destruct (cut_inside w h a b c Ia Ct) as [Ib Ic].
    destruct QI as (G & Q1 & Q2 & Q3 & Q4 & Q5 & Q6 & Q7).
    destruct (L (code a)) as [RR|] eqn:La; [|exfalso; apply (Lall a); auto].
    destruct (L (code b)) as [SS|] eqn:Lb; [|exfalso; apply (Lall b); auto].
    destruct (L (code c)) as [TT|] eqn:Lc; [|exfalso; apply (Lall c); auto].
    destruct (linkRegions_l w h rnd rnd10 L a b c RR SS TT H G k Ia Ct Q1 Q2 La Lb Lc)
      as (H1 & G1 & k1 & E1 & Gd1 & X1 & Fl1).
    pose proof (visit_l (code b) Q V Q3 Q4) as V1. destruct (visit (code b) (Q, V)) as [Qb Vb] eqn:Eb.
    destruct V1 as (N1 & I1 & J1 & K1 & P1 & Ln1 & O1 & M1).
    pose proof (visit_l (code c) Qb Vb N1 I1) as V2. destruct (visit (code c) (Qb, Vb)) as [Qc Vc] eqn:Ec.
    destruct V2 as (N2 & I2 & J2 & K2 & P2 & Ln2 & O2 & M2).
    assert (Fin1 : forall d R, inside d -> In (code d) Vc -> ~ In (code d) Qc -> ~ unitR d ->
               L (code d) = Some R -> filled H1 R).
    { intros d R Id Iv Nq Nu EL. destruct (Z.eq_dec (code d) (code a)) as [Ed|Nd].
      - assert (d = a) by (apply (code_inj w h); auto; lia). subst d. rewrite La in EL. injection EL as <-. auto.
      - eapply ext_filled; [exact X1|]. apply (Q7 d R); auto.
        + destruct (M2 _ Iv) as [Iv'|]; [|contradiction]. destruct (M1 _ Iv') as [|Iq]; auto.
          exfalso. apply Nq, K2, Iq.
        + intros -> . congruence. }
    assert (QI' : qinv (fun b => b = a) H1 Qc Vc).
    { exists G1. split; [exact Gd1|]. split; [eapply ext_table; eauto|]. split; auto. split; auto.
      split; [|split].
      - intros x Hx. destruct (O2 _ Hx) as [Hx'| ->]; [destruct (O1 _ Hx') as [Hx''| ->]|]; eauto.
      - intros u n x Eu Pu Hx. destruct X1 as [X1 X2]. destruct (X2 u n Eu Pu) as [Eo|Cx].
        + pose proof (Q6 u n x Eo Pu Hx) as In6.
          assert (G1 x = G x) as ->.
          { destruct (Q1 u n Eo) as [_ Kg]. unfold isProd in Pu. destruct (nk n); try contradiction.
            destruct Kg as (y & z & ny & nz & Ech & _ & Ey & Ez & _). rewrite Ech in Hx.
            destruct Hx as [<-|[<-|[]]]; [apply (X1 y ny Ey)|apply (X1 z nz Ez)]. }
          apply J2, J1; auto.
        + destruct (Cx x Hx) as [-> | ->]; auto.
      - intros d R Id Iv Nq _ Nu EL. eapply Fin1; eauto. }
    assert (Gc' : goodCuts w h r a cs) by (intros y Hy; apply Gc; right; auto).
    destruct (IH Gc' H1 k1 Qc Vc QI') as (H' & k' & Q' & V' & E' & QI'' & Inc & Ln).
    { apply J2, J1; auto. }
    exists H', k', Q', V'. split.
    { cbn [foldr_]. unfold conCut at 1. cbn [fst snd]. rewrite La, Lb, Lc, E1. cbn [bind].
      rewrite Eb, Ec. exact E'. }
    split; [|split; [|lia]].
    + destruct cs as [|pq' cs'].
      * cbn [foldr_] in E'. injection E' as <- <- <- <-.
        destruct QI' as (G2 & R1 & R2 & R3 & R4 & R5 & R6 & R7). exists G2. repeat (split; [assumption|]).
        intros d R Id Iv Nq _ Nu EL. eapply Fin1; eauto.
      * destruct QI'' as (G2 & R1 & R2 & R3 & R4 & R5 & R6 & R7). exists G2. repeat (split; [assumption|]).
        intros d R Id Iv Nq _ Nu EL. apply (R7 d R); auto. intros [_ X]. discriminate.
    + intros x Hx. apply Inc, J2, J1; auto.
Qed.

(** All codes. *)
Definition allCodes : list Z :=
  flat_map (fun a => flat_map (fun b => flat_map (fun c => map (fun d => encode w h a b c d)
    (steps 0 h 1)) (steps 0 w 1)) (steps 0 h 1)) (steps 0 w 1).

Lemma code_all a : inside a -> In (code a) allCodes.
Proof.
  intros Ia. unfold PoonSpec.inside in Ia.
  assert (S1 : forall x n, 0 <= x <= n -> In x (steps 0 n 1)).
  { intros x n B. apply In_steps; [lia|]. split; [lia|apply Z.divide_1_l]. }
  unfold allCodes. apply in_flat_map. exists (left a). split; [apply S1; lia|].
  apply in_flat_map. exists (top a). split; [apply S1; lia|].
  apply in_flat_map. exists (right a). split; [apply S1; lia|].
  apply in_map_iff. exists (bottom a). split; [reflexivity|apply S1; lia].
Qed.

Lemma conLoop_l : forall fuel H k Q V, qinv (fun _ => False) H Q V ->
  (length Q + (length allCodes - length V) < fuel)%nat ->
  exists H' k' V', conLoop w h rnd L r fuel ((H, k), (Q, V)) = Ok (H', k') /\
    qinv (fun _ => False) H' [] V' /\ incl V V'.
Proof.
  induction fuel as [|f IH]; intros H k Q V QI Lt; [lia|]. cbn [conLoop fst snd].
  destruct Q as [|q Q].
  - exists H, k, V. split; [reflexivity|]. split; auto. apply incl_refl.
  - assert (Vle : forall Q' V', qinv (fun _ => False) H Q' V' -> (length V' <= length allCodes)%nat).
    { intros Q' V' (G & _ & _ & Nd & _ & Vc & _). apply NoDup_incl_length; auto.
      intros x Hx. destruct (Vc x Hx) as (a & Ia & _ & ->). apply code_all; auto. }
    pose proof QI as (G & Q1 & Q2 & Q3 & Q4 & Q5 & Q6 & Q7).
    destruct (Q5 q) as (a & Ia & Ra & ->); [apply Q4; left; auto|].
    rewrite (decode_code w h) by (auto; lia). cbn [bind].
    destruct (conCuts_good w h r r1 a Ia Ra) as [Gc Ne].
    assert (QI1 : qinv (fun b => b = a) H Q V).
    { exists G. repeat (split; [assumption|]). split; [intros x Hx; apply Q4; right; auto|].
      split; auto. split; auto. intros b R Ib Iv Nq Nb Nu EL. apply (Q7 b R); auto.
      intros [Eb|Iq]; [|contradiction]. apply Nb. apply (code_inj w h); auto; lia. }
    destruct (conCut_l a Ia Ra _ Gc H k Q V QI1) as (H1 & k1 & Q' & V' & E1 & QI2 & Inc & Ln).
    { apply Q4; left; auto. }
    rewrite E1. cbn [bind].
    assert (QI3 : qinv (fun _ => False) H1 Q' V').
    { destruct QI2 as (G2 & R1 & R2 & R3 & R4 & R5 & R6 & R7). exists G2. repeat (split; [assumption|]).
      intros b R Ib Iv Nq _ Nu EL. apply (R7 b R); auto. intros [-> En]. apply Ne; auto. }
    assert (Vle' : (length V' <= length allCodes)%nat).
    { destruct QI3 as (G2 & _ & _ & Nd & _ & Vc & _). apply NoDup_incl_length; auto.
      intros x Hx. destruct (Vc x Hx) as (b & Ib & _ & ->). apply code_all; auto. }
    destruct (IH H1 k1 Q' V' QI3) as (H2 & k2 & V2 & E2 & QI4 & Inc2).
    { simpl in Lt. pose proof (NoDup_incl_length Q3 Inc). lia. }
    exists H2, k2, V2. split; auto. split; auto. intros x Hx. apply Inc2, Inc, Hx.
Qed.

Lemma conRegions_l (H : nodes A) G : good H G -> tableOk w h L H G ->
  (forall u n, nth_error H u = Some n -> ~ isProd n) ->
  exists N, forall fuel, (N <= fuel)%nat -> exists H' z, conRegions w h rnd L r fuel H = Ok (H', z) /\
  (forall p, in_scope (netOf H') z p <-> 0 <= p < w * h) /\ complete (netOf H') z /\
  decomposable (netOf H') z /\ acyclic_from (children (netOf H')) z /\ small_weights (A:=A) (netOf H') z.
Proof.
  intros Gd Tb Np. exists (length allCodes + 2)%nat. intros fuel Lf.
  set (l := code root).
  assert (QI : qinv (fun _ => False) H [l] [l]).
  { exists G. split; auto. split; auto. split; [constructor; [intros []|constructor]|].
    split; [apply incl_refl|]. split; [|split].
    - intros k [<-|[]]. exists root. split; [apply root_inside|]. split; [apply root_region|reflexivity].
    - intros u n c E P. exfalso. eapply Np; eauto.
    - intros a R _ Iv Nq. contradiction. }
  destruct (conLoop_l fuel H 0%nat [l] [l] QI) as (H' & k' & V' & E & (G' & Q1 & Q2 & Q3 & Q4 & Q5 & Q6 & Q7) & Inc).
  { simpl. lia. }
  unfold conRegions. destruct (Z.leb_spec r 0); [lia|]. cbv zeta.
  change (encode w h 0 0 w h) with l. rewrite E. cbn [bind fst].
  destruct (L l) as [RR|] eqn:Ll; [|exfalso; apply (Lall root root_inside root_region); auto].
  destruct (Q2 root RR root_inside Ll) as [Ne Rk].
  destruct (rinner RR) as [|z zs] eqn:Er; [congruence|].
  exists H', z. split.
  { unfold firstInner. rewrite Er. reflexivity. }
  destruct (Rk z (or_introl eq_refl)) as (nz & Ez & Gz & _ & _).
  pose proof (valid_l w h L H' G' Q1 Q2 (fun a => In (code a) V')) as VL.
  destruct (VL) with (z := z) (a := root) as (S1 & S2 & S3 & S4 & S5); auto.
  - intros u n c Eu Pu Hc _. eapply Q6; eauto.
  - intros a R Ia Iv Nu EL. eapply Q7; eauto.
  - exists nz. split; auto. split.
    + rewrite Gz. apply Inc. left. reflexivity.
    + intros _. exists RR. rewrite Gz. split; auto. rewrite Er. left; auto.
  - split; auto. intros p. rewrite S1. apply pixel_all; auto.
Qed.

(** connectRegions: all regions are connected in turn. *)
Definition linked (D : rect -> Prop) (st : nodes A * nat) : Prop :=
  exists G, good (fst st) G /\ tableOk w h L (fst st) G /\
    (forall a R, inside a -> D a -> ~ unitR a -> L (code a) = Some R -> filled (fst st) R) /\
    (forall u n c, nth_error (fst st) u = Some n -> isProd n -> In c (nch n) -> region_at r (G c)).

Lemma linked_weak (D D' : rect -> Prop) st : (forall a, D' a -> D a) -> linked D st -> linked D' st.
Proof. intros Hd (G & A1 & A2 & A3 & A4). exists G. split; [|split; [|split]]; eauto. Qed.

Lemma cutsLoop_l a (Ia : inside a) (Ra : region_at r a) : forall cs, goodCuts w h r a cs ->
  forall D st, linked D st ->
  exists st', foldr_ (fun st pq => linkRegions rnd (L (code a)) (L (fst pq)) (L (snd pq)) st) cs st = Ok st' /\
    linked (fun b => (b = a /\ cs <> []) \/ D b) st'.
Proof.
  induction cs as [|pq cs IH]; intros Gc D st Lk.
  - exists st. split; [reflexivity|]. eapply linked_weak; [|exact Lk]. intros b [[_ X]|X]; auto. congruence.
  - destruct (Gc pq (or_introl eq_refl)) as (b & c & -> & Ct & Rb & Rc).
    destruct (cut_inside w h a b c Ia Ct) as [Ib Ic].
    destruct Lk as (G & L1 & L2 & L3 & L4). destruct st as [H k]. cbn [fst snd] in *.
    destruct (L (code a)) as [RR|] eqn:La; [|exfalso; apply (Lall a); auto].
    destruct (L (code b)) as [SS|] eqn:Lb; [|exfalso; apply (Lall b); auto].
    destruct (L (code c)) as [TT|] eqn:Lc; [|exfalso; apply (Lall c); auto].
    destruct (linkRegions_l w h rnd rnd10 L a b c RR SS TT H G k Ia Ct L1 L2 La Lb Lc)
      as (H1 & G1 & k1 & E1 & Gd1 & X1 & Fl1).
    destruct (IH (fun y i => Gc y (or_intror i)) (fun d => d = a \/ D d) (H1, k1)) as (st' & E' & Lk').
    { exists G1. cbn [fst]. split; auto. split; [eapply ext_table; eauto|].
      split.
      - intros d R Id Dd Nu EL. destruct (Z.eq_dec (code d) (code a)) as [Ed|Nd].
        + rewrite Ed, La in EL. injection EL as <-. auto.
        + eapply ext_filled; [exact X1|]. destruct Dd as [-> |Dd]; [congruence|]. eapply L3; eauto.
      - intros u n x Eu Pu Hx. destruct X1 as [X1 X2]. destruct (X2 u n Eu Pu) as [Eo|Cx].
        + assert (G1 x = G x) as ->.
          { destruct (L1 u n Eo) as [_ Kg]. unfold isProd in Pu. destruct (nk n); try contradiction.
            destruct Kg as (y & z & ny & nz & Ech & _ & Ey & Ez & _). rewrite Ech in Hx.
            destruct Hx as [<-|[<-|[]]]; [apply (X1 y ny Ey)|apply (X1 z nz Ez)]. }
          eapply L4; eauto.
        + destruct (Cx x Hx) as [-> | ->]; auto. }
    exists st'. split.
    + cbn [foldr_ fst snd]. rewrite Lb, Lc. rewrite E1. cbn [bind]. exact E'.
    + eapply linked_weak; [|exact Lk']. intros d [[-> _]|X]; auto.
Qed.

Lemma connect_l d a D st : inside a -> okStep r d a -> linked D st ->
  exists st', connect w h rnd L d (left a) (top a) (right a) (bottom a) st = Ok st' /\
    linked (fun b => (b = a /\ (d < right a - left a \/ d < bottom a - top a)) \/ D b) st'.
Proof.
  intros Ia Ok Lk.
  assert (Ra : region_at r a) by (destruct Ok as [[_ C]|[_ Al]]; [right; auto|left; auto]).
  assert (Dp : 0 < d) by (destruct Ok as [[-> _]|[-> _]]; lia).
  destruct (cutsLoop_l a Ia Ra _ (cuts_good w h r r1 d a Ia Ok) D st Lk) as (st' & E & Lk').
  exists st'. split; [exact E|]. eapply linked_weak; [|exact Lk'].
  intros b [[-> B]|X]; auto. left. split; auto. apply cuts_ne; auto.
Qed.

Lemma foldr_linked {B S} (f : S -> B -> res S) (Inv : (rect -> Prop) -> S -> Prop)
  (weak : forall (D D' : rect -> Prop) s, (forall a, D' a -> D a) -> Inv D s -> Inv D' s)
  (rects : B -> rect -> Prop) l :
  (forall i D s, In i l -> Inv D s -> exists s', f s i = Ok s' /\ Inv (fun a => rects i a \/ D a) s') ->
  forall D s, Inv D s ->
  exists s', foldr_ f l s = Ok s' /\ Inv (fun a => (exists i, In i l /\ rects i a) \/ D a) s'.
Proof.
  induction l as [|i l IH]; intros Hf D s C; cbn [foldr_].
  - exists s. split; auto. eapply weak; [|exact C]. intros a [(i & [] & _)|X]; auto.
  - destruct (Hf i D s (or_introl eq_refl) C) as (s1 & E1 & C1). rewrite E1. cbn [bind].
    destruct (IH (fun j D s Hj => Hf j D s (or_intror Hj)) _ _ C1) as (s2 & E2 & C2).
    exists s2. split; auto. eapply weak; [|exact C2].
    intros a [(j & [-> |Hj] & Ha)|X]; auto. left. eauto.
Qed.

Let cw := Z.quot w r.
Let ch := Z.quot h r.
Lemma cw_eq : cw * r = w.
Proof. unfold cw. rewrite Z.quot_div_nonneg by lia. destruct rw as (q & ->). rewrite Z.div_mul by lia. auto. Qed.
Lemma ch_eq : ch * r = h.
Proof. unfold ch. rewrite Z.quot_div_nonneg by lia. destruct rh as (q & ->). rewrite Z.div_mul by lia. auto. Qed.

Definition cellRect (x1 y1 : Z) : rect := Rect x1 y1 (x1 + r) (y1 + r).

Lemma cell_inside x n q : n = q * r -> 0 <= x <= n - 1 -> (r | x - 0) -> x + r <= n.
Proof. intros -> B (i & E). assert (i < q) by nia. nia. Qed.

Lemma connectCells_l D st : linked D st ->
  exists st', connectCells w h rnd L r st = Ok st' /\ linked D st'.
Proof.
  intros Lk. unfold connectCells.
  destruct (foldr_linked (fun st x1 => foldr_ (fun st y1 => connect w h rnd L 1 x1 y1 (x1 + r) (y1 + r) st)
                              (steps 0 (h - 1) r) st) linked linked_weak (fun _ _ => False)
              (steps 0 (w - 1) r)) with (D := D) (s := st) as (s' & E & Lk'); auto.
  - intros x1 D1 s1 Ix Lk1.
    destruct (foldr_linked (fun st y1 => connect w h rnd L 1 x1 y1 (x1 + r) (y1 + r) st) linked linked_weak
                (fun _ _ => False) (steps 0 (h - 1) r)) with (D := D1) (s := s1) as (s' & E & Lk'); auto.
    + intros y1 D2 s2 Iy Lk2. apply In_steps in Ix, Iy; auto.
      assert (Bx : x1 + r <= w) by (apply (cell_inside x1 w cw); [symmetry; apply cw_eq|lia|apply Ix]).
      assert (By : y1 + r <= h) by (apply (cell_inside y1 h ch); [symmetry; apply ch_eq|lia|apply Iy]).
      destruct (connect_l 1 (cellRect x1 y1) D2 s2) as (s' & E & Lk'); auto.
      * unfold PoonSpec.inside, cellRect; simpl; lia.
      * left. split; auto. destruct Ix as [_ (i & Ei)], Iy as [_ (j & Ej)]. exists i, j.
        unfold cellRect; simpl. lia.
      * exists s'. split; [exact E|]. eapply linked_weak; [|exact Lk']. intros a [[]|X]; auto.
    + exists s'. split; [exact E|]. eapply linked_weak; [|exact Lk']. intros a [[]|X]; auto.
  - exists s'. split; [exact E|]. eapply linked_weak; [|exact Lk']. intros; right; assumption.
Qed.

Lemma connectFine_l D st : linked D st ->
  exists st', connectFine w h rnd L r st = Ok st' /\
    linked (fun a => (inside a /\ in_cell r a) \/ D a) st'.
Proof.
  intros Lk. unfold connectFine. fold cw ch.
  pose proof cw_eq as Ew. pose proof ch_eq as Eh.
  destruct (foldr_linked (fun st i => let '(x, y, x1, y1) := i in
    if (x =? 1) && (y =? 1) then Ok st else connect w h rnd L 1 x1 y1 (x1 + x) (y1 + y) st) linked linked_weak
    (fun i a => let '(x, y, x1, y1) := i in a = Rect x1 y1 (x1 + x) (y1 + y) /\ ~ unitR a)
    (fine r cw ch)) with (D := D) (s := st) as (s' & E & Lk'); auto.
  - intros [[[x y] x1] y1] D1 s1 I Lk1. apply in_fine in I. destruct I as (Ix & Iy & i & j & Bi & Bj & B1 & B2).
    destruct ((x =? 1) && (y =? 1)) eqn:U.
    + apply andb_prop in U. destruct U as [U1 U2]. apply Z.eqb_eq in U1, U2. subst.
      exists s1. split; auto. eapply linked_weak; [|exact Lk1]. intros a [[-> N]|X]; auto.
      exfalso. apply N. unfold unitR; simpl; lia.
    + destruct (connect_l 1 (Rect x1 y1 (x1 + x) (y1 + y)) D1 s1) as (s' & E & Lk'); auto.
      * unfold PoonSpec.inside; simpl. assert ((i + 1) * r <= cw * r) by nia. assert ((j + 1) * r <= ch * r) by nia. nia.
      * left. split; auto. exists i, j. simpl. lia.
      * exists s'. split; [exact E|]. eapply linked_weak; [|exact Lk']. intros a [[-> N]|X]; auto.
        left. split; auto. simpl. apply andb_false_iff in U. destruct U as [U|U]; apply Z.eqb_neq in U; lia.
  - exists s'. split; [exact E|]. destruct Lk' as (G & M1 & M2 & M3 & M4). exists G. split; auto. split; auto. split; auto.
    intros a R Ia [[_ (i & j & C)]|Da] Nu EL; [|eapply M3; eauto].
    apply (M3 a R); auto. left. unfold PoonSpec.inside in Ia.
    exists (right a - left a, bottom a - top a, left a, top a). split.
    + apply in_fine. split; [lia|]. split; [lia|]. exists i, j.
      assert (0 <= i) by nia. assert (0 <= j) by nia. assert (i < cw) by nia. assert (j < ch) by nia. lia.
    + split; auto. destruct a; simpl. f_equal; lia.
Qed.

(** The coarse loops, with Z. *)
Definition linkedZ (z0 : nat) (D : rect -> Prop) (s : (nodes A * nat) * option nat) : Prop :=
  linked D (fst s) /\ (D root -> snd s = Some z0).

Lemma linkedZ_weak z0 (D D' : rect -> Prop) s : (forall a, D' a -> D a) -> linkedZ z0 D s -> linkedZ z0 D' s.
Proof. intros Hd [H1 H2]. split; [eapply linked_weak; eauto|]. auto. Qed.

Lemma connectCoarse_l z0 st : ~ (w = r /\ h = r) -> firstInner (L (code root)) = Ok z0 ->
  linked (fun _ => False) st ->
  exists s, connectCoarse w h rnd L r st = Ok s /\
    linkedZ z0 (fun a => inside a /\ aligned r a /\ (r < right a - left a \/ r < bottom a - top a)) s.
Proof.
  intros Nr Ez Lk. unfold connectCoarse. cbv zeta. fold cw ch.
  pose proof cw_eq as Ew. pose proof ch_eq as Eh.
  assert (Cp : 1 <= cw /\ 1 <= ch) by nia.
  set (rects := fun (i : Z * Z) a => (fst i <> 1 \/ snd i <> 1) /\ inside a /\ aligned r a /\
                   right a - left a = fst i * r /\ bottom a - top a = snd i * r).
  match goal with |- context [foldr_ ?f ?l ?s9] =>
    destruct (foldr_linked f (linkedZ z0) (linkedZ_weak z0) rects l) with (D := fun _ : rect => False) (s := s9)
      as (s' & E & Lk') end.
  - intros [ca cb] D s I Lk1. apply in_prod_iff in I. destruct I as [Ia Ib].
    apply In_steps in Ia, Ib; try lia. destruct Ia as [Ia _], Ib as [Ib _].
    destruct ((ca =? 1) && (cb =? 1)) eqn:U.
    + apply andb_prop in U. destruct U as [U1 U2]. apply Z.eqb_eq in U1, U2. subst.
      destruct Lk1 as [Lk1 Zs]. destruct (connectCells_l D (fst s) Lk1) as (s1 & E1 & Lk2).
      rewrite E1. cbn [bind]. exists (s1, snd s). split; auto.
      eapply (linkedZ_weak z0 D); [|split; [exact Lk2|exact Zs]].
      intros a [[[X|X] _]|X]; auto; simpl in X; congruence.
    + set (yr := fun x1 y1 a => a = Rect x1 y1 (x1 + ca * r) (y1 + cb * r)).
      assert (Big : r < ca * r \/ r < cb * r).
      { apply andb_false_iff in U. destruct U as [U|U]; apply Z.eqb_neq in U; nia. }
      match goal with |- context [foldr_ ?f ?l s] =>
        destruct (foldr_linked f (linkedZ z0) (linkedZ_weak z0)
                    (fun x1 a => exists y1, In y1 (steps 0 (h - cb * r) r) /\ yr x1 y1 a) l)
          with (D := D) (s := s) as (s1 & E1 & Lk2) end.
      * intros x1 D1 s1 Ix Lk2.
        match goal with |- context [foldr_ ?f ?l s1] =>
          destruct (foldr_linked f (linkedZ z0) (linkedZ_weak z0) (yr x1) l)
            with (D := D1) (s := s1) as (s2 & E2 & Lk3) end.
        -- intros y1 D2 s2 Iy Lk3. cbv beta zeta. apply In_steps in Ix, Iy; auto.
           rewrite Z.sub_0_r in Ix, Iy. destruct Ix as [Bx Dx], Iy as [By Dy].
           set (a := Rect x1 y1 (x1 + ca * r) (y1 + cb * r)).
           assert (Iin : inside a) by (unfold PoonSpec.inside, a; simpl; nia).
           assert (Al : aligned r a).
           { unfold aligned, a; simpl. split; auto. split; auto.
             split; (apply Z.divide_add_r; auto; apply Z.divide_factor_r). }
           destruct Lk3 as [Lk3 Zs].
           destruct (connect_l r a D2 (fst s2) Iin (or_intror (conj eq_refl Al)) Lk3) as (s3 & E3 & Lk4).
           assert (Lk5 : linked (fun b => b = a \/ D2 b) s3).
           { eapply linked_weak; [|exact Lk4]. intros b [-> |X]; auto. left. split; auto. unfold a; simpl. lia. }
           unfold yr. fold a. change (encode w h x1 y1 (x1 + ca * r) (y1 + cb * r)) with (code a).
           change (connect w h rnd L r x1 y1 (x1 + ca * r) (y1 + cb * r) (fst s2))
             with (connect w h rnd L r (left a) (top a) (right a) (bottom a) (fst s2)).
           destruct ((ca =? cw) && (cb =? ch)) eqn:Ec.
           ++ apply andb_prop in Ec. destruct Ec as [Ec1 Ec2]. apply Z.eqb_eq in Ec1, Ec2.
              assert (a = root) as Er.
              { unfold a. rewrite Ec1, Ec2, Ew, Eh. assert (x1 = 0) by nia. assert (y1 = 0) by nia. subst. reflexivity. }
              assert (Ez' : firstInner (L (code a)) = Ok z0) by (rewrite Er; exact Ez). rewrite Ez'. cbn [bind]. rewrite E3. cbn [bind].
              exists (s3, Some z0). split; auto. split; auto.
           ++ cbn [bind]. rewrite E3. cbn [bind]. exists (s3, snd s2). split; auto. split; auto.
              cbn [snd]. intros [Er|X]; auto. exfalso. 
              unfold a in Er. injection Er as R1 R2 R3 R4.
              apply andb_false_iff in Ec. destruct Ec as [Ec|Ec]; apply Z.eqb_neq in Ec; nia.
        -- exact Lk2.
        -- exists s2. split; auto.
      * exact Lk1.
      * exists s1. split; auto. eapply linkedZ_weak; [|exact Lk2].
        intros a [(_ & Iin & (Dl & Dt & _ & _) & S1 & S2)|X]; auto. left. cbn [fst snd] in S1, S2.
        unfold PoonSpec.inside in Iin.
        exists (left a). split; [apply In_steps; auto; rewrite Z.sub_0_r; split; [lia|auto]|].
        exists (top a). split; [apply In_steps; auto; rewrite Z.sub_0_r; split; [lia|auto]|].
        unfold yr. destruct a; simpl in *. f_equal; lia.
  - split; auto. intros [].
  - exists s'. split; auto. eapply linkedZ_weak; [|exact Lk'].
    intros a (Iin & Al & Big). left. pose proof Al as ((i & Ei) & (j & Ej) & (i' & Ei') & (j' & Ej')).
    unfold PoonSpec.inside in Iin.
    assert (D1 : forall z, (1 | z)) by apply Z.divide_1_l.
    exists (i' - i, j' - j). split.
    + apply in_prod_iff. split; apply In_steps; try lia; split; auto; nia.
    + unfold rects; cbn [fst snd]. split; [nia|]. split; auto. split; auto. split; nia.
Qed.

Lemma connectRegions_l (H : nodes A) G : good H G -> tableOk w h L H G ->
  (forall u n, nth_error H u = Some n -> ~ isProd n) -> ~ (w = r /\ h = r) ->
  exists H' z, connectRegions w h rnd L r H = Ok (H', Some z) /\
  (forall p, in_scope (netOf H') z p <-> 0 <= p < w * h) /\ complete (netOf H') z /\
  decomposable (netOf H') z /\ acyclic_from (children (netOf H')) z /\ small_weights (A:=A) (netOf H') z.
Proof.
  intros Gd Tb Np Nr.
  destruct (L (code root)) as [RR|] eqn:Ll; [|exfalso; apply (Lall root root_inside root_region); auto].
  destruct (Tb root RR root_inside Ll) as [Ne Rk].
  destruct (rinner RR) as [|z zs] eqn:Er; [congruence|].
  assert (Ez : firstInner (L (code root)) = Ok z) by (rewrite Ll; unfold firstInner; rewrite Er; reflexivity).
  destruct (connectCoarse_l z (H, O) Nr Ez) as (s & E1 & Lk1 & Zs).
  { exists G. split; auto. split; auto. split; [intros a R _ []|].
    intros u n c Eu Pu. exfalso. eapply Np; eauto. }
  destruct (connectFine_l _ (fst s) Lk1) as ([H' k'] & E2 & (G' & M1 & M2 & M3 & M4)). cbn [fst] in *.
  exists H', z. split.
  { unfold connectRegions. destruct (Z.eqb_spec r 0); [lia|]. rewrite E1. cbn [bind]. rewrite E2. cbn [bind fst].
    rewrite Zs; auto. split; [apply root_inside|]. split.
    - unfold aligned; simpl. auto using Z.divide_0_r.
    - simpl. destruct rw as (q & Eq), rh as (q' & Eq').
      destruct (Z.eq_dec q 1), (Z.eq_dec q' 1); try nia. }
  destruct (M2 root RR root_inside Ll) as [_ Rk']. destruct (Rk' z) as (nz & Enz & Gz & _); [rewrite Er; left; auto|].
  destruct (valid_l w h L H' G' M1 M2 (region_at r)) with (z := z) (a := root)
    as (S1 & S2 & S3 & S4 & S5); auto.
  - intros u n c Eu Pu Hc _. eapply M4; eauto.
  - intros a R Ia Ra Nu EL. apply (M3 a R); auto. destruct Ra as [Al|Ce]; [|left; auto].
    destruct (Z.le_gt_cases (right a - left a) r), (Z.le_gt_cases (bottom a - top a) r).
    + left. split; auto. apply (aligned_cell w h r); auto.
    + right. split; auto.
    + right. split; auto.
    + right. split; auto.
  - exists nz. split; auto. rewrite Gz. split; [apply root_region|].
    intros _. exists RR. rewrite Gz. split; auto. rewrite Er. left; auto.
  - split; auto. intros p. rewrite S1. apply pixel_all; auto.
Qed.
End Top.
