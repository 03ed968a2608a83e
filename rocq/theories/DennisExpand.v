(** Proofs about the expansion of the region graph. *)
From Verif Require Import Base Res Arith GoMap DataSpec DataLemmas Dennis DennisSpec DennisScope DennisGraph.

Lemma same_keys_refl s : same_keys s s. Proof. intros k. tauto. Qed.
Lemma same_keys_sym s t : same_keys s t -> same_keys t s.
Proof. intros E k. specialize (E k). tauto. Qed.
Lemma same_keys_trans s t u : same_keys s t -> same_keys t u -> same_keys s u.
Proof. intros E1 E2 k. specialize (E1 k). specialize (E2 k). tauto. Qed.

Lemma nth_snoc {X} (l : list X) x i y : nth_error (l ++ [x]) i = Some y ->
  nth_error l i = Some y \/ (i = length l /\ y = x).
Proof.
  intros E. destruct (Nat.lt_ge_cases i (length l)) as [H|H].
  - rewrite nth_error_app1 in E by auto. auto.
  - rewrite nth_error_app2 in E by auto. destruct (i - length l) as [|d] eqn:D.
    + injection E as <-. right. split; [lia|auto].
    + destruct d; discriminate.
Qed.

Lemma nth_old {X} (l l' : list X) i y : nth_error l i = Some y -> nth_error (l ++ l') i = Some y.
Proof. intros E. rewrite nth_error_app1; auto. apply nth_error_Some. congruence. Qed.

Section E.
Context {A : arith}.
Variable ord : nat -> gmap -> gmap.
Variable ordC : nat -> columns -> columns.
Variable km : nat -> list (list Z) -> list nat.
Hypothesis all : visits_all ord.
Hypothesis allC : forall c m, Permutation (ordC c m) m.
Hypothesis km2 : two_clusters km.
Variable sc : gmap.

Lemma ginv_calls G c : ginv sc G -> ginv sc (mkGraph (regs G) (parts G) (pkeys G) (gid G) c).
Proof. intros [a1 a2 a3 a4 a5 a6]. constructor; simpl; auto. Qed.

Lemma register_l G s : ginv sc G -> NoDup (keys s) -> s <> [] -> (forall x, member s x -> member sc x) ->
  (forall r, In r (regs G) -> ~ same_keys s (rsc r)) ->
  ginv sc (fst (registerRegion G s)).
Proof.
  intros I Ns Es Sub New. destruct (g_root sc G I) as (r0 & E0 & Er0).
  assert (L0 : 0 < length (regs G)) by (apply nth_error_Some; congruence).
  constructor; cbn [regs parts pkeys gid calls registerRegion fst snd].
  - exists r0. split; auto. apply nth_old. auto.
  - intros i r E. apply nth_snoc in E as [E|[-> ->]]; [apply (g_reg sc G I); auto|]. simpl.
    split; auto. split; auto. split; auto. apply (g_gid sc G I).
  - rewrite (g_gid sc G I), app_length. simpl. lia.
  - intros i j r r' Ei Ej Sk. apply nth_snoc in Ei as [Ei|[-> ->]]; apply nth_snoc in Ej as [Ej|[-> ->]]; simpl in *.
    + eapply (g_dist sc G I); eauto.
    + exfalso. apply (New r); [eapply nth_error_In; eauto|]. apply same_keys_sym. auto.
    + exfalso. apply (New r'); [eapply nth_error_In; eauto|]. auto.
    + auto.
  - intros i r p E Hp. apply nth_snoc in E as [E|[-> ->]]; [|destruct Hp].
    destruct (g_part sc G I i r p E Hp) as (a & b & ra & rb & Ep & Ea & Eb & Sp).
    exists a, b, ra, rb. split; auto. split; [apply nth_old; auto|]. split; [apply nth_old; auto|]. auto.
  - intros k Hk. destruct (g_keys sc G I k Hk) as (i & r & p & a & b & ra & rb & Ei & Hp & Ep & Ea & Eb & ->).
    exists i, r, p, a, b, ra, rb. auto 10 using nth_old.
Qed.

(** validateRegion returns the region with the given variables, an old one or a new one. *)
Lemma validate_l G s G' i : ginv sc G -> NoDup (keys s) -> s <> [] -> (forall x, member s x -> member sc x) ->
  validateRegion ord G s = (G', i) ->
  ginv sc G' /\ gext G G' /\ (exists r, nth_error (regs G') i = Some r /\ same_keys s (rsc r)) /\
  ((i < length (regs G) /\ G' = G) \/
   (i = length (regs G) /\ regs G' = regs G ++ [mkReg s [] (gid G)] /\
    forall r, In r (regs G) -> ~ same_keys s (rsc r))) /\
  parts G' = parts G /\ pkeys G' = pkeys G /\ calls G' = calls G.
Proof.
  intros I Ns Es Sub E. unfold validateRegion in E.
  assert (Eq : forall r, In r (regs G) -> equal (ord (calls G)) s (rsc r) = true <-> same_keys s (rsc r)).
  { intros r Hr. apply In_nth_error in Hr as (j & Ej). apply equal_l; auto.
    apply (g_reg sc G I j r Ej). }
  pose proof (findi_l (fun r => equal (ord (calls G)) s (rsc r)) (regs G) 0) as F.
  destruct (findi _ (regs G) 0) as [j|].
  - injection E as <- <-. destruct F as (r & _ & Er & Fr). rewrite Nat.sub_0_r in Er.
    split; auto. split; [apply gext_refl|]. split.
    + exists r. split; auto. apply Eq; auto. eapply nth_error_In; eauto.
    + split; auto. left. split; auto. apply nth_error_Some. congruence.
  - assert (New : forall r, In r (regs G) -> ~ same_keys s (rsc r)).
    { intros r Hr Sk. apply Eq in Sk; auto. rewrite F in Sk; auto. discriminate. }
    pose proof (register_l G s I Ns Es Sub New) as I'. unfold registerRegion in *. simpl in I'.
    injection E as <- <-. split; auto. split.
    + split; simpl; auto. intros j r Ej. exists r. split; [apply nth_old; auto|]. auto using incl_refl.
    + split.
      * exists (mkReg s [] (gid G)). simpl. split; [rewrite nth_error_app2, Nat.sub_diag by auto; auto|apply same_keys_refl].
      * simpl. split; auto.
Qed.

Lemma nonroot G i r j rj s2 : ginv sc G -> nth_error (regs G) i = Some r -> nth_error (regs G) j = Some rj ->
  s2 <> [] -> split_of (rsc r) (rsc rj) s2 -> 0 < j.
Proof.
  intros I Ei Ej E2 [U D]. destruct j; [exfalso|lia].
  destruct (g_root sc G I) as (r0 & E0 & Er0). rewrite Ej in E0. injection E0 as <-.
  destruct s2 as [|e s2]; [congruence|].
  assert (H : member (e :: s2) (fst e)) by (left; auto).
  apply (D (fst e)); auto. rewrite Er0. apply (g_reg sc G I i r Ei). apply U. auto.
Qed.

Lemma split_ext s a b a' b' : same_keys a a' -> same_keys b b' -> split_of s a b -> split_of s a' b'.
Proof.
  intros Ea Eb [U D]. split.
  - intros x. rewrite U, (Ea x), (Eb x). tauto.
  - intros x Hx. rewrite <- (Eb x). apply D. apply Ea. auto.
Qed.

Lemma split_swap s a b : split_of s a b -> split_of s b a.
Proof. intros [U D]. split; [intros x; rewrite U; tauto|]. intros x Hx Hy. apply (D x); auto. Qed.

(** A key already present belongs to this very region. *)
Lemma key_l G n r n1 r1 n2 r2 : ginv sc G -> nth_error (regs G) n = Some r ->
  nth_error (regs G) n1 = Some r1 -> nth_error (regs G) n2 = Some r2 ->
  split_of (rsc r) (rsc r1) (rsc r2) -> In (rid r, rid r1, rid r2) (pkeys G) -> rch r <> [].
Proof.
  intros I En E1 E2 Sp Hk.
  destruct (g_keys sc G I _ Hk) as (i & ri & p & a & b & ra & rb & Ei & Hp & Ep & Ea & Eb & Ek).
  injection Ek as _ K1 K2.
  destruct (g_part sc G I i ri p Ei Hp) as (a' & b' & ra' & rb' & Ep' & Ea' & Eb' & Sp').
  rewrite Ep in Ep'. injection Ep' as <- <-. rewrite Ea in Ea'. injection Ea' as <-. rewrite Eb in Eb'. injection Eb' as <-.
  destruct (g_reg sc G I n1 r1 E1) as (_ & Ne1 & _ & I1), (g_reg sc G I n2 r2 E2) as (_ & Ne2 & _ & I2),
    (g_reg sc G I a ra Ea) as (_ & Nea & _ & Ia), (g_reg sc G I b rb Eb) as (_ & Neb & _ & Ib).
  pose proof (nonroot G n r n1 r1 _ I En E1 Ne2 Sp) as P1.
  pose proof (nonroot G n r n2 r2 _ I En E2 Ne1 (split_swap _ _ _ Sp)) as P2.
  pose proof (nonroot G i ri a ra _ I Ei Ea Neb Sp') as Pa.
  pose proof (nonroot G i ri b rb _ I Ei Eb Nea (split_swap _ _ _ Sp')) as Pb.
  assert (a = n1) by lia. assert (b = n2) by lia. subst a b.
  rewrite E1 in Ea. injection Ea as <-. rewrite E2 in Eb. injection Eb as <-.
  assert (n = i).
  { eapply (g_dist sc G I); eauto. intros x. destruct Sp as [U _], Sp' as [U' _]. rewrite U, U'. tauto. }
  subst i. rewrite En in Ei. injection Ei as <-. intros E. rewrite E in Hp. destruct Hp.
Qed.

Lemma nth_set {X} (l : list X) n x i y : nth_error (set_nth n x l) i = Some y ->
  (i = n /\ y = x) \/ (i <> n /\ nth_error l i = Some y).
Proof.
  intros E. destruct (Nat.eq_dec i n) as [->|Ne].
  - left. split; auto. assert (L : n < length l).
    { rewrite <- (set_nth_length n x l). apply nth_error_Some. congruence. }
    rewrite nth_error_set_nth_same in E by auto. congruence.
  - right. split; auto. rewrite nth_error_set_nth_diff in E by auto. auto.
Qed.

Lemma newPart_l G n r n1 r1 n2 r2 : ginv sc G -> nth_error (regs G) n = Some r ->
  nth_error (regs G) n1 = Some r1 -> nth_error (regs G) n2 = Some r2 ->
  split_of (rsc r) (rsc r1) (rsc r2) ->
  exists G', newPart G n n1 n2 = Ok G' /\ ginv sc G' /\ gext G G' /\
    regs G' = set_nth n (mkReg (rsc r) (rch r ++ [length (parts G)]) (rid r)) (regs G).
Proof.
  intros I En E1 E2 Sp. unfold newPart, partKey, idOf, idx. rewrite En, E1, E2. cbn [bind]. eexists. split; [reflexivity|].
  set (R' := set_nth n _ (regs G)).
  assert (Old : forall i ri, nth_error (regs G) i = Some ri -> exists ri', nth_error R' i = Some ri' /\
    rsc ri' = rsc ri /\ rid ri' = rid ri /\ incl (rch ri) (rch ri')).
  { intros i ri Ei. destruct (Nat.eq_dec i n) as [->|Ne].
    - rewrite En in Ei. injection Ei as <-. unfold R'. rewrite nth_error_set_nth_same by (apply nth_error_Some; congruence).
      eexists. split; [reflexivity|]. simpl. split; auto. split; auto. apply incl_appl, incl_refl.
    - unfold R'. rewrite nth_error_set_nth_diff by auto. exists ri. auto using incl_refl. }
  assert (New : forall i ri, nth_error R' i = Some ri -> exists ri0, nth_error (regs G) i = Some ri0 /\
    rsc ri = rsc ri0 /\ rid ri = rid ri0 /\ forall p, In p (rch ri) -> In p (rch ri0) \/ (i = n /\ p = length (parts G))).
  { intros i ri Ei. apply nth_set in Ei as [[-> ->]|[Ne Ei]].
    - exists r. simpl. split; auto. split; auto. split; auto. intros p Hp. apply in_app_iff in Hp as [Hp|[<-|[]]]; auto.
    - exists ri. auto. }
  assert (Ext : gext G (mkGraph R' (parts G ++ [[n1; n2]]) ((rid r, rid r1, rid r2) :: pkeys G) (gid G) (calls G))).
  { split; simpl; auto. intros p cs Ep. apply nth_old. auto. }
  split; [|split; auto].
  destruct (Old n r En) as (r' & En' & Sr' & Ir' & Cr'), (Old n1 r1 E1) as (r1' & E1' & Sr1 & Ir1 & _),
    (Old n2 r2 E2) as (r2' & E2' & Sr2 & Ir2 & _).
  constructor; cbn [regs parts pkeys gid calls registerRegion fst snd].
  - destruct (g_root sc G I) as (r0 & E0 & Er0). destruct (Old 0 r0 E0) as (r0' & E0' & S0 & _). exists r0'. split; auto. congruence.
  - intros i ri Ei. destruct (New i ri Ei) as (ri0 & Ei0 & -> & -> & _). apply (g_reg sc G I). auto.
  - unfold R'. rewrite set_nth_length. apply (g_gid sc G I).
  - intros i j ri rj Ei Ej. destruct (New i ri Ei) as (ri0 & Ei0 & -> & _), (New j rj Ej) as (rj0 & Ej0 & -> & _).
    eapply (g_dist sc G I); eauto.
  - intros i ri p Ei Hp. destruct (New i ri Ei) as (ri0 & Ei0 & -> & _ & Hc). destruct (Hc p Hp) as [Hp0|[-> ->]].
    + destruct (g_part sc G I i ri0 p Ei0 Hp0) as (a & b & ra & rb & Ep & Ea & Eb & Spp).
      destruct (Old a ra Ea) as (ra' & Ea' & Sa & _), (Old b rb Eb) as (rb' & Eb' & Sb & _).
      exists a, b, ra', rb'. rewrite Sa, Sb. auto using nth_old.
    + rewrite En in Ei0. injection Ei0 as <-. exists n1, n2, r1', r2'. split; [rewrite nth_error_app2, Nat.sub_diag by auto; auto|].
      rewrite Sr1, Sr2. auto.
  - intros k [<-|Hk].
    + exists n, r', (length (parts G)), n1, n2, r1', r2'. split; auto. split.
      * unfold R' in En'. rewrite nth_error_set_nth_same in En' by (apply nth_error_Some; congruence).
        injection En' as <-. simpl. apply in_app_iff. right. left. auto.
      * split; [rewrite nth_error_app2, Nat.sub_diag by auto; auto|]. split; auto. split; auto. congruence.
    + destruct (g_keys sc G I k Hk) as (i & ri & p & a & b & ra & rb & Ei & Hp & Ep & Ea & Eb & ->).
      destruct (Old i ri Ei) as (ri' & Ei' & _ & Ii & Ci), (Old a ra Ea) as (ra' & Ea' & _ & Ia & _), (Old b rb Eb) as (rb' & Eb' & _ & Ib & _).
      rewrite <- Ii, <- Ia, <- Ib. exists i, ri', p, a, b, ra', rb'. auto 10 using nth_old.
Qed.

Lemma contains_l G o s : ginv sc G -> (forall m, Permutation (o m) m) -> NoDup (keys s) ->
  contains o (allScopes G) s = true <-> exists r, In r (regs G) /\ same_keys s (rsc r).
Proof.
  intros I ao Ns. unfold contains, allScopes. rewrite existsb_exists. split.
  - intros (x & Hx & E). apply in_map_iff in Hx as (r & <- & Hr). exists r. split; auto.
    pose proof (In_nth_error _ _ Hr) as (j & Ej). apply (equal_l o ao) in E; auto. apply (g_reg sc G I j r Ej).
  - intros (r & Hr & E). exists (rsc r). split; [apply in_map; auto|]. pose proof (In_nth_error _ _ Hr) as (j & Ej).
    apply (equal_l o ao); auto. apply (g_reg sc G I j r Ej).
Qed.

(** The two parts chosen: those of 2-means, or an existing region and the rest. *)
Lemma choose_l G o r s1 s2 t : ginv sc G -> (forall m, Permutation (o m) m) -> In r (regs G) ->
  NoDup (keys s1) -> NoDup (keys s2) -> s1 <> [] -> s2 <> [] -> split_of (rsc r) s1 s2 ->
  exists u1 u2,
    match find (fun s => subsetOf o s (rsc r) && negb (equal o s (rsc r)) && similarTo (A:=A) o s s1 s2 t) (allScopes G) with
    | Some s => (s, minus o (rsc r) s)
    | None => (s1, s2)
    end = (u1, u2) /\
    NoDup (keys u1) /\ NoDup (keys u2) /\ u1 <> [] /\ u2 <> [] /\ split_of (rsc r) u1 u2.
Proof.
  intros I ao Hr N1 N2 E1 E2 Sp.
  destruct (find _ _) as [s|] eqn:F; [|exists s1, s2; auto 10].
  apply find_some in F as [Hs F]. apply andb_prop in F as [F Fs]. apply andb_prop in F as [Fu Fe].
  apply Bool.negb_true_iff in Fe.
  apply in_map_iff in Hs as (rs & <- & Hrs).
  pose proof (In_nth_error _ _ Hr) as (j & Ej). pose proof (In_nth_error _ _ Hrs) as (j' & Ej').
  destruct (g_reg sc G I j r Ej) as (Nr & Ner & _), (g_reg sc G I j' rs Ej') as (Ns & Nes & _).
  pose proof (proj1 (subset_l o ao _ _) Fu) as Fu'. clear Fu. rename Fu' into Fu. assert (Fe' : ~ same_keys (rsc rs) (rsc r)) by (rewrite <- (equal_l o ao) by auto; congruence).
  destruct (minus_l o ao (rsc r) (rsc rs) Nr) as (Nm & M1 & M2).
  assert (Mem : forall x, member (minus o (rsc r) (rsc rs)) x <-> member (rsc r) x /\ ~ member (rsc rs) x).
  { intros x. rewrite !(member_get _ x). destruct (in_dec Z.eq_dec x (keys (rsc rs))) as [H|H].
    - rewrite (M1 x H). split; [congruence|]. intros [_ H']. exfalso. apply H'. apply member_get. auto.
    - rewrite (M2 x H). split; [|tauto]. intros H'. split; auto. rewrite <- (member_get (rsc rs)). auto. }
  exists (rsc rs), (minus o (rsc r) (rsc rs)). split; auto. split; auto. split; auto. split; auto. split.
  - intros E. apply Fe'. intros x. split; [auto|]. intros Hx.
    destruct (in_dec Z.eq_dec x (keys (rsc rs))) as [H|H]; auto.
    assert (M : member (minus o (rsc r) (rsc rs)) x) by (apply Mem; auto). rewrite E in M. destruct M.
  - split.
    + intros x. rewrite Mem. destruct (in_dec Z.eq_dec x (keys (rsc rs))) as [H|H]; [|tauto]. specialize (Fu x H). tauto.
    + intros x Hx Hy. apply Mem in Hy. tauto.
Qed.

(** Expanding a region leaves no region without partition except those that were so before. *)
Lemma expand_l C t : NoDup (map fst C) -> (forall x, member sc x -> In x (map fst C)) ->
  forall fuel G n r, ginv sc G -> nth_error (regs G) n = Some r -> 2 <= length (rsc r) -> length (rsc r) <= fuel ->
  (forall i, unexpanded G i -> i = n \/
     forall ri, nth_error (regs G) i = Some ri -> forall x, member (rsc ri) x -> ~ member (rsc r) x) ->
  exists G', expandRegionGraph (A:=A) ord ordC km fuel G n C t = Ok G' /\ ginv sc G' /\ gext G G' /\
    forall i, unexpanded G' i -> unexpanded G i /\ i <> n.
Proof.
  intros NC Cov. induction fuel as [|fuel IH]; intros G n r I En L2 Lf Pre; [lia|].
  cbn [expandRegionGraph]. unfold idx at 1. rewrite En. cbn [bind].
  destruct (g_reg sc G I n r En) as (Nr & Ner & Subr & _).
  destruct (partitionScope_l ordC km allC km2 (calls G) (rsc r) C Nr L2 NC) as (p1 & p2 & Ep & Np1 & Np2 & Ep1 & Ep2 & Spp); [auto|].
  rewrite Ep. cbn [bind fst snd]. clear Ep. cbn [calls].
  set (c := S (calls G)).
  set (G0 := mkGraph (regs G) (parts G) (pkeys G) (gid G) c).
  pose proof (ginv_calls G c I) as I0. fold G0 in I0.
  destruct (choose_l G0 (ord c) r p1 p2 t I0 (all c) (nth_error_In _ _ En) Np1 Np2 Ep1 Ep2 Spp)
    as (s1 & s2 & Ec & N1 & N2 & E1 & E2 & Sp). rewrite Ec. clear Ec p1 p2 Np1 Np2 Ep1 Ep2 Spp.
  destruct (split_sizes _ _ _ Nr N1 N2 E1 E2 Sp) as [L1 L2'].
  assert (Sub1 : forall x, member s1 x -> member sc x) by (intros x Hx; apply Subr, Sp; auto).
  assert (Sub2 : forall x, member s2 x -> member sc x) by (intros x Hx; apply Subr, Sp; auto).
  destruct (validateRegion ord G0 s1) as [G1 n1] eqn:V1.
  destruct (validate_l G0 s1 G1 n1 I0 N1 E1 Sub1 V1) as (I1 & X1 & (r1 & En1 & K1) & C1 & Pa1 & Pk1 & Ca1).
  destruct (validateRegion ord G1 s2) as [G2 n2] eqn:V2.
  destruct (validate_l G1 s2 G2 n2 I1 N2 E2 Sub2 V2) as (I2 & X2 & (r2 & En2 & K2) & C2 & Pa2 & Pk2 & Ca2).
  clear V1 V2.
  destruct (proj1 X1 n r En) as (rn1 & En' & Sn1 & In1 & Cn1).
  destruct (proj1 X2 n rn1 En') as (rn2 & En2' & Sn2 & In2 & Cn2).
  destruct (proj1 X2 n1 r1 En1) as (r1' & En1' & S1' & I1' & C1').
  assert (Spr : split_of (rsc rn2) (rsc r1') (rsc r2)).
  { rewrite Sn2, Sn1, S1'. eapply split_ext; eauto. }
  (* regions without partition in G2 *)
  assert (U2 : forall i, unexpanded G2 i -> (i < length (regs G) /\ unexpanded G i) \/
     (i = n1 /\ n1 = length (regs G) /\ forall r, In r (regs G) -> ~ same_keys s1 (rsc r)) \/
     (i = n2 /\ length (regs G) <= n2 /\ forall r, In r (regs G) -> ~ same_keys s2 (rsc r))).
  { intros i (ri & Ei & Li & Ci).
    assert (Ei1 : nth_error (regs G1) i = Some ri \/ (i = n2 /\ n2 = length (regs G1) /\ forall r, In r (regs G1) -> ~ same_keys s2 (rsc r))).
    { destruct C2 as [[_ E2g]|(En2g & Er2 & New)]; [rewrite E2g in Ei; auto|].
      rewrite Er2 in Ei. apply nth_snoc in Ei as [Ei|[-> _]]; [auto|]. right. rewrite En2g. auto. }
    destruct Ei1 as [Ei1|(-> & E2g & New)].
    - assert (Ei0 : nth_error (regs G) i = Some ri \/ (i = n1 /\ n1 = length (regs G) /\ forall r, In r (regs G) -> ~ same_keys s1 (rsc r))).
      { destruct C1 as [[_ E1g]|(En1g & Er1 & New)]; [rewrite E1g in Ei1; auto|].
        rewrite Er1 in Ei1. apply nth_snoc in Ei1 as [Ei1|[-> _]]; [auto|]. right. rewrite En1g. auto. }
      destruct Ei0 as [Ei0|Ei0]; [|right; left; auto]. left. split; [apply nth_error_Some; congruence|]. exists ri. auto.
    - right; right. split; auto. assert (Lg : length (regs G) <= length (regs G1)).
      { destruct C1 as [[_ E1g]|(_ & Er1 & _)]; [rewrite E1g; auto|]. rewrite Er1, app_length. simpl. lia. }
      split; [lia|]. intros q Hq Sk. apply In_nth_error in Hq as (j & Ej). destruct (proj1 X1 j q Ej) as (q' & Ej' & Sq & _).
      apply (New q'); [eapply nth_error_In; eauto|]. rewrite Sq. auto. }
  unfold partKey, idOf, idx. rewrite En2', En1', En2. cbn [bind].
  (* the partition *)
  assert (P3 : exists G3, (if existsb (eqTriple (rid rn2, rid r1', rid r2)) (pkeys G2) then Ok G2 else newPart G2 n n1 n2) = Ok G3 /\
    ginv sc G3 /\ gext G2 G3 /\ (forall i, unexpanded G3 i -> unexpanded G2 i /\ i <> n) /\ length (regs G3) = length (regs G2)).
  { destruct (existsb _ _) eqn:Ex.
    - exists G2. split; auto. split; auto. split; [apply gext_refl|]. split; auto. intros i Un. split; auto. intros ->.
      apply existsb_exists in Ex as (k & Hk & Ek). destruct k as [[x y] z]. simpl in Ek.
      apply andb_prop in Ek as [Ek Ez]. apply andb_prop in Ek as [Ex Ey].
      apply Z.eqb_eq in Ex, Ey, Ez. subst.
      pose proof (key_l G2 n rn2 n1 r1' n2 r2 I2 En2' En1' En2 Spr Hk) as Ne.
      destruct Un as (q & Eq & _ & Cq). rewrite En2' in Eq. injection Eq as <-. auto.
    - destruct (newPart_l G2 n rn2 n1 r1' n2 r2 I2 En2' En1' En2 Spr) as (G3 & E3 & I3 & X3 & R3).
      exists G3. split; auto. split; auto. split; auto. split; [|rewrite R3; apply set_nth_length].
      intros i (q & Eq & Lq & Cq). rewrite R3 in Eq. apply nth_set in Eq as [[-> ->]|[Ne Eq]].
      + simpl in Cq. destruct (rch rn2); discriminate.
      + split; auto. exists q. auto. }
  destruct P3 as (G3 & -> & I3 & X3 & U3 & L3). cbn [bind].
  assert (Dis12 : forall x, member (rsc r1) x -> ~ member (rsc r2) x).
  { intros x Hx Hy. destruct Sp as [_ D]. apply (D x); [apply K1|apply K2]; auto. }
  destruct (proj1 X3 n1 r1' En1') as (r1'' & En1'' & S1'' & _).
  assert (Un3 : forall i, unexpanded G3 i -> (unexpanded G i /\ i <> n /\
      (forall ri, nth_error (regs G) i = Some ri -> forall x, member (rsc ri) x -> ~ member (rsc r) x)) \/
     (i = n1 /\ contains (ord c) (allScopes G0) s1 = false) \/
     (i = n2 /\ contains (ord c) (allScopes G0) s2 = false)).
  { intros i Un. destruct (U3 i Un) as [Un2 Ne]. destruct (U2 i Un2) as [[_ H]|[(-> & _ & H)|(-> & _ & H)]].
    - left. split; auto. split; auto. destruct (Pre i H) as [->|Dj]; [congruence|auto].
    - right; left. split; auto. destruct (contains _ _ s1) eqn:Ec; auto.
      apply (contains_l G0 _ _ I0 (all c) N1) in Ec as (q & Hq & Sk). exfalso. apply (H q); auto.
    - right; right. split; auto. destruct (contains _ _ s2) eqn:Ec; auto.
      apply (contains_l G0 _ _ I0 (all c) N2) in Ec as (q & Hq & Sk). exfalso. apply (H q); auto. }
  assert (Len1 : length s1 = length (rsc r1'')).
  { rewrite S1'', S1'. apply same_keys_length; auto. apply (g_reg sc G1 I1 n1 r1 En1). }
  destruct (proj1 X3 n2 r2 En2) as (r2'' & En2'' & S2'' & _).
  assert (Len2 : length s2 = length (rsc r2'')).
  { rewrite S2''. apply same_keys_length; auto. apply (g_reg sc G2 I2 n2 r2 En2). }
  (* scopes of old regions in later graphs *)
  assert (X03 : gext G G3).
  { eapply gext_trans; [|exact X3]. eapply gext_trans; [|exact X2]. exact X1. }
  assert (Old : forall i ri G4, gext G3 G4 -> unexpanded G i -> nth_error (regs G4) i = Some ri ->
     (forall q, nth_error (regs G) i = Some q -> forall x, member (rsc q) x -> ~ member (rsc r) x) ->
     forall x, member (rsc ri) x -> ~ member (rsc r) x).
  { intros i ri G4 X4 (q & Eq & _) Ei Dj. destruct (proj1 (gext_trans _ _ _ X03 X4) i q Eq) as (q' & Eq' & Sq & _).
    rewrite Ei in Eq'. injection Eq' as <-. rewrite Sq. apply (Dj q Eq). }
  (* the first part *)
  assert (P4 : exists G4, (if negb (contains (ord c) (allScopes G0) s1) && (1 <? len s1)%Z
      then expandRegionGraph (A:=A) ord ordC km fuel G3 n1 C t else Ok G3) = Ok G4 /\
    ginv sc G4 /\ gext G3 G4 /\ forall i, unexpanded G4 i -> unexpanded G3 i /\ i <> n1).
  { destruct (contains (ord c) (allScopes G0) s1) eqn:Ec; simpl negb; cbn [andb].
    - exists G3. split; auto. split; auto. split; [apply gext_refl|]. intros i Un. split; auto. intros ->.
      destruct (Un3 n1 Un) as [(Uo & Ne & Dj)|[(_ & F)|(-> & F)]]; [|congruence|].
      + pose proof Uo as (q & Eq & _).
        assert (Hq : nth_error (regs G3) n1 = Some r1'') by auto.
        destruct s1 as [|e s1']; [congruence|].
        assert (M : member (e :: s1') (fst e)) by (left; auto).
        apply (Old n1 r1'' G3 (gext_refl _) Uo Hq Dj (fst e)); [rewrite S1'', S1'; apply K1; auto|apply Sp; auto].
      + destruct s1 as [|e s1']; [congruence|]. assert (M : member (e :: s1') (fst e)) by (left; auto).
        apply (Dis12 (fst e)); [apply K1; auto|].
        rewrite En2 in En1'. injection En1' as <-. rewrite S1'. apply K1; auto.
    - destruct (Z.ltb_spec 1 (len s1)) as [L|L].
      + destruct (IH G3 n1 r1'' I3 En1'') as (G4 & E4 & I4 & X4 & U4).
        * unfold len in L. lia.
        * lia.
        * intros i Un. destruct (Un3 i Un) as [(Uo & Ne & Dj)|[(-> & _)|(-> & _)]]; [right|left; auto|right].
          -- intros ri Ei x Hx Hy. apply (Old i ri G3 (gext_refl _) Uo Ei Dj x Hx). apply Sp. left. apply K1. rewrite S1'', S1' in Hy. auto.
          -- intros ri Ei x Hx Hy. rewrite En2'' in Ei. injection Ei as <-. rewrite S2'' in Hx. rewrite S1'', S1' in Hy. apply (Dis12 x); auto.
        * exists G4. auto.
      + exists G3. split; auto. split; auto. split; [apply gext_refl|]. intros i Un. split; auto. intros ->.
        destruct Un as (q & Eq & Lq & _). rewrite En1'' in Eq. injection Eq as <-. unfold len in L. lia. }
  destruct P4 as (G4 & -> & I4 & X4 & U4). cbn [bind].
  destruct (proj1 X4 n2 r2'' En2'') as (r2''' & En2''' & S2''' & _).
  assert (Fin : forall G5, ginv sc G5 -> gext G4 G5 -> (forall i, unexpanded G5 i -> unexpanded G4 i /\ i <> n2) ->
     gext G G5 /\ forall i, unexpanded G5 i -> unexpanded G i /\ i <> n).
  { intros G5 I5 X5 U5. split; [eapply gext_trans; [exact X03|]; eapply gext_trans; eauto|].
    intros i Un. destruct (U5 i Un) as [Un4 Ne2]. destruct (U4 i Un4) as [Un3' Ne1].
    destruct (Un3 i Un3') as [(Uo & Ne & _)|[(-> & _)|(-> & _)]]; [auto|congruence|congruence]. }
  destruct (contains (ord c) (allScopes G0) s2) eqn:Ec; simpl negb; cbn [andb].
  - exists G4. split; auto. split; auto. apply Fin; auto; [apply gext_refl|]. intros i Un. split; auto. intros ->.
    destruct (U4 n2 Un) as [Un3' Ne1]. destruct (Un3 n2 Un3') as [(Uo & Ne & Dj)|[(E & _)|(_ & F)]]; [|congruence|congruence].
    destruct s2 as [|e s2']; [congruence|]. assert (M : member (e :: s2') (fst e)) by (left; auto).
    apply (Old n2 r2'' G3 (gext_refl _) Uo En2'' Dj (fst e)); [rewrite S2''; apply K2; auto|apply Sp; auto].
  - destruct (Z.ltb_spec 1 (len s2)) as [L|L].
    + destruct (IH G4 n2 r2''' I4 En2''') as (G5 & E5 & I5 & X5 & U5).
      * rewrite S2'''. unfold len in L. lia.
      * rewrite S2'''. lia.
      * intros i Un. destruct (U4 i Un) as [Un3' Ne1]. destruct (Un3 i Un3') as [(Uo & Ne & Dj)|[(-> & _)|(-> & _)]]; [right|congruence|left; auto].
        intros ri Ei x Hx Hy. apply (Old i ri G4 X4 Uo Ei Dj x Hx). apply Sp. right. apply K2. rewrite S2''', S2'' in Hy. auto.
      * exists G5. split; auto.
    + exists G4. split; auto. split; auto. apply Fin; auto; [apply gext_refl|]. intros i Un. split; auto. intros ->.
      destruct Un as (q & Eq & Lq & _). rewrite En2''' in Eq. injection Eq as <-. rewrite S2''' in Lq. unfold len in L. lia.
Qed.
End E.
