(** Proofs about Structure of the Poon-Domingos learner: what every run that returns has built. *)
From Verif Require Import Base Res Arith LogMath GraphSpec Storer Spn Leaves Build Poon PoonSpec PoonCodes PoonLemmas
  PoonLink PoonConn PoonLearn ProbSpec ScopedLemmas.
Local Open Scope Z_scope.

Ltac bk H := apply bind_ok in H; let x := fresh "x" in let E := fresh "E" in destruct H as (x & E & H).

Lemma orPanic_ok {T} (o : option T) x : orPanic o = Ok x -> o = Some x.
Proof. destruct o; simpl; congruence. Qed.
Lemma idx_ok {T} (l : list T) i x : idx l i = Ok x -> nth_error l i = Some x.
Proof. unfold idx. destruct (nth_error l i); congruence. Qed.
Lemma idxZ_ok {T} (l : list T) i x : idxZ l i = Ok x -> 0 <= i /\ nth_error l (Z.to_nat i) = Some x.
Proof. unfold idxZ. destruct (Z.ltb_spec i 0); [discriminate|]. intros H0. apply idx_ok in H0. auto. Qed.
Lemma decEqb_eq d e : decEqb d e = true <-> d = e.
Proof.
  destruct d, e. unfold decEqb. simpl. rewrite !andb_true_iff, !Z.eqb_eq. split.
  - intros [[[-> ->] ->] ->]. auto.
  - intros E. injection E as -> -> -> ->. auto.
Qed.
Lemma foldr_inv {T U} (P : U -> Prop) (f : U -> T -> res U) l :
  (forall s x s', In x l -> P s -> f s x = Ok s' -> P s') -> forall s s', P s -> foldr_ f l s = Ok s' -> P s'.
Proof.
  induction l as [|x l IH]; intros Hf s s' Ps E; simpl in E.
  - congruence.
  - bk E. apply (IH ltac:(intros; eapply Hf; eauto; right; auto) x0); auto. eapply Hf; eauto. left; auto.
Qed.
Lemma foldi_from_inv {T U} (P : U -> Prop) (f : nat -> U -> T -> res U) l : forall i0,
  (forall i s x s', nth_error l i = Some x -> P s -> f (i0 + i)%nat s x = Ok s' -> P s') -> forall s s', P s -> foldi_from i0 f l s = Ok s' -> P s'.
Proof.
  induction l as [|x l IH]; intros i0 Hf s s' Ps E; simpl in E.
  - congruence.
  - bk E. apply (IH (i0 + 1)%nat) with (s := x0); auto.
    + intros i t y t' Hy Pt Et. apply (Hf (S i) t y t'); auto. replace (i0 + S i)%nat with (i0 + 1 + i)%nat by lia. auto.
    + apply (Hf 0%nat s x x0); auto. replace (i0 + 0)%nat with i0 by lia. auto.
Qed.
Lemma foldi_inv {T U} (P : U -> Prop) (f : nat -> U -> T -> res U) l :
  (forall i s x s', nth_error l i = Some x -> P s -> f i s x = Ok s' -> P s') -> forall s s', P s -> foldi f l s = Ok s' -> P s'.
Proof. intros Hf. apply foldi_from_inv. exact Hf. Qed.
Lemma setAt_ok {T} (l : list T) i x l' : setAt l i x = Ok l' -> l' = set_nth i x l /\ (i < length l)%nat.
Proof. unfold setAt. destruct (Nat.ltb_spec i (length l)); [|discriminate]. intros E. injection E as <-. auto. Qed.
Lemma in_set_nth {T} (l : list T) i x y : In y (set_nth i x l) -> y = x \/ In y l.
Proof.
  revert i. induction l as [|a l IH]; intros [|i]; simpl; auto.
  - intros [->|H]; auto.
  - intros [->|H]; auto. destruct (IH _ H); auto.
Qed.

(** A cut determines what was cut. *)
Lemma cut_unique w h a a' b c : inside w h a -> inside w h a' -> cut a b c -> cut a' b c -> a = a'.
Proof.
  intros Ia Ia' C C'. unfold inside in *. destruct a as [l t r o], a' as [l' t' r' o']. simpl in *.
  destruct C as [(x & X & C)|(x & X & C)]; destruct C' as [(x' & X' & C')|(x' & X' & C')]; simpl in *;
  destruct C as [[E1 E2]|[E1 E2]]; destruct C' as [[E3 E4]|[E3 E4]]; subst; injection E3; injection E4; intros; subst; try lia; reflexivity.
Qed.

Section Run.
Context {A : arith}.
Local Notation F := (F A).
Variables w h : Z.
Variable rnd : nat -> nat -> nat.
Hypothesis w1 : 0 < w.
Hypothesis h1 : 0 < h.
Hypothesis fit : codes_fit w h.
Variable L : Poon.table.
Variable r : Z.
Hypothesis r1 : 0 < r.
Hypothesis Lstep : forall a R, inside w h a -> L (code w h a) = Some R -> okStep r (rstep R) a.

Local Notation inside := (inside w h).
Local Notation code := (code w h).
Local Notation good := (good w h L).
Local Notation lstate := (lstate A).

Lemma code_inj' a b : inside a -> inside b -> code a = code b -> a = b.
Proof. apply code_inj; auto. Qed.

(** A decomposition of rectangle [a]. *)
Definition decOf (a : rect) (d : dec) : Prop :=
  exists b c, cut a b c /\ region_at r b /\ region_at r c /\ dp d = code b /\ dq d = code c.

Lemma decOf_unique a a' d : inside a -> inside a' -> decOf a d -> decOf a' d -> a = a'.
Proof.
  intros Ia Ia' (b & c & C & _ & _ & Eb & Ec) (b' & c' & C' & _ & _ & Eb' & Ec').
  destruct (cut_inside w h a b c Ia C) as [Ib Ic]. destruct (cut_inside w h a' b' c' Ia' C') as [Ib' Ic'].
  assert (b = b') by (apply code_inj'; auto; congruence). assert (c = c') by (apply code_inj'; auto; congruence).
  subst. eapply cut_unique; eauto.
Qed.

(** Nodes are kept, with their children. *)
Definition grows (H H' : nodes A) : Prop :=
  forall u n, nth_error H u = Some n -> exists n', nth_error H' u = Some n' /\ incl (nch n) (nch n').
Lemma grows_refl H : grows H H.
Proof. intros u n E. exists n. split; auto. apply incl_refl. Qed.
Lemma grows_trans H1 H2 H3 : grows H1 H2 -> grows H2 H3 -> grows H1 H3.
Proof. intros G1 G2 u n E. destruct (G1 u n E) as (n2 & E2 & I2). destruct (G2 u n2 E2) as (n3 & E3 & I3). exists n3. split; auto. eapply incl_tran; eauto. Qed.
Lemma grows_filled H H' R : grows H H' -> filled H R -> filled H' R.
Proof.
  intros G Fl u Hu. destruct (Fl u Hu) as (n & En & Ne). destruct (G u n En) as (n' & En' & I). exists n'. split; auto.
  intros Nl. rewrite Nl in I. destruct (nch n); [congruence|]. apply (I n0). left; auto.
Qed.

Definition ones (H : nodes A) : Prop := forall u n ws, nth_error H u = Some n -> nk n = KSum ws -> Forall (eq (fz 1)) ws.

Definition InvC (H : nodes A) (E : list dec) (P : nat -> option dec) (B : Z -> list (option dec)) : Prop :=
  exists G, good H G /\ tableOk w h L H G /\ ones H /\
  (forall u n, nth_error H u = Some n -> isProd n ->
     (forall c, In c (nch n) -> region_at r (G c)) /\ exists d, P u = Some d /\ decOf (G u) d) /\
  (forall a d, inside a -> In (Some d) (B (code a)) -> decOf a d) /\
  (forall d, In d E -> exists a R u n, inside a /\ decOf a d /\ L (code a) = Some R /\ In u (rinner R) /\
     nth_error H u = Some n /\ nch n <> []).
Definition Inv (s : lstate) : Prop := InvC (lH s) (lE s) (lP s) (lB s).

(** The same network and the same products. *)
Definition same (s s' : lstate) : Prop := lH s' = lH s /\ lE s' = lE s /\ lP s' = lP s /\ lQ s' = lQ s /\ lM s' = lM s.
Lemma same_refl s : same s s.
Proof. unfold same; auto. Qed.
Lemma same_trans s1 s2 s3 : same s1 s2 -> same s2 s3 -> same s1 s3.
Proof. unfold same. intros (a & b & c & d & e) (a' & b' & c' & d' & e'). repeat split; congruence. Qed.

Lemma pick_ok {T} (l : list T) (s : lstate) x s' : pick rnd l s = Ok (x, s') -> In x l /\ same s s' /\ lB s' = lB s /\ lst s' = lst s.
Proof.
  unfold pick. destruct l; [discriminate|]. intros E. bk E. injection E as <- <-. apply idx_ok in E0. split; [eapply nth_error_In; eauto|].
  split; [repeat split|split; reflexivity].
Qed.
Lemma storeInf_ok (s : lstate) u v s' : storeInf s u v = Ok s' -> same s s' /\ lB s' = lB s.
Proof. unfold storeInf. intros E. bk E. injection E as <-. split; [repeat split|reflexivity]. Qed.

Lemma tryCut_ok (s : lstate) Dm pq Dm' : tryCut L s Dm pq = Ok Dm' ->
  forall d, In d (fst Dm') -> In d (fst Dm) \/ (dp d = fst pq /\ dq d = snd pq).
Proof.
  unfold tryCut. intros E d Hd. bk E. bk E. bk E. bk E. cbv zeta in E.
  match type of E with context [if feq (?a) _ || feq (?b) _ then fninf else _] =>
    generalize dependent (if feq a fninf || feq b fninf then fninf else fadd a b) end.
  intros m E. destruct Dm as [D mx]. cbn [fst snd] in *.
  assert (K : exists D' mx', (let '(D0, mx0) := match D with [] => ([], m) | _ :: _ => if fgt m mx then ([], m) else (D, mx) end in
     Ok (if feq m mx0 then D0 ++ [mkDec (fst pq) (snd pq) (lM s (fst pq)) (lM s (snd pq))] else D0, mx0)) = Ok Dm' /\
     match D with [] => ([], m) | _ :: _ => if fgt m mx then ([], m) else (D, mx) end = (D', mx') /\ incl D' D).
  { destruct D as [|d0 D]; [exists [], m; split; [exact E|]; split; auto; intros z []|].
    destruct (fgt m mx); [exists [], m; split; [exact E|]; split; auto; intros z []|]. exists (d0 :: D), mx. split; [exact E|]. split; auto. apply incl_refl. }
  destruct K as (D' & mx' & K & Ed & In'). rewrite Ed in K. injection K as <-. cbn [fst] in Hd.
  destruct (feq m mx').
  - apply in_app_or in Hd. destruct Hd as [Hd|[<-|[]]]; [left; auto|]. right. auto.
  - left; auto.
Qed.

Lemma mapCuts_good d a : inside a -> okStep r d a -> goodCuts w h r a (mapCuts w h d (left a) (top a) (right a) (bottom a)).
Proof.
  intros Ia Ok pq I. unfold mapCuts in I. apply in_app_or in I.
  destruct I as [I|I]; apply in_map_iff in I; destruct I as (x & <- & I).
  - destruct (cutx_ok w h r r1 d a x Ia Ok I) as (B & R1 & R2).
    exists (Rect x (top a) (right a) (bottom a)), (Rect (left a) (top a) x (bottom a)).
    split; [reflexivity|]. split; auto. left. exists x. auto.
  - destruct (cuty_ok w h r r1 d a x Ia Ok I) as (B & R1 & R2).
    exists (Rect (left a) x (right a) (bottom a)), (Rect (left a) (top a) (right a) x).
    split; [reflexivity|]. split; auto. right. exists x. auto.
Qed.

Lemma tryCuts_ok (s : lstate) a R Dm : inside a -> L (code a) = Some R ->
  foldr_ (tryCut L s) (mapCuts w h (rstep R) (left a) (top a) (right a) (bottom a)) ([], fninf) = Ok Dm ->
  forall d, In d (fst Dm) -> decOf a d.
Proof.
  intros Ia La E. pose proof (mapCuts_good (rstep R) a Ia (Lstep a R Ia La)) as Gc.
  revert E. apply (foldr_inv (fun Dm => forall d, In d (fst Dm) -> decOf a d)).
  - intros Dm0 pq Dm1 Ipq IH E d Hd. destruct (tryCut_ok s Dm0 pq Dm1 E d Hd) as [Hd'|[E1 E2]]; auto.
    destruct (Gc pq Ipq) as (b & c & -> & C & R1 & R2). exists b, c. auto.
  - intros d [].
Qed.

Definition someOf (a : rect) (x : option dec) : Prop := match x with Some d => decOf a d | None => True end.

Lemma bestChild_in (s : lstate) v bm c x : In x (fst (bestChild s v bm c)) -> In x (fst bm) \/ x = lP s c.
Proof.
  unfold bestChild. generalize (logSumExpPair v (inf s c)). intros y. destruct bm as [b m]. cbn [fst snd].
  assert (K : forall b' (m' : F), incl b' b -> In x (fst (if feq m' y then b' ++ [lP s c] else b', m')) -> In x b \/ x = lP s c).
  { intros b' m' Inc. destruct (feq m' y); cbn [fst]; intros H; auto. apply in_app_or in H. destruct H as [H|[<-|[]]]; auto. }
  destruct b as [|b0 b]; [apply K; intros z []|]. destruct (fgt y m); [apply K; intros z []|]. apply K. apply incl_refl.
Qed.

Lemma bestChildren_in (s : lstate) v cs : forall bm x, In x (fst (fold_left (bestChild s v) cs bm)) -> In x (fst bm) \/ exists c, In c cs /\ x = lP s c.
Proof.
  induction cs as [|c cs IH]; intros bm x; simpl; auto. intros H. destruct (IH _ _ H) as [H1|(c' & Hc & ->)].
  - destruct (bestChild_in _ _ _ _ _ H1) as [H2| ->]; auto. right. exists c. auto.
  - right. exists c'. auto.
Qed.

Lemma usedSum_ok a k I cD mp i (s : lstate) best opts ms u s' best' opts' ms' :
  k = code a -> Inv s -> decOf a cD -> Forall (someOf a) best ->
  (forall n, nth_error (lH s) u = Some n -> isSum n) -> (exists n, nth_error (lH s) u = Some n) ->
  (forall G, good (lH s) G -> tableOk w h L (lH s) G -> G u = a) ->
  usedSum rnd k I cD mp i (s, best, opts, ms) u = Ok (s', best', opts', ms') ->
  Forall (someOf a) best' /\ same s s' /\
  (forall k', k' <> k -> lB s' k' = lB s k') /\ length (lB s' k) = length (lB s k) /\
  (forall x, In x (lB s' k) -> In x (lB s k) \/ someOf a x) /\
  incl opts' (i :: opts).
Proof.
  intros Ek (G & Gd & Tb & _ & HP & HB & _) HcD Hb Su (n & En) HG E. unfold usedSum in E.
  destruct (Nat.eqb_spec (length (nch (netOf (lH s) u))) 0).
  { injection E as <- <- <- <-. split; auto. split; [apply same_refl|]. split; auto. split; auto. split; auto. apply incl_tl, incl_refl. }
  bk E. cbv zeta in E. destruct x as [st' z]. cbn [fst] in E.
  set (s1 := withSt s st') in *.
  match type of E with context [fold_left ?f ?l (best, fz 0)] => destruct (fold_left f l (best, fz 0)) as [b1 m1] eqn:Eb end.
  assert (Hb1 : Forall (someOf a) b1).
  { apply Forall_forall. intros x Hx. pose proof (bestChildren_in s1 (fadd (inf s1 u) (flog (count s1 u))) (nch (netOf (lH s1) u)) (best, fz 0) x) as K.
    rewrite Eb in K. destruct (K Hx) as [H1|(c & Hc & ->)].
    - rewrite Forall_forall in Hb. apply Hb; auto.
    - change (lP s1) with (lP s). change (lH s1) with (lH s) in Hc. rewrite (netOf_nth (lH s) u n En) in Hc.
      destruct (Gd u n En) as [_ Kn]. pose proof (Su n En) as Sn. unfold isSum in Sn. destruct (nk n); try contradiction.
      destruct Kn as (_ & _ & Kc). destruct (Kc c Hc) as [Gc (nc & Ec & Pc)]. destruct (HP c nc Ec Pc) as [_ (d & Ed & Dd)].
      rewrite Ed. simpl. rewrite Gc, (HG G Gd Tb) in Dd. auto. }
  assert (K : exists b2 m2, Forall (someOf a) b2 /\ (s <- storeInf s1 u (fsub m2 (flog (fadd (count s1 u) (fz 1))));
       r <- pick rnd b2 s;
       B <- setAt (lB (snd r) k) i (fst r);
       let '(opts, maxSum) := match opts with [] => ([], inf s1 u) | _ => if fgt (inf s1 u) ms then ([], inf s1 u) else (opts, ms) end in
       Ok (withB (snd r) k B, b2, if feq (inf s1 u) maxSum then opts ++ [i] else opts, maxSum)) = Ok (s', best', opts', ms')).
  { destruct (exists_ cD s1).
    - exists b1, m1. split; [exact Hb1|exact E].
    - destruct b1 as [|b0 b1].
      + eexists [Some cD], _. split; [|exact E]. constructor; auto.
      + match type of E with context [fgt ?a ?b] => destruct (fgt a b) end.
        * eexists [Some cD], _. split; [|exact E]. constructor; auto.
        * exists (b0 :: b1), m1. split; [exact Hb1|exact E]. }
  clear E Eb Hb1. destruct K as (b2 & m2 & Hb2 & E). bk E. bk E. bk E. destruct x0 as [y s3]. cbn [fst snd] in *.
  destruct (storeInf_ok _ _ _ _ E1) as [S1 B1]. destruct (pick_ok _ _ _ _ E2) as (Iy & S2 & B2 & _). apply setAt_ok in E3. destruct E3 as [-> Li].
  assert (BB : lB s3 = lB s) by (rewrite B2, B1; reflexivity).
  assert (SS : same s s3) by (eapply same_trans; [|exact S2]; exact S1).
  match type of E with (let '(_, _) := ?t in _) = _ => destruct t as [o2 mx2] eqn:Eo end.
  assert (Io : incl o2 opts).
  { destruct opts; [injection Eo as <- _; intros z' []|]. destruct (fgt (inf s1 u) ms); injection Eo as <- _; [intros z' []|apply incl_refl]. }
  injection E as <- <- <- <-. split; [exact Hb2|]. split; [exact SS|]. cbn [withB lB].
  split; [intros k' Hk; rewrite updZ_diff by auto; rewrite BB; auto|]. rewrite updZ_same. split; [rewrite set_nth_length, BB; auto|]. split.
  - intros z' Hz. apply in_set_nth in Hz. rewrite BB in Hz. destruct Hz as [->|Hz]; auto. right. rewrite Forall_forall in Hb2. apply Hb2; auto.
  - destruct (feq (inf s1 u) mx2); [|apply incl_tl; auto]. intros z' Hz. apply in_app_or in Hz. destruct Hz as [Hz|[<-|[]]]; [right; auto|left; auto].
Qed.

Lemma storeCount_ok (s : lstate) u v s' : storeCount s u v = Ok s' -> same s s' /\ lB s' = lB s.
Proof. unfold storeCount. intros E. bk E. injection E as <-. split; [repeat split|reflexivity]. Qed.

Lemma useDec_ok a R mi d (s s' : lstate) : inside a -> ~ unitR a -> L (code a) = Some R -> Inv s -> decOf a d ->
  useDec L R mi d s = Ok s' -> Inv s' /\ grows (lH s) (lH s') /\ lM s' = lM s /\
    (length (rinner R) = 1%nat -> filled (lH s') R).
Proof.
  intros Ia Ua La (G & Gd & Tb & On & HP & HB & HE) Hd E. unfold useDec in E. destruct (exists_ d s) eqn:Ex.
  - bk E. destruct (storeCount_ok _ _ _ _ E) as [(S1 & S2 & S3 & S4 & S5) SB]. split.
    { exists G. rewrite S1, S2, S3, SB. auto 10. }
    split; [rewrite S1; apply grows_refl|]. split; [auto|]. intros L1. unfold exists_ in Ex. apply existsb_exists in Ex. destruct Ex as (d' & Id & Ed). apply decEqb_eq in Ed. subst d'.
    destruct (HE d Id) as (a' & R' & u & n & Ia' & Da' & La' & Iu & En & Ne). assert (a' = a) by (eapply decOf_unique; eauto). subst a'.
    assert (R' = R) by congruence. subst R'. rewrite S1. intros v Hv. destruct (rinner R) as [|y1 [|]]; simpl in L1; try discriminate.
    destruct Iu as [->|[]]. destruct Hv as [->|[]]. exists n. auto.
  - bk E. bk E. bk E. bk E. apply orPanic_ok in E0, E2. apply idxZ_ok in E1, E3. destruct E1 as [_ E1]. destruct E3 as [_ E3].
    unfold newNode in E. bk E. bk E. apply idx_ok in E4. cbv zeta in E.
    destruct (storeCount_ok _ _ _ _ E) as [(S1 & S2 & S3 & S4 & S5) SB]. cbn [lH lE lP lQ lB lM] in *.
    destruct Hd as (b & c & Ct & Rb & Rc & Eb & Ec). destruct (cut_inside w h a b c Ia Ct) as [Ib Ic].
    rewrite Eb in E0. rewrite Ec in E2. rename x into P. rename x0 into u. rename x1 into Q. rename x2 into v. rename x3 into su. rename x4 into H2.
    destruct (Tb b P Ib E0) as [_ TP]. destruct (Tb c Q Ic E2) as [_ TQ]. destruct (Tb a R Ia La) as [_ TR].
    pose proof (nth_error_In _ _ E1) as Iu. pose proof (nth_error_In _ _ E3) as Iv. pose proof (nth_error_In _ _ E4) as Isu.
    destruct (TP u Iu) as (nu & Enu & Gu & Unu & NUnu). destruct (TQ v Iv) as (nv & Env & Gv & Unv & NUnv). destruct (TR su Isu) as (ns & Ens & Gs & _ & NUs).
    assert (NP : forall (x : rect) (n : node A), (unitR x -> isLeaf n) -> (~ unitR x -> isSum n) -> ~ isProd n).
    { intros x n H1 H2'. unfold unitR in *. destruct (Z.eq_dec (right x) (left x + 1)); [destruct (Z.eq_dec (bottom x) (top x + 1))|].
      - specialize (H1 (conj e e0)). unfold isLeaf, isProd in *. destruct (nk n); auto.
      - specialize (H2' ltac:(tauto)). unfold isSum, isProd in *. destruct (nk n); auto.
      - specialize (H2' ltac:(tauto)). unfold isSum, isProd in *. destruct (nk n); auto. }
    destruct (addProd_l w h L (region_at r) (lH s) G a u v nu nv Gd Ia Enu Env) as [Gd1 X1].
    { eapply NP; eauto. } { eapply NP; eauto. } { exists P. rewrite Gu. auto. } { exists Q. rewrite Gv. auto. }
    { rewrite Gu, Gv. auto. } { rewrite Gu; auto. } { rewrite Gv; auto. }
    set (H1 := lH s ++ [mkNode KProd [u; v]]) in *. set (G1 := upd G (length (lH s)) a) in *.
    assert (Ls : (su < length (lH s))%nat) by (apply nth_error_Some; congruence).
    assert (Ens1 : nth_error H1 su = Some ns) by (unfold H1; rewrite nth_error_app1; auto).
    assert (Epi : nth_error H1 (length (lH s)) = Some (mkNode KProd [u; v])).
    { unfold H1. rewrite nth_error_app2, Nat.sub_diag by auto. reflexivity. }
    destruct (addChildW_l w h L (region_at r) H1 G1 su ns (length (lH s)) (mkNode KProd [u; v]) (fz 1) Gd1 Ens1 (NUs Ua) Epi Logic.I) as (H2' & E5' & Gd2 & X2 & n' & En' & Ne').
    { unfold G1. rewrite upd_same, upd_diff by lia. auto. } { exists 1. split; [lia|auto]. }
    rewrite E5 in E5'. injection E5' as <-. cbn [fst snd] in *.
    assert (X12 : ext (region_at r) (lH s) G H2 G1) by (eapply ext_trans; [exact Gd1|exact X1|exact X2]).
    assert (Gr : grows (lH s) H2).
    { intros x n Ex'. destruct X12 as [X _]. destruct (X x n Ex') as [_ (m & Em & Im & _)]. exists m. auto. }
    assert (Prods : forall x n, nth_error H2 x = Some n -> isProd n -> (nth_error (lH s) x = Some n /\ (x < length (lH s))%nat) \/ (x = length (lH s) /\ n = mkNode KProd [u; v])).
    { intros x n Hx Pn. assert (D : x <> su).
      { intros ->. unfold addChildW in E5. rewrite Ens1 in E5. destruct ns as [[ws| |] chs]; try discriminate. injection E5 as <-.
        rewrite nth_error_set_nth_same in Hx by (unfold H1; rewrite app_length; simpl; lia). injection Hx as <-. destruct Pn. }
      assert (Hx1 : nth_error H1 x = Some n).
      { unfold addChildW in E5. rewrite Ens1 in E5. destruct ns as [[ws| |] chs]; try discriminate. injection E5 as <-. rewrite nth_error_set_nth_diff in Hx by auto. auto. }
      unfold H1 in Hx1. destruct (Nat.lt_ge_cases x (length (lH s))) as [lt|ge].
      - rewrite nth_error_app1 in Hx1 by auto. auto.
      - rewrite nth_error_app2 in Hx1 by auto. destruct (x - length (lH s))%nat as [|j] eqn:Ej; [|destruct j; discriminate]. right. injection Hx1 as <-. split; auto. lia. }
    split; [|split; [|split]].
    + exists G1. rewrite S1, S2, S3, SB. split; auto. split; [eapply ext_table; eauto|].
      split.
      { intros x n ws Hx Kn. unfold addChildW in E5. rewrite Ens1 in E5. destruct ns as [[ws0| |] chs] eqn:Ns; try discriminate. injection E5 as <-.
        destruct (Nat.eq_dec x su) as [->|D].
        - rewrite nth_error_set_nth_same in Hx by (unfold H1; rewrite app_length; simpl; lia). injection Hx as <-. injection Kn as <-.
          apply Forall_app. split; [eapply On; eauto; reflexivity|constructor; auto].
        - rewrite nth_error_set_nth_diff in Hx by auto. unfold H1 in Hx. destruct (Nat.lt_ge_cases x (length (lH s))) as [lt|ge].
          + rewrite nth_error_app1 in Hx by auto. eapply On; eauto.
          + rewrite nth_error_app2 in Hx by auto. destruct (x - length (lH s))%nat as [|j]; [|destruct j; discriminate]. injection Hx as <-. discriminate. }
      split; [|split].
      * intros x n Hx Pn. destruct (Prods x n Hx Pn) as [[Hx' lt]|[-> ->]].
        -- destruct (HP x n Hx' Pn) as [C1 (d' & Ed & Dd)]. split.
           ++ intros y Hy. destruct X12 as [X _]. destruct (Gd x n Hx') as [_ K]. unfold isProd in Pn. destruct (nk n); try contradiction.
              destruct K as (b1 & b2 & nb1 & nb2 & Ech & _ & Eb1 & Eb2 & _). specialize (C1 y Hy). rewrite Ech in Hy.
              destruct Hy as [<-|[<-|[]]]; [destruct (X _ _ Eb1) as [-> _]|destruct (X _ _ Eb2) as [-> _]]; auto.
           ++ exists d'. unfold upd at 1. destruct (Nat.eqb_spec x (length (lH s))); [lia|]. split; auto. unfold G1. rewrite upd_diff by lia. auto.
        -- split.
           ++ intros y Hy. cbn [nch] in Hy. assert (Lu : (u < length (lH s))%nat) by (apply nth_error_Some; congruence). assert (Lv : (v < length (lH s))%nat) by (apply nth_error_Some; congruence).
              unfold G1. destruct Hy as [<-|[<-|[]]]; rewrite upd_diff by lia; congruence.
           ++ exists d. rewrite upd_same. split; auto. unfold G1. rewrite upd_same. exists b, c. auto.
      * exact HB.
      * intros d' [<-|Hd'].
        -- exists a, R, su, n'. split; auto. split; [exists b, c; auto|]. auto.
        -- destruct (HE d' Hd') as (a' & R' & x & n & Ia' & Da' & La' & Ix & Ex' & Ne). destruct (Gr x n Ex') as (m & Em & Im).
           exists a', R', x, m. split; auto. split; auto. split; auto. split; auto. split; auto. intros Nl. rewrite Nl in Im. destruct (nch n); [congruence|]. apply (Im n0). left; auto.
    + rewrite S1. auto.
    + auto.
    + intros L1. rewrite S1. intros x Hx. destruct (rinner R) as [|y [|]]; simpl in L1; try discriminate. destruct Isu as [->|[]]. destruct Hx as [->|[]]. exists n'. auto.
Qed.

Lemma Inv_same s s' : same s s' -> (forall a d, inside a -> In (Some d) (lB s' (code a)) -> decOf a d) -> Inv s -> Inv s'.
Proof. intros (S1 & S2 & S3 & S4 & S5) HB (G & Gd & Tb & On & HP & _ & HE). exists G. rewrite S1, S2, S3. auto 10. Qed.

Lemma compMap_ok a R I (s s' : lstate) : inside a -> ~ unitR a -> L (code a) = Some R -> Inv s ->
  compMap w h rnd L (code a) R I s = Ok s' -> Inv s' /\ grows (lH s) (lH s') /\ (length (rinner R) = 1%nat -> filled (lH s') R).
Proof.
  intros Ia Ua La V E. unfold compMap in E. cbv zeta in E.
  set (s0 := withM s (code a) (-1)) in *. assert (V0 : Inv s0) by exact V. assert (H0 : lH s0 = lH s) by reflexivity. clearbody s0.
  bk E. destruct x as [cU s1].
  assert (K1 : same s0 s1 /\ lB s1 = lB s0).
  { destruct (unused (lH s0) R); [injection E0 as <- <-; split; [apply same_refl|auto]|]. destruct (pick_ok _ _ _ _ E0) as (_ & K & K' & _). auto. }
  destruct K1 as [K1 B1]. assert (V1 : Inv s1).
  { eapply Inv_same; eauto. rewrite B1. destruct V0 as (G & _ & _ & _ & _ & HB & _). exact HB. }
  bk E. rewrite (decode_code w h w1 h1 fit a Ia) in E1. injection E1 as <-.
  bk E. rename x into Dm. bk E. destruct x as [cD s2]. destruct (pick_ok _ _ _ _ E2) as (IcD & K2 & B2 & _).
  pose proof (tryCuts_ok s1 a R Dm Ia La E1 cD IcD) as DcD.
  assert (V2 : Inv s2).
  { eapply Inv_same; eauto. rewrite B2. destruct V1 as (G & _ & _ & _ & _ & HB & _). exact HB. }
  bk E. rename E3 into EF.
  assert (K3 : let '(s3, best, opts, ms) := x in Inv s3 /\ Forall (someOf a) best /\ same s2 s3).
  { revert EF. apply (foldi_inv (fun x => let '(s3, best, opts, ms) := x in Inv s3 /\ Forall (someOf a) best /\ same s2 s3)).
    - intros i [[[t best] opts] ms] u [[[t' best'] opts'] ms'] Eu (Vt & Fb & St) Ex.
      destruct (usedSum_ok a (code a) I cD (snd Dm) i t best opts ms u t' best' opts' ms' eq_refl Vt DcD Fb) as (F1 & F2 & F3 & F4 & F5 & F6); auto.
      + intros n En. destruct Vt as (G & Gd & Tb & _). destruct (Tb a R Ia La) as [_ TR]. destruct (TR u (nth_error_In _ _ Eu)) as (n' & En' & _ & _ & NU). assert (n' = n) by congruence. subst. auto.
      + destruct Vt as (G & Gd & Tb & _). destruct (Tb a R Ia La) as [_ TR]. destruct (TR u (nth_error_In _ _ Eu)) as (n' & En' & _). eauto.
      + intros G Gd Tb. destruct (Tb a R Ia La) as [_ TR]. destruct (TR u (nth_error_In _ _ Eu)) as (n' & En' & Gu & _). auto.
      + split; [|split; [auto|eapply same_trans; eauto]]. eapply Inv_same; eauto. intros a' d Ia' Hd.
        destruct Vt as (G & _ & _ & _ & _ & HB & _). destruct (Z.eq_dec (code a') (code a)) as [Ec|Nc].
        * assert (a' = a) by (apply code_inj'; auto). subst. destruct (F5 _ Hd) as [Hd'|Hd']; auto.
        * rewrite F3 in Hd by auto. auto.
    - split; [auto|]. split; [constructor|apply same_refl]. }
  destruct x as [[[s3 best] opts] ms]. destruct K3 as (V3 & _ & K3).
  bk E. rename x into n. rename E3 into En. bk E. rename x into s4. rename E3 into E4. bk E. rename x into B. rename E3 into EB.
  destruct (storeInf_ok _ _ _ _ E4) as [K4 B4]. apply setAt_ok in EB. destruct EB as [-> Li].
  bk E. destruct x as [mi s5]. destruct (pick_ok _ _ _ _ E3) as (_ & K5 & B5 & _). bk E. bk E. apply orPanic_ok in E6. subst x. apply idx_ok in E5.
  rename x0 into bD. cbn [withM lB] in *.
  assert (HB5 : forall a' d, inside a' -> In (Some d) (lB s5 (code a')) -> decOf a' d).
  { intros a' d Ia' Hd. rewrite B5 in Hd. cbn [withB lB] in Hd. destruct V3 as (G & _ & _ & _ & _ & HB & _).
    destruct (Z.eq_dec (code a') (code a)) as [Ec|Nc].
    - assert (a' = a) by (apply code_inj'; auto). subst. rewrite updZ_same in Hd. apply in_set_nth in Hd. rewrite B4 in Hd.
      destruct Hd as [Hd|Hd]; auto. injection Hd as ->. auto.
    - rewrite updZ_diff in Hd by auto. rewrite B4 in Hd. auto. }
  assert (K35 : same s3 s5) by (eapply same_trans; [exact K4|]; exact K5).
  assert (V5 : Inv s5) by (eapply Inv_same; eauto).
  assert (HbD : decOf a bD) by (apply HB5; auto; eapply nth_error_In; eauto).
  destruct (useDec_ok a R mi bD (withM s5 (code a) (Z.of_nat mi)) s' Ia Ua La V5 HbD E) as (V' & Gr & _ & Fl).
  split; auto. split; auto. cbn [withM lH] in Gr. destruct K35 as (Q1 & _). destruct K3 as (Q2 & _). destruct K2 as (Q3 & _). destruct K1 as (Q4 & _).
  rewrite Q1, Q2, Q3, Q4, H0 in Gr. auto.
Qed.
End Run.
