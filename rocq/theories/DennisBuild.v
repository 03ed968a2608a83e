(** Proofs about the network built from a region graph. *)
From Verif Require Import Base Res Arith GraphSpec Spn Leaves GoMap Build Dennis DennisSpec DennisScope DennisGraph
  DennisExpand DennisPost PoonSpec ProbSpec ScopedLemmas.

Section B.
Context {A : arith}.
Local Notation F := (F A).
Variable sc : gmap.
Variable G : rgraph.
Hypothesis I : ginv sc G.
Variable par : Z -> nat -> F * F.
Variable logProb : F -> F -> F -> F.
Variables trunc round : F -> Z.
Variable rnd : nat -> Z.
Hypothesis rnd10 : forall i, (0 <= rnd i < 10)%Z.

Definition kd (n : node A) : nat := match nk n with KSum _ => 0 | KProd => 1 | KLeaf _ => 2 end.
Definition smallW (ws : list F) : Prop := forall x, In x ws -> exists n, (1 <= n <= 10)%Z /\ x = fz n.

(** [c] is a product of region [i]. *)
Definition prodOf (H : nodes A) (T : list nat) (i c : nat) : Prop :=
  exists nc, nth_error H c = Some nc /\ nk nc = KProd /\ nth_error T c = Some i.
(** [c] represents region [i]. *)
Definition repOf (H : nodes A) (T : list nat) (i c : nat) : Prop :=
  exists nc, nth_error H c = Some nc /\ nk nc <> KProd /\ nth_error T c = Some i.

(** A finished node of region [i]. *)
Definition nodeOk (H : nodes A) (T : list nat) (i : nat) (nd : node A) : Prop :=
  exists ri, nth_error (regs G) i = Some ri /\
  match nk nd with
  | KSum ws => nch nd <> [] /\ length ws = length (nch nd) /\ smallW ws /\ forall c, In c (nch nd) -> prodOf H T i c
  | KProd => exists a b c1 c2 ra rb, nch nd = [c1; c2] /\ repOf H T a c1 /\ repOf H T b c2 /\
      nth_error (regs G) a = Some ra /\ nth_error (regs G) b = Some rb /\ split_of (rsc ri) (rsc ra) (rsc rb)
  | KLeaf l => nch nd = [] /\ exists x v, rsc ri = [(x, v)] /\ lsc l = [x] /\
      exists j, l = gaussLeaf logProb trunc round x (fst (par x j)) (snd (par x j))
  end.
(** A sum of region [i] that may get more children. *)
Definition opn (H : nodes A) (T : list nat) (i n : nat) : Prop :=
  nth_error T n = Some i /\ exists ws ch, nth_error H n = Some (mkNode (KSum ws) ch) /\ length ws = length ch /\
    smallW ws /\ forall c, In c ch -> prodOf H T i c.

(** All nodes are finished but those of [N]. *)
Definition okBut (N : list nat) (H : nodes A) (T : list nat) : Prop :=
  length T = length H /\ forall u nd i, nth_error H u = Some nd -> nth_error T u = Some i -> ~ In u N -> nodeOk H T i nd.

(** [H'] keeps the nodes of [H]; those of [J] may get children. *)
Definition keeps (J : list nat) (H H' : nodes A) : Prop :=
  forall u nd, nth_error H u = Some nd -> exists nd', nth_error H' u = Some nd' /\ kd nd' = kd nd /\
    incl (nch nd) (nch nd') /\ (~ In u J -> nd' = nd).

Lemma keeps_refl J H : keeps J H H.
Proof. intros u nd E. exists nd. auto using incl_refl. Qed.
Lemma keeps_trans J H1 H2 H3 : keeps J H1 H2 -> keeps J H2 H3 -> keeps J H1 H3.
Proof.
  intros K1 K2 u nd E. destruct (K1 u nd E) as (n1 & E1 & D1 & I1 & S1). destruct (K2 u n1 E1) as (n2 & E2 & D2 & I2 & S2).
  exists n2. split; auto. split; [congruence|]. split; [eapply incl_tran; eauto|]. intros Nj. rewrite S2, S1; auto.
Qed.
Lemma keeps_weak J J' H H' : incl J J' -> keeps J H H' -> keeps J' H H'.
Proof. intros Ij K u nd E. destruct (K u nd E) as (n1 & E1 & D1 & I1 & S1). exists n1. split; auto. split; auto. split; auto. Qed.
Lemma keeps_app J H N : keeps J H (H ++ N).
Proof. intros u nd E. exists nd. split; [apply nth_old; auto|]. auto using incl_refl. Qed.

Lemma kd_prod n n' : kd n' = kd n -> nk n = KProd -> nk n' = KProd.
Proof. unfold kd. intros E K. rewrite K in E. destruct (nk n'); try discriminate. auto. Qed.
Lemma kd_nprod n n' : kd n' = kd n -> nk n <> KProd -> nk n' <> KProd.
Proof. unfold kd. intros E K K'. rewrite K' in E. destruct (nk n); try discriminate. auto. Qed.

Lemma prodOf_keeps J H H' T T' i c : keeps J H H' -> prodOf H T i c -> prodOf H' (T ++ T') i c.
Proof.
  intros K (nc & E & P & Et). destruct (K c nc E) as (nc' & E' & D & _). exists nc'.
  split; auto. split; [eapply kd_prod; eauto|apply nth_old; auto].
Qed.
Lemma repOf_keeps J H H' T T' i c : keeps J H H' -> repOf H T i c -> repOf H' (T ++ T') i c.
Proof.
  intros K (nc & E & P & Et). destruct (K c nc E) as (nc' & E' & D & _). exists nc'.
  split; auto. split; [eapply kd_nprod; eauto|apply nth_old; auto].
Qed.
Lemma nodeOk_keeps J H H' T T' i nd : keeps J H H' -> nodeOk H T i nd -> nodeOk H' (T ++ T') i nd.
Proof.
  intros K (ri & Er & M). exists ri. split; auto. destruct (nk nd) as [ws| |l]; auto.
  - destruct M as (M1 & M2 & M3 & M4). split; auto. split; auto. split; auto. intros c Hc. eapply prodOf_keeps; eauto.
  - destruct M as (a & b & c1 & c2 & ra & rb & M1 & M2 & M3 & M4). exists a, b, c1, c2, ra, rb.
    split; auto. split; [eapply repOf_keeps; eauto|]. split; [eapply repOf_keeps; eauto|auto].
Qed.
Lemma opn_same J H H' T i n : keeps J H H' -> nth_error H' n = nth_error H n -> opn H T i n -> opn H' T i n.
Proof.
  intros K E (Et & ws & ch & En & L & S & P). split; auto. exists ws, ch. split; [congruence|]. split; auto. split; auto.
  intros c Hc. rewrite <- (app_nil_r T). eapply prodOf_keeps; eauto.
Qed.

(** addChildW *)
Lemma addW_l H T i n o w : opn H T i n -> prodOf H T i o -> (1 <= w <= 10)%Z -> exists H',
  addChildW n o (fz w) H = Ok H' /\ length H' = length H /\ keeps [n] H H' /\ opn H' T i n /\
  (exists nd, nth_error H' n = Some nd /\ nch nd <> []) /\ forall u, u <> n -> nth_error H' u = nth_error H u.
Proof.
  intros (Et & ws & ch & En & L & S & P) Po W. unfold addChildW. rewrite En. eexists. split; [reflexivity|].
  assert (Ln : n < length H) by (apply nth_error_Some; congruence).
  set (nd := mkNode (KSum (ws ++ [fz w])) (ch ++ [o])).
  assert (E1 : nth_error (set_nth n nd H) n = Some nd) by (apply nth_error_set_nth_same; auto).
  assert (E2 : forall u, u <> n -> nth_error (set_nth n nd H) u = nth_error H u) by (intros; apply nth_error_set_nth_diff; auto).
  assert (K : keeps [n] H (set_nth n nd H)).
  { intros u x Ex. destruct (Nat.eq_dec u n) as [->|Ne].
    - exists nd. split; auto. rewrite En in Ex. injection Ex as <-. split; auto. split; [apply incl_appl, incl_refl|].
      intros Hn. exfalso. apply Hn. left. auto.
    - exists x. rewrite E2 by auto. auto using incl_refl. }
  split; [apply set_nth_length|]. split; auto. split; [|split; auto].
  - split; auto. exists (ws ++ [fz w]), (ch ++ [o]). split; auto. split; [rewrite !app_length; simpl; lia|]. split.
    + intros x Hx. apply in_app_iff in Hx as [Hx|[<-|[]]]; eauto.
    + intros c Hc. rewrite <- (app_nil_r T). eapply prodOf_keeps; [exact K|]. apply in_app_iff in Hc as [Hc|[<-|[]]]; auto.
  - exists nd. split; auto. simpl. destruct ch; discriminate.
Qed.

Lemma linkOne_l T i n O' : forall H k, opn H T i n -> (forall o, In o O' -> prodOf H T i o) -> exists H' k',
  foldr_ (fun (st : nodes A * nat) o => H <- addChildW n o (fz (rnd (snd st) + 1)) (fst st); Ok (H, S (snd st))) O' (H, k) = Ok (H', k') /\
  length H' = length H /\ keeps [n] H H' /\ opn H' T i n /\
  (O' <> [] -> exists nd, nth_error H' n = Some nd /\ nch nd <> []) /\ forall u, u <> n -> nth_error H' u = nth_error H u.
Proof.
  induction O' as [|o O' IH]; intros H k On Po; simpl.
  - exists H, k. split; [reflexivity|]. split; auto. split; [apply keeps_refl|]. split; auto. split; [congruence|auto].
  - destruct (addW_l H T i n o (rnd k + 1) On (Po o ltac:(left; auto))) as (H1 & E1 & L1 & K1 & O1 & (nd & En & Ne) & D1).
    { specialize (rnd10 k). lia. }
    rewrite E1. simpl. destruct (IH H1 (S k) O1) as (H2 & k2 & E2 & L2 & K2 & O2 & N2 & D2).
    { intros x Hx. rewrite <- (app_nil_r T). eapply prodOf_keeps; [exact K1|]. apply Po. right. auto. }
    exists H2, k2. split; auto. split; [congruence|]. split; [eapply keeps_trans; eauto|]. split; auto. split.
    + intros _. destruct (K2 n nd En) as (nd' & En' & _ & In' & _). exists nd'. split; auto.
      destruct (nch nd) as [|c t]; [congruence|]. specialize (In' c ltac:(left; auto)). intros Z. rewrite Z in In'. destruct In'.
    + intros u Hu. rewrite D2, D1 by auto. auto.
Qed.

Lemma linkSums_l T i O' N : O' <> [] -> forall N' H k, incl N' N -> (forall n, In n N -> opn H T i n) ->
  (forall o, In o O' -> prodOf H T i o) -> (forall n, In n N -> ~ In n O') -> exists H' k',
  linkSums rnd N' O' (H, k) = Ok (H', k') /\ length H' = length H /\ keeps N H H' /\ (forall n, In n N -> opn H' T i n) /\
  (forall n, In n N' -> exists nd, nth_error H' n = Some nd /\ nch nd <> []) /\
  (forall u, ~ In u N -> nth_error H' u = nth_error H u).
Proof.
  intros No. unfold linkSums. induction N' as [|n N' IH]; intros H k Inc On Po Dj; simpl.
  - exists H, k. split; [reflexivity|]. split; auto. split; [apply keeps_refl|]. split; auto. split; [tauto|auto].
  - assert (Hn : In n N) by (apply Inc; left; auto).
    destruct (linkOne_l T i n O' H k (On n Hn) Po) as (H1 & k1 & E1 & L1 & K1 & O1 & N1 & D1).
    rewrite E1. cbn [bind].
    assert (K1' : keeps N H H1) by (eapply keeps_weak; [|exact K1]; intros x [<-|[]]; auto).
    destruct (IH H1 k1) as (H2 & k2 & E2 & L2 & K2 & O2 & N2 & D2); auto.
    { intros x Hx. apply Inc. right. auto. }
    { intros x Hx. destruct (Nat.eq_dec x n) as [->|Ne]; auto. eapply opn_same; [exact K1|apply D1; auto|auto]. }
    { intros o Ho. rewrite <- (app_nil_r T). eapply prodOf_keeps; eauto. }
    exists H2, k2. split; auto. split; [congruence|]. split; [eapply keeps_trans; eauto|]. split; auto. split.
    + intros x [<-|Hx]; auto. destruct (N1 No) as (nd & En & Ne). destruct (K2 n nd En) as (nd' & En' & _ & In' & _).
      exists nd'. split; auto. destruct (nch nd) as [|c t]; [congruence|]. specialize (In' c ltac:(left; auto)). intros Z. rewrite Z in In'. destruct In'.
    + intros u Hu. rewrite D2 by auto. apply D1. intros ->. auto.
Qed.

Lemma linkProds_l base n L : forall k (H : nodes A), k + length L = n ->
  (forall j, k <= j < n -> nth_error H (base + j) = Some (mkNode KProd [])) -> exists H',
  foldi_from k (fun i H (cc : nat * nat) => o <- idx (seq base n) i; H <- addChild o (fst cc) H; addChild o (snd cc) H) L H = Ok H' /\
  length H' = length H /\
  (forall u, ~ (base + k <= u < base + n) -> nth_error H' u = nth_error H u) /\
  (forall j cc, nth_error L j = Some cc -> nth_error H' (base + k + j) = Some (mkNode KProd [fst cc; snd cc])).
Proof.
  induction L as [|cc L IH]; intros k H Lk Hp; simpl in *.
  - exists H. split; auto. split; auto. split; auto. intros [|j] c E; discriminate.
  - unfold idx at 1. assert (Es : nth_error (seq base n) k = Some (base + k)).
    { rewrite (nth_error_nth' _ 0) by (rewrite seq_length; lia). rewrite seq_nth by lia. auto. }
    rewrite Es. cbn [bind].
    assert (E0 : nth_error H (base + k) = Some (mkNode KProd [])) by (apply Hp; lia).
    assert (Lb : base + k < length H) by (apply nth_error_Some; congruence).
    unfold addChild at 1. unfold idx at 1. rewrite E0. cbn [bind nk nch app].
    unfold addChild at 1. unfold idx at 1. rewrite nth_error_set_nth_same by auto. cbn [bind nk nch app].
    match goal with |- context [foldi_from _ _ _ ?h] => set (H1 := h) end.
    assert (L1 : length H1 = length H) by (unfold H1; rewrite !set_nth_length; auto).
    assert (E1 : nth_error H1 (base + k) = Some (mkNode KProd [fst cc; snd cc])).
    { unfold H1. rewrite nth_error_set_nth_same; auto. rewrite set_nth_length. auto. }
    assert (D1 : forall u, u <> base + k -> nth_error H1 u = nth_error H u).
    { intros u Hu. unfold H1. rewrite !nth_error_set_nth_diff by auto. auto. }
    destruct (IH (k + 1) H1 ltac:(lia)) as (H2 & E2 & L2 & D2 & P2).
    { intros j Hj. rewrite D1 by lia. apply Hp. lia. }
    exists H2. split; auto. split; [congruence|]. split.
    + intros u Hu. rewrite D2 by lia. apply D1. lia.
    + intros [|j] c Ej; simpl in Ej.
      * injection Ej as <-. rewrite Nat.add_0_r, D2 by lia. auto.
      * replace (base + k + S j) with (base + (k + 1) + j) by lia. auto.
Qed.

Lemma repeat_nth {X} (x : X) n i y : nth_error (repeat x n) i = Some y -> y = x /\ i < n.
Proof.
  intros E. assert (i < n) by (rewrite <- (repeat_length x n); apply nth_error_Some; congruence).
  split; auto. apply nth_error_In in E. apply repeat_spec in E. auto.
Qed.

Lemma nth_repeat_some {X} (x : X) n i : i < n -> nth_error (repeat x n) i = Some x.
Proof. revert i; induction n as [|n IH]; intros [|i] L; simpl; try lia; auto. apply IH. lia. Qed.

(** One partition of region [i]. *)
Lemma buildPart_l H T k N i ri rep p : okBut N H T -> (forall n, In n N -> opn H T i n) ->
  nth_error (regs G) i = Some ri -> In p (rch ri) ->
  (forall cs c, nth_error (parts G) p = Some cs -> In c cs -> rep c <> [] /\ forall x, In x (rep c) -> repOf H T c x) ->
  exists H' k' T', buildPart rnd G rep N p (H, k) = Ok (H', k') /\ okBut N H' (T ++ T') /\ keeps N H H' /\
    (forall n, In n N -> opn H' (T ++ T') i n) /\ (forall n, In n N -> exists nd, nth_error H' n = Some nd /\ nch nd <> []).
Proof.
  intros [LT Ok1] On Ei Hp Rep. destruct (g_part sc G I i ri p Ei Hp) as (a & b & ra & rb & Ep & Ea & Eb & Sp).
  destruct (Rep _ a Ep ltac:(left; auto)) as [Na Ra], (Rep _ b Ep ltac:(right; left; auto)) as [Nb Rb].
  unfold buildPart. unfold idx. rewrite Ep. cbn [bind nth_error fst snd]. cbv zeta.
  set (n := length (rep a) * length (rep b)).
  assert (Ln : 0 < n).
  { unfold n. destruct (rep a); [congruence|]. destruct (rep b); [congruence|]. simpl. lia. }
  set (H0 := H ++ repeat (mkNode KProd []) n). set (T' := repeat i n).
  assert (K0 : forall J, keeps J H H0) by (intros J; apply keeps_app).
  assert (LN : forall x, In x N -> x < length H).
  { intros x Hx. destruct (On x Hx) as (_ & ws & ch & E & _). apply nth_error_Some. congruence. }
  assert (New : forall j, j < n -> nth_error H0 (length H + j) = Some (mkNode KProd []) /\ nth_error (T ++ T') (length H + j) = Some i).
  { intros j Lj. unfold H0, T'. rewrite !nth_error_app2 by lia. rewrite LT. replace (length H + j - length H) with j by lia.
    split; apply nth_repeat_some; auto. }
  destruct (linkSums_l (T ++ T') i (seq (length H) n) N ltac:(destruct n; [lia|discriminate]) N H0 k (incl_refl _))
    as (H1 & k1 & E1 & L1 & K1 & O1 & N1 & D1).
  { intros x Hx. destruct (On x Hx) as (Et & ws & ch & En & L & S & P). split; [apply nth_old; auto|].
    exists ws, ch. split; [apply nth_old; auto|]. split; auto. split; auto. intros c Hc. eapply (prodOf_keeps N); eauto. }
  { intros o Ho. apply in_seq in Ho. replace o with (length H + (o - length H)) by lia.
    destruct (New (o - length H)) as [E2 E3]; [lia|]. exists (mkNode KProd []). auto. }
  { intros x Hx Hs. apply in_seq in Hs. apply LN in Hx. lia. }
  change (@pair (list (node A)) nat H0 k) with (@pair (nodes A) nat H0 k). rewrite E1. cbn [bind fst snd]. unfold linkProds, foldi.
  assert (Lp : length (list_prod (rep a) (rep b)) = n) by apply prod_length.
  destruct (linkProds_l (length H) n (list_prod (rep a) (rep b)) 0 H1) as (H2 & E2 & L2 & D2 & P2); [simpl; auto| |].
  { intros j Hj. rewrite D1; [apply New; lia|]. intros Hx. apply LN in Hx. lia. }
  rewrite E2. cbn [bind]. exists H2, k1, T'. split; auto.
  assert (LH0 : length H0 = length H + n) by (unfold H0; rewrite app_length, repeat_length; auto).
  assert (Old2 : forall u, u < length H -> nth_error H2 u = nth_error H1 u) by (intros u Hu; apply D2; lia).
  assert (K2 : keeps N H H2).
  { intros u nd E. destruct (keeps_trans _ _ _ _ (K0 N) K1 u nd E) as (nd' & E' & R). exists nd'. split; auto.
    rewrite Old2; auto. apply nth_error_Some. congruence. }
  assert (PO : forall u, length H <= u < length H + n -> exists c1 c2, In c1 (rep a) /\ In c2 (rep b) /\
     nth_error H2 u = Some (mkNode KProd [c1; c2])).
  { intros u Hu. destruct (nth_error (list_prod (rep a) (rep b)) (u - length H)) as [[c1 c2]|] eqn:Ec.
    - pose proof (P2 _ _ Ec) as Eu. simpl in Eu. replace (length H + 0 + (u - length H)) with u in Eu by lia.
      apply nth_error_In in Ec. apply in_prod_iff in Ec as [? ?]. eauto.
    - apply nth_error_None in Ec. lia. }
  assert (K12 : forall c, prodOf H1 (T ++ T') i c -> prodOf H2 (T ++ T') i c).
  { intros c (nc & Ec & Pc & Tc). destruct (Nat.lt_ge_cases c (length H)) as [Lc|Lc].
    - exists nc. rewrite Old2; auto.
    - assert (c < length H1) by (apply nth_error_Some; congruence). destruct (PO c ltac:(lia)) as (c1 & c2 & _ & _ & E). eexists. split; eauto. }
  split; [|split; [|split]].
  - split; [rewrite app_length; unfold T'; rewrite repeat_length; lia|].
    intros u nd j Eu Et Hu. destruct (Nat.lt_ge_cases u (length H)) as [Lu|Lu].
    + rewrite nth_error_app1 in Et by lia. rewrite Old2, D1 in Eu by auto. unfold H0 in Eu. rewrite nth_error_app1 in Eu by auto.
      eapply nodeOk_keeps; [exact K2|]. eapply Ok1; eauto.
    + assert (u < length H2) by (apply nth_error_Some; congruence).
      destruct (PO u ltac:(lia)) as (c1 & c2 & I1 & I2 & E). rewrite Eu in E. injection E as ->.
      destruct (New (u - length H) ltac:(lia)) as [_ Et']. replace (length H + (u - length H)) with u in Et' by lia.
      rewrite Et in Et'. injection Et' as ->. exists ri. split; auto. simpl. exists a, b, c1, c2, ra, rb. split; auto.
      split; [eapply repOf_keeps; eauto|]. split; [eapply repOf_keeps; eauto|auto].
  - exact K2.
  - intros x Hx. destruct (O1 x Hx) as (Et & ws & ch & En & L & S & P). split; auto. exists ws, ch.
    split; [rewrite Old2; auto|]. split; auto.
  - intros x Hx. destruct (N1 x Hx) as (nd & En & Ne). exists nd. rewrite Old2; auto.
Qed.

(** All partitions of region [i]. *)
Lemma buildParts_l N i ri rep ps : nth_error (regs G) i = Some ri -> incl ps (rch ri) -> forall H T k,
  okBut N H T -> (forall n, In n N -> opn H T i n) ->
  (forall p cs c, In p ps -> nth_error (parts G) p = Some cs -> In c cs -> rep c <> [] /\ forall x, In x (rep c) -> repOf H T c x) ->
  exists H' k' T', foldr_ (fun st p => buildPart rnd G rep N p st) ps (H, k) = Ok (H', k') /\ okBut N H' (T ++ T') /\ keeps N H H' /\
    (forall n, In n N -> opn H' (T ++ T') i n) /\ (ps <> [] -> forall n, In n N -> exists nd, nth_error H' n = Some nd /\ nch nd <> []).
Proof.
  intros Ei. induction ps as [|p ps IH]; intros Inc H T k Ok1 On Rep; cbn [foldr_].
  - exists H, k, []. rewrite app_nil_r. split; [reflexivity|]. split; auto. split; [apply keeps_refl|]. split; auto. congruence.
  - destruct (buildPart_l H T k N i ri rep p Ok1 On Ei ltac:(apply Inc; left; auto)) as (H1 & k1 & T1 & E1 & O1 & K1 & On1 & N1).
    { intros cs c. apply Rep. left. auto. }
    rewrite E1. cbn [bind].
    destruct (IH ltac:(intros x Hx; apply Inc; right; auto) H1 (T ++ T1) k1 O1 On1) as (H2 & k2 & T2 & E2 & O2 & K2 & On2 & N2).
    { intros q cs c Hq Eq Hc. destruct (Rep q cs c ltac:(right; auto) Eq Hc) as [Ne R]. split; auto.
      intros x Hx. eapply repOf_keeps; eauto. }
    exists H2, k2, (T1 ++ T2). rewrite app_assoc. split; auto. split; auto. split; [eapply keeps_trans; eauto|]. split; auto.
    intros _ n Hn. destruct (N1 n Hn) as (nd & En & Ne). destruct (K2 n nd En) as (nd' & En' & _ & In' & _).
    exists nd'. split; auto. destruct (nch nd) as [|c t]; [congruence|]. specialize (In' c ltac:(left; auto)). intros Z. rewrite Z in In'. destruct In'.
Qed.

Hypothesis expanded : forall i, ~ unexpanded G i.
Variables nd m g : nat.
Hypothesis m1 : 0 < m.
Hypothesis g1 : 0 < g.

Lemma okBut_close N H T i ri : nth_error (regs G) i = Some ri -> okBut N H T -> (forall n, In n N -> opn H T i n) ->
  (forall n, In n N -> exists nd, nth_error H n = Some nd /\ nch nd <> []) -> okBut [] H T.
Proof.
  intros Ei [L O1] On Ne. split; auto. intros u x j Eu Et _. destruct (in_dec Nat.eq_dec u N) as [Hu|Hu]; [|eapply O1; eauto].
  destruct (On u Hu) as (Et' & ws & ch & En & Lw & S & P). rewrite Et in Et'. injection Et' as ->.
  rewrite Eu in En. injection En as ->. exists ri. split; auto. simpl. split; auto.
  destruct (Ne u Hu) as (x & Ex & Nx). rewrite Eu in Ex. injection Ex as <-. auto.
Qed.

Lemma repsums_l H T i q : okBut [] H T -> 0 < q ->
  let N := seq (length H) q in
  okBut N (H ++ repeat (mkNode (KSum []) []) q) (T ++ repeat i q) /\
  (forall n, In n N -> opn (H ++ repeat (mkNode (KSum []) []) q) (T ++ repeat i q) i n).
Proof.
  intros [LT O1] Q N. assert (New : forall u, In u N -> nth_error (H ++ repeat (mkNode (A:=A) (KSum []) []) q) u = Some (mkNode (KSum []) []) /\
      nth_error (T ++ repeat i q) u = Some i).
  { intros u Hu. apply in_seq in Hu. rewrite !nth_error_app2 by lia. rewrite LT. split; apply nth_repeat_some; lia. }
  split.
  - split; [rewrite !app_length, !repeat_length; auto|]. intros u x j Eu Et Hu.
    assert (Lu : u < length H).
    { destruct (Nat.lt_ge_cases u (length H)); auto. exfalso. apply Hu, in_seq.
      assert (u < length (H ++ repeat (mkNode (A:=A) (KSum []) []) q)) by (apply nth_error_Some; congruence).
      rewrite app_length, repeat_length in *. lia. }
    rewrite nth_error_app1 in Eu by auto. rewrite nth_error_app1 in Et by lia.
    eapply nodeOk_keeps; [apply (keeps_app [])|]. eapply O1; eauto.
  - intros n Hn. destruct (New n Hn) as [E1 E2]. split; auto. exists [], []. split; auto. split; auto.
    split; [intros x []|intros c []].
Qed.

(** One region. *)
Lemma buildRegion_l H T k rep i ri : okBut [] H T -> nth_error (regs G) i = Some ri ->
  (forall p cs c, In p (rch ri) -> nth_error (parts G) p = Some cs -> In c cs -> rep c <> [] /\ forall x, In x (rep c) -> repOf H T c x) ->
  2 <= length sc ->
  exists H' k' T' N, buildRegion par logProb trunc round rnd G nd m g ((H, k), rep) i = Ok ((H', k'), upd rep i N) /\
    okBut [] H' (T ++ T') /\ keeps [] H H' /\ N <> [] /\ (forall x, In x N -> repOf H' (T ++ T') i x).
Proof.
  intros O0 Ei Rep L2. unfold buildRegion. unfold idx. rewrite Ei. cbn [bind].
  destruct (g_reg sc G I i ri Ei) as (Nk & Ne & _).
  assert (NoSelf : forall p cs, In p (rch ri) -> nth_error (parts G) p = Some cs -> ~ In i cs).
  { intros p cs Hp Ep Hi. destruct (part_sizes sc G I i ri p Ei Hp) as (a & b & Ep' & La & Lb & _).
    rewrite Ep in Ep'. injection Ep' as ->. destruct Hi as [->|[->|[]]]; lia. }
  assert (Sums : forall q, 0 < q -> 2 <= length (rsc ri) -> let N := seq (length H) q in
    exists H' k' T', foldr_ (fun st p => buildPart rnd G (upd rep i N) N p st) (rch ri) (H ++ repeat (mkNode (KSum []) []) q, k) = Ok (H', k') /\
      okBut [] H' (T ++ T') /\ keeps [] H H' /\ N <> [] /\ (forall x, In x N -> repOf H' (T ++ T') i x)).
  { intros q Q L N. destruct (repsums_l H T i q O0 Q) as [ON OpN]. fold N in ON, OpN.
    destruct (buildParts_l N i ri (upd rep i N) (rch ri) Ei (incl_refl _) _ _ k ON OpN) as (H1 & k1 & T1 & E1 & O1 & K1 & On1 & N1).
    { intros p cs c Hp Ep Hc. rewrite upd_diff by (intros ->; eapply NoSelf; eauto).
      destruct (Rep p cs c Hp Ep Hc) as [Nc Rc]. split; auto. intros x Hx. eapply repOf_keeps; [apply (keeps_app [])|auto]. }
    exists H1, k1, (repeat i q ++ T1). rewrite app_assoc. split; auto. split.
    { eapply okBut_close; eauto. apply N1. intros Z. apply (expanded i). exists ri. auto. }
    split; [|split].
    - intros u x Ex. destruct (K1 u x) as (x' & Ex' & D & In' & Same); [apply nth_old; auto|].
      exists x'. split; auto. split; auto. split; auto. intros _. apply Same. intros Hu. apply in_seq in Hu.
      assert (u < length H) by (apply nth_error_Some; congruence). lia.
    - unfold N. destruct q; [lia|discriminate].
    - intros x Hx. destruct (On1 x Hx) as (Et & ws & ch & En & _). eexists. split; [exact En|]. split; [discriminate|auto]. }
  destruct (Nat.eqb_spec i 0) as [->|Ni].
  - destruct (Sums 1 ltac:(lia)) as (H' & k' & T' & E & R).
    { destruct (g_root sc G I) as (r0 & E0 & Er0). rewrite Ei in E0. injection E0 as <-. rewrite Er0. auto. }
    simpl in E. simpl. rewrite E. cbn [bind]. exists H', k', T', [length H]. split; auto.
  - unfold translate. destruct (rsc ri) as [|[v q] [|e s]] eqn:Es; [congruence| |].
    + assert (Rc : rch ri = []).
      { destruct (rch ri) as [|p ps] eqn:Ec; auto. exfalso.
        destruct (part_sizes sc G I i ri p Ei) as (a & b & Ep & La & Lb & (ra & Ea) & (rb & Eb)); [rewrite Ec; left; auto|].
        unfold sz in La. rewrite Ei, Ea, Es in La. simpl in La. destruct (g_reg sc G I a ra Ea) as (_ & Na & _).
        destruct (rsc ra); [congruence|simpl in La; lia]. }
      rewrite Rc. cbn [foldr_ bind].
      set (qn := if nd <? g then 1 else g). assert (Q : 0 < qn) by (unfold qn; destruct (nd <? g); lia).
      match goal with |- context [H ++ ?l] => set (Lv := l) end.
      assert (LLv : length Lv = qn) by (unfold Lv; rewrite map_length, seq_length; auto).
      assert (New : forall u, length H <= u < length H + qn -> exists l, nth_error (H ++ Lv) u = Some (mkNode (KLeaf l) []) /\ (lsc l = [v] /\ exists j, l = gaussLeaf logProb trunc round v (fst (par v j)) (snd (par v j))) /\ nth_error (T ++ repeat i qn) u = Some i).
      { intros u Hu. rewrite !nth_error_app2 by (destruct O0; lia).
        destruct (nth_error Lv (u - length H)) as [x|] eqn:Ex; [|apply nth_error_None in Ex; lia].
        apply nth_error_In in Ex as Hx. unfold Lv in Hx. apply in_map_iff in Hx as (j & <- & _). eexists. split; [reflexivity|]. split; [split; [reflexivity|exists j; reflexivity]|].
        destruct O0 as [LT _]. rewrite LT. apply nth_repeat_some. lia. }
      exists (H ++ Lv), k, (repeat i qn), (seq (length H) qn). split; auto. split; [|split; [apply keeps_app|split]].
      * destruct O0 as [LT O1]. split; [rewrite !app_length, LLv, repeat_length; lia|].
        intros u x j Eu Et _. destruct (Nat.lt_ge_cases u (length H)) as [Lu|Lu].
        -- rewrite nth_error_app1 in Eu by auto. rewrite nth_error_app1 in Et by lia.
           eapply nodeOk_keeps; [apply (keeps_app [])|]. eapply O1; eauto.
        -- assert (u < length (H ++ Lv)) by (apply nth_error_Some; congruence). rewrite app_length in *.
           destruct (New u ltac:(lia)) as (l & E & Ls & Et'). rewrite Eu in E. injection E as ->. rewrite Et in Et'. injection Et' as ->.
           exists ri. split; auto. simpl. split; auto. exists v, q. auto.
      * destruct qn; [lia|discriminate].
      * intros x Hx. apply in_seq in Hx. destruct (New x Hx) as (l & E & _ & Et'). eexists. split; [exact E|]. split; [discriminate|auto].
    + destruct (Sums m m1) as (H' & k' & T' & E & R); [simpl; lia|]. rewrite E. cbn [bind].
      exists H', k', T', (seq (length H) m). split; auto.
Qed.

Lemma buildRegions_l R : ready G R -> 2 <= length sc -> exists H k T rep,
  foldr_ (buildRegion par logProb trunc round rnd G nd m g) R (([], 0), fun _ => []) = Ok ((H, k), rep) /\ okBut [] H T /\
  forall i, In i R -> rep i <> [] /\ forall x, In x (rep i) -> repOf H T i x.
Proof.
  intros Rd L2. induction Rd as [|l x r Rd IH Ex Ch].
  - exists [], 0, [], (fun _ => []). split; [reflexivity|]. split; [|intros i []]. split; auto. intros [|u] n i E; discriminate.
  - destruct IH as (H & k & T & rep & E & O1 & Rp). rewrite foldr_app, E. cbn [bind foldr_].
    destruct (buildRegion_l H T k rep x r O1 Ex) as (H' & k' & T' & N & E' & O' & K & Nn & RN); auto.
    { intros p cs c Hp Ep Hc. apply Rp. eapply Ch; eauto. }
    rewrite E'. cbn [bind]. exists H', k', (T ++ T'), (upd rep x N). split; [reflexivity|]. split; auto.
    intros i Hi. destruct (Nat.eq_dec i x) as [->|Ne].
    + rewrite upd_same. auto.
    + rewrite upd_diff by auto. apply in_app_iff in Hi as [Hi|[Hi|[]]]; [|congruence]. destruct (Rp i Hi) as [Nr Rr].
      split; auto. intros y Hy. eapply repOf_keeps; eauto.
Qed.

(** The network. *)
Lemma buildSPN_l fuel : 2 <= length sc -> length sc < fuel -> exists H z,
  buildSPN par logProb trunc round rnd fuel G nd m g = Ok (H, z) /\
  (forall u c, In c (children (netOf H) u) -> c < length H) /\ z < length H /\
  (forall x, in_scope (netOf H) z x <-> member sc x) /\ complete (netOf H) z /\ decomposable (netOf H) z /\
  acyclic_from (children (netOf H)) z /\ small_weights (A:=A) (netOf H) z /\ gaussian_leaves par logProb trunc round (netOf H).
Proof.
  intros L2 Lf. destruct (postorder_l sc G I fuel Lf) as (R & ER & Rd & H0R).
  destruct (buildRegions_l R Rd L2) as (H & k & T & rep & E & [LT O1] & Rp).
  unfold buildSPN. rewrite ER. cbn [bind]. rewrite E. cbn [bind fst snd].
  destruct (Rp 0 H0R) as [N0 R0]. destruct (rep 0) as [|z zs]; [congruence|]. unfold idx. cbn [nth_error bind].
  exists H, z. split; [reflexivity|]. destruct (R0 z ltac:(left; auto)) as (nz & Ez & Kz & Tz).
  assert (Node : forall u x, nth_error H u = Some x -> netOf H u = x) by (intros u x Eu; unfold netOf; apply nth_error_nth; auto).
  assert (Tag : forall u, u < length H -> exists x i, nth_error H u = Some x /\ nth_error T u = Some i /\ nodeOk H T i x).
  { intros u Lu. destruct (nth_error H u) as [x|] eqn:Eu; [|apply nth_error_None in Eu; lia].
    destruct (nth_error T u) as [i|] eqn:Et; [|apply nth_error_None in Et; lia]. exists x, i. split; auto. split; auto. eapply O1; eauto. }
  assert (Lp : forall i c, prodOf H T i c -> c < length H) by (intros i c (x & Ex & _); apply nth_error_Some; congruence).
  assert (Lr : forall i c, repOf H T i c -> c < length H) by (intros i c (x & Ex & _); apply nth_error_Some; congruence).
  assert (Bd : forall u c, In c (children (netOf H) u) -> u < length H /\ c < length H).
  { intros u c Hc. unfold children in Hc. destruct (Nat.lt_ge_cases u (length H)) as [Lu|Lu].
    - split; auto. destruct (Tag u Lu) as (x & i & Ex & _ & ri & _ & M). rewrite (Node u x Ex) in Hc. destruct (nk x) as [ws| |l].
      + destruct M as (_ & _ & _ & P). eapply Lp; eauto.
      + destruct M as (a & b & c1 & c2 & ra & rb & Ec & R1 & R2 & _). rewrite Ec in Hc. destruct Hc as [<-|[<-|[]]]; eapply Lr; eauto.
      + destruct M as (M & _). rewrite M in Hc. destruct Hc.
    - unfold netOf in Hc. rewrite nth_overflow in Hc by auto. destruct Hc. }
  split; [apply Bd|]. assert (Lz : z < length H) by (apply nth_error_Some; congruence). split; auto.
  set (lab := fun u x => exists i r, nth_error T u = Some i /\ nth_error (regs G) i = Some r /\ member (rsc r) x).
  set (rank := fun u => 2 * sz G (nth u T 0) + match nk (netOf H u) with KSum _ => 1 | _ => 0 end).
  assert (Lab : forall u i r x, nth_error T u = Some i -> nth_error (regs G) i = Some r -> lab u x <-> member (rsc r) x).
  { intros u i r x Et Er. split; [|intros; exists i, r; auto]. intros (i' & r' & Et' & Er' & Hx). congruence. }
  destruct (scoped_network (netOf H) lab rank (fun u => u < length H)) with (z := z) as (S1 & S2 & S3 & S4); auto.
  - intros u Lu. unfold fits_label. destruct (Tag u Lu) as (x & i & Ex & Et & ri & Eri & M). rewrite (Node u x Ex).
    destruct (nk x) as [ws| |l].
    + destruct M as (M1 & _ & _ & P). split; auto. intros c Hc y. destruct (P c Hc) as (nc & Ec & _ & Tc).
      rewrite (Lab u i ri y Et Eri), (Lab c i ri y Tc Eri). tauto.
    + destruct M as (a & b & c1 & c2 & ra & rb & Ec & (n1 & E1 & _ & T1) & (n2 & E2 & _ & T2) & Ea & Eb & Sp). rewrite Ec. split.
      * intros y. rewrite (Lab u i ri y Et Eri). destruct Sp as [U _]. rewrite U. split.
        -- intros [Hy|Hy]; [exists c1|exists c2]; (split; [simpl; auto|eapply Lab; eauto]).
        -- intros (c & [<-|[<-|[]]] & Hy); [left; apply (Lab c1 a ra y T1 Ea)|right; apply (Lab c2 b rb y T2 Eb)]; auto.
      * destruct Sp as [_ D]. intros [|[|i1]] [|[|j1]] c c' y ij Ei Ej Ly Ly'; try (simpl in *; discriminate); try congruence;
          simpl in Ei, Ej; try (destruct i1; discriminate); try (destruct j1; discriminate); injection Ei as <-; injection Ej as <-.
        -- apply (D y); [apply (Lab c1 a ra y T1 Ea)|apply (Lab c2 b rb y T2 Eb)]; auto.
        -- apply (D y); [apply (Lab c1 a ra y T1 Ea)|apply (Lab c2 b rb y T2 Eb)]; auto.
    + destruct M as (M1 & v & q & Er & Ls & _). split; auto. intros y. rewrite (Lab u i ri y Et Eri), Ls, Er. unfold member. simpl. tauto.
  - intros u c Lu Hc. destruct (Bd u c Hc) as [_ Lc]. split; auto. unfold rank.
    destruct (Tag u Lu) as (x & i & Ex & Et & ri & Eri & M). rewrite (Node u x Ex) in *.
    rewrite (nth_error_nth _ _ 0 Et). destruct (nk x) as [ws| |l].
    + destruct M as (_ & _ & _ & P). destruct (P c Hc) as (nc & Ec & Kc & Tc). rewrite (Node c nc Ec), Kc, (nth_error_nth _ _ 0 Tc). lia.
    + destruct M as (a & b & c1 & c2 & ra & rb & Ech & (n1 & E1 & _ & T1) & (n2 & E2 & _ & T2) & Ea & Eb & Sp).
      destruct (g_reg sc G I i ri Eri) as (Nr & _), (g_reg sc G I a ra Ea) as (Na & Ea' & _), (g_reg sc G I b rb Eb) as (Nb & Eb' & _).
      destruct (split_sizes _ _ _ Nr Na Nb Ea' Eb' Sp) as [La Lb'].
      assert (Szi : sz G i = length (rsc ri)) by (unfold sz; rewrite Eri; auto).
      rewrite Ech in Hc. destruct Hc as [<-|[<-|[]]].
      * rewrite (nth_error_nth _ _ 0 T1), Szi. unfold sz. rewrite Ea. destruct (nk (netOf H c1)); lia.
      * rewrite (nth_error_nth _ _ 0 T2), Szi. unfold sz. rewrite Eb. destruct (nk (netOf H c2)); lia.
    + destruct M as (M & _). rewrite M in Hc. destruct Hc.
  - destruct (g_root sc G I) as (r0 & E0 & Er0). split; [|split; [auto|split; [auto|split; [auto|split]]]].
    + intros x. rewrite S1, (Lab z 0 r0 x Tz E0), Er0. tauto.
    + intros u ws Ru Ku. assert (Lu : u < length H).
      { clear -Ru Lz Bd. induction Ru; auto. apply IHRu. eapply Bd; eauto. }
      destruct (Tag u Lu) as (x & i & Ex & Et & ri & Eri & M). rewrite (Node u x Ex) in *. rewrite Ku in M.
      destruct M as (M1 & M2 & M3 & _). auto.
    + intros u l Ku. destruct (Nat.lt_ge_cases u (length H)) as [Lu|Lu].
      * destruct (Tag u Lu) as (x & i & Ex & Et & ri & Eri & M). rewrite (Node u x Ex) in *. rewrite Ku in M.
        destruct M as (M1 & v & q & _ & _ & j & M2). split; auto. exists v, j. auto.
      * unfold netOf in Ku. rewrite nth_overflow in Ku by auto. discriminate.
Qed.
End B.
