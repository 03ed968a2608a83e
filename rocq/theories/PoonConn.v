(** Proofs about conRegions and connectRegions. *)
From Verif Require Import Base Res Arith GraphSpec Spn Leaves Build Poon PoonSpec PoonCodes PoonLemmas
  PoonLink ProbSpec ScopedLemmas.
Local Open Scope Z_scope.

Definition area (a : rect) : Z := (right a - left a) * (bottom a - top a).

Lemma cut_area a b c : cut a b c -> left a < right a -> top a < bottom a ->
  0 < area b < area a /\ 0 < area c < area a.
Proof.
  unfold area. intros [(x & X & [[-> ->]|[-> ->]])|(y & Y & [[-> ->]|[-> ->]])] I1 I2; simpl; nia.
Qed.

Lemma pixel_unique w x y x' y' : 0 <= x < w -> 0 <= x' < w -> x + y * w = x' + y' * w -> x = x' /\ y = y'.
Proof. intros. assert (y = y') by nia. subst. lia. Qed.

Lemma cut_pixel w h a b c : inside w h a -> cut a b c ->
  (forall p, pixel w a p <-> pixel w b p \/ pixel w c p) /\ (forall p, pixel w b p -> ~ pixel w c p).
Proof.
  unfold inside, pixel. intros I [(x & X & [[-> ->]|[-> ->]])|(y & Y & [[-> ->]|[-> ->]])]; simpl; split.
  all: try (intros p; split;
    [ intros (x0 & y0 & B1 & B2 & ->); first [destruct (Z.lt_ge_cases x0 x) | destruct (Z.lt_ge_cases y0 y)];
      solve [left; exists x0, y0; repeat split; lia | right; exists x0, y0; repeat split; lia]
    | intros [(x0 & y0 & B1 & B2 & ->)|(x0 & y0 & B1 & B2 & ->)]; exists x0, y0; repeat split; lia]).
  all: intros p (x0 & y0 & B1 & B2 & E) (x3 & y3 & B3 & B4 & E');
    destruct (pixel_unique w x0 y0 x3 y3); lia.
Qed.

Lemma pixel_all w h : 0 < w -> 0 < h -> forall p, pixel w (Rect 0 0 w h) p <-> 0 <= p < w * h.
Proof.
  intros Hw Hh p. unfold pixel; simpl. split.
  - intros (x & y & X & Y & ->). nia.
  - intros Hp. exists (p mod w), (p / w). split; [apply Z.mod_pos_bound; lia|].
    split; [split; [apply Z.div_pos; lia|apply Z.div_lt_upper_bound; lia]|].
    pose proof (Z.div_mod p w). lia.
Qed.

Section Valid.
Context {A : arith}.
Local Notation F := (F A).
Variables w h : Z.
Hypothesis w1 : 0 < w.
Hypothesis h1 : 0 < h.
Variable L : table.
Variables (H : nodes A) (G : nat -> rect).
Hypothesis Gd : good w h L H G.
Hypothesis Tb : tableOk w h L H G.
Variable D : rect -> Prop.
Hypothesis Dprod : forall u n c, nth_error H u = Some n -> isProd n -> In c (nch n) -> D (G u) -> D (G c).
Hypothesis Dfill : forall a R, inside w h a -> D a -> ~ unitR a -> L (code w h a) = Some R -> filled H R.

Definition reached (u : nat) : Prop :=
  exists n, nth_error H u = Some n /\ D (G u) /\ (isSum n -> held w h L G u).

Definition rk (u : nat) : nat :=
  Z.to_nat (2 * area (G u) + match nk (netOf H u) with KSum _ => 1 | _ => 0 end).

Lemma netOf_nth u n : nth_error H u = Some n -> netOf H u = n.
Proof. intros E. unfold netOf. apply nth_error_nth. auto. Qed.

Lemma reached_filled u n : nth_error H u = Some n -> isSum n -> D (G u) -> held w h L G u -> nch n <> [].
Proof.
  intros E S Du (R & EL & I). destruct (Gd u n E) as [Iu _].
  destruct (Tb _ _ Iu EL) as [_ Rk]. destruct (Rk u I) as (n' & E' & _ & Un & _).
  assert (n' = n) by congruence. subst n'.
  assert (NU : ~ unitR (G u)).
  { intros U. specialize (Un U). unfold isSum, isLeaf in *. destruct (nk n); contradiction. }
  destruct (Dfill _ _ Iu Du NU EL u I) as (n' & E2 & Ne). congruence.
Qed.

Lemma valid_l z a : reached z -> G z = a ->
  (forall p, in_scope (netOf H) z p <-> pixel w a p) /\ complete (netOf H) z /\
  decomposable (netOf H) z /\ acyclic_from (children (netOf H)) z /\ small_weights (netOf H) z.
Proof.
  intros Rz <-.
  assert (Ar : forall u n, nth_error H u = Some n -> 0 < area (G u)).
  { intros u n E. destruct (Gd u n E) as [Iu _]. unfold inside in Iu. unfold area. nia. }
  assert (Fits : forall u, reached u -> fits_label (netOf H) (fun u => pixel w (G u)) u).
  { intros u (n & E & Du & Hu). unfold fits_label. rewrite (netOf_nth u n E).
    destruct (Gd u n E) as [Iu K]. destruct (nk n) as [ws| |l] eqn:Kn.
    - split.
      + assert (Sn : isSum n) by (unfold isSum; rewrite Kn; exact Logic.I).
        apply (reached_filled u n E Sn Du (Hu Sn)).
      + intros c Hc x. destruct K as (_ & _ & K). destruct (K c Hc) as [-> _]. tauto.
    - destruct K as (b & c & nb & nc & -> & Ct & _). destruct (cut_pixel w h _ _ _ Iu Ct) as [Cov Dis]. split.
      + intros x. rewrite Cov. split.
        * intros [B|C]; [exists b|exists c]; simpl; auto.
        * intros (d & [<-|[<-|[]]] & Hd); auto.
      + intros i j d d' x ij Ei Ej Hd Hd'.
        destruct i as [|[|i]]; simpl in Ei; try (destruct i; discriminate); injection Ei as <-;
        destruct j as [|[|j]]; simpl in Ej; try (destruct j; discriminate); injection Ej as <-;
        try congruence; eapply Dis; eauto.
    - destruct K as (Nl & [U1 U2] & Sc). split; auto. intros x. rewrite Sc. unfold pixel. split.
      + intros [<-|[]]. exists (left (G u)), (top (G u)). repeat split; lia.
      + intros (x0 & y0 & B1 & B2 & ->). left. assert (x0 = left (G u)) by lia. assert (y0 = top (G u)) by lia. congruence. }
  assert (Closed : forall u c, reached u -> In c (nch (netOf H u)) -> reached c /\ (rk c < rk u)%nat).
  { intros u c (n & E & Du & Hu). rewrite (netOf_nth u n E). intros Hc.
    destruct (Gd u n E) as [Iu K]. unfold rk. rewrite (netOf_nth u n E).
    destruct (nk n) as [ws| |l] eqn:Kn.
    - destruct K as (_ & _ & K). destruct (K c Hc) as [Eg (nc & Ec & Pc)].
      rewrite (netOf_nth c nc Ec). rewrite Eg. split.
      + exists nc. rewrite Eg. split; auto. split; auto. intros S. unfold isSum, isProd in *.
        destruct (nk nc); contradiction.
      + unfold isProd in Pc. destruct (nk nc); try contradiction. pose proof (Ar u n E). lia.
    - destruct K as (b & d & nb & nd & Ech & Ct & Eb & Ed & _ & _ & Hb & Hd). 
      assert (Pn : isProd n) by (unfold isProd; rewrite Kn; exact Logic.I).
      assert (Dc : D (G c)) by exact (Dprod u n c E Pn Hc Du).
      unfold inside in Iu. destruct (cut_area _ _ _ Ct) as [Ab Ad]; try lia.
      rewrite Ech in Hc. destruct Hc as [<-|[<-|[]]].
      + split; [exists nb; auto|]. destruct (nk (netOf H b)); lia.
      + split; [exists nd; auto|]. destruct (nk (netOf H d)); lia.
    - destruct K as [Nl _]. rewrite Nl in Hc. destruct Hc. }
  destruct (scoped_network (netOf H) (fun u => pixel w (G u)) rk reached Fits Closed z Rz) as (S1 & S2 & S3 & S4).
  split; auto. split; auto. split; auto. split; auto.
  intros u ws R K. pose proof (P_reach (netOf H) rk reached Closed z u R Rz) as (n & E & Du & Hu).
  rewrite (netOf_nth u n E) in *. destruct (Gd u n E) as [_ Kg]. 
  assert (Sn : isSum n) by (unfold isSum; rewrite K; exact Logic.I).
  rewrite K in Kg. destruct Kg as (Lw & Fw & _). split.
  - eapply reached_filled; eauto.
  - split; auto. intros x Hx. rewrite Forall_forall in Fw. apply Fw; auto.
Qed.
End Valid.

Section Cuts.
Variables w h r : Z.
Hypothesis r1 : 0 < r.
Local Notation inside := (inside w h).
Local Notation code := (code w h).

Definition aligned (a : rect) : Prop := (r | left a) /\ (r | top a) /\ (r | right a) /\ (r | bottom a).
Definition in_cell (a : rect) : Prop :=
  exists i j, i * r <= left a /\ right a <= (i + 1) * r /\ j * r <= top a /\ bottom a <= (j + 1) * r.

(** The cut distance fits the region. *)
Definition okStep (d : Z) (a : rect) : Prop := (d = 1 /\ in_cell a) \/ (d = r /\ aligned a).

Lemma cutx_ok d a x : inside a -> okStep d a -> In x (steps (left a + d) (right a - 1) d) ->
  left a < x < right a /\ region_at r (Rect x (top a) (right a) (bottom a)) /\
  region_at r (Rect (left a) (top a) x (bottom a)).
Proof.
  intros Ia [[-> (i & j & K)]|[-> (A1 & A2 & A3 & A4)]] I; apply In_steps in I; try lia.
  - split; [lia|]. split; right; exists i, j; simpl; lia.
  - destruct I as [I Dv]. split; [lia|].
    assert (Dx : (r | x)).
    { replace x with ((x - (left a + r)) + (left a + r)) by lia.
      apply Z.divide_add_r; auto. apply Z.divide_add_r; auto. apply Z.divide_refl. }
    split; left; simpl; auto.
Qed.

Lemma cuty_ok d a y : inside a -> okStep d a -> In y (steps (top a + d) (bottom a - 1) d) ->
  top a < y < bottom a /\ region_at r (Rect (left a) y (right a) (bottom a)) /\
  region_at r (Rect (left a) (top a) (right a) y).
Proof.
  intros Ia [[-> (i & j & K)]|[-> (A1 & A2 & A3 & A4)]] I; apply In_steps in I; try lia.
  - split; [lia|]. split; right; exists i, j; simpl; lia.
  - destruct I as [I Dv]. split; [lia|].
    assert (Dx : (r | y)).
    { replace y with ((y - (top a + r)) + (top a + r)) by lia.
      apply Z.divide_add_r; auto. apply Z.divide_add_r; auto. apply Z.divide_refl. }
    split; left; simpl; auto.
Qed.

(** A list of pairs of codes of the parts of cuts of [a] into regions. *)
Definition goodCuts (a : rect) (l : list (Z * Z)) : Prop :=
  forall pq, In pq l -> exists b c, pq = (code b, code c) /\ cut a b c /\ region_at r b /\ region_at r c.

Lemma cuts_good d a : inside a -> okStep d a -> goodCuts a (cuts w h d (left a) (top a) (right a) (bottom a)).
Proof.
  intros Ia Ok pq I. unfold cuts in I. apply in_app_or in I.
  destruct I as [I|I]; apply in_map_iff in I; destruct I as (x & <- & I).
  - destruct (cutx_ok d a x Ia Ok I) as (B & R1 & R2).
    exists (Rect (left a) (top a) x (bottom a)), (Rect x (top a) (right a) (bottom a)).
    split; [reflexivity|]. split; auto. left. exists x. auto.
  - destruct (cuty_ok d a x Ia Ok I) as (B & R1 & R2).
    exists (Rect (left a) x (right a) (bottom a)), (Rect (left a) (top a) (right a) x).
    split; [reflexivity|]. split; auto. right. exists x. auto.
Qed.

Lemma aligned_cell a : inside a -> aligned a -> right a - left a <= r -> bottom a - top a <= r -> in_cell a.
Proof.
  intros Ia ((i & Ei) & (j & Ej) & (i' & Ei') & (j' & Ej')) Bx By. unfold PoonSpec.inside in Ia.
  exists i, j. assert (i' = i + 1) by nia. assert (j' = j + 1) by nia. subst i' j'. lia.
Qed.

Lemma conCuts_good a : inside a -> region_at r a ->
  goodCuts a (conCuts w h r (left a) (top a) (right a) (bottom a)) /\
  (~ unitR a -> conCuts w h r (left a) (top a) (right a) (bottom a) <> []).
Proof.
  intros Ia Ra. unfold conCuts. cbv zeta.
  set (d := if (right a - left a <=? r) && (bottom a - top a <=? r) then 1 else r).
  assert (Ok : okStep d a /\ (d = 1 \/ r < right a - left a \/ r < bottom a - top a)).
  { unfold d. destruct (Z.leb_spec (right a - left a) r), (Z.leb_spec (bottom a - top a) r); cbn [andb].
    - split; auto. left. split; auto. destruct Ra as [Al|C]; auto. apply aligned_cell; auto.
    - split; auto. right. split; auto. destruct Ra as [Al|(i & j & C)]; auto. lia.
    - split; auto. right. split; auto. destruct Ra as [Al|(i & j & C)]; auto. lia.
    - split; auto. right. split; auto. destruct Ra as [Al|(i & j & C)]; auto. lia. }
  destruct Ok as [Ok Big]. split.
  - intros pq I. apply in_app_or in I.
    destruct I as [I|I]; apply in_map_iff in I; destruct I as (x & <- & I).
    + destruct (cutx_ok d a x Ia Ok I) as (B & R1 & R2).
      exists (Rect x (top a) (right a) (bottom a)), (Rect (left a) (top a) x (bottom a)).
      split; [reflexivity|]. split; auto. left. exists x. auto.
    + destruct (cuty_ok d a x Ia Ok I) as (B & R1 & R2).
      exists (Rect (left a) x (right a) (bottom a)), (Rect (left a) (top a) (right a) x).
      split; [reflexivity|]. split; auto. right. exists x. auto.
  - intros NU E. apply app_eq_nil in E. destruct E as [E1 E2]. apply map_eq_nil in E1, E2.
    unfold PoonSpec.inside in Ia. unfold unitR in NU.
    assert (Dp : 0 < d) by (unfold d; destruct (_ && _); lia).
    assert (Nx : ~ left a + d <= right a - 1).
    { intros X. assert (I : In (left a + d) (steps (left a + d) (right a - 1) d)).
      { apply In_steps; auto. split; [lia|]. rewrite Z.sub_diag. apply Z.divide_0_r. }
      rewrite E1 in I. destruct I. }
    assert (Ny : ~ top a + d <= bottom a - 1).
    { intros X. assert (I : In (top a + d) (steps (top a + d) (bottom a - 1) d)).
      { apply In_steps; auto. split; [lia|]. rewrite Z.sub_diag. apply Z.divide_0_r. }
      rewrite E2 in I. destruct I. }
    destruct Ok as [[-> _]|[-> _]]; lia.
Qed.

Lemma cuts_ne d a : inside a -> 0 < d -> d < right a - left a \/ d < bottom a - top a ->
  cuts w h d (left a) (top a) (right a) (bottom a) <> [].
Proof.
  intros Ia Dp Big E. apply app_eq_nil in E. destruct E as [E1 E2]. apply map_eq_nil in E1, E2.
  destruct Big as [B|B].
  - assert (I : In (left a + d) (steps (left a + d) (right a - 1) d)).
    { apply In_steps; auto. split; [lia|]. rewrite Z.sub_diag. apply Z.divide_0_r. }
    rewrite E1 in I. destruct I.
  - assert (I : In (top a + d) (steps (top a + d) (bottom a - 1) d)).
    { apply In_steps; auto. split; [lia|]. rewrite Z.sub_diag. apply Z.divide_0_r. }
    rewrite E2 in I. destruct I.
Qed.
End Cuts.
