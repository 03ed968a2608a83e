(** Proofs about the views of the data and the order in which regions are translated. *)
From Verif Require Import Base Res Arith GoMap DataSpec DataLemmas Dennis DennisSpec DennisScope DennisGraph DennisExpand.

Lemma memn_l x l : memn x l = true <-> In x l.
Proof. unfold memn. rewrite existsb_exists. split; [intros (y & H & E); apply Nat.eqb_eq in E; subst; auto|intros H; exists x; rewrite Nat.eqb_refl; auto]. Qed.

(** transpose. *)
Lemma addTo_keys V i p x : In x (map fst (addTo V i p)) <-> x = i \/ In x (map fst V).
Proof.
  induction V as [|[j c] V IH]; simpl; [intuition congruence|].
  destruct (Z.eqb_spec j i) as [->|Ne]; simpl; [intuition congruence|]. rewrite IH. tauto.
Qed.

Lemma addTo_nodup V i p : NoDup (map fst V) -> NoDup (map fst (addTo V i p)).
Proof.
  induction V as [|[j c] V IH]; simpl; intros N; [repeat constructor; simpl; tauto|].
  inversion N; subst. destruct (Z.eqb_spec j i) as [->|Ne]; simpl; constructor; auto.
  rewrite addTo_keys. intros [E|E]; auto.
Qed.

Lemma row_l c : forall k V, NoDup (map fst V) ->
  let V' := fold_left (fun V (ip : nat * Z) => addTo V (Z.of_nat (fst ip)) (snd ip)) (combine (seq k (length c)) c) V in
  NoDup (map fst V') /\ forall x, In x (map fst V') <-> In x (map fst V) \/ (Z.of_nat k <= x < Z.of_nat (k + length c))%Z.
Proof.
  induction c as [|v c IH]; intros k V N; simpl.
  - split; auto. intros x. split; [auto|]. intros [H|H]; [auto|lia].
  - destruct (IH (S k) (addTo V (Z.of_nat k) v) (addTo_nodup _ _ _ N)) as [N' H']. split; auto.
    intros x. rewrite H', addTo_keys. split.
    + intros [[->|H]|H]; [right; lia|auto|right; lia].
    + intros [H|H]; [auto|]. destruct (Z.eq_dec x (Z.of_nat k)); [auto|right; lia].
Qed.

Lemma transpose_l C n : C <> [] -> (forall c, In c C -> length c = n) ->
  NoDup (map fst (transpose C)) /\ forall x, In x (map fst (transpose C)) <-> (0 <= x < Z.of_nat n)%Z.
Proof.
  intros Ne Ln. unfold transpose.
  assert (G : forall C V, (forall c, In c C -> length c = n) -> NoDup (map fst V) ->
    let V' := fold_left (fun V c => fold_left (fun V (ip : nat * Z) => addTo V (Z.of_nat (fst ip)) (snd ip))
                (combine (seq 0 (length c)) c) V) C V in
    NoDup (map fst V') /\ forall x, In x (map fst V') <-> In x (map fst V) \/ (C <> [] /\ (0 <= x < Z.of_nat n)%Z)).
  { clear. induction C as [|c C IH]; intros V Ln N; simpl.
    - split; auto. intros x. split; [auto|]. intros [H|[H _]]; [auto|congruence].
    - destruct (row_l c 0 V N) as [N' H']. destruct (IH _ ltac:(intros; apply Ln; right; auto) N') as [N'' H''].
      split; auto. intros x. rewrite H'', H'. rewrite (Ln c) by (left; auto). simpl (0 + n). split.
      + intros [[H|H]|[_ H]]; [auto| |]; right; (split; [discriminate|lia]).
      + intros [H|[_ H]]; [auto|]. left. right. lia. }
  destruct (G C [] Ln ltac:(constructor)) as [N H]. split; auto. intros x. rewrite H. simpl. tauto.
Qed.

(** dataToCluster. *)
Lemma rowSlice_l I n : NoDup (keys I) -> (forall k, member I k <-> (0 <= k < Z.of_nat n)%Z) ->
  exists row, rowSlice I = Ok row /\ length row = n.
Proof.
  intros N M.
  assert (L : length I = n).
  { rewrite <- keys_length. transitivity (length (map Z.of_nat (seq 0 n))); [|rewrite map_length, seq_length; auto].
    apply Permutation_length, NoDup_Permutation; auto.
    - apply FinFun.Injective_map_NoDup; [intros a b; apply Nat2Z.inj|apply seq_NoDup].
    - intros x. change (In x (keys I)) with (member I x). rewrite M, in_map_iff. split.
      + intros H. exists (Z.to_nat x). rewrite in_seq. split; lia.
      + intros (y & <- & H). apply in_seq in H. lia. }
  unfold rowSlice.
  assert (G : forall l a, (forall e, In e l -> (0 <= fst e < Z.of_nat n)%Z) -> exists row,
    foldr_ (fun a (e : Z * Z) => if (fst e <? 0)%Z || (len I <=? fst e)%Z then Panic
              else Ok (set_nth (Z.to_nat (fst e)) (snd e) a)) l a = Ok row /\ length row = length a).
  { induction l as [|e l IH]; intros a H; simpl; [eauto|].
    assert (He : (0 <= fst e < Z.of_nat n)%Z) by (apply H; left; auto).
    destruct (Z.ltb_spec (fst e) 0); [lia|]. unfold len at 1. destruct (Z.leb_spec (Z.of_nat (length I)) (fst e)); [lia|]. simpl.
    destruct (IH (set_nth (Z.to_nat (fst e)) (snd e) a)) as (row & E & Lr); [intros; apply H; right; auto|].
    exists row. split; auto. rewrite Lr, set_nth_length. auto. }
  destruct (G I (repeat 0%Z (length I))) as (row & E & Lr).
  - intros e He. apply M. apply in_map. auto.
  - exists row. split; auto. rewrite Lr, repeat_length. auto.
Qed.

Lemma dataToCluster_l D n : complete_rows n D -> exists C, dataToCluster D = Ok C /\ C <> [] /\ forall c, In c C -> length c = n.
Proof.
  intros [Ne H]. unfold dataToCluster, mapi.
  assert (G : forall D i, (forall I, In I D -> NoDup (keys I) /\ forall k, member I k <-> (0 <= k < Z.of_nat n)%Z) ->
    exists C, mapi_from i (fun _ I => rowSlice I) D = Ok C /\ length C = length D /\ forall c, In c C -> length c = n).
  { clear. induction D as [|I D IH]; intros i H; simpl; [exists []; simpl; tauto|].
    destruct (H I ltac:(left; auto)) as [N M]. destruct (rowSlice_l I n N M) as (row & -> & L). simpl.
    destruct (IH (S i)) as (C & -> & LC & HC); [intros; apply H; right; auto|]. simpl.
    exists (row :: C). split; auto. split; [simpl; auto|]. intros c [<-|Hc]; auto. }
  destruct (G D 0 H) as (C & -> & LC & HC). exists C. split; auto. split; auto.
  intros ->. destruct D; [congruence|discriminate].
Qed.

Lemma views_l kmD db D k sc n : (forall x, member sc x -> (0 <= x < Z.of_nat n)%Z) -> good_views kmD db n D k ->
  exists Cs, views kmD db D k = Ok Cs /\ Cs <> [] /\
    forall C, In C Cs -> NoDup (map fst C) /\ forall x, member sc x -> In x (map fst C).
Proof.
  intros Sc [G1 [G2 G3]]. unfold views.
  assert (T : forall C, C <> [] -> (forall c, In c C -> length c = n) ->
    NoDup (map fst (transpose C)) /\ forall x, member sc x -> In x (map fst (transpose C))).
  { intros C Ne L. destruct (transpose_l C n Ne L) as [N H]. split; auto. intros x Hx. apply H. auto. }
  destruct (Z.ltb_spec 1 k) as [K|K].
  - destruct (G1 K) as [Lk Hk]. unfold mapi.
    assert (M : forall m i, i + m <= length (kmD D) -> exists Cs,
      mapi_from i (fun i (_ : unit) => Di <- idx (kmD D) i; c <- dataToCluster Di; Ok (transpose c)) (repeat tt m) = Ok Cs /\
      length Cs = m /\ forall C, In C Cs -> NoDup (map fst C) /\ forall x, member sc x -> In x (map fst C)).
    { induction m as [|m IH]; intros i L; simpl; [exists []; simpl; tauto|].
      unfold idx at 1. destruct (nth_error (kmD D) i) as [Di|] eqn:E; [|apply nth_error_None in E; lia]. simpl.
      destruct (dataToCluster_l Di n (Hk Di (nth_error_In _ _ E))) as (C & -> & Ne & HC). simpl.
      destruct (IH (S i) ltac:(lia)) as (Cs & -> & L' & HCs). simpl. eexists. split; [reflexivity|]. split; [simpl; lia|].
      intros X [<-|HX]; auto. }
    destruct (M (Z.to_nat k) 0 ltac:(lia)) as (Cs & E & L & H). exists Cs. split; auto. split; auto. intros ->. simpl in L. lia.
  - destruct (Z.eqb_spec k 1) as [->|K1].
    + destruct (dataToCluster_l D n (G2 eq_refl)) as (C & -> & Ne & HC). simpl. eexists. split; [reflexivity|].
      split; [discriminate|]. intros X [<-|[]]. auto.
    + destruct G3 as [Ne H]; [lia|]. eexists. split; [reflexivity|]. split.
      * destruct (db D); [congruence|discriminate].
      * intros X HX. apply in_map_iff in HX as (C & <- & HC). destruct (H C HC). apply T; auto.
Qed.

Lemma newGraph_l sc : NoDup (keys sc) -> sc <> [] -> ginv sc (newGraph sc).
Proof.
  intros N Ne. constructor; cbn [regs parts pkeys gid newGraph].
  - eexists. split; reflexivity.
  - intros [|[|i]] r E; simpl in E; try discriminate. injection E as <-. simpl. auto.
  - reflexivity.
  - intros [|[|i]] [|[|j]] r r' Ei Ej _; simpl in *; try discriminate. auto.
  - intros [|[|i]] r p E; simpl in E; try discriminate. injection E as <-. simpl. tauto.
  - simpl. tauto.
Qed.

Section B.
Context {A : arith}.
Variable ord : nat -> gmap -> gmap.
Variable ordC : nat -> columns -> columns.
Variable km : nat -> list (list Z) -> list nat.
Hypothesis all : visits_all ord.
Hypothesis allC : forall c m, Permutation (ordC c m) m.
Hypothesis km2 : two_clusters km.
Variable sc : gmap.
Variable kmD : list gmap -> list (list gmap).
Variable db : list gmap -> list (list (list Z)).

Lemma expands_l t fuel Cs : 2 <= length sc -> length sc <= fuel ->
  (forall C, In C Cs -> NoDup (map fst C) /\ forall x, member sc x -> In x (map fst C)) ->
  forall G, ginv sc G -> (forall i, unexpanded G i -> i = 0) ->
  exists G', foldr_ (fun G C => expandRegionGraph (A:=A) ord ordC km fuel G 0 C t) Cs G = Ok G' /\ ginv sc G' /\
    (Cs <> [] -> forall i, ~ unexpanded G' i).
Proof.
  intros L2 Lf. induction Cs as [|C Cs IH]; intros HC G I U; simpl.
  - exists G. split; [reflexivity|]. split; [exact I|congruence].
  - destruct (g_root sc G I) as (r & E & Er). destruct (HC C ltac:(left; auto)) as [NC Cov].
    destruct (expand_l (A:=A) ord ordC km all allC km2 sc C t NC Cov fuel G 0 r I E) as (G1 & E1 & I1 & _ & U1); [rewrite Er; auto|rewrite Er; auto| |].
    { intros i Un. left. auto. }
    rewrite E1. simpl. assert (U1' : forall i, ~ unexpanded G1 i) by (intros i Un; destruct (U1 i Un); apply U in H; auto).
    destruct (IH ltac:(intros; apply HC; right; auto) G1 I1) as (G2 & E2 & I2 & U2); [intros i Un; exfalso; eapply U1'; eauto|].
    exists G2. split; auto. split; auto. intros _. destruct Cs; [|apply U2; discriminate].
    simpl in E2. injection E2 as <-. auto.
Qed.

Lemma buildRegionGraph_l fuel D k t n : NoDup (keys sc) -> 2 <= length sc -> length sc <= fuel ->
  (forall x, member sc x -> (0 <= x < Z.of_nat n)%Z) -> good_views kmD db n D k ->
  exists G, buildRegionGraph (A:=A) ord ordC km kmD db fuel D sc k t = Ok G /\ ginv sc G /\ forall i, ~ unexpanded G i.
Proof.
  intros N L2 Lf Sc Gv. destruct (views_l kmD db D k sc n Sc Gv) as (Cs & E & Ne & HC).
  unfold buildRegionGraph. rewrite E. simpl.
  destruct (expands_l t fuel Cs L2 Lf HC (newGraph sc)) as (G & EG & I & U).
  - apply newGraph_l; auto. destruct sc; [simpl in L2; lia|discriminate].
  - intros [|[|i]] (r & Er & _); auto; discriminate.
  - exists G. auto.
Qed.
End B.

Section Post.
Variable sc : gmap.
Variable G : rgraph.
Hypothesis I : ginv sc G.

(** Every region comes after the regions of its partitions. *)
Inductive ready : list nat -> Prop :=
| ready_nil : ready []
| ready_snoc l x r : ready l -> nth_error (regs G) x = Some r ->
    (forall p cs c, In p (rch r) -> nth_error (parts G) p = Some cs -> In c cs -> In c l) -> ready (l ++ [x]).

Definition sz (i : nat) : nat := match nth_error (regs G) i with Some r => length (rsc r) | None => 0 end.
Definition done (p : nat) (V : visited) : Prop := forall cs c, nth_error (parts G) p = Some cs -> In c cs -> In c (out V).

Record vis (n : nat) (V : visited) : Prop := {
  v_ready : ready (out V);
  v_reg : forall x, In x (vr V) -> In x (out V) \/ n <= sz x;
  v_part : forall p, In p (vp V) -> done p V \/ exists q r, nth_error (regs G) q = Some r /\ In p (rch r) /\ n < sz q
}.
Record vext (V V' : visited) : Prop := {
  x_out : incl (out V) (out V');
  x_reg : forall x, In x (vr V') -> In x (out V') \/ In x (vr V);
  x_part : forall p, In p (vp V') -> done p V' \/ In p (vp V)
}.

Lemma done_mono p V V' : incl (out V) (out V') -> done p V -> done p V'.
Proof. intros Ic D cs c E H. apply Ic. eapply D; eauto. Qed.

Lemma vext_refl V : vext V V.
Proof. constructor; auto using incl_refl. Qed.
Lemma vext_trans V1 V2 V3 : vext V1 V2 -> vext V2 V3 -> vext V1 V3.
Proof.
  intros [a1 a2 a3] [b1 b2 b3]. constructor.
  - eapply incl_tran; eauto.
  - intros x Hx. destruct (b2 x Hx) as [H|H]; auto. destruct (a2 x H); auto.
  - intros p Hp. destruct (b3 p Hp) as [H|H]; auto. destruct (a3 p H); auto. left. eapply done_mono; eauto.
Qed.
Lemma vis_ext n V V' : vis n V -> vext V V' -> ready (out V') -> vis n V'.
Proof.
  intros [a1 a2 a3] [b1 b2 b3] R. constructor; auto.
  - intros x Hx. destruct (b2 x Hx) as [H|H]; auto. destruct (a2 x H); auto.
  - intros p Hp. destruct (b3 p Hp) as [H|H]; auto. destruct (a3 p H); auto. left. eapply done_mono; eauto.
Qed.

Lemma part_sizes n r p : nth_error (regs G) n = Some r -> In p (rch r) -> exists a b,
  nth_error (parts G) p = Some [a; b] /\ sz a < sz n /\ sz b < sz n /\
  (exists ra, nth_error (regs G) a = Some ra) /\ (exists rb, nth_error (regs G) b = Some rb).
Proof.
  intros E Hp. destruct (g_part sc G I n r p E Hp) as (a & b & ra & rb & Ep & Ea & Eb & Sp).
  destruct (g_reg sc G I n r E) as (Nr & _), (g_reg sc G I a ra Ea) as (Na & Ea' & _), (g_reg sc G I b rb Eb) as (Nb & Eb' & _).
  destruct (split_sizes _ _ _ Nr Na Nb Ea' Eb' Sp) as [L1 L2].
  exists a, b. unfold sz. rewrite E, Ea, Eb. eauto 10.
Qed.

Lemma part_owner n r q r' p : nth_error (regs G) n = Some r -> In p (rch r) ->
  nth_error (regs G) q = Some r' -> In p (rch r') -> n = q.
Proof.
  intros E Hp E' Hp'. destruct (g_part sc G I n r p E Hp) as (a & b & ra & rb & Ep & Ea & Eb & [U _]).
  destruct (g_part sc G I q r' p E' Hp') as (a' & b' & ra' & rb' & Ep' & Ea' & Eb' & [U' _]).
  rewrite Ep in Ep'. injection Ep' as <- <-. rewrite Ea in Ea'. injection Ea' as <-. rewrite Eb in Eb'. injection Eb' as <-.
  eapply (g_dist sc G I); eauto. intros x. rewrite U, U'. tauto.
Qed.

Lemma post_l fuel : forall n r V, nth_error (regs G) n = Some r -> sz n < fuel -> vis (sz n) V ->
  exists V', postorderRec G fuel n V = Ok V' /\ ready (out V') /\ vext V V' /\ In n (out V').
Proof.
  induction fuel as [|fuel IH]; intros n r V E Lf Vi; [lia|].
  cbn [postorderRec]. unfold idx at 1. rewrite E. cbn [bind].
  assert (Loop : forall ps, incl ps (rch r) -> forall V, vis (sz n) V -> exists V',
    foldr_ (fun V p =>
           if memn p (vp V) then Ok V else
           cs <- idx (parts G) p;
           foldr_ (fun V c => if memn c (vr V) then Ok V
                              else postorderRec G fuel c (mkVis (c :: vr V) (vp V) (out V)))
             cs (mkVis (vr V) (p :: vp V) (out V))) ps V = Ok V' /\
    ready (out V') /\ vext V V' /\ forall p, In p ps -> done p V').
  { induction ps as [|p ps IHp]; intros Ic V0 Vi0; simpl.
    - exists V0. split; auto. split; [apply Vi0|]. split; [apply vext_refl|tauto].
    - assert (Hp : In p (rch r)) by (apply Ic; left; auto).
      assert (Ic' : incl ps (rch r)) by (intros x Hx; apply Ic; right; auto).
      assert (Step : exists V1, (if memn p (vp V0) then Ok V0 else
           cs <- idx (parts G) p;
           foldr_ (fun V c => if memn c (vr V) then Ok V
                              else postorderRec G fuel c (mkVis (c :: vr V) (vp V) (out V)))
             cs (mkVis (vr V0) (p :: vp V0) (out V0))) = Ok V1 /\ ready (out V1) /\ vext V0 V1 /\ done p V1).
      { destruct (memn p (vp V0)) eqn:Mp.
        - apply memn_l in Mp. exists V0. split; auto. split; [apply Vi0|]. split; [apply vext_refl|].
          destruct (v_part _ _ Vi0 p Mp) as [D|(q & rq & Eq & Hq & Lq)]; auto.
          assert (n = q) by (eapply part_owner; eauto). subst q. lia.
        - destruct (part_sizes n r p E Hp) as (a & b & Ep & La & Lb & (ra & Ea) & (rb & Eb)).
          unfold idx. rewrite Ep. cbn [bind foldr_].
          set (W0 := mkVis (vr V0) (p :: vp V0) (out V0)).
          assert (VW : forall m, m < sz n -> vis m W0).
          { intros m Lm. constructor; simpl.
            - apply Vi0.
            - intros x Hx. destruct (v_reg _ _ Vi0 x Hx); auto. right. lia.
            - intros x [<-|Hx]; [right; exists n, r; auto|]. destruct (v_part _ _ Vi0 x Hx) as [D|(q & rq & Eq & Hq & Lq)]; auto.
              right. exists q, rq. split; auto. split; auto. lia. }
          assert (Child : forall c rc W, nth_error (regs G) c = Some rc -> sz c < sz n -> (forall m, m < sz n -> vis m W) ->
             (forall x, In x (vr W) -> In x (out W) \/ sz n <= sz x) -> exists W',
             (if memn c (vr W) then Ok W else postorderRec G fuel c (mkVis (c :: vr W) (vp W) (out W))) = Ok W' /\
             ready (out W') /\ vext W W' /\ In c (out W')).
          { intros c rc W Ec Lc VW' Rw. destruct (memn c (vr W)) eqn:Mc.
            - apply memn_l in Mc. exists W. split; auto. split; [apply (VW' 0); lia|]. split; [apply vext_refl|].
              destruct (Rw c Mc); [auto|lia].
            - destruct (IH c rc (mkVis (c :: vr W) (vp W) (out W)) Ec) as (W' & EW & RW & XW & CW); [lia| |].
              + destruct (VW' (sz c) Lc) as [a1 a2 a3]. constructor; simpl; auto. intros x [<-|Hx]; auto.
              + exists W'. split; auto. split; auto. split; auto. destruct XW as [x1 x2 x3]. constructor; auto.
                intros x Hx. destruct (x2 x Hx) as [H|[<-|H]]; auto. }
          destruct (Child a ra W0 Ea La VW) as (W1 & -> & R1 & X1 & C1).
          { intros x Hx. apply (v_reg _ _ Vi0 x Hx). }
          cbn [bind].
          destruct (Child b rb W1 Eb Lb) as (W2 & -> & R2 & X2 & C2).
          { intros m Lm. eapply vis_ext; eauto. }
          { intros x Hx. destruct (x_reg _ _ X1 x Hx) as [H|H]; auto.
            destruct (v_reg _ _ Vi0 x H) as [H'|H']; auto. left. apply (x_out _ _ X1). auto. }
          cbn [bind]. exists W2. split; auto. split; auto.
          assert (X02 : vext W0 W2) by (eapply vext_trans; eauto).
          assert (Dp : done p W2).
          { intros cs c Ecs Hc. rewrite Ep in Ecs. injection Ecs as <-. destruct Hc as [<-|[<-|[]]]; auto. apply (x_out _ _ X2). auto. }
          split; auto. destruct X02 as [x1 x2 x3]. constructor; auto.
          intros x Hx. destruct (x3 x Hx) as [H|[<-|H]]; auto. }
      destruct Step as (V1 & -> & R1 & X1 & D1). cbn [bind].
      destruct (IHp Ic' V1) as (V2 & E2 & R2 & X2 & D2); [eapply vis_ext; eauto|].
      exists V2. split; auto. split; auto. split; [eapply vext_trans; eauto|].
      intros x [<-|Hx]; auto. eapply done_mono; [apply X2|auto]. }
  destruct (Loop (rch r) (incl_refl _) V Vi) as (V' & -> & R & X & D). cbn [bind].
  eexists. split; [reflexivity|]. cbn [out]. split; [|split].
  - apply (ready_snoc _ _ r); auto. intros p cs c Hp Ep Hc. eapply D; eauto.
  - destruct X as [x1 x2 x3]. constructor; simpl.
    + apply incl_appl. auto.
    + intros x Hx. destruct (x2 x Hx); auto. left. apply in_app_iff. auto.
    + intros p Hp. destruct (x3 p Hp); auto. left. eapply done_mono; [|eauto]. apply incl_appl, incl_refl.
  - apply in_app_iff. right. left. auto.
Qed.

Lemma postorder_l fuel : length sc < fuel -> exists O', postorder G fuel = Ok O' /\ ready O' /\ In 0 O'.
Proof.
  intros Lf. destruct (g_root sc G I) as (r & E & Er). unfold postorder.
  destruct (post_l fuel 0 r (mkVis [0] [] []) E) as (V & EV & R & _ & H0).
  - unfold sz. rewrite E, Er. auto.
  - constructor; simpl; [constructor| |tauto]. intros x [<-|[]]. auto.
  - rewrite EV. simpl. eauto.
Qed.
End Post.
