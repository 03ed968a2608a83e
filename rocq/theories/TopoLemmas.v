From Verif Require Import Base GraphSpec GraphLemmas Topo.

Section L.
Variable ch : graph.

(** ** Recursive sort *)
Record ext (st st' : list nat * list nat) (new : list nat) (roots : list nat) : Prop := {
  ext_out : fst st' = fst st ++ new;
  ext_V : forall x, In x (snd st') <-> In x (snd st) \/ In x new;
  ext_nd : NoDup new;
  ext_new : forall x, In x new -> ~ In x (snd st);
  ext_cl : forall x c, In x new -> In c (ch x) -> In c (snd st');
  ext_reach : forall x, In x new -> exists c, In c roots /\ reach ch c x;
  ext_roots : forall c, In c roots -> In c (snd st');
  ext_ord : acyclic ch -> forall a x b, new = a ++ x :: b -> forall c, In c (ch x) ->
            In c a \/ In c (snd st) }.

Lemma NoDup_app_intro {A} (l1 l2 : list A) :
  NoDup l1 -> NoDup l2 -> (forall x, In x l1 -> ~ In x l2) -> NoDup (l1 ++ l2).
Proof.
  induction l1 as [|h t IH]; simpl; intros H1 H2 H; auto.
  inversion H1; subst. constructor.
  - rewrite in_app_iff. intros [|]; auto. apply (H h); auto.
  - apply IH; auto.
Qed.

Lemma split_app_cases {A} (l1 l2 a b : list A) x :
  l1 ++ l2 = a ++ x :: b ->
  (exists b', l1 = a ++ x :: b' /\ b = b' ++ l2) \/ (exists a', a = l1 ++ a' /\ l2 = a' ++ x :: b).
Proof.
  revert a. induction l1 as [|h t IH]; intros a E; simpl in *.
  - right. exists a. auto.
  - destruct a as [|k a]; simpl in E; injection E as <- E.
    + left. exists t. subst b. auto.
    + destruct (IH a E) as [(b' & -> & ->)|(a' & -> & ->)]; [left|right]; eexists; split; reflexivity.
Qed.

Lemma ext_comp st st1 st2 n1 n2 r1 r2 :
  ext st st1 n1 r1 -> ext st1 st2 n2 r2 -> ext st st2 (n1 ++ n2) (r1 ++ r2).
Proof.
  intros E1 E2. constructor.
  - rewrite (ext_out _ _ _ _ E2), (ext_out _ _ _ _ E1). symmetry. apply app_assoc.
  - intros x. rewrite (ext_V _ _ _ _ E2), (ext_V _ _ _ _ E1), in_app_iff. tauto.
  - apply NoDup_app_intro; [apply E1|apply E2|].
    intros x H1 H2. apply (ext_new _ _ _ _ E2 x H2). apply (ext_V _ _ _ _ E1). auto.
  - intros x H. apply in_app_or in H. destruct H as [H|H].
    + apply (ext_new _ _ _ _ E1); auto.
    + intros Hx. apply (ext_new _ _ _ _ E2 x H). apply (ext_V _ _ _ _ E1). auto.
  - intros x c H Hc. apply in_app_or in H. destruct H as [H|H].
    + apply (ext_V _ _ _ _ E2). left. eapply (ext_cl _ _ _ _ E1); eauto.
    + eapply (ext_cl _ _ _ _ E2); eauto.
  - intros x H. apply in_app_or in H. destruct H as [H|H].
    + destruct (ext_reach _ _ _ _ E1 x H) as (c & ? & ?). exists c. rewrite in_app_iff. auto.
    + destruct (ext_reach _ _ _ _ E2 x H) as (c & ? & ?). exists c. rewrite in_app_iff. auto.
  - intros c H. apply in_app_or in H. destruct H as [H|H].
    + apply (ext_V _ _ _ _ E2). left. apply (ext_roots _ _ _ _ E1); auto.
    + apply (ext_roots _ _ _ _ E2); auto.
  - intros Ha a x b E c Hc. apply split_app_cases in E.
    destruct E as [(b' & E & _)|(a' & -> & E)].
    + eapply (ext_ord _ _ _ _ E1); eauto.
    + destruct (ext_ord _ _ _ _ E2 Ha _ _ _ E c Hc) as [H|H].
      * left. apply in_or_app; auto.
      * apply (ext_V _ _ _ _ E1) in H. rewrite in_app_iff. tauto.
Qed.

Lemma ext_id st r : (forall c, In c r -> In c (snd st)) -> ext st st [] r.
Proof.
  intros H. constructor; simpl; auto.
  - symmetry; apply app_nil_r.
  - intros; tauto.
  - constructor.
  - intros ? ? [].
  - intros ? [].
  - intros _ a x b E. destruct a; discriminate.
Qed.

Definition vfold f := fun acc c =>
  match acc with None => None | Some s => visit ch f c s end.

Lemma vfold_None f cs : fold_left (vfold f) cs None = None.
Proof. induction cs; simpl; auto. Qed.

Lemma visit_unfold f u out V :
  visit ch (S f) u (out, V) =
  if memn u V then Some (out, V) else
  match fold_left (vfold f) (ch u) (Some (out, u :: V)) with
  | None => None | Some (out', V') => Some (out' ++ [u], V') end.
Proof. reflexivity. Qed.

Lemma visit_ext : forall f u st st',
  visit ch f u st = Some st' -> exists new, ext st st' new [u].
Proof.
  induction f as [|f IH]; intros u [out V] st'; [discriminate|].
  rewrite visit_unfold. destruct (memn u V) eqn:Em.
  - intros E; injection E as <-. exists []. apply ext_id. simpl.
    intros c [<-|[]]. apply memn_In; auto.
  - apply memn_false in Em.
    assert (Hf : forall cs s s', fold_left (vfold f) cs (Some s) = Some s' ->
                 exists new, ext s s' new cs).
    { induction cs as [|c cs IHc]; simpl; intros s s' E.
      - injection E as <-. exists []. apply ext_id. intros ? [].
      - destruct (visit ch f c s) as [s1|] eqn:E1; [|rewrite vfold_None in E; discriminate].
        destruct (IH _ _ _ E1) as [n1 X1]. destruct (IHc _ _ E) as [n2 X2].
        exists (n1 ++ n2). apply (ext_comp _ _ _ _ _ _ _ X1 X2). }
    destruct (fold_left (vfold f) (ch u) (Some (out, u :: V))) as [[out' V']|] eqn:E; [|discriminate].
    intros E'; injection E' as <-. destruct (Hf _ _ _ E) as [new X].
    exists (new ++ [u]). pose proof (ext_out _ _ _ _ X) as Xo. simpl in Xo.
    constructor; simpl.
    + rewrite Xo. symmetry; apply app_assoc.
    + intros x. rewrite (ext_V _ _ _ _ X x). simpl. rewrite in_app_iff. simpl. tauto.
    + apply NoDup_app_intro; [apply X|repeat constructor; simpl; tauto|].
      intros x Hx [<-|[]]. apply (ext_new _ _ _ _ X u Hx). simpl; auto.
    + intros x Hx. apply in_app_or in Hx. destruct Hx as [Hx|[<-|[]]]; auto.
      intros HV. apply (ext_new _ _ _ _ X x Hx). simpl; auto.
    + intros x c Hx Hc. apply in_app_or in Hx. destruct Hx as [Hx|[<-|[]]].
      * apply (ext_cl _ _ _ _ X x c Hx Hc).
      * apply (ext_roots _ _ _ _ X c Hc).
    + intros x Hx. exists u. split; auto. apply in_app_or in Hx.
      destruct Hx as [Hx|[<-|[]]]; [|apply reach_refl].
      destruct (ext_reach _ _ _ _ X x Hx) as (c & Hc & Hr). eapply reach_step; eauto.
    + intros c [<-|[]]. apply (ext_V _ _ _ _ X). simpl; auto.
    + intros Ha a x b Es c Hc. apply split_app_cases in Es.
      destruct Es as [(b' & Es & _)|(a' & -> & Es)].
      * destruct (ext_ord _ _ _ _ X Ha _ _ _ Es c Hc) as [H|H]; auto.
        destruct H as [<-|H]; auto. exfalso.
        assert (Hx : In x new) by (rewrite Es; apply in_or_app; right; left; auto).
        destruct (ext_reach _ _ _ _ X x Hx) as (d & Hd & Hr).
        apply (Ha u d Hd). eapply reach_snoc; eauto.
      * destruct a' as [|k a']; [|destruct a'; discriminate].
        injection Es as <- _. rewrite app_nil_r.
        pose proof (ext_roots _ _ _ _ X c Hc) as HR. apply (ext_V _ _ _ _ X) in HR.
        simpl in HR. destruct HR as [[<-|HR]|HR]; auto.
        exfalso. apply (acyclic_no_self ch u Ha Hc).
Qed.

Lemma visit_fuel N : bounded ch N -> forall f u st, u < N -> unv N (snd st) < f ->
  exists st', visit ch f u st = Some st'.
Proof.
  intros HB. induction f as [|f IH]; intros u [out V] Hu Hf; [lia|].
  rewrite visit_unfold. destruct (memn u V) eqn:Em; eauto.
  apply memn_false in Em. simpl in Hf.
  assert (Hf' : unv N (u :: V) < f) by (pose proof (unv_cons_lt N V u Hu Em); lia).
  assert (Hc : forall cs s, (forall c, In c cs -> c < N) -> unv N (snd s) < f ->
             exists s', fold_left (vfold f) cs (Some s) = Some s').
  { induction cs as [|c cs IHc]; simpl; intros s Hb Hs; eauto.
    destruct (IH c s) as [s1 E1]; auto. rewrite E1. apply IHc; auto.
    destruct (visit_ext _ _ _ _ E1) as [n X].
    eapply Nat.le_lt_trans; [|exact Hs]. apply unv_mono.
    intros x Hx. apply (ext_V _ _ _ _ X). auto. }
  destruct (Hc (ch u) (out, u :: V)) as [[o' V'] E]; auto.
  - intros c Hc'. eapply HB; eauto.
  - rewrite E. eauto.
Qed.

Lemma topSortTarjanRec_l N r : bounded ch N -> r < N ->
  exists l, topSortTarjanRec ch (S N) r = Some l /\ enumerates ch r l /\
            (acyclic ch -> dependency_order ch l) /\ (exists l0, l = l0 ++ [r]).
Proof.
  intros HB Hr. unfold topSortTarjanRec.
  destruct (visit_fuel N HB (S N) r ([], [])) as [[out V] E]; auto.
  { simpl. rewrite unv_nil. lia. }
  rewrite E. exists out. split; auto.
  pose proof E as E0. rewrite visit_unfold in E0. simpl in E0.
  destruct (fold_left (vfold N) (ch r) (Some ([], [r]))) as [[o' V']|]; [|discriminate].
  destruct (visit_ext _ _ _ _ E) as [new X].
  pose proof (ext_out _ _ _ _ X) as Xo. simpl in Xo. subst new.
  repeat split.
  - apply X.
  - intros H. destruct (ext_reach _ _ _ _ X x H) as (c & [<-|[]] & Hc). auto.
  - intros H. assert (HV : In x V).
    { revert H. intros H. apply (reach_closed ch (fun y => In y V)) with (x := r); auto.
      - intros y c Hy Hc. apply (ext_V _ _ _ _ X) in Hy. destruct Hy as [[]|Hy].
        apply (ext_cl _ _ _ _ X y c Hy Hc).
      - apply (ext_roots _ _ _ _ X). left; auto. }
    apply (ext_V _ _ _ _ X) in HV. destruct HV as [[]|]; auto.
  - intros Ha a x b Es c Hc. destruct (ext_ord _ _ _ _ X Ha _ _ _ Es c Hc) as [|[]]; auto.
  - injection E0 as <- <-. eauto.
Qed.

(** PostOrder is the same computation. *)
Definition pfold f := fun acc c =>
  match acc with
  | None => None
  | Some (out, V) => if memn c V then Some (out, V) else postOrderRec ch f c (out, c :: V)
  end.

Lemma pfold_None f cs : fold_left (pfold f) cs None = None.
Proof. induction cs; simpl; auto. Qed.

Lemma postOrderRec_visit : forall f u out V r, memn u V = false ->
  visit ch f u (out, V) = Some r -> postOrderRec ch f u (out, u :: V) = Some r.
Proof.
  induction f as [|f IH]; intros u out V r Hu; [discriminate|].
  rewrite visit_unfold, Hu.
  change (postOrderRec ch (S f) u (out, u :: V)) with
    (match fold_left (pfold f) (ch u) (Some (out, u :: V)) with
     | None => None | Some (out', V') => Some (out' ++ [u], V') end).
  assert (G : forall cs s s', fold_left (vfold f) cs (Some s) = Some s' ->
              fold_left (pfold f) cs (Some s) = Some s').
  { induction cs as [|c cs IHc]; simpl; intros [o W] s' E; auto.
    destruct (visit ch f c (o, W)) as [s1|] eqn:E1; [|rewrite vfold_None in E; discriminate].
    destruct (memn c W) eqn:Em.
    - destruct f as [|f']; [discriminate|]. rewrite visit_unfold, Em in E1.
      injection E1 as <-. auto.
    - rewrite (IH _ _ _ _ Em E1). auto. }
  destruct (fold_left (vfold f) (ch u) (Some (out, u :: V))) as [s1|] eqn:E; [|discriminate].
  rewrite (G _ _ _ E). auto.
Qed.

Lemma postOrder_eq f r l : topSortTarjanRec ch f r = Some l -> postOrder ch f r = Some l.
Proof.
  unfold topSortTarjanRec, postOrder.
  destruct (visit ch f r ([], [])) as [[o V]|] eqn:E; [|discriminate].
  intros H; injection H as <-.
  apply (postOrderRec_visit f r [] []) in E; auto. rewrite E. reflexivity.
Qed.

(** ** Iterative sort *)
Section Tarjan.
Variable r : nat.

Lemma push_children_spec cs : forall stk V,
  exists new, push_children cs (stk, V) = (rev new ++ stk, rev new ++ V) /\
    NoDup new /\ (forall x, In x new -> ~ In x V /\ In x cs) /\
    (forall c, In c cs -> In c V \/ In c new) /\
    (forall a x b, new = a ++ x :: b -> exists l1 l2, cs = l1 ++ x :: l2 /\ ~ In x l1 /\
       (forall y, In y a -> In y l1)).
Proof.
  induction cs as [|c cs IH]; intros stk V; cbn.
  - exists []. simpl. split; [reflexivity|]. split; [constructor|].
    split; [intros x []|]. split; [intros c []|].
    intros a x b E. destruct a; discriminate.
  - destruct (memn c V) eqn:Em.
    + apply memn_In in Em. destruct (IH stk V) as (new & E & Hn & Hi & Hc & Ho).
      exists new. repeat split; auto.
      * intros Hx. apply (Hi x); auto.
      * right. apply Hi; auto.
      * intros d [<-|Hd]; auto.
      * intros a x b Es. destruct (Ho a x b Es) as (l1 & l2 & -> & H1 & H2).
        exists (c :: l1), l2. repeat split; auto.
        -- intros [<-|H]; auto. assert (Hx : In c new) by (rewrite Es; apply in_or_app; right; left; auto).
           apply (Hi c Hx). auto.
        -- intros y Hy. right; auto.
    + apply memn_false in Em. destruct (IH (c :: stk) (c :: V)) as (new & E & Hn & Hi & Hc & Ho).
      exists (c :: new). simpl. rewrite <- !app_assoc. simpl. repeat split; auto.
      * constructor; auto. intros Hx. apply (Hi c Hx). left; auto.
      * destruct H as [<-|H]; auto. intros Hx. apply (Hi x H). right; auto.
      * destruct H as [<-|H]; auto. right. apply Hi; auto.
      * intros d [<-|Hd]; auto. destruct (Hc d Hd) as [[<-|H]|H]; auto.
      * intros a x b Es. destruct a as [|k a]; simpl in Es; injection Es as <- Es.
        -- exists [], cs. repeat split; auto.
        -- destruct (Ho a x b Es) as (l1 & l2 & -> & H1 & H2).
           exists (c :: l1), l2. repeat split; auto.
           ++ intros [<-|H]; auto. assert (Hx : In c new) by (rewrite Es; apply in_or_app; right; left; auto).
              apply (Hi c Hx). left; auto.
           ++ intros y [<-|Hy]; [left|right]; auto.
Qed.

Record tinv (stk V P out : list nat) : Prop := {
  ti_V : forall x, In x V <-> In x stk \/ In x out;
  ti_nd : NoDup (stk ++ out);
  ti_out : forall x, In x out -> In x P;
  ti_P : forall x, In x P -> In x V;
  ti_reach : forall x, In x V -> reach ch r x;
  ti_cl : forall x c, In x P -> In c (ch x) -> In c V;
  ti_bot : (exists s, stk = s ++ [r] /\ ~ In r out) \/ (stk = [] /\ exists o, out = o ++ [r]) }.

Lemma tinv_init : tinv [r] [r] [] [].
Proof.
  constructor.
  - simpl. intros x. tauto.
  - simpl. constructor; [intros []|constructor].
  - intros x [].
  - intros x [].
  - intros x [<-|[]]. apply reach_refl.
  - intros ? ? [].
  - left. exists []. simpl. auto.
Qed.

Lemma tinv_give u stk V P out :
  tinv (u :: stk) V P out -> In u P -> tinv stk V P (out ++ [u]).
Proof.
  intros I Hu. constructor.
  - intros x. rewrite (ti_V _ _ _ _ I x), in_app_iff. simpl. tauto.
  - pose proof (ti_nd _ _ _ _ I) as H. simpl in H.
    apply Permutation_NoDup with (2 := H).
    rewrite app_assoc. apply Permutation_cons_append.
  - intros x H. apply in_app_or in H. destruct H as [H|[<-|[]]]; auto. eapply ti_out; eauto.
  - apply (ti_P _ _ _ _ I).
  - apply (ti_reach _ _ _ _ I).
  - apply (ti_cl _ _ _ _ I).
  - destruct (ti_bot _ _ _ _ I) as [(s & E & Hn)|(E & _)]; [|discriminate].
    destruct s as [|h s]; simpl in E; injection E as <- E.
    + right. split; auto. exists out. reflexivity.
    + left. exists s. split; auto. rewrite in_app_iff. intros [H|[<-|[]]]; auto.
      pose proof (ti_nd _ _ _ _ I) as Hnd. simpl in Hnd. inversion Hnd as [|? ? H1 _]; subst.
      apply H1. apply in_or_app; left. apply in_or_app; right; left; auto.
Qed.

Lemma tinv_expand u stk V P out new :
  tinv (u :: stk) V P out -> NoDup new ->
  (forall x, In x new -> ~ In x V /\ In x (ch u)) ->
  (forall c, In c (ch u) -> In c V \/ In c new) ->
  tinv (rev new ++ u :: stk) (rev new ++ V) (u :: P) out.
Proof.
  intros I Hn Hi Hc. constructor.
  - intros x. rewrite !in_app_iff, (ti_V _ _ _ _ I x). tauto.
  - rewrite <- app_assoc. apply NoDup_app_intro.
    + apply NoDup_rev; auto.
    + apply I.
    + intros x Hx Hx'. apply in_rev in Hx. apply (Hi x Hx). apply (ti_V _ _ _ _ I).
      apply in_app_or in Hx'. auto.
  - intros x H. right. eapply ti_out; eauto.
  - intros x H. apply in_or_app. right. destruct H as [<-|H].
    + apply (ti_V _ _ _ _ I). left; left; auto.
    + apply (ti_P _ _ _ _ I); auto.
  - intros x H. apply in_app_or in H. destruct H as [H|H].
    + apply in_rev in H. eapply reach_snoc; [|apply Hi; eauto].
      apply (ti_reach _ _ _ _ I). apply (ti_V _ _ _ _ I). left; left; auto.
    + apply (ti_reach _ _ _ _ I); auto.
  - intros x c [<-|Hx] H; apply in_or_app.
    + destruct (Hc c H) as [|H']; auto. left. apply in_rev in H'. auto.
    + right. eapply (ti_cl _ _ _ _ I); eauto.
  - destruct (ti_bot _ _ _ _ I) as [(s & E & Hr)|(E & _)]; [|discriminate].
    left. exists (rev new ++ s). rewrite <- app_assoc, E. auto.
Qed.

(** Termination measure. *)
Definition tmeasure N (stk V P : list nat) : nat :=
  2 * unv N V + length stk + length (filter (fun x => negb (memn x P)) stk).

Lemma unv_app_new N V new : NoDup new -> (forall x, In x new -> ~ In x V /\ x < N) ->
  unv N (rev new ++ V) + length new = unv N V.
Proof.
  revert V. induction new as [|h t IH]; intros V Hn Hi; simpl.
  - lia.
  - inversion Hn; subst. rewrite <- app_assoc. simpl.
    rewrite <- (unv_cons_lt N V h) by (apply Hi; left; auto).
    rewrite <- (IH (h :: V)); auto; try lia.
    intros x Hx. split; [|apply Hi; right; auto].
    intros [<-|H]; auto. apply (Hi x); auto. right; auto.
Qed.

Lemma filter_cons_notin u P (l : list nat) : ~ In u l ->
  filter (fun x => negb (memn x (u :: P))) l = filter (fun x => negb (memn x P)) l.
Proof.
  intros H. apply filter_ext_in. intros a Ha. unfold memn. simpl.
  destruct (Nat.eqb_spec a u) as [->|Hne]; [contradiction|reflexivity].
Qed.

Lemma filter_length_bound {A} (f : A -> bool) l : length (filter f l) <= length l.
Proof. induction l; simpl; auto. destruct (f a); simpl; lia. Qed.

Lemma tarjan_terminates N : bounded ch N -> forall f stk V P out,
  tinv stk V P out -> (forall x, In x V -> x < N) -> tmeasure N stk V P < f ->
  exists out' V' P', tarjan_loop ch f stk V P out = Some out' /\ tinv [] V' P' out'.
Proof.
  intros HB. induction f as [|f IH]; intros stk V P out I HV Hm; [lia|]. simpl.
  destruct stk as [|u stk]; [eauto 6|].
  destruct (memn u P) eqn:Em.
  - pose proof Em as Em'. apply memn_In in Em. apply (IH stk V P); auto.
    + apply tinv_give; auto.
    + unfold tmeasure in *. simpl in Hm. rewrite Em' in Hm. simpl in Hm. lia.
  - destruct (push_children_spec (ch u) (u :: stk) V) as (new & E & Hn & Hi & Hc & _).
    rewrite E.
    assert (Hnd : NoDup (u :: stk)).
    { pose proof (ti_nd _ _ _ _ I) as H. clear -H. revert H. generalize (u :: stk) as l.
      induction l as [|h t IH]; intros H; constructor; simpl in H; inversion H; subst; auto.
      intros Hx. apply H2. apply in_or_app; auto. }
    assert (Hnn : forall x, In x new -> ~ In x V /\ x < N).
    { intros x Hx. split; [apply Hi; auto|]. eapply HB. apply Hi; auto. }
    apply IH.
    + apply tinv_expand; auto.
    + intros x H. apply in_app_or in H. destruct H as [H|H]; auto.
      apply in_rev in H. apply Hnn; auto.
    + unfold tmeasure in *. pose proof (unv_app_new N V new Hn Hnn) as HU.
      rewrite app_length, rev_length. simpl in Hm. rewrite Em in Hm. simpl in Hm.
      set (F := fun x => negb (memn x (u :: P))).
      assert (HF1 : filter F (u :: stk) = filter F stk).
      { simpl. unfold F at 1, memn. simpl. rewrite Nat.eqb_refl. reflexivity. }
      assert (HF2 : filter F stk = filter (fun x => negb (memn x P)) stk).
      { apply filter_cons_notin. inversion Hnd; auto. }
      rewrite filter_app, app_length, HF1, HF2.
      pose proof (filter_length_bound F (rev new)) as HF. rewrite rev_length in HF.
      simpl length. lia.
Qed.

Lemma tarjan_enum N : bounded ch N -> r < N ->
  exists l, topSortTarjan ch (2 * N + 1) r = Some l /\ enumerates ch r l /\
            exists l0, l = l0 ++ [r].
Proof.
  intros HB Hr. unfold topSortTarjan.
  destruct (tarjan_terminates N HB (2 * N + 1) [r] [r] [] []) as (l & V & P & E & I).
  - apply tinv_init.
  - intros x [<-|[]]; auto.
  - unfold tmeasure. simpl. pose proof (unv_cons_lt N [] r Hr) as H. rewrite unv_nil in H.
    simpl in H. specialize (H (fun x => x)). lia.
  - exists l. split; auto. split.
    + split.
      * apply (ti_nd _ _ _ _ I).
      * intros x. split.
        -- intros H. apply (ti_reach _ _ _ _ I). apply (ti_V _ _ _ _ I). auto.
        -- intros H. assert (HV : In x V).
           { apply (reach_closed ch (fun y => In y V)) with (x := r); auto.
             - intros y c Hy Hc. apply (ti_cl _ _ _ _ I y c); auto.
               apply (ti_out _ _ _ _ I). apply (ti_V _ _ _ _ I) in Hy. destruct Hy as [[]|]; auto.
             - apply (ti_V _ _ _ _ I). right. destruct (ti_bot _ _ _ _ I) as [(s & E' & _)|(_ & o & ->)].
               + destruct s; discriminate.
               + apply in_or_app; right; left; auto. }
           apply (ti_V _ _ _ _ I) in HV. destruct HV as [[]|]; auto.
    + destruct (ti_bot _ _ _ _ I) as [(s & E' & _)|(_ & o & ->)]; eauto.
      destruct s; discriminate.
Qed.

(** Order under [siblings_ok]. *)
Fixpoint above (R : nat -> nat -> Prop) (l : list nat) : Prop :=
  match l with [] => True | v :: t => (forall a, In a t -> R v a) /\ above R t end.

Lemma above_app (R : nat -> nat -> Prop) l1 l2 : above R (l1 ++ l2) <->
  above R l1 /\ above R l2 /\ (forall v a, In v l1 -> In a l2 -> R v a).
Proof.
  induction l1 as [|h t IH]; simpl.
  - intuition.
  - rewrite IH. split.
    + intros (H1 & H2 & H3 & H4). repeat split; auto.
      * intros a Ha. apply H1. apply in_or_app; auto.
      * intros v a [<-|Hv] Ha; auto. apply H1. apply in_or_app; auto.
    + intros ((H1 & H2) & H3 & H4). repeat split; auto.
      intros a Ha. apply in_app_or in Ha. destruct Ha; auto.
Qed.

Lemma above_rev (R : nat -> nat -> Prop) l : (forall a x b, l = a ++ x :: b -> forall y, In y a -> R x y) -> above R (rev l).
Proof.
  induction l as [|h t IH] using rev_ind; intros H; simpl; auto.
  rewrite rev_app_distr. simpl. split.
  - intros a Ha. apply in_rev in Ha. apply (H t h []); auto.
  - apply IH. intros a x b E y Hy. apply (H a x (b ++ [h])); auto.
    rewrite E, <- app_assoc. reflexivity.
Qed.

Lemma above_mono (R R' : nat -> nat -> Prop) l : (forall v a, In v l -> In a l -> R v a -> R' v a) ->
  above R l -> above R' l.
Proof.
  induction l as [|h t IH]; simpl; intros H; auto. intros [H1 H2]. split.
  - intros a Ha. apply H; auto.
  - apply IH; auto.
Qed.

Definition Rst (P : list nat) (v a : nat) : Prop :=
  (~ In a P -> ~ reach ch v a) /\ (In a P -> reach ch a v).

Lemma tarjan_order : siblings_ok ch -> acyclic ch -> forall f stk V P out out',
  tinv stk V P out -> above (Rst P) stk -> dependency_order ch out ->
  tarjan_loop ch f stk V P out = Some out' -> dependency_order ch out'.
Proof.
  intros HS HA. induction f as [|f IH]; intros stk V P out out' I HR HD E; [discriminate|].
  simpl in E. destruct stk as [|u stk].
  - injection E as <-. auto.
  - destruct (memn u P) eqn:Em.
    + apply memn_In in Em. apply IH in E; auto.
      * apply tinv_give; auto.
      * apply HR.
      * intros a x b Es c Hc. apply split_app_cases in Es.
        destruct Es as [(b' & Es & _)|(a' & -> & Es)]; [eapply HD; eauto|].
        destruct a' as [|k a']; [|destruct a'; discriminate]. injection Es as <- _.
        rewrite app_nil_r.
        pose proof (ti_cl _ _ _ _ I u c Em Hc) as HV. apply (ti_V _ _ _ _ I) in HV.
        destruct HV as [[<-|HV]|HV]; auto; exfalso.
        -- apply (acyclic_no_self ch u HA Hc).
        -- destruct HR as [HR _]. destruct (HR c HV) as [H1 H2].
           destruct (in_dec Nat.eq_dec c P) as [Hp|Hp].
           ++ apply (HA u c Hc). apply H2; auto.
           ++ apply (H1 Hp). apply reach_child; auto.
    + pose proof Em as Em'. apply memn_false in Em.
      destruct (push_children_spec (ch u) (u :: stk) V) as (new & Ep & Hn & Hi & Hc & Ho).
      rewrite Ep in E. apply IH in E; auto.
      * apply tinv_expand; auto.
      * assert (Hnew : forall x, In x new -> ~ In x (u :: stk)).
        { intros x Hx Hs. apply (Hi x Hx). apply (ti_V _ _ _ _ I). auto. }
        assert (Hold : forall x, In x new -> ~ In x P).
        { intros x Hx Hp. apply (Hi x Hx). apply (ti_P _ _ _ _ I); auto. }
        assert (HuS : In u (u :: stk)) by (left; auto).
        destruct HR as [HR1 HR2].
        assert (Hus : ~ In u stk).
        { pose proof (ti_nd _ _ _ _ I) as H. simpl in H. inversion H as [|? ? H1 _]; subst.
          intros H2. apply H1. apply in_or_app; auto. }
        apply above_app. split; [|split].
        -- apply above_rev. intros a x b Es y Hy.
           assert (Hy' : In y new) by (rewrite Es; apply in_or_app; auto).
           destruct (Ho a x b Es) as (l1 & l2 & El & Hl1 & Hl2).
           split.
           ++ intros _. apply Hl2 in Hy. apply in_split in Hy. destruct Hy as (k1 & k2 & ->).
              apply (HS u k1 y k2 x l2).
              ** rewrite El, <- app_assoc. reflexivity.
              ** exact Hl1.
           ++ intros [<-|Hp]; exfalso; [apply (Hnew _ Hy'); auto|apply (Hold _ Hy' Hp)].
        -- simpl. split.
           ++ intros a Ha. destruct (HR1 a Ha) as [H1 H2]. split.
              ** intros Hnp. apply H1. intros Hp. apply Hnp. right; auto.
              ** intros [<-|Hp]; auto. contradiction.
           ++ apply above_mono with (2 := HR2). intros v a Hv Ha [H1 H2]. split.
              ** intros Hnp. apply H1. intros Hp. apply Hnp. right; auto.
              ** intros [<-|Hp]; auto. contradiction.
        -- intros v a Hv Ha. apply in_rev in Hv. destruct (Hi v Hv) as [_ Hvc].
           destruct Ha as [<-|Ha].
           ++ split.
              ** intros Hnp. exfalso. apply Hnp. left; auto.
              ** intros _. apply reach_child; auto.
           ++ destruct (HR1 a Ha) as [H1 H2]. split.
              ** intros Hnp Hr. apply H1; [intros Hp; apply Hnp; right; auto|].
                 eapply reach_step; eauto.
              ** intros [<-|Hp]; [contradiction|]. eapply reach_snoc; [apply H2; auto|auto].
Qed.

Lemma tarjan_dep_order f l : siblings_ok ch -> acyclic ch ->
  topSortTarjan ch f r = Some l -> dependency_order ch l.
Proof.
  intros HS HA E. eapply tarjan_order; eauto.
  - apply tinv_init.
  - simpl. split; auto. intros a [].
  - intros a x b Es. destruct a; discriminate.
Qed.

(** TopSortTarjanFunc: prefix of the same order, cut at the first false. *)
Lemma tarjan_func_true f : forall k stk V P out,
  (forall l, f l = true) ->
  tarjan_func_loop ch f k stk V P out = tarjan_loop ch k stk V P out.
Proof.
  induction k as [|k IH]; intros stk V P out H; simpl; auto.
  destruct stk as [|u stk]; auto. destruct (memn u P).
  - rewrite H. apply IH; auto.
  - destruct (push_children _ _). apply IH; auto.
Qed.

Lemma tarjan_loop_prefix : forall k stk V P out l,
  tarjan_loop ch k stk V P out = Some l -> exists t, l = out ++ t.
Proof.
  induction k as [|k IH]; intros stk V P out l E; [discriminate|]. simpl in E.
  destruct stk as [|u stk].
  - injection E as <-. exists []. rewrite app_nil_r; auto.
  - destruct (memn u P).
    + apply IH in E. destruct E as [t ->]. exists (u :: t). rewrite <- app_assoc. reflexivity.
    + destruct (push_children _ _). eapply IH; eauto.
Qed.

Lemma tarjan_func_spec f : forall k stk V P out l,
  tarjan_loop ch k stk V P out = Some (out ++ l) ->
  exists l1 l2, l = l1 ++ l2 /\ tarjan_func_loop ch f k stk V P out = Some (out ++ l1) /\
    (forall a b, l1 = a ++ b -> a <> [] -> b <> [] -> f (out ++ a) = true) /\
    (l2 <> [] -> l1 <> [] /\ f (out ++ l1) = false).
Proof.
  induction k as [|k IH]; intros stk V P out l E; [discriminate|]. simpl in *.
  destruct stk as [|u stk].
  - injection E as E. assert (l = []).
    { apply (f_equal (@length nat)) in E. rewrite app_length in E. destruct l; auto. simpl in E; lia. }
    subst. exists [], []. rewrite app_nil_r. repeat split; auto; try congruence.
    intros a b Es Ha. destruct a; [congruence|discriminate].
  - destruct (memn u P).
    + destruct (tarjan_loop_prefix _ _ _ _ _ _ E) as [t Et].
      rewrite <- app_assoc in Et. apply app_inv_head in Et. subst l. simpl in *.
      destruct (f (out ++ [u])) eqn:Ef.
      * replace (out ++ u :: t) with ((out ++ [u]) ++ t) in E by (rewrite <- app_assoc; reflexivity).
        destruct (IH _ _ _ _ _ E) as (l1 & l2 & -> & E1 & H1 & H2).
        exists (u :: l1), l2. rewrite E1, <- app_assoc. simpl. repeat split; auto; try congruence.
        -- intros a b Es Ha Hb. destruct a as [|k' a]; [congruence|]. simpl in Es.
           injection Es as <- Es. destruct a as [|k'' a]; auto.
           replace (out ++ u :: k'' :: a) with ((out ++ [u]) ++ k'' :: a)
             by (rewrite <- app_assoc; reflexivity).
           apply (H1 _ b); auto. congruence.
        -- apply H2 in H. destruct H as [_ H].
           rewrite <- app_assoc in H. exact H.
      * exists [u], t. repeat split; auto; try congruence.
        intros a b Es Ha Hb. destruct a as [|k' [|k'' a]]; simpl in Es; try congruence.
    + destruct (push_children _ _) as [s2 V2]. eapply IH; eauto.
Qed.
(** TopSortDFS. *)
Lemma push_all_app m : forall stk V, push_all m (stk, V) = (rev m ++ stk, rev m ++ V).
Proof.
  induction m as [|h t IH]; intros stk V; simpl; auto.
  unfold push_all in *. rewrite IH. simpl. rewrite <- !app_assoc. reflexivity.
Qed.

Lemma push_children_unvisited cs : NoDup cs -> forall stk V,
  push_children cs (stk, V) = push_all (unvisited cs V) (stk, V).
Proof.
  intros Hn. induction Hn as [|c t Hc Ht IH]; intros stk V; simpl; auto.
  unfold push_children, push_all in *. simpl. destruct (memn c V) eqn:E; simpl; auto.
  rewrite IH. f_equal. unfold unvisited. apply filter_ext_in. intros a Ha.
  unfold memn. simpl. destruct (Nat.eqb_spec a c); auto. subst; contradiction.
Qed.

Lemma dfs_fuel_mono : forall k stk V out l, dfs_loop ch k stk V out = Some l ->
  dfs_loop ch (S k) stk V out = Some l.
Proof.
  induction k as [|k IH]; intros stk V out l E; [discriminate|].
  rewrite <- E. simpl in E |- *. destruct stk as [|s stk]; auto.
  destruct (Nat.eqb (length (ch s)) 0); [rewrite E; apply IH; auto|].
  destruct (Nat.eqb _ 0); [rewrite E; apply IH; auto|].
  destruct (push_all _ _); rewrite E; apply IH; auto.
Qed.

Lemma unvisited_nil cs V : unvisited cs V = [] <-> forall c, In c cs -> In c V.
Proof.
  unfold unvisited. induction cs as [|c t IH]; simpl.
  - split; auto. intros _ c [].
  - destruct (memn c V) eqn:E; simpl.
    + apply memn_In in E. rewrite IH. split; auto. intros H d [<-|Hd]; auto.
    + apply memn_false in E. split; [discriminate|]. intros H. exfalso. apply E. apply H; auto.
Qed.

Lemma dfs_sim : (forall x, NoDup (ch x)) -> forall f stk V P out l,
  (forall u c, In u P -> In c (ch u) -> In c V) ->
  tarjan_loop ch f stk V P out = Some l -> dfs_loop ch f stk V out = Some l.
Proof.
  intros HN f. induction f as [f IH] using lt_wf_ind. intros stk V P out l HP E.
  destruct f as [|f]; [discriminate|]. simpl in E.
  destruct stk as [|u stk]; [exact E|].
  destruct (memn u P) eqn:Em.
  - apply memn_In in Em. simpl.
    assert (Eu : unvisited (ch u) V = []) by (apply unvisited_nil; intros; eapply HP; eauto).
    rewrite Eu. simpl.
    apply IH in E; auto. destruct (Nat.eqb (length (ch u)) 0); auto.
  - rewrite push_children_unvisited in E by auto.
    destruct (unvisited (ch u) V) as [|c m] eqn:Eu.
    + simpl in E. destruct f as [|f]; [discriminate|].
      assert (E2 : tarjan_loop ch f stk V (u :: P) (out ++ [u]) = Some l).
      { simpl in E. rewrite Nat.eqb_refl in E. exact E. }
      apply IH in E2; auto.
      * apply dfs_fuel_mono. simpl. rewrite Eu. simpl.
        destruct (Nat.eqb (length (ch u)) 0); auto.
      * intros v d [<-|Hv] Hd; [|eapply HP; eauto]. apply unvisited_nil with (c := d) in Eu; auto.
    + rewrite <- Eu in E. rewrite push_all_app in E. apply IH in E; auto.
      * simpl. rewrite Eu. simpl.
        replace (Nat.eqb (length (ch u)) 0) with false.
        { change (push_all m (c :: u :: stk, c :: V)) with (push_all (c :: m) (u :: stk, V)).
          rewrite <- Eu, push_all_app. exact E. }
        destruct (ch u); [discriminate|reflexivity].
      * intros v d [<-|Hv] Hd.
        -- apply in_or_app. destruct (memn d V) eqn:Ed; [right; apply memn_In; auto|].
           left. apply -> in_rev. unfold unvisited. apply filter_In. rewrite Ed. auto.
        -- apply in_or_app. right. eapply HP; eauto.
Qed.

Lemma dfs_eq_tarjan f l : (forall x, NoDup (ch x)) ->
  topSortTarjan ch f r = Some l -> topSortDFS ch f r = Some l.
Proof. intros HN E. eapply dfs_sim; eauto. intros u c []. Qed.
End Tarjan.
End L.

Lemma rev_dependency ch l : dependency_order ch l -> topological_order ch (rev l).
Proof.
  intros H a x b E c Hc. apply (f_equal (@rev nat)) in E.
  rewrite rev_involutive, rev_app_distr in E. simpl in E. rewrite <- app_assoc in E. simpl in E.
  apply in_rev. eapply H; eauto.
Qed.

Lemma tarjanRec_full ch N r : bounded ch N -> r < N ->
  exists l, topSortTarjanRec ch (S N) r = Some l /\ postOrder ch (S N) r = Some l /\
    enumerates ch r l /\ (exists l0, l = l0 ++ [r]) /\
    (acyclic ch -> dependency_order ch l /\ topological_order ch (rev l)).
Proof.
  intros HB Hr. destruct (topSortTarjanRec_l ch N r HB Hr) as (l & E & H1 & H2 & H3).
  exists l. split; auto. split; [apply postOrder_eq; auto|]. split; auto. split; auto.
  intros HA. split; auto. apply rev_dependency; auto.
Qed.

Lemma tarjan_full ch N r : bounded ch N -> r < N ->
  exists l, topSortTarjan ch (2 * N + 1) r = Some l /\ enumerates ch r l /\
            exists l0, l = l0 ++ [r].
Proof. intros; apply tarjan_enum; auto. Qed.

Lemma tarjanFunc_full ch f N r : bounded ch N -> r < N ->
  exists l l1 l2, topSortTarjan ch (2 * N + 1) r = Some l /\ l = l1 ++ l2 /\
    topSortTarjanFunc ch f (2 * N + 1) r = Some l1 /\
    (forall a b, l1 = a ++ b -> a <> [] -> b <> [] -> f a = true) /\
    (l2 <> [] -> l1 <> [] /\ f l1 = false).
Proof.
  intros HB Hr. destruct (tarjan_full ch N r HB Hr) as (l & E & _).
  destruct (tarjan_func_spec ch f _ _ _ _ [] l E) as (l1 & l2 & H). exists l, l1, l2.
  simpl in H. tauto.
Qed.

Lemma tarjan_order_full ch N r : bounded ch N -> r < N -> acyclic ch -> siblings_ok ch ->
  exists l, topSortTarjan ch (2 * N + 1) r = Some l /\ dependency_order ch l.
Proof.
  intros HB Hr HA HS. destruct (tarjan_full ch N r HB Hr) as (l & E & _). exists l. split; auto.
  eapply tarjan_dep_order; eauto.
Qed.

Lemma dfs_full ch N r : bounded ch N -> r < N -> (forall x, NoDup (ch x)) ->
  exists l, topSortDFS ch (2 * N + 1) r = Some l /\ enumerates ch r l /\
    (exists l0, l = l0 ++ [r]) /\ (acyclic ch -> siblings_ok ch -> dependency_order ch l).
Proof.
  intros HB Hr HN. destruct (tarjan_full ch N r HB Hr) as (l & E & H1 & H2). exists l.
  split; [apply dfs_eq_tarjan; auto|]. split; auto. split; auto.
  intros. eapply tarjan_dep_order; eauto.
Qed.

(** Witnesses used by PropTopo.v. *)
(** Witness graphs. 0 -> [1;2], 2 -> [1;1;3]: sharing, a repeated child, a child reachable
    from a later sibling. *)
Definition ex_shared (u : nat) : list nat :=
  match u with 0 => [1; 2] | 2 => [1; 1; 3] | _ => [] end.

(** A layered diamond: 0 -> [1;2], 1 -> [3;4], 2 -> [3;4]. *)
Definition ex_layered (u : nat) : list nat :=
  match u with 0 => [1; 2] | 1 => [3; 4] | 2 => [3; 4] | _ => [] end.

Lemma ex_shared_bounded : bounded ex_shared 4.
Proof.
  intros u c H. destruct u as [|[|[|u]]]; simpl in H; repeat destruct H as [<-|H]; try lia;
  try contradiction.
Qed.

Lemma ex_shared_acyclic : acyclic ex_shared.
Proof.
  apply ranked_acyclic with (rank := fun u => match u with 0 => 2 | 2 => 1 | _ => 0 end).
  intros u c H. destruct u as [|[|[|u]]]; simpl in H; repeat destruct H as [<-|H]; simpl; try lia;
  try contradiction.
Qed.

Lemma ex_layered_graded :
  graded ex_layered (fun u => match u with 0 => 0 | 1 | 2 => 1 | _ => 2 end).
Proof.
  intros u c H. destruct u as [|[|[|u]]]; simpl in H; repeat destruct H as [<-|H]; try lia;
  try contradiction.
Qed.

Lemma iterative_sort_dependency_order_refuted_l :
  exists (ch : graph) (N r : nat) (l : list nat),
    bounded ch N /\ acyclic ch /\ r < N /\ topSortTarjan ch (2 * N + 1) r = Some l /\
    ~ dependency_order ch l.
Proof.
  exists ex_shared, 4, 0, [3; 2; 1; 0]. split; [exact ex_shared_bounded|].
  split; [exact ex_shared_acyclic|]. split; [lia|]. split; [reflexivity|].
  intros H. specialize (H [3] 2 [1; 0] eq_refl 1 (or_introl eq_refl)).
  simpl in H. destruct H as [H|[]]; discriminate.
Qed.

Lemma dfs_sort_once_refuted_l :
  exists (ch : graph) (N r : nat) (l : list nat),
    bounded ch N /\ acyclic ch /\ r < N /\ topSortDFS ch (2 * N + 1) r = Some l /\
    ~ NoDup l.
Proof.
  exists (fun u => match u with 0 => [1; 1] | _ => [] end), 2, 0, [1; 1; 0].
  split; [|split; [|split; [lia|split; [reflexivity|]]]].
  - intros u c H. destruct u; simpl in H; repeat destruct H as [<-|H]; try lia; contradiction.
  - apply ranked_acyclic with (rank := fun u => match u with 0 => 1 | _ => 0 end).
    intros u c H. destruct u; simpl in H; repeat destruct H as [<-|H]; try lia; contradiction.
  - intros H. inversion H as [|? ? H1 _]; subst. apply H1. left; auto.
Qed.
