From Verif Require Import Base GraphSpec GraphLemmas Topo TopoLemmas Search.

Definition front (d : discipline) (F new : list nat) : list nat :=
  match d with UseQueue => F ++ new | UseStack => rev new ++ F end.

Lemma give_children_spec d cs : forall F V,
  exists new, give_children d cs (F, V) = (front d F new, rev new ++ V) /\
    NoDup new /\ (forall x, In x new -> ~ In x V /\ In x cs) /\
    (forall c, In c cs -> In c V \/ In c new).
Proof.
  induction cs as [|c cs IH]; intros F V; cbn.
  - exists []. split; [destruct d; simpl; rewrite ?app_nil_r; reflexivity|].
    split; [constructor|]. split; [intros x []|intros c []].
  - destruct (memn c V) eqn:Em.
    + apply memn_In in Em. destruct (IH F V) as (new & E & Hn & Hi & Hc).
      exists new. repeat split; auto.
      * intros Hx. apply (Hi x); auto.
      * right. apply Hi; auto.
      * intros e [<-|Hd]; auto.
    + apply memn_false in Em. destruct (IH (give d c F) (c :: V)) as (new & E & Hn & Hi & Hc).
      exists (c :: new). unfold give_children in E. rewrite E. simpl. repeat split; auto.
      * f_equal; [|rewrite <- app_assoc; reflexivity].
        destruct d; simpl; rewrite <- app_assoc; reflexivity.
      * constructor; auto. intros Hx. apply (Hi c Hx). left; auto.
      * destruct H as [<-|H]; auto. intros Hx. apply (Hi x H). right; auto.
      * destruct H as [<-|H]; auto. right. apply Hi; auto.
      * intros e [<-|Hd]; auto. destruct (Hc e Hd) as [[<-|H]|H]; auto.
Qed.

Lemma in_front d F new x : In x (front d F new) <-> In x F \/ In x new.
Proof.
  destruct d; simpl; rewrite in_app_iff; [tauto|]. rewrite <- in_rev. tauto.
Qed.

Lemma front_perm d F new : Permutation (front d F new) (F ++ new).
Proof.
  destruct d; simpl; auto. rewrite Permutation_app_comm. apply Permutation_app_head.
  symmetry. apply Permutation_rev.
Qed.

Section L.
Variable ch : graph.
Variable d : discipline.
Variable f : list nat -> nat -> Z.
Variable G : nat.


Record sinv (F V calls : list nat) : Prop := {
  si_V : forall x, In x V <-> In x F \/ In x calls;
  si_nd : NoDup (calls ++ F);
  si_hd : (calls = [] /\ F = [G]) \/ exists t, calls = G :: t;
  si_just : forall a x b, calls = a ++ x :: b -> a <> [] ->
     exists a1 u a2, a = a1 ++ u :: a2 /\ f a1 u = 0%Z /\ In x (ch u);
  si_fr : forall x, In x F -> calls = [] \/
     exists a1 u a2, calls = a1 ++ u :: a2 /\ f a1 u = 0%Z /\ In x (ch u);
  si_np : forall a x b, calls = a ++ x :: b -> ~ (f a x > 0)%Z;
  si_cl : forall a x b c, calls = a ++ x :: b -> f a x = 0%Z -> In c (ch x) -> In c V }.

Lemma sinv_init : sinv [G] [G] [].
Proof.
  constructor; simpl; auto.
  - intros x; tauto.
  - constructor; [intros []|constructor].
  - intros a x b E. destruct a; discriminate.
  - intros a x b E. destruct a; discriminate.
  - intros a x b c E. destruct a; discriminate.
Qed.

Lemma sinv_step u F V calls new :
  sinv (u :: F) V calls -> ~ (f calls u > 0)%Z ->
  (f calls u = 0%Z -> NoDup new /\ (forall x, In x new -> ~ In x V /\ In x (ch u)) /\
      (forall c, In c (ch u) -> In c V \/ In c new)) ->
  (f calls u <> 0%Z -> new = []) ->
  sinv (front d F new) (rev new ++ V) (calls ++ [u]).
Proof.
  intros I Hr H0 Hn0.
  assert (HN : NoDup new /\ forall x, In x new -> ~ In x V).
  { destruct (Z.eq_dec (f calls u) 0) as [E|E].
    - destruct (H0 E) as (H1 & H2 & _). split; auto. intros x Hx. apply H2; auto.
    - rewrite (Hn0 E). split; [constructor|intros x []]. }
  destruct HN as [HN HV].
  constructor.
  - intros x. rewrite !in_app_iff, in_front, <- in_rev, (si_V _ _ _ I x). simpl. tauto.
  - assert (HP : Permutation ((calls ++ [u]) ++ front d F new) (new ++ calls ++ u :: F)).
    { rewrite front_perm, <- app_assoc. simpl.
      rewrite (Permutation_app_comm new). rewrite <- app_assoc. simpl.
      apply Permutation_app_head. constructor. auto. }
    apply Permutation_sym in HP. apply (Permutation_NoDup HP).
    apply NoDup_app_intro; auto; [apply I|].
    intros x Hx Hx'. apply (HV x Hx). apply (si_V _ _ _ I). apply in_app_or in Hx'. tauto.
  - right. destruct (si_hd _ _ _ I) as [[-> E]|[t ->]]; simpl; eauto.
    injection E as -> _. eauto.
  - intros a x b E Ha. symmetry in E. destruct b as [|k b] using rev_ind.
    + apply app_inj_tail in E. destruct E as [-> ->].
      destruct (si_fr _ _ _ I u) as [->|H]; auto; [left; auto|congruence].
    + clear IHb. rewrite app_comm_cons, app_assoc in E. apply app_inj_tail in E.
      destruct E as [E _]. eapply si_just; eauto.
  - intros x Hx. right. apply in_front in Hx. destruct Hx as [Hx|Hx].
    + destruct (si_fr _ _ _ I x) as [E|(a1 & v & a2 & E & H)]; [right; auto| |].
      * subst. destruct (si_hd _ _ _ I) as [[_ E]|[t E]]; [|discriminate].
        injection E as -> ->. destruct Hx.
      * exists a1, v, (a2 ++ [u]). rewrite E, <- app_assoc. auto.
    + destruct (Z.eq_dec (f calls u) 0) as [E|E].
      * exists calls, u, []. split; auto. split; auto. apply H0; auto.
      * rewrite (Hn0 E) in Hx. destruct Hx.
  - intros a x b E. symmetry in E. destruct b as [|k b] using rev_ind.
    + apply app_inj_tail in E. destruct E as [-> ->]. auto.
    + clear IHb. rewrite app_comm_cons, app_assoc in E. apply app_inj_tail in E.
      destruct E as [E _]. eapply si_np; eauto.
  - intros a x b c E H Hc. apply in_or_app. symmetry in E. destruct b as [|k b] using rev_ind.
    + apply app_inj_tail in E. destruct E as [-> ->].
      destruct (H0 H) as (_ & _ & H1). destruct (H1 c Hc); auto. left. apply in_rev in H2; auto.
    + clear IHb. rewrite app_comm_cons, app_assoc in E. apply app_inj_tail in E.
      destruct E as [E _]. right. eapply (si_cl _ _ _ I); eauto.
Qed.

Definition smeasure N (F V : list nat) : nat := unv N V + length F.

Lemma front_length F new : length (front d F new) = length F + length new.
Proof. destruct d; simpl; rewrite app_length; rewrite ?rev_length; lia. Qed.

(** Either the loop drains the collection under the invariant, or it stops on a positive
    result. *)
Lemma search_terminates N : bounded ch N -> forall k F V calls,
  sinv F V calls -> (forall x, In x V -> x < N) -> smeasure N F V < k ->
  exists calls', search_loop ch d f k F V calls = Some calls' /\
    ((exists V', sinv [] V' calls') \/
     (exists u F' V' a, calls' = a ++ [u] /\ sinv (u :: F') V' a /\ (f a u > 0)%Z)).
Proof.
  intros HB. induction k as [|k IH]; intros F V calls I HV Hm; [lia|]. simpl.
  destruct F as [|u F]; [eauto 6|].
  destruct (Z.ltb_spec 0 (f calls u)) as [Hp|Hp].
  - exists (calls ++ [u]). split; auto. right. exists u, F, V, calls. repeat split; auto; try apply I. lia.
  - destruct (Z.eqb_spec (f calls u) 0) as [H0|H0].
    + destruct (give_children_spec d (ch u) F V) as (new & E & Hn & Hi & Hc). rewrite E.
      assert (Hnn : forall x, In x new -> ~ In x V /\ x < N).
      { intros x Hx. split; [apply Hi; auto|]. eapply HB. apply Hi; eauto. }
      apply IH.
      * apply sinv_step; auto; try lia.
      * intros x H. apply in_app_or in H. destruct H as [H|H]; auto. apply in_rev in H. apply Hnn; auto.
      * unfold smeasure in *. pose proof (unv_app_new N V new Hn Hnn). rewrite front_length. simpl in Hm. lia.
    + apply IH.
      * replace F with (front d F []) by (destruct d; simpl; rewrite ?app_nil_r; auto).
        apply (sinv_step u F V calls []); auto; try lia.
      * auto.
      * unfold smeasure in *. simpl in Hm. lia.
Qed.

Lemma searchFunc_l N : bounded ch N -> G < N ->
  exists calls, searchFunc ch d f (S N) G = Some calls /\
    NoDup calls /\ (exists t, calls = G :: t) /\
    (forall a x b, calls = a ++ x :: b -> a <> [] ->
       exists a1 u a2, a = a1 ++ u :: a2 /\ f a1 u = 0%Z /\ In x (ch u)) /\
    (forall a x b, calls = a ++ x :: b -> (f a x > 0)%Z -> b = []) /\
    ((forall a x b, calls = a ++ x :: b -> ~ (f a x > 0)%Z) ->
     forall a x b c, calls = a ++ x :: b -> f a x = 0%Z -> In c (ch x) -> In c calls).
Proof.
  intros HB HG. unfold searchFunc.
  destruct (search_terminates N HB (S N) [G] [G] []) as (calls & E & H).
  - apply sinv_init.
  - intros x [<-|[]]; auto.
  - unfold smeasure. simpl. pose proof (unv_cons_lt N [] G HG) as H. rewrite unv_nil in H.
    simpl in H. specialize (H (fun x => x)). lia.
  - exists calls. split; auto.
    destruct H as [[V I]|(u & F & V & a0 & -> & I & Hp)].
    + pose proof (si_nd _ _ _ I) as Hnd. rewrite app_nil_r in Hnd. split; auto. split.
      { destruct (si_hd _ _ _ I) as [[_ E']|H]; [discriminate|auto]. }
      split; [apply (si_just _ _ _ I)|]. split.
      * intros a x b E' H. exfalso. eapply (si_np _ _ _ I); eauto.
      * intros _ a x b c E' H Hc. pose proof (si_cl _ _ _ I _ _ _ _ E' H Hc) as HV.
        apply (si_V _ _ _ I) in HV. destruct HV as [[]|]; auto.
    + split.
      { pose proof (si_nd _ _ _ I) as H. replace (a0 ++ u :: F) with ((a0 ++ [u]) ++ F) in H
          by (rewrite <- app_assoc; reflexivity).
        clear -H. revert H. generalize (a0 ++ [u]) as l. induction l as [|h t IH]; intros H; constructor.
        - simpl in H. inversion H; subst. intros Hx. apply H2. apply in_or_app; auto.
        - simpl in H. inversion H; subst. auto. }
      split.
      { destruct (si_hd _ _ _ I) as [[-> E']|[t ->]]; simpl; eauto. injection E' as -> _. eauto. }
      split; [|split].
      * intros a x b E' Ha. symmetry in E'. destruct b as [|k b] using rev_ind.
        -- apply app_inj_tail in E'. destruct E' as [-> ->].
           destruct (si_fr _ _ _ I u) as [->|H]; auto; [left; auto|congruence].
        -- clear IHb. rewrite app_comm_cons, app_assoc in E'. apply app_inj_tail in E'.
           destruct E' as [E' _]. eapply si_just; eauto.
      * intros a x b E' H. symmetry in E'. destruct b as [|k b] using rev_ind; auto. exfalso.
        clear IHb. rewrite app_comm_cons, app_assoc in E'. apply app_inj_tail in E'.
        destruct E' as [E' _]. eapply (si_np _ _ _ I); eauto.
      * intros H. exfalso. eapply (H a0 u []); eauto.
Qed.
End L.

(** Callbacks that always answer 0. *)
Lemma search_zero_enum ch d N G : bounded ch N -> G < N ->
  exists calls, searchFunc ch d (fun _ _ => 0%Z) (S N) G = Some calls /\ enumerates ch G calls.
Proof.
  intros HB HG. destruct (searchFunc_l ch d (fun _ _ => 0%Z) G N HB HG)
    as (calls & E & Hn & [t Ht] & Hj & _ & Hc).
  exists calls. split; auto. split; auto. intros x. split.
  - intros Hx. apply in_split in Hx. destruct Hx as (a & b & Ex).
    assert (HW : forall n a x b, length a < n -> calls = a ++ x :: b -> reach ch G x).
    { clear -Ht Hj. induction n as [|n IH]; intros a x b Hl Ex; [lia|].
      destruct a as [|h a].
      - rewrite Ht in Ex. injection Ex as -> _. apply reach_refl.
      - destruct (Hj _ _ _ Ex) as (a1 & u & a2 & Ea & _ & Hu); [discriminate|].
        eapply reach_snoc; [|exact Hu]. rewrite Ea in Ex.
        apply (IH a1 u (a2 ++ x :: b)).
        + rewrite Ea in Hl. rewrite app_length in Hl. simpl in Hl. lia.
        + rewrite Ex, <- app_assoc. reflexivity. }
    eapply HW; eauto.
  - intros Hr. apply (reach_closed ch (fun y => In y calls)) with (x := G); auto.
    + intros y c Hy Hyc. apply in_split in Hy. destruct Hy as (a & b & Ey).
      eapply Hc; eauto. intros; lia.
    + rewrite Ht. left; auto.
Qed.

(** Breadth-first: distances never decrease. *)
Section BFS.
Variable ch : graph.
Variable G : nat.

Definition sorted_by (lev : nat -> nat) (l : list nat) : Prop :=
  forall a x b, l = a ++ x :: b -> forall y, In y b -> lev x <= lev y.

Record binv (lev : nat -> nat) (F V calls : list nat) : Prop := {
  bi_V : forall x, In x V <-> In x F \/ In x calls;
  bi_path : forall x, In x V -> path_len ch G x (lev x);
  bi_sort : sorted_by lev (calls ++ F);
  bi_gap : forall u F' y, F = u :: F' -> In y F -> lev y <= S (lev u);
  bi_ch : forall x c, In x calls -> In c (ch x) -> In c V /\ lev c <= S (lev x);
  bi_root : In G V /\ lev G = 0 }.

Lemma sorted_app lev l1 l2 : sorted_by lev (l1 ++ l2) <->
  sorted_by lev l1 /\ sorted_by lev l2 /\ (forall x y, In x l1 -> In y l2 -> lev x <= lev y).
Proof.
  induction l1 as [|h t IH].
  - simpl. split.
    + intros H. split; [intros a x b E; destruct a; discriminate|]. split; auto. intros x y [].
    + tauto.
  - assert (HC : forall l, sorted_by lev (h :: l) <-> sorted_by lev l /\ forall y, In y l -> lev h <= lev y).
    { intros l. split.
      - intros H. split.
        + intros a x b E y Hy. apply (H (h :: a) x b); auto. simpl. rewrite E; auto.
        + intros y Hy. apply (H [] h l); auto.
      - intros [H1 H2] a x b E y Hy. destruct a as [|k a]; simpl in E; injection E as <- E.
        + subst. auto.
        + eapply H1; eauto. }
    simpl. rewrite !HC, IH. split.
    + intros ((H1 & H2 & H3) & H4). repeat split; auto.
      * intros y Hy. apply H4. apply in_or_app; auto.
      * intros x y [<-|Hx] Hy; auto. apply H4. apply in_or_app; auto.
    + intros ((H1 & H2) & H3 & H4). repeat split; auto.
      * intros y Hy. apply in_app_or in Hy. destruct Hy; auto.
Qed.

Lemma sorted_ext lev lev' l : (forall x, In x l -> lev x = lev' x) -> sorted_by lev l -> sorted_by lev' l.
Proof.
  intros H HS a x b E y Hy. rewrite <- !H.
  - eapply HS; eauto.
  - rewrite E. apply in_or_app. right. right. auto.
  - rewrite E. apply in_or_app. right. left. auto.
Qed.

Lemma bfs_run : forall k F V calls lev calls',
  binv lev F V calls -> NoDup (calls ++ F) ->
  search_loop ch UseQueue (fun _ _ => 0%Z) k F V calls = Some calls' ->
  exists lev', binv lev' [] (calls') calls'.
Proof.
  induction k as [|k IH]; intros F V calls lev calls' I Hnd E; [discriminate|]. simpl in E.
  destruct F as [|u F].
  - injection E as <-. exists lev. constructor.
    + intros x. simpl. tauto.
    + intros x Hx. apply I. apply (bi_V _ _ _ _ I). auto.
    + apply I.
    + intros v F' y E'. discriminate.
    + intros x c Hx Hc. destruct (bi_ch _ _ _ _ I x c Hx Hc) as [H1 H2]. split; auto.
      apply (bi_V _ _ _ _ I) in H1. destruct H1 as [[]|]; auto.
    + destruct (bi_root _ _ _ _ I) as [H1 H2]. split; auto.
      apply (bi_V _ _ _ _ I) in H1. destruct H1 as [[]|]; auto.
  - destruct (give_children_spec UseQueue (ch u) F V) as (new & Eg & Hn & Hi & Hc).
    rewrite Eg in E. simpl front in E.
    set (lev2 := fun x => if memn x new then S (lev u) else lev x).
    assert (Hold : forall x, In x V -> lev2 x = lev x).
    { intros x Hx. unfold lev2. destruct (memn x new) eqn:Em; auto. apply memn_In in Em.
      exfalso. apply (Hi x Em). auto. }
    assert (Hnew : forall x, In x new -> lev2 x = S (lev u)).
    { intros x Hx. unfold lev2. apply memn_In in Hx. rewrite Hx. auto. }
    assert (HuV : In u V) by (apply (bi_V _ _ _ _ I); left; left; auto).
    assert (HFV : forall x, In x F -> In x V) by (intros; apply (bi_V _ _ _ _ I); left; right; auto).
    assert (HcV : forall x, In x calls -> In x V) by (intros; apply (bi_V _ _ _ _ I); auto).
    pose proof (bi_sort _ _ _ _ I) as HS. apply sorted_app in HS. destruct HS as (S1 & S2 & S3).
    apply IH with (lev := lev2) in E; auto.
    + constructor.
      * intros x. rewrite !in_app_iff, <- in_rev, (bi_V _ _ _ _ I x). simpl. tauto.
      * intros x Hx. apply in_app_or in Hx. destruct Hx as [Hx|Hx].
        -- apply in_rev in Hx. rewrite Hnew by auto. econstructor; [apply I; auto|apply Hi; auto].
        -- rewrite Hold by auto. apply I; auto.
      * apply sorted_app. split; [|split].
        -- apply sorted_ext with (lev := lev).
           ++ intros x Hx. symmetry. apply Hold. apply in_app_or in Hx. destruct Hx as [Hx|[<-|[]]]; auto.
           ++ apply sorted_app. split; auto. split.
              ** intros a x b Ex y Hy. destruct a as [|? [|]]; simpl in Ex; [injection Ex as <- <-; destruct Hy|discriminate|discriminate].
              ** intros x y Hx [<-|[]]. apply S3; auto. left; auto.
        -- apply sorted_app. split; [|split].
           ++ apply sorted_ext with (lev := lev); [intros; symmetry; auto|].
              intros a x b Ex y Hy. apply (S2 (u :: a) x b); auto. simpl; rewrite Ex; auto.
           ++ intros a x b Ex y Hy. rewrite !Hnew; auto; rewrite Ex; apply in_or_app; right; [right|left]; auto.
           ++ intros x y Hx Hy. rewrite Hold, Hnew by auto. apply (bi_gap _ _ _ _ I u F); auto. right; auto.
        -- intros x y Hx Hy.
           assert (Hxu : lev2 x <= lev u).
           { apply in_app_or in Hx. destruct Hx as [Hx|[<-|[]]]; rewrite Hold; auto.
             apply S3; auto. left; auto. }
           apply in_app_or in Hy. destruct Hy as [Hy|Hy].
           ++ rewrite (Hold y) by auto. assert (lev u <= lev y); [|lia]. apply (S2 [] u F); auto.
           ++ rewrite (Hnew y) by auto. lia.
      * intros v F' y Ev Hy.
        assert (Hy2 : lev2 y <= S (lev u)).
        { apply in_app_or in Hy. destruct Hy as [Hy|Hy].
          - rewrite Hold by auto. apply (bi_gap _ _ _ _ I u F); auto. right; auto.
          - rewrite Hnew by auto. lia. }
        assert (Hv : lev u <= lev2 v).
        { assert (Hv : In v (F ++ new)) by (rewrite Ev; left; auto).
          apply in_app_or in Hv. destruct Hv as [Hv|Hv].
          - rewrite Hold by auto. apply (S2 [] u F); auto.
          - rewrite Hnew by auto. lia. }
        lia.
      * intros x c Hx Hxc. apply in_app_or in Hx. destruct Hx as [Hx|[<-|[]]].
        -- destruct (bi_ch _ _ _ _ I x c Hx Hxc) as [H1 H2]. rewrite !Hold by auto.
           split; auto. apply in_or_app; auto.
        -- rewrite (Hold u) by auto. destruct (Hc c Hxc) as [H|H].
           ++ split; [apply in_or_app; auto|]. rewrite Hold by auto.
              apply (bi_V _ _ _ _ I) in H. destruct H as [H|H].
              ** apply (bi_gap _ _ _ _ I u F); auto.
              ** assert (lev c <= lev u); [|lia]. apply S3; auto. left; auto.
           ++ split; [apply in_or_app; left; apply in_rev in H; auto|]. rewrite Hnew by auto. lia.
      * destruct (bi_root _ _ _ _ I) as [H1 H2]. split; [apply in_or_app; auto|].
        rewrite Hold by auto. auto.
    + replace ((calls ++ [u]) ++ F ++ new) with ((calls ++ u :: F) ++ new)
        by (rewrite <- !app_assoc; reflexivity).
      apply NoDup_app_intro; auto. intros x Hx Hx'. apply (Hi x Hx'). apply (bi_V _ _ _ _ I).
      apply in_app_or in Hx. tauto.
Qed.

Lemma bfs_order k calls : breadthFirst ch (fun _ _ => 0%Z) k G = Some calls ->
  forall a x b, calls = a ++ x :: b -> forall y dx dy, In y b ->
    distance ch G x dx -> distance ch G y dy -> dx <= dy.
Proof.
  intros E. unfold breadthFirst, searchFunc in E.
  destruct (bfs_run k [G] [G] [] (fun _ => 0) calls) as [lev I]; auto.
  - constructor.
    + intros x; simpl; tauto.
    + intros x [<-|[]]. constructor.
    + intros a x b Ex y Hy. lia.
    + intros; lia.
    + intros x c [].
    + split; [left|]; auto.
  - simpl. constructor; [intros []|constructor].
  - assert (Hmin : forall x n, path_len ch G x n -> In x calls /\ lev x <= n).
    { intros x n H. destruct (bi_root _ _ _ _ I) as [HG H0].
      remember G as g eqn:Eg in H. induction H as [|g y c n H IH Hc]; subst.
      - split; auto. lia.
      - destruct (IH eq_refl) as [H1 H2]. destruct (bi_ch _ _ _ _ I y c H1 Hc) as [H3 H4].
        split; auto. lia. }
    intros a x b Ex y dx dy Hy [Px Mx] [Py My].
    assert (Hx : In x calls) by (rewrite Ex; apply in_or_app; right; left; auto).
    pose proof (Mx _ (bi_path _ _ _ _ I x Hx)) as H1.
    destruct (Hmin y dy Py) as [_ H2].
    assert (H3 : lev x <= lev y).
    { apply (bi_sort _ _ _ _ I a x b); auto. rewrite app_nil_r. auto. }
    lia.
Qed.
End BFS.

Lemma count_fold type l : forall s p k,
  fold_left (count_step type) l (s, p, k) =
  (s + length (filter (fun u => match type u with TSum => true | _ => false end) l),
   p + length (filter (fun u => match type u with TProduct => true | _ => false end) l),
   k + length (filter (fun u => match type u with TLeaf => true | _ => false end) l)).
Proof.
  induction l as [|h t IH]; intros s p k; simpl.
  - rewrite !Nat.add_0_r. reflexivity.
  - destruct (type h); simpl; rewrite IH; rewrite ?Nat.add_succ_r; reflexivity.
Qed.

Lemma filter_enum_perm ch G l1 l2 (g : nat -> bool) : enumerates ch G l1 -> enumerates ch G l2 ->
  Permutation (filter g l1) (filter g l2).
Proof.
  intros [N1 H1] [N2 H2]. apply NoDup_Permutation.
  - apply NoDup_filter; auto.
  - apply NoDup_filter; auto.
  - intros x. rewrite !filter_In, H1, H2. tauto.
Qed.

(** The counts are those of any other enumeration of the reachable nodes. *)
Lemma countNodes_l ch type N G l : bounded ch N -> G < N -> enumerates ch G l ->
  countNodes ch type (S N) G =
  Some (length (filter (fun u => match type u with TSum => true | _ => false end) l),
        length (filter (fun u => match type u with TProduct => true | _ => false end) l),
        length (filter (fun u => match type u with TLeaf => true | _ => false end) l)).
Proof.
  intros HB HG Hl. unfold countNodes.
  destruct (search_zero_enum ch UseQueue N G HB HG) as (calls & E & Hc).
  unfold breadthFirst. rewrite E, count_fold. simpl.
  f_equal. f_equal; [f_equal|]; apply Permutation_length; apply filter_enum_perm with ch G; auto.
Qed.

(** Witnesses used by PropSearch.v. *)
Definition ex_net (u : nat) : list nat :=
  match u with 0 => [1; 2] | 1 => [3; 0] | 2 => [3; 4; 3] | 4 => [5] | _ => [] end.

Lemma ex_net_bounded : bounded ex_net 6.
Proof.
  intros u c H. destruct u as [|[|[|[|[|u]]]]]; simpl in H; repeat destruct H as [<-|H]; try lia;
  try contradiction.
Qed.
