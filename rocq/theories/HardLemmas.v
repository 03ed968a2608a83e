From Coq Require Import Reals Lra Permutation.
From Verif Require Import Base Res Arith LogMath LogSpec LogLemmas GraphSpec GraphLemmas Topo TopoLemmas Search SearchLemmas
  Storer StorerSpec StorerLemmas Spn DP SpnSpec SpnLemmas ProbSpec ProbLemmas Walk WalkLemmas Struct StructSpec StructLemmas
  MapSpec MapLemmas Derive DeriveSpec DiffLemmas DeriveLemmas GradLemmas StepLemmas Hard HardSpec.

Section Trace.
Context {A : arith}.
Local Notation F := (F A).
Variable net : network A.
Local Notation ch := (children net).
Variable rnd : nat -> nat -> nat.
Variable look : nat -> F.

(** Recorded positions exist, on sum nodes only. *)
Definition rec_ok (P : nat -> option nat) : Prop :=
  forall u i, P u = Some i -> (exists w, nk (net u) = KSum w) /\ exists c, nth_error (nch (net u)) i = Some c.

Lemma traceLoop_rec : forall fuel i Q V P P', rec_ok P -> traceLoop net rnd look fuel i Q V P = Ok P' -> rec_ok P'.
Proof.
  induction fuel as [|f IH]; intros i Q V P P' HP E; [discriminate|]. simpl in E.
  destruct Q as [|s Q]; [injection E as <-; auto|].
  destruct (nk (net s)) as [w| |l] eqn:EK.
  - destruct (bestIndices look w (nch (net s))) as [b| |]; simpl in E; try discriminate.
    destruct (Nat.eqb (length (snd b)) 0); [discriminate|].
    unfold idx in E. destruct (nth_error (snd b) (rnd i (length (snd b)))) as [mi|]; simpl in E; [|discriminate].
    destruct (nth_error (nch (net s)) mi) as [c|] eqn:Ec; simpl in E; [|discriminate].
    destruct (memn c V); eapply IH; try exact E; auto.
    intros u j Hj. destruct (Nat.eq_dec u s) as [->|Hne].
    + rewrite upd_same in Hj. injection Hj as <-. eauto.
    + rewrite upd_diff in Hj by auto. auto.
  - destruct (fold_left (fun QV c => push c QV) (nch (net s)) (Q, V)) as [Q2 V2]. eapply IH; eauto.
  - eapply IH; eauto.
Qed.

Variable r : nat.
Hypothesis Hac : acyclic ch.
Hypothesis Hdec : decomposable net r.
Hypothesis Hsc : forall u, reach ch r u -> exists x, in_scope net u x.

Definition apart (a b : nat) : Prop := forall x, in_scope net a x -> ~ in_scope net b x.

Lemma apart_sym a b : apart a b -> apart b a.
Proof. intros H x Hb Ha. eapply H; eauto. Qed.

Lemma scope_up a b x : reach ch a b -> in_scope net b x -> in_scope net a x.
Proof. intros H (v & l & Hv & Hl). exists v, l. split; auto. eapply reach_trans; eauto. Qed.

Lemma apart_down a b c : apart a b -> reach ch b c -> apart a c.
Proof. intros H Hr x Ha Hc. eapply H; eauto. eapply scope_up; eauto. Qed.

Lemma apart_self a : reach ch r a -> ~ apart a a.
Proof. intros Hr H. destruct (Hsc a Hr) as (x & Hx). exact (H x Hx Hx). Qed.

Fixpoint allapart (l : list nat) : Prop :=
  match l with [] => True | x :: t => (forall y, In y t -> apart x y) /\ allapart t end.

Lemma allapart_app a b : allapart (a ++ b) <-> allapart a /\ allapart b /\ forall x y, In x a -> In y b -> apart x y.
Proof.
  induction a as [|x a IH]; simpl.
  - split; [intros H|intros (_ & H & _); auto]. split; auto. split; auto. intros x y [].
  - rewrite IH. split.
    + intros (H1 & H2 & H3 & H4). split; [split; auto; intros; apply H1; apply in_or_app; auto|]. split; auto.
      intros u v [<-|Hu] Hv; auto. apply H1. apply in_or_app; auto.
    + intros ((H1 & H2) & H3 & H4). split; [|split; auto]. intros y Hy. apply in_app_or in Hy as [Hy|Hy]; auto.
Qed.

(** State of the traversal of a decomposable network: the queue is apart, what was treated is
    above it or apart from it. *)
Record sep (Q V D : list nat) (P : nat -> option nat) : Prop := mkSep {
  sp_V : forall u, In u V <-> In u Q \/ In u D;
  sp_r : forall u, In u V -> reach ch r u;
  sp_Q : allapart Q;
  sp_D : forall q d, In q Q -> In d D -> reach ch d q \/ apart q d;
  sp_f : forall u c, In u D -> In c (followed net P u) -> In c V;
  sp_P : forall u w, In u D -> nk (net u) = KSum w -> P u <> None }.

Lemma children_new s Q V D P c : sep (s :: Q) V D P -> In c (nch (net s)) -> ~ In c V.
Proof.
  intros H Hc Hin. assert (Hs : reach ch r s) by (apply (sp_r _ _ _ _ H), (sp_V _ _ _ _ H); left; left; auto).
  assert (Hrc : reach ch r c) by (apply (sp_r _ _ _ _ H); auto).
  apply (sp_V _ _ _ _ H) in Hin as [[Hin|Hin]|Hin].
  - subst c. exact (Hac s s Hc (reach_refl _ _)).
  - pose proof (proj1 (sp_Q _ _ _ _ H) c Hin) as Hap.
    apply (apart_self c Hrc). apply apart_sym in Hap. eapply apart_down; eauto. apply reach_child; auto.
  - destruct (sp_D _ _ _ _ H s c (or_introl eq_refl) Hin) as [Hd|Hap].
    + exact (Hac s c Hc Hd).
    + apply (apart_self c Hrc). apply apart_sym in Hap. eapply apart_down; eauto. apply reach_child; auto.
Qed.

Lemma sep_step s Q V D P P' B : sep (s :: Q) V D P -> (forall u, u <> s -> P' u = P u) -> ~ In s D ->
  (forall c, In c B -> In c (nch (net s))) -> allapart B ->
  (forall c, In c (followed net P' s) -> In c B) ->
  (forall w, nk (net s) = KSum w -> P' s <> None) ->
  sep (Q ++ B) (rev B ++ V) (s :: D) P'.
Proof.
  intros H HP HsD HB HBa Hf Hs0. destruct H as [h1 h2 h3 h4 h5 h6].
  assert (Hs : reach ch r s) by (apply h2, h1; left; left; auto).
  assert (Hchild : forall c, In c B -> reach ch s c) by (intros c Hc; apply reach_child; apply HB; auto).
  constructor.
  - intros u. rewrite !in_app_iff, <- in_rev, h1. simpl. tauto.
  - intros u Hu. apply in_app_or in Hu as [Hu|Hu]; auto. apply in_rev in Hu. eapply reach_trans; eauto.
  - destruct h3 as [h3 h3']. apply allapart_app. split; auto. split; auto. intros x y Hx Hy.
    eapply apart_down; eauto. apply apart_sym. auto.
  - intros q d Hq [<-|Hd].
    + apply in_app_or in Hq as [Hq|Hq]; [right|left; auto]. apply apart_sym. apply (proj1 h3); auto.
    + apply in_app_or in Hq as [Hq|Hq]; [apply h4; auto; right; auto|].
      destruct (h4 s d (or_introl eq_refl) Hd) as [Hr|Ha].
      * left. eapply reach_trans; eauto.
      * right. apply apart_sym. eapply apart_down; [apply apart_sym|]; eauto.
  - intros u c [<-|Hu] Hc.
    + apply in_or_app. left. rewrite <- in_rev. auto.
    + apply in_or_app. right. apply (h5 u c Hu). assert (u <> s) by (intros ->; auto).
      unfold followed in *. rewrite HP in Hc; auto.
  - intros u w [<-|Hu] EK; eauto. rewrite HP; [eauto|]. intros ->. auto.
Qed.

Lemma push_new cs : forall Q V, NoDup cs -> (forall c, In c cs -> ~ In c V) ->
  fold_left (fun QV c => push c QV) cs (Q, V) = (Q ++ cs, rev cs ++ V).
Proof.
  induction cs as [|c cs IH]; intros Q V Hn Hc; simpl; [rewrite app_nil_r; auto|].
  assert (E : memn c V = false) by (apply memn_false; apply Hc; left; auto). rewrite E.
  inversion Hn as [|? ? Hn1 Hn2]; subst. rewrite IH; auto.
  - rewrite <- !app_assoc. auto.
  - intros d Hd [<-|Hin]; auto. apply (Hc d); auto. right; auto.
Qed.

Lemma apart_children s : reach ch r s -> nk (net s) = KProd -> allapart (nch (net s)).
Proof.
  intros Hs EK. assert (X : forall k l, (forall i c, nth_error l i = Some c -> nth_error (nch (net s)) (k + i) = Some c) -> allapart l).
  { intros k l. revert k. induction l as [|c l IH]; intros k Hl; simpl; auto. split.
    - intros y Hy x Hx Hy'. apply In_nth_error in Hy as (i & Hi).
      apply (Hdec s k (k + S i) c y x Hs EK); auto; try lia.
      rewrite <- (Nat.add_0_r k) at 1. apply Hl. auto.
    - apply (IH (S k)). intros i d Hi. replace (S k + i) with (k + S i) by lia. apply Hl; auto. }
  apply (X 0). auto.
Qed.

Lemma allapart_nodup l : (forall u, In u l -> reach ch r u) -> allapart l -> NoDup l.
Proof.
  induction l as [|x l IH]; intros Hr H; constructor.
  - intros Hin. destruct H as [H _]. apply (apart_self x); auto. apply Hr; left; auto.
  - apply IH; [|apply H]. intros u Hu. apply Hr; right; auto.
Qed.

Lemma sep_head s Q V D P : sep (s :: Q) V D P -> ~ In s D \/ exists d, In d D /\ d = s.
Proof. destruct (in_dec Nat.eq_dec s D); eauto. Qed.

Lemma traceLoop_sep : forall fuel i Q V D P P', NoDup (Q ++ D) -> sep Q V D P -> rec_ok P ->
  traceLoop net rnd look fuel i Q V P = Ok P' ->
  forall u w, reach (followed net P') r u -> In r V -> nk (net u) = KSum w -> P' u <> None.
Proof.
  induction fuel as [|f IH]; intros i Q V D P P' Hnd HI HP E; [discriminate|]. simpl in E.
  destruct Q as [|s Q].
  - injection E as <-. intros u w Hu HrV EK. destruct HI as [h1 h2 h3 h4 h5 h6].
    apply (h6 u w); auto.
    assert (X : In u V).
    { apply (reach_closed (followed net P) (fun u => In u V)) with (2 := Hu); auto.
      intros x c Hx Hc. apply (h5 x c); auto. apply h1 in Hx as [[]|Hx]; auto. }
    apply h1 in X as [[]|X]; auto.
  - assert (HsV : In s V) by (apply (sp_V _ _ _ _ HI); left; left; auto).
    pose proof (sp_r _ _ _ _ HI s HsV) as Hs.
    assert (HsD : ~ In s D).
    { inversion Hnd as [|? ? H1 H2]; subst. intros Hin. apply H1. apply in_or_app; auto. }
    pose proof (children_new s Q V D P) as Hnew.
    assert (Hnd' : forall B, allapart B -> (forall c, In c B -> In c (nch (net s))) -> NoDup ((Q ++ B) ++ s :: D)).
    { intros B HB HBc.
      assert (P1 : Permutation ((Q ++ B) ++ s :: D) (B ++ (s :: Q) ++ D)).
      { rewrite <- Permutation_middle. simpl. rewrite <- Permutation_middle.
        apply perm_skip. rewrite !app_assoc. apply Permutation_app_tail. apply Permutation_app_comm. }
      eapply Permutation_NoDup; [symmetry; exact P1|].
      assert (X : forall l, NoDup l -> (forall c, In c l -> ~ In c ((s :: Q) ++ D)) -> NoDup (l ++ (s :: Q) ++ D)).
      { induction l as [|x l IHl]; intros Hl Hx; auto. inversion Hl; subst. rewrite <- app_comm_cons. constructor.
        - intros Hin. apply in_app_or in Hin as [Hin|Hin]; auto. apply (Hx x); auto. left; auto.
        - apply IHl; auto. intros c Hc. apply Hx. right; auto. }
      apply X.
      - apply allapart_nodup; auto. intros u Hu. eapply reach_trans; eauto. apply reach_child. apply HBc; auto.
      - intros c Hc Hin. apply (Hnew c HI (HBc c Hc)). apply (sp_V _ _ _ _ HI). apply in_app_or in Hin. auto. }
    destruct (nk (net s)) as [w| |l] eqn:EK.
    + destruct (bestIndices look w (nch (net s))) as [b| |]; simpl in E; try discriminate.
      destruct (Nat.eqb (length (snd b)) 0); [discriminate|].
      unfold idx in E. destruct (nth_error (snd b) (rnd i (length (snd b)))) as [mi|]; simpl in E; [|discriminate].
      destruct (nth_error (nch (net s)) mi) as [c|] eqn:Ec; simpl in E; [|discriminate].
      assert (Hc : In c (nch (net s))) by (eapply nth_error_In; eauto).
      destruct (memn c V) eqn:Em; [exfalso; apply (Hnew c HI Hc); apply memn_In; auto|].
      intros u w' Hu HrV. eapply (IH _ _ _ (s :: D) _ _); try exact E; auto.
      * apply (Hnd' [c]); [simpl; split; auto; intros y []|intros d [<-|[]]; auto].
      * apply (sep_step s Q V D P _ [c]); auto.
        -- intros x Hx. apply upd_diff; auto.
        -- intros d [<-|[]]; auto.
        -- simpl; split; auto; intros y [].
        -- unfold followed. rewrite EK, upd_same, Ec. auto.
        -- intros _ _. rewrite upd_same. discriminate.
      * intros x j Hj. destruct (Nat.eq_dec x s) as [->|Hne].
        -- rewrite upd_same in Hj. injection Hj as <-. eauto.
        -- rewrite upd_diff in Hj by auto. auto.
      * right; auto.
    + pose proof (apart_children s Hs EK) as Hap.
      assert (Hn2 : NoDup (nch (net s))).
      { apply allapart_nodup; auto. intros u Hu. eapply reach_trans; eauto. apply reach_child; auto. }
      rewrite push_new in E; auto. intros u w' Hu HrV.
      eapply (IH _ _ _ (s :: D) _ _); try exact E; auto.
      * apply (sep_step s Q V D P P (nch (net s))); auto.
        -- unfold followed. rewrite EK. auto.
        -- intros w EK'. congruence.
      * apply in_or_app; auto.
    + intros u w' Hu HrV. eapply (IH _ _ _ (s :: D) P); try exact E; auto.
      * specialize (Hnd' [] Logic.I). rewrite app_nil_r in Hnd'. apply Hnd'. intros c [].
      * pose proof (sep_step s Q V D P P [] HI) as X. rewrite app_nil_r in X. simpl in X. apply X; auto.
        -- intros c [].
        -- unfold followed. rewrite EK. intros c [].
        -- intros w EK'. congruence.
Qed.
End Trace.

Lemma traceMAP_rec {A : arith} (net : network A) rnd fuel r I T : traceMAP net rnd fuel r I = Ok T -> rec_ok net T.
Proof.
  unfold traceMAP. destruct (topSortTarjan (children net) fuel r); [|discriminate].
  destruct (foldr_ (traceNode net I) l (fun _ => None)) as [tab| |]; simpl; try discriminate.
  apply traceLoop_rec. intros u i H. discriminate.
Qed.

Lemma traceMAP_covers {A : arith} (net : network A) rnd fuel r I T :
  acyclic (children net) -> decomposable net r -> (forall u, reach (children net) r u -> exists x, in_scope net u x) ->
  traceMAP net rnd fuel r I = Ok T ->
  forall u w, reach (followed net T) r u -> nk (net u) = KSum w -> exists i, T u = Some i.
Proof.
  intros Hac Hdec Hsc E u w Hu EK. unfold traceMAP in E.
  destruct (topSortTarjan (children net) fuel r); [|discriminate].
  destruct (foldr_ (traceNode net I) l (fun _ => None)) as [tab| |]; simpl in E; try discriminate.
  assert (X : T u <> None); [|destruct (T u); eauto; congruence].
  eapply (traceLoop_sep net rnd (getV tab) r Hac Hdec Hsc fuel 0 [r] [r] [] (fun _ => None)); try exact E; eauto.
  - simpl. repeat constructor; auto.
  - constructor; simpl.
    + intros x. tauto.
    + intros x [<-|[]]. constructor.
    + split; auto. intros y [].
    + intros q d _ [].
    + intros x c [].
    + intros x w' [].
  - intros x i H. discriminate.
  - left; auto.
Qed.

Section Count.
Context {A : arith}.
Local Notation F := (F A).
Variable net : network A.
Local Notation ch := (children net).
Variable T : nat -> option nat.

Lemma hardNext_sub u c : In c (hardNext net T u) -> In c (followed net T u).
Proof.
  unfold hardNext, followed. destruct (nk (net u)); auto. intros H. apply filter_In in H. tauto.
Qed.

Lemma followed_sub u c : In c (followed net T u) -> In c (ch u).
Proof.
  unfold followed, children. destruct (nk (net u)); auto; [|intros []].
  destruct (T u) as [i|]; [|intros []]. destruct (nth_error (nch (net u)) i) eqn:E; [|intros []].
  intros [<-|[]]. eapply nth_error_In; eauto.
Qed.

Lemma hard_reach r x : reach (hardNext net T) r x -> reach (followed net T) r x.
Proof. intros H. induction H; [constructor|]. econstructor; eauto. apply hardNext_sub; auto. Qed.

Lemma reach_hard r x w : nk (net x) = KSum w -> reach (followed net T) r x -> reach (hardNext net T) r x.
Proof.
  intros EK H. induction H as [x|u c x Hc H IH]; [constructor|]. specialize (IH EK). econstructor; eauto.
  assert (Hl : isLeaf net c = false).
  { unfold isLeaf. inversion H as [|? d ? Hd]; subst; [rewrite EK; auto|].
    unfold followed in Hd. destruct (nk (net c)); auto. destruct Hd. }
  unfold hardNext, followed in *. destruct (nk (net u)); auto. apply filter_In. rewrite Hl. auto.
Qed.

Definition edge (x : nat) (l : Z) : Prop := (exists w, nk (net x) = KSum w) /\ exists i, T x = Some i /\ l = Z.of_nat i.

Lemma edge_dec x l : edge x l \/ ~ edge x l.
Proof.
  unfold edge. destruct (nk (net x)) as [w| |lf]; [|right; intros ((w & E) & _); discriminate..].
  destruct (T x) as [i|]; [|right; intros (_ & i & E & _); discriminate].
  destruct (Z.eq_dec l (Z.of_nat i)) as [->|Hn]; [left; eauto|right; intros (_ & j & E & ->); injection E as ->; auto].
Qed.

Lemma hard_counts_l N r rnd fuelT I (st : storer F) ops tk (tk' := if (tk <? 0)%Z then tickets F st else tk)
    (old := fun x l => if (tk <? 0)%Z then (fz 0, false) else sEntry F (fz 0) st tk x l) :
  run_state (ustep F (fz 0)) (newStorer F) ops = Some st ->
  bounded ch N -> r < N ->
  ((0 <= tk)%Z -> snd (table F st tk) = true) ->
  traceMAP net rnd fuelT r I = Ok T ->
  exists st', deriveHard net rnd fuelT (S N) r st tk I = Ok (st', tk') /\
    (forall x l, chosen_edge net T r x l -> sEntry F (fz 0) st' tk' x l = (fadd (fst (old x l)) (fz 1), true)) /\
    (forall x l, ~ chosen_edge net T r x l -> sEntry F (fz 0) st' tk' x l = old x l) /\
    (forall k x l, k <> tk' -> sEntry F (fz 0) st' k x l = sEntry F (fz 0) st k x l).
Proof.
  intros Hst Hb Hr Htk ET. pose proof (traceMAP_rec net rnd fuelT r I T ET) as HT0.
  pose proof (wf_run F (fz 0) ops _ _ (wf_new F) Hst) as W.
  pose proof (ticketFor_ok st tk W Htk) as HT. fold tk' in HT.
  unfold deriveHard. destruct (ticketFor st tk) as [st1 tk1]. destruct HT as (W1 & -> & (t & Et) & Ho & Hnew).
  unfold table. rewrite Et. cbn [fst]. rewrite ET. cbn [bind].
  assert (Hb' : bounded (hardNext net T) N).
  { intros u c Hc. apply (Hb u c). apply followed_sub. apply hardNext_sub. auto. }
  destruct (walk_fold (hardNext net T) UseQueue N r Hb' Hr) as (calls & _ & (Hn & He) & Hfold).
  rewrite Hfold.
  assert (Hold : forall x l, sEntry F (fz 0) st1 tk' x l = old x l).
  { intros x l. unfold old. destruct (Z.ltb_spec tk 0) as [Hlt|Hge].
    - rewrite sEntry_cval, Hnew; auto.
    - assert (Ek : tk' = tk) by (unfold tk'; destruct (Z.ltb_spec tk 0); lia). rewrite Ek in *.
      rewrite !sEntry_cval, Ho; auto. }
  destruct (foldr_inv (hardNode net T (Some t)) (fun a s => winv tk' st1 s /\
    (forall x l, In x a -> edge x l -> sEntry F (fz 0) s tk' x l = (fadd (fst (old x l)) (fz 1), true)) /\
    (forall x l, ~ (In x a /\ edge x l) -> cval F s tk' x l = cval F st1 tk' x l)) calls st1) as (s & Es & HI & Hv & Hx).
  - split; [split; auto|]. split; auto. intros x l [].
  - intros a u b s Ecalls (HI & Hv & Hx).
    assert (Hna : ~ In u a).
    { rewrite Ecalls in Hn. intros Hin. apply NoDup_remove_2 in Hn. apply Hn. apply in_or_app; auto. }
    unfold hardNode. destruct (nk (net u)) as [w| |lf] eqn:EK.
    2,3: exists s; split; auto; split; auto; split;
      [intros x l Hin Hed; apply in_app_or in Hin as [Hin|[<-|[]]]; auto; destruct Hed as ((w & E) & _); congruence|
       intros x l Hno; apply Hx; intros (H1 & H2); apply Hno; split; auto; apply in_or_app; auto].
    destruct (T u) as [mi|] eqn:ETu.
    2: exists s; split; auto; split; auto; split;
      [intros x l Hin Hed; apply in_app_or in Hin as [Hin|[<-|[]]]; auto; destruct Hed as (_ & i & E & _); congruence|
       intros x l Hno; apply Hx; intros (H1 & H2); apply Hno; split; auto; apply in_or_app; auto].
    assert (Etb : tables F s tk' = Some t) by (destruct HI as (_ & -> & _); auto).
    assert (Ev : tEntry F (fz 0) s (Some t) u (Z.of_nat mi) = sEntry F (fz 0) s tk' u (Z.of_nat mi)).
    { rewrite <- Etb. apply tEntry_handle. }
    destruct (storeAt_ok tk' t st1 Et s u (Z.of_nat mi) (fadd (fst (tEntry F (fz 0) s (Some t) u (Z.of_nat mi))) (fz 1)) HI)
      as (s' & -> & HI' & Hs' & Ho'). cbn [bind].
    destruct (HT0 u mi ETu) as (_ & c & Hc). unfold idx. rewrite Hc. cbn [bind].
    exists s'. split; auto. split; auto. split.
    + intros x l Hin Hed. apply in_app_or in Hin as [Hin|[<-|[]]].
      * rewrite sEntry_cval, Ho' by (left; intros ->; auto). rewrite <- sEntry_cval. auto.
      * destruct Hed as (_ & i & E & ->). rewrite ETu in E. injection E as <-.
        rewrite sEntry_cval, Hs', Ev. rewrite <- Hold, !sEntry_cval, Hx; auto. tauto.
    + intros x l Hno. destruct (Nat.eq_dec x u) as [->|Hxu].
      * destruct (Z.eq_dec l (Z.of_nat mi)) as [->|Hl].
        -- exfalso. apply Hno. split; [apply in_or_app; right; left; auto|]. split; eauto.
        -- rewrite Ho' by auto. apply Hx. tauto.
      * rewrite Ho' by auto. apply Hx. intros (H1 & H2). apply Hno. split; auto. apply in_or_app; auto.
  - rewrite Es. exists s. split; auto. split; [|split].
    + intros x l (H1 & (w & EK) & H3). apply Hv.
      * apply He. eapply reach_hard; eauto.
      * split; eauto.
    + intros x l Hno. rewrite <- Hold, !sEntry_cval, Hx; auto. intros (H1 & H2). apply Hno.
      split; [apply hard_reach; apply He; auto|exact H2].
    + intros k x l Hk. destruct HI as (_ & _ & _ & Hc). rewrite !sEntry_cval, Hc, Ho; auto.
Qed.
End Count.

Section Sc.
Context {A : arith}.
Variable net : network A.
Local Notation ch := (children net).

Lemma in_scope_inner u x : (forall l, nk (net u) <> KLeaf l) -> in_scope net u x <-> exists c, In c (ch u) /\ in_scope net c x.
Proof.
  intros Hk. split.
  - intros (v & l & Hr & EK & Hx). apply reach_inv in Hr as [->|(c & Hc & Hr)]; [exfalso; eapply Hk; eauto|].
    exists c. split; auto. exists v, l. auto.
  - intros (c & Hc & v & l & Hr & EK). exists v, l. split; auto. eapply reach_step; eauto.
Qed.

Lemma sc_uncached_sum_l fuel u w c s c' : nk (net u) = KSum w -> c u = None -> scOf net fuel u c = Ok (s, c') -> s = [].
Proof.
  intros EK Ec E. destruct fuel as [|f]; [discriminate|]. simpl in E. rewrite EK, Ec in E.
  destruct (idx (nch (net u)) 0); simpl in E; try discriminate. destruct (scOf net f a c); simpl in E; try discriminate.
  injection E as <- _. auto.
Qed.

Lemma sc_held_l N r c : bounded ch N -> r < N -> acyclic ch -> leaves_childless net -> scopes_held net c r ->
  exists s c', scOf net N r c = Ok (s, c') /\ scope_list net r s /\ scopes_held net c' r.
Proof.
  intros Hb Hr Hac HL Hc.
  pose proof (fuel_ind ch N r (fun f u => forall c, scopes_held net c r ->
    exists s c', scOf net f u c = Ok (s, c') /\ scope_list net u s /\ scopes_held net c' r) Hb Hr Hac) as X.
  apply (fun H => X H N r (reach_refl _ _) (le_n _) c Hc). clear X c Hc.
  intros f u Hu IH c Hc. cbn [scOf]. destruct (nk (net u)) as [w| |l] eqn:EK.
  - destruct (Hc u Hu) as [H1 H2]. destruct (c u) as [s|] eqn:Ec; [|exfalso; eapply H2; eauto].
    exists s, c. auto.
  - destruct (c u) as [s|] eqn:Ec.
    { exists s, c. destruct (Hc u Hu) as [H1 H2]. auto. }
    destruct (foldr_inv (fun (a : option (list Z) * scache) x => r <- scOf net f x (snd a); Ok (appendSc (fst a) (fst r), snd r))
      (fun done a => scopes_held net (snd a) r /\
         forall x, In x (match fst a with Some s => s | None => [] end) <-> exists d, In d done /\ in_scope net d x)
      (nch (net u)) (None, c)) as ([o c'] & E & Hh & Hx).
    + split; auto. intros x. simpl. split; [intros []|intros (d & [] & _)].
    + intros a x b [o c1] Es (Hh & Hx). cbn [fst snd] in *.
      destruct (IH x) with (c := c1) as (s & c2 & E & Hs & Hh2); auto.
      { unfold children. rewrite Es. apply in_or_app. right. left. auto. }
      rewrite E. cbn [bind fst snd]. eexists. split; [reflexivity|]. cbn [fst snd]. split; auto.
      intros y. assert (Ea : In y (match appendSc o s with Some s => s | None => [] end) <->
                             In y (match o with Some s => s | None => [] end) \/ In y s).
      { destruct o as [o|]; [|destruct s]; simpl; rewrite ?in_app_iff; tauto. }
      rewrite Ea, Hx. split.
      * intros [(d & Hd & Hy)|Hy]; [exists d; split; auto; apply in_or_app; auto|].
        exists x. split; [apply in_or_app; right; left; auto|apply Hs; auto].
      * intros (d & Hd & Hy). apply in_app_or in Hd as [Hd|[<-|[]]]; [left; eauto|right; apply Hs; auto].
    + match goal with |- context [foldr_ ?g ?l ?i] => replace (foldr_ g l i) with (Ok (o, c')) by (symmetry; exact E) end. cbn [bind fst snd] in *. eexists _, _. split; [reflexivity|].
      assert (HS : forall x, In x (match o with Some s => s | None => [] end) <-> in_scope net u x).
      { intros x. rewrite Hx, in_scope_inner by (intros l; congruence). reflexivity. }
      split; auto. intros v Hv. destruct (Nat.eq_dec v u) as [->|Hne].
      * rewrite upd_same. split; [intros s ->; auto|]. intros w E'. congruence.
      * rewrite upd_diff by auto. auto.
  - exists (lsc l), c. split; auto. split; auto. intros x. split.
    + intros Hx. exists u, l. split; auto. constructor.
    + intros (v & l' & Hr' & EK' & Hx). apply reach_inv in Hr' as [<-|(d & Hd & _)].
      * rewrite EK in EK'. injection EK' as <-. auto.
      * unfold children in Hd. rewrite (HL u l EK) in Hd. destruct Hd.
Qed.
End Sc.
