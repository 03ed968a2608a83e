From Verif Require Import Base Collections CollectionsSpec CollectionsLemmas Storer StorerSpec.

Section L.
Variable V : Type.
Variable zero : V.
Notation storer := (storer V).
Notation sspec := (sspec V).

Record wf (s : storer) : Prop := {
  w1 : forall k t, tables V s k = Some t -> t < tnext V s;
  w2 : forall k k' t, tables V s k = Some t -> tables V s k' = Some t -> k = k';
  w3 : forall t N m, theap V s t N = Some m -> t < tnext V s /\ m < mnext V s;
  w4 : forall t t' N N' m, theap V s t N = Some m -> theap V s t' N' = Some m -> t = t' /\ N = N' }.

Lemma wf_new : wf (newStorer V).
Proof. constructor; simpl; intros; discriminate. Qed.

Ltac cases_upd :=
  unfold updZ, upd in *;
  repeat match goal with
  | H : context [Z.eqb ?a ?b] |- _ => destruct (Z.eqb_spec a b); try subst
  | |- context [Z.eqb ?a ?b] => destruct (Z.eqb_spec a b); try subst
  | H : context [Nat.eqb ?a ?b] |- _ => destruct (Nat.eqb_spec a b); try subst
  | |- context [Nat.eqb ?a ?b] => destruct (Nat.eqb_spec a b); try subst
  end.

Lemma wf_make s k : wf s -> wf (make_table V s k).
Proof.
  intros W. constructor; simpl.
  - intros k' t H. cases_upd.
    + injection H as <-. lia.
    + apply (w1 s W) in H. lia.
  - intros k1 k2 t H1 H2. cases_upd; auto;
    try (exfalso; injection H1 as <-; apply (w1 s W) in H2; lia);
    try (exfalso; injection H2 as <-; apply (w1 s W) in H1; lia).
    eapply (w2 s W); eauto.
  - intros t N m H. cases_upd; [discriminate|]. apply (w3 s W) in H. lia.
  - intros t t' N N' m H1 H2. cases_upd; try discriminate. eapply (w4 s W); eauto.
Qed.

Lemma wf_drop s k : wf s -> wf (drop_table V s k).
Proof.
  intros W. constructor; simpl; try apply W.
  - intros k' t H. cases_upd; [discriminate|]. apply (w1 s W) in H. auto.
  - intros k1 k2 t H1 H2. cases_upd; try discriminate. eapply (w2 s W); eauto.
Qed.

Lemma wf_map_set s m l v : wf s -> wf (map_set V s m l v).
Proof. intros W. constructor; simpl; apply W. Qed.

Lemma wf_tickets s z : wf s -> wf (mkStorer V (tables V s) z (theap V s) (mheap V s) (tnext V s) (mnext V s)).
Proof. intros W. constructor; simpl; apply W. Qed.

Lemma wf_tStore s t N l v s' b : wf s -> allocated V s t = true ->
  tStore V s t N l v = Some (s', b) -> wf s'.
Proof.
  intros W Ha E. unfold tStore in E. destruct t as [r|]; [|discriminate].
  simpl in Ha. apply Nat.ltb_lt in Ha.
  destruct (theap V s r N) as [m|] eqn:Eh; injection E as <- _.
  - apply wf_map_set; auto.
  - apply wf_map_set. constructor; simpl.
    + apply W.
    + apply W.
    + intros t N' m H. cases_upd.
      * injection H as <-. lia.
      * apply (w3 s W) in H. lia.
      * apply (w3 s W) in H. lia.
    + intros t t' N1 N2 m H1 H2. cases_upd; auto;
      try (injection H1 as <-); try (injection H2 as <-);
      try (exfalso; match goal with H : theap V s _ _ = Some (mnext V s) |- _ => apply (w3 s W) in H; lia end);
      eapply (w4 s W); eauto.
Qed.

Lemma wf_resetTickets ks : forall s, wf s -> wf (resetTickets V s ks).
Proof.
  induction ks as [|k ks IH]; intros s W; simpl; auto.
  apply IH. apply wf_make. apply wf_drop. auto.
Qed.

Lemma allocated_table s k t : wf s -> tables V s k = Some t -> allocated V s (Some t) = true.
Proof. intros W H. simpl. apply Nat.ltb_lt. apply (w1 s W) in H. auto. Qed.

Lemma wf_sStore s k N l v s' b : wf s -> sStore V s k N l v = Some (s', b) -> wf s'.
Proof.
  intros W E. unfold sStore, table in E. destruct (tables V s k) as [t|] eqn:Et.
  - eapply wf_tStore; eauto. eapply allocated_table; eauto.
  - injection E as <- _. auto.
Qed.

Lemma wf_sstep s o s' r : wf s -> sstep V zero s o = Some (s', r) -> wf s'.
Proof.
  intros W E. destruct o; simpl in E.
  - injection E as <- _. apply wf_make, wf_tickets; auto.
  - destruct (sStore V s k N l v) as [[s1 b]|] eqn:Es; [|discriminate]. injection E as <- _.
    eapply wf_sStore; eauto.
  - unfold sStoreSingle in E. destruct (sStore V s k N 0 v) as [[s1 b]|] eqn:Es; [|discriminate].
    injection E as <- _. eapply wf_sStore; eauto.
  - destruct (sEntry V zero s k N l). injection E as <- _. auto.
  - destruct (sSingle V zero s k N). injection E as <- _. auto.
  - destruct (sValue V s k N). destruct (map_get V zero s o l). injection E as <- _. auto.
  - injection E as <- _. auto.
  - injection E as <- _. auto.
  - injection E as <- _. auto.
  - injection E as <- _. apply wf_drop; auto.
  - injection E as <- _. apply wf_make, wf_drop; auto.
  - injection E as <- _. apply wf_resetTickets; auto.
  - injection E as <- _. constructor; simpl; try apply W; intros; discriminate.
Qed.

Lemma wf_ustep s o s' r : wf s -> ustep V zero s o = Some (s', r) -> wf s'.
Proof.
  intros W E. destruct o; simpl in E.
  - eapply wf_sstep; eauto.
  - destruct (allocated V s t) eqn:Ea; [|discriminate].
    destruct (tStore V s t N l v) as [[s1 b]|] eqn:Es; [|discriminate]. injection E as <- _.
    eapply wf_tStore; eauto.
  - destruct (tEntry V zero s t N l). injection E as <- _. auto.
  - destruct (Nat.ltb m (mnext V s)); [|discriminate]. injection E as <- _. apply wf_map_set; auto.
Qed.

Lemma wf_run ops : forall s s', wf s -> run_state (ustep V zero) s ops = Some s' -> wf s'.
Proof.
  induction ops as [|o ops IH]; intros s s' W E; simpl in E.
  - injection E as <-. auto.
  - destruct (ustep V zero s o) as [[s1 r]|] eqn:Es; [|discriminate].
    eapply IH; [|exact E]. eapply wf_ustep; eauto.
Qed.

(** Refinement (C07). *)
Definition cnode (s : storer) (k : Z) (N : nat) : option nat :=
  match tables V s k with None => None | Some t => theap V s t N end.
Definition cval (s : storer) (k : Z) (N : nat) (l : Z) : option V :=
  match cnode s k N with None => None | Some m => mheap V s m l end.
Definition isSome {X} (o : option X) : bool := match o with None => false | Some _ => true end.

Record rel (s : storer) (a : sspec) : Prop := {
  r_wf : wf s;
  r_next : sp_next V a = tickets V s;
  r_live : forall k, sp_live V a k = isSome (tables V s k);
  r_node : forall k N, sp_node V a k N = isSome (cnode s k N);
  r_val : forall k N l, sp_val V a k N l = cval s k N l }.

Lemma rel_create s a k : rel s a -> rel (make_table V s k) (spec_create V a k).
Proof.
  intros R. pose proof (r_wf _ _ R) as W. constructor.
  - apply wf_make; auto.
  - simpl. apply R.
  - intros k'. simpl. cases_upd; auto. apply R.
  - intros k' N. simpl. unfold cnode. simpl. cases_upd.
    + simpl. reflexivity.
    + simpl. congruence.
    + rewrite (r_node _ _ R). unfold cnode. destruct (tables V s k') as [t|] eqn:Et; auto.
      cases_upd; auto. apply (w1 s W) in Et. lia.
  - intros k' N l. simpl. unfold cval, cnode. simpl. cases_upd.
    + reflexivity.
    + congruence.
    + rewrite (r_val _ _ R). unfold cval, cnode. destruct (tables V s k') as [t|] eqn:Et; auto.
      cases_upd; auto. apply (w1 s W) in Et. lia.
Qed.

Lemma make_drop s k : make_table V (drop_table V s k) k = mkStorer V
   (updZ (updZ (tables V s) k None) k (Some (tnext V s))) (tickets V s)
           (upd (theap V s) (tnext V s) (fun _ => None)) (mheap V s) (S (tnext V s)) (mnext V s).
Proof. reflexivity. Qed.

Lemma rel_ext s s' a : tickets V s = tickets V s' -> (forall k, tables V s k = tables V s' k) ->
  theap V s = theap V s' -> mheap V s = mheap V s' -> wf s' -> rel s a -> rel s' a.
Proof.
  intros E1 E2 E3 E4 W R. constructor; auto.
  - rewrite <- E1. apply R.
  - intros k. rewrite <- E2. apply R.
  - intros k N. unfold cnode. rewrite <- E2, <- E3. apply R.
  - intros k N l. unfold cval, cnode. rewrite <- E2, <- E3, <- E4. apply R.
Qed.

Lemma rel_reset s a k : rel s a -> rel (make_table V (drop_table V s k) k) (spec_create V a k).
Proof.
  intros R. apply rel_ext with (s := make_table V s k); auto.
  - intros k'. simpl. cases_upd; auto.
  - apply wf_make, wf_drop, R.
  - apply rel_create; auto.
Qed.

Lemma rel_delete s a k : rel s a -> rel (drop_table V s k) (spec_delete V a k).
Proof.
  intros R. constructor.
  - apply wf_drop, R.
  - simpl. apply R.
  - intros k'. simpl. cases_upd; auto. apply R.
  - intros k' N. unfold cnode. simpl. cases_upd; auto. apply R.
  - intros k' N l. unfold cval, cnode. simpl. cases_upd; auto. apply R.
Qed.

Lemma rel_resetTickets ks : forall s a, rel s a -> rel (resetTickets V s ks) (fold_left (spec_create V) ks a).
Proof.
  induction ks as [|k ks IH]; intros s a R; simpl; auto. apply IH. apply rel_reset; auto.
Qed.

Lemma rel_store s a k N l v : rel s a ->
  match sStore V s k N l v with
  | None => False
  | Some (s', b) => ROk V b = snd (spec_store V a k N l v) /\ rel s' (fst (spec_store V a k N l v))
  end.
Proof.
  intros R. pose proof (r_wf _ _ R) as W. unfold sStore, table, spec_store.
  rewrite (r_live _ _ R k). destruct (tables V s k) as [t|] eqn:Et; simpl; [|auto].
  destruct (theap V s t N) as [m|] eqn:Eh.
  - split; auto. constructor.
    + apply wf_map_set; auto.
    + apply R.
    + apply R.
    + intros k' N'. simpl. change (cnode (map_set V s m l v) k' N') with (cnode s k' N').
      destruct (Z.eq_dec k' k) as [->|Hk].
      * rewrite updZ_same. destruct (Nat.eq_dec N' N) as [->|HN].
        -- rewrite upd_same. unfold cnode. rewrite Et, Eh. reflexivity.
        -- rewrite upd_diff by auto. apply (r_node _ _ R).
      * rewrite updZ_diff by auto. apply (r_node _ _ R).
    + intros k' N' l'. simpl. unfold cval, cnode. simpl.
      destruct (Z.eq_dec k' k) as [->|Hk].
      * rewrite updZ_same, Et. destruct (Nat.eq_dec N' N) as [->|HN].
        -- rewrite upd_same, Eh, upd_same. destruct (Z.eq_dec l' l) as [->|Hl].
           ++ rewrite !updZ_same. reflexivity.
           ++ rewrite !updZ_diff by auto. rewrite (r_val _ _ R). unfold cval, cnode. rewrite Et, Eh. auto.
        -- rewrite upd_diff by auto. rewrite (r_val _ _ R). unfold cval, cnode. rewrite Et.
           destruct (theap V s t N') as [m'|] eqn:Eh'; auto. rewrite upd_diff; auto.
           intros ->. apply HN. eapply (w4 s W); eauto.
      * rewrite updZ_diff by auto. rewrite (r_val _ _ R). unfold cval, cnode.
        destruct (tables V s k') as [t'|] eqn:Et'; auto.
        destruct (theap V s t' N') as [m'|] eqn:Eh'; auto. rewrite upd_diff; auto.
        intros ->. apply Hk. destruct (w4 s W _ _ _ _ _ Eh Eh') as [<- _]. eapply (w2 s W); eauto.
  - split; auto. constructor.
    + eapply wf_tStore with (s := s) (t := Some t) (N := N) (l := l) (v := v) (b := true); auto.
      * eapply allocated_table; eauto.
      * unfold tStore. rewrite Eh. reflexivity.
    + apply R.
    + apply R.
    + intros k' N'. simpl. unfold cnode. simpl.
      destruct (Z.eq_dec k' k) as [->|Hk].
      * rewrite updZ_same, Et. rewrite upd_same. destruct (Nat.eq_dec N' N) as [->|HN].
        -- rewrite !upd_same. reflexivity.
        -- rewrite !upd_diff by auto. rewrite (r_node _ _ R). unfold cnode. rewrite Et. auto.
      * rewrite updZ_diff by auto. rewrite (r_node _ _ R). unfold cnode.
        destruct (tables V s k') as [t'|] eqn:Et'; auto. rewrite upd_diff; auto.
        intros ->. apply Hk. eapply (w2 s W); eauto.
    + intros k' N' l'. simpl. unfold cval, cnode. simpl.
      destruct (Z.eq_dec k' k) as [->|Hk].
      * rewrite updZ_same, Et. rewrite (upd_same (theap V s)). destruct (Nat.eq_dec N' N) as [->|HN].
        -- rewrite !upd_same. destruct (Z.eq_dec l' l) as [->|Hl].
           ++ rewrite !updZ_same. reflexivity.
           ++ rewrite !updZ_diff by auto. rewrite (r_val _ _ R). unfold cval, cnode. rewrite Et, Eh. auto.
        -- rewrite !upd_diff by auto. rewrite (r_val _ _ R). unfold cval, cnode. rewrite Et.
           destruct (theap V s t N') as [m'|] eqn:Eh'; auto.
           assert (m' <> mnext V s) by (apply (w3 s W) in Eh'; lia).
           rewrite !upd_diff by auto. auto.
      * rewrite updZ_diff by auto. rewrite (r_val _ _ R). unfold cval, cnode.
        destruct (tables V s k') as [t'|] eqn:Et'; auto.
        rewrite (upd_diff (theap V s)) by (intros ->; apply Hk; eapply (w2 s W); eauto).
        destruct (theap V s t' N') as [m'|] eqn:Eh'; auto.
        assert (m' <> mnext V s) by (apply (w3 s W) in Eh'; lia).
        rewrite !upd_diff by auto. auto.
Qed.

Lemma sEntry_cval s k N l : sEntry V zero s k N l =
  match cval s k N l with None => (zero, false) | Some v => (v, true) end.
Proof.
  unfold sEntry, cval, cnode, tEntry, tValue. destruct (tables V s k) as [t|]; auto.
  destruct (theap V s t N) as [m|]; auto.
Qed.

Lemma storer_step_refines s a o : rel s a ->
  match sstep V zero s o, spec_step V zero a o with
  | None, None => True
  | Some (s', r), Some (a', r') => r = r' /\ rel s' a'
  | _, _ => False
  end.
Proof.
  intros R. unfold spec_step. destruct o; simpl.
  - rewrite (r_next _ _ R). split; auto. apply rel_create. constructor; simpl; try apply R; auto.
    + apply wf_tickets, R.
  - pose proof (rel_store s a k N l v R) as H. destruct (sStore V s k N l v) as [[s' b]|]; [|tauto].
    destruct (spec_store V a k N l v). auto.
  - unfold sStoreSingle. pose proof (rel_store s a k N 0 v R) as H.
    destruct (sStore V s k N 0 v) as [[s' b]|]; [|tauto].
    destruct (spec_store V a k N 0 v). auto.
  - rewrite sEntry_cval. unfold spec_read. rewrite (r_val _ _ R). destruct (cval s k N l); auto.
  - unfold sSingle. rewrite sEntry_cval. unfold spec_read. rewrite (r_val _ _ R). destruct (cval s k N 0); auto.
  - unfold spec_read. rewrite (r_val _ _ R). unfold cval, cnode, sValue, tValue, map_get.
    destruct (tables V s k) as [t|]; auto. destruct (theap V s t N) as [m|]; auto.
    destruct (mheap V s m l); auto.
  - rewrite (r_node _ _ R). unfold cnode, sExistsSPN, tValue. split; auto.
    destruct (tables V s k) as [t|]; auto.
  - rewrite (r_val _ _ R). unfold cval, cnode, sExists, tValue, map_get. split; auto.
    destruct (tables V s k) as [t|]; auto. simpl. destruct (theap V s t N) as [m|]; auto.
    destruct (mheap V s m l); auto.
  - rewrite (r_live _ _ R). auto.
  - split; auto. apply rel_delete; auto.
  - split; auto. apply rel_reset; auto.
  - split; auto. apply rel_resetTickets; auto.
  - split; auto. constructor; simpl; auto. constructor; simpl; try apply R; intros; discriminate.
Qed.

Lemma rel_new : rel (newStorer V) (spec_new V).
Proof. constructor; simpl; auto. apply wf_new. Qed.

Lemma storer_refines_l ops :
  run (sstep V zero) (newStorer V) ops = run (spec_step V zero) (spec_new V) ops.
Proof. apply run_refines with (rel := rel); [apply storer_step_refines|apply rel_new]. Qed.

Lemma storer_never_panics_l ops : snd (run (sstep V zero) (newStorer V) ops) = false.
Proof.
  rewrite storer_refines_l. generalize (spec_new V). induction ops as [|o ops IH]; intros a; auto.
  cbn [run]. unfold spec_step at 1. destruct (match o with ONew _ => _ | _ => _ end) as [a' r].
  specialize (IH a'). destruct (run _ a' ops). auto.
Qed.

(** Tickets (C08). *)
Definition ticket_inv (s : storer) : Prop :=
  forall k t, tables V s k = Some t -> (0 <= k < tickets V s)%Z.

Lemma resetTickets_tables ks : forall s k t, tables V (resetTickets V s ks) k = Some t ->
  In k ks \/ tables V s k = Some t.
Proof.
  induction ks as [|h ks IH]; intros s k t H; simpl in *; auto.
  apply IH in H. destruct H as [H|H]; auto. simpl in H. cases_upd; auto.
Qed.

Lemma resetTickets_tickets ks : forall s, tickets V (resetTickets V s ks) = tickets V s.
Proof. induction ks as [|h ks IH]; intros s; simpl; auto. rewrite IH. reflexivity. Qed.

Lemma tStore_tables s t N l v s' b : tStore V s t N l v = Some (s', b) ->
  tables V s' = tables V s /\ tickets V s' = tickets V s.
Proof.
  unfold tStore. destruct t as [r|]; [|discriminate].
  destruct (theap V s r N); intros E; injection E as <- _; auto.
Qed.

Lemma sStore_tables s k N l v s' b : sStore V s k N l v = Some (s', b) ->
  tables V s' = tables V s /\ tickets V s' = tickets V s.
Proof.
  unfold sStore, table. destruct (tables V s k) eqn:E.
  - apply tStore_tables.
  - intros E'; injection E' as <- _; auto.
Qed.

Lemma tame_step_inv s o s' r : (0 <= tickets V s)%Z -> ticket_inv s -> tame V s o ->
  ustep V zero s o = Some (s', r) ->
  ticket_inv s' /\ (tickets V s <= tickets V s')%Z /\
  (forall k, o = US V (ONew V) -> r = RTicket V k ->
     k = tickets V s /\ tables V s k = None /\ tickets V s' = (tickets V s + 1)%Z).
Proof.
  intros H0 I Ht E. destruct o as [o|t N l v|t N l|m l v]; simpl in E, Ht.
  - destruct o; simpl in E.
    + injection E as <- <-. split; [|split].
      * intros k t H. simpl in *. cases_upd; [lia|]. apply I in H. lia.
      * simpl. lia.
      * intros k _ Er. injection Er as <-. split; auto. split; auto.
        destruct (tables V s (tickets V s)) as [t|] eqn:Et; auto. apply I in Et. lia.
    + destruct (sStore V s k N l v) as [[s1 b]|] eqn:Es; [|discriminate]. injection E as <- <-.
      apply sStore_tables in Es. destruct Es as [E1 E2]. split; [|split].
      * intros k' t. rewrite E1, E2. apply I.
      * lia.
      * intros k' Eo; discriminate.
    + unfold sStoreSingle in E. destruct (sStore V s k N 0 v) as [[s1 b]|] eqn:Es; [|discriminate]. injection E as <- <-.
      apply sStore_tables in Es. destruct Es as [E1 E2]. split; [|split].
      * intros k' t. rewrite E1, E2. apply I.
      * lia.
      * intros k' Eo; discriminate.
    + destruct (sEntry V zero s k N l). injection E as <- <-. split; [exact I|split; [lia|intros ? Eo; discriminate]].
    + destruct (sSingle V zero s k N). injection E as <- <-. split; [exact I|split; [lia|intros ? Eo; discriminate]].
    + destruct (sValue V s k N). destruct (map_get V zero s o l). injection E as <- <-.
      split; [exact I|split; [lia|intros ? Eo; discriminate]].
    + injection E as <- <-. split; [exact I|split; [lia|intros ? Eo; discriminate]].
    + injection E as <- <-. split; [exact I|split; [lia|intros ? Eo; discriminate]].
    + injection E as <- <-. split; [exact I|split; [lia|intros ? Eo; discriminate]].
    + injection E as <- <-. split; [|split; [simpl; lia|intros ? Eo; discriminate]].
      intros k' t H. simpl in *. cases_upd; [discriminate|]. apply I in H. auto.
    + injection E as <- <-. split; [|split; [simpl; lia|intros ? Eo; discriminate]].
      intros k' t H. simpl in *. cases_upd; auto. apply I in H. auto.
    + injection E as <- <-. rewrite resetTickets_tickets.
      split; [|split; [simpl; lia|intros ? Eo; discriminate]].
      intros k' t H. rewrite resetTickets_tickets. apply resetTickets_tables in H.
      destruct H as [H|H]; auto. apply I in H; auto.
    + destruct Ht.
  - destruct (allocated V s t); [|discriminate].
    destruct (tStore V s t N l v) as [[s1 b]|] eqn:Es; [|discriminate]. injection E as <- <-.
    apply tStore_tables in Es. destruct Es as [E1 E2]. split; [|split].
    + intros k' t'. rewrite E1, E2. apply I.
    + lia.
    + intros k' Eo; discriminate.
  - destruct (tEntry V zero s t N l). injection E as <- <-. split; [exact I|split; [lia|intros ? Eo; discriminate]].
  - destruct (Nat.ltb m (mnext V s)); [|discriminate]. injection E as <- <-.
    split; [|split; [simpl; lia|intros ? Eo; discriminate]]. exact I.
Qed.

Lemma tame_run_inv s ops s' tr : tame_run V zero s ops s' tr -> (0 <= tickets V s)%Z -> ticket_inv s ->
  ticket_inv s' /\ (tickets V s <= tickets V s')%Z.
Proof.
  induction 1 as [s|s o s1 r ops s2 tr Ht E _ IH]; intros H0 I.
  - split; auto; lia.
  - destruct (tame_step_inv _ _ _ _ H0 I Ht E) as (I1 & H1 & _). destruct IH; auto; [lia|split; auto; lia].
Qed.

Lemma tickets_unique_l ops1 ops2 s0 s1 s2 s3 k1 k2 tr1 tr2 :
  tame_run V zero (newStorer V) ops1 s0 tr1 ->
  ustep V zero s0 (US V (ONew V)) = Some (s1, RTicket V k1) ->
  tame_run V zero s1 ops2 s2 tr2 ->
  ustep V zero s2 (US V (ONew V)) = Some (s3, RTicket V k2) ->
  tables V s0 k1 = None /\ tables V s2 k2 = None /\ k1 <> k2.
Proof.
  intros R1 E1 R2 E2.
  destruct (tame_run_inv _ _ _ _ R1) as [I0 H0]; [simpl; lia|intros k t H; discriminate|].
  simpl in H0.
  destruct (tame_step_inv _ (US V (ONew V)) _ _ H0 I0 Logic.I E1) as (I1 & H1 & Hk1).
  destruct (Hk1 k1 eq_refl eq_refl) as (-> & Hn1 & Ht1).
  destruct (tame_run_inv _ _ _ _ R2) as [I2 H2]; auto; [lia|].
  destruct (tame_step_inv s2 (US V (ONew V)) _ _ ltac:(lia) I2 Logic.I E2) as (I3 & H3 & Hk2).
  destruct (Hk2 k2 eq_refl eq_refl) as (-> & Hn2 & Ht2). repeat split; auto. lia.
Qed.

(** Handles (C09). *)
Lemma resetTickets_other ks : forall s k, ~ In k ks -> tables V (resetTickets V s ks) k = tables V s k.
Proof.
  induction ks as [|h ks IH]; intros s k H; simpl in *; auto.
  rewrite IH by tauto. simpl. rewrite !updZ_diff by (intros ->; tauto). auto.
Qed.

Lemma untouched s k o s' r : ~ touches V s k o -> ustep V zero s o = Some (s', r) ->
  tables V s' k = tables V s k.
Proof.
  intros Hn E. destruct o as [o|t N l v|t N l|m l v]; simpl in E, Hn.
  - destruct o; simpl in E, Hn.
    + injection E as <- _. simpl. rewrite updZ_diff; auto.
    + destruct (sStore V s k0 N l v) as [[s1 b]|] eqn:Es; [|discriminate]. injection E as <- _.
      apply sStore_tables in Es. destruct Es as [-> _]. auto.
    + unfold sStoreSingle in E. destruct (sStore V s k0 N 0 v) as [[s1 b]|] eqn:Es; [|discriminate].
      injection E as <- _. apply sStore_tables in Es. destruct Es as [-> _]. auto.
    + destruct (sEntry V zero s k0 N l). injection E as <- _. auto.
    + destruct (sSingle V zero s k0 N). injection E as <- _. auto.
    + destruct (sValue V s k0 N). destruct (map_get V zero s o l). injection E as <- _. auto.
    + injection E as <- _. auto.
    + injection E as <- _. auto.
    + injection E as <- _. auto.
    + injection E as <- _. simpl. rewrite updZ_diff; auto.
    + injection E as <- _. simpl. rewrite !updZ_diff; auto.
    + injection E as <- _. apply resetTickets_other; auto.
    + tauto.
  - destruct (allocated V s t); [|discriminate].
    destruct (tStore V s t N l v) as [[s1 b]|] eqn:Es; [|discriminate]. injection E as <- _.
    apply tStore_tables in Es. destruct Es as [-> _]. auto.
  - destruct (tEntry V zero s t N l). injection E as <- _. auto.
  - destruct (Nat.ltb m (mnext V s)); [|discriminate]. injection E as <- _. auto.
Qed.

Lemma handle_live_l k s ops s' t : free_run V zero k s ops s' -> table V s k = (Some t, true) ->
  (forall N l, tEntry V zero s' (Some t) N l = sEntry V zero s' k N l) /\
  (forall N l v, tStore V s' (Some t) N l v = sStore V s' k N l v).
Proof.
  intros R Et. assert (E : tables V s' k = Some t).
  { unfold table in Et. injection Et as Et _. revert Et.
    induction R as [s|s o s1 r ops s2 Hn E _ IH]; intros Et; auto.
    apply IH. rewrite (untouched _ _ _ _ _ Hn E). auto. }
  split; intros.
  - unfold sEntry. rewrite E. auto.
  - unfold sStore, table. rewrite E. auto.
Qed.

(** No ticket refers to [t]. *)
Definition detached (s : storer) (t : nat) : Prop := forall k, tables V s k <> Some t.

Lemma make_detached s t k : detached s t -> t < tnext V s -> detached (make_table V s k) t.
Proof. intros D H k' E. simpl in E. cases_upd; [injection E; lia|]. apply (D k' E). Qed.

Lemma make_at_detached s t k : wf s -> tables V s k = Some t -> detached (make_table V s k) t.
Proof.
  intros W H k' E. simpl in E. cases_upd.
  - apply (w1 s W) in H. injection E; lia.
  - apply n. eapply (w2 s W); eauto.
Qed.

Lemma drop_at_detached s t k : wf s -> tables V s k = Some t -> detached (drop_table V s k) t.
Proof.
  intros W H k' E. simpl in E. cases_upd; [discriminate|]. apply n. eapply (w2 s W); eauto.
Qed.

Lemma drop_detached s t k : detached s t -> detached (drop_table V s k) t.
Proof. intros D k' E. simpl in E. cases_upd; [discriminate|]. apply (D k' E). Qed.

Lemma resetTickets_detached ks : forall s t, wf s -> t < tnext V s -> detached s t ->
  detached (resetTickets V s ks) t /\ t < tnext V (resetTickets V s ks).
Proof.
  induction ks as [|h ks IH]; intros s t W Ht D; simpl; auto.
  apply IH.
  - apply wf_make, wf_drop; auto.
  - simpl. lia.
  - apply make_detached; [apply drop_detached; auto|simpl; auto].
Qed.

Lemma touch_detaches s k t o s' r : wf s -> tables V s k = Some t -> touches V s k o ->
  ustep V zero s o = Some (s', r) -> detached s' t /\ t < tnext V s'.
Proof.
  intros W Et Ht E. pose proof (w1 s W _ _ Et) as Hlt.
  destruct o as [o|t' N l v|t' N l|m l v]; simpl in Ht; try tauto.
  destruct o; simpl in Ht; try tauto; simpl in E; injection E as <- _.
  - split; [|simpl; lia]. rewrite Ht. apply make_at_detached; [apply wf_tickets; auto|auto].
  - subst. split; [|simpl; lia]. apply drop_at_detached; auto.
  - subst. split; [|simpl; lia]. apply make_detached; [apply drop_at_detached; auto|simpl; auto].
  - clear r. revert s W Et Hlt. induction ks as [|h ks IH]; intros s W Et Hlt; [destruct Ht|].
    destruct (Z.eq_dec h k) as [->|Hh].
    + simpl. apply resetTickets_detached.
      * apply wf_make, wf_drop; auto.
      * simpl; lia.
      * apply make_detached; [apply drop_at_detached; auto|simpl; auto].
    + simpl. apply IH.
      * destruct Ht; [congruence|auto].
      * apply wf_make, wf_drop; auto.
      * simpl. rewrite !updZ_diff by auto. auto.
      * simpl. lia.
  - split; [|simpl; lia]. intros k' E. discriminate.
Qed.

Lemma tStore_tnext s t N l v s' b : tStore V s t N l v = Some (s', b) -> tnext V s' = tnext V s.
Proof.
  unfold tStore. destruct t as [r|]; [|discriminate].
  destruct (theap V s r N); intros E; injection E as <- _; auto.
Qed.

Lemma sStore_tnext s k N l v s' b : sStore V s k N l v = Some (s', b) -> tnext V s' = tnext V s.
Proof.
  unfold sStore, table. destruct (tables V s k).
  - apply tStore_tnext.
  - intros E; injection E as <- _; auto.
Qed.

Lemma detached_step s t o s' r : wf s -> detached s t -> t < tnext V s ->
  ustep V zero s o = Some (s', r) -> detached s' t /\ t < tnext V s'.
Proof.
  intros W D Hlt E. destruct o as [o|t' N l v|t' N l|m l v]; simpl in E.
  - destruct o; simpl in E.
    + injection E as <- _. split; [|simpl; lia]. apply make_detached; auto.
    + destruct (sStore V s k N l v) as [[s1 b]|] eqn:Es; [|discriminate]. injection E as <- _.
      pose proof (sStore_tnext _ _ _ _ _ _ _ Es). apply sStore_tables in Es. destruct Es as [Et _].
      split; [|lia]. unfold detached. rewrite Et. auto.
    + unfold sStoreSingle in E. destruct (sStore V s k N 0 v) as [[s1 b]|] eqn:Es; [|discriminate].
      injection E as <- _. pose proof (sStore_tnext _ _ _ _ _ _ _ Es).
      apply sStore_tables in Es. destruct Es as [Et _].
      split; [|lia]. unfold detached. rewrite Et. auto.
    + destruct (sEntry V zero s k N l). injection E as <- _. auto.
    + destruct (sSingle V zero s k N). injection E as <- _. auto.
    + destruct (sValue V s k N). destruct (map_get V zero s o l). injection E as <- _. auto.
    + injection E as <- _. auto.
    + injection E as <- _. auto.
    + injection E as <- _. auto.
    + injection E as <- _. split; [apply drop_detached; auto|auto].
    + injection E as <- _. split; [|simpl; lia]. apply make_detached; [apply drop_detached; auto|auto].
    + injection E as <- _. apply resetTickets_detached; auto.
    + injection E as <- _. split; auto. intros k E. discriminate.
  - destruct (allocated V s t'); [|discriminate].
    destruct (tStore V s t' N l v) as [[s1 b]|] eqn:Es; [|discriminate]. injection E as <- _.
    pose proof (tStore_tnext _ _ _ _ _ _ _ Es). apply tStore_tables in Es. destruct Es as [Et _].
    split; [|lia]. unfold detached. rewrite Et. auto.
  - destruct (tEntry V zero s t' N l). injection E as <- _. auto.
  - destruct (Nat.ltb m (mnext V s)); [|discriminate]. injection E as <- _. auto.
Qed.

Lemma detached_run ops : forall s s' t, wf s -> detached s t -> t < tnext V s ->
  run_state (ustep V zero) s ops = Some s' -> wf s' /\ detached s' t.
Proof.
  induction ops as [|o ops IH]; intros s s' t W D Hlt E; simpl in E.
  - injection E as <-. auto.
  - destruct (ustep V zero s o) as [[s1 r]|] eqn:Es; [|discriminate].
    destruct (detached_step _ _ _ _ _ W D Hlt Es) as [D1 H1].
    eapply IH with (s := s1); eauto. eapply wf_ustep; eauto.
Qed.

(** A store through one table is not seen through another. *)
Lemma tStore_other s t t' N l v s' b N' l' : wf s -> t <> t' ->
  tStore V s (Some t) N l v = Some (s', b) ->
  tEntry V zero s' (Some t') N' l' = tEntry V zero s (Some t') N' l'.
Proof.
  intros W Hd E. unfold tStore in E. unfold tEntry, tValue.
  destruct (theap V s t N) as [m|] eqn:Eh; injection E as <- _; simpl.
  - destruct (theap V s t' N') as [m'|] eqn:Eh'; auto. simpl. rewrite upd_diff; auto.
    intros ->. apply Hd. destruct (w4 s W _ _ _ _ _ Eh Eh'); auto.
  - rewrite upd_diff by auto. destruct (theap V s t' N') as [m'|] eqn:Eh'; auto. simpl.
    assert (m' <> mnext V s) by (apply (w3 s W) in Eh'; lia).
    rewrite !upd_diff by auto. auto.
Qed.

Lemma handle_detached_l ops0 s k t o s1 r ops s' :
  run_state (ustep V zero) (newStorer V) ops0 = Some s ->
  table V s k = (Some t, true) -> touches V s k o -> ustep V zero s o = Some (s1, r) ->
  run_state (ustep V zero) s1 ops = Some s' ->
  (forall N l v s'' b, tStore V s' (Some t) N l v = Some (s'', b) ->
     forall k' N' l', sEntry V zero s'' k' N' l' = sEntry V zero s' k' N' l') /\
  (forall k' N l v s'' b, sStore V s' k' N l v = Some (s'', b) ->
     forall N' l', tEntry V zero s'' (Some t) N' l' = tEntry V zero s' (Some t) N' l').
Proof.
  intros E0 Et Ht Eo E. pose proof (wf_run _ _ _ wf_new E0) as W.
  unfold table in Et. injection Et as Et _.
  destruct (touch_detaches _ _ _ _ _ _ W Et Ht Eo) as [D Hlt].
  destruct (detached_run ops s1 s' t) as [W' D']; auto; [eapply wf_ustep; eauto|]. split.
  - intros N l v s'' b Es k' N' l'. unfold sEntry.
    destruct (tStore_tables _ _ _ _ _ _ _ Es) as [-> _].
    destruct (tables V s' k') as [t'|] eqn:Et'; auto.
    apply tStore_other with (t := t) (N := N) (l := l) (v := v) (b := b); auto.
    intros <-. apply (D' _ Et').
  - intros k' N l v s'' b Es N' l'. unfold sStore, table in Es.
    destruct (tables V s' k') as [t'|] eqn:Et'.
    + apply tStore_other with (t := t') (N := N) (l := l) (v := v) (b := b); auto.
      intros ->. apply (D' _ Et').
    + injection Es as <- _. auto.
Qed.
End L.

(** A store through a live handle, in terms of the entries seen through the Storer. *)
Section Via.
Variable V : Type.
Variable zero : V.

Definition abs (s : storer V) : sspec V :=
  mkSpec V (tickets V s) (fun k => isSome (tables V s k)) (fun k N => isSome (cnode V s k N))
         (fun k N l => cval V s k N l).

Lemma rel_abs s : wf V s -> rel V s (abs s).
Proof. intros W. constructor; auto. Qed.

Lemma tstore_ok s k t N l v : wf V s -> tables V s k = Some t ->
  exists s', tStore V s (Some t) N l v = Some (s', true) /\ wf V s' /\
    tables V s' = tables V s /\ tickets V s' = tickets V s /\
    cval V s' k N l = Some v /\
    forall k' N' l', ~ (k' = k /\ N' = N /\ l' = l) -> cval V s' k' N' l' = cval V s k' N' l'.
Proof.
  intros W Et. pose proof (rel_store V s (abs s) k N l v (rel_abs s W)) as H.
  unfold sStore, table in H. rewrite Et in H.
  destruct (tStore V s (Some t) N l v) as [[s' b]|] eqn:E; [|destruct H].
  unfold spec_store in H. simpl in H. rewrite Et in H. simpl in H. destruct H as [Hb R].
  injection Hb as ->. exists s'. destruct (tStore_tables V _ _ _ _ _ _ _ E) as [E1 E2].
  split; auto. split; [apply R|]. split; auto. split; auto.
  split.
  - rewrite <- (r_val V _ _ R). simpl. rewrite updZ_same, upd_same, updZ_same. reflexivity.
  - intros k' N' l' Hne. rewrite <- (r_val V _ _ R). simpl. unfold updZ, upd.
    destruct (Z.eqb_spec k' k); auto. destruct (Nat.eqb_spec N' N).
    + destruct (Z.eqb_spec l' l); subst; auto. exfalso; apply Hne; auto.
    + subst; auto.
Qed.

Lemma tEntry_cval s k t N l : tables V s k = Some t -> tEntry V zero s (Some t) N l =
  match cval V s k N l with None => (zero, false) | Some v => (v, true) end.
Proof. intros E. rewrite <- sEntry_cval. unfold sEntry. rewrite E. reflexivity. Qed.

Lemma newTicket_ok s : wf V s -> let (s', k) := newTicket V s in
  k = tickets V s /\ wf V s' /\ (exists t, tables V s' k = Some t) /\
  (forall N l, cval V s' k N l = None) /\
  (forall k' N l, k' <> k -> cval V s' k' N l = cval V s k' N l).
Proof.
  intros W. unfold newTicket. split; auto.
  pose proof (rel_create V _ _ (tickets V s) (rel_abs _ (wf_tickets V s (tickets V s + 1) W))) as R.
  split; [apply R|]. split.
  { eexists. simpl. apply updZ_same. }
  split.
  - intros N l. rewrite <- (r_val V _ _ R). simpl. rewrite updZ_same. reflexivity.
  - intros k' N l Hk. rewrite <- (r_val V _ _ R). simpl. rewrite updZ_diff by auto. reflexivity.
Qed.
End Via.
