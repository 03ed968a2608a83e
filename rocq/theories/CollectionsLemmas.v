From Verif Require Import Base Collections CollectionsSpec.

Section L.
Variable A : Type.
Variable nilA : A.
Variable lb : Z.

Notation slice := (slice A).
Notation contents := (contents A).

Definition swf (s : slice) : Prop := off A s + len A s <= length (arr A s).

Lemma contents_length s : swf s -> length (contents s) = len A s.
Proof.
  intros H. unfold contents, swf in *. rewrite firstn_length, skipn_length. lia.
Qed.

Lemma sget_contents s i : swf s -> sget A s i = nth_error (contents s) i.
Proof.
  intros H. unfold sget. destruct (Nat.ltb_spec i (len A s)) as [Hi|Hi].
  - unfold contents. rewrite nth_error_firstn_lt by lia. rewrite nth_error_skipn. reflexivity.
  - symmetry. apply nth_error_None. rewrite contents_length by auto. lia.
Qed.

Lemma contents_ext s l :
  swf s -> length l = len A s ->
  (forall i, i < len A s -> nth_error (arr A s) (off A s + i) = nth_error l i) ->
  contents s = l.
Proof.
  intros Hw Hl H. apply nth_error_ext. intros i.
  destruct (Nat.lt_ge_cases i (len A s)) as [Hi|Hi].
  - rewrite <- H by lia. rewrite <- sget_contents by auto.
    unfold sget. destruct (Nat.ltb_spec i (len A s)); [reflexivity|lia].
  - transitivity (@None A).
    + apply nth_error_None. rewrite contents_length by auto; lia.
    + symmetry. apply nth_error_None. lia.
Qed.

Lemma nth_error_contents s i : swf s -> i < len A s ->
  nth_error (contents s) i = nth_error (arr A s) (off A s + i).
Proof.
  intros Hw Hi. rewrite <- sget_contents by auto. unfold sget.
  destruct (Nat.ltb_spec i (len A s)); [reflexivity|lia].
Qed.

Lemma sappend_wf s x g : swf s -> swf (sappend A nilA s x g).
Proof.
  intros H. unfold sappend, swf, scap in *.
  destruct (Nat.ltb_spec (len A s) (length (arr A s) - off A s)); simpl.
  - rewrite set_nth_length. lia.
  - rewrite app_length. fold (swf s) in H.
    rewrite contents_length by exact H. simpl. lia.
Qed.

Lemma sappend_contents s x g : swf s ->
  contents (sappend A nilA s x g) = contents s ++ [x].
Proof.
  intros H. pose proof (sappend_wf s x g H) as Hw.
  pose proof (contents_length s H) as HL.
  apply contents_ext; auto.
  - rewrite app_length, HL. unfold sappend. destruct (Nat.ltb _ _); simpl; lia.
  - unfold sappend, scap.
    destruct (Nat.ltb_spec (len A s) (length (arr A s) - off A s)) as [Hc|Hc]; simpl; intros i Hi.
    + destruct (Nat.eq_dec i (len A s)) as [->|Hn].
      * rewrite nth_error_set_nth_same by lia.
        rewrite nth_error_app2 by lia. rewrite HL, Nat.sub_diag. reflexivity.
      * rewrite nth_error_set_nth_diff by lia. rewrite nth_error_app1 by lia.
        symmetry. apply nth_error_contents; auto; lia.
    + change (x :: repeat nilA g) with ([x] ++ repeat nilA g).
      rewrite app_assoc. rewrite nth_error_app1; [reflexivity|].
      rewrite app_length, HL. simpl. lia.
Qed.

Lemma sset_spec s i x s' : swf s -> sset A s i x = Some s' ->
  swf s' /\ len A s' = len A s /\ off A s' = off A s /\ length (arr A s') = length (arr A s) /\
  contents s' = set_nth i x (contents s).
Proof.
  intros Hw. unfold sset. destruct (Nat.ltb_spec i (len A s)) as [Hi|Hi]; [|discriminate].
  intros E; injection E as <-.
  assert (W : swf (mkSlice A (set_nth (off A s + i) x (arr A s)) (off A s) (len A s))).
  { unfold swf in *; simpl. rewrite set_nth_length. lia. }
  repeat split; auto.
  - simpl. apply set_nth_length.
  - apply contents_ext; auto; simpl.
    + rewrite set_nth_length. apply contents_length; auto.
    + intros j Hj. destruct (Nat.eq_dec j i) as [->|Hn].
      * rewrite nth_error_set_nth_same by (unfold swf in Hw; lia).
        rewrite nth_error_set_nth_same; [reflexivity|]. rewrite contents_length; auto.
      * rewrite nth_error_set_nth_diff by lia. rewrite nth_error_set_nth_diff by lia.
        symmetry. apply nth_error_contents; auto.
Qed.

Lemma sset_ok s i x : i < len A s -> exists s', sset A s i x = Some s'.
Proof.
  intros H. unfold sset. destruct (Nat.ltb_spec i (len A s)); [eauto|lia].
Qed.

Lemma sslice_spec s lo hi s' : swf s -> hi <= len A s -> sslice A s lo hi = Some s' ->
  swf s' /\ lo <= hi /\ contents s' = firstn (hi - lo) (skipn lo (contents s)).
Proof.
  intros Hw Hhi. unfold sslice, scap.
  destruct (Nat.leb_spec lo hi) as [H1|H1]; simpl; [|discriminate].
  destruct (Nat.leb_spec hi (length (arr A s) - off A s)) as [H2|H2]; [|discriminate].
  intros E; injection E as <-.
  assert (W : swf (mkSlice A (arr A s) (off A s + lo) (hi - lo))).
  { unfold swf in *; simpl. lia. }
  repeat split; auto.
  apply contents_ext; auto; simpl.
  - rewrite firstn_length, skipn_length, contents_length by auto. lia.
  - intros i Hi. rewrite nth_error_firstn_lt by lia. rewrite nth_error_skipn.
    rewrite nth_error_contents by (auto; lia). f_equal. lia.
Qed.

Lemma sslice_ok s lo hi : swf s -> lo <= hi -> hi <= len A s ->
  exists s', sslice A s lo hi = Some s'.
Proof.
  intros Hw H1 H2. unfold sslice, scap, swf in *.
  destruct (Nat.leb_spec lo hi); simpl; [|lia].
  destruct (Nat.leb_spec hi (length (arr A s) - off A s)); [eauto|lia].
Qed.

Lemma firstn_all2' {X} (l : list X) n : length l <= n -> firstn n l = l.
Proof. apply firstn_all2. Qed.

(* invert *)
Lemma invert_loop_length n vs : forall i l,
  length (invert_loop A n i vs l) = length l.
Proof.
  induction vs as [|v vs IH]; intros i l; simpl; auto. rewrite IH. apply set_nth_length.
Qed.

Lemma invert_loop_spec n vs : forall i l,
  i + length vs = n -> length l = n ->
  forall j, j < n ->
  nth_error (invert_loop A n i vs l) j =
  if Nat.ltb j (n - i) then nth_error vs (n - i - 1 - j) else nth_error l j.
Proof.
  induction vs as [|v vs IH]; intros i l Hi Hl j Hj; simpl in *.
  - destruct (Nat.ltb_spec j (n - i)); [lia|reflexivity].
  - rewrite IH; try lia; [|rewrite set_nth_length; auto].
    destruct (Nat.ltb_spec j (n - S i)) as [H|H]; destruct (Nat.ltb_spec j (n - i)) as [H'|H'];
      try lia.
    + replace (n - i - 1 - j) with (S (n - S i - 1 - j)) by lia. reflexivity.
    + assert (j = n - i - 1) by lia. subst j.
      rewrite nth_error_set_nth_same by lia.
      replace (n - i - 1 - (n - i - 1)) with 0 by lia. reflexivity.
    + rewrite nth_error_set_nth_diff by lia. reflexivity.
Qed.

Lemma nth_error_rev {X} (l : list X) i : i < length l ->
  nth_error (rev l) i = nth_error l (length l - 1 - i).
Proof.
  intros H. induction l as [|h t IH]; simpl in *; [lia|].
  destruct (Nat.eq_dec i (length t)) as [->|Hn].
  - rewrite nth_error_app2 by (rewrite rev_length; lia). rewrite rev_length, Nat.sub_diag.
    replace (length t - 0 - length t) with 0 by lia. reflexivity.
  - rewrite nth_error_app1 by (rewrite rev_length; lia). rewrite IH by lia.
    replace (length t - 0 - i) with (S (length t - 1 - i)) by lia. reflexivity.
Qed.

Lemma sinvert_wf s : swf s -> swf (sinvert A nilA s).
Proof.
  intros H. unfold swf, sinvert; simpl. rewrite invert_loop_length, repeat_length. lia.
Qed.

Lemma sinvert_contents s : swf s -> contents (sinvert A nilA s) = rev (contents s).
Proof.
  intros H. apply contents_ext.
  - apply sinvert_wf; auto.
  - rewrite rev_length, contents_length; auto.
  - simpl. intros i Hi. pose proof (contents_length s H) as HL.
    rewrite invert_loop_spec; try lia; try (rewrite repeat_length; auto).
    destruct (Nat.ltb_spec i (len A s - 0)); [|lia].
    rewrite nth_error_rev by lia. f_equal. lia.
Qed.

(* collections *)
Definition cwf (q : coll A) : Prop := swf (data A q).
Definition cabs (q : coll A) : list A := contents (data A q).

Lemma maybe_shrink_data q : data A (maybe_shrink A lb q) = data A q.
Proof. unfold maybe_shrink. destruct (_ && _)%bool; reflexivity. Qed.

Lemma cabs_length q : cwf q -> length (cabs q) = len A (data A q).
Proof. apply contents_length. Qed.

Lemma enqueue_spec q x g : cwf q ->
  cwf (enqueue A nilA q x g) /\ cabs (enqueue A nilA q x g) = cabs q ++ [x].
Proof.
  intros H. split; [apply sappend_wf|apply sappend_contents]; auto.
Qed.

Lemma set_nth_app_r {X} (x y : X) l : set_nth (length l) x (l ++ [y]) = l ++ [x].
Proof. induction l as [|h t IH]; simpl; congruence. Qed.

Lemma dequeue_spec q : cwf q ->
  match cabs q with
  | [] => dequeue A nilA lb q = None
  | x :: t => exists q', dequeue A nilA lb q = Some (q', x) /\ cwf q' /\ cabs q' = t
  end.
Proof.
  intros H. unfold dequeue. rewrite sget_contents by exact H. fold (cabs q).
  pose proof (cabs_length q H) as HL.
  destruct (cabs q) as [|x t] eqn:E; [reflexivity|]. simpl.
  destruct (sset_ok (data A q) 0 nilA) as [d Hd]; [simpl in HL; lia|]. rewrite Hd.
  destruct (sset_spec _ _ _ _ H Hd) as (W & L1 & L2 & L3 & C).
  destruct (sslice_ok d 1 (len A (data A q))) as [d' Hd']; auto; try (simpl in HL; lia).
  rewrite Hd'. edestruct (sslice_spec d 1) as (W' & _ & C'); [exact W| |exact Hd'|]; [lia|].
  eexists; split; [reflexivity|]. unfold cwf, cabs in *. rewrite maybe_shrink_data. simpl.
  split; auto. rewrite C', C, E. simpl. apply firstn_all2. simpl in HL. lia.
Qed.

Lemma pop_spec q : cwf q ->
  match rev (cabs q) with
  | [] => pop A nilA lb q = None
  | x :: t => exists q', pop A nilA lb q = Some (q', x) /\ cwf q' /\ rev (cabs q') = t
  end.
Proof.
  intros H. unfold pop. pose proof (cabs_length q H) as HL.
  destruct (len A (data A q)) as [|n] eqn:En.
  - destruct (cabs q); [reflexivity|discriminate].
  - destruct (rev (cabs q)) as [|x t] eqn:E.
    { apply f_equal with (f := @length A) in E. rewrite rev_length in E. simpl in E. lia. }
    assert (Ec : cabs q = rev t ++ [x]).
    { rewrite <- (rev_involutive (cabs q)), E. reflexivity. }
    assert (Ht : length (rev t) = n).
    { rewrite Ec, app_length in HL. simpl in HL. lia. }
    rewrite sget_contents by exact H. fold (cabs q).
    assert (Hn : nth_error (cabs q) n = Some x).
    { rewrite Ec, nth_error_app2 by lia. rewrite Ht, Nat.sub_diag. reflexivity. }
    rewrite Hn.
    destruct (sset_ok (data A q) n nilA) as [d Hd]; [lia|]. rewrite Hd.
    destruct (sset_spec _ _ _ _ H Hd) as (W & L1 & L2 & L3 & C).
    destruct (sslice_ok d 0 n) as [d' Hd']; auto; try lia.
    rewrite Hd'. edestruct (sslice_spec d 0) as (W' & _ & C'); [exact W| |exact Hd'|]; [lia|].
    eexists; split; [reflexivity|]. unfold cwf, cabs in *. rewrite maybe_shrink_data. simpl.
    split; auto. rewrite C', C. simpl. rewrite Ec. rewrite <- Ht at 2. rewrite set_nth_app_r.
    rewrite Nat.sub_0_r. rewrite <- Ht. rewrite firstn_app, Nat.sub_diag, firstn_all.
    simpl. rewrite app_nil_r. apply rev_involutive.
Qed.

Lemma speek_spec q : cwf q -> speek A q = hd_error (rev (cabs q)).
Proof.
  intros H. unfold speek. pose proof (cabs_length q H) as HL.
  destruct (len A (data A q)) as [|n] eqn:En.
  - destruct (cabs q); [reflexivity|discriminate].
  - rewrite sget_contents by exact H. fold (cabs q).
    transitivity (nth_error (rev (cabs q)) 0).
    + rewrite nth_error_rev by lia. f_equal. lia.
    + destruct (rev (cabs q)); reflexivity.
Qed.

Lemma queue_step_refines q o : cwf q ->
  match queue_step A nilA lb q o, fifo_step A (cabs q) o with
  | None, None => True
  | Some (q', r), Some (l', r') => r = r' /\ cwf q' /\ cabs q' = l'
  | _, _ => False
  end.
Proof.
  intros H. destruct o as [x g| | |i| | | | |]; simpl.
  - destruct (enqueue_spec q x g H) as [W E]. auto.
  - pose proof (dequeue_spec q H) as D. destruct (cabs q) as [|x t].
    + rewrite D. exact I.
    + destruct D as (q' & -> & W & E). auto.
  - unfold qpeek. rewrite sget_contents by exact H. fold (cabs q).
    destruct (cabs q) eqn:E; simpl; auto.
  - unfold cget. destruct (Z.ltb i 0); simpl; auto.
    rewrite sget_contents by exact H. fold (cabs q).
    destruct (nth_error (cabs q) (Z.to_nat i)); simpl; auto.
  - unfold csize. rewrite cabs_length by auto. auto.
  - unfold cempty. rewrite <- cabs_length by auto. destruct (cabs q) eqn:E; simpl; auto.
  - auto.
  - repeat split; simpl; auto. unfold cwf, swf; simpl; lia.
  - repeat split; simpl; auto.
    + apply sinvert_wf; auto.
    + apply sinvert_contents; auto.
Qed.

Lemma stack_step_refines q o : cwf q ->
  match stack_step A nilA lb q o, lifo_step A (rev (cabs q)) o with
  | None, None => True
  | Some (q', r), Some (l', r') => r = r' /\ cwf q' /\ rev (cabs q') = l'
  | _, _ => False
  end.
Proof.
  intros H. destruct o as [x g| | |i| | | | |]; simpl.
  - destruct (enqueue_spec q x g H) as [W E]. repeat split; auto.
    rewrite E, rev_app_distr. reflexivity.
  - pose proof (pop_spec q H) as D. destruct (rev (cabs q)) as [|x t].
    + rewrite D. exact I.
    + destruct D as (q' & -> & W & E). auto.
  - rewrite speek_spec by auto. destruct (rev (cabs q)) eqn:E; simpl; auto.
  - unfold cget. destruct (Z.ltb i 0); simpl; auto.
    rewrite sget_contents by exact H. fold (cabs q). rewrite rev_involutive.
    destruct (nth_error (cabs q) (Z.to_nat i)); simpl; auto.
  - unfold csize. rewrite rev_length, cabs_length by auto. auto.
  - unfold cempty. rewrite <- cabs_length by auto. rewrite <- (rev_length (cabs q)).
    destruct (rev (cabs q)) eqn:E; simpl; auto.
  - auto.
  - repeat split; simpl; auto. unfold cwf, swf; simpl; lia.
  - repeat split; simpl; auto.
    + apply sinvert_wf; auto.
    + unfold cinvert, cabs. simpl. rewrite sinvert_contents by auto. reflexivity.
Qed.

Lemma run_refines {S T O R} (st : S -> O -> option (S * R)) (sp : T -> O -> option (T * R))
  (rel : S -> T -> Prop)
  (Hstep : forall s t o, rel s t ->
    match st s o, sp t o with
    | None, None => True
    | Some (s', r), Some (t', r') => r = r' /\ rel s' t'
    | _, _ => False
    end) :
  forall ops s t, rel s t -> run st s ops = run sp t ops.
Proof.
  induction ops as [|o ops IH]; intros s t Hr; simpl; auto.
  specialize (Hstep s t o Hr).
  destruct (st s o) as [[s' r]|], (sp t o) as [[t' r']|]; try tauto.
  destruct Hstep as [-> Hr']. rewrite (IH s' t' Hr'). reflexivity.
Qed.

Lemma queue_fifo_l ops :
  run (queue_step A nilA lb) (empty_coll A) ops = run (fifo_step A) [] ops.
Proof.
  apply run_refines with (rel := fun q l => cwf q /\ cabs q = l).
  - intros q l o [W <-]. pose proof (queue_step_refines q o W) as H.
    destruct (queue_step A nilA lb q o) as [[? ?]|], (fifo_step A (cabs q) o) as [[? ?]|]; tauto.
  - split; [unfold cwf, swf; simpl; lia|reflexivity].
Qed.

Lemma stack_lifo_l ops :
  run (stack_step A nilA lb) (empty_coll A) ops = run (lifo_step A) [] ops.
Proof.
  apply run_refines with (rel := fun q l => cwf q /\ rev (cabs q) = l).
  - intros q l o [W <-]. pose proof (stack_step_refines q o W) as H.
    destruct (stack_step A nilA lb q o) as [[? ?]|], (lifo_step A (rev (cabs q)) o) as [[? ?]|]; tauto.
  - split; [unfold cwf, swf; simpl; lia|reflexivity].
Qed.

(* reachable queues, for DequeueBack *)
Lemma queue_reach ops q : run_state (queue_step A nilA lb) (empty_coll A) ops = Some q -> cwf q.
Proof.
  assert (G : forall os q0, cwf q0 -> run_state (queue_step A nilA lb) q0 os = Some q -> cwf q).
  { induction os as [|o ops' IH]; intros q0 W; cbn [run_state].
    - intros E; injection E as <-; auto.
    - pose proof (queue_step_refines q0 o W) as H.
      destruct (queue_step A nilA lb q0 o) as [[q1 r]|]; [|discriminate].
      destruct (fifo_step A (cabs q0) o) as [[? ?]|]; [|tauto].
      apply IH. tauto. }
  apply G. unfold cwf, swf; simpl; lia.
Qed.

Lemma dequeueBack_spec q : cwf q ->
  match rev (cabs q) with
  | [] => dequeueBack A nilA lb q = None
  | [_] => dequeueBack A nilA lb q = None
  | x :: t => exists q', dequeueBack A nilA lb q = Some (q', x) /\ cwf q' /\ cabs q' = tl (rev t)
  end.
Proof.
  intros H. unfold dequeueBack. pose proof (cabs_length q H) as HL.
  destruct (len A (data A q)) as [|n] eqn:En.
  - destruct (cabs q); [reflexivity|discriminate].
  - destruct (rev (cabs q)) as [|x t] eqn:E.
    { apply f_equal with (f := @length A) in E. rewrite rev_length in E. simpl in E. lia. }
    assert (Ec : cabs q = rev t ++ [x]).
    { rewrite <- (rev_involutive (cabs q)), E. reflexivity. }
    assert (Ht : length (rev t) = n).
    { rewrite Ec, app_length in HL. simpl in HL. lia. }
    rewrite sget_contents by exact H. fold (cabs q).
    assert (Hn : nth_error (cabs q) n = Some x).
    { rewrite Ec, nth_error_app2 by lia. rewrite Ht, Nat.sub_diag. reflexivity. }
    rewrite Hn.
    destruct (sset_ok (data A q) n nilA) as [d Hd]; [lia|]. rewrite Hd.
    destruct (sset_spec _ _ _ _ H Hd) as (W & L1 & L2 & L3 & C).
    destruct t as [|y t'].
    { simpl in Ht. subst n. unfold sslice. simpl. reflexivity. }
    rewrite rev_length in Ht. simpl in Ht.
    destruct (sslice_ok d 1 n) as [d' Hd']; auto; try lia.
    rewrite Hd'. edestruct (sslice_spec d 1) as (W' & _ & C'); [exact W| |exact Hd'|]; [lia|].
    eexists; split; [reflexivity|]. unfold cwf, cabs in *. rewrite maybe_shrink_data. simpl data.
    split; auto. rewrite C', C, Ec.
    assert (Hr : length (rev (y :: t')) = n) by (rewrite rev_length; simpl; lia).
    rewrite <- Hr at 2. rewrite set_nth_app_r.
    destruct (rev (y :: t')) as [|z w]; [simpl in Hr; lia|].
    simpl. simpl in Hr. subst n. rewrite ?Nat.sub_0_r.
    replace (S (length t') - 1) with (length w) by lia.
    rewrite firstn_app, Nat.sub_diag, firstn_all. simpl. apply app_nil_r.
Qed.

Lemma dequeueBack_actual_l ops q :
    run_state (queue_step A nilA lb) (empty_coll A) ops = Some q ->
    (forall x, contents (data A q) = [x] -> dequeueBack A nilA lb q = None) /\
    (forall y l x, contents (data A q) = y :: l ++ [x] ->
       exists q', dequeueBack A nilA lb q = Some (q', x) /\ contents (data A q') = l).
Proof.
  intros H. apply queue_reach in H.
  pose proof (dequeueBack_spec q H) as D. unfold cabs in D. split.
  - intros x E. rewrite E in D. exact D.
  - intros y l x E. rewrite E in D. simpl in D. rewrite rev_app_distr in D. simpl in D.
    destruct (rev l ++ [y]) as [|z w] eqn:Ez; [destruct (rev l); discriminate|].
    destruct D as (q' & D1 & _ & D2). exists q'. split; auto.
    unfold cabs in D2. rewrite D2, <- Ez, rev_app_distr, rev_involutive. reflexivity.
Qed.
End L.

(** Feeding a collection and then draining it. *)
Lemma run_app {S O R} (step : S -> O -> option (S * R)) ops1 ops2 : forall s s' rs,
  run step s ops1 = (rs, false) -> run_state step s ops1 = Some s' ->
  run step s (ops1 ++ ops2) = (rs ++ fst (run step s' ops2), snd (run step s' ops2)).
Proof.
  induction ops1 as [|o t IH]; intros s s' rs E1 E2; simpl in *.
  - injection E1 as <-. injection E2 as <-. destruct (run step s ops2); reflexivity.
  - destruct (step s o) as [[s1 r]|]; [|discriminate].
    destruct (run step s1 t) as [rs1 p] eqn:E. injection E1 as <- ->.
    rewrite (IH _ _ _ E E2). simpl. reflexivity.
Qed.

Section FeedDrain.
Variable A : Type.
Definition feed (l : list (A * nat)) : list (op A) := map (fun x => OPut A (fst x) (snd x)) l.
Definition drain (n : nat) : list (op A) := repeat (OTake A) n.

Lemma fifo_feed l : forall l0,
  run (fifo_step A) l0 (feed l) = (repeat (RUnit A) (length l), false) /\
  run_state (fifo_step A) l0 (feed l) = Some (l0 ++ map fst l).
Proof.
  induction l as [|[x g] t IH]; intros l0; simpl.
  - rewrite app_nil_r. auto.
  - destruct (IH (l0 ++ [x])) as [H1 H2]. rewrite H1, H2, <- app_assoc. auto.
Qed.

Lemma fifo_drain l : run (fifo_step A) l (drain (length l)) = (map (RElem A) l, false).
Proof. induction l as [|x t IH]; simpl; auto. unfold drain in IH. rewrite IH. auto. Qed.

Lemma lifo_feed l : forall l0,
  run (lifo_step A) l0 (feed l) = (repeat (RUnit A) (length l), false) /\
  run_state (lifo_step A) l0 (feed l) = Some (rev (map fst l) ++ l0).
Proof.
  induction l as [|[x g] t IH]; intros l0; simpl; auto.
  destruct (IH (x :: l0)) as [H1 H2]. rewrite H1, H2, <- app_assoc. auto.
Qed.

Lemma lifo_drain l : run (lifo_step A) l (drain (length l)) = (map (RElem A) l, false).
Proof. induction l as [|x t IH]; simpl; auto. unfold drain in IH. rewrite IH. auto. Qed.

Lemma queue_feed_drain_l (nilA : A) lowbound l :
  run (queue_step A nilA lowbound) (empty_coll A) (feed l ++ drain (length l))
  = (repeat (RUnit A) (length l) ++ map (RElem A) (map fst l), false).
Proof.
  rewrite queue_fifo_l. destruct (fifo_feed l []) as [H1 H2].
  rewrite (run_app _ _ _ _ _ _ H1 H2). simpl.
  replace (length l) with (length (map fst l)) at 2 3 by apply map_length.
  rewrite fifo_drain. reflexivity.
Qed.

Lemma stack_feed_drain_l (nilA : A) lowbound l :
  run (stack_step A nilA lowbound) (empty_coll A) (feed l ++ drain (length l))
  = (repeat (RUnit A) (length l) ++ map (RElem A) (rev (map fst l)), false).
Proof.
  rewrite stack_lifo_l. destruct (lifo_feed l []) as [H1 H2].
  rewrite (run_app _ _ _ _ _ _ H1 H2). rewrite app_nil_r.
  replace (length l) with (length (rev (map fst l))) at 2 3
    by (rewrite rev_length, map_length; auto).
  rewrite lifo_drain. reflexivity.
Qed.
End FeedDrain.

(** Witnesses used by PropCollections.v. *)
Lemma dequeueBack_removes_only_last_refuted_l :
  exists ops q q' x,
    run_state (queue_step nat 0 1024) (empty_coll nat) ops = Some q /\
    contents nat (data nat q) = [1; 2] /\
    dequeueBack nat 0 1024 q = Some (q', x) /\
    contents nat (data nat q') <> [1].
Proof.
  exists [OPut _ 1 1; OPut _ 2 0].
  eexists; eexists; eexists. vm_compute. repeat split; discriminate.
Qed.
