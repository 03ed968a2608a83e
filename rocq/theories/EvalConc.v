(** Proofs about the concurrent evaluation. *)
From Coq Require Import Reals Lra.
From Verif Require Import Base Res Arith LogSpec GoMap Data DataSpec DataLemmas DataLoops DataParts DataByLabel Score ScoreSpec ScoreLemmas EvalLemmas.
Local Open Scope Z_scope.

Definition zipc {A B} (G : list (list A)) (H : list (list B)) : list (list (A * B)) := map (fun gh => combine (fst gh) (snd gh)) (combine G H).
Lemma mapi_zip {A B} (G : list (list A)) : forall (H : list (list B)) P Q, length P = length Q -> length G = length H ->
  mapi_from (length P) (fun id _ => g <- idx (P ++ G) id; l <- idx (Q ++ H) id; Ok (combine g l)) (repeat tt (length G)) = Ok (zipc G H).
Proof.
  induction G as [|g G IH]; intros [|x H] P Q HPQ HGH; simpl in HGH; try discriminate; auto. cbn [length repeat mapi_from].
  rewrite (idx_ok (P ++ g :: G) (length P) g) by (rewrite nth_error_app2, Nat.sub_diag by auto; auto). cbn [bind].
  rewrite (idx_ok (Q ++ x :: H) (length P) x) by (rewrite HPQ, nth_error_app2, Nat.sub_diag by auto; auto). cbn [bind].
  specialize (IH H (P ++ [g]) (Q ++ [x])). rewrite !app_length, <- !app_assoc in IH. cbn [length app] in IH. rewrite Nat.add_1_r in IH. rewrite IH by lia. auto.
Qed.

Lemma concat_set_nth {A} (ls : list (list A)) : forall id x rest, nth_error ls id = Some (x :: rest) -> Permutation (concat ls) (x :: concat (set_nth id rest ls)).
Proof.
  induction ls as [|l ls IH]; intros [|id] x rest H; simpl in *; try discriminate.
  - injection H as ->. apply Permutation_refl.
  - rewrite (IH _ _ _ H). apply Permutation_sym, Permutation_middle.
Qed.
Lemma concat_nil_all {A} (ls : list (list A)) : (forall l, In l ls -> l = []) <-> concat ls = [].
Proof.
  induction ls as [|l ls IH]; simpl; [split; [auto|intros _ l []]|]. split.
  - intros H. rewrite (H l) by auto. simpl. apply (proj1 IH). intros l' Hl'. apply H. auto.
  - intros H. apply app_eq_nil in H as [-> H]. intros l [<-|Hl]; auto. apply IH; auto.
Qed.
Lemma zip_items {A B C} (P : A -> B -> Prop) (Q : A -> C -> Prop) : forall is gs ls, Forall2 P is gs -> Forall2 Q is ls -> Forall2 (fun i (re : B * C) => P i (fst re) /\ Q i (snd re)) is (combine gs ls).
Proof. intros is gs ls H. revert ls. induction H as [|i g is gs Hig _ IH]; intros ls HQ; inversion HQ as [|? l ? ls' Hl HQ']; subst; simpl; constructor; auto. Qed.
Lemma zipc_items {A B C} (P : A -> B -> Prop) (Q : A -> C -> Prop) : forall idxs Gs Ls, Forall2 (Forall2 P) idxs Gs -> Forall2 (Forall2 Q) idxs Ls ->
  Forall2 (fun i (re : B * C) => P i (fst re) /\ Q i (snd re)) (concat idxs) (concat (zipc Gs Ls)).
Proof.
  intros idxs Gs Ls H. revert Ls. induction H as [|i g is gs Hig _ IH]; intros ls HQ; inversion HQ as [|? l ? ls' Hl HQ']; subst; simpl; [constructor|].
  apply Forall2_app; [apply zip_items; auto|apply IH; auto].
Qed.
Lemma zipc_rows {A B C} (P : A -> B -> Prop) (Q : A -> C -> Prop) : forall idxs Gs Ls, Forall2 (Forall2 P) idxs Gs -> Forall2 (Forall2 Q) idxs Ls ->
  map fst (concat (zipc Gs Ls)) = concat Gs.
Proof.
  intros idxs Gs Ls H. revert Ls. induction H as [|i g is gs Hig _ IH]; intros ls HQ; inversion HQ as [|? l ? ls' Hl HQ']; subst; simpl; auto.
  rewrite map_app. fold (zipc gs ls'). rewrite IH by auto. f_equal. clear -Hig Hl. revert l Hl. induction Hig as [|a b i g Hab _ IH]; intros l Hl; inversion Hl; subst; simpl; auto. f_equal. auto.
Qed.
Lemma Forall2_compose {A B C} (P : A -> B -> Prop) (Q : B -> C -> Prop) : forall l m n, Forall2 P l m -> Forall2 Q m n -> Forall2 (fun a c => exists b, P a b /\ Q b c) l n.
Proof. intros l m n H. revert n. induction H as [|a b l m Hab _ IH]; intros n HQ; inversion HQ; subst; constructor; eauto. Qed.

Lemma classified_meq value v c I J l : (forall a b, meq a b -> value a = value b) -> meq I J -> classified value v c I l -> classified value v c J l.
Proof.
  intros Hv HI (q & m & Hq & H). exists q, m. split; auto. intros j Hj. destruct (Hq j Hj) as (x & Ex & Hx). exists x. split; auto. rewrite <- Ex. symmetry. apply Hv.
  intros k. rewrite !get_put. destruct (v =? k); auto.
Qed.
Lemma possible_meq value v c I J : (forall a b, meq a b -> value a = value b) -> meq I J -> possible value v c I -> possible value v c J.
Proof.
  intros Hv HI [[e He] H]. split.
  - exists e. rewrite <- He. symmetry. apply Hv. intros k. rewrite !get_del. destruct (v =? k); auto.
  - intros j Hj. destruct (H j Hj) as (x & Ex & Hx). exists x. split; auto. rewrite <- Ex. symmetry. apply Hv. intros k. rewrite !get_put. destruct (v =? k); auto.
Qed.

Lemma Forall2_impl' {A B} (P Q : A -> B -> Prop) : (forall a b, P a b -> Q a b) -> forall l m, Forall2 P l m -> Forall2 Q l m.
Proof. induction 2; constructor; auto. Qed.

Section C.
Variable grow : nat -> nat -> nat -> nat.
Variable value : gmap -> res (F XR).
Hypothesis value_meq : forall a b, meq a b -> value a = value b.
Variables (v c : Z) (s : nat) (h' : heap) (w : world) (ws : list (list (nat * Z))) (size : nat).
Hypothesis Hc : 1 <= c.
Hypothesis Hsize : (10 <= size)%nat.
Hypothesis W : wf w.
Hypothesis Hs : (s < length (objs w))%nat.
Hypothesis Hnd : NoDup (map fst (concat ws)).
Hypothesis Hposs : forall r e, In (r, e) (concat ws) -> possible value v (Z.to_nat c) (mem h' r).

Notation step := (@jobStep grow XR value s v c size).
Notation start := (mkJ h' w ws).
Definition good (re : nat * Z) (p : Z * Z) : Prop := classified value v (Z.to_nat c) (mem h' (fst re)) (fst p) /\ snd p = snd re.

Definition Inv (n : nat) (j : jobs) : Prop := exists done ps, length done = n /\ Permutation (done ++ concat (todo j)) (concat ws) /\ Forall2 good done ps /\
  grown w (jworld j) s ps /\ wf (jworld j) /\ nxt (jheap j) = nxt h' /\ forall r, ~ In r (map fst done) -> mem (jheap j) r = mem h' r.

Lemma job_step n j id r e rest : Inv n j -> nth_error (todo j) id = Some ((r, e) :: rest) -> exists j', step j id = Some (Ok j') /\ Inv (S n) j'.
Proof.
  intros (done & ps & Hn & HP & HF & Hg & Wj & Hx & Hm) Hid. unfold jobStep. rewrite Hid.
  pose proof (concat_set_nth _ _ _ _ Hid) as Hcs.
  assert (HP' : Permutation ((done ++ [(r, e)]) ++ concat (set_nth id rest (todo j))) (concat ws)).
  { rewrite <- HP, Hcs, <- app_assoc. apply Permutation_refl. }
  assert (Hin : In (r, e) (concat ws)) by (eapply Permutation_in; [exact HP'|]; apply in_or_app; left; apply in_or_app; right; left; auto).
  assert (Hnot : ~ In r (map fst done)).
  { pose proof (Permutation_NoDup (Permutation_sym (Permutation_map fst HP')) Hnd) as Hd. rewrite !map_app, <- app_assoc in Hd. simpl in Hd. apply NoDup_remove_2 in Hd. intros Hr. apply Hd. apply in_or_app. auto. }
  rewrite (Hm r Hnot). destruct (posterior_ok value v c (mem h' r) Hc (Hposs r e Hin)) as (l & El & Hl). change (F XR) with xreal in *. rewrite El. cbn [bind snd fst].
  destruct (register_grown grow (jworld j) s l e Wj) as (w2 & E2 & W2 & G2); [rewrite (grown_len _ _ _ _ Hg); auto|]. rewrite E2. cbn [bind].
  pose proof (grown_trans _ _ _ _ _ _ Hg G2) as Hg2. pose proof G2 as (sc & sc' & _ & Hsc' & _). rewrite (idx_ok _ _ _ Hsc'). cbn [bind].
  assert (Hdiv : (size / 10 =? 0)%nat = false) by (apply Nat.eqb_neq; pose proof (Nat.div_str_pos size 10 ltac:(lia)); lia). rewrite Hdiv, andb_false_r.
  eexists. split; [reflexivity|]. exists (done ++ [(r, e)]), (ps ++ [(l, e)]). cbn [jheap jworld todo].
  split; [rewrite app_length; simpl; lia|]. split; [exact HP'|]. split; [apply Forall2_app; auto; constructor; auto; split; auto|]. split; auto. split; auto. split; [exact Hx|].
  intros r' Hr'. rewrite map_app, in_app_iff in Hr'. simpl in Hr'. unfold store. simpl. rewrite upd_diff by intuition. apply Hm. intuition.
Qed.

Lemma Inv_start : Inv 0 start.
Proof.
  exists [], []. destruct (nth_error_lt_some _ _ Hs) as [sc Hsc]. simpl. split; auto. split; [apply Permutation_refl|]. split; auto. split; [eapply grown_refl; eauto|]. auto.
Qed.
Lemma Inv_reaches n j : reaches step start n j -> Inv n j.
Proof.
  induction 1 as [|n j1 id j2 _ IH E]; [apply Inv_start|]. destruct (nth_error (todo j1) id) as [[|[r e] rest]|] eqn:Eid; try (unfold jobStep in E; rewrite Eid in E; discriminate).
  destruct (job_step n j1 id r e rest IH Eid) as (j' & Ej & HI). rewrite E in Ej. injection Ej as ->. auto.
Qed.

Lemma jobs_ok n j : reaches step start n j ->
  (n <= length (concat ws))%nat /\
  (forall id r, step j id = Some r -> exists j', r = Ok j') /\
  (finished j \/ exists id j', step j id = Some (Ok j')) /\
  (forall r, ~ In r (map fst (concat ws)) -> mem (jheap j) r = mem h' r) /\ nxt (jheap j) = nxt h' /\
  (finished j -> n = length (concat ws) /\ wf (jworld j) /\ exists ps, Forall2 good (concat ws) ps /\ exists ps', Permutation ps' ps /\ grown w (jworld j) s ps').
Proof.
  intros H. pose proof (Inv_reaches n j H) as HI. pose proof HI as (done & ps & Hn & HP & HF & Hg & Wj & Hx & Hm).
  pose proof (Permutation_length HP) as HL. rewrite app_length in HL. split; [lia|]. split; [|split; [|split; [|split]]].
  - intros id r Hr. destruct (nth_error (todo j) id) as [[|[r0 e] rest]|] eqn:Eid; try (unfold jobStep in Hr; rewrite Eid in Hr; discriminate).
    destruct (job_step n j id r0 e rest HI Eid) as (j' & Ej & _). rewrite Hr in Ej. injection Ej as ->. eauto.
  - destruct (concat (todo j)) as [|x l] eqn:Ec; [left; exact (proj2 (concat_nil_all _) Ec)|]. right.
    assert (Hex : exists id r e rest, nth_error (todo j) id = Some ((r, e) :: rest)).
    { clear -Ec. revert Ec. induction (todo j) as [|[|[r e] rest] t IH]; intros Ec; simpl in Ec; [discriminate| |exists 0%nat; simpl; eauto]. destruct (IH Ec) as (id & H). exists (S id). auto. }
    destruct Hex as (id & r & e & rest & Eid). destruct (job_step n j id r e rest HI Eid) as (j' & Ej & _). eauto.
  - intros r Hr. apply Hm. intros Hd. apply Hr. apply (Permutation_in _ (Permutation_map fst HP)). rewrite map_app. apply in_or_app. auto.
  - exact Hx.
  - intros Hf. apply concat_nil_all in Hf. rewrite Hf in *. rewrite app_nil_r in HP. simpl in HL. split; [lia|]. split; auto.
    destruct (Permutation_Forall2 HP HF) as (ps' & Hp' & HF'). exists ps'. split; auto. exists ps. auto.
Qed.
End C.

Lemma conc_ok grow (value : gmap -> res (F XR)) ord ncpu h w s D L v c k :
  let k' := if k <=? 0 then ncpu else k in
  visits_all ord -> good_heap h -> rows_exist h D -> length L = length D -> (forall a b, meq a b -> value a = value b) -> 1 <= c -> (10 <= length D)%nat -> 0 < k' <= Z.of_nat (length D) ->
  wf w -> (s < length (objs w))%nat -> (forall r, In r D -> possible value v (Z.to_nat c) (mem h r)) ->
  exists start, @evaluatePosteriorConc grow XR value ord ncpu h w s D L v c k = inr (Ok start) /\
  forall n j, reaches (@jobStep grow XR value s v c (length D)) start n j ->
    (n <= length D)%nat /\ (forall id r, @jobStep grow XR value s v c (length D) j id = Some r -> exists j', r = Ok j') /\
    (finished j \/ exists id j', @jobStep grow XR value s v c (length D) j id = Some (Ok j')) /\ unchanged h (jheap j) /\
    (finished j -> n = length D /\ wf (jworld j) /\ exists ps ps', map snd ps = L /\ Forall2 (fun r p => classified value v (Z.to_nat c) (mem h r) (fst p)) D ps /\
       Permutation ps' ps /\ grown w (jworld j) s ps').
Proof.
  intros k' Hord G HD HL Hv Hc H10 Hk W Hs Hposs. unfold evaluatePosteriorConc.
  assert (Hnk : (Z.of_nat (length D) <? k) = false) by (apply Z.ltb_ge; subst k'; destruct (Z.leb_spec k 0); lia). rewrite Hnk. fold k'.
  destruct (divide_ok ord Hord h G D HD L HL k' Hk) as (h1 & idxs & Gd & Gl & E & (Hun & Hnew & Hcop) & Hlab & Hex & Hlen & _). rewrite E. cbn [bind].
  assert (HGl : length Gd = length Gl) by (rewrite <- (Forall2_len _ _ _ Hcop), <- (Forall2_len _ _ _ Hlab); auto).
  pose proof (mapi_zip Gd Gl [] [] eq_refl HGl) as Hz. simpl in Hz. rewrite Hlen in Hz. unfold mapi. rewrite Hz. cbn [bind].
  eexists. split; [reflexivity|]. intros n j Hj.
  pose proof (zipc_items _ _ _ _ _ Hcop Hlab) as Hit. pose proof (zipc_rows _ _ _ _ _ Hcop Hlab) as Hrows. cbv beta in Hit.
  assert (Hsz : length (concat (zipc Gd Gl)) = length D) by (rewrite <- (Forall2_len _ _ _ Hit), (Permutation_length Hex), seq_length; auto).
  destruct Hnew as [Hnd Hfresh].
  destruct (jobs_ok grow value v c s h1 w (zipc Gd Gl) (length D)) with (n := n) (j := j) as (A & B & C & Dm & Dn & Fin); auto.
  { rewrite Hrows. auto. }
  { intros r e Hr. apply In_nth_error in Hr as [q Hq]. assert (Hi : exists i, nth_error (concat idxs) q = Some i) by (apply nth_error_lt_some; rewrite (Forall2_len _ _ _ Hit); apply nth_error_Some; congruence).
    destruct Hi as [i Hi]. assert (HH : exists r0, nth_error D i = Some r0 /\ meq (mem h r0) (mem h1 r)).
    { clear -Hit Hi Hq. revert q Hi Hq. induction Hit as [|a b l m [Hab _] _ IH]; intros [|q] Hi Hq; simpl in *; try discriminate; [|eapply IH; eauto]. injection Hi as ->. injection Hq as ->. exact Hab. }
    destruct HH as (r0 & Hr0 & Hm). eapply possible_meq; eauto. apply Hposs. eapply nth_error_In; eauto. }
  rewrite Hsz in *. split; auto. split; auto. split; auto. split.
  { destruct Hun as [Hu1 Hu2]. split; [lia|]. intros r Hr. rewrite Dm; auto. rewrite Hrows. intros Hin. apply Hfresh in Hin. lia. }
  intros Hf. destruct (Fin Hf) as (-> & Wj & ps & HF & ps' & HP & Hg). split; auto. split; auto.
  pose proof (Forall2_compose _ _ _ _ _ Hit HF) as Hal. destruct (Permutation_Forall2 Hex Hal) as (qs & Hqp & Hqs).
  exists qs, ps'. assert (Hq : Forall2 (fun i p => exists r0, nth_error D i = Some r0 /\ classified value v (Z.to_nat c) (mem h r0) (fst p) /\ nth_error L i = Some (snd p)) (seq 0 (length D)) qs).
  { eapply Forall2_impl'; [|exact Hqs]. intros i p ([r e] & [(r0 & Hr0 & Hm) Hl] & Hcl & Hsnd). simpl in *. exists r0. split; auto. split; [eapply classified_meq; [exact Hv|apply meq_sym; exact Hm|exact Hcl]|]. rewrite Hsnd. auto. }
  assert (Hgen : forall (D' : list nat) (L' : list Z) k0 (qs' : list (Z * Z)), length L' = length D' -> Forall2 (fun i p => exists r0, nth_error D' (i - k0) = Some r0 /\ classified value v (Z.to_nat c) (mem h r0) (fst p) /\ nth_error L' (i - k0) = Some (snd p)) (seq k0 (length D')) qs' ->
     map snd qs' = L' /\ Forall2 (fun r p => classified value v (Z.to_nat c) (mem h r) (fst p)) D' qs').
  { clear. induction D' as [|d D' IH]; intros [|l L'] k0 qs' HL H; simpl in *; try discriminate; inversion H as [|? q ? qs2 Hq Hrest]; subst; simpl; auto.
    destruct Hq as (r0 & Hr0 & Hcl & Hl). rewrite Nat.sub_diag in *. simpl in *. injection Hr0 as <-. injection Hl as ->.
    destruct (IH L' (S k0) qs2) as [E1 E2]; [lia| |split; [f_equal; auto|constructor; auto]]. 
    assert (Hge : forall i, In i (seq (S k0) (length D')) -> (S k0 <= i)%nat) by (intros i Hi; apply in_seq in Hi; lia).
    clear -Hrest Hge. revert Hge. induction Hrest as [|i p l m Hp _ IH]; intros Hge; constructor; [|apply IH; intros; apply Hge; right; auto].
    assert (S k0 <= i)%nat by (apply Hge; left; auto). replace (i - k0)%nat with (S (i - S k0)) in Hp by lia. exact Hp. }
  destruct (Hgen D L 0%nat qs) as [E1 E2]; auto.
  { eapply Forall2_impl'; [|exact Hq]. intros i p H. rewrite Nat.sub_0_r. exact H. }
  split; auto. split; auto. split; auto. rewrite HP. auto.
Qed.
