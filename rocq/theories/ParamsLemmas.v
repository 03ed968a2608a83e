(** Proofs about parameter bindings. *)
From Coq Require Import QArith.
From Verif Require Import Base Params ParamsSpec.
Local Open Scope nat_scope.

Lemma dyn_eqb_eq a b : dyn_eqb a b = true <-> a = b.
Proof. destruct a, b; simpl; split; intros H; try discriminate; auto; [f_equal; apply Nat.eqb_eq; auto|injection H as ->; apply Nat.eqb_refl]. Qed.
Lemma key_eqb_eq a b : key_eqb a b = true <-> a = b.
Proof.
  unfold key_eqb. rewrite andb_true_iff, dyn_eqb_eq, Nat.eqb_eq. destruct a, b; simpl. split; [intros [-> ->]; auto|intros [= -> ->]; auto].
Qed.
Lemma key_eqb_refl a : key_eqb a a = true. Proof. apply key_eqb_eq. auto. Qed.
Lemma key_eqb_sym a b : key_eqb a b = key_eqb b a.
Proof. destruct (key_eqb a b) eqn:E, (key_eqb b a) eqn:E2; auto; [apply key_eqb_eq in E|apply key_eqb_eq in E2]; subst; rewrite key_eqb_refl in *; discriminate. Qed.

Lemma look_filter bs e x : look (filter (fun b => negb (key_eqb (fst b) e)) bs) x = if key_eqb e x then None else look bs x.
Proof.
  induction bs as [|[k p] bs IH]; simpl; [destruct (key_eqb e x); auto|]. destruct (key_eqb k e) eqn:Ek; simpl.
  - rewrite IH. apply key_eqb_eq in Ek. subst. destruct (key_eqb e x); auto.
  - destruct (key_eqb k x) eqn:Ex; auto. destruct (key_eqb e x) eqn:Ee; auto. apply key_eqb_eq in Ex. apply key_eqb_eq in Ee. subst. rewrite key_eqb_refl in Ek. discriminate.
Qed.
Lemma retrieve_bind t e p x : retrieve (bindP t e p) x = if key_eqb e x then Some p else retrieve t x.
Proof. unfold retrieve. simpl. rewrite look_filter. destruct (key_eqb e x); auto. Qed.
Lemma retrieve_unbind t e x : retrieve (unbindP t e) x = if key_eqb e x then None else retrieve t x.
Proof. unfold retrieve. simpl. apply look_filter. Qed.

(** The table represents the history. *)
Definition represents (t : table) (hist : list (pcall * panswer)) : Prop := (forall e, retrieve t e = bound_to hist e) /\ length (ps t) = created hist.

Lemma pstep_ok t hist c : represents t hist -> let (t', a) := pstep t c in right hist c a /\ represents t' ((c, a) :: hist).
Proof.
  intros [H L]. destruct c as [p|e p|e|e|e|o]; simpl.
  - rewrite <- L. split; auto. split; simpl; [exact H|rewrite app_length; simpl; lia].
  - split; auto. split; simpl; [|lia]. intros x. rewrite retrieve_bind. destruct (key_eqb e x); auto.
  - split; auto. split; simpl; [|lia]. intros x. rewrite retrieve_unbind. destruct (key_eqb e x); auto.
  - split; [|split; simpl; auto; lia]. unfold existsP. rewrite <- H. auto.
  - split; [rewrite H; auto|split; simpl; auto; lia].
  - unfold parametersOf. rewrite H. destruct (bound_to hist (receiver o)) as [p|] eqn:E.
    + split; auto. split; simpl; [|rewrite E; lia]. intros x. destruct (key_eqb (receiver o) x) eqn:Ex; [|apply H]. apply key_eqb_eq in Ex. subst x. rewrite H. auto.
    + simpl. rewrite <- L. split; auto. split; simpl; [|rewrite E, app_length; simpl; lia]. intros x. rewrite retrieve_bind. destruct (key_eqb (receiver o) x) eqn:Ex; auto. apply H.
Qed.

(** The history of a run, newest first. *)
Lemma prun_ok : forall cs t hist t' as_, represents t hist -> prun t cs = (t', as_) ->
  length as_ = length cs /\ forall i c a, nth_error cs i = Some c -> nth_error as_ i = Some a -> right (rev (combine (firstn i cs) (firstn i as_)) ++ hist) c a.
Proof.
  induction cs as [|c cs IH]; intros t hist t' as_ R E; simpl in E.
  - injection E as <- <-. split; auto. intros [|i] c a H; discriminate.
  - pose proof (pstep_ok t hist c R) as Hs. destruct (pstep t c) as [t1 a1]. destruct (prun t1 cs) as [t2 as2] eqn:E2. injection E as <- <-. destruct Hs as [Hr R'].
    destruct (IH _ _ _ _ R' E2) as [L H]. split; [simpl; lia|]. intros [|i] c' a' Hc Ha; simpl in Hc, Ha.
    + injection Hc as <-. injection Ha as <-. exact Hr.
    + simpl. rewrite <- app_assoc. apply H; auto.
Qed.
Lemma retrieve_right cs as_ t i c a : prun table0 cs = (t, as_) -> nth_error cs i = Some c -> nth_error as_ i = Some a ->
  right (rev (combine (firstn i cs) (firstn i as_))) c a.
Proof.
  intros E Hc Ha. destruct (prun_ok cs table0 [] t as_) as [_ H]; [split; auto|auto|]. specialize (H i c a Hc Ha). rewrite app_nil_r in H. auto.
Qed.

(** New parameters made by Parameters are the default ones, and no call alters existing ones. *)
Lemma default_new t o t' p : parametersOf t o = (t', p) -> retrieve t (receiver o) = None -> nth_error (ps t') p = Some defaultP /\ p = length (ps t).
Proof. unfold parametersOf. intros E H. rewrite H in E. simpl in E. injection E as <- <-. simpl. split; auto. rewrite nth_error_app2, Nat.sub_diag; auto. Qed.

Lemma sum_bound t e p q t1 : (fst e = TSum \/ fst e = TProduct) -> parametersOf (bindP t e p) e = (t1, q) -> q = p.
Proof.
  intros He. unfold parametersOf. assert (Hr : receiver e = e) by (unfold receiver; destruct He as [-> | ->]; auto). rewrite Hr, retrieve_bind, key_eqb_refl. intros [= _ <-]. auto.
Qed.

(** Concurrent calls: bound beforehand means every caller gets it. *)
Lemma interleave_bound o p : forall sched t ths t' ths', retrieve t (receiver o) = Some p ->
  (forall th, In th ths -> th = Calling o \/ th = Got p) -> interleave sched t ths = (t', ths') ->
  forall th, In th ths' -> th = Calling o \/ th = Got p.
Proof.
  induction sched as [|i sched IH]; intros t ths t' ths' Hr Hth E; simpl in E; [injection E as <- <-; auto|].
  destruct (nth_error ths i) as [th|] eqn:Ei; [|eapply IH; eauto].
  assert (Ht : tstep t th = (t, Got p)) by (destruct (Hth th (nth_error_In _ _ Ei)) as [-> | ->]; simpl; [rewrite Hr|]; auto).
  rewrite Ht in E. apply (IH t (set_nth i (Got p) ths) t' ths'); auto. intros x Hx. apply In_nth_error in Hx as [j Hj].
  destruct (Nat.eq_dec j i) as [->|Hne].
  - rewrite nth_error_set_nth_same in Hj by (apply nth_error_Some; congruence). injection Hj as <-. auto.
  - rewrite nth_error_set_nth_diff in Hj by auto. apply Hth. eapply nth_error_In; eauto.
Qed.
