From Verif Require Import Base GraphSpec.

Section G.
Variable ch : graph.

Lemma reach_trans x y z : reach ch x y -> reach ch y z -> reach ch x z.
Proof.
  intros H. revert z. induction H as [x|x c y Hc Hr IH]; intros z Hz; auto.
  eapply reach_step; eauto.
Qed.

Lemma reach_child x c : In c (ch x) -> reach ch x c.
Proof. intros H. eapply reach_step; eauto. apply reach_refl. Qed.

Lemma reach_snoc x y c : reach ch x y -> In c (ch y) -> reach ch x c.
Proof. intros H1 H2. eapply reach_trans; eauto. apply reach_child; auto. Qed.

Lemma reach_inv x y : reach ch x y -> x = y \/ exists c, In c (ch x) /\ reach ch c y.
Proof. intros H. destruct H; eauto. Qed.

(** Closed sets contain everything reachable. *)
Lemma reach_closed (Q : nat -> Prop) :
  (forall x c, Q x -> In c (ch x) -> Q c) -> forall x y, reach ch x y -> Q x -> Q y.
Proof. intros HQ x y H. induction H; intros; eauto. Qed.

Lemma reach_bounded N x y : bounded ch N -> x < N -> reach ch x y -> y < N.
Proof.
  intros HB Hx H. revert Hx. induction H as [|x c y Hc Hr IH]; intros; auto.
  apply IH. eapply HB; eauto.
Qed.

Lemma acyclic_no_self x : acyclic ch -> ~ In x (ch x).
Proof. intros H Hx. apply (H x x Hx). apply reach_refl. Qed.

(** Counting unvisited nodes below [N]. *)
Definition unv (N : nat) (V : list nat) : nat :=
  length (filter (fun x => negb (memn x V)) (seq 0 N)).

Lemma filter_length_le {A} (f g : A -> bool) l :
  (forall x, In x l -> f x = true -> g x = true) ->
  length (filter f l) <= length (filter g l).
Proof.
  induction l as [|h t IH]; simpl; intros H; auto.
  assert (IH' : length (filter f t) <= length (filter g t)) by (apply IH; intros; apply H; auto).
  destruct (f h) eqn:E.
  - rewrite (H h) by auto. simpl. lia.
  - destruct (g h); simpl; lia.
Qed.

Lemma unv_mono N V V' : (forall x, In x V -> In x V') -> unv N V' <= unv N V.
Proof.
  intros H. apply filter_length_le. intros x _. rewrite !negb_true_iff, !memn_false. auto.
Qed.

Lemma unv_cons_lt N V u : u < N -> ~ In u V -> S (unv N (u :: V)) = unv N V.
Proof.
  intros Hu Hn. unfold unv.
  assert (Hin : In u (seq 0 N)) by (apply in_seq; lia).
  pose proof (seq_NoDup N 0) as Hd. revert Hin Hd.
  generalize (seq 0 N) as l. induction l as [|h t IH]; intros Hin Hd; [destruct Hin|].
  inversion Hd as [|? ? Hd1 Hd2]; subst. simpl.
  destruct (Nat.eq_dec h u) as [->|Hne].
  - rewrite Nat.eqb_refl. simpl. apply memn_false in Hn. rewrite Hn. simpl. f_equal. f_equal.
    clear -Hd1. induction t as [|h t IH]; simpl; auto.
    assert (h <> u) by (intros ->; apply Hd1; left; auto).
    destruct (Nat.eqb_spec h u); [congruence|]. simpl.
    destruct (negb (memn h V)); rewrite IH; auto; intros Hx; apply Hd1; right; auto.
  - destruct Hin as [->|Hin]; [congruence|].
    destruct (Nat.eqb_spec h u); [congruence|]. simpl.
    destruct (negb (memn h V)); simpl; rewrite <- (IH Hin Hd2); reflexivity.
Qed.

Lemma unv_nil N : unv N [] = N.
Proof.
  unfold unv. rewrite <- (seq_length N 0) at 2.
  generalize (seq 0 N) as l. induction l; simpl; auto.
Qed.

Lemma in_split_first (x : nat) l : In x l -> exists a b, l = a ++ x :: b /\ ~ In x a.
Proof.
  induction l as [|h t IH]; intros H; [destruct H|].
  destruct (Nat.eq_dec h x) as [->|Hn].
  - exists [], t. auto.
  - destruct H as [->|H]; [congruence|]. destruct (IH H) as (a & b & -> & Ha).
    exists (h :: a), b. split; auto. intros [->|]; auto.
Qed.

(** The condition of the order theorems holds of layered networks and of trees. *)
Lemma graded_reach_level lev x y : graded ch lev -> reach ch x y -> lev x <= lev y /\ (lev x = lev y -> x = y).
Proof.
  intros Hg H. induction H as [x|x c y Hc Hr IH].
  - auto.
  - specialize (Hg _ _ Hc). destruct IH. split; lia.
Qed.

Lemma graded_acyclic lev : graded ch lev -> acyclic ch.
Proof.
  intros Hg x c Hc Hr. pose proof (Hg _ _ Hc). apply (graded_reach_level lev) in Hr; auto. lia.
Qed.

Lemma graded_siblings_ok lev : graded ch lev -> siblings_ok ch.
Proof.
  intros Hg p l1 a l2 v l3 E Hv Hr.
  assert (Ha : In a (ch p)) by (rewrite E; apply in_or_app; right; left; auto).
  assert (Hv' : In v (ch p)).
  { rewrite E. apply in_or_app; right; right. apply in_or_app; right; left; auto. }
  pose proof (Hg _ _ Ha). pose proof (Hg _ _ Hv').
  destruct (graded_reach_level lev v a Hg Hr) as [_ H1].
  assert (v = a) by (apply H1; lia). subst. apply Hv. apply in_or_app; right; left; auto.
Qed.

Lemma tree_siblings r : tree ch r -> acyclic ch -> siblings_ok ch.
Proof.
  intros (Hr & Hd & Hp) Hac p l1 a l2 v l3 E Hv Hra.
  assert (Ha : In a (ch p)) by (rewrite E; apply in_or_app; right; left; auto).
  assert (Hv' : In v (ch p)).
  { rewrite E. apply in_or_app; right; right. apply in_or_app; right; left; auto. }
  (* the last edge of the path from v to a comes from p, so p is reachable from its child v *)
  assert (G : forall x y, reach ch x y -> x = y \/ exists z, reach ch x z /\ In y (ch z)).
  { intros x y H. induction H as [x|x c y Hc Hr' IH]; auto. right.
    destruct IH as [->|(z & Hz & Hy)].
    - exists x. split; auto. apply reach_refl.
    - exists z. split; auto. eapply reach_step; eauto. }
  destruct (G v a Hra) as [->|(z & Hz & Hy)].
  - apply Hv. apply in_or_app; right; left; auto.
  - rewrite (Hp z p a Hy Ha) in Hz. exact (Hac p v Hv' Hz).
Qed.
Lemma ranked_reach (rank : nat -> nat) x y : (forall u c, In c (ch u) -> rank c < rank u) ->
  reach ch x y -> rank y <= rank x.
Proof.
  intros H. induction 1 as [|x c y Hc _ IH]; auto. specialize (H x c Hc). lia.
Qed.

Lemma ranked_acyclic (rank : nat -> nat) : (forall u c, In c (ch u) -> rank c < rank u) -> acyclic ch.
Proof.
  intros H x c Hc Hr. pose proof (ranked_reach rank _ _ H Hr). specialize (H x c Hc). lia.
Qed.

Lemma graded_siblings_acyclic lev : graded ch lev -> siblings_ok ch /\ acyclic ch.
Proof. intros H. split; [eapply graded_siblings_ok|eapply graded_acyclic]; eauto. Qed.
End G.
