(** A network whose nodes are labelled with sets of variables that fit together is complete and
    decomposable, and its scope is the label of its root. *)
From Verif Require Import Base Res Arith GraphSpec Spn ProbSpec PoonSpec GraphLemmas.

Section G.
Context {A : arith}.
Variable net : network A.
Variable lab : nat -> Z -> Prop.
Variable rank : nat -> nat.
Variable P : nat -> Prop.

Definition fits_label (u : nat) : Prop :=
  match nk (net u) with
  | KSum _ => nch (net u) <> [] /\ forall c, In c (nch (net u)) -> forall x, lab c x <-> lab u x
  | KProd => (forall x, lab u x <-> exists c, In c (nch (net u)) /\ lab c x) /\
             (forall i j c c' x, i <> j -> nth_error (nch (net u)) i = Some c ->
                nth_error (nch (net u)) j = Some c' -> lab c x -> ~ lab c' x)
  | KLeaf l => nch (net u) = [] /\ forall x, In x (lsc l) <-> lab u x
  end.

Hypothesis fits : forall u, P u -> fits_label u.
Hypothesis closed : forall u c, P u -> In c (nch (net u)) -> P c /\ rank c < rank u.

Lemma P_reach u v : reach (children net) u v -> P u -> P v.
Proof. induction 1 as [|u c v I R IH]; auto. intros Pu. apply IH. eapply closed; eauto. Qed.

Lemma rank_reach u v : reach (children net) u v -> P u -> rank v <= rank u.
Proof.
  induction 1 as [|u c v I R IH]; auto. intros Pu.
  destruct (closed u c Pu I) as [Pc Hc]. specialize (IH Pc). lia.
Qed.

Lemma scope_label n : forall u, rank u < n -> P u -> forall x, in_scope net u x <-> lab u x.
Proof.
  induction n as [|n IH]; intros u Hn Pu x; [lia|].
  pose proof (fits u Pu) as Fu. unfold fits_label in Fu.
  assert (IHc : forall c, In c (nch (net u)) -> in_scope net c x <-> lab c x).
  { intros c Hc. destruct (closed u c Pu Hc) as [Pc Rc]. apply IH; auto. lia. }
  assert (St : (exists c, In c (nch (net u)) /\ in_scope net c x) -> in_scope net u x).
  { intros (c & Hc & v & l & R & K & I). exists v, l. repeat split; auto. eapply reach_step; eauto. }
  assert (Un : in_scope net u x -> (exists l, nk (net u) = KLeaf l /\ In x (lsc l)) \/
                 exists c, In c (nch (net u)) /\ in_scope net c x).
  { intros (v & l & R & K & I). inversion R; subst.
    - left; eauto.
    - right. exists c. split; auto. exists v, l; auto. }
  destruct (nk (net u)) as [ws| |l] eqn:K.
  - destruct Fu as [Ne Same]. split.
    + intros H. destruct (Un H) as [(l & E & _)|(c & Hc & Sc)]; [discriminate|].
      apply (Same c Hc), IHc; auto.
    + intros H. apply St. destruct (nch (net u)) as [|c t] eqn:E; [congruence|].
      exists c. split; [left; auto|]. apply IHc; [left; auto|]. apply (Same c); [left; auto|auto].
  - destruct Fu as [Cov _]. split.
    + intros H. destruct (Un H) as [(l & E & _)|(c & Hc & Sc)]; [discriminate|].
      apply Cov. exists c. split; auto. apply IHc; auto.
    + intros H. apply St. apply Cov in H. destruct H as (c & Hc & Lc). exists c. split; auto. apply IHc; auto.
  - destruct Fu as [Nil Lf]. split.
    + intros H. destruct (Un H) as [(l' & E & I)|(c & Hc & _)].
      * injection E as <-. apply Lf; auto.
      * rewrite Nil in Hc. destruct Hc.
    + intros H. exists u, l. repeat split; auto; [constructor|]. apply Lf; auto.
Qed.

Lemma scoped_network z : P z ->
  (forall x, in_scope net z x <-> lab z x) /\ complete net z /\ decomposable net z /\
  acyclic_from (children net) z.
Proof.
  intros Pz.
  assert (Sc : forall u, P u -> forall x, in_scope net u x <-> lab u x)
    by (intros u Pu; apply (scope_label (S (rank u))); auto; lia).
  split; [intros; apply Sc; auto|]. split; [|split].
  - intros u w c c' x R K Hc Hc' I.
    assert (Pu : P u) by (eapply P_reach; eauto).
    pose proof (fits u Pu) as Fu. unfold fits_label in Fu. rewrite K in Fu. destruct Fu as [_ Same].
    apply Sc; [eapply closed; eauto|]. apply (Same c' Hc'). apply (Same c Hc). apply Sc; auto.
    apply (closed u); auto.
  - intros u i j c c' x R K ij Ei Ej I I'.
    assert (Pu : P u) by (eapply P_reach; eauto).
    pose proof (fits u Pu) as Fu. unfold fits_label in Fu. rewrite K in Fu. destruct Fu as [_ Dis].
    apply (Dis i j c c' x ij Ei Ej).
    + apply Sc; auto. apply (closed u); auto. eapply nth_error_In; eauto.
    + apply Sc; auto. apply (closed u); auto. eapply nth_error_In; eauto.
  - intros u c R Hc Rc. assert (Pu : P u) by (eapply (P_reach z); eauto).
    destruct (closed u c Pu Hc) as [Pc Lt]. pose proof (rank_reach c u Rc Pc). lia.
Qed.
End G.
