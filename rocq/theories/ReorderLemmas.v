(** The order of children does not matter. *)
From Coq Require Import Reals Lra Lia Permutation.
From Verif Require Import Base Res Arith LogSpec LogLemmas GraphSpec GraphLemmas Spn SpnSpec Leaves ProbSpec ProbLemmas ReorderSpec.
Local Open Scope R_scope.

Lemma Rsum_perm l l' : Permutation l l' -> Rsum l = Rsum l'.
Proof. induction 1; cbn [Rsum]; lra. Qed.

Lemma Rprod_perm l l' : Permutation l l' -> Rprod l = Rprod l'.
Proof. induction 1; cbn [Rprod]; auto; [congruence|ring|congruence]. Qed.

Lemma Rmaxl_perm l l' a : Permutation l l' -> Rmaxl l a = Rmaxl l' a.
Proof.
  intros Hp. destruct (Rmaxl_spec l a) as (A1 & A2 & A3). destruct (Rmaxl_spec l' a) as (B1 & B2 & B3).
  apply Rle_antisym.
  - destruct A3 as [->|A3]; auto. apply B2. eapply Permutation_in; eauto.
  - destruct B3 as [->|B3]; auto. apply A2. eapply Permutation_in; [apply Permutation_sym|]; eauto.
Qed.

Lemma combine_fin (cs : list nat) ws : combine cs (map Fin ws) = map (fun p => (fst p, Fin (snd p))) (combine cs ws).
Proof. revert ws. induction cs as [|c cs IH]; intros [|w ws]; cbn; auto. f_equal; auto. Qed.

Lemma perm_unfin (l l' : list (nat * R)) :
  Permutation (map (fun p => (fst p, Fin (snd p))) l) (map (fun p => (fst p, Fin (snd p))) l') -> Permutation l l'.
Proof.
  intros H. set (g := fun p : nat * xreal => (fst p, match snd p with Fin x => x | _ => 0 end)).
  assert (E : forall k : list (nat * R), map g (map (fun p => (fst p, Fin (snd p))) k) = k).
  { intros k. rewrite map_map. rewrite <- (map_id k) at 2. apply map_ext. intros [c x]. reflexivity. }
  rewrite <- (E l), <- (E l'). apply Permutation_map. exact H.
Qed.

Lemma in_combine_ex {W} (cs : list nat) (ws : list W) c : length ws = length cs -> In c cs -> exists w, In (c, w) (combine cs ws).
Proof.
  revert ws. induction cs as [|d cs IH]; intros [|w ws] E H; cbn in *; try discriminate; [destruct H|].
  destruct H as [->|H]; [exists w; auto|]. destruct (IH ws ltac:(lia) H) as [w' H']. exists w'. auto.
Qed.

Lemma in_combine_ex_r {W} (cs : list nat) (ws : list W) w : length ws = length cs -> In w ws -> exists c, In (c, w) (combine cs ws).
Proof.
  revert ws. induction cs as [|d cs IH]; intros [|v ws] E H; cbn in *; try discriminate; [destruct H|].
  destruct H as [->|H]; [exists d; auto|]. destruct (IH ws ltac:(lia) H) as [w' H']. exists w'. auto.
Qed.

Lemma all_fin (l : list xreal) : (forall x, In x l -> exists y, x = Fin y /\ 0 <= y) -> exists ws, l = map Fin ws /\ forall y, In y ws -> 0 <= y.
Proof.
  induction l as [|x l IH]; intros H. { exists []. split; [reflexivity|intros y []]. }
  destruct IH as (ws & -> & Hw); [intros; apply H; right; auto|]. destruct (H x (or_introl eq_refl)) as (y & -> & Hy).
  exists (y :: ws). split; [reflexivity|]. intros z [<-|Hz]; auto.
Qed.

Section R.
Variables net net' : network XR.
Variables (card : Z -> nat) (N r : nat) (I : varset).
Hypothesis HR : reordered net net'.
Hypothesis Hb : bounded (children net) N.
Hypothesis Hr : (r < N)%nat.
Hypothesis Ha : acyclic (children net).
Hypothesis HW : weights_nonneg net r.
Hypothesis HL : discrete_leaves net card r.
Hypothesis HI : evidence_ok card I.

Lemma sub_ch u c : In c (children net' u) -> In c (children net u).
Proof.
  unfold children. intros Hc. pose proof (HR u) as H. destruct (nk (net u)) as [w| |l], (nk (net' u)) as [w'| |l']; try contradiction.
  - destruct H as [E H]. destruct (in_combine_ex _ _ c E Hc) as [x Hx]. apply Permutation_sym in H. apply (Permutation_in _ H) in Hx.
    eapply in_combine_l; eauto.
  - eapply Permutation_in; [apply Permutation_sym|]; eauto.
  - destruct H as [_ ->]. auto.
Qed.

Lemma sub_reach u v : reach (children net') u v -> reach (children net) u v.
Proof. induction 1; [apply reach_refl|]. eapply reach_step; eauto. apply sub_ch; auto. Qed.

Lemma re_bounded : bounded (children net') N.
Proof. intros u c Hc. eapply Hb. apply sub_ch; eauto. Qed.

Lemma re_acyclic : acyclic (children net').
Proof. intros u c Hc H. apply (Ha u c); [apply sub_ch; auto|apply sub_reach; auto]. Qed.

Lemma re_weights : weights_nonneg net' r.
Proof.
  intros u w' Hu E'. apply sub_reach in Hu. pose proof (HR u) as H. rewrite E' in H.
  destruct (nk (net u)) as [w| |l] eqn:E; try contradiction. destruct H as [El H].
  destruct (HW u w Hu E) as (Hn & ws & -> & Ew & Hp). split.
  - intros E0. rewrite E0 in H. cbn in H. apply Permutation_sym, Permutation_nil in H.
    destruct (nch (net u)) as [|c cs]; [congruence|]. destruct ws; cbn in *; discriminate.
  - destruct (all_fin w') as (ws' & -> & Hw').
    + intros x Hx. destruct (in_combine_ex_r _ _ x El Hx) as [c Hc]. apply Permutation_sym in H. apply (Permutation_in _ H) in Hc.
      apply in_combine_r in Hc. apply in_map_iff in Hc. destruct Hc as (y & <- & Hy). eauto.
    + exists ws'. split; [reflexivity|]. split; [rewrite <- El; symmetry; apply map_length|auto].
Qed.

Lemma re_leaves : discrete_leaves net' card r.
Proof.
  intros u l' Hu E'. apply sub_reach in Hu. pose proof (HR u) as H. rewrite E' in H.
  destruct (nk (net u)) as [w| |l] eqn:E; try contradiction. destruct H as [<- <-]. apply HL; auto.
Qed.

Lemma re_PM u : reach (children net') r u -> P net N I u = P net' N I u /\ MX net N I u = MX net' N I u.
Proof.
  revert u. apply (node_ind (children net') N r); auto; [apply re_bounded|apply re_acyclic|].
  intros u Hu' IH. pose proof (sub_reach _ _ Hu') as Hu.
  destruct (P_spec net card N r Hb Hr Ha HW HL I HI u Hu) as (_ & _ & E1).
  destruct (M_spec net card N r Hb Hr Ha HW HL I HI u Hu) as (_ & _ & F1).
  destruct (P_spec net' card N r re_bounded Hr re_acyclic re_weights re_leaves I HI u Hu') as (_ & _ & E2).
  destruct (M_spec net' card N r re_bounded Hr re_acyclic re_weights re_leaves I HI u Hu') as (_ & _ & F2).
  pose proof (HR u) as H. unfold children in IH.
  destruct (nk (net u)) as [w| |l] eqn:E, (nk (net' u)) as [w'| |l'] eqn:E'; try contradiction.
  - destruct (HW u w Hu E) as (_ & ws & -> & _ & _). destruct (re_weights u w' Hu' E') as (_ & ws' & -> & _ & _).
    destruct H as [_ H]. rewrite !combine_fin in H. apply perm_unfin in H.
    rewrite (E1 ws eq_refl), (E2 ws' eq_refl), (F1 ws eq_refl), (F2 ws' eq_refl). unfold psum, pmax. split.
    + rewrite (Rsum_perm _ _ (Permutation_map _ H)). f_equal. apply map_ext_in. intros [c x] Hc. cbn. f_equal. apply IH. eapply in_combine_l; eauto.
    + rewrite (Rmaxl_perm _ _ 0 (Permutation_map _ H)). f_equal. apply map_ext_in. intros [c x] Hc. cbn. f_equal. apply IH. eapply in_combine_l; eauto.
  - rewrite E1, E2, F1, F2. split.
    + rewrite (Rprod_perm _ _ (Permutation_map _ H)). f_equal. apply map_ext_in. intros c Hc. apply IH; auto.
    + rewrite (Rprod_perm _ _ (Permutation_map _ H)). f_equal. apply map_ext_in. intros c Hc. apply IH; auto.
  - destruct H as [<- _]. rewrite E1, E2, F1, F2. auto.
Qed.

Lemma reorder_l : exists a c, value net N I r = Ok a /\ value net' N I r = Ok a /\ max_ net N I r = Ok c /\ max_ net' N I r = Ok c.
Proof.
  destruct (P_spec net card N r Hb Hr Ha HW HL I HI r (reach_refl _ _)) as (E1 & _).
  destruct (M_spec net card N r Hb Hr Ha HW HL I HI r (reach_refl _ _)) as (F1 & _).
  destruct (P_spec net' card N r re_bounded Hr re_acyclic re_weights re_leaves I HI r (reach_refl _ _)) as (E2 & _).
  destruct (M_spec net' card N r re_bounded Hr re_acyclic re_weights re_leaves I HI r (reach_refl _ _)) as (F2 & _).
  destruct (re_PM r (reach_refl _ _)) as [H1 H2]. rewrite <- H1 in E2. rewrite <- H2 in F2. eauto 10.
Qed.
End R.
