(** OldKMeansF: the rows end in the cluster with the nearest centroid. *)
From Coq Require Import Permutation.
From Verif Require Import Base Res Arith GoMap Tables Cluster ClusterSpec ClusterLemmas ClusterMedoids Dbscan Kmeans KmeansSpec KmeansLemmas.
Local Open Scope Z_scope.

Lemma draw_fresh rnd fuel : forall c seen n r c', draw rnd fuel c seen n = Ok (r, c') -> ~ In r seen.
Proof.
  induction fuel as [|f IH]; intros c seen n r c' E; cbn [draw] in E; [discriminate|].
  destruct (Nat.eqb n 0); [discriminate|]. destruct (memn (rnd c n) seen) eqn:Em; [eauto|]. injection E as <- <-. rewrite <- memn_In. congruence.
Qed.

Lemma filter_single {T} (f : T -> bool) l x : NoDup l -> In x l -> f x = true -> (forall y, In y l -> f y = true -> y = x) -> filter f l = [x].
Proof.
  induction l as [|y l IH]; intros HN Hx Hf Hu; [destruct Hx|]. inversion HN as [|? ? N1 N2]; subst. cbn [filter]. destruct Hx as [->|Hx].
  - rewrite Hf. f_equal. assert (E : forall l', (forall z, In z l' -> f z = false) -> filter f l' = []). { induction l' as [|z l' IH']; auto. intros H. cbn [filter]. rewrite (H z (or_introl eq_refl)). apply IH'. intros; apply H; right; auto. }
    apply E. intros z Hz. destruct (f z) eqn:Ez; auto. rewrite (Hu z (or_intror Hz) Ez) in Hz. contradiction.
  - destruct (f y) eqn:Ey; [rewrite (Hu y (or_introl eq_refl) Ey) in N1; contradiction|]. apply IH; auto. intros z Hz. apply Hu. right; auto.
Qed.

Lemma combine_nth_ {T U} (l : list T) : forall (l2 : list U) i a b, nth_error l i = Some a -> nth_error l2 i = Some b -> nth_error (combine l l2) i = Some (a, b).
Proof. induction l as [|x l IH]; intros [|y l2] [|i] a b E1 E2; try discriminate; cbn [combine nth_error] in *; [congruence|eauto]. Qed.
Lemma combine_nth_inv {T U} (l : list T) : forall (l2 : list U) i a b, nth_error (combine l l2) i = Some (a, b) -> nth_error l i = Some a /\ nth_error l2 i = Some b.
Proof. induction l as [|x l IH]; intros [|y l2] [|i] a b E1; try discriminate; cbn [combine nth_error] in *; [split; congruence|eauto]. Qed.

Lemma members_single {T} (C : list Z) (D : list T) p r row : length C = length D -> nth_error D r = Some row -> nth_error C r = Some (Z.of_nat p) ->
  (forall i, nth_error C i = Some (Z.of_nat p) -> i = r) -> members C p D = [(Z.of_nat r, row)].
Proof.
  intros L Er Ec Hu. unfold members. rewrite (filter_single _ _ (Z.of_nat p, (Z.of_nat r, row))); auto.
  - apply NoDup_nth_error. intros i j Hi Eij. destruct (nth_error (combine C (numbered D)) i) as [[c [z x]]|] eqn:Ei; [|apply nth_error_None in Ei; lia]. symmetry in Eij.
    apply combine_nth_inv in Ei as [_ Ei], Eij as [_ Ej].
    pose proof (nth_lt _ _ _ Ei) as L1. pose proof (nth_lt _ _ _ Ej) as L2. rewrite numbered_length in L1, L2.
    destruct (nth_error D i) as [u|] eqn:Eu; [|apply nth_error_None in Eu; lia]. destruct (nth_error D j) as [v|] eqn:Ev; [|apply nth_error_None in Ev; lia].
    rewrite (numbered_nth _ _ _ Eu) in Ei. rewrite (numbered_nth _ _ _ Ev) in Ej. injection Ei as <- _. injection Ej as E _. lia.
  - eapply nth_error_In. apply combine_nth_; eauto. apply numbered_nth; auto.
  - cbn [fst]. apply Z.eqb_refl.
  - intros [c [z x]] Hy Hf. cbn [fst] in Hf. apply Z.eqb_eq in Hf. subst c. apply In_nth_error in Hy as (i & Ei). apply combine_nth_inv in Ei as [E1 E2].
    rewrite (Hu i E1) in E2. rewrite (numbered_nth _ _ _ Er) in E2. congruence.
Qed.

Section Top.
Context {A : arith}.
Local Notation F := (F A).
Variable inf : F.
Variable metric : list F -> list F -> res F.
Variable rnd : nat -> nat -> nat.
Variable n k : nat.
Variable D : list (list F).
Hypothesis HD : forall row, In row D -> length row = n.
Hypothesis Hgt : strict_order (@fgt A).
Hypothesis Hunit : unit_laws A.

Definition seeded (i : nat) (st : nat * list nat * list Z * list (list F)) : Prop :=
  let '(_, R, C, M) := st in
  length C = length D /\ length M = k /\ exists rs, length rs = i /\ NoDup rs /\ (forall r, In r R <-> In r rs) /\
    (forall p r, nth_error rs p = Some r -> nth_error C r = Some (Z.of_nat p) /\ exists row, nth_error D r = Some row /\ nth_error M p = Some row) /\
    (forall r, ~ In r rs -> (r < length D)%nat -> nth_error C r = Some (-1)) /\
    (forall p, (i <= p < k)%nat -> nth_error M p = Some (repeat (fz 0) n)).

Lemma forgyF_l fuelR st i st' : (i < k)%nat -> seeded i st -> forgyF rnd fuelR D st i = Ok st' -> seeded (S i) st'.
Proof using HD.
  clear inf metric Hgt Hunit. destruct st as [[[c R] C] M]. intros Hi (LC & LM & rs & Lr & ND & HR & H1 & H2 & H3) E. unfold forgyF in E.
  apply bind_ok in E as ([r c'] & Ed & E). apply draw_fresh in Ed. cbn [fst snd] in E. apply bind_ok in E as (row & Er & E). apply idx_ok in Er.
  apply bind_ok in E as (c0 & Ec & E). apply bind_ok in E as (Mi & Em & E). apply idx_ok in Em. rewrite H3 in Em by lia. injection Em as <-.
  rewrite copyF_row in E by (apply HD; eapply nth_error_In; eauto). injection E as <-. pose proof (nth_lt _ _ _ Er) as Hr. rewrite HR in Ed.
  unfold seeded. rewrite !set_nth_length. split; auto. split; auto. exists (rs ++ [r]). split; [rewrite app_length; simpl; lia|]. split; [apply NoDup_rev in ND; rewrite <- (rev_involutive (rs ++ [r])); apply NoDup_rev; rewrite rev_app_distr; constructor; auto; rewrite <- in_rev; auto|]. split; [|split; [|split]].
  - intros q. cbn [In]. rewrite in_app_iff, HR. cbn [In]. tauto.
  - intros p q Ep. destruct (Nat.lt_ge_cases p (length rs)).
    + rewrite nth_error_app1 in Ep by auto. destruct (H1 p q Ep) as (K1 & row' & K2 & K3). assert (q <> r) by (intros ->; apply Ed; eapply nth_error_In; eauto).
      rewrite nth_error_set_nth_diff by auto. split; auto. exists row'. split; auto. rewrite nth_error_set_nth_diff by lia. auto.
    + rewrite nth_error_app2 in Ep by auto. destruct (p - length rs)%nat as [|u] eqn:Eu; [|destruct u; discriminate]. injection Ep as <-. assert (p = i) by lia. subst p.
      rewrite nth_error_set_nth_same by lia. split; auto. exists row. split; auto. rewrite nth_error_set_nth_same by lia. auto.
  - intros q Hq Hl. rewrite in_app_iff in Hq. cbn [In] in Hq. rewrite nth_error_set_nth_diff by (intros ->; tauto). apply H2; tauto.
  - intros p Hp. rewrite nth_error_set_nth_diff by lia. apply H3. lia.
Qed.

Lemma forgy_all fuelR j i st st' : (i + j = k)%nat -> seeded i st -> foldr_ (forgyF rnd fuelR D) (seq i j) st = Ok st' -> seeded k st'.
Proof using HD.
  revert i st. induction j as [|j IH]; intros i st Hij Hs E; cbn [seq foldr_] in E; [injection E as <-; replace k with i by lia; auto|].
  apply bind_ok in E as (s1 & E1 & E). eapply (IH (S i)); [lia| |exact E]. eapply forgyF_l; eauto. lia.
Qed.

Lemma seeded_start : seeded 0 (0%nat, [], repeat (-1) (length D), repeat (repeat (fz 0) n) k).
Proof using.
  clear inf metric rnd Hgt Hunit. unfold seeded. rewrite !repeat_length. split; auto. split; auto. exists []. split; auto. split; [constructor|]. split; [tauto|]. split; [intros [|p] r Ep; discriminate|]. split.
  - intros r _ Hr. rewrite (nth_error_nth' _ (-1)) by (rewrite repeat_length; auto). f_equal. apply nth_repeat.
  - intros p Hp. rewrite (nth_error_nth' _ (repeat (fz 0) n)) by (rewrite repeat_length; lia). f_equal. apply nth_repeat.
Qed.

Lemma unit_row (row : list F) : length row = n -> map (fun x => fdiv x (fz 1)) (vadd (repeat (fz 0) n) row) = row.
Proof using Hunit.
  intros L. rewrite <- L. clear L. unfold vadd. induction row as [|x row IH]; auto. cbn [length repeat combine map fst snd]. rewrite IH. f_equal. apply Hunit.
Qed.

Lemma seeded_means c R C M : seeded k (c, R, C, M) -> (forall i x, (i < length D)%nat -> nth_error C i = Some x -> 0 <= x < Z.of_nat k) ->
  M = map (fun p => centroid n (members C p D)) (seq 0 k).
Proof using HD Hunit.
  intros (LC & LM & rs & Lr & ND & HR & H1 & H2 & _) HC. apply list_ext. intros p. destruct (Nat.lt_ge_cases p k) as [Hp|Hp].
  - rewrite nth_map_seq by auto. destruct (nth_error rs p) as [r|] eqn:Er; [|apply nth_error_None in Er; lia]. destruct (H1 p r Er) as (K1 & row & K2 & K3). rewrite K3. f_equal.
    rewrite (members_single C D p r row); auto.
    + unfold centroid, total. cbn [fold_left length snd]. change (Z.of_nat 1) with 1. symmetry. apply unit_row. apply HD. eapply nth_error_In; eauto.
    + intros i Ei. assert (Hi : (i < length D)%nat) by (rewrite <- LC; eapply nth_lt; eauto). destruct (in_dec Nat.eq_dec i rs) as [Hin|Hn].
      * apply In_nth_error in Hin as (q & Eq). destruct (H1 q i Eq) as (Q & _). rewrite Ei in Q. injection Q as Q. assert (p = q) by lia. subst q. congruence.
      * rewrite (H2 i Hn Hi) in Ei. injection Ei as Ei. lia.
  - rewrite !(proj2 (nth_error_None _ _)); auto; rewrite ?map_length, ?seq_length; lia.
Qed.

Lemma oldKMeansF_l fuelR fuel O : oldKMeansF inf metric rnd fuelR fuel k D = Ok O -> splits k D O /\ near_centroids n metric O.
Proof using HD Hgt Hunit.
  unfold oldKMeansF. intros E. destruct (length D <? k)%nat; [discriminate|]. apply bind_ok in E as (d0 & E0 & E). apply idx_ok in E0.
  rewrite (HD d0) in E by (eapply nth_error_In; eauto). apply bind_ok in E as ([[[c R] C] M] & Ef & E). apply forgy_all in Ef; [|lia|apply seeded_start].
  apply bind_ok in E as (C' & El & E). apply collectF in E; auto. subst O.
  destruct (lloyd_end inf metric n D k fuel C M C' El) as (L & M' & Ha & HM & M'' & Hm2). destruct (means2_l n D HD k C' M'' Hm2) as (EM'' & HC & HLC).
  assert (LC : length C' = length D) by (rewrite L; apply Ef).
  assert (EM : M' = map (fun p => centroid n (members C' p D)) (seq 0 k)).
  { destruct HM as [[-> ->]|HM]; [eapply seeded_means; eauto|rewrite Hm2 in HM; congruence]. }
  split.
  - split; [rewrite map_length, seq_length; auto|]. apply members_total; [lia|auto].
  - intros p q cl cl' i row d d' Ep Hin Eq E1 E2. apply nth_map_seq_inv in Ep as [Hp ->]. apply nth_map_seq_inv in Eq as [Hq ->].
    apply members_in in Hin as (j & _ & Ej & Ec); auto. apply assign_same in Ha as [_ Ha]. destruct (Ha j row Ej) as (x & Ex & En). rewrite Ec in Ex. injection Ex as <-.
    eapply (nearestF_same inf metric Hgt M' row (Z.of_nat p)); eauto; [lia| |].
    + exists (centroid n (members C' p D)). split; auto. rewrite EM, Nat2Z.id, nth_map_seq by auto. auto.
    + rewrite EM, nth_map_seq by eauto. auto.
Qed.
End Top.
