From Coq Require Import Reals Lra.
From Verif Require Import Base Res Arith LogSpec LogLemmas GraphSpec GraphLemmas Topo TopoLemmas Search SearchLemmas
  Spn SpnLemmas ProbSpec ProbLemmas Walk WalkLemmas Struct StructSpec.

Lemma memz_In x l : memz x l = true <-> In x l.
Proof.
  unfold memz. rewrite existsb_exists. split.
  - intros (y & H1 & H2). apply Z.eqb_eq in H2. subst. auto.
  - intros H. exists x. rewrite Z.eqb_refl. auto.
Qed.
Lemma memz_false x l : memz x l = false <-> ~ In x l.
Proof. rewrite <- memz_In. destruct (memz x l); split; intros H; congruence. Qed.

Lemma addKey_fold l : forall keys, NoDup keys ->
  NoDup (fold_left addKey l keys) /\ forall x, In x (fold_left addKey l keys) <-> In x keys \/ In x l.
Proof.
  induction l as [|v l IH]; intros keys Hn; simpl; [split; auto; intros x; tauto|].
  assert (NoDup (addKey keys v) /\ forall x, In x (addKey keys v) <-> In x keys \/ x = v) as [H1 H2].
  { unfold addKey. destruct (memz v keys) eqn:E.
    - apply memz_In in E. split; auto. intros x. split; auto. intros [H| ->]; auto.
    - apply memz_false in E. split.
      + apply NoDup_rev in Hn. rewrite <- (rev_involutive (keys ++ [v])). apply NoDup_rev. rewrite rev_app_distr.
        simpl. constructor; auto. rewrite <- in_rev. auto.
      + intros x. rewrite in_app_iff. simpl. intuition. }
  destruct (IH _ H1) as [H3 H4]. split; auto. intros x. rewrite H4, H2. intuition.
Qed.

Lemma addKeys_fold (sc : nat -> list Z) cs : forall keys, NoDup keys ->
  NoDup (fold_left (fun keys c => fold_left addKey (sc c) keys) cs keys) /\
  forall x, In x (fold_left (fun keys c => fold_left addKey (sc c) keys) cs keys) <->
    In x keys \/ exists c, In c cs /\ In x (sc c).
Proof.
  induction cs as [|c cs IH]; intros keys Hn; simpl.
  - split; auto. intros x. split; auto. intros [H|(c & [] & _)]; auto.
  - destruct (addKey_fold (sc c) keys Hn) as [H1 H2]. destruct (IH _ H1) as [H3 H4]. split; auto.
    intros x. rewrite H4, H2. split.
    + intros [[H|H]|(d & Hd & H)]; auto; right; eauto.
    + intros [H|(d & [<-|Hd] & H)]; auto. right; eauto.
Qed.

Lemma below_childless ch sc u x : ch u = [] -> (below ch sc u x <-> In x (sc u)).
Proof.
  intros E. split.
  - intros (v & H1 & H2 & H3). apply reach_inv in H1 as [->|(c & Hc & _)]; auto. rewrite E in Hc. destruct Hc.
  - intros H. exists u. split; [apply reach_refl|auto].
Qed.

Lemma below_parent ch sc u x : ch u <> [] -> (below ch sc u x <-> exists c, In c (ch u) /\ below ch sc c x).
Proof.
  intros E. split.
  - intros (v & H1 & H2 & H3). apply reach_inv in H1 as [->|(c & Hc & H1)]; [congruence|].
    exists c. split; auto. exists v. auto.
  - intros (c & Hc & v & H1 & H2 & H3). exists v. split; auto. eapply reach_step; eauto.
Qed.

Section Scope.
Context {A : arith}.
Variable net : network A.
Local Notation ch := (children net).
Variable ord : nat -> list Z -> list Z.
Hypothesis Hord : forall s l, Permutation (ord s l) l.

Lemma scope_fold r sc0 l : dependency_order ch l -> NoDup l -> (forall x, In x l -> reach ch r x) ->
  (forall v, reach ch r v -> ch v = [] -> NoDup (sc0 v)) ->
  forall b a sc, l = a ++ b ->
  (forall u, In u a -> NoDup (sc u) /\ forall x, In x (sc u) <-> below ch sc0 u x) ->
  (forall u, ~ In u a -> sc u = sc0 u) ->
  (forall u, In u l -> NoDup (fold_left (scopeStep net ord) b sc u) /\
     forall x, In x (fold_left (scopeStep net ord) b sc u) <-> below ch sc0 u x) /\
  (forall u, ~ In u l -> fold_left (scopeStep net ord) b sc u = sc0 u).
Proof.
  intros Hd Hnd Hre Hlf. induction b as [|s b IH]; intros a sc E H1 H2; simpl.
  - rewrite app_nil_r in E. subst a. auto.
  - assert (Hsl : In s l) by (rewrite E; apply in_or_app; right; left; auto).
    assert (Hsa : ~ In s a).
    { rewrite E in Hnd. intros Hin. apply NoDup_remove_2 in Hnd. apply Hnd. apply in_or_app; auto. }
    apply (IH (a ++ [s])).
    + rewrite <- app_assoc. auto.
    + assert (G : NoDup (scopeStep net ord sc s s) /\ forall x, In x (scopeStep net ord sc s s) <-> below ch sc0 s x).
      { unfold scopeStep. destruct (nch (net s)) as [|c0 cs] eqn:EC.
        - simpl. rewrite H2 by auto. split; [apply Hlf; auto|].
          intros x. rewrite below_childless by auto. tauto.
        - cbn [length]. destruct (Nat.ltb_spec 0 (S (length cs))) as [_|]; [|lia]. rewrite upd_same, <- EC.
          destruct (addKeys_fold sc (nch (net s)) [] (NoDup_nil _)) as [K1 K2]. split.
          + eapply Permutation_NoDup; [symmetry; apply Hord|auto].
          + intros x. rewrite below_parent by (unfold children; congruence). split.
            * intros Hx. apply (Permutation_in _ (Hord _ _)) in Hx. apply K2 in Hx as [[]|(c & Hc & Hx)].
              exists c. split; auto. apply H1; auto. eapply Hd; eauto.
            * intros (c & Hc & Hx). apply (Permutation_in x (Permutation_sym (Hord s _))). apply K2. right.
              exists c. split; auto. apply H1; auto. eapply Hd; eauto. }
      intros u Hu. apply in_app_or in Hu as [Hu|[<-|[]]]; auto.
      assert (u <> s) by (intros ->; contradiction).
      unfold scopeStep. destruct (Nat.ltb 0 _); [rewrite upd_diff by auto|]; auto.
    + intros u Hu. rewrite in_app_iff in Hu. simpl in Hu. assert (u <> s) by (intros ->; intuition).
      unfold scopeStep. destruct (Nat.ltb 0 _); [rewrite upd_diff by auto|]; auto.
Qed.

Lemma computeScope_l N r sc0 : bounded ch N -> r < N -> acyclic ch -> siblings_ok ch ->
  (forall v, reach ch r v -> ch v = [] -> NoDup (sc0 v)) ->
  exists sc, computeScope net ord (2 * N + 1) r sc0 = Ok sc /\
    (forall u, reach ch r u -> NoDup (sc u) /\ forall x, In x (sc u) <-> below ch sc0 u x) /\
    (forall u, ~ reach ch r u -> sc u = sc0 u).
Proof.
  intros Hb Hr Ha Hs Hlf. destruct (good_order net N r Hb Hr Ha Hs) as (l & l0 & E & Hd & Hn & He & Hlen & _).
  unfold computeScope. rewrite E. eexists. split; [reflexivity|].
  destruct (scope_fold r sc0 l Hd Hn ltac:(apply He) Hlf l [] sc0 eq_refl) as [H1 H2].
  { intros u []. }
  { auto. }
  split.
  - intros u Hu. apply H1. apply He; auto.
  - intros u Hu. apply H2. rewrite He. auto.
Qed.
End Scope.

(** Counting. *)
Lemma incr_fold s : NoDup s -> forall v, (forall x, In x s -> v x = None) ->
  forall x, fold_left incr s v x = if memz x s then Some 1%Z else v x.
Proof.
  induction s as [|u s IH]; intros Hn v Hv x; auto. inversion Hn; subst. cbn [fold_left].
  rewrite IH; auto.
  - simpl. unfold incr. destruct (Z.eqb_spec x u) as [->|Hne]; simpl.
    + assert (E : memz u s = false) by (apply memz_false; auto). rewrite E.
      rewrite updZ_same, (Hv u); simpl; auto.
    + rewrite updZ_diff by auto. reflexivity.
  - intros y Hy. unfold incr. rewrite updZ_diff; [apply Hv; simpl; auto|]. intros ->. contradiction.
Qed.

Lemma countScope_ok l : NoDup l -> forall v, (forall x, In x l -> v x <> None) ->
  exists v', countScope l v = Some v' /\
    forall x, v' x = if memz x l then option_map (fun n => n + 1)%Z (v x) else v x.
Proof.
  induction l as [|u l IH]; intros Hn v Hv; simpl; [eauto|]. inversion Hn; subst.
  pose proof (Hv u (or_introl eq_refl)) as Hu. destruct (v u) as [n|] eqn:E; [|congruence].
  destruct (IH H2 (incr v u)) as (v' & E1 & E2).
  { intros x Hx. unfold incr. rewrite updZ_diff by (intros ->; contradiction). apply Hv. simpl; auto. }
  exists v'. split; auto. intros x. rewrite E2. unfold incr. simpl.
  destruct (Z.eqb_spec x u) as [->|Hne]; simpl.
  - assert (Em : memz u l = false) by (apply memz_false; auto). rewrite Em, updZ_same, E. auto.
  - rewrite updZ_diff by auto. reflexivity.
Qed.

Lemma countScope_none l x : In x l -> forall v, v x = None -> countScope l v = None.
Proof.
  induction l as [|u l IH]; intros Hx v Hv; [destruct Hx|]. simpl.
  destruct (v u) as [n|] eqn:E; auto. destruct Hx as [->|Hx]; [congruence|]. apply IH; auto.
  unfold incr. rewrite updZ_diff; auto. intros ->. congruence.
Qed.

Section Checks.
Variable sc : nat -> list Z.

Definition sumGo (n : nat) := fix go cs v {struct cs} :=
    match cs with
    | [] => Some v
    | c :: t =>
        if negb (Nat.eqb (length (sc c)) n) then None
        else match countScope (sc c) v with None => None | Some v' => go t v' end
    end.

Lemma incl_same_length (l s : list Z) : NoDup l -> length l = length s -> incl l s -> incl s l.
Proof. intros Hn HL Hi. apply NoDup_length_incl; auto. lia. Qed.

Lemma sumGo_spec s cs : (forall c, In c cs -> NoDup (sc c)) -> forall v k,
  NoDup s -> (forall x, v x = if memz x s then Some k else None) ->
  match sumGo (length s) cs v with
  | Some v' => (forall c, In c cs -> forall x, In x (sc c) <-> In x s) /\
       forall x, v' x = if memz x s then Some (k + Z.of_nat (length cs))%Z else None
  | None => ~ forall c, In c cs -> forall x, In x (sc c) <-> In x s
  end.
Proof.
  induction cs as [|c cs IH]; intros Hn v k Hs Hv; cbn [sumGo].
  - split; [intros c []|]. intros x. rewrite Hv. destruct (memz x s); auto. f_equal. simpl. lia.
  - destruct (Nat.eqb_spec (length (sc c)) (length s)) as [EL|NL]; cbn [negb].
    2:{ intros H. apply NL. pose proof (H c (or_introl eq_refl)) as H1.
        apply Permutation_length. apply NoDup_Permutation; auto. apply Hn; left; auto. }
    assert (Hc : NoDup (sc c)) by (apply Hn; left; auto).
    destruct (forallb (fun x => memz x s) (sc c)) eqn:EF.
    + rewrite forallb_forall in EF.
      assert (Hin : incl (sc c) s) by (intros x Hx; apply memz_In, EF; auto).
      assert (Hin' : incl s (sc c)) by (apply incl_same_length; auto).
      destruct (countScope_ok (sc c) Hc v) as (v' & -> & Ev').
      { intros x Hx. rewrite Hv, EF by auto. discriminate. }
      specialize (IH ltac:(intros; apply Hn; right; auto) v' (k + 1)%Z Hs).
      assert (Hv' : forall x, v' x = if memz x s then Some (k + 1)%Z else None).
      { intros x. rewrite Ev', Hv. destruct (memz x s) eqn:Ex.
        - assert (Em : memz x (sc c) = true) by (apply memz_In, Hin', memz_In; auto). rewrite Em. auto.
        - destruct (memz x (sc c)); auto. }
      specialize (IH Hv'). fold (sumGo (length s)). destruct (sumGo (length s) cs v') as [v''|].
      * destruct IH as [I1 I2]. split.
        -- intros d [<-|Hd]; auto. intros x. split; [apply Hin|apply Hin'].
        -- intros x. rewrite I2. destruct (memz x s); auto. f_equal. cbn [length]. lia.
      * intros H. apply IH. intros d Hd. apply H; right; auto.
    + assert (Hx : exists x, In x (sc c) /\ memz x s = false).
      { clear - EF. induction (sc c) as [|x l IHl]; [discriminate|]. simpl in EF.
        destruct (memz x s) eqn:E; simpl in EF.
        - destruct (IHl EF) as (y & H1 & H2). exists y. simpl; auto.
        - exists x. simpl; auto. }
      destruct Hx as (x & Hx & Ex). rewrite (countScope_none (sc c) x Hx) by (rewrite Hv, Ex; auto).
      intros H. apply memz_false in Ex. apply Ex. apply (H c (or_introl eq_refl)). auto.
Qed.

Definition prodGo := fix go cs v n {struct cs} :=
    match cs with
    | [] => Some (v, n)
    | c :: t => match countScope (sc c) v with
                | None => None
                | Some v' => go t v' (n - Z.of_nat (length (sc c)))%Z
                end
    end.

Definition occ (x : Z) (cs : list nat) : nat := length (filter (fun c => memz x (sc c)) cs).

Lemma prodGo_spec s cs : (forall c, In c cs -> NoDup (sc c)) -> (forall c, In c cs -> incl (sc c) s) ->
  forall v k n, (forall x, v x = if memz x s then Some (k x) else None) ->
  exists v', prodGo cs v n = Some (v', n - Z.of_nat (length (flat_map sc cs)))%Z /\
    forall x, v' x = if memz x s then Some (k x + Z.of_nat (occ x cs))%Z else None.
Proof.
  induction cs as [|c cs IH]; intros Hn Hi v k n Hv; cbn [prodGo].
  - exists v. split; [f_equal; f_equal; simpl; lia|]. intros x. rewrite Hv. destruct (memz x s); auto.
    f_equal. unfold occ. simpl. lia.
  - assert (Hc : NoDup (sc c)) by (apply Hn; left; auto).
    assert (Hin : incl (sc c) s) by (apply Hi; left; auto).
    destruct (countScope_ok (sc c) Hc v) as (v' & -> & Ev').
    { intros x Hx. rewrite Hv. apply Hin, memz_In in Hx. rewrite Hx. discriminate. }
    fold prodGo.
    destruct (IH ltac:(intros; apply Hn; right; auto) ltac:(intros; apply Hi; right; auto) v'
      (fun x => k x + if memz x (sc c) then 1 else 0)%Z (n - Z.of_nat (length (sc c)))%Z) as (v'' & -> & E'').
    { intros x. rewrite Ev', Hv. destruct (memz x s) eqn:Ex.
      - destruct (memz x (sc c)); auto. f_equal. lia.
      - destruct (memz x (sc c)); auto. }
    exists v''. split; [f_equal; f_equal; cbn [flat_map]; rewrite app_length; lia|].
    intros x. rewrite E''. destruct (memz x s); auto. f_equal. unfold occ. cbn [filter].
    destruct (memz x (sc c)); cbn [length]; lia.
Qed.

Lemma occ_pairwise s cs : (forall c, In c cs -> NoDup (sc c)) -> NoDup s ->
  (forall x, In x s <-> exists c, In c cs /\ In x (sc c)) ->
  ((forall x, In x s -> occ x cs = 1) /\ length (flat_map sc cs) = length s <->
   forall i j c c' x, i <> j -> nth_error cs i = Some c -> nth_error cs j = Some c' -> In x (sc c) -> ~ In x (sc c')).
Proof.
  intros Hn Hs Hu. split.
  - intros [H1 _] i j c c' x Hij Hi Hj Hx Hx'.
    assert (Hin : In x s) by (apply Hu; exists c; split; auto; eapply nth_error_In; eauto).
    specialize (H1 x Hin).
    assert (Two : forall l i j, i < j -> nth_error l i = Some c -> nth_error l j = Some c' -> 2 <= occ x l).
    { clear - Hx Hx'. apply memz_In in Hx, Hx'. intros l. induction l as [|d l IH]; intros i j Hij Hi Hj.
      - destruct i; discriminate.
      - destruct j as [|j]; [lia|]. simpl in Hj. destruct i as [|i]; simpl in Hi.
        + injection Hi as ->. unfold occ. simpl. rewrite Hx. simpl.
          apply nth_error_split in Hj as (l1 & l2 & -> & _). rewrite filter_app, app_length. simpl. rewrite Hx'. simpl. lia.
        + specialize (IH i j ltac:(lia) Hi Hj). unfold occ in *. simpl. destruct (memz x (sc d)); simpl; lia. }
    assert (Two' : forall l i j, i < j -> nth_error l i = Some c' -> nth_error l j = Some c -> 2 <= occ x l).
    { clear - Hx Hx'. apply memz_In in Hx, Hx'. intros l. induction l as [|d l IH]; intros i j Hij Hi Hj.
      - destruct i; discriminate.
      - destruct j as [|j]; [lia|]. simpl in Hj. destruct i as [|i]; simpl in Hi.
        + injection Hi as ->. unfold occ. simpl. rewrite Hx'. simpl.
          apply nth_error_split in Hj as (l1 & l2 & -> & _). rewrite filter_app, app_length. simpl. rewrite Hx. simpl. lia.
        + specialize (IH i j ltac:(lia) Hi Hj). unfold occ in *. simpl. destruct (memz x (sc d)); simpl; lia. }
    destruct (Nat.lt_ge_cases i j); [specialize (Two cs i j ltac:(auto) Hi Hj)|specialize (Two' cs j i ltac:(lia) Hj Hi)]; lia.
  - intros H.
    assert (X : forall l, (forall c, In c l -> NoDup (sc c)) ->
      (forall i j c c' x, i <> j -> nth_error l i = Some c -> nth_error l j = Some c' -> In x (sc c) -> ~ In x (sc c')) ->
      NoDup (flat_map sc l) /\ forall x, In x (flat_map sc l) -> occ x l = 1).
    { induction l as [|d l IH]; intros Hn' H'; simpl.
      - split; [constructor|]. intros x [].
      - destruct IH as [I1 I2].
        { intros; apply Hn'; right; auto. }
        { intros i j c c' x Hij Hi Hj. apply (H' (S i) (S j) c c' x); auto. }
        assert (Hdis : forall x, In x (sc d) -> ~ In x (flat_map sc l)).
        { intros x Hx Hf. apply in_flat_map in Hf as (c & Hc & Hxc). apply In_nth_error in Hc as (j & Hj).
          apply (H' 0 (S j) d c x); auto. }
        split.
        + clear - I1 Hdis Hn'. assert (Hd : NoDup (sc d)) by (apply Hn'; left; auto).
          induction (sc d) as [|y t IHt]; simpl; auto. inversion Hd; subst. constructor.
          * intros Hin. apply in_app_or in Hin as [Hin|Hin]; [contradiction|]. apply (Hdis y); simpl; auto.
          * apply IHt; auto. intros x Hx. apply Hdis; simpl; auto.
        + intros x Hx. unfold occ. simpl. destruct (memz x (sc d)) eqn:E.
          * apply memz_In in E. simpl. f_equal.
            assert (Ez : forall c, In c l -> memz x (sc c) = false).
            { intros c Hc. apply memz_false. intros Hxc. apply (Hdis x E). apply in_flat_map. eauto. }
            clear - Ez. induction l as [|c l IHl]; simpl; auto. rewrite Ez by (left; auto). apply IHl.
            intros; apply Ez; right; auto.
          * apply I2. apply in_app_or in Hx as [Hx|Hx]; auto. apply memz_In in Hx. congruence. }
    destruct (X cs Hn H) as [X1 X2]. split.
    + intros x Hx. apply X2. apply in_flat_map. apply Hu in Hx as (c & H1 & H2). eauto.
    + apply Permutation_length. apply NoDup_Permutation; auto. intros x. rewrite Hu, in_flat_map. tauto.
Qed.
End Checks.

Section Check2.
Context {A : arith}.
Variable net : network A.
Local Notation ch := (children net).

Lemma checkSum_spec sc s : NoDup (sc s) -> (forall c, In c (nch (net s)) -> NoDup (sc c)) ->
  (checkSum net sc s = true <-> forall c, In c (nch (net s)) -> forall x, In x (sc c) <-> In x (sc s)).
Proof.
  intros Hs Hc. unfold checkSum. fold (sumGo sc (length (sc s))).
  pose proof (sumGo_spec sc (sc s) (nch (net s)) Hc (fold_left incr (sc s) (fun _ => None)) 1%Z Hs) as H.
  specialize (H ltac:(intros x; rewrite incr_fold by auto; reflexivity)).
  destruct (sumGo sc (length (sc s)) (nch (net s)) _) as [v|].
  - destruct H as [H1 H2]. split; auto. intros _. apply forallb_forall. intros x Hx. rewrite H2.
    apply memz_In in Hx. rewrite Hx. apply Z.eqb_eq. lia.
  - split; [discriminate|]. intros H'. contradiction.
Qed.

Lemma checkProd_spec sc s : NoDup (sc s) -> (forall c, In c (nch (net s)) -> NoDup (sc c)) ->
  (forall x, In x (sc s) <-> exists c, In c (nch (net s)) /\ In x (sc c)) ->
  (checkProd net sc s = true <->
   forall i j c c' x, i <> j -> nth_error (nch (net s)) i = Some c -> nth_error (nch (net s)) j = Some c' ->
     In x (sc c) -> ~ In x (sc c')).
Proof.
  intros Hs Hc Hu. rewrite <- (occ_pairwise sc (sc s) (nch (net s)) Hc Hs Hu).
  unfold checkProd. fold (prodGo sc).
  destruct (prodGo_spec sc (sc s) (nch (net s)) Hc) with (v := fold_left incr (sc s) (fun _ : Z => @None Z))
     (k := fun _ : Z => 1%Z) (n := Z.of_nat (length (sc s))) as (v & E & Ev).
  { intros c Hin x Hx. apply Hu. eauto. }
  { intros x. rewrite incr_fold by auto. reflexivity. }
  rewrite E. rewrite andb_true_iff, forallb_forall, Z.eqb_eq. split.
  - intros [H1 H2]. split; [|lia]. intros x Hx. specialize (H1 x Hx). rewrite Ev in H1.
    apply memz_In in Hx. rewrite Hx in H1. apply Z.eqb_eq in H1. lia.
  - intros [H1 H2]. split; [|lia]. intros x Hx. rewrite Ev. pose proof (H1 x Hx) as H3.
    apply memz_In in Hx. rewrite Hx. apply Z.eqb_eq. lia.
Qed.

Lemma checkLoop_root r chk f : 2 <= f -> checkLoop net r chk f [r] [r] = Ok (chk r).
Proof.
  intros Hf. destruct f as [|[|f]]; try lia. cbn [checkLoop]. destruct (chk r); auto.
  assert (E : forall cs, fold_left (fun (QV : list nat * list nat) c =>
                 let (Q, V) := QV in
                 if negb (memn r V) && negb (isLeaf net c) then (Q ++ [c], c :: V) else QV) cs ([], [r]) = ([], [r])).
  { induction cs as [|c cs IH]; auto. cbn [fold_left]. simpl memn. rewrite Nat.eqb_refl. exact IH. }
  rewrite E. reflexivity.
Qed.

Variable ord : nat -> list Z -> list Z.
Hypothesis Hord : forall s l, Permutation (ord s l) l.

Lemma complete_root_l N r sc0 : bounded ch N -> r < N -> acyclic ch -> siblings_ok ch ->
  (forall v, reach ch r v -> ch v = [] -> NoDup (sc0 v)) ->
  exists b, complete_ net ord (2 * N + 1) r sc0 = Ok b /\
    (b = true <-> forall w c c' x, nk (net r) = KSum w -> In c (ch r) -> In c' (ch r) ->
       below ch sc0 c x -> below ch sc0 c' x).
Proof.
  intros Hb Hr Ha Hs Hlf. destruct (computeScope_l net ord Hord N r sc0 Hb Hr Ha Hs Hlf) as (sc & E & H1 & _).
  unfold complete_. rewrite E. cbn [bind]. rewrite checkLoop_root by lia. eexists. split; [reflexivity|].
  assert (Hc : forall c, In c (ch r) -> reach ch r c) by (intros; apply reach_child; auto).
  destruct (nk (net r)) as [w| |l] eqn:EK; try (split; auto; intros _; discriminate).
  rewrite checkSum_spec.
  - split.
    + intros H w' c c' x _ Hin Hin' Hx. apply (H1 c' (Hc c' Hin')). apply (H c' Hin'). apply (H c Hin).
      apply (H1 c (Hc c Hin)). auto.
    + intros H c Hin x.
      assert (Hu : In x (sc r) <-> exists d, In d (ch r) /\ In x (sc d)).
      { destruct (H1 r (reach_refl _ _)) as [_ Hx]. rewrite Hx, below_parent.
        - split; intros (d & Hd & Hdx); exists d; (split; [exact Hd|]); apply (H1 d (Hc d Hd)); auto.
        - intros E0. rewrite E0 in *. unfold children in E0. rewrite E0 in Hin. destruct Hin. }
      rewrite Hu. split.
      * intros Hx. exists c. auto.
      * intros (d & Hd & Hx). apply (H1 c (Hc c Hin)). apply (H w d c x); auto. apply (H1 d (Hc d Hd)). auto.
  - apply H1. apply reach_refl.
  - intros c Hin. apply H1. apply Hc. auto.
Qed.

Lemma decomposable_root_l N r sc0 : bounded ch N -> r < N -> acyclic ch -> siblings_ok ch ->
  (forall v, reach ch r v -> ch v = [] -> NoDup (sc0 v)) -> ch r <> [] ->
  exists b, decomposable_ net ord (2 * N + 1) r sc0 = Ok b /\
    (b = true <-> forall i j c c' x, nk (net r) = KProd -> i <> j -> nth_error (ch r) i = Some c ->
       nth_error (ch r) j = Some c' -> below ch sc0 c x -> ~ below ch sc0 c' x).
Proof.
  intros Hb Hr Ha Hs Hlf Hne. destruct (computeScope_l net ord Hord N r sc0 Hb Hr Ha Hs Hlf) as (sc & E & H1 & _).
  unfold decomposable_. rewrite E. cbn [bind]. rewrite checkLoop_root by lia. eexists. split; [reflexivity|].
  assert (Hc : forall c, In c (ch r) -> reach ch r c) by (intros; apply reach_child; auto).
  assert (Hx : forall c x, In c (ch r) -> (In x (sc c) <-> below ch sc0 c x)) by (intros c x Hin; apply (H1 c (Hc c Hin))).
  destruct (nk (net r)) as [w| |l] eqn:EK; try (split; auto; intros _; discriminate).
  rewrite checkProd_spec.
  - split.
    + intros H i j c c' x _ Hij Hi Hj Hb1 Hb2. apply (H i j c c' x Hij Hi Hj).
      * apply Hx; auto. eapply nth_error_In; eauto.
      * apply Hx; auto. eapply nth_error_In; eauto.
    + intros H i j c c' x Hij Hi Hj Hb1 Hb2. apply (H i j c c' x eq_refl Hij Hi Hj).
      * apply Hx; auto. eapply nth_error_In; eauto.
      * apply Hx; auto. eapply nth_error_In; eauto.
  - apply H1. apply reach_refl.
  - intros c Hin. apply H1. apply Hc. auto.
  - intros x. destruct (H1 r (reach_refl _ _)) as [_ Hxr]. rewrite Hxr, below_parent by auto.
    split; intros (d & Hd & Hdx); exists d; (split; [exact Hd|]); apply (Hx d x); auto.
Qed.
End Check2.

(** Heights. *)
Lemma path_cons ch u c v n : In c (ch u) -> path_len ch c v n -> path_len ch u v (S n).
Proof.
  intros Hc H. induction H as [x|x y d n H IH Hd].
  - eapply path_len_S; eauto. constructor.
  - eapply path_len_S; eauto.
Qed.

Lemma path_uncons ch u v n : path_len ch u v (S n) -> exists c, In c (ch u) /\ path_len ch c v n.
Proof.
  revert v. induction n as [|n IH]; intros v H; inversion H as [|? y ? ? Hy Hc]; subst.
  - inversion Hy; subst. exists v. split; auto. constructor.
  - destruct (IH _ Hy) as (c & Hin & Hp). exists c. split; auto. eapply path_len_S; eauto.
Qed.

Lemma path_reach ch u v n : path_len ch u v n -> reach ch u v.
Proof. intros H. induction H; [apply reach_refl|]. eapply reach_snoc; eauto. Qed.

Lemma reach_path ch u v : reach ch u v -> exists n, path_len ch u v n.
Proof.
  intros H. induction H as [|x c y Hc _ (n & IH)]; [exists 0; constructor|]. exists (S n). eapply path_cons; eauto.
Qed.

Section Height.
Context {A : arith}.
Variable net : network A.
Local Notation ch := (children net).

Lemma max_fold f cs : forall v0 i, (forall c, In c cs -> exists h, height net f c = Ok h /\ longest ch c h) ->
  exists v, foldi_from i (fun _ v c => t <- height net f c; Ok (if Nat.ltb v t then t else v)) cs v0 = Ok v /\
    v0 <= v /\ (forall c x n, In c cs -> path_len ch c x n -> n <= v) /\
    (v = v0 \/ exists c x, In c cs /\ path_len ch c x v).
Proof.
  induction cs as [|c cs IH]; intros v0 i H; cbn [foldi_from].
  - exists v0. split; auto. split; auto. split; auto. intros c x n [].
  - destruct (H c (or_introl eq_refl)) as (h & E & (x & Hx) & Hmax). rewrite E. cbn [bind].
    destruct (IH (if Nat.ltb v0 h then h else v0) (i + 1) ltac:(intros; apply H; right; auto)) as (v & Ev & H1 & H2 & H3).
    exists v. split; auto. destruct (Nat.ltb_spec v0 h).
    + split; [lia|]. split.
      * intros d y n [<-|Hd] Hp; [apply Hmax in Hp; lia|eauto].
      * right. destruct H3 as [->|(d & y & Hd & Hp)]; [exists c, x|exists d, y]; simpl; auto.
    + split; [lia|]. split.
      * intros d y n [<-|Hd] Hp; [apply Hmax in Hp; lia|eauto].
      * destruct H3 as [->|(d & y & Hd & Hp)]; auto. right. exists d, y. simpl; auto.
Qed.

Lemma height_l N r : bounded ch N -> r < N -> acyclic ch ->
  forall u f, reach ch r u -> N <= f -> exists h, height net f u = Ok h /\ longest ch u h.
Proof.
  intros Hb Hr Ha u f. revert f u.
  apply (fuel_ind ch N r (fun f u => exists h, height net f u = Ok h /\ longest ch u h) Hb Hr Ha).
  intros f u Hu IH. cbn [height]. destruct (nch (net u)) as [|c0 cs] eqn:EC.
  - exists 0. split; auto. split; [exists u; constructor|]. intros v [|n] H; auto.
    apply path_uncons in H as (c & Hc & _). unfold children in Hc. rewrite EC in Hc. destruct Hc.
  - destruct (max_fold f (c0 :: cs) 0 0) as (v & E & H1 & H2 & H3).
    { intros c Hc. apply IH. unfold children. rewrite EC. auto. }
    unfold foldi. rewrite E. cbn [bind]. exists (S v). split; auto.
    assert (EC' : ch u = c0 :: cs) by exact EC. split.
    + destruct H3 as [->|(c & x & Hc & Hp)].
      * exists c0. eapply path_cons; [rewrite EC'; left; auto|]. constructor.
      * exists x. eapply path_cons; [rewrite EC'; eauto|auto].
    + intros x [|n] Hp; [lia|]. apply path_uncons in Hp as (c & Hc & Hp). rewrite EC' in Hc.
      specialize (H2 c x n Hc Hp). lia.
Qed.

(** ComputeHeight. *)
Record hinv (r : nat) (T D : list nat) (V : nat -> option nat) (h : nat) : Prop := {
  hi_nd : NoDup (T ++ D);
  hi_dom : forall u, V u <> None <-> In u (T ++ D);
  hi_path : forall u n, V u = Some n -> path_len ch r u n;
  hi_closed : forall u c, In u D -> In c (ch u) -> V c <> None;
  hi_max : forall u n, In u D -> isLeaf net u = true -> V u = Some n -> n <= h;
  hi_att : h = 0 \/ exists u, path_len ch r u h;
  hi_root : V r <> None }.

Lemma heightPush r s n cs : (forall c, In c cs -> In c (ch s)) -> path_len ch r s n ->
  forall T V, V s = Some n ->
  exists T2 V2, fold_left (fun (TV : list nat * (nat -> option nat)) c =>
               let (T, V) := TV in
               match V c with
               | Some _ => TV
               | None => (c :: T, upd V c (Some (S (match V s with Some n => n | None => O end))))
               end) cs (T, V) = (T2 ++ T, V2) /\
    NoDup T2 /\ (forall u, In u T2 -> V u = None) /\
    (forall u, V2 u <> None <-> V u <> None \/ In u T2) /\
    (forall u, V u <> None -> V2 u = V u) /\
    (forall u m, In u T2 -> V2 u = Some m -> path_len ch r u m) /\
    (forall c, In c cs -> V2 c <> None).
Proof.
  intros Hcs Hp. revert Hcs. induction cs as [|c cs IH]; intros Hcs T V Hs; cbn [fold_left].
  - exists [], V. split; auto. split; [constructor|]. split; [intros u []|]. split; [simpl; tauto|].
    split; auto. split; [intros u m []|]. intros c [].
  - destruct (V c) as [m|] eqn:Ec.
    + destruct (IH ltac:(intros; apply Hcs; right; auto) T V Hs) as (T2 & V2 & E & H1 & H2 & H3 & H4 & H5 & H6).
      exists T2, V2. split; auto. split; auto. split; auto. split; auto. split; auto. split; auto.
      intros d [<-|Hd]; auto. apply H3. left. congruence.
    + rewrite Hs. assert (Hcs' : c <> s) by (intros ->; congruence).
      destruct (IH ltac:(intros; apply Hcs; right; auto) (c :: T) (upd V c (Some (S n)))) as (T2 & V2 & E & H1 & H2 & H3 & H4 & H5 & H6).
      { rewrite upd_diff; auto. }
      exists (T2 ++ [c]), V2. rewrite <- app_assoc. split; auto.
      assert (HcT : ~ In c T2) by (intros Hin; apply H2 in Hin; rewrite upd_same in Hin; discriminate).
      assert (Hold : forall u, In u T2 -> u <> c /\ V u = None).
      { intros u Hu. assert (u <> c) by (intros ->; contradiction). split; auto. apply H2 in Hu. rewrite upd_diff in Hu; auto. }
      split; [|split; [|split; [|split; [|split]]]].
      * clear - H1 HcT. induction T2 as [|y t IHt]; simpl; [constructor; auto; constructor|].
        inversion H1; subst. constructor.
        -- rewrite in_app_iff. simpl. intros [Hin|[->|[]]]; auto. apply HcT. left; auto.
        -- apply IHt; auto. intros Hin. apply HcT. right; auto.
      * intros u Hu. apply in_app_or in Hu as [Hu|[<-|[]]]; auto. apply Hold; auto.
      * intros u. rewrite H3, in_app_iff. simpl. destruct (Nat.eq_dec u c) as [->|Hn].
        -- rewrite upd_same. split; auto. intros _. left; discriminate.
        -- rewrite upd_diff by auto. intuition; subst; contradiction.
      * intros u Hu. assert (u <> c) by (intros ->; congruence). rewrite H4; [apply upd_diff; auto|].
        rewrite upd_diff by auto. auto.
      * intros u m Hu Em. apply in_app_or in Hu as [Hu|[<-|[]]]; auto.
        rewrite H4, upd_same in Em by (rewrite upd_same; discriminate). injection Em as <-.
        eapply path_len_S; eauto. apply Hcs; left; auto.
      * intros d [<-|Hd]; auto. rewrite H4; rewrite upd_same; discriminate.
Qed.

Lemma heightLoop_l N r : bounded ch N -> r < N ->
  forall f T D V h, hinv r T D V h -> N - length D < f ->
  exists h' D' V', heightLoop net f T V h = Ok h' /\ hinv r [] D' V' h'.
Proof.
  intros Hb Hr. induction f as [|f IH]; intros T D V h HI Hf; [lia|]. cbn [heightLoop].
  destruct T as [|s T].
  - exists h, D, V. auto.
  - assert (HsV : V s <> None) by (apply (hi_dom _ _ _ _ _ HI); left; auto).
    assert (HsD : ~ In s D).
    { pose proof (hi_nd _ _ _ _ _ HI) as Hn. simpl in Hn. inversion Hn; subst. intros Hin. apply H1. apply in_or_app; auto. }
    destruct (V s) as [n|] eqn:Es; [|congruence].
    pose proof (hi_path _ _ _ _ _ HI s n Es) as Hpath.
    assert (Hlen : length ((s :: T) ++ D) <= N).
    { apply nodup_bound; [apply (hi_nd _ _ _ _ _ HI)|]. intros x Hx. apply (hi_dom _ _ _ _ _ HI) in Hx.
      destruct (V x) as [m|] eqn:Ex; [|congruence]. apply (hi_path _ _ _ _ _ HI) in Ex. apply path_reach in Ex.
      eapply SpnLemmas.reach_bounded; eauto. }
    destruct (heightPush r s n (nch (net s)) ltac:(auto) Hpath T V Es) as (T2 & V2 & E & H1 & H2 & H3 & H4 & H5 & H6).
    rewrite E. set (h' := if isLeaf net s && Nat.ltb h n then n else h).
    apply (IH (T2 ++ T) (s :: D) V2 h').
    + assert (Hold : forall u, In u (T2 ++ T) \/ In u (s :: D) <-> V u <> None \/ In u T2).
      { intros u. rewrite in_app_iff, (hi_dom _ _ _ _ _ HI u), in_app_iff. simpl. tauto. }
      constructor.
      * pose proof (hi_nd _ _ _ _ _ HI) as Hn.
        assert (Hp : Permutation ((T2 ++ T) ++ s :: D) (T2 ++ (s :: T) ++ D)).
        { rewrite <- app_assoc. apply Permutation_app_head. simpl. symmetry. apply Permutation_middle. }
        eapply Permutation_NoDup; [symmetry; exact Hp|].
        clear - Hn H1 H2 HI. assert (Hdis : forall u, In u T2 -> ~ In u ((s :: T) ++ D)).
        { intros u Hu Hin. apply (hi_dom _ _ _ _ _ HI) in Hin. apply H2 in Hu. congruence. }
        clear HI H2. induction T2 as [|y t IHt]; simpl; auto. inversion H1; subst. constructor.
        -- intros Hin. apply in_app_or in Hin as [Hin|Hin]; [contradiction|]. apply (Hdis y); simpl; auto.
        -- apply IHt; auto. intros u Hu. apply Hdis; right; auto.
      * intros u. rewrite H3, in_app_iff, Hold. tauto.
      * intros u m Em. destruct (V u) as [m'|] eqn:Eu.
        -- rewrite H4, Eu in Em by congruence. injection Em as <-. eapply hi_path; eauto.
        -- assert (HV2 : V2 u <> None) by congruence. apply H3 in HV2 as [HV2|HV2]; [congruence|]. eapply H5; eauto.
      * intros u c [<-|Hu] Hc; auto. rewrite H4; eapply hi_closed; eauto.
      * intros u m [<-|Hu] Hl Em.
        -- rewrite H4, Es in Em by congruence. injection Em as <-. unfold h'. rewrite Hl. simpl.
           destruct (Nat.ltb_spec h n); lia.
        -- assert (Hm : m <= h).
           { eapply (hi_max _ _ _ _ _ HI); eauto. rewrite <- H4; auto.
             apply (hi_dom _ _ _ _ _ HI). apply in_or_app; auto. }
           unfold h'. destruct (isLeaf net s); simpl; auto. destruct (Nat.ltb_spec h n); lia.
      * unfold h'. destruct (isLeaf net s && Nat.ltb h n); [right; eauto|apply (hi_att _ _ _ _ _ HI)].
      * rewrite H4; apply (hi_root _ _ _ _ _ HI).
    + simpl in *. rewrite app_length in Hlen. lia.
Qed.

Lemma computeHeight_l N r : bounded ch N -> r < N -> acyclic ch -> uniform_depth ch r ->
  (forall v, reach ch r v -> ch v = [] -> isLeaf net v = true) ->
  exists h, computeHeight net (S N) r = Ok h /\ longest ch r h.
Proof.
  intros Hb Hr Ha Hu Hl. unfold computeHeight.
  destruct (heightLoop_l N r Hb Hr (S N) [r] [] (upd (fun _ => None) r (Some 0)) 0) as (h & D & V & E & HI).
  - constructor.
    + simpl. constructor; auto. constructor.
    + intros u. destruct (Nat.eq_dec u r) as [->|Hn].
      * rewrite upd_same. simpl. split; auto. discriminate.
      * rewrite upd_diff by auto. simpl. intuition.
    + intros u n. destruct (Nat.eq_dec u r) as [->|Hn].
      * rewrite upd_same. intros E; injection E as <-. constructor.
      * rewrite upd_diff by auto. discriminate.
    + intros u c [].
    + intros u n [].
    + auto.
    + rewrite upd_same. discriminate.
  - simpl. lia.
  - exists h. split; auto. destruct HI as [H1 H2 H3 H4 H5 H6 H7]. simpl in H2.
    destruct (height_l N r Hb Hr Ha r N (reach_refl _ _) (le_n N)) as (H & _ & (v & Hv) & Hmax).
    assert (Hall : forall u, reach ch r u -> V u <> None).
    { intros u Hru. apply (reach_closed ch (fun u => V u <> None)) with (2 := Hru); auto.
      intros x c Hx Hc. eapply H4; eauto. apply H2; auto. }
    assert (EH : H = h); [|subst H; split; eauto].
    assert (Hh : h <= H) by (destruct H6 as [->|(u & Hp)]; [lia|eauto]).
    assert (Hch : ch v = []).
    { destruct (ch v) as [|c t] eqn:Ec; auto. exfalso.
      assert (Hp : path_len ch r c (S H)) by (eapply path_len_S; eauto; rewrite Ec; left; auto).
      apply Hmax in Hp. lia. }
    pose proof (path_reach _ _ _ _ Hv) as Hrv. pose proof (Hall v Hrv) as HV.
    destruct (V v) as [n|] eqn:En; [|congruence].
    assert (n = H) by (eapply Hu; eauto). subst n.
    assert (H <= h) by (eapply H5; eauto; apply H2; congruence). lia.
Qed.
End Height.

Lemma tree_uniform ch r : tree ch r -> uniform_depth ch r.
Proof.
  intros (H1 & H2 & H3) u n. revert u. induction n as [|n IH]; intros u m Hn Hm.
  - inversion Hn; subst. inversion Hm; subst; auto. exfalso. eapply H1; eauto.
  - inversion Hn as [|? y ? ? Hy Hc]; subst. inversion Hm as [|? y' ? k Hy' Hc']; subst.
    + exfalso. eapply H1; eauto.
    + assert (y = y') by (eapply H3; eauto). subst y'. f_equal. eapply IH; eauto.
Qed.

Lemma graded_uniform ch r lev : graded ch lev -> uniform_depth ch r.
Proof.
  intros Hg u n m Hn Hm.
  assert (X : forall u n, path_len ch r u n -> lev u = n + lev r).
  { intros x k H. remember r as s eqn:Es. induction H as [|x y c k H IH Hc]; auto. rewrite (Hg _ _ Hc), IH; auto. }
  apply X in Hn, Hm. lia.
Qed.

(** Normalisation over the reals. *)
Section Norm.
Local Open Scope R_scope.

Definition Rmin0 (ws : list R) : R := fold_left (fun m u => if Rlt_dec u m then u else m) ws 0.

Lemma minBelow0_l ws : @minBelow0 XR (map Fin ws) = Fin (Rmin0 ws).
Proof.
  assert (X : forall ws m, fold_left (fun m u => if xgt m u then u else m) (map Fin ws) (Fin m) =
     Fin (fold_left (fun m u => if Rlt_dec u m then u else m) ws m)).
  { induction ws0 as [|w ws0 IH]; intros m; auto. cbn [map fold_left xgt]. destruct (Rlt_dec w m); apply IH. }
  exact (X ws 0).
Qed.

Lemma Rmin0_spec ws : Rmin0 ws <= 0 /\ (forall w, In w ws -> Rmin0 ws <= w) /\ (Rmin0 ws = 0 \/ In (Rmin0 ws) ws).
Proof.
  assert (X : forall ws m, let r := fold_left (fun m u => if Rlt_dec u m then u else m) ws m in
     r <= m /\ (forall w, In w ws -> r <= w) /\ (r = m \/ In r ws)).
  { induction ws0 as [|w ws0 IH]; intros m; simpl.
    - split; [lra|]. split; auto. intros w [].
    - destruct (Rlt_dec w m) as [Hl|Hl].
      + destruct (IH w) as (H1 & H2 & H3). split; [lra|]. split.
        * intros x [<-|Hx]; auto.
        * right. destruct H3 as [-> |H3]; auto.
      + destruct (IH m) as (H1 & H2 & H3). split; [lra|]. split.
        * intros x [<-|Hx]; auto. lra.
        * destruct H3 as [H3|H3]; auto. }
  apply X.
Qed.

Lemma divBySum_l ws : Rsum ws <> 0 -> @divBySum XR (map Fin ws) = map Fin (map (fun x => x / Rsum ws) ws).
Proof.
  intros Hs.
  assert (X : forall ws a, fold_left xadd (map Fin ws) (Fin a) = Fin (a + Rsum ws)).
  { induction ws0 as [|w ws0 IH]; intros a; simpl; [f_equal; lra|]. rewrite IH. f_equal. lra. }
  change (map (fun x => xdiv x (fold_left xadd (map Fin ws) (Fin 0))) (map Fin ws) = map Fin (map (fun x => x / Rsum ws) ws)).
  rewrite X, Rplus_0_l, !map_map. apply map_ext. intros w. unfold xdiv.
  destruct (Req_EM_T (Rsum ws) 0); [contradiction|auto].
Qed.

Lemma div_normalised ws : (forall w, In w ws -> 0 <= w) -> 0 < Rsum ws ->
  normalised_like ws (map (fun x => x / Rsum ws) ws).
Proof.
  intros Hn Hs. split; [apply map_length|]. split; [|split].
  - intros q Hq. apply in_map_iff in Hq as (w & <- & Hw). apply Rmult_le_pos; auto.
    left. apply Rinv_0_lt_compat; auto.
  - rewrite (Rsum_ext _ (fun x => / Rsum ws * x)) by (intros; unfold Rdiv; lra).
    pose proof (Rsum_scal (/ Rsum ws) ws) as E. change (map (Rmult (/ Rsum ws)) ws) with (map (fun x => / Rsum ws * x) ws) in E.
    rewrite E. field. lra.
  - intros i j wi wj qi qj Hi Hj Hqi Hqj. rewrite nth_error_map, Hi in Hqi. rewrite nth_error_map, Hj in Hqj.
    simpl in Hqi, Hqj. injection Hqi as <-. injection Hqj as <-.
    pose proof (Rinv_0_lt_compat _ Hs). unfold Rdiv. split; intros H1.
    + apply Rmult_le_compat_r; lra.
    + apply Rmult_le_reg_r in H1; auto.
Qed.

Lemma Rmin0_zero ws : (forall w, In w ws -> 0 <= w) -> Rmin0 ws = 0.
Proof.
  intros H. destruct (Rmin0_spec ws) as (H1 & _ & [H2|H2]); auto. specialize (H _ H2). lra.
Qed.

Lemma norm_l ws : (forall w, In w ws -> 0 <= w) -> 0 < Rsum ws ->
  exists qs, @norm XR (map Fin ws) = map Fin qs /\ normalised_like ws qs.
Proof.
  intros Hn Hs. exists (map (fun x => x / Rsum ws) ws). split; [|apply div_normalised; auto].
  unfold norm. rewrite minBelow0_l, Rmin0_zero by auto. cbn [fgt fz XR xgt].
  destruct (Rlt_dec 0 0); [lra|]. apply divBySum_l. lra.
Qed.

Lemma normalised_shift ws m qs : normalised_like (map (fun x => x - m) ws) qs -> normalised_like ws qs.
Proof.
  intros (H1 & H2 & H3 & H4). rewrite map_length in H1. split; auto. split; auto. split; auto.
  intros i j wi wj qi qj Hi Hj Hqi Hqj.
  specialize (H4 i j (wi - m) (wj - m) qi qj). rewrite !nth_error_map, Hi, Hj in H4.
  specialize (H4 eq_refl eq_refl Hqi Hqj). rewrite <- H4. split; lra.
Qed.

Lemma Rsum_pos_ex ws : (forall w, In w ws -> 0 <= w) -> (exists w, In w ws /\ 0 < w) -> 0 < Rsum ws.
Proof. intros Hn (w & Hw & H). pose proof (Rsum_ge_elem ws w Hn Hw). lra. Qed.

Lemma normalize_l ws : (exists w, In w ws /\ 0 < w) \/ (exists w w', In w ws /\ In w' ws /\ w <> w') ->
  exists qs, @normalize XR (map Fin ws) = map Fin qs /\ normalised_like ws qs.
Proof.
  intros H. destruct (Rmin0_spec ws) as (H1 & H2 & H3). set (m := Rmin0 ws) in *.
  assert (Hn : forall x, In x (map (fun x => x - m) ws) -> 0 <= x).
  { intros x Hx. apply in_map_iff in Hx as (w & <- & Hw). specialize (H2 w Hw). lra. }
  assert (Hs : 0 < Rsum (map (fun x => x - m) ws)).
  { apply Rsum_pos_ex; auto. destruct H as [(w & Hw & Hp)|(w & w' & Hw & Hw' & Hne)].
    - exists (w - m). split; [apply in_map_iff; eauto|lra].
    - pose proof (H2 w Hw). pose proof (H2 w' Hw'). destruct (Req_dec w m) as [->|E].
      + exists (w' - m). split; [apply in_map_iff; eauto|lra].
      + exists (w - m). split; [apply in_map_iff; eauto|lra]. }
  exists (map (fun x => x / Rsum (map (fun x => x - m) ws)) (map (fun x => x - m) ws)). split.
  2:{ eapply normalised_shift. apply div_normalised; eauto. }
  unfold normalize. rewrite minBelow0_l. fold m. cbn [fgt fz fsub XR xgt].
  assert (E : (if (if Rlt_dec m 0 then true else false) then map (fun x => xsub x (Fin m)) (map Fin ws) else map Fin ws)
     = map Fin (map (fun x => x - m) ws)).
  { destruct (Rlt_dec m 0).
    - rewrite !map_map. apply map_ext. intros; reflexivity.
    - assert (E0 : m = 0) by lra. rewrite E0, map_map. apply map_ext. intros w. f_equal. lra. }
  etransitivity; [|apply divBySum_l; lra]. rewrite <- E. reflexivity.
Qed.

Lemma norm_refuted_l : exists ws qs, @norm XR (map Fin ws) = map Fin qs /\
  (exists w, In w ws /\ 0 < w) /\ (exists q, In q qs /\ q < 0) /\
  exists wi wj qi qj, nth_error ws 0 = Some wi /\ nth_error ws 1 = Some wj /\ nth_error qs 0 = Some qi /\
    nth_error qs 1 = Some qj /\ wi < wj /\ qj < qi.
Proof.
  exists [-1; 2], [2; -1]. split; [|split; [|split]].
  - unfold norm. rewrite minBelow0_l.
    assert (Em : Rmin0 [-1; 2] = -1).
    { unfold Rmin0. simpl. destruct (Rlt_dec (-1) 0); [|lra]. destruct (Rlt_dec 2 (-1)); lra. }
    rewrite Em. cbn [fgt fz fadd XR xgt]. destruct (Rlt_dec (-1) 0); [|lra].
    etransitivity; [apply (divBySum_l [-1 + -1; 2 + -1]); simpl; lra|]. simpl. f_equal; [|f_equal]; f_equal; field; lra.
  - exists 2. simpl. split; auto. lra.
  - exists (-1). simpl. split; auto. lra.
  - exists (-1), 2, 2, (-1). simpl. repeat split; auto; lra.
Qed.

Lemma normalize_refuted_l : exists ws, ws <> [] /\ @normalize XR (map Fin ws) = [NaN; NaN].
Proof.
  exists [0; 0]. split; [discriminate|]. unfold normalize. rewrite minBelow0_l, Rmin0_zero.
  2:{ intros w [<-|[<-|[]]]; lra. }
  cbn [fgt fz XR xgt]. destruct (Rlt_dec 0 0); [lra|]. unfold divBySum. simpl.
  replace (0 + 0 + 0) with 0 by lra. destruct (Req_EM_T 0 0); [|lra]. unfold xsign.
  destruct (Rlt_dec 0 0); [lra|]. reflexivity.
Qed.
End Norm.

(** NormalizeSPN visits every node once. *)
Lemma normalizeSPN_struct {A : arith} (net : network A) N r : bounded (children net) N -> r < N ->
  exists net', normalizeSPN net (S N) r = Ok net' /\
    (forall u, reach (children net) r u ->
       net' u = match nk (net u) with KSum w => mkNode (KSum (norm w)) (nch (net u)) | _ => net u end) /\
    (forall u, ~ reach (children net) r u -> net' u = net u).
Proof.
  intros Hb Hr. destruct (walk_fold (children net) UseQueue N r Hb Hr) as (calls & _ & (Hn & He) & HW).
  unfold normalizeSPN. rewrite HW.
  destruct (foldr_inv normNode (fun a net' => (forall u, In u a ->
       net' u = match nk (net u) with KSum w => mkNode (KSum (norm w)) (nch (net u)) | _ => net u end) /\
       forall u, ~ In u a -> net' u = net u) calls net) as (net' & E & H1 & H2).
  - split; auto. intros u [].
  - intros a x b s E [H1 H2]. unfold normNode. eexists. split; [reflexivity|].
    assert (Hx : ~ In x a).
    { rewrite E in Hn. intros Hin. apply NoDup_remove_2 in Hn. apply Hn. apply in_or_app; auto. }
    rewrite (H2 x Hx). split.
    + intros u Hu. apply in_app_or in Hu as [Hu|[<-|[]]].
      * assert (u <> x) by (intros ->; contradiction). destruct (nk (net x)); try rewrite upd_diff by auto; auto.
      * destruct (nk (net x)) eqn:EK; try (rewrite H2; auto; fail). apply upd_same.
    + intros u Hu. rewrite in_app_iff in Hu. simpl in Hu. assert (u <> x) by (intros ->; intuition).
      destruct (nk (net x)); try rewrite upd_diff by auto; auto.
  - exists net'. split; auto. split; intros u Hu; [apply H1|apply H2; intros Hin; apply Hu]; apply He; auto.
Qed.

Lemma normalizeSPN_l (net : network XR) N r : bounded (children net) N -> r < N ->
  weights_nonneg net r ->
  (forall u ws, reach (children net) r u -> nk (net u) = @KSum XR (map Fin ws) -> (0 < Rsum ws)%R) ->
  exists net', normalizeSPN net (S N) r = Ok net' /\
    (forall u, children net' u = children net u) /\
    (forall u ws, reach (children net) r u -> nk (net u) = @KSum XR (map Fin ws) ->
       exists qs, nk (net' u) = @KSum XR (map Fin qs) /\ normalised_like ws qs) /\
    (forall u, (~ reach (children net) r u \/ forall w, nk (net u) <> KSum w) -> net' u = net u).
Proof.
  intros Hb Hr HW Hp. destruct (normalizeSPN_struct net N r Hb Hr) as (net' & E & H1 & H2).
  exists net'. split; auto.
  destruct (walk_fold (children net) UseQueue N r Hb Hr) as (calls & _ & (Hn & He) & _).
  assert (Hdec : forall u, reach (children net) r u \/ ~ reach (children net) r u).
  { intros u. destruct (in_dec Nat.eq_dec u calls) as [Hin|Hin]; rewrite He in Hin; auto. }
  split; [|split].
  - intros u. unfold children. destruct (Hdec u) as [Hu|Hu]; [rewrite H1 by auto|rewrite H2 by auto; auto].
    destruct (nk (net u)); auto.
  - intros u ws Hu EK. destruct (HW u _ Hu EK) as (_ & ws' & Ew & _ & Hnn).
    assert (ws' = ws).
    { clear - Ew. revert ws' Ew. induction ws as [|a l IH]; intros [|b l'] E; simpl in E; try discriminate; auto.
      injection E as -> E. f_equal. apply IH; auto. }
    subst ws'. destruct (norm_l ws Hnn (Hp u ws Hu EK)) as (qs & Eq & Hq). exists qs. split; auto.
    rewrite H1, EK by auto. cbn [nk]. f_equal. exact Eq.
  - intros u [Hu|Hu]; auto. destruct (Hdec u) as [Hr'|Hr']; auto. rewrite H1 by auto.
    destruct (nk (net u)) eqn:EK; auto. exfalso. eapply Hu; eauto.
Qed.
