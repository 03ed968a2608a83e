(** Concrete clusterings. *)
From Coq Require Import Relations Permutation.
From Verif Require Import Base Res Arith GoMap Tables TablesSpec DataSpec Cluster ClusterSpec ClusterMedoids Dbscan.

(** Integer arithmetic with rounded-down square roots. *)
Definition ZS : arith := mkArith Z (fun z => z) (-1)%Z Z.add Z.sub Z.mul Z.div (fun z => z) (fun z => z) (fun z => z) Z.sqrt
  Z.gtb Z.geb Z.eqb (fun _ => false).

(** Draws 0, 1, 2, ... *)
Definition draws (c n : nat) : nat := c mod n.
Definition asIs {T} (m : T) : T := m.

Definition four : list (list Z) := [[0; 0]; [1; 1]; [0; 1]; [1; 0]]%Z.
Definition four_clusters : list (list (nat * list Z)) := [[(0, [0; 0]%Z); (2, [0; 1]%Z); (3, [1; 0]%Z)]; [(1, [1; 1]%Z)]].
Lemma four_modes : kMode draws 50 2 four = Ok four_clusters.
Proof. vm_compute. reflexivity. Qed.
Lemma four_medoids : kMedoid draws asIs 50 2 four = Ok four_clusters.
Proof. vm_compute. reflexivity. Qed.
Lemma twins_medoids : kMedoid draws asIs 50 2 [[1; 1]; [1; 1]]%Z = Panic.
Proof. vm_compute. reflexivity. Qed.

(** Points on a line. *)
Definition line : list (list Z) := [[0]; [1]; [2]; [3]]%Z.
Lemma line_chain : @dbscan ZS 50 line 1%Z 1%Z = Ok [[(1, [1]%Z); (0, [0]%Z); (2, [2]%Z); (3, [3]%Z)]].
Proof. vm_compute. reflexivity. Qed.
Definition two_apart : list (list Z) := [[0]; [1]; [7]; [8]]%Z.
Lemma two_pairs : @dbscan ZS 50 two_apart 1%Z 1%Z = Ok [[(1, [1]%Z); (0, [0]%Z)]; [(3, [8]%Z); (2, [7]%Z)]].
Proof. vm_compute. reflexivity. Qed.

Lemma line_core : exists C, @dbscan ZS 50 line 1%Z 2%Z = Ok C /\ ~ together C 2 3 /\
  @within ZS 1%Z line 2 1 /\ @within ZS 1%Z line 2 3.
Proof.
  eexists. split; [vm_compute; reflexivity|]. split.
  - intros (cl & x & y & Hcl & Hx & Hy). simpl in Hcl.
    destruct Hcl as [<-|[<-|[]]]; simpl in Hx, Hy; intuition congruence.
  - split; (eexists; eexists; split; [reflexivity|]; split; [reflexivity|]; split; [discriminate|reflexivity]).
Qed.

(** One variable, two instances. *)
Definition pairOf : list gmap := [[(5, 0)]; [(5, 1)]]%Z.
Lemma pair_panics : @dbscanData ZS (fun z => z) (fun _ m => m) 50 pairOf 1%Z 1%Z = Panic.
Proof. vm_compute. reflexivity. Qed.
Definition tripleOf : list gmap := [[(5, 0)]; [(5, 1)]; [(5, 2)]]%Z.
Lemma triple_returns : @dbscanData ZS (fun z => z) (fun _ m => m) 50 tripleOf 1%Z 2%Z = Ok [tripleOf].
Proof. vm_compute. reflexivity. Qed.

(** Five rows of which one ends up in the wrong cluster; the draws start with 4 and 0. *)
Definition five : list (list Z) := [[1; 2]; [0; 0]; [2; 2]; [0; 0]; [1; 2]]%Z.
Definition from4 (c n : nat) : nat := (c + 4) mod n.
Definition five_clusters : list (list (nat * list Z)) :=
  [[(1, [0; 0]%Z); (2, [2; 2]%Z); (3, [0; 0]%Z)]; [(0, [1; 2]%Z); (4, [1; 2]%Z)]].
Lemma five_modes : kMode from4 200 2 five = Ok five_clusters.
Proof. vm_compute. reflexivity. Qed.
Lemma only_mode cl j mode v v0 : mode_of 2 cl mode -> nth_error mode j = Some v ->
  (forall w, w <> v0 -> tally j w cl < tally j v0 cl) -> v = v0.
Proof.
  intros (_ & H) E U. destruct (Z.eq_dec v v0) as [|N]; auto. specialize (H j v v0 E). specialize (U v N). lia.
Qed.
Lemma five_wrong : ~ near_modes 2 five_clusters.
Proof.
  intros (modes & F & H). unfold five_clusters in F. inversion F as [|? a ? l1 Ha F1]; subst. inversion F1 as [|? b ? l2 Hb F2]; subst. inversion F2; subst. clear F F1 F2.
  destruct Ha as (La & Ta) eqn:EA. clear EA. destruct a as [|a0 [|a1 [|]]]; try discriminate. destruct b as [|b0 [|b1 [|]]]; try (destruct Hb as (Hb & _); discriminate).
  assert (E0 : a0 = 0%Z) by (eapply (only_mode _ 0 [a0; a1]); [split; [exact La|exact Ta]|reflexivity|]; intros w N; unfold tally; cbn [filter nth_error snd];
    destruct (Z.eqb_spec 0 w); [congruence|]; destruct (Z.eqb_spec 2 w); simpl; lia).
  assert (E1 : a1 = 0%Z) by (eapply (only_mode _ 1 [a0; a1]); [split; [exact La|exact Ta]|reflexivity|]; intros w N; unfold tally; cbn [filter nth_error snd];
    destruct (Z.eqb_spec 0 w); [congruence|]; destruct (Z.eqb_spec 2 w); simpl; lia).
  assert (E2 : b0 = 1%Z) by (eapply (only_mode _ 0 [b0; b1]); [exact Hb|reflexivity|]; intros w N; unfold tally; cbn [filter nth_error snd];
    destruct (Z.eqb_spec 1 w); [congruence|]; simpl; lia).
  assert (E3 : b1 = 2%Z) by (eapply (only_mode _ 1 [b0; b1]); [exact Hb|reflexivity|]; intros w N; unfold tally; cbn [filter nth_error snd];
    destruct (Z.eqb_spec 2 w); [congruence|]; simpl; lia).
  subst. specialize (H 0 1 _ 2 [2; 2]%Z _ _ eq_refl (or_intror (or_introl eq_refl)) eq_refl eq_refl). vm_compute in H. lia.
Qed.
Lemma draws_fair n : fair draws n.
Proof.
  intros c r Hr. exists (c * n + r). split; [nia|]. unfold draws. rewrite Nat.add_comm, Nat.mod_add by lia. apply Nat.mod_small. auto.
Qed.
Lemma from4_fair n : fair from4 n.
Proof.
  intros c r Hr. exists (c * n + 4 * n - 4 + r). split; [nia|]. unfold from4. replace (c * n + 4 * n - 4 + r + 4) with (r + (c + 4) * n) by nia.
  rewrite Nat.mod_add by lia. apply Nat.mod_small. auto.
Qed.
Lemma five_rect : rectangular 2 five.
Proof. intros row H. simpl in H. intuition (subst; simpl in *; try lia); try (intuition lia). Qed.
Lemma kmode_near_refuted_top : exists rnd fuel data C, rectangular 2 data /\ (forall c, rnd c (length data) < length data) /\ fair rnd (length data) /\
  2 <= distinct data /\ kMode rnd fuel 2 data = Ok C /\ ~ near_modes 2 C.
Proof.
  exists from4, 200, five, five_clusters. split; [exact five_rect|]. split; [intros c; apply Nat.mod_upper_bound; discriminate|].
  split; [apply from4_fair|]. split; [vm_compute; lia|]. split; [exact five_modes|exact five_wrong].
Qed.
Lemma kmedoid_refuted_top : exists rnd ord fuel data, (forall c, Permutation (ord c) c) /\ (forall c, rnd c (length data) < length data) /\
    rectangular 2 data /\ 2 <= length data /\ kMedoid rnd ord fuel 2 data = Panic.
Proof.
  exists draws, asIs, 50, [[1; 1]; [1; 1]]%Z. split; [intros; apply Permutation_refl|]. split; [intros c; apply Nat.mod_upper_bound; discriminate|].
  split; [|split; [simpl; lia|exact twins_medoids]]. intros row H. simpl in H. intuition (subst; simpl in *; try lia); try (intuition lia).
Qed.

Lemma draws_lt n c : 0 < n -> draws c n < n.
Proof. intros H. apply Nat.mod_upper_bound. lia. Qed.
Lemma four_rect : rectangular 2 four.
Proof. intros row H. simpl in H. intuition (subst; simpl in *; try lia); try (intuition lia). Qed.
Lemma triple_vars : same_variables [5%Z] tripleOf.
Proof.
  intros I H. simpl in H. assert (E : keys I = [5%Z]) by intuition (subst; auto). rewrite E. split; [repeat constructor; intros []|tauto].
Qed.
Lemma pair_vars : same_variables [5%Z] pairOf.
Proof.
  intros I H. simpl in H. assert (E : keys I = [5%Z]) by intuition (subst; auto). rewrite E. split; [repeat constructor; intros []|tauto].
Qed.
Lemma line_sym : forall i j, @within ZS 1%Z [[0]; [1]]%Z i j -> @within ZS 1%Z [[0]; [1]]%Z j i.
Proof.
  intros i j (p & q & Hp & Hq & Hij & Hg). exists q, p. split; auto. split; auto. split; auto.
  destruct i as [|[|i]], j as [|[|j]]; simpl in *; try congruence; try (destruct i; discriminate); try (destruct j; discriminate);
    injection Hp as <-; injection Hq as <-; auto.
Qed.
Lemma line_of_four_l : (forall row, In row line -> length row = 1) /\ line <> [] /\
  length line * length line + 2 * length line + 2 <= 50 /\ exists C, @dbscan ZS 50 line 1%Z 2%Z = Ok C /\ length C = 2.
Proof.
  split; [intros row H; simpl in H; intuition (subst; auto)|]. split; [discriminate|]. split; [simpl; lia|].
  eexists. split; [vm_compute; reflexivity|reflexivity].
Qed.
Lemma two_instances_l : same_variables [5%Z] pairOf /\ dataToMatrix (fun _ m => m) (Some pairOf) = Ok ([[0]; [1]]%Z, [(0, 5)]%Z) /\
  (forall i j, @within ZS 1%Z [[0]; [1]]%Z i j -> @within ZS 1%Z [[0]; [1]]%Z j i) /\
  (exists i j, @within ZS 1%Z [[0]; [1]]%Z i j) /\
  @dbscanData ZS (fun z => z) (fun _ m => m) 50 pairOf 1%Z 1%Z = Panic.
Proof.
  split; [exact pair_vars|]. split; [reflexivity|]. split; [exact line_sym|]. split; [|exact pair_panics].
  exists 0, 1. eexists _, _. split; [reflexivity|]. split; [reflexivity|]. split; [discriminate|reflexivity].
Qed.
Lemma dbscan_core_refuted_l : exists (A : arith) (eps : F A) data fuel C i j l,
    dbscan fuel data eps 2%Z = Ok C /\ j <> l /\ within eps data i j /\ within eps data i l /\ ~ together C i l.
Proof.
  destruct line_core as (C & E & H1 & H2 & H3). exists ZS, 1%Z, line, 50, C, 2, 1, 3. auto 8.
Qed.
Lemma four_distinct : 0 < 2 <= distinct four.
Proof. vm_compute. lia. Qed.
Lemma draws_four c : draws c (length four) < length four.
Proof. apply draws_lt. simpl. lia. Qed.
Lemma four_is_rectangular_l : rectangular 2 four /\ four <> [] /\ 0 < 2 /\ (forall c, draws c (length four) < length four).
Proof. split; [exact four_rect|]. split; [discriminate|]. split; [lia|exact draws_four]. Qed.
Lemma four_into_five_l : kMode draws 50 5 four = Fuel.
Proof. apply (kMode_stuck_l draws 50 5 2 four); [exact four_rect|discriminate|exact draws_four|simpl; lia]. Qed.
