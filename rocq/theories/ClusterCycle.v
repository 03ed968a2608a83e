(** Eleven rows on which KMode goes round for ever. *)
From Verif Require Import Base Res Cluster ClusterSpec.
Local Open Scope Z_scope.

Definition ring : list (list Z) :=
  [[0;0;1;1]; [0;1;1;1]; [1;1;0;0]; [0;0;1;1]; [1;1;1;1]; [0;0;1;0]; [0;0;0;0]; [0;0;0;0]; [0;0;0;0]; [1;0;0;0]; [0;0;0;1]].
(** Rows 4 and 1 first, then all in turn. *)
Definition ringDraws (c n : nat) : nat := match c with O => 4%nat mod n | S O => 1%nat mod n | _ => c mod n end.

Section Steps.
Context {T : Type}.
Variable dist : T -> Z -> list Z -> res Z.
Variable insert remove : Z -> list Z -> nat -> T -> res T.
Variable k : nat.
Variable data : list (list Z).
Local Notation iterate := (iterate dist insert remove k data).
Local Notation converge := (converge dist insert remove k data).

(** [m] iterations, each within the loop. *)
Fixpoint loops (m i nc : nat) (chk : assignment) (st : T) : res (nat * nat * assignment * T) :=
  match m with
  | O => Ok (i, nc, chk, st)
  | S m' =>
      if (nc <? length data)%nat then
        r <- iterate i nc chk st;
        let '(nc, chk, st) := r in loops m' (if (length data <=? S i)%nat then O else S i) nc chk st
      else Panic
  end.

Lemma loops_converge : forall m i nc chk st i' nc' chk' st', loops m i nc chk st = Ok (i', nc', chk', st') ->
  forall f, converge (m + f) i nc chk st = converge f i' nc' chk' st'.
Proof.
  induction m as [|m IH]; intros i nc chk st i' nc' chk' st' E f.
  - injection E as <- <- <- <-. reflexivity.
  - cbn [loops] in E. cbn [Nat.add Cluster.converge]. destruct (nc <? length data)%nat; [|discriminate].
    destruct (iterate i nc chk st) as [((nc1 & chk1) & st1)| |]; try discriminate. cbn [bind] in *. apply IH. auto.
Qed.

Lemma loops_short : forall m i nc chk st i' nc' chk' st', loops m i nc chk st = Ok (i', nc', chk', st') ->
  forall f, (f < m)%nat -> converge f i nc chk st = Fuel.
Proof.
  induction m as [|m IH]; intros i nc chk st i' nc' chk' st' E f Hf; [lia|].
  cbn [loops] in E. destruct f as [|f]; cbn [Cluster.converge]; (destruct (nc <? length data)%nat; [|discriminate]); auto.
  destruct (iterate i nc chk st) as [((nc1 & chk1) & st1)| |]; try discriminate. cbn [bind] in *. eapply IH; [eauto|lia].
Qed.

(** The assignment matters only pointwise. *)
Lemma converge_ext : forall f i nc chk chk' st, (forall x, chk x = chk' x) ->
  converge f i nc chk st = Fuel -> converge f i nc chk' st = Fuel.
Proof.
  induction f as [|f IH]; intros i nc chk chk' st E H; cbn [Cluster.converge] in *; destruct (nc <? length data)%nat; try discriminate; auto.
  unfold Cluster.iterate in *. destruct (idx data i) as [row| |]; try discriminate; cbn [bind] in *; auto.
  rewrite <- (E i). destruct (nearestTo _ _ _ (chk i)) as [w| |]; try discriminate; cbn [bind] in *; auto.
  assert (Eu : forall x, upd chk i (Some w) x = upd chk' i (Some w) x) by (intros x; unfold upd; destruct (Nat.eqb i x); auto; rewrite E; auto).
  destruct (chk i) as [v|].
  - destruct (v =? w).
    + cbn [bind] in *. eapply IH; eauto.
    + destruct (remove v row i st) as [s1| |]; try discriminate; cbn [bind] in *; auto.
      destruct (insert w row i s1) as [s2| |]; try discriminate; cbn [bind] in *; auto. eapply IH; eauto.
  - destruct (insert w row i st) as [s2| |]; try discriminate; cbn [bind] in *; auto. eapply IH; eauto.
Qed.

Lemma cycle_stuck m i nc chk chk' st : (0 < m)%nat -> loops m i nc chk st = Ok (i, nc, chk', st) -> (forall x, chk' x = chk x) ->
  forall f, converge f i nc chk st = Fuel.
Proof.
  intros Hm E Ec f. induction f as [f IH] using lt_wf_ind. destruct (Nat.lt_ge_cases f m) as [H|H].
  - eapply loops_short; eauto.
  - replace f with (m + (f - m))%nat by lia. rewrite (loops_converge _ _ _ _ _ _ _ _ _ E). apply (converge_ext _ _ _ chk); auto. apply IH. lia.
Qed.
End Steps.

Definition modeDist (M : modes) (j : Z) (row : list Z) : res Z := hamming (meanAt (means M) j) row.
Definition modeIn (w : Z) (v : list Z) (_ : nat) (M : modes) : res modes := kModeInsert w v M.
Definition modeOut (w : Z) (v : list Z) (_ : nat) (M : modes) : res modes := kModeRemove w v M.

(** After the first pass. *)
Definition ringChk : assignment := fun i =>
  nth i [Some 1; Some 1; Some 0; Some 1; Some 0; Some 1; Some 1; Some 1; Some 1; Some 1; Some 1] None.
Definition ringModes : modes := mkModes [[1;1;1;1]; [0;0;0;0]]
  [[[0;2];[0;2];[1;1];[1;1]]; [[8;1];[8;1];[5;4];[5;4]]].

Lemma ring_cycle : exists chk', loops modeDist modeIn modeOut 2 ring 44 0 0 ringChk ringModes = Ok (0%nat, 0%nat, chk', ringModes) /\
  forall x, chk' x = ringChk x.
Proof.
  eexists. split; [vm_compute; reflexivity|]. intros x. do 11 (destruct x as [|x]; [reflexivity|]). destruct x; reflexivity.
Qed.

Lemma ring_start : exists c seen chk M chk', foldr_ (forgy ringDraws 3 ring) (seq 0 2) (O, [], fun _ => None, mkModes [] []) = Ok (c, seen, chk, M) /\
  loops modeDist modeIn modeOut 2 ring 11 0 0 chk M = Ok (0%nat, 0%nat, chk', ringModes) /\ forall x, ringChk x = chk' x.
Proof.
  eexists _, _, _, _, _. split; [vm_compute; reflexivity|]. split; [vm_compute; reflexivity|].
  intros x. do 11 (destruct x as [|x]; [reflexivity|]). destruct x; reflexivity.
Qed.

Lemma converge_start : forall f c seen chk M,
  foldr_ (forgy ringDraws 3 ring) (seq 0 2) (O, [], fun _ => None, mkModes [] []) = Ok (c, seen, chk, M) ->
  converge modeDist modeIn modeOut 2 ring f 0 0 chk M = Fuel.
Proof.
  intros f c seen chk M E. destruct ring_start as (c1 & seen1 & chk1 & M1 & chk' & E1 & El & Ex). rewrite E1 in E. injection E as <- <- <- <-.
  destruct (Nat.lt_ge_cases f 11) as [H|H]; [eapply loops_short; eauto|].
  replace f with (11 + (f - 11))%nat by lia. rewrite (loops_converge _ _ _ _ _ _ _ _ _ _ _ _ _ _ El).
  apply (converge_ext _ _ _ _ _ _ _ _ ringChk); auto. destruct ring_cycle as (chk2 & Ec & Ex2). apply (cycle_stuck _ _ _ _ _ 44 0 0 ringChk chk2 ringModes); auto. lia.
Qed.

Lemma kMode_ring_l : exists rnd data, rectangular 4 data /\ (2 <= distinct data)%nat /\ (forall c, rnd c (length data) < length data)%nat /\
  fair rnd (length data) /\ forall fuel, kMode rnd fuel 2 data = Fuel.
Proof.
  exists ringDraws, ring. split; [|split; [vm_compute; lia|split; [|split]]].
  - intros row H. repeat (destruct H as [<-|H]; [split; [reflexivity|]; intros x Hx; cbn in Hx; lia|]). destruct H.
  - intros c. change (length ring) with 11%nat. unfold ringDraws. destruct c as [|[|c]]; apply Nat.mod_upper_bound; lia.
  - intros c r Hr. change (length ring) with 11%nat in *. exists (11 * (S (S c)) + r)%nat. split; [lia|].
    unfold ringDraws. replace (11 * S (S c) + r)%nat with (S (S (11 * c + 20 + r))) by lia.
    replace (S (S (11 * c + 20 + r))) with (r + (c + 2) * 11)%nat by lia. rewrite Nat.mod_add by lia. apply Nat.mod_small. auto.
  - intros fuel. destruct fuel as [|f]; [reflexivity|]. unfold kMode.
    assert (E : foldr_ (forgy ringDraws (S f) ring) (seq 0 2) (O, [], fun _ => None, mkModes [] []) =
                foldr_ (forgy ringDraws 3 ring) (seq 0 2) (O, [], fun _ => None, mkModes [] [])) by reflexivity.
    rewrite E. destruct (foldr_ (forgy ringDraws 3 ring) _ _) as [(((c & seen) & chk) & M)| |] eqn:E3.
    + cbn [bind]. pose proof (converge_start (S f) _ _ _ _ E3) as H. 
      match goal with |- context [converge ?a ?b ?c 2 ring ?g 0 0 chk M] =>
        change (converge a b c 2 ring g 0 0 chk M) with (converge modeDist modeIn modeOut 2 ring g 0 0 chk M) end.
      rewrite H. reflexivity.
    + destruct ring_start as (? & ? & ? & ? & ? & E4 & _). rewrite E3 in E4. discriminate.
    + reflexivity.
Qed.
