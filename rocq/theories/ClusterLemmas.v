(** Proofs about clusterings. *)
From Coq Require Import Permutation.
From Verif Require Import Base Res Cluster ClusterSpec WalkLemmas.
Local Open Scope Z_scope.

Lemma foldi_from_foldr {T S} (f : nat -> S -> T -> res S) l : forall i s,
  foldi_from i f l s = foldr_ (fun s (e : nat * T) => f (fst e) s (snd e)) (combine (seq i (length l)) l) s.
Proof.
  induction l as [|x l IH]; intros i s; simpl; auto. destruct (f i s x); simpl; auto.
  rewrite Nat.add_1_r. apply IH.
Qed.

Lemma hamming_l p q d : hamming p q = Ok d -> d = Z.of_nat (differences p q).
Proof.
  unfold hamming, foldi.
  assert (G : forall p i s q0, (forall j, nth_error q (i + j) = nth_error q0 j) ->
    foldi_from i (fun i s x => y <- idx q i; Ok (if x =? y then s else s + 1)) p s = Ok d ->
    d = s + Z.of_nat (differences p q0)).
  { clear p. induction p as [|x p IH]; intros i s q0 Hq; cbn [foldi_from].
    - intros E. injection E as <-. unfold differences. simpl. lia.
    - intros E. apply bind_ok in E as (s' & E1 & E). apply bind_ok in E1 as (y & Ey & E1). injection E1 as <-.
      unfold idx in Ey. pose proof (Hq 0%nat) as H0. rewrite Nat.add_0_r in H0. rewrite H0 in Ey.
      destruct q0 as [|y0 q0]; [discriminate|]. simpl in Ey. injection Ey as ->.
      apply (IH _ _ q0) in E.
      + unfold differences in *. cbn [combine filter fst snd]. destruct (x =? y); cbn [negb length]; lia.
      + intros j. rewrite <- Nat.add_assoc. apply (Hq (S j)). }
  intros E. apply (G p 0%nat 0 q) in E; auto.
Qed.

Lemma hamming_total p q : (length p <= length q)%nat -> exists d, hamming p q = Ok d /\ d <= Z.of_nat (length p).
Proof.
  unfold hamming, foldi. intros L.
  assert (G : forall p i s, (i + length p <= length q)%nat ->
    exists d, foldi_from i (fun i s x => y <- idx q i; Ok (if x =? y then s else s + 1)) p s = Ok d /\ d <= s + Z.of_nat (length p)).
  { clear. induction p as [|x p IH]; intros i s L; cbn [foldi_from length] in *; [exists s; split; auto; lia|].
    unfold idx. destruct (nth_error q i) as [y|] eqn:E; [|apply nth_error_None in E; lia]. cbn [bind].
    destruct (IH (i + 1)%nat (if x =? y then s else s + 1) ltac:(lia)) as (d & E' & Hd). exists d. split; [exact E'|].
    destruct (x =? y); lia. }
  destruct (G p 0%nat 0 ltac:(lia)) as (d & E & Hd). exists d. split; auto.
Qed.

(** ** Reading off the result *)
Lemma rdel_fresh m i : (forall e, In e m -> fst e <> i) -> rdel m i = m.
Proof.
  unfold rdel. induction m as [|e m IH]; intros H; simpl; auto.
  destruct (Nat.eqb_spec (fst e) i); [exfalso; apply (H e); simpl; auto|]. simpl. f_equal. apply IH. intros; apply H; right; auto.
Qed.

Lemma concat_set_nth {T} (C : list (list T)) : forall c m x, nth_error C c = Some m ->
  Permutation (concat (set_nth c (m ++ [x]) C)) (concat C ++ [x]).
Proof.
  induction C as [|m0 C IH]; intros [|c] m x E; simpl in *; try discriminate.
  - injection E as ->. rewrite <- !app_assoc. apply Permutation_app_head. apply Permutation_app_comm.
  - rewrite <- app_assoc. apply Permutation_app_head. apply IH; auto.
Qed.

Definition assigned (chk : assignment) (i : nat) : Z := match chk i with Some c => c | None => 0 end.

Lemma collect_from chk : forall data i (C C' : list rowmap),
  (forall cl e, In cl C -> In e cl -> (fst e < i)%nat) ->
  foldi_from i (fun i C row => let c := assigned chk i in m <- idxZ C c; Ok (set_nth (Z.to_nat c) (rput m i row) C)) data C = Ok C' ->
  length C' = length C /\ Permutation (concat C') (concat C ++ combine (seq i (length data)) data) /\
  (forall c j row, (exists cl, nth_error C' c = Some cl /\ In (j, row) cl) ->
     (exists cl, nth_error C c = Some cl /\ In (j, row) cl) \/
     ((i <= j)%nat /\ nth_error data (j - i) = Some row /\ assigned chk j = Z.of_nat c)).
Proof.
  induction data as [|r data IH]; intros i C C' Hi E; cbn [foldi_from length seq combine] in *.
  - injection E as <-. split; auto. split; [rewrite app_nil_r; auto|auto].
  - apply bind_ok in E as (C1 & E1 & E). apply bind_ok in E1 as (m & Em & E1). injection E1 as <-.
    unfold idxZ in Em. destruct (assigned chk i <? 0) eqn:Hc; [discriminate|]. apply Z.ltb_ge in Hc. unfold idx in Em.
    destruct (nth_error C (Z.to_nat (assigned chk i))) as [m0|] eqn:Em0; [|discriminate]. injection Em as ->.
    assert (Hm : rput m i r = m ++ [(i, r)]).
    { unfold rput. rewrite rdel_fresh; auto. intros e He Hei. pose proof (Hi m e (nth_error_In _ _ Em0) He). lia. }
    rewrite Hm in *. rewrite Nat.add_1_r in E.
    assert (Lc : (Z.to_nat (assigned chk i) < length C)%nat) by (apply nth_error_Some; congruence).
    apply IH in E.
    2: { intros cl e Hcl He. apply In_nth_error in Hcl as (c & Hc').
      destruct (Nat.eq_dec c (Z.to_nat (assigned chk i))) as [->|Hn].
      * rewrite nth_error_set_nth_same in Hc' by auto. injection Hc' as <-. apply in_app_iff in He as [He|[<-|[]]]; simpl; [|lia].
        pose proof (Hi m e (nth_error_In _ _ Em0) He). lia.
      * rewrite nth_error_set_nth_diff in Hc' by auto. pose proof (Hi cl e (nth_error_In _ _ Hc') He). lia. }
    destruct E as (L & P & M).
    + rewrite set_nth_length in L. split; auto. split.
      * rewrite P. rewrite (concat_set_nth C _ m (i, r) Em0). rewrite <- app_assoc. apply Permutation_refl.
      * intros c j row H. destruct (M c j row H) as [(cl & Hcl & Hin)|(Hj & Hn & Ha)].
        -- destruct (Nat.eq_dec c (Z.to_nat (assigned chk i))) as [->|Hne].
           ++ rewrite nth_error_set_nth_same in Hcl by auto. injection Hcl as <-.
              apply in_app_iff in Hin as [Hin|[Hin|[]]]; [left; eauto|]. injection Hin as <- <-.
              right. split; auto. rewrite Nat.sub_diag. split; auto. lia.
           ++ rewrite nth_error_set_nth_diff in Hcl by auto. left; eauto.
        -- right. split; [lia|]. split; auto. replace (j - i)%nat with (S (j - S i)) by lia. auto.
Qed.

Lemma concat_repeat_nil {T} k : concat (repeat (@nil T) k) = [].
Proof. induction k; auto. Qed.

Lemma collect_l k data chk C : collect k data chk = Ok C ->
  partitions k data C /\
  forall c cl i row, nth_error C c = Some cl -> In (i, row) cl -> nth_error data i = Some row /\ assigned chk i = Z.of_nat c.
Proof.
  intros E. unfold collect, foldi in E. apply (collect_from chk data 0%nat (repeat [] k)) in E.
  - destruct E as (L & P & M). rewrite repeat_length in L. rewrite concat_repeat_nil in P. split; [split; auto|].
    intros c cl i row Hc Hi. destruct (M c i row ltac:(eauto)) as [(cl' & H1 & H2)|(H1 & H2 & H3)].
    + apply nth_error_In, repeat_spec in H1. subst. destruct H2.
    + rewrite Nat.sub_0_r in H2. auto.
  - intros cl e Hcl He. apply repeat_spec in Hcl. subst. destruct He.
Qed.

Lemma collect_total k data chk : (forall i, (i < length data)%nat -> 0 <= assigned chk i < Z.of_nat k) ->
  exists C, collect k data chk = Ok C.
Proof.
  intros H. unfold collect, foldi.
  assert (G : forall l i C, (i + length l <= length data)%nat -> length C = k ->
    exists C', foldi_from i (fun i C row => let c := match chk i with Some c => c | None => 0 end in
      m <- idxZ C c; Ok (set_nth (Z.to_nat c) (rput m i row) C)) l C = Ok C').
  { induction l as [|r l IH]; intros i C L Lc; cbn [foldi_from length] in *; eauto.
    specialize (H i ltac:(lia)). fold (assigned chk i). unfold idxZ, idx. destruct (Z.ltb_spec (assigned chk i) 0); [lia|].
    destruct (nth_error C (Z.to_nat (assigned chk i))) eqn:E; [|apply nth_error_None in E; lia]. cbn [bind].
    apply IH; [lia|]. rewrite set_nth_length; auto. }
  apply (G data 0%nat); [lia|apply repeat_length].
Qed.

(** ** The loop *)
Lemma nearestTo_l k dist len cur w : nearestTo k dist len cur = Ok w ->
  (w = -1 /\ cur = None /\ forall j, (j < k)%nat -> exists t, dist (Z.of_nat j) = Ok t /\ len < t) \/
  (exists d, dist w = Ok d /\ (cur = Some w \/ 0 <= w < Z.of_nat k) /\ forall j, (j < k)%nat -> exists t, dist (Z.of_nat j) = Ok t /\ d <= t).
Proof.
  unfold nearestTo. intros E. apply bind_ok in E as (st0 & E0 & E). apply bind_ok in E as (st & E1 & E). injection E as <-.
  set (good := fun (l : list nat) (st : Z * Z) =>
    (st = (len + 1, -1) /\ cur = None /\ forall j, In j l -> exists t, dist (Z.of_nat j) = Ok t /\ len < t) \/
    (dist (snd st) = Ok (fst st) /\ (cur = Some (snd st) \/ 0 <= snd st < Z.of_nat k) /\ forall j, In j l -> exists t, dist (Z.of_nat j) = Ok t /\ fst st <= t)).
  assert (G : forall l l' st st', (forall j, In j l -> (j < k)%nat) -> good l' st ->
    foldr_ (fun (st : Z * Z) j => if j =? snd st then Ok st else t <- dist j; Ok (if t <? fst st then (t, j) else st)) (map Z.of_nat l) st = Ok st' ->
    good (l' ++ l) st').
  { induction l as [|j l IH]; intros l' s s' Hk Hg E; cbn [map foldr_] in E.
    - injection E as <-. rewrite app_nil_r. auto.
    - apply bind_ok in E as (s1 & E2 & E). replace (l' ++ j :: l)%list with ((l' ++ [j]) ++ l)%list by (rewrite <- app_assoc; auto).
      apply (IH _ s1); [intros; apply Hk; right; auto| |auto]. clear IH E.
      assert (Hj : (j < k)%nat) by (apply Hk; left; auto).
      destruct (Z.eqb_spec (Z.of_nat j) (snd s)) as [Ej|Ej].
      + injection E2 as <-. destruct Hg as [(-> & _ & _)|(D & R & M)]; [cbn [snd] in Ej; lia|]. right. split; auto. split; auto.
        intros i Hi. apply in_app_iff in Hi as [Hi|[<-|[]]]; auto. rewrite Ej. exists (fst s). split; auto. lia.
      + apply bind_ok in E2 as (t & Et & E2). injection E2 as <-. destruct (Z.ltb_spec t (fst s)) as [Lt|Lt].
        * right. cbn [fst snd]. split; auto. split; [right; lia|]. intros i Hi. apply in_app_iff in Hi as [Hi|[<-|[]]]; [|exists t; split; auto; lia].
          destruct Hg as [(-> & _ & M)|(D & R & M)]; cbn [fst] in *; destruct (M i Hi) as (t' & E' & L'); exists t'; split; auto; lia.
        * destruct Hg as [(-> & N & M)|(D & R & M)]; [left|right]; cbn [fst snd] in *.
          -- split; auto. split; auto. intros i Hi. apply in_app_iff in Hi as [Hi|[<-|[]]]; auto. exists t; split; auto; lia.
          -- split; auto. split; auto. intros i Hi. apply in_app_iff in Hi as [Hi|[<-|[]]]; auto. exists t; split; auto. }
  apply (G (seq 0 k) [] st0) in E1.
  - cbn [app] in E1. destruct E1 as [(-> & N & M)|(D & R & M)]; [left|right].
    + split; auto. split; auto. intros j Hj. apply M. apply in_seq. lia.
    + exists (fst st). split; auto. split; auto. intros j Hj. apply M, in_seq. lia.
  - intros j Hj. apply in_seq in Hj. lia.
  - destruct cur as [v|]; [apply bind_ok in E0 as (d & Ed & E0)|]; injection E0 as <-; [right|left].
    + split; auto. split; [left; auto|]. intros j [].
    + split; auto. split; auto. intros j [].
Qed.

Section Loop.
Context {T : Type}.
Variable dist : T -> Z -> list Z -> res Z.
Variable insert : Z -> list Z -> nat -> T -> res T.
Variable remove : Z -> list Z -> nat -> T -> res T.
Variable k : nat.
Variable data : list (list Z).
Local Notation n := (length data).

(** Row [j] sits in a cluster with the nearest centre. *)
Definition near (chk : assignment) (st : T) (j : nat) : Prop :=
  exists row v d, nth_error data j = Some row /\ chk j = Some v /\ dist st v row = Ok d /\
    forall c, (c < k)%nat -> exists t, dist st (Z.of_nat c) row = Ok t /\ d <= t.

(** The rows of the last [nochange] iterations. *)
Definition recent (i nochange j : nat) : Prop :=
  (j < n)%nat /\ ((j < i /\ i - j <= nochange)%nat \/ (i <= j /\ i + n - j <= nochange)%nat).

Lemma converge_near : forall fuel i nochange chk st chk' st', ((i < n)%nat \/ n = 0%nat) ->
  (forall j, recent i nochange j -> near chk st j) ->
  converge dist insert remove k data fuel i nochange chk st = Ok (chk', st') ->
  forall j, (j < n)%nat -> near chk' st' j.
Proof.
  induction fuel as [|f IH]; intros i nochange chk st chk' st' Hi Inv E; cbn [converge] in E;
    destruct (Nat.ltb_spec nochange n) as [Hn|Hn].
  - discriminate.
  - injection E as <- <-. intros j Hj. apply Inv. split; auto. lia.
  - apply bind_ok in E as (((nc, chk1), st1) & E1 & E).
    revert E. apply IH; [destruct (Nat.leb_spec n (S i)); lia|]. clear IH.
    unfold iterate in E1. apply bind_ok in E1 as (row & Er & E1). apply bind_ok in E1 as (w & Ew & E1).
    unfold idx in Er. destruct (nth_error data i) as [row0|] eqn:Ei; [|discriminate]. injection Er as ->.
    destruct (chk i) as [v|] eqn:Ec.
    + destruct (Z.eqb_spec v w) as [->|Hv].
      * injection E1 as <- <- <-. intros j (Hj & Hr). destruct (Nat.eq_dec j i) as [->|Hji].
        -- apply nearestTo_l in Ew as [(_ & Ew & _)|(d & Hd & _ & M)]; [discriminate|]. exists row, w, d. auto.
        -- apply Inv. split; auto. destruct (Nat.leb_spec n (S i)); lia.
      * apply bind_ok in E1 as (s1 & _ & E1). apply bind_ok in E1 as (s2 & _ & E1). injection E1 as <- <- <-.
        intros j (Hj & Hr). exfalso. lia.
    + apply bind_ok in E1 as (s1 & _ & E1). injection E1 as <- <- <-. intros j (Hj & Hr). exfalso. lia.
  - injection E as <- <-. intros j Hj. apply Inv. split; auto. lia.
Qed.

(** Nothing panics as long as the state of the centres stays good. *)
Variable good : T -> Prop.
Hypothesis D1 : forall st c row, good st -> (0 <= c < Z.of_nat k) -> In row data -> exists d, dist st c row = Ok d /\ d <= Z.of_nat (length row).
Hypothesis I1 : forall st c row i, good st -> (0 <= c < Z.of_nat k) -> nth_error data i = Some row -> exists st', insert c row i st = Ok st' /\ good st'.
Hypothesis R1 : forall st c row i, good st -> (0 <= c < Z.of_nat k) -> nth_error data i = Some row -> exists st', remove c row i st = Ok st' /\ good st'.
Definition in_range (chk : assignment) : Prop := forall i v, chk i = Some v -> 0 <= v < Z.of_nat k.

Lemma nearestTo_total dist' len cur : (0 < k)%nat ->
  (forall c, 0 <= c < Z.of_nat k -> exists d, dist' c = Ok d /\ d <= len) -> (forall v, cur = Some v -> 0 <= v < Z.of_nat k) ->
  exists w, nearestTo k dist' len cur = Ok w /\ 0 <= w < Z.of_nat k.
Proof.
  intros Hk Hd Hc.
  assert (T1 : exists w, nearestTo k dist' len cur = Ok w).
  { unfold nearestTo. destruct cur as [v|].
    - destruct (Hd v (Hc v eq_refl)) as (d & -> & _). cbn [bind].
      assert (G : forall l st, (forall j, In j l -> (j < k)%nat) -> exists st',
        foldr_ (fun (st : Z * Z) j => if j =? snd st then Ok st else t <- dist' j; Ok (if t <? fst st then (t, j) else st)) (map Z.of_nat l) st = Ok st').
      { induction l as [|j l IH]; intros s Hl; cbn [map foldr_]; eauto.
        destruct (Z.of_nat j =? snd s); cbn [bind]; [apply IH; intros; apply Hl; right; auto|].
        destruct (Hd (Z.of_nat j)) as (t & -> & _); [specialize (Hl j (or_introl eq_refl)); lia|]. cbn [bind].
        apply IH; intros; apply Hl; right; auto. }
      destruct (G (seq 0 k) (d, v)) as (st' & ->); [intros j Hj; apply in_seq in Hj; lia|]. cbn [bind]. eauto.
    - cbn [bind].
      assert (G : forall l st, (forall j, In j l -> (j < k)%nat) -> exists st',
        foldr_ (fun (st : Z * Z) j => if j =? snd st then Ok st else t <- dist' j; Ok (if t <? fst st then (t, j) else st)) (map Z.of_nat l) st = Ok st').
      { induction l as [|j l IH]; intros s Hl; cbn [map foldr_]; eauto.
        destruct (Z.of_nat j =? snd s); cbn [bind]; [apply IH; intros; apply Hl; right; auto|].
        destruct (Hd (Z.of_nat j)) as (t & -> & _); [specialize (Hl j (or_introl eq_refl)); lia|]. cbn [bind].
        apply IH; intros; apply Hl; right; auto. }
      destruct (G (seq 0 k) (len + 1, -1)) as (st' & ->); [intros j Hj; apply in_seq in Hj; lia|]. cbn [bind]. eauto. }
  destruct T1 as (w & Ew). exists w. split; auto. apply nearestTo_l in Ew as [(_ & _ & M)|(d & _ & R & _)].
  - destruct (M 0%nat Hk) as (t & Et & Lt). destruct (Hd 0 ltac:(lia)) as (d & Ed & Ld). change (Z.of_nat 0) with 0 in Et. rewrite Et in Ed. injection Ed as <-. lia.
  - destruct R as [R|R]; auto.
Qed.

Lemma converge_total : (0 < k)%nat -> forall fuel i nochange chk st, (i < n)%nat \/ n = 0%nat -> good st -> in_range chk ->
  (converge dist insert remove k data fuel i nochange chk st = Fuel) \/
  (exists chk' st', converge dist insert remove k data fuel i nochange chk st = Ok (chk', st') /\ in_range chk').
Proof.
  intros Hk. induction fuel as [|f IH]; intros i nochange chk st Hi G R; cbn [converge];
    destruct (Nat.ltb_spec nochange n) as [Hn|Hn]; auto; try solve [right; eauto].
  assert (Hrow : exists row, nth_error data i = Some row).
  { destruct (nth_error data i) eqn:E; eauto. apply nth_error_None in E. lia. }
  destruct Hrow as (row & Er).
  assert (S1 : exists nc chk' st', iterate dist insert remove k data i nochange chk st = Ok (nc, chk', st') /\ good st' /\ in_range chk').
  { unfold iterate, idx. rewrite Er. cbn [bind].
    destruct (nearestTo_total (fun j => dist st j row) (Z.of_nat (length row)) (chk i) Hk) as (w & -> & Hw).
    - intros c Hc. apply D1; auto. eapply nth_error_In; eauto.
    - intros v Hv. apply (R i v Hv).
    - cbn [bind].
      assert (Ru : in_range (upd chk i (Some w))).
      { intros j v Hj. destruct (Nat.eq_dec j i) as [->|Hji]; [rewrite upd_same in Hj; injection Hj as <-; auto|].
        rewrite upd_diff in Hj by auto. apply (R j v Hj). }
      destruct (chk i) as [v|] eqn:Ec.
      + destruct (Z.eqb_spec v w) as [->|Hv]; [exists (S nochange), chk, st; auto|].
        destruct (R1 st v row i G (R i v Ec) Er) as (s1 & -> & G1). cbn [bind].
        destruct (I1 s1 w row i G1 Hw Er) as (s2 & -> & G2). cbn [bind]. eexists _, _, _. split; [reflexivity|]. auto.
      + destruct (I1 st w row i G Hw Er) as (s2 & -> & G2). cbn [bind]. eexists _, _, _. split; [reflexivity|]. auto. }
  destruct S1 as (nc & chk' & st' & -> & G' & R'). cbn [bind]. apply IH; auto. destruct (Nat.leb_spec n (S i)); lia.
Qed.

(** Once the loop ends, every row has a cluster. *)
Lemma converge_assigns fuel i nochange chk st chk' st' : (i < n)%nat \/ n = 0%nat ->
  (forall j, recent i nochange j -> near chk st j) ->
  converge dist insert remove k data fuel i nochange chk st = Ok (chk', st') -> forall j, (j < n)%nat -> chk' j <> None.
Proof.
  intros Hi Hr E j Hj. destruct (converge_near _ _ _ _ _ _ _ Hi Hr E j Hj) as (row & v & d & _ & -> & _). discriminate.
Qed.
End Loop.

Lemma recent0 data j : ~ recent data 0 0 j.
Proof. intros (H & H'). lia. Qed.
