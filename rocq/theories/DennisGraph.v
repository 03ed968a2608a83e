(** Proofs about the region graph. *)
From Verif Require Import Base Res Arith GoMap DataSpec DataLemmas Dennis DennisSpec DennisScope.

Lemma split_sizes s a b : NoDup (keys s) -> NoDup (keys a) -> NoDup (keys b) -> a <> [] -> b <> [] ->
  split_of s a b -> length a < length s /\ length b < length s.
Proof.
  intros Ns Na Nb Ea Eb [U D].
  assert (L : length a + length b <= length s).
  { rewrite <- !keys_length, <- app_length. apply NoDup_incl_length.
    - apply TopoLemmas.NoDup_app_intro; auto.
    - intros x Hx. apply U. apply in_app_iff in Hx. exact Hx. }
  destruct a; [congruence|]. destruct b; [congruence|]. simpl in *. lia.
Qed.

Lemma same_keys_length s t : NoDup (keys s) -> NoDup (keys t) -> same_keys s t -> length s = length t.
Proof.
  intros Ns Nt E. rewrite <- !keys_length. apply Permutation_length, NoDup_Permutation; auto.
Qed.

Lemma same_keys_nil s t : same_keys s t -> s <> [] -> t <> [].
Proof.
  intros E Ne ->. destruct s as [|e s]; [congruence|]. apply (E (fst e)). left. auto.
Qed.

Lemma findi_l {X} (f : X -> bool) l : forall i,
  match findi f l i with
  | Some j => exists x, i <= j /\ nth_error l (j - i) = Some x /\ f x = true
  | None => forall x, In x l -> f x = false
  end.
Proof.
  induction l as [|x l IH]; intros i; simpl; [tauto|]. destruct (f x) eqn:E.
  - exists x. split; auto. rewrite Nat.sub_diag. auto.
  - specialize (IH (S i)). destruct (findi f l (S i)) as [j|].
    + destruct IH as (y & L & N & Ey). exists y. split; [lia|]. split; auto.
      replace (j - i) with (S (j - S i)) by lia. auto.
    + intros y [->|H]; auto.
Qed.

Section Part.
Variable ordC : nat -> columns -> columns.
Variable km : nat -> list (list Z) -> list nat.
Hypothesis allC : forall c m, Permutation (ordC c m) m.
Hypothesis km2 : two_clusters km.

Lemma put_member s p v x : member (put s p v) x <-> x = p \/ member s x.
Proof.
  unfold member, put. simpl. rewrite del_keys. destruct (Z.eq_dec x p); [subst; tauto|].
  split; [intros [E|[E _]]; [congruence|auto]|intros [E|E]; [congruence|right; auto]].
Qed.

Lemma assign_l (sn : gmap) V L : (forall j, In j L -> j < 2) -> forall i s1 s2,
  NoDup (keys s1) -> NoDup (keys s2) ->
  exists s1' s2',
    foldi_from i (fun i (ss : gmap * gmap) c =>
      let p := nth i V 0%Z in
      if Nat.eqb c 0 then Ok (put (fst ss) p (get0 sn p), snd ss)
      else if Nat.eqb c 1 then Ok (fst ss, put (snd ss) p (get0 sn p)) else Panic) L (s1, s2) = Ok (s1', s2') /\
    NoDup (keys s1') /\ NoDup (keys s2') /\
    (forall x, member s1' x <-> member s1 x \/ exists j, nth_error L j = Some 0 /\ nth (i + j) V 0%Z = x) /\
    (forall x, member s2' x <-> member s2 x \/ exists j, nth_error L j = Some 1 /\ nth (i + j) V 0%Z = x).
Proof.
  induction L as [|c L IH]; intros HL i s1 s2 N1 N2.
  - exists s1, s2. split; [reflexivity|]. split; auto. split; auto.
    split; intros x; (split; [auto|intros [H|(j & E & _)]; [auto|destruct j; discriminate]]).
  - assert (Hc : c < 2) by (apply HL; left; auto).
    assert (HL' : forall j, In j L -> j < 2) by (intros; apply HL; right; auto).
    set (p := nth i V 0%Z).
    assert (Step : forall b s s', (forall x, member s' x <-> member (if Nat.eqb c b then put s p (get0 sn p) else s) x \/
        exists j, nth_error L j = Some b /\ nth (i + 1 + j) V 0%Z = x) ->
      forall x, member s' x <-> member s x \/ exists j, nth_error (c :: L) j = Some b /\ nth (i + j) V 0%Z = x).
    { intros b s s' H x. rewrite H. clear H. split.
      - intros [H|(j & E1 & E2)].
        + destruct (Nat.eqb_spec c b) as [->|Ne]; [|auto]. apply put_member in H as [->|H]; [|auto].
          right. exists 0. split; auto. rewrite Nat.add_0_r. auto.
        + right. exists (S j). split; auto. replace (i + S j) with (i + 1 + j) by lia. auto.
      - intros [H|(j & E1 & E2)].
        + left. destruct (Nat.eqb c b); [apply put_member|]; auto.
        + destruct j as [|j].
          * injection E1 as ->. rewrite Nat.eqb_refl. left. apply put_member. left. rewrite <- E2, Nat.add_0_r. auto.
          * right. exists j. split; auto. replace (i + 1 + j) with (i + S j) by lia. auto. }
    destruct c as [|[|c]]; [| |lia]; cbn [foldi_from Nat.eqb fst snd bind]; fold p.
    + destruct (IH HL' (i + 1) (put s1 p (get0 sn p)) s2 (NoDup_put _ _ _ N1) N2) as (s1' & s2' & E & A & B & C & D).
      exists s1', s2'. split; [exact E|]. split; [exact A|]. split; [exact B|]. split.
      * apply (Step 0 s1 s1'). simpl. exact C.
      * apply (Step 1 s2 s2'). simpl. exact D.
    + destruct (IH HL' (i + 1) s1 (put s2 p (get0 sn p)) N1 (NoDup_put _ _ _ N2)) as (s1' & s2' & E & A & B & C & D).
      exists s1', s2'. split; [exact E|]. split; [exact A|]. split; [exact B|]. split.
      * apply (Step 0 s1 s1'). simpl. exact C.
      * apply (Step 1 s2 s2'). simpl. exact D.
Qed.

Lemma partitionScope_l calls sn C : NoDup (keys sn) -> 2 <= length sn -> NoDup (map fst C) ->
  (forall x, member sn x -> In x (map fst C)) ->
  exists s1 s2, partitionScope ordC km calls sn C = Ok (s1, s2) /\ NoDup (keys s1) /\ NoDup (keys s2) /\
    s1 <> [] /\ s2 <> [] /\ split_of sn s1 s2.
Proof.
  intros Ns L2 NC Cov. unfold partitionScope, clusterToMatrix.
  set (K := filter (fun e => hasKey sn (fst e)) (ordC calls C)).
  assert (NV : NoDup (map fst K)).
  { assert (N0 : NoDup (map fst (ordC calls C))).
    { eapply Permutation_NoDup; [apply Permutation_sym, Permutation_map, allC|auto]. }
    unfold K. generalize N0. generalize (ordC calls C). intros l. clear. induction l as [|e l IH]; intros N; simpl; auto.
    inversion N; subst. destruct (hasKey sn (fst e)); simpl; auto. constructor; auto.
    intros Hx. apply H1. apply in_map_iff in Hx as (e' & <- & Hx). apply filter_In in Hx as [Hx _]. apply in_map. auto. }
  assert (KV : forall x, In x (map fst K) <-> member sn x).
  { intros x. split.
    - intros H. apply in_map_iff in H as (e & <- & H). apply filter_In in H as [_ H]. apply hasKey_l. auto.
    - intros H. specialize (Cov x H).
      apply (Permutation_in x (Permutation_sym (Permutation_map fst (allC calls C)))) in Cov.
      apply in_map_iff in Cov as (e & <- & Hc). apply in_map. apply filter_In. split; auto. apply hasKey_l. auto. }
  assert (LK : length K = length sn).
  { rewrite <- (map_length fst K), <- keys_length. apply Permutation_length, NoDup_Permutation; auto. }
  rewrite LK. destruct (Nat.ltb_spec (length sn) (length sn)); [lia|].
  rewrite Nat.sub_diag. cbn [repeat]. rewrite app_nil_r. cbn [bind fst snd].
  destruct (km2 calls (map snd K)) as (Lk & Lt & I0 & I1); [rewrite map_length; lia|].
  destruct (assign_l sn (map fst K) (km calls (map snd K)) Lt 0 [] [] ltac:(constructor) ltac:(constructor))
    as (s1 & s2 & E & N1 & N2 & M1 & M2).
  exists s1, s2. unfold foldi. split; [exact E|]. split; auto. split; auto.
  set (Lb := km calls (map snd K)) in *. rewrite map_length in Lk.
  split; [|split; [|split]].
  - intros ->. apply In_nth_error in I0 as (j & Ej). apply (M1 (nth (0 + j) (map fst K) 0%Z)). right. eauto.
  - intros ->. apply In_nth_error in I1 as (j & Ej). apply (M2 (nth (0 + j) (map fst K) 0%Z)). right. eauto.
  - intros x. rewrite <- KV. split.
    + intros Hx. apply (In_nth _ _ 0%Z) in Hx as (j & Lj & Ej). rewrite map_length in Lj.
      destruct (nth_error Lb j) as [b|] eqn:Eb; [|apply nth_error_None in Eb; lia].
      assert (b < 2) by (apply Lt; eapply nth_error_In; eauto).
      destruct b as [|[|b]]; [left; apply M1|right; apply M2|lia]; right; exists j; auto.
    + assert (In' : forall b j, nth_error Lb j = Some b -> In (nth (0 + j) (map fst K) 0%Z) (map fst K)).
      { intros b j Ej. apply nth_In. rewrite map_length. simpl. assert (j < length Lb) by (apply nth_error_Some; congruence). lia. }
      intros [Hx|Hx]; [apply M1 in Hx|apply M2 in Hx]; (destruct Hx as [[]|(j & Ej & <-)]); eapply In'; eauto.
  - intros x Hx Hy. apply M1 in Hx as [[]|(j & Ej & Xj)]. apply M2 in Hy as [[]|(j' & Ej' & Xj')].
    assert (j = j'); [|congruence].
    apply (proj1 (NoDup_nth (map fst K) 0%Z) NV); [| |simpl in *; congruence]; rewrite map_length.
    + assert (j < length Lb) by (apply nth_error_Some; congruence). lia.
    + assert (j' < length Lb) by (apply nth_error_Some; congruence). lia.
Qed.
End Part.

(** The invariant of the region graph of scope [sc]. *)
Record ginv (sc : gmap) (G : rgraph) : Prop := {
  g_root : exists r, nth_error (regs G) 0 = Some r /\ rsc r = sc;
  g_reg : forall i r, nth_error (regs G) i = Some r ->
    NoDup (keys (rsc r)) /\ rsc r <> [] /\ (forall x, member (rsc r) x -> member sc x) /\ rid r = Z.of_nat (i - 1);
  g_gid : gid G = Z.of_nat (length (regs G) - 1);
  g_dist : forall i j r r', nth_error (regs G) i = Some r -> nth_error (regs G) j = Some r' ->
    same_keys (rsc r) (rsc r') -> i = j;
  g_part : forall i r p, nth_error (regs G) i = Some r -> In p (rch r) -> exists a b ra rb,
    nth_error (parts G) p = Some [a; b] /\ nth_error (regs G) a = Some ra /\ nth_error (regs G) b = Some rb /\
    split_of (rsc r) (rsc ra) (rsc rb);
  g_keys : forall k, In k (pkeys G) -> exists i r p a b ra rb,
    nth_error (regs G) i = Some r /\ In p (rch r) /\ nth_error (parts G) p = Some [a; b] /\
    nth_error (regs G) a = Some ra /\ nth_error (regs G) b = Some rb /\ k = (rid r, rid ra, rid rb)
}.

(** [G'] has all of [G]. *)
Definition gext (G G' : rgraph) : Prop :=
  (forall i r, nth_error (regs G) i = Some r -> exists r', nth_error (regs G') i = Some r' /\
     rsc r' = rsc r /\ rid r' = rid r /\ incl (rch r) (rch r')) /\
  (forall p cs, nth_error (parts G) p = Some cs -> nth_error (parts G') p = Some cs).

Lemma gext_refl G : gext G G.
Proof. split; [|auto]. intros i r E. exists r. auto using incl_refl. Qed.

Lemma gext_trans G1 G2 G3 : gext G1 G2 -> gext G2 G3 -> gext G1 G3.
Proof.
  intros [A1 A2] [B1 B2]. split; [|auto]. intros i r E. destruct (A1 i r E) as (r' & E' & S1 & I1 & C1).
  destruct (B1 i r' E') as (r'' & E'' & S2 & I2 & C2). exists r''. split; auto.
  split; [congruence|]. split; [congruence|]. eapply incl_tran; eauto.
Qed.

(** Regions with two or more variables that have no partition yet. *)
Definition unexpanded (G : rgraph) (i : nat) : Prop :=
  exists r, nth_error (regs G) i = Some r /\ 2 <= length (rsc r) /\ rch r = [].
