(** Proofs about the scope operations. *)
From Coq Require Import Reals Lra.
From Verif Require Import Base Res Arith GoMap DataSpec DataLemmas TopoLemmas Dennis DennisSpec.
Local Open Scope Z_scope.

Lemma hasKey_l t k : hasKey t k = true <-> member t k.
Proof.
  unfold hasKey, member. induction t as [|[a v] t IH]; simpl.
  - split; [discriminate|tauto].
  - destruct (Z.eqb_spec a k) as [->|Ne]; [tauto|]. rewrite IH. split; [auto|intros [E|E]; [congruence|auto]].
Qed.

Lemma hasKey_false t k : hasKey t k = false <-> ~ member t k.
Proof. rewrite <- hasKey_l. destruct (hasKey t k); split; congruence. Qed.

Lemma card_unique P n n' : card P n -> card P n' -> n = n'.
Proof.
  intros (l & N & I & <-) (l' & N' & I' & <-). f_equal.
  apply Permutation_length. apply NoDup_Permutation; auto. intros x. rewrite I, I'. tauto.
Qed.

Lemma keys_length s : length (keys s) = length s.
Proof. apply map_length. Qed.

Section O.
Variable o : gmap -> gmap.
Hypothesis all : forall m, Permutation (o m) m.

Lemma o_keys m : Permutation (map fst (o m)) (keys m).
Proof. apply Permutation_map, all. Qed.

Lemma subset_l s t : subsetOf o s t = true <-> forall k, member s k -> member t k.
Proof.
  unfold subsetOf. rewrite forallb_forall. split.
  - intros H k Hk. unfold member in Hk. apply (Permutation_in k (Permutation_sym (o_keys s))) in Hk.
    apply in_map_iff in Hk as (e & <- & I). apply hasKey_l. auto.
  - intros H e I. apply hasKey_l, H. apply (Permutation_in _ (o_keys s)). apply in_map. auto.
Qed.

Lemma fold_count (f : Z -> bool) (l : gmap) n :
  fold_left (fun n e => if f (fst e) then n + 1 else n) l n = n + Z.of_nat (length (filter f (map fst l))).
Proof.
  revert n. induction l as [|e l IH]; intros n; simpl; [lia|]. rewrite IH. destruct (f (fst e)); simpl length; lia.
Qed.

Lemma perm_filter_length (f : Z -> bool) l l' : Permutation l l' -> length (filter f l) = length (filter f l').
Proof. induction 1; simpl; repeat match goal with |- context [f ?x] => destruct (f x) end; simpl; congruence. Qed.

Lemma intersect_l s t : NoDup (keys t) ->
  card (fun k => member s k /\ member t k) (lenIntersect o s t).
Proof.
  intros N. unfold lenIntersect. rewrite fold_count. rewrite (perm_filter_length _ _ _ (o_keys t)).
  exists (filter (hasKey s) (keys t)). split; [apply NoDup_filter; auto|]. split; [|lia].
  intros x. rewrite filter_In, hasKey_l. unfold member. tauto.
Qed.

Lemma union_aux s t : NoDup (keys s) -> NoDup (keys t) ->
  card (fun k => member s k \/ member t k)
    (fold_left (fun l e => if hasKey s (fst e) then l else l + 1) (o t) (len s)).
Proof.
  intros Ns Nt.
  assert (E : forall l n, fold_left (fun l (e : Z * Z) => if hasKey s (fst e) then l else l + 1) l n =
    n + Z.of_nat (length (filter (fun k => negb (hasKey s k)) (map fst l)))).
  { intros l n. rewrite <- fold_count. revert n. induction l as [|e l IH]; intros n; simpl; auto.
    rewrite IH. destruct (hasKey s (fst e)); reflexivity. }
  rewrite E, (perm_filter_length _ _ _ (o_keys t)).
  exists (keys s ++ filter (fun k => negb (hasKey s k)) (keys t)). split; [|split].
  - apply NoDup_app_intro; auto using NoDup_filter.
    intros x Hx Hy. apply filter_In in Hy as [_ Hy]. apply Bool.negb_true_iff, hasKey_false in Hy. auto.
  - intros x. rewrite in_app_iff, filter_In, Bool.negb_true_iff, hasKey_false. unfold member.
    destruct (in_dec Z.eq_dec x (keys s)); tauto.
  - rewrite app_length, keys_length. unfold len. lia.
Qed.

Lemma card_ext P Q n : (forall k, P k <-> Q k) -> card P n -> card Q n.
Proof. intros E (l & N & I & L). exists l. split; auto. split; auto. intros x. rewrite I. apply E. Qed.

Lemma union_l s t : NoDup (keys s) -> NoDup (keys t) ->
  card (fun k => member s k \/ member t k) (lenUnion o s t).
Proof.
  intros Ns Nt. unfold lenUnion. destruct (len s <? len t).
  - eapply card_ext; [|apply union_aux; auto]. intros k; simpl; tauto.
  - apply union_aux; auto.
Qed.

Lemma minus_l s t : NoDup (keys s) ->
  NoDup (keys (minus o s t)) /\
  (forall k, member t k -> get (minus o s t) k = None) /\
  (forall k, ~ member t k -> get (minus o s t) k = get s k).
Proof.
  intros Ns. unfold minus.
  assert (G : forall l r, NoDup (keys r) -> NoDup (keys l) ->
    let m := fold_left (fun r (e : Z * Z) => if hasKey t (fst e) then r else put r (fst e) (snd e)) l r in
    NoDup (keys m) /\ forall k, get m k = match get (filter (fun e => negb (hasKey t (fst e))) l) k with
                                          | Some v => Some v | None => get r k end).
  { induction l as [|[a v] l IH]; intros r Nr Nl; simpl; [split; auto|].
    inversion Nl as [|? ? Na Nl']; subst. destruct (hasKey t a) eqn:K; simpl; [apply IH; auto|].
    destruct (IH (put r a v) (NoDup_put _ _ _ Nr) Nl') as [N1 G1]. split; auto.
    intros k. rewrite G1, get_put. destruct (Z.eqb_spec a k) as [->|Ne]; auto.
    assert (E : get (filter (fun e => negb (hasKey t (fst e))) l) k = None).
    { apply get_None. intros Hk. apply Na. apply in_map_iff in Hk as (e & <- & Hk).
      apply filter_In in Hk as [Hk _]. apply in_map. auto. }
    rewrite E. auto. }
  assert (No : NoDup (keys (o s))) by (eapply Permutation_NoDup; [apply Permutation_sym, o_keys|auto]).
  destruct (G (o s) [] ltac:(constructor) No) as [N1 G1]. split; auto.
  split; intros k Hk; rewrite G1; simpl.
  - assert (E : get (filter (fun e => negb (hasKey t (fst e))) (o s)) k = None).
    { apply get_None. intros Hx. apply in_map_iff in Hx as (e & <- & Hx).
      apply filter_In in Hx as [_ Hx]. apply Bool.negb_true_iff, hasKey_false in Hx. auto. }
    rewrite E. auto.
  - rewrite <- (get_perm (o s) s No (all s) k).
    clear G1 N1. revert No. generalize (o s). intros l. induction l as [|[a v] l IH]; intros No; simpl; auto.
    inversion No; subst. destruct (hasKey t a) eqn:K; simpl.
    + destruct (Z.eqb_spec a k) as [->|Ne]; [apply hasKey_l in K; contradiction|]. apply IH; auto.
    + destruct (a =? k); auto.
Qed.

Lemma equal_l s t : NoDup (keys s) -> NoDup (keys t) -> equal o s t = true <-> same_keys s t.
Proof.
  intros Ns Nt. unfold equal. destruct (Z.eqb_spec (len s) (len t)) as [E|E]; simpl.
  - destruct (Z.ltb_spec (len t) (len s)); [lia|].
    change (subsetOf o t s = true <-> same_keys s t). rewrite subset_l. split.
    + intros Hs k. split; [|apply Hs]. intros Hk.
      apply (NoDup_length_incl Nt (l' := keys s)); auto.
      rewrite !keys_length. unfold len in E. lia.
    + intros Hs k Hk. apply Hs. auto.
  - split; [discriminate|]. intros Hs. exfalso. apply E. unfold len.
    rewrite <- !keys_length. f_equal. apply Permutation_length, NoDup_Permutation; auto.
Qed.

Lemma member_get s k : member s k <-> get s k <> None.
Proof. rewrite <- hasKey_l. unfold hasKey. destruct (get s k); split; congruence. Qed.

Lemma len_pos s : s <> [] -> 0 < len s.
Proof. destruct s; [congruence|]. unfold len. simpl. lia. Qed.

Lemma union_pos s t u : s <> [] -> card (fun k => member s k \/ member t k) u -> 0 < u.
Proof.
  intros Ne (l & _ & I & <-). destruct s as [|e s]; [congruence|].
  destruct l; [|simpl; lia]. exfalso. apply (I (fst e)). left. left. auto.
Qed.

Lemma similar_l s r t d p1 p2 : NoDup (keys s) -> NoDup (keys r) -> NoDup (keys t) ->
  s <> [] -> t <> [] -> ratio s r p1 -> ratio s t p2 ->
  similarTo (A:=XR) o s r t (Fin d) = true <-> (d < p1 \/ d < p2)%R.
Proof.
  intros Ns Nr Nt Es Et (i1 & u1 & I1 & U1 & ->) (i2 & u2 & I2 & U2 & ->).
  unfold similarTo. pose proof (len_pos s Es). pose proof (len_pos t Et).
  destruct (Z.eqb_spec (len s) 0); [lia|]. destruct (Z.eqb_spec (len t) 0); [lia|]. simpl orb. cbv iota.
  rewrite (card_unique _ _ _ (intersect_l s r Nr) I1), (card_unique _ _ _ (intersect_l s t Nt) I2),
    (card_unique _ _ _ (union_l s r Ns Nr) U1), (card_unique _ _ _ (union_l s t Ns Nt) U2).
  pose proof (union_pos _ _ _ Es U1) as P1. pose proof (union_pos _ _ _ Es U2) as P2.
  apply IZR_lt in P1, P2. cbv zeta. 
  assert (Dv : forall a b, (0 < IZR b)%R -> @fdiv XR (fz a) (fz b) = Fin (IZR a / IZR b)).
  { intros a b Pb. simpl. unfold xdiv. destruct (Req_EM_T (IZR b) 0); [lra|reflexivity]. }
  rewrite !Dv by auto. generalize (IZR i1 / IZR u1)%R (IZR i2 / IZR u2)%R. intros x y.
  simpl. unfold xgt. destruct (Rlt_dec y x);
    match goal with |- context [Rlt_dec ?a ?b] => destruct (Rlt_dec a b) end; simpl; split; try tauto; try lra; try discriminate.
Qed.
End O.

Lemma ratio_exists s t : NoDup (keys s) -> NoDup (keys t) -> exists q, ratio s t q.
Proof.
  intros Ns Nt. eexists. eexists. eexists. split; [apply (intersect_l (fun m => m)); auto|].
  split; [apply (union_l (fun m => m)); auto|reflexivity].
Qed.

Lemma ratio_one_l s t q : NoDup (keys s) -> NoDup (keys t) -> s <> [] -> ratio s t q ->
  (q <= 1)%R /\ (q = 1%R <-> same_keys s t).
Proof.
  intros Ns Nt Es (i & u & I & U & ->). pose proof (union_pos _ _ _ Es U) as Pu.
  destruct I as (li & Ni & Ii & <-), U as (lu & Nu & Iu & <-).
  assert (Inc : incl li lu) by (intros x Hx; apply Iu; apply Ii in Hx; tauto).
  pose proof (NoDup_incl_length Ni Inc) as Le. apply Nat2Z.inj_le, IZR_le in Le.
  assert (Lp : (0 < IZR (Z.of_nat (length lu)))%R) by (apply IZR_lt; lia).
  split.
  - apply Rmult_le_reg_r with (IZR (Z.of_nat (length lu))); auto. unfold Rdiv. rewrite Rmult_assoc, Rinv_l; lra.
  - split.
    + intros E. assert (El : IZR (Z.of_nat (length li)) = IZR (Z.of_nat (length lu))).
      { apply (f_equal (fun z => z * IZR (Z.of_nat (length lu)))%R) in E. unfold Rdiv in E. rewrite Rmult_assoc, Rinv_l in E; lra. }
      apply eq_IZR in El. apply Nat2Z.inj in El.
      assert (Inc' : incl lu li) by (apply (NoDup_length_incl Ni); [lia|auto]).
      intros k. split; intros Hk; (assert (In k lu) as Hl by (apply Iu; tauto)); apply Inc', Ii in Hl; tauto.
    + intros E. assert (length li = length lu) as ->.
      { apply Permutation_length, NoDup_Permutation; auto. intros x. rewrite Ii, Iu. specialize (E x). tauto. }
      field. lra.
Qed.

(** A set most similar to itself is not found when the third set is empty. *)
Lemma similar_refuted_l : exists s r t (d : R), (0 <= d < 1)%R /\
  NoDup (keys s) /\ NoDup (keys r) /\ NoDup (keys t) /\ s <> [] /\ same_keys s r /\ ratio s r 1 /\
  forall o, (forall m, Permutation (o m) m) -> similarTo (A:=XR) o s r t (Fin d) = false.
Proof.
  exists [(0, 1)], [(0, 1)], [], 0%R. split; [lra|].
  assert (N : NoDup (keys [(0, 1)])) by (repeat constructor; simpl; tauto).
  split; auto. split; auto. split; [constructor|]. split; [discriminate|]. split; [intros k; tauto|]. split.
  - exists 1, 1. split; [|split; [|field]]; exists [0]; (split; [repeat constructor; simpl; tauto|split; [intros x; unfold member; simpl; tauto|reflexivity]]).
  - reflexivity.
Qed.
