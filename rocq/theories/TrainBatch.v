(** Batches: an epoch is a run over consecutive groups; what applying a table does. *)
From Coq Require Import FunctionalExtensionality Classical_Prop.
From Verif Require Import Base Res Arith LogMath GraphSpec GraphLemmas Search SearchLemmas Topo TopoLemmas Storer StorerSpec StorerLemmas
  Spn DP SpnSpec Walk WalkLemmas Struct Derive DeriveLemmas Hard PipeLemmas Train TrainSpec TrainRange TrainKeep TrainShape.

Lemma batches_exist {X} b : 0 < b -> forall l : list X, exists cs, batches b l cs.
Proof.
  intros Hb l. remember (length l) as n eqn:En. revert l En. induction n as [n IH] using lt_wf_ind. intros l ->.
  destruct (Nat.lt_ge_cases (length l) b) as [Hlt|Hge].
  - destruct l as [|x l]; [exists []; constructor|]. exists [x :: l]. constructor; auto. discriminate.
  - destruct (IH (length (skipn b l))) with (l := skipn b l) as (cs & Hcs); auto; [rewrite skipn_length; lia|].
    exists (firstn b l :: cs). rewrite <- (firstn_skipn b l) at 1. constructor; auto. rewrite firstn_length. lia.
Qed.
Lemma batches_in {X} b (l : list X) cs : 0 < b -> batches b l cs -> forall c, In c cs -> c <> [] /\ forall x, In x c -> In x l.
Proof.
  intros Hb. induction 1 as [|l H1 H2|c l cs Hc H IH]; intros c' Hc'; [destruct Hc'| |].
  - destruct Hc' as [<-|[]]. auto.
  - destruct Hc' as [<-|Hc'].
    + split; [intros ->; simpl in Hc; lia|]. intros x Hx. apply in_or_app; auto.
    + destruct (IH c' Hc') as [K1 K2]. split; auto. intros x Hx. apply in_or_app; auto.
Qed.

Lemma foldi_app {X S} (f : nat -> S -> X -> res S) a b : forall i s,
  foldi_from i f (a ++ b) s = (s1 <- foldi_from i f a s; foldi_from (i + length a) f b s1).
Proof.
  induction a as [|x a IH]; intros i s; simpl; [rewrite Nat.add_0_r; auto|].
  destruct (f i s x) as [s1| |]; auto. cbn [bind]. rewrite IH. replace (i + 1 + length a) with (i + Datatypes.S (length a)) by lia. auto.
Qed.

Section Batch.
Context {St : Type}.
Variable b : Z.
Hypothesis Hb : (0 < b)%Z.
Variable one : St -> varset -> res St.
Variable flush : St -> res St.

Definition runBatch (s : St) (c : list varset) : res St := s1 <- foldr_ one c s; flush s1.
Local Notation f := (fun i s I => s <- one s I; m <- remOf (S i) b; if (m =? 0)%Z then flush s else Ok s).

Lemma remOf_ok i : remOf i b = Ok (Z.of_nat i mod b)%Z.
Proof. unfold remOf. destruct (Z.eqb_spec b 0); [lia|]. rewrite Z.rem_mod_nonneg by lia. auto. Qed.
Lemma rem_mid k j : 0 < j < Z.to_nat b -> (Z.of_nat (k * Z.to_nat b + j) mod b <> 0)%Z.
Proof.
  intros Hj. rewrite Nat2Z.inj_add, Nat2Z.inj_mul, Z2Nat.id by lia. rewrite Z.add_comm, Z_mod_plus_full. rewrite Z.mod_small; lia.
Qed.
Lemma rem_end k : (Z.of_nat (k * Z.to_nat b) mod b = 0)%Z.
Proof. rewrite Nat2Z.inj_mul, Z2Nat.id by lia. apply Z_mod_mult. Qed.

Lemma short k c : forall j s, j + length c < Z.to_nat b -> foldi_from (k * Z.to_nat b + j) f c s = foldr_ one c s.
Proof.
  induction c as [|x c IH]; intros j s Hl; cbn [foldi_from foldr_ length] in *; auto. destruct (one s x) as [s1| |]; cbn [bind]; auto.
  rewrite remOf_ok. cbn [bind]. replace (S (k * Z.to_nat b + j)) with (k * Z.to_nat b + S j) by lia.
  destruct (Z.eqb_spec (Z.of_nat (k * Z.to_nat b + S j) mod b) 0) as [E|_]; [exfalso; revert E; apply rem_mid; lia|].
  replace (k * Z.to_nat b + j + 1) with (k * Z.to_nat b + S j) by lia. apply IH. lia.
Qed.
Lemma full k c s : length c = Z.to_nat b -> foldi_from (k * Z.to_nat b) f c s = runBatch s c.
Proof.
  intros HL. destruct (exists_last (l := c)) as (a & x & ->); [intros ->; simpl in HL; lia|].
  rewrite app_length in HL. cbn [length] in HL. rewrite foldi_app. unfold runBatch. rewrite foldr_app.
  rewrite <- (Nat.add_0_r (k * Z.to_nat b)) at 1. rewrite short by lia. destruct (foldr_ one a s) as [s1| |]; cbn [bind]; auto.
  cbn [foldi_from foldr_]. destruct (one s1 x) as [s2| |]; cbn [bind]; auto. rewrite remOf_ok. cbn [bind].
  replace (S (k * Z.to_nat b + length a)) with (S k * Z.to_nat b) by lia. rewrite rem_end. cbn. destruct (flush s2); auto.
Qed.

Lemma batch_runs data cs s : batches (Z.to_nat b) data cs ->
  (s <- foldi f data s; m <- remOf (length data) b; if (m =? 0)%Z then Ok s else flush s) = foldr_ runBatch cs s.
Proof.
  intros H. unfold foldi.
  enough (G : forall k s, (s <- foldi_from (k * Z.to_nat b) f data s; m <- remOf (k * Z.to_nat b + length data) b; if (m =? 0)%Z then Ok s else flush s)
    = foldr_ runBatch cs s) by (apply (G 0)).
  clear s. induction H as [|l H1 H2|c l cs Hc H IH]; intros k s.
  - cbn [foldi_from bind length foldr_]. rewrite Nat.add_0_r, remOf_ok, rem_end. auto.
  - rewrite <- (Nat.add_0_r (k * Z.to_nat b)) at 1. rewrite short by lia. cbn [foldr_]. unfold runBatch. rewrite remOf_ok.
    destruct (foldr_ one l s) as [s1| |]; cbn [bind]; auto.
    destruct (Z.eqb_spec (Z.of_nat (k * Z.to_nat b + length l) mod b) 0) as [E|_]; [|destruct (flush s1); auto].
    exfalso. revert E. apply rem_mid. destruct l; [congruence|simpl in *; lia].
  - rewrite foldi_app, full by auto. cbn [foldr_]. destruct (runBatch s c) as [s1| |]; cbn [bind]; auto.
    rewrite <- (IH (S k) s1). rewrite app_length, Hc. replace (k * Z.to_nat b + Z.to_nat b) with (S k * Z.to_nat b) by lia.
    replace (k * Z.to_nat b + (Z.to_nat b + length l)) with (S k * Z.to_nat b + length l) by lia. auto.
Qed.
End Batch.
Lemma batchEpoch_runs {A : arith} b (Hb : (0 < b)%Z) one flush data cs (s : tstate A) :
  batches (Z.to_nat b) data cs -> batchEpoch b one flush data s = foldr_ (runBatch one flush) cs s.
Proof. apply batch_runs; auto. Qed.

(** ** What applying a table does *)
Section Apply.
Context {A : arith}.
Local Notation F := (F A).
Local Notation storer := (storer F).
Variables r N M : nat.
Variable net : network A.
Local Notation below := (reach (children net) r).
Hypothesis HB : forall u, below u -> u < N.
Variables (ordN : nat -> (nat -> bool) -> list nat) (ordP : nat -> nat -> (Z -> option F) -> list (Z * F)).
Hypothesis HN : ranges_nodes N ordN.
Hypothesis HP : ranges_entries M ordP.

Lemma tValue_cnode (st : storer) k s : fst (tValue F st (fst (table F st k)) s) = cnode F st k s.
Proof. unfold table, tValue, cnode. cbn [fst]. destruct (tables F st k); auto. Qed.
Lemma keysOf_cnode (st : storer) k s : keysOf st (fst (table F st k)) s = match cnode F st k s with Some _ => true | None => false end.
Proof. unfold table, keysOf, cnode. cbn [fst]. destruct (tables F st k); auto. Qed.

Definition applied (f : F -> F -> F) (nrm : bool) (st : storer) (k : Z) (n : network A) : network A := fun u =>
  match nk (n u), cnode F st k u with
  | KSum W, Some _ => mkNode (KSum (maybeNorm nrm (stepped f (cval F st k u) 0 W))) (nch (n u))
  | _, _ => n u
  end.

Lemma gR_applied f nrm occ st k n s : sok M below st -> (forall u W, nk (n u) = KSum W -> inside (cval F st k u) W) ->
  gR ordP f nrm occ st (fst (table F st k)) s (n s) = Ok (applied f nrm st k n s).
Proof.
  intros (_ & Hs) Hi. unfold gR, applied. rewrite tValue_cnode. destruct (nk (n s)) as [W| |] eqn:EK; auto. destruct (cnode F st k s) as [m|] eqn:Ec; auto.
  destruct (HP occ s (mheap F st m) (Hs m)) as [A1 A2].
  rewrite (rangeWeights_ok f _ (mheap F st m) W A1 A2).
  - cbn [bind]. unfold cval. rewrite Ec. auto.
  - intros i d Hd. apply (Hi s W EK i d). unfold cval. rewrite Ec. auto.
Qed.

Lemma applyRange_l f nrm occ st k n : sok M below st -> (forall u W, nk (n u) = KSum W -> inside (cval F st k u) W) ->
  applyRange ordN ordP f nrm occ st k n = Ok (applied f nrm st k n).
Proof.
  intros Hs Hi. unfold applyRange. set (t := fst (table F st k)).
  destruct (HN occ (keysOf st t)) as [A1 A2]; [intros x Hx; apply HB; eapply keys_below; eauto|].
  destruct (local_ok (rangeNode ordP f nrm occ st t) (gR ordP f nrm occ st t) (rangeNode_local ordP f nrm occ st t) n (ordN occ (keysOf st t)) A1)
    as (n' & E & H1 & H2).
  { intros s _. eexists. apply gR_applied; auto. }
  rewrite E. f_equal. extensionality u. destruct (keysOf st t u) eqn:Ek.
  - pose proof (H1 u (proj2 (A2 u) Ek)) as E1. unfold t in E1. rewrite gR_applied in E1 by auto. congruence.
  - rewrite H2 by (rewrite A2; congruence). unfold applied. unfold t in Ek. rewrite keysOf_cnode in Ek. destruct (cnode F st k u); [discriminate|].
    destruct (nk (n u)); auto.
Qed.
End Apply.
