(** Witnesses for C36-C40. *)
From Coq Require Import Reals Lra Relations.
From Verif Require Import Base Res Arith LogSpec UnionFind Indep IndepSpec IndepLemmas TestLemmas IndGraphLemmas Stats StatsSpec StatsLemmas.
Local Open Scope Z_scope.

Lemma howmany_app_cons {T} (f : T -> bool) x l : howmany f (x :: l) = (if f x then 1 else 0) + howmany f l.
Proof. unfold howmany. simpl. destruct (f x); simpl length; lia. Qed.

Lemma one_hot (f : nat -> bool) (n k : nat) : (forall i, (i < n)%nat -> f i = Nat.eqb i k) ->
  sumTo (fun i => if f i then 1 else 0) n = (if (k <? n)%nat then 1 else 0).
Proof.
  induction n as [|n IH]; intros H; [reflexivity|]. rewrite sumTo_S, IH by (intros; apply H; lia). rewrite H by lia.
  destruct (Nat.ltb_spec k n), (Nat.ltb_spec k (S n)), (Nat.eqb_spec n k); lia.
Qed.

(** A value equal to the number of categories is accepted and its row lost. *)
Lemma contingency_drop_l p q xs ys : 0 <= p -> 0 <= q ->
  (forall v, In v xs -> 0 <= v <= p) -> (forall v, In v ys -> 0 <= v <= q) -> length ys = length xs ->
  exists m, contingency p q xs ys = Ok m /\
    at_ m (Z.to_nat p) (Z.to_nat q) (howmany (fun ab => (fst ab <? p) && (snd ab <? q)) (combine xs ys)).
Proof.
  intros Hp Hq Hx Hy Hl. rewrite <- (Z2Nat.id p), <- (Z2Nat.id q) in * by lia. set (P := Z.to_nat p) in *. set (Q := Z.to_nat q) in *.
  rewrite contingency_full by auto. eexists. split; [reflexivity|]. rewrite !Nat2Z.id.
  set (o := fun a b : nat => _).
  replace (howmany _ _) with (full o P Q P Q); [apply tab_at; lia|].
  unfold full. rewrite !Nat.ltb_irrefl. unfold o. clear o Hl.
  assert (Hc : forall ab, In ab (combine xs ys) -> 0 <= fst ab /\ 0 <= snd ab).
  { intros [a b] H. pose proof (in_combine_l _ _ _ _ H) as Ha. pose proof (in_combine_r _ _ _ _ H) as Hb. apply Hx in Ha. apply Hy in Hb. simpl. lia. }
  revert Hc. generalize (combine xs ys). clear. induction l as [|[a b] l IH]; intros Hc.
  - unfold howmany. simpl. etransitivity; [apply sumTo_ext; intros; apply sumTo_zero|apply sumTo_zero].
  - rewrite howmany_app_cons, <- IH by (intros; apply Hc; right; auto). cbn [fst snd].
    etransitivity; [apply sumTo_ext; intros i _; apply sumTo_ext; intros j _; apply howmany_app_cons|]. cbn [fst snd].
    etransitivity; [apply sumTo_ext; intros i _; apply sumTo_add|]. rewrite sumTo_add. f_equal.
    destruct (Hc (a, b) (or_introl eq_refl)) as [Ha Hb]. cbn [fst snd] in *.
    rewrite (sumTo_ext _ (fun i => if (a =? Z.of_nat i) && (b <? Z.of_nat Q) then 1 else 0)).
    + destruct (b <? Z.of_nat Q).
      * rewrite (sumTo_ext _ (fun i => if Nat.eqb i (Z.to_nat a) then 1 else 0)).
        -- rewrite (one_hot _ P (Z.to_nat a)) by auto. rewrite andb_true_r.
           destruct (Nat.ltb_spec (Z.to_nat a) P), (Z.ltb_spec a (Z.of_nat P)); lia.
        -- intros i _. rewrite andb_true_r. destruct (Z.eqb_spec a (Z.of_nat i)), (Nat.eqb_spec i (Z.to_nat a)); auto; lia.
      * rewrite andb_false_r. etransitivity; [apply sumTo_ext; intros; rewrite andb_false_r; reflexivity|apply sumTo_zero].
    + intros i _. destruct (a =? Z.of_nat i); cbn [andb]; [|apply sumTo_zero].
      rewrite (sumTo_ext _ (fun j => if Nat.eqb j (Z.to_nat b) then 1 else 0)).
      * rewrite (one_hot _ Q (Z.to_nat b)) by auto. destruct (Nat.ltb_spec (Z.to_nat b) Q), (Z.ltb_spec b (Z.of_nat Q)); lia.
      * intros j _. destruct (Z.eqb_spec b (Z.of_nat j)), (Nat.eqb_spec j (Z.to_nat b)); auto; lia.
Qed.

(** The empty table. *)
Definition empty_table : list (list Z) := [[0; 0]; [0; 0]].
Lemma empty_is_table : table_of 1 1 empty_table (fun _ _ => 0).
Proof.
  constructor.
  - intros [|i] [|j]; try lia. intros _ _. split; [|lia]. exists [0; 0]. auto.
  - intros [|i]; try lia. intros _. exists [0; 0]. auto.
  - intros [|j]; try lia. intros _. exists [0; 0]. auto.
  - exists [0; 0]. auto.
Qed.
Lemma chi_empty_l : exists p q m o, table_of p q m o /\ @chiStat XR p q m = Ok NaN.
Proof.
  exists 1%nat, 1%nat, empty_table, (fun _ _ => 0). split; [apply empty_is_table|].
  unfold chiStat. cbn. unfold xsign. destruct (Req_EM_T 0 0); [|lra]. destruct (Rlt_dec 0 0); [lra|]. cbn. auto.
Qed.

(** Quantiles. *)
Lemma quantiles_refuted_l : exists X m, (0 < m <= length X)%nat /\
  exists P, @partitionQuantiles XR X (Z.of_nat m) = Ok P /\ nth_error P (m - 1) = Some (NaN, NaN, Fin 0).
Proof.
  exists (map Z.of_nat (seq 0 15)), 6%nat. split; [rewrite map_length, seq_length; lia|].
  destruct (quantile_run XR (map Z.of_nat (seq 0 15)) 6 ltac:(lia)) as (l & _ & El & E).
  assert (Hl : l = 3%nat) by (rewrite El; vm_compute; auto). subst l. eexists. split; [exact E|].
  unfold blocks. rewrite map_map. rewrite (map_nth_error _ 5 (seq 0 6) (d := 5%nat)) by reflexivity.
  simpl Nat.eqb. cbv iota. rewrite skipn_all2 by (rewrite map_length, seq_length; auto). f_equal.
  unfold blockStats. cbn. unfold xsign. destruct (Req_EM_T 0 0); [|lra]. destruct (Rlt_dec 0 0); [lra|]. cbn.
  destruct (Req_EM_T 0 0); [|lra]. auto.
Qed.

(** A data set with two dependent variables and a third independent one. *)
Definition gdata : list vardata := [mkVD 7 2 [0; 0; 1; 1]; mkVD 3 2 [0; 1; 0; 1]; mkVD 9 2 [0; 0; 1; 1]].
Lemma gdata_ok : well_formed gdata /\ NoDup (map vd_id gdata).
Proof.
  split; [|simpl; repeat constructor; simpl; intuition lia].
  split; [|split].
  - intros d [<-|[<-|[<-|[]]]] v; simpl; intuition lia.
  - intros d e [<-|[<-|[<-|[]]]] [<-|[<-|[<-|[]]]]; auto.
  - intros d [<-|[<-|[<-|[]]]]; simpl; lia.
Qed.

(** An arithmetic over Z, for running the code on examples: every operation but comparison is
    arbitrary, and chi2 is chosen so that the test rejects large sums of counts. *)
Definition ZA : arith := mkArith Z (fun z => z) (-1) Z.add Z.sub Z.mul Z.div (fun z => z - 1) (fun z => z) (fun z => z) (fun z => z)
  Z.gtb Z.geb Z.eqb (fun _ => false).
Definition zchi2 (s _ : Z) : Z := s.
