From Coq Require Import Reals Lra Relations.
From Verif Require Import Base Res Arith LogSpec Indep IndepSpec IndepLemmas TestLemmas IndGraphLemmas ChiAllSpec PowerSpec PowerLemmas.
Local Open Scope Z_scope.

(** From pairs to graphs. *)
Lemma swap_count xs : forall ys a b, howmany (fun ab => (fst ab =? a) && (snd ab =? b)) (combine xs ys) = howmany (fun ab => (fst ab =? b) && (snd ab =? a)) (combine ys xs).
Proof. induction xs as [|x xs IH]; intros [|y ys] a b; try reflexivity. cbn [combine]. rewrite !howmany_cons, IH. cbn [fst snd]. rewrite andb_comm. reflexivity. Qed.
Lemma unrelated_swap xs ys a b : length ys = length xs -> unrelated_at xs ys a b -> unrelated_at ys xs b a.
Proof. unfold unrelated_at. intros H E. rewrite swap_count, H, E. ring. Qed.

Lemma unrelated_dec xs ys a b : {unrelated_at xs ys a b} + {~ unrelated_at xs ys a b}.
Proof. unfold unrelated_at. apply Z.eq_dec. Qed.
Lemma all_or_some p q xs ys : 0 <= p -> 0 <= q ->
  (forall a b, 0 <= a < p -> 0 <= b < q -> unrelated_at xs ys a b) \/ (exists a b, 0 <= a < p /\ 0 <= b < q /\ ~ unrelated_at xs ys a b).
Proof.
  intros Hp Hq. set (L := list_prod (map Z.of_nat (seq 0 (Z.to_nat p))) (map Z.of_nat (seq 0 (Z.to_nat q)))).
  assert (HL : forall a b, In (a, b) L <-> 0 <= a < p /\ 0 <= b < q).
  { intros a b. unfold L. rewrite in_prod_iff, !in_map_iff. split.
    - intros ((x & <- & Hx) & (y & <- & Hy)). apply in_seq in Hx, Hy. lia.
    - intros (Ha & Hb). split; [exists (Z.to_nat a)|exists (Z.to_nat b)]; rewrite in_seq; lia. }
  destruct (Forall_Exists_dec (fun ab => unrelated_at xs ys (fst ab) (snd ab)) (fun ab => unrelated_dec xs ys (fst ab) (snd ab)) L) as [H|H].
  - left. intros a b Ha Hb. rewrite Forall_forall in H. apply (H (a, b)). apply HL; auto.
  - right. apply Exists_exists in H as ([a b] & Hi & Hn). apply HL in Hi as (Ha & Hb). exists a, b. auto.
Qed.

Lemma crst_mono (P Q : Z -> Z -> Prop) u v : (forall x y, P x y -> clos_refl_sym_trans Z Q x y) -> clos_refl_sym_trans Z P u v -> clos_refl_sym_trans Z Q u v.
Proof. intros H. induction 1; [auto|apply rst_refl|apply rst_sym; auto|eapply rst_trans; eauto]. Qed.
Lemma components_iff (P Q : Z -> Z -> Prop) vars K : (forall x y, P x y -> clos_refl_sym_trans Z Q x y) -> (forall x y, Q x y -> clos_refl_sym_trans Z P x y) ->
  components P vars K -> components Q vars K.
Proof. intros H1 H2 (A & B & C). split; [|split]; auto. intros u v Hu Hv. rewrite C by auto. split; apply crst_mono; auto. Qed.

Section G.
Variable chi2 : xreal -> Z -> xreal.
Hypothesis HC : exact_cdf chi2.
Variables (data : list vardata) (pval : R).
Hypotheses (HW : well_formed data) (Hcat : forall d, In d data -> 2 <= vd_cat d) (Hv : (0 < pval <= 1)%R).

Lemma again_wf c : well_formed (again_data c data).
Proof.
  destruct HW as (A & B & C). unfold again_data. split; [|split].
  - intros d Hd v Hi. apply in_map_iff in Hd as (d' & <- & Hd). cbn [vd_data vd_cat] in *. apply (A d'); auto. eapply in_again; eauto.
  - intros d e Hd He. apply in_map_iff in Hd as (d' & <- & Hd). apply in_map_iff in He as (e' & <- & He). cbn [vd_data]. rewrite !again_length, (B d' e'); auto.
  - intros d Hd. apply in_map_iff in Hd as (d' & <- & Hd). apply (C d'); auto.
Qed.
Lemma again_ids c : map vd_id (again_data c data) = map vd_id data.
Proof. unfold again_data. rewrite map_map. reflexivity. Qed.
Lemma pairTest_again c i j d e : nth_error data i = Some d -> nth_error data j = Some e ->
  @pairTest XR chi2 (again_data c data) (Fin pval) i j = pairOf chi2 (vd_cat d) (vd_cat e) (again c (vd_data d)) (again c (vd_data e)) pval.
Proof.
  intros Hi Hj. unfold pairTest, idx, again_data. rewrite !nth_error_map, Hi, Hj. reflexivity.
Qed.
Lemma pair_limit i j d e : nth_error data i = Some d -> nth_error data j = Some e ->
  exists N, forall c, (N <= c)%nat -> forall t, @pairTest XR chi2 (again_data c data) (Fin pval) i j = Ok t ->
    (t = true <-> forall a b, 0 <= a < vd_cat d -> 0 <= b < vd_cat e -> unrelated_at (vd_data d) (vd_data e) a b).
Proof.
  intros Hi Hj. pose proof (nth_error_In _ _ Hi) as Id. pose proof (nth_error_In _ _ Hj) as Ie. destruct HW as (A & B & C).
  destruct (all_or_some (vd_cat d) (vd_cat e) (vd_data d) (vd_data e)) as [H|(a & b & Ha & Hb & Hn)]; [auto|auto| |].
  - exists 0%nat. intros c _ t Ht. rewrite (pairTest_again c i j d e Hi Hj) in Ht. rewrite pair_accepts in Ht; auto.
    + injection Ht as <-. tauto.
    + intros v Hx. apply (A d); auto. eapply in_again; eauto.
    + intros v Hx. apply (A e); auto. eapply in_again; eauto.
    + rewrite !again_length, (B e d); auto.
    + intros a b Ha Hb. unfold unrelated_at. rewrite combine_again, !howmany_again, again_length by (apply B; auto). specialize (H a b Ha Hb). unfold unrelated_at in H. rewrite Nat2Z.inj_mul. nia.
    + lra.
  - destruct (pair_rejects chi2 HC (vd_cat d) (vd_cat e) (vd_data d) (vd_data e) pval a b) as (N & HN); auto; try (apply A; auto); try lra.
    exists N. intros c Hc t Ht. rewrite (pairTest_again c i j d e Hi Hj), HN in Ht by auto. injection Ht as <-. split; [discriminate|]. intros H. exfalso. auto.
Qed.
Lemma all_limit : exists N, forall c, (N <= c)%nat -> forall i j d e t, nth_error data i = Some d -> nth_error data j = Some e ->
  @pairTest XR chi2 (again_data c data) (Fin pval) i j = Ok t ->
  (t = true <-> forall a b, 0 <= a < vd_cat d -> 0 <= b < vd_cat e -> unrelated_at (vd_data d) (vd_data e) a b).
Proof.
  set (Q := fun c ij => forall d e t, nth_error data (fst ij) = Some d -> nth_error data (snd ij) = Some e ->
    @pairTest XR chi2 (again_data c data) (Fin pval) (fst ij) (snd ij) = Ok t ->
    (t = true <-> forall a b, 0 <= a < vd_cat d -> 0 <= b < vd_cat e -> unrelated_at (vd_data d) (vd_data e) a b)).
  assert (H : forall L : list (nat * nat), exists N, forall c, (N <= c)%nat -> forall ij, In ij L -> Q c ij).
  { induction L as [|[i j] L (N & IH)]; [exists 0%nat; intros ? ? ? []|].
    destruct (nth_error data i) as [d|] eqn:Ei; [destruct (nth_error data j) as [e|] eqn:Ej|].
    - destruct (pair_limit i j d e Ei Ej) as (M & HM). exists (Nat.max N M). intros c Hc ij [<-|Hi]; [|apply IH; auto; lia].
      intros d' e' t Hd He Ht. cbn [fst snd] in *. assert (d' = d) by congruence. assert (e' = e) by congruence. subst. apply (HM c); auto. lia.
    - exists N. intros c Hc ij [<-|Hi]; [|apply IH; auto]. intros d' e' t Hd He Ht. cbn [fst snd] in *. congruence.
    - exists N. intros c Hc ij [<-|Hi]; [|apply IH; auto]. intros d' e' t Hd He Ht. cbn [fst snd] in *. congruence. }
  destruct (H (list_prod (seq 0 (length data)) (seq 0 (length data)))) as (N & HN). exists N. intros c Hc i j d e t Hi Hj Ht.
  apply (HN c Hc (i, j)); auto. rewrite in_prod_iff, !in_seq. assert (i < length data)%nat by (apply nth_error_Some; congruence). assert (j < length data)%nat by (apply nth_error_Some; congruence). lia.
Qed.
Lemma pair_defined c i j d e : nth_error data i = Some d -> nth_error data j = Some e -> exists t, @pairTest XR chi2 (again_data c data) (Fin pval) i j = Ok t.
Proof.
  intros Hi Hj. pose proof (nth_error_In _ _ Hi) as Id. pose proof (nth_error_In _ _ Hj) as Ie. destruct HW as (A & B & C). rewrite (pairTest_again c i j d e Hi Hj).
  destruct (pair_decides chi2 HC (vd_cat d) (vd_cat e) (again c (vd_data d)) (again c (vd_data e))) as (F & _ & E); auto.
  - intros v Hx. apply (A d); auto. eapply in_again; eauto.
  - intros v Hx. apply (A e); auto. eapply in_again; eauto.
  - rewrite !again_length, (B e d); auto.
  - eexists. apply E.
Qed.

Lemma power_graph_l : NoDup (map vd_id data) ->
  exists N, forall c, (N <= c)%nat -> exists M, forall fuel, (M < fuel)%nat -> exists a K a' K',
    @newIndepGraph XR chi2 (again_data c data) (Fin pval) fuel = Ok (a, K) /\ @newUFIndepGraph XR chi2 (again_data c data) (Fin pval) fuel = Ok (a', K') /\
    components (related data) (map vd_id data) K /\ components (related data) (map vd_id data) K'.
Proof.
  intros HD. destruct all_limit as (N & HN). exists N. intros c Hc.
  destruct (@indep_graph_l XR chi2 (again_data c data) (Fin pval) (again_wf c)) as (M & HM); [rewrite again_ids; auto|]. exists M. intros fuel Hf.
  destruct (HM fuel Hf) as (a & K & a' & K' & E1 & E2 & C1 & C2). rewrite again_ids in C1, C2. exists a, K, a', K'. split; [|split]; auto.
  assert (D1 : forall u v, judged_dependent (A := XR) chi2 (again_data c data) (Fin pval) u v -> clos_refl_sym_trans Z (related data) u v).
  { intros u v (i & j & Hi & Hj & Hij & Ht). rewrite again_ids in Hi, Hj. rewrite nth_error_map in Hi, Hj.
    destruct (nth_error data i) as [d|] eqn:Ei; [|discriminate]. destruct (nth_error data j) as [e|] eqn:Ej; [|discriminate]. injection Hi as <-. injection Hj as <-.
    pose proof (nth_error_In _ _ Ei) as Id. pose proof (nth_error_In _ _ Ej) as Ie. destruct HW as (A & B & C).
    destruct (all_or_some (vd_cat d) (vd_cat e) (vd_data d) (vd_data e)) as [H|(x & y & Hx & Hy & Hn)]; [auto|auto| |].
    - apply (HN c Hc i j d e false Ei Ej Ht) in H. discriminate.
    - apply rst_step. exists d, e, x, y. auto 10. }
  assert (D2 : forall u v, related data u v -> clos_refl_sym_trans Z (judged_dependent (A := XR) chi2 (again_data c data) (Fin pval)) u v).
  { assert (W : forall i j d e x y, nth_error data i = Some d -> nth_error data j = Some e -> (i < j)%nat -> 0 <= x < vd_cat d -> 0 <= y < vd_cat e -> ~ unrelated_at (vd_data d) (vd_data e) x y ->
        judged_dependent (A := XR) chi2 (again_data c data) (Fin pval) (vd_id d) (vd_id e)).
    { intros i j d e x y Ei Ej Hij Hx Hy Hn. exists i, j. rewrite again_ids, !nth_error_map, Ei, Ej. split; [reflexivity|]. split; [reflexivity|].
      assert (j < length data)%nat by (apply nth_error_Some; congruence). split; [unfold again_data; rewrite map_length; lia|].
      destruct (pair_defined c i j d e Ei Ej) as ([|] & Ht); auto. exfalso. apply Hn. apply (HN c Hc i j d e true Ei Ej Ht); auto. }
    intros u v (d & e & x & y & Id & Ie & <- & <- & Hx & Hy & Hn). apply In_nth_error in Id as (i & Ei). apply In_nth_error in Ie as (j & Ej).
    destruct (Nat.lt_trichotomy i j) as [H|[H|H]].
    - apply rst_step. eapply W; eauto.
    - subst j. assert (d = e) by congruence. subst. apply rst_refl.
    - apply rst_sym, rst_step. eapply (W j i e d y x); eauto. intros U. apply Hn. apply unrelated_swap; auto. apply HW; eapply nth_error_In; eauto. }
  split; eapply components_iff; eauto.
Qed.
End G.

(** There is such a distribution function, without any choice. *)
Lemma described (P : R -> Prop) : (exists x, P x) -> (forall x y, P x -> P y -> x = y) -> {x | P x}.
Proof.
  intros He Hu. destruct (completeness (fun y => exists x, P x /\ (y <= x)%R)) as (m & Hm).
  - destruct He as (x & Hx). exists x. intros y (z & Hz & Hyz). rewrite (Hu x z); auto.
  - destruct He as (x & Hx). exists x, x. split; auto. lra.
  - exists m. destruct He as (x & Hx). replace m with x; auto. destruct Hm as (U & L). apply Rle_antisym.
    + apply U. exists x. split; auto. lra.
    + apply L. intros y (z & Hz & Hyz). rewrite (Hu x z); auto.
Qed.
Lemma cdf_value df x : 1 <= df -> (0 <= x)%R -> {y | exists F, chi_cdf df F /\ y = F x}.
Proof.
  intros Hdf Hx. apply described.
  - destruct (ChiAllExist.chi_cdf_exists df Hdf) as (F & HF). exists (F x), F. auto.
  - intros y z (F & HF & ->) (H & HH & ->). eapply ChiAllExist.chi_cdf_unique; eauto.
Qed.
Definition theChi2 (v : xreal) (df : Z) : xreal :=
  match v with
  | Fin x => match Z_le_dec 1 df, Rle_dec 0 x with left H, left H' => Fin (proj1_sig (cdf_value df x H H')) | _, _ => NaN end
  | _ => NaN
  end.
Lemma theChi2_ok : exact_cdf theChi2.
Proof.
  intros df Hdf. destruct (ChiAllExist.chi_cdf_exists df Hdf) as (F & HF). exists F. split; auto. intros x Hx. unfold theChi2.
  destruct (Z_le_dec 1 df) as [H|]; [|lia]. destruct (Rle_dec 0 x) as [H'|]; [|lra]. f_equal. destruct (cdf_value df x H H') as (y & G & HG & ->). cbn [proj1_sig].
  eapply ChiAllExist.chi_cdf_unique; eauto.
Qed.

(** Three variables: the second mirrors the first, the third has nothing to do with either. *)
Definition powerData : list vardata := [mkVD 7 2 [0; 0; 1; 1]; mkVD 3 2 [1; 1; 0; 0]; mkVD 9 3 [0; 2; 0; 2]].
Lemma powerData_ok : well_formed powerData /\ (forall d, In d powerData -> 2 <= vd_cat d) /\ NoDup (map vd_id powerData) /\
  related powerData 7 3 /\ ~ related powerData 7 9 /\ ~ related powerData 3 9.
Proof.
  split; [|split; [|split; [|split; [|split]]]].
  - split; [|split].
    + intros d Hd v Hv. simpl in Hd. repeat (destruct Hd as [<-|Hd]); try contradiction; simpl in Hv |- *; lia.
    + intros d e Hd He. simpl in Hd, He. repeat (destruct Hd as [<-|Hd]); repeat (destruct He as [<-|He]); try contradiction; reflexivity.
    + intros d Hd. simpl in Hd. repeat (destruct Hd as [<-|Hd]); try contradiction; simpl; lia.
  - intros d Hd. simpl in Hd. repeat (destruct Hd as [<-|Hd]); try contradiction; simpl; lia.
  - repeat constructor; simpl; lia.
  - exists (mkVD 7 2 [0; 0; 1; 1]), (mkVD 3 2 [1; 1; 0; 0]), 0, 0. split; [left; reflexivity|]. split; [right; left; reflexivity|]. split; [reflexivity|]. split; [reflexivity|]. split; [simpl; lia|]. split; [simpl; lia|]. vm_compute. discriminate.
  - intros (d & e & a & b & Hd & He & Ed & Ee & Ha & Hb & Hn). apply Hn. simpl in Hd, He. repeat (destruct Hd as [<-|Hd]); repeat (destruct He as [<-|He]); try contradiction; simpl in Ed, Ee, Ha, Hb; try lia.
    assert (a = 0 \/ a = 1) as [->| ->] by lia; assert (b = 0 \/ b = 1 \/ b = 2) as [->|[->| ->]] by lia; vm_compute; reflexivity.
  - intros (d & e & a & b & Hd & He & Ed & Ee & Ha & Hb & Hn). apply Hn. simpl in Hd, He. repeat (destruct Hd as [<-|Hd]); repeat (destruct He as [<-|He]); try contradiction; simpl in Ed, Ee, Ha, Hb; try lia.
    assert (a = 0 \/ a = 1) as [->| ->] by lia; assert (b = 0 \/ b = 1 \/ b = 2) as [->|[->| ->]] by lia; vm_compute; reflexivity.
Qed.
Lemma power_pair_l chi2 : exact_cdf chi2 ->
  forall p q xs ys, 2 <= p -> 2 <= q -> (forall v, In v xs -> 0 <= v < p) -> (forall v, In v ys -> 0 <= v < q) -> length ys = length xs ->
  exists m, contingency p q xs ys = Ok m /\
    ((forall a b, 0 <= a < p -> 0 <= b < q -> unrelated_at xs ys a b) -> forall pval, (pval <= 1)%R ->
       @gTest XR chi2 p q m (Fin pval) = Ok true /\ (xs <> [] -> @chiSquareTest XR chi2 p q m (Fin pval) = Ok true)) /\
    forall a b, 0 <= a < p -> 0 <= b < q -> ~ unrelated_at xs ys a b -> forall pval, (0 < pval)%R ->
      exists N, forall c, (N <= c)%nat -> exists mc, contingency p q (again c xs) (again c ys) = Ok mc /\
        @gTest XR chi2 p q mc (Fin pval) = Ok false /\ @chiSquareTest XR chi2 p q mc (Fin pval) = Ok false.
Proof.
  intros HC p q xs ys Hp Hq Hx Hy Hl. destruct (cont_table p q xs ys) as (m & E & _); try lia; auto. exists m. split; auto. split.
  - intros H pval Hv. pose proof (pair_accepts chi2 HC p q xs ys Hp Hq Hx Hy Hl pval H Hv) as K. unfold pairOf in K. rewrite E in K. split; auto.
    intros Hne. pose proof (chi_accepts chi2 HC p q xs ys pval Hp Hq Hx Hy Hl Hne H Hv) as K'. unfold chiOf in K'. rewrite E in K'. auto.
  - intros a b Ha Hb Hn pval Hv. destruct (pair_rejects chi2 HC p q xs ys pval a b) as (N & HN); auto. destruct (chi_rejects chi2 HC p q xs ys pval a b) as (M & HM); auto.
    exists (Nat.max N M). intros c Hc. specialize (HN c ltac:(lia)). specialize (HM c ltac:(lia)). unfold pairOf in HN. unfold chiOf in HM.
    destruct (contingency p q (again c xs) (again c ys)) as [mc| |]; try discriminate. eauto.
Qed.
