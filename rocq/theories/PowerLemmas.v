From Coq Require Import Reals Lra.
From Verif Require Import Base Res Arith LogSpec LogLemmas ProbLemmas Indep IndepSpec IndepLemmas TestLemmas ChiAllSpec ChiAllLemmas ChiAllCases ChiAllExist PowerSpec.
Local Open Scope Z_scope.

(** The same rows again. *)
Lemma howmany_app {T} (f : T -> bool) l r : howmany f (l ++ r) = howmany f l + howmany f r.
Proof. unfold howmany. rewrite filter_app, app_length. lia. Qed.
Lemma howmany_again {T} (f : T -> bool) c l : howmany f (again c l) = Z.of_nat c * howmany f l.
Proof. unfold again. induction c as [|c IH]; [reflexivity|]. cbn [repeat concat]. rewrite howmany_app, IH. lia. Qed.
Lemma again_length {T} c (l : list T) : length (again c l) = (c * length l)%nat.
Proof. unfold again. induction c as [|c IH]; [reflexivity|]. cbn [repeat concat]. rewrite app_length, IH. lia. Qed.
Lemma in_again {T} c (l : list T) x : In x (again c l) -> In x l.
Proof. unfold again. induction c as [|c IH]; [intros []|]. cbn [repeat concat]. rewrite in_app_iff. tauto. Qed.
Lemma combine_app {T U} (a : list T) : forall (b : list U) c d, length a = length b -> combine (a ++ c) (b ++ d) = combine a b ++ combine c d.
Proof. induction a as [|x a IH]; intros [|y b] c d H; try discriminate; [reflexivity|]. cbn [app combine]. rewrite IH by (simpl in H; lia). reflexivity. Qed.
Lemma combine_again {T U} c (a : list T) (b : list U) : length a = length b -> combine (again c a) (again c b) = again c (combine a b).
Proof. intros H. unfold again. induction c as [|c IH]; [reflexivity|]. cbn [repeat concat]. rewrite combine_app, IH by auto. reflexivity. Qed.

Definition cnt (xs ys : list Z) (a b : nat) : Z := howmany (fun ab => (fst ab =? Z.of_nat a) && (snd ab =? Z.of_nat b)) (combine xs ys).

(** The table of two variables. *)
Lemma cont_table p q xs ys : 0 <= p -> 0 <= q ->
  (forall v, In v xs -> 0 <= v < p) -> (forall v, In v ys -> 0 <= v < q) -> length ys = length xs ->
  exists m, contingency p q xs ys = Ok m /\ table_of (Z.to_nat p) (Z.to_nat q) m (cnt xs ys) /\
    (forall a, row (Z.to_nat q) (cnt xs ys) a = howmany (Z.eqb (Z.of_nat a)) xs) /\
    (forall b, col (Z.to_nat p) (cnt xs ys) b = howmany (Z.eqb (Z.of_nat b)) ys) /\
    tot (Z.to_nat p) (Z.to_nat q) (cnt xs ys) = Z.of_nat (length xs).
Proof.
  intros Hp Hq Hx Hy Hl. destruct (contingency_l p q xs ys Hp Hq Hx Hy Hl) as (m & E & _ & _ & H1 & H2 & H3 & H4). exists m. split; auto.
  assert (R : forall a, sumTo (cnt xs ys a) (Z.to_nat q) = howmany (Z.eqb (Z.of_nat a)) xs) by (intros a; apply row_total; auto; rewrite Z2Nat.id by lia; auto).
  assert (C : forall b, sumTo (fun a => cnt xs ys a b) (Z.to_nat p) = howmany (Z.eqb (Z.of_nat b)) ys) by (intros b; apply (col_total _ xs ys); auto; rewrite Z2Nat.id by lia; auto).
  assert (T : sumTo (fun a => sumTo (cnt xs ys a) (Z.to_nat q)) (Z.to_nat p) = Z.of_nat (length xs)).
  { rewrite <- (all_total (Z.to_nat p) xs) by (rewrite Z2Nat.id by lia; auto). apply sumTo_ext. intros; apply R. }
  split; [|split; [exact R|split; [exact C|exact T]]].
  constructor.
  - intros i j Hi Hj. specialize (H1 (Z.of_nat i) (Z.of_nat j) ltac:(lia) ltac:(lia)). rewrite !Nat2Z.id in H1. split; [exact H1|]. unfold cnt, howmany. lia.
  - intros i Hi. specialize (H2 (Z.of_nat i) ltac:(lia)). rewrite Nat2Z.id in H2. change (at_ m i (Z.to_nat q) (sumTo (cnt xs ys i) (Z.to_nat q))). rewrite R. exact H2.
  - intros j Hj. specialize (H3 (Z.of_nat j) ltac:(lia)). rewrite Nat2Z.id in H3. change (at_ m (Z.to_nat p) j (sumTo (fun a => cnt xs ys a j) (Z.to_nat p))). rewrite C. exact H3.
  - change (at_ m (Z.to_nat p) (Z.to_nat q) (sumTo (fun a => sumTo (cnt xs ys a) (Z.to_nat q)) (Z.to_nat p))). rewrite T. exact H4.
Qed.

Lemma sumTo_scal c g n : sumTo (fun i => c * g i) n = c * sumTo g n.
Proof. induction n as [|n IH]; [unfold sumTo; simpl; lia|]. rewrite !sumTo_S, IH. lia. Qed.
Lemma gterm_scale p q m o c i j : table_of p q m o -> 0 < c -> (i < p)%nat -> (j < q)%nat ->
  gterm p q (fun i j => c * o i j) i j = (IZR c * gterm p q o i j)%R.
Proof.
  intros HT Hc Hi Hj. unfold gterm. destruct (Z.eqb_spec (o i j) 0) as [E|E].
  - rewrite E, Z.mul_0_r. simpl. ring.
  - destruct (Z.eqb_spec (c * o i j) 0) as [E'|_]; [nia|].
    pose proof (row_ge p q m o HT i j Hi Hj) as Hr. pose proof (col_ge p q m o HT i j Hi Hj) as Hcl. pose proof (tot_ge p q m o HT i Hi) as Ht. pose proof (o_nonneg p q m o HT i j Hi Hj) as Ho.
    assert (Ex : ex p q (fun i j => c * o i j) i j = (IZR c * ex p q o i j)%R).
    { unfold ex. replace (tot p q (fun i j => c * o i j)) with (c * tot p q o) by (unfold tot, row; rewrite <- sumTo_scal; apply sumTo_ext; intros; rewrite <- sumTo_scal; reflexivity).
      unfold col at 1, row at 1. rewrite !sumTo_scal. fold (col p o j). fold (row q o i). rewrite !mult_IZR. field. split; apply not_0_IZR; lia. }
    rewrite Ex, mult_IZR. assert (0 < IZR c)%R by (apply (IZR_lt 0); auto).
    assert (Hxp : ex p q o i j <> 0%R) by (intros Hz; apply E; apply (ex_zero p q m o HT); auto; lia).
    replace (IZR c * IZR (o i j) / (IZR c * ex p q o i j))%R with (IZR (o i j) / ex p q o i j)%R by (field; split; auto; lra). ring.
Qed.
Lemma dsum_scale p q m o c : table_of p q m o -> 0 < c -> dsum p q (gterm p q (fun i j => c * o i j)) = (IZR c * dsum p q (gterm p q o))%R.
Proof.
  intros HT Hc. unfold dsum. rewrite <- Rsum_scal_l. apply Rsum_ext. intros [i j] H. apply cells_in in H as (Hi & Hj). cbn [fst snd]. eapply gterm_scale; eauto.
Qed.
Lemma dsum_ext p q g h : (forall i j, (i < p)%nat -> (j < q)%nat -> g i j = h i j) -> dsum p q g = dsum p q h.
Proof. intros H. unfold dsum. apply Rsum_ext. intros [i j] Hc. apply cells_in in Hc as (Hi & Hj). apply H; auto. Qed.
Lemma gterm_ext p q o o' i j : (forall i j, o i j = o' i j) -> gterm p q o i j = gterm p q o' i j.
Proof.
  intros H. assert (S : forall g h n, (forall i, g i = h i) -> sumTo g n = sumTo h n) by (intros; apply sumTo_ext; auto).
  unfold gterm, ex, row, col, tot, row. rewrite H. rewrite (S (o i) (o' i)), (S (fun i => o i j) (fun i => o' i j)) by auto.
  rewrite (S (fun i => sumTo (o i) q) (fun i => sumTo (o' i) q)) by (intros; apply S; auto). reflexivity.
Qed.

Section Power.
Variable chi2 : xreal -> Z -> xreal.
Hypothesis HC : exact_cdf chi2.

Definition pairOf (p q : Z) (xs ys : list Z) (pval : R) : res bool := m <- contingency p q xs ys; @gTest XR chi2 p q m (Fin pval).

Lemma fge_dec u v : @fge XR (@fsub XR (@fz XR 1) (Fin u)) (Fin v) = if Rle_dec v (1 - u) then true else false.
Proof.
  cbn [fge fsub fz XR xsub xneg xadd]. unfold xge. cbn [xgt xeq]. destruct (Rle_dec v (1 - u)); destruct (Rlt_dec v (1 + - u)); destruct (Req_EM_T (1 + - u) v); cbn [orb]; auto; exfalso; lra.
Qed.

Section Pair.
Variables (p q : Z) (xs ys : list Z).
Hypotheses (Hp : 2 <= p) (Hq : 2 <= q) (Hx : forall v, In v xs -> 0 <= v < p) (Hy : forall v, In v ys -> 0 <= v < q) (Hl : length ys = length xs).
Definition stat : R := (2 * dsum (Z.to_nat p) (Z.to_nat q) (gterm (Z.to_nat p) (Z.to_nat q) (cnt xs ys)))%R.

Lemma stat_zero : (0 <= stat)%R /\ (stat = 0%R <-> forall a b, 0 <= a < p -> 0 <= b < q -> unrelated_at xs ys a b).
Proof.
  destruct (cont_table p q xs ys) as (m & E & HT & R & C & T); try lia; auto. pose proof (g_nonneg _ _ _ _ HT) as Hn. split; [unfold stat; lra|]. split.
  - intros Hz a b Ha Hb. unfold unrelated_at. pose proof (g_zero_only _ _ _ _ HT ltac:(unfold stat in Hz; lra) (Z.to_nat a) (Z.to_nat b) ltac:(lia) ltac:(lia)) as H.
    rewrite R, C, T in H. unfold cnt in H. rewrite !Z2Nat.id in H by lia. exact H.
  - intros H. unfold stat. rewrite (g_zero _ _ _ _ HT); [lra|]. intros i j Hi Hj. rewrite R, C, T. apply H; lia.
Qed.
Lemma pair_decides : exists F, chi_cdf ((p - 1) * (q - 1)) F /\ forall pval, pairOf p q xs ys pval = Ok (if Rle_dec pval (1 - F stat) then true else false).
Proof.
  destruct (HC ((p - 1) * (q - 1)) ltac:(nia)) as (F & HF & HE). exists F. split; auto. intros pval.
  destruct (cont_table p q xs ys) as (m & E & HT & R & C & T); try lia; auto. unfold pairOf. rewrite E. cbn [bind]. unfold gTest.
  destruct (Z.ltb_spec p 0); [lia|]. destruct (Z.ltb_spec q 0); [lia|]. rewrite andb_false_r. cbn [orb]. rewrite (gStat_eq _ _ _ _ HT). cbn [bind]. fold stat.
  rewrite <- fge_dec. f_equal. f_equal. f_equal. apply HE. apply stat_zero.
Qed.
Lemma pair_accepts pval : (forall a b, 0 <= a < p -> 0 <= b < q -> unrelated_at xs ys a b) -> (pval <= 1)%R -> pairOf p q xs ys pval = Ok true.
Proof.
  intros H Hv. destruct pair_decides as (F & HF & E). rewrite E. apply stat_zero in H. rewrite H. destruct HF as ((-> & _) & _). destruct (Rle_dec pval (1 - 0)); auto. lra.
Qed.
End Pair.

Lemma stat_again p q xs ys c : 2 <= p -> 2 <= q -> (forall v, In v xs -> 0 <= v < p) -> (forall v, In v ys -> 0 <= v < q) -> length ys = length xs -> (0 < c)%nat ->
  stat p q (again c xs) (again c ys) = (INR c * stat p q xs ys)%R.
Proof.
  intros Hp Hq Hx Hy Hl Hc. destruct (cont_table p q xs ys) as (m & E & HT & _); try lia; auto. unfold stat.
  rewrite (dsum_ext _ _ _ (gterm (Z.to_nat p) (Z.to_nat q) (fun i j => Z.of_nat c * cnt xs ys i j))).
  - rewrite (dsum_scale _ _ _ _ _ HT) by lia. rewrite INR_IZR_INZ. ring.
  - intros i j _ _. apply gterm_ext. intros a b. unfold cnt. rewrite combine_again, howmany_again by auto. reflexivity.
Qed.
Lemma pair_rejects p q xs ys pval a b : 2 <= p -> 2 <= q -> (forall v, In v xs -> 0 <= v < p) -> (forall v, In v ys -> 0 <= v < q) -> length ys = length xs ->
  0 <= a < p -> 0 <= b < q -> ~ unrelated_at xs ys a b -> (0 < pval)%R ->
  exists N, forall c, (N <= c)%nat -> pairOf p q (again c xs) (again c ys) pval = Ok false.
Proof.
  intros Hp Hq Hx Hy Hl Ha Hb Hn Hv. destruct (stat_zero p q xs ys Hp Hq Hx Hy Hl) as (S0 & SZ).
  assert (Sp : (0 < stat p q xs ys)%R). { destruct S0 as [S0|S0]; auto. exfalso. symmetry in S0. apply SZ with (a := a) (b := b) in S0; auto. }
  destruct (HC ((p - 1) * (q - 1)) ltac:(nia)) as (F0 & HF0 & HE0). pose proof HF0 as (_ & Ht & _). destruct (Ht pval Hv) as (B & HB).
  set (N := S (Z.to_nat (up (Rabs B / stat p q xs ys)))). exists N. intros c Hc.
  assert (Hc0 : (0 < c)%nat) by (unfold N in Hc; lia).
  destruct (pair_decides p q (again c xs) (again c ys)) as (F & HF & E); auto.
  { intros v Hv'. apply Hx. eapply in_again; eauto. } { intros v Hv'. apply Hy. eapply in_again; eauto. } { rewrite !again_length, Hl. reflexivity. }
  rewrite E, stat_again by auto. assert (HS : (B < INR c * stat p q xs ys)%R).
  { assert (H1 : (Rabs B / stat p q xs ys < INR c)%R).
    { apply Rlt_le_trans with (INR N); [|apply le_INR; auto]. unfold N. rewrite S_INR. destruct (archimed (Rabs B / stat p q xs ys)) as (U & _).
      assert (HD : (0 <= Rabs B / stat p q xs ys)%R) by (apply Rmult_le_pos; [apply Rabs_pos|left; apply Rinv_0_lt_compat; auto]).
      rewrite INR_IZR_INZ, Z2Nat.id by (apply le_IZR; lra). lra. }
    apply (Rmult_lt_compat_r (stat p q xs ys)) in H1; auto. unfold Rdiv in H1. rewrite Rmult_assoc, Rinv_l, Rmult_1_r in H1 by lra. pose proof (Rle_abs B). lra. }
  assert (Hnn : (0 <= INR c * stat p q xs ys)%R) by (apply Rmult_le_pos; [apply pos_INR|auto]).
  rewrite (chi_cdf_unique ((p - 1) * (q - 1)) F F0 ltac:(nia) HF HF0 _ Hnn). specialize (HB _ HS). match goal with |- context [Rle_dec ?u ?v] => destruct (Rle_dec u v) as [H|] end; auto.
  exfalso. apply Rabs_def2 in HB. lra.
Qed.

(** ChiSquareTest. *)
Definition chiOf (p q : Z) (xs ys : list Z) (pval : R) : res bool := m <- contingency p q xs ys; @chiSquareTest XR chi2 p q m (Fin pval).
Definition cstat (p q : Z) (xs ys : list Z) : R := dsum (Z.to_nat p) (Z.to_nat q) (cterm (Z.to_nat p) (Z.to_nat q) (cnt xs ys)).

Lemma cterm_scale p q m o c i j : table_of p q m o -> 0 < c -> 0 < tot p q o -> (i < p)%nat -> (j < q)%nat ->
  cterm p q (fun i j => c * o i j) i j = (IZR c * cterm p q o i j)%R.
Proof.
  intros HT Hc Ht Hi Hj. assert (0 < IZR c)%R by (apply (IZR_lt 0); auto).
  assert (Ex : ex p q (fun i j => c * o i j) i j = (IZR c * ex p q o i j)%R).
  { unfold ex. replace (tot p q (fun i j => c * o i j)) with (c * tot p q o) by (unfold tot, row; rewrite <- sumTo_scal; apply sumTo_ext; intros; rewrite <- sumTo_scal; reflexivity).
    unfold col at 1, row at 1. rewrite !sumTo_scal. fold (col p o j). fold (row q o i). rewrite !mult_IZR. field. split; apply not_0_IZR; lia. }
  unfold cterm. rewrite Ex. destruct (Z.eqb_spec (o i j) 0) as [E|E].
  - rewrite E, Z.mul_0_r. cbn [Z.eqb]. destruct (Req_EM_T (ex p q o i j) 0) as [Z0|Z0].
    + rewrite Z0, Rmult_0_r. destruct (Req_EM_T 0 0); lra.
    + destruct (Req_EM_T (IZR c * ex p q o i j) 0) as [Z1|_]; [symmetry; exact Z1|reflexivity].
  - destruct (Z.eqb_spec (c * o i j) 0) as [E'|_]; [nia|]. rewrite mult_IZR.
    assert (Hxp : ex p q o i j <> 0%R) by (intros Hz; apply E; apply (ex_zero p q m o HT); auto; lia). field. split; auto; lra.
Qed.
Lemma cterm_ext p q o o' i j : (forall i j, o i j = o' i j) -> cterm p q o i j = cterm p q o' i j.
Proof.
  intros H. assert (S : forall g h n, (forall i, g i = h i) -> sumTo g n = sumTo h n) by (intros; apply sumTo_ext; auto).
  unfold cterm, ex, row, col, tot, row. rewrite H. rewrite (S (o i) (o' i)), (S (fun i => o i j) (fun i => o' i j)) by auto.
  rewrite (S (fun i => sumTo (o i) q) (fun i => sumTo (o' i) q)) by (intros; apply S; auto). reflexivity.
Qed.
Section Chi.
Variables (p q : Z) (xs ys : list Z).
Hypotheses (Hp : 2 <= p) (Hq : 2 <= q) (Hx : forall v, In v xs -> 0 <= v < p) (Hy : forall v, In v ys -> 0 <= v < q) (Hl : length ys = length xs) (Hne : xs <> []).
Lemma cstat_zero : (0 <= cstat p q xs ys)%R /\ (cstat p q xs ys = 0%R <-> forall a b, 0 <= a < p -> 0 <= b < q -> unrelated_at xs ys a b).
Proof.
  destruct (cont_table p q xs ys) as (m & E & HT & R & C & T); try lia; auto.
  assert (Ht : 0 < tot (Z.to_nat p) (Z.to_nat q) (cnt xs ys)) by (rewrite T; destruct xs; [congruence|simpl; lia]).
  split.
  - unfold cstat, dsum. apply Rsum_nonneg. intros x Hi. apply in_map_iff in Hi as ([i j] & <- & Hi). apply cells_in in Hi as (Hi & Hj). apply (cterm_nonneg _ _ _ _ HT); auto.
  - unfold cstat. rewrite (c_zero_iff _ _ _ _ HT Ht). split.
    + intros H a b Ha Hb. specialize (H (Z.to_nat a) (Z.to_nat b) ltac:(lia) ltac:(lia)). rewrite R, C, T in H. unfold cnt in H. rewrite !Z2Nat.id in H by lia. exact H.
    + intros H i j Hi Hj. rewrite R, C, T. apply H; lia.
Qed.
Lemma chi_decides : exists F, chi_cdf ((p - 1) * (q - 1)) F /\ forall pval, chiOf p q xs ys pval = Ok (if Rle_dec pval (1 - F (cstat p q xs ys)) then true else false).
Proof.
  destruct (HC ((p - 1) * (q - 1)) ltac:(nia)) as (F & HF & HE). exists F. split; auto. intros pval.
  destruct (cont_table p q xs ys) as (m & E & HT & R & C & T); try lia; auto. unfold chiOf. rewrite E. cbn [bind]. unfold chiSquareTest.
  destruct (Z.ltb_spec p 0); [lia|]. destruct (Z.ltb_spec q 0); [lia|]. rewrite andb_false_r. cbn [orb].
  rewrite (chiStat_eq _ _ _ _ HT) by (rewrite T; destruct xs; [congruence|simpl; lia]). cbn [bind]. fold (cstat p q xs ys).
  rewrite <- fge_dec. f_equal. f_equal. f_equal. apply HE. apply cstat_zero.
Qed.
Lemma cstat_again c : (0 < c)%nat -> cstat p q (again c xs) (again c ys) = (INR c * cstat p q xs ys)%R.
Proof.
  intros Hc. destruct (cont_table p q xs ys) as (m & E & HT & R & C & T); try lia; auto. unfold cstat.
  rewrite (dsum_ext _ _ _ (fun i j => IZR (Z.of_nat c) * cterm (Z.to_nat p) (Z.to_nat q) (cnt xs ys) i j)%R).
  - unfold dsum. rewrite <- INR_IZR_INZ, <- Rsum_scal_l. reflexivity.
  - intros i j Hi Hj. rewrite <- (cterm_scale _ _ _ _ _ _ _ HT) by (auto; rewrite ?T; try destruct xs; try congruence; simpl; lia).
    apply cterm_ext. intros a b. unfold cnt. rewrite combine_again, howmany_again by auto. reflexivity.
Qed.
End Chi.

(** A statistic growing with the data passes every threshold. *)
Lemma grows df F s pval : (1 <= df) -> chi_cdf df F -> (0 < s)%R -> (0 < pval)%R -> exists N, (0 < N)%nat /\ forall c, (N <= c)%nat -> (1 - F (INR c * s)%R < pval)%R.
Proof.
  intros Hdf (_ & Ht & _) Hs Hv. destruct (Ht pval Hv) as (B & HB). exists (S (Z.to_nat (up (Rabs B / s)))). split; [lia|]. intros c Hc.
  assert (HS : (B < INR c * s)%R).
  { assert (H1 : (Rabs B / s < INR c)%R).
    { apply Rlt_le_trans with (INR (S (Z.to_nat (up (Rabs B / s))))); [|apply le_INR; auto]. rewrite S_INR. destruct (archimed (Rabs B / s)) as (U & _).
      assert (HD : (0 <= Rabs B / s)%R) by (apply Rmult_le_pos; [apply Rabs_pos|left; apply Rinv_0_lt_compat; auto]).
      rewrite INR_IZR_INZ, Z2Nat.id by (apply le_IZR; lra). lra. }
    apply (Rmult_lt_compat_r s) in H1; auto. unfold Rdiv in H1. rewrite Rmult_assoc, Rinv_l, Rmult_1_r in H1 by lra. pose proof (Rle_abs B). lra. }
  specialize (HB _ HS). apply Rabs_def2 in HB. lra.
Qed.
Lemma chi_accepts p q xs ys pval : 2 <= p -> 2 <= q -> (forall v, In v xs -> 0 <= v < p) -> (forall v, In v ys -> 0 <= v < q) -> length ys = length xs -> xs <> [] ->
  (forall a b, 0 <= a < p -> 0 <= b < q -> unrelated_at xs ys a b) -> (pval <= 1)%R -> chiOf p q xs ys pval = Ok true.
Proof.
  intros Hp Hq Hx Hy Hl Hne H Hv. destruct (chi_decides p q xs ys) as (F & HF & E); auto. rewrite E. apply cstat_zero in H; auto. rewrite H. destruct HF as ((-> & _) & _). destruct (Rle_dec pval (1 - 0)); auto. lra.
Qed.
Lemma chi_rejects p q xs ys pval a b : 2 <= p -> 2 <= q -> (forall v, In v xs -> 0 <= v < p) -> (forall v, In v ys -> 0 <= v < q) -> length ys = length xs ->
  0 <= a < p -> 0 <= b < q -> ~ unrelated_at xs ys a b -> (0 < pval)%R ->
  exists N, forall c, (N <= c)%nat -> chiOf p q (again c xs) (again c ys) pval = Ok false.
Proof.
  intros Hp Hq Hx Hy Hl Ha Hb Hn Hv. assert (Hne : xs <> []) by (intros ->; destruct ys; [|discriminate]; apply Hn; reflexivity).
  destruct (cstat_zero p q xs ys Hp Hq Hx Hy Hl Hne) as (S0 & SZ).
  assert (Sp : (0 < cstat p q xs ys)%R). { destruct S0 as [S0|S0]; auto. exfalso. symmetry in S0. apply SZ with (a := a) (b := b) in S0; auto. }
  destruct (HC ((p - 1) * (q - 1)) ltac:(nia)) as (F0 & HF0 & _). destruct (grows ((p - 1) * (q - 1)) F0 (cstat p q xs ys) pval ltac:(nia) HF0 Sp Hv) as (N & HN & HG). exists N. intros c Hc.
  destruct (chi_decides p q (again c xs) (again c ys)) as (F & HF & E); auto.
  { intros v Hv'. apply Hx. eapply in_again; eauto. } { intros v Hv'. apply Hy. eapply in_again; eauto. } { rewrite !again_length, Hl. reflexivity. }
  { intros Hz. apply (f_equal (@length Z)) in Hz. rewrite again_length in Hz. destruct xs; [congruence|]. simpl in Hz. lia. }
  rewrite E, cstat_again by (auto; lia). assert (Hnn : (0 <= INR c * cstat p q xs ys)%R) by (apply Rmult_le_pos; [apply pos_INR|auto]).
  rewrite (chi_cdf_unique ((p - 1) * (q - 1)) F F0 ltac:(nia) HF HF0 _ Hnn). specialize (HG c Hc). match goal with |- context [Rle_dec ?u ?v] => destruct (Rle_dec u v) end; auto. exfalso. lra.
Qed.
End Power.
