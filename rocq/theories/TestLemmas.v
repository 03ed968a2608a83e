(** Proofs about the statistics of the independence tests. *)
From Coq Require Import Reals Lra.
From Verif Require Import Base Res Arith LogSpec LogLemmas ProbLemmas Indep IndepSpec IndepLemmas.
Local Open Scope R_scope.

Lemma getM_at (m : list (list Z)) i j v : at_ m i j v -> getM m i j = Ok v.
Proof. intros (row & H1 & H2). unfold getM, idx. rewrite H1. cbn [bind]. rewrite H2. auto. Qed.

Section T.
Variables (p q : nat) (m : list (list Z)) (o : nat -> nat -> Z).
Hypothesis HT : table_of p q m o.
Definition row (i : nat) : Z := sumTo (o i) q.
Definition col (j : nat) : Z := sumTo (fun i => o i j) p.
Definition tot : Z := sumTo row p.

Lemma cells_in i j : In (i, j) (cells p q) <-> (i < p /\ j < q)%nat.
Proof.
  unfold cells. rewrite in_flat_map. split.
  - intros (a & Ha & H). apply in_map_iff in H as (b & E & Hb). injection E as -> ->. rewrite range0 in *. rewrite in_seq in *. lia.
  - intros [Hi Hj]. exists i. rewrite range0, in_seq. split; [lia|]. apply in_map. rewrite range0, in_seq. lia.
Qed.

Lemma expected_ok (A : arith) i j : (i < p)%nat -> (j < q)%nat ->
  @expected A p q m i j = Ok (fdiv (fz (col j * row i)) (fz tot)).
Proof.
  intros Hi Hj. destruct HT as [T1 T2 T3 T4]. unfold expected.
  rewrite (getM_at _ _ _ _ (T3 j Hj)). cbn [bind]. rewrite (getM_at _ _ _ _ (T2 i Hi)). cbn [bind].
  rewrite (getM_at _ _ _ _ T4). cbn [bind]. reflexivity.
Qed.

Lemma collect_ok {T U} (f : T -> res U) (g : T -> U) l : (forall x, In x l -> f x = Ok (g x)) ->
  forall acc, foldr_ (fun m c => e <- f c; Ok (m ++ [e])) l acc = Ok (acc ++ map g l).
Proof.
  induction l as [|x l IH]; intros H acc; cbn [foldr_ map]; [rewrite app_nil_r; auto|].
  rewrite H by (left; auto). cbn [bind]. rewrite IH by (intros; apply H; right; auto). rewrite <- app_assoc. auto.
Qed.
Lemma combine_map {T U} (g : T -> U) l : combine l (map g l) = map (fun x => (x, g x)) l.
Proof. induction l; simpl; congruence. Qed.

(** Sums over the cells. *)
Definition dsum (g : nat -> nat -> R) : R := Rsum (map (fun c => g (fst c) (snd c)) (cells p q)).
Lemma dsum_rows g : dsum g = Rsum (map (fun i => Rsum (map (g i) (seq 0 q))) (seq 0 p)).
Proof.
  unfold dsum, cells. rewrite !range0. induction (seq 0 p) as [|i l IH]; simpl; auto.
  rewrite map_app, Rsum_app, IH, map_map. simpl. auto.
Qed.
Lemma IZR_sumTo g n : IZR (sumTo g n) = Rsum (map (fun i => IZR (g i)) (seq 0 n)).
Proof.
  unfold sumTo. induction (seq 0 n) as [|i l IH]; simpl; auto. rewrite plus_IZR, IH. auto.
Qed.
Lemma dsum_o : dsum (fun i j => IZR (o i j)) = IZR tot.
Proof.
  rewrite dsum_rows. unfold tot. rewrite IZR_sumTo. apply Rsum_ext. intros i _. unfold row. rewrite IZR_sumTo. auto.
Qed.
Lemma sum_col : Rsum (map (fun j => IZR (col j)) (seq 0 q)) = IZR tot.
Proof. unfold tot, row. rewrite <- sum_swap. rewrite IZR_sumTo. auto. Qed.
Lemma sum_row : Rsum (map (fun j => IZR (row j)) (seq 0 p)) = IZR tot.
Proof. unfold tot. rewrite IZR_sumTo. auto. Qed.

Lemma o_nonneg i j : (i < p)%nat -> (j < q)%nat -> (0 <= o i j)%Z.
Proof. intros Hi Hj. apply (t_cell _ _ _ _ HT i j Hi Hj). Qed.
Lemma sumTo_nonneg g n : (forall i, (i < n)%nat -> (0 <= g i)%Z) -> (0 <= sumTo g n)%Z.
Proof. induction n; intros H; [unfold sumTo; simpl; lia|]. rewrite sumTo_S. pose proof (H n ltac:(lia)). pose proof (IHn ltac:(intros; apply H; lia)). lia. Qed.
Lemma sumTo_ge g n i : (forall i, (i < n)%nat -> (0 <= g i)%Z) -> (i < n)%nat -> (g i <= sumTo g n)%Z.
Proof.
  induction n; intros H Hi; [lia|]. rewrite sumTo_S. pose proof (H n ltac:(lia)).
  destruct (Nat.eq_dec i n) as [->|]; [pose proof (sumTo_nonneg g n ltac:(intros; apply H; lia)); lia|].
  pose proof (IHn ltac:(intros; apply H; lia) ltac:(lia)). lia.
Qed.
Lemma row_ge i j : (i < p)%nat -> (j < q)%nat -> (o i j <= row i)%Z.
Proof. intros. apply (sumTo_ge (o i) q j); auto. intros; apply o_nonneg; auto. Qed.
Lemma col_ge i j : (i < p)%nat -> (j < q)%nat -> (o i j <= col j)%Z.
Proof. intros. apply (sumTo_ge (fun i => o i j) p i); auto. intros; apply o_nonneg; auto. Qed.
Lemma row_nonneg i : (i < p)%nat -> (0 <= row i)%Z.
Proof. intros. apply sumTo_nonneg. intros; apply o_nonneg; auto. Qed.
Lemma col_nonneg j : (j < q)%nat -> (0 <= col j)%Z.
Proof. intros. apply sumTo_nonneg. intros; apply o_nonneg; auto. Qed.
Lemma tot_ge i : (i < p)%nat -> (row i <= tot)%Z.
Proof. intros. apply (sumTo_ge row p i); auto. intros; apply row_nonneg; auto. Qed.
Lemma tot_nonneg : (0 <= tot)%Z.
Proof. apply sumTo_nonneg. intros; apply row_nonneg; auto. Qed.

Definition ex (i j : nat) : R := IZR (col j) * IZR (row i) / IZR tot.
Lemma ex_nonneg i j : (i < p)%nat -> (j < q)%nat -> (0 < tot)%Z -> 0 <= ex i j.
Proof.
  intros Hi Hj H. unfold ex. apply Rmult_le_pos; [apply Rmult_le_pos; apply (IZR_le 0); auto using row_nonneg, col_nonneg|].
  left. apply Rinv_0_lt_compat. apply (IZR_lt 0). auto.
Qed.
Lemma ex_zero i j : (i < p)%nat -> (j < q)%nat -> (0 < tot)%Z -> ex i j = 0 -> o i j = 0%Z.
Proof.
  intros Hi Hj H HE. unfold ex in HE. apply Rmult_integral in HE as [HE|HE].
  - pose proof (o_nonneg i j Hi Hj). pose proof (row_ge i j Hi Hj). pose proof (col_ge i j Hi Hj).
    apply Rmult_integral in HE as [HE|HE]; apply (eq_IZR _ 0) in HE; lia.
  - exfalso. revert HE. apply Rinv_neq_0_compat. apply not_0_IZR. lia.
Qed.
Lemma dsum_ex : (0 < tot)%Z -> dsum ex = IZR tot.
Proof.
  intros H. assert (Hn : IZR tot <> 0) by (apply not_0_IZR; lia). rewrite dsum_rows.
  rewrite (Rsum_ext _ (fun i => IZR (row i) * 1)).
  - rewrite (Rsum_ext _ (fun i => IZR (row i))) by (intros; lra). apply sum_row.
  - intros i _. rewrite (Rsum_ext _ (fun j => (IZR (row i) / IZR tot) * IZR (col j))) by (intros; unfold ex; field; auto).
    rewrite Rsum_scal_l, sum_col. field. auto.
Qed.

(** The G statistic. *)
Definition gterm (i j : nat) : R := if Z.eqb (o i j) 0 then 0 else IZR (o i j) * ln (IZR (o i j) / ex i j).

Lemma gStat_eq : @gStat XR p q m = Ok (Fin (2 * dsum gterm)).
Proof.
  unfold gStat.
  rewrite (collect_ok (fun c => @expected XR p q m (fst c) (snd c)) (fun c => xdiv (Fin (IZR (col (snd c) * row (fst c)))) (Fin (IZR tot)))).
  2:{ intros [i j] H. apply cells_in in H as [Hi Hj]. apply (expected_ok XR); auto. }
  cbn [bind app]. rewrite combine_map.
  assert (G : forall l a, (forall c, In c l -> (fst c < p /\ snd c < q)%nat) ->
    foldr_ (fun s (ce : nat * nat * xreal) => let (c, e) := ce in
         if xeq e (Fin 0) then Ok s
         else o <- getM m (fst c) (snd c);
              if xeq (Fin (IZR o)) (Fin 0) then Ok s
              else Ok (xadd s (xmul (Fin (IZR o)) (xlog (xdiv (Fin (IZR o)) e)))))
      (map (fun c => (c, xdiv (Fin (IZR (col (snd c) * row (fst c)))) (Fin (IZR tot)))) l) (Fin a) =
    Ok (Fin (a + Rsum (map (fun c => gterm (fst c) (snd c)) l)))).
  { induction l as [|[i j] l IH]; intros a Hl; cbn [map foldr_ Rsum]; [rewrite Rplus_0_r; auto|].
    destruct (Hl (i, j) (or_introl eq_refl)) as [Hi Hj]. cbn [fst snd] in *.
    pose proof (t_cell _ _ _ _ HT i j Hi Hj) as [Hat H0]. 
    assert (HG : (if xeq (xdiv (Fin (IZR (col j * row i))) (Fin (IZR tot))) (Fin 0) then Ok (Fin a)
       else o0 <- getM m i j; if xeq (Fin (IZR o0)) (Fin 0) then Ok (Fin a)
              else Ok (xadd (Fin a) (xmul (Fin (IZR o0)) (xlog (xdiv (Fin (IZR o0)) (xdiv (Fin (IZR (col j * row i))) (Fin (IZR tot)))))))) =
       Ok (Fin (a + gterm i j))).
    { rewrite (getM_at _ _ _ _ Hat). cbn [bind]. unfold gterm. cbn [xeq]. 
      destruct (Z.eqb_spec (o i j) 0) as [E|E].
      - rewrite E, Rplus_0_r. destruct (xeq _ _); auto. destruct (Req_EM_T 0 0); auto; lra.
      - assert (Ht : (0 < tot)%Z) by (pose proof (tot_ge i Hi); pose proof (row_ge i j Hi Hj); lia).
        assert (HE : xdiv (Fin (IZR (col j * row i))) (Fin (IZR tot)) = Fin (ex i j)).
        { cbn [xdiv]. destruct (Req_EM_T (IZR tot) 0) as [Z0|_]; [apply (eq_IZR _ 0) in Z0; lia|]. unfold ex. rewrite mult_IZR. auto. }
        rewrite HE. cbn [xeq]. assert (Hne : ex i j <> 0) by (intros Hz; apply E; apply ex_zero; auto).
        destruct (Req_EM_T (ex i j) 0); [lra|]. destruct (Req_EM_T (IZR (o i j)) 0) as [Z0|_]; [apply (eq_IZR _ 0) in Z0; lia|].
        cbn [xdiv]. destruct (Req_EM_T (ex i j) 0); [lra|]. cbn [xlog].
        assert (Hpos : 0 < IZR (o i j) / ex i j).
        { pose proof (ex_nonneg i j Hi Hj Ht). apply Rmult_lt_0_compat; [apply (IZR_lt 0); lia|apply Rinv_0_lt_compat; lra]. }
        destruct (Rlt_dec 0 (IZR (o i j) / ex i j)); [|lra]. cbn [xmul xadd]. auto. }
    etransitivity; [apply (f_equal (fun r => bind r _) HG)|]. cbn [bind]. rewrite IH by (intros; apply Hl; right; auto).
    f_equal. f_equal. lra. }
  etransitivity; [apply (f_equal (fun r => bind r (fun s => Ok (fmul s (fz 2)))))|].
  - apply (G (cells p q) 0). intros [i j] H. apply cells_in; auto.
  - cbn [bind]. f_equal. change (xmul (Fin (0 + dsum gterm)) (Fin 2) = Fin (2 * dsum gterm)). cbn [xmul]. f_equal. lra.
Qed.

Lemma ln_bound x : 0 < x -> ln x <= x - 1.
Proof.
  intros H. destruct (Rle_or_lt (ln x) (x - 1)); auto. exfalso. apply exp_increasing in H0. rewrite exp_ln in H0 by auto.
  pose proof (exp_ineq1_le (x - 1)). lra.
Qed.

Lemma gterm_bound i j : (i < p)%nat -> (j < q)%nat -> (0 < tot)%Z -> IZR (o i j) - ex i j <= gterm i j.
Proof.
  intros Hi Hj Ht. pose proof (ex_nonneg i j Hi Hj Ht) as He. unfold gterm. destruct (Z.eqb_spec (o i j) 0) as [E|E]; [rewrite E; lra|].
  assert (Ho : 0 < IZR (o i j)) by (apply (IZR_lt 0); pose proof (o_nonneg i j Hi Hj); lia).
  assert (Hne : ex i j <> 0) by (intros Hz; apply E; apply ex_zero; auto).
  assert (Hx : 0 < ex i j / IZR (o i j)) by (apply Rmult_lt_0_compat; [lra|apply Rinv_0_lt_compat; auto]).
  pose proof (ln_bound _ Hx) as HL.
  replace (IZR (o i j) / ex i j) with (/ (ex i j / IZR (o i j))) by (field; lra). rewrite ln_Rinv by auto.
  assert (IZR (o i j) * (ex i j / IZR (o i j)) = ex i j) by (field; lra). nra.
Qed.

Lemma g_nonneg : 0 <= dsum gterm.
Proof.
  destruct (Z.eq_dec tot 0) as [E|E].
  - unfold dsum. apply Rsum_nonneg. intros x Hx. apply in_map_iff in Hx as ([i j] & <- & Hc). apply cells_in in Hc as [Hi Hj]. cbn [fst snd].
    unfold gterm. pose proof (tot_ge i Hi). pose proof (row_ge i j Hi Hj). pose proof (o_nonneg i j Hi Hj).
    replace (o i j) with 0%Z by lia. simpl. lra.
  - assert (Ht : (0 < tot)%Z) by (pose proof tot_nonneg; lia).
    apply Rle_trans with (dsum (fun i j => IZR (o i j) - ex i j)).
    + right. unfold dsum. rewrite (Rsum_ext (fun c => IZR (o (fst c) (snd c)) - ex (fst c) (snd c)) (fun c => IZR (o (fst c) (snd c)) + (-1) * ex (fst c) (snd c))) by (intros; lra).
      rewrite Rsum_plus, Rsum_scal_l. change (0 = dsum (fun i j => IZR (o i j)) + -1 * dsum ex). rewrite dsum_o, dsum_ex by auto. lra.
    + unfold dsum. apply Rsum_le. intros [i j] Hc. apply cells_in in Hc as [Hi Hj]. cbn [fst snd]. apply gterm_bound; auto.
Qed.

Lemma g_zero : (forall i j, (i < p)%nat -> (j < q)%nat -> (o i j * tot = row i * col j)%Z) -> dsum gterm = 0.
Proof.
  intros H. unfold dsum. rewrite (Rsum_ext _ (fun _ => 0)); [apply Rsum_const0|].
  intros [i j] Hc. apply cells_in in Hc as [Hi Hj]. cbn [fst snd]. unfold gterm. destruct (Z.eqb_spec (o i j) 0); auto.
  assert (Ht : (0 < tot)%Z) by (pose proof (tot_ge i Hi); pose proof (row_ge i j Hi Hj); pose proof (o_nonneg i j Hi Hj); lia).
  assert (ex i j = IZR (o i j)).
  { unfold ex. rewrite <- mult_IZR, Z.mul_comm, <- H, mult_IZR by auto. field. apply not_0_IZR. lia. }
  rewrite H0. unfold Rdiv. rewrite Rinv_r, ln_1 by (apply not_0_IZR; auto). lra.
Qed.

(** The converse: only independent tables have statistic zero. *)
Lemma ln_bound_eq x : 0 < x -> ln x = x - 1 -> x = 1.
Proof.
  intros H E. destruct (Req_dec (x - 1) 0) as [E0|N]; [lra|]. exfalso.
  assert (x = exp (x - 1)) by (rewrite <- E, exp_ln; auto).
  pose proof (exp_ineq1 (x - 1) N). lra.
Qed.

Lemma Rsum_eq_all {X} (f g : X -> R) l : (forall x, In x l -> f x <= g x) -> Rsum (map f l) = Rsum (map g l) -> forall x, In x l -> f x = g x.
Proof.
  induction l as [|a l IH]; intros Hle HE x Hx; [destruct Hx|]. cbn [map Rsum] in HE.
  pose proof (Hle a (or_introl eq_refl)) as Ha. pose proof (Rsum_le f g l ltac:(intros; apply Hle; right; auto)) as Hl.
  destruct Hx as [<-|Hx]; [lra|]. apply IH; auto; [intros; apply Hle; right; auto|lra].
Qed.

Lemma g_zero_only : dsum gterm = 0 -> forall i j, (i < p)%nat -> (j < q)%nat -> (o i j * tot = row i * col j)%Z.
Proof.
  intros HG i j Hi Hj.
  destruct (Z.eq_dec tot 0) as [E|E].
  { pose proof (tot_ge i Hi). pose proof (row_nonneg i Hi). rewrite E. replace (row i) with 0%Z by lia. lia. }
  assert (Ht : (0 < tot)%Z) by (pose proof tot_nonneg; lia).
  assert (HS : dsum (fun i j => IZR (o i j) - ex i j) = 0).
  { unfold dsum. rewrite (Rsum_ext _ (fun c => IZR (o (fst c) (snd c)) + (-1) * ex (fst c) (snd c))) by (intros; lra).
    rewrite Rsum_plus, Rsum_scal_l. change (dsum (fun i j => IZR (o i j)) + -1 * dsum ex = 0). rewrite dsum_o, dsum_ex by auto. lra. }
  assert (HA : IZR (o i j) - ex i j = gterm i j).
  { apply (Rsum_eq_all (fun c => IZR (o (fst c) (snd c)) - ex (fst c) (snd c)) (fun c => gterm (fst c) (snd c)) (cells p q)) with (x := (i, j)).
    - intros [a b] Hc. apply cells_in in Hc as [Ha Hb]. apply gterm_bound; auto.
    - unfold dsum in HS, HG. rewrite HS, HG. auto.
    - apply cells_in. auto. }
  assert (HE : ex i j = IZR (o i j)).
  { pose proof (ex_nonneg i j Hi Hj Ht) as He. unfold gterm in HA. destruct (Z.eqb_spec (o i j) 0) as [E0|E0]; [rewrite E0 in *; lra|].
    assert (Ho : 0 < IZR (o i j)) by (apply (IZR_lt 0); pose proof (o_nonneg i j Hi Hj); lia).
    assert (Hne : ex i j <> 0) by (intros Hz; apply E0; apply ex_zero; auto).
    assert (Hx : 0 < ex i j / IZR (o i j)) by (apply Rmult_lt_0_compat; [lra|apply Rinv_0_lt_compat; auto]).
    replace (IZR (o i j) / ex i j) with (/ (ex i j / IZR (o i j))) in HA by (field; lra). rewrite ln_Rinv in HA by auto.
    assert (Hm : IZR (o i j) * (ex i j / IZR (o i j)) = ex i j) by (field; lra).
    assert (H1 : ex i j / IZR (o i j) = 1). { apply ln_bound_eq; auto. apply (Rmult_eq_reg_l (IZR (o i j))); [|lra]. lra. }
    rewrite H1 in Hm. lra. }
  unfold ex in HE. apply eq_IZR. rewrite !mult_IZR, <- HE. field. apply not_0_IZR. lia.
Qed.

(** The chi-square statistic. *)
Definition cterm (i j : nat) : R := if Z.eqb (o i j) 0 then (if Req_EM_T (ex i j) 0 then 0 else ex i j) else (IZR (o i j) - ex i j) * (IZR (o i j) - ex i j) / ex i j.

Lemma chiStat_eq : (0 < tot)%Z -> @chiStat XR p q m = Ok (Fin (dsum cterm)).
Proof.
  intros Ht. unfold chiStat.
  rewrite (collect_ok (fun c => @expected XR p q m (fst c) (snd c)) (fun c => Fin (ex (fst c) (snd c)))).
  2:{ intros [i j] H. apply cells_in in H as [Hi Hj]. cbn [fst snd]. etransitivity; [apply (expected_ok XR); auto|]. f_equal.
      change (xdiv (Fin (IZR (col j * row i))) (Fin (IZR tot)) = Fin (ex i j)). cbn [xdiv].
      destruct (Req_EM_T (IZR tot) 0) as [Z0|_]; [apply (eq_IZR _ 0) in Z0; lia|]. unfold ex. rewrite mult_IZR. auto. }
  cbn [bind app]. rewrite combine_map.
  assert (G : forall l a, (forall c, In c l -> (fst c < p /\ snd c < q)%nat) ->
    foldr_ (fun s (ce : nat * nat * xreal) => let (c, e) := ce in
         o <- getM m (fst c) (snd c);
         if xeq e (Fin 0) && (o =? 0)%Z then Ok s
         else let diff := xsub (Fin (IZR o)) e in Ok (xadd s (xdiv (xmul diff diff) e)))
      (map (fun c => (c, Fin (ex (fst c) (snd c)))) l) (Fin a) =
    Ok (Fin (a + Rsum (map (fun c => cterm (fst c) (snd c)) l)))).
  { induction l as [|[i j] l IH]; intros a Hl; cbn [map foldr_ Rsum]; [rewrite Rplus_0_r; auto|].
    destruct (Hl (i, j) (or_introl eq_refl)) as [Hi Hj]. cbn [fst snd] in *.
    pose proof (t_cell _ _ _ _ HT i j Hi Hj) as [Hat H0]. rewrite (getM_at _ _ _ _ Hat). cbn [bind]. cbv zeta.
    match goal with |- bind ?x _ = _ => assert (HG : x = Ok (Fin (a + cterm i j))) end.
    { unfold cterm. cbn [xeq]. destruct (Req_EM_T (ex i j) 0) as [E|E]; cbn [andb].
      - rewrite (ex_zero i j Hi Hj Ht E). cbn [Z.eqb]. rewrite Rplus_0_r. auto.
      - cbn [xsub xneg xadd xmul xdiv]. destruct (Req_EM_T (ex i j) 0); [lra|]. cbn [xadd]. destruct (Z.eqb_spec (o i j) 0) as [E0|E0]; auto.
        rewrite E0. do 3 f_equal. field. auto. }
    rewrite HG. cbn [bind]. rewrite IH by (intros; apply Hl; right; auto). f_equal. f_equal. lra. }
  etransitivity; [apply (G (cells p q) 0)|f_equal; f_equal; unfold dsum; lra]. intros [i j] H. apply cells_in; auto.
Qed.

Lemma cterm_nonneg i j : (i < p)%nat -> (j < q)%nat -> (0 < tot)%Z -> 0 <= cterm i j.
Proof.
  intros Hi Hj Ht. pose proof (ex_nonneg i j Hi Hj Ht) as He. unfold cterm. destruct (Z.eqb_spec (o i j) 0) as [E|E].
  - destruct (Req_EM_T _ _); lra.
  - assert (Hne : ex i j <> 0) by (intros Hz; apply E; apply ex_zero; auto).
    apply Rmult_le_pos; [apply Rle_0_sqr|]. left. apply Rinv_0_lt_compat. lra.
Qed.

Lemma c_zero_iff : (0 < tot)%Z -> (dsum cterm = 0 <-> forall i j, (i < p)%nat -> (j < q)%nat -> (o i j * tot = row i * col j)%Z).
Proof.
  intros Ht. split.
  - intros HG i j Hi Hj.
    assert (HA : 0 = cterm i j).
    { apply (Rsum_eq_all (fun _ => 0) (fun c => cterm (fst c) (snd c)) (cells p q)) with (x := (i, j)).
      - intros [a b] Hc. apply cells_in in Hc as [Ha Hb]. apply cterm_nonneg; auto.
      - unfold dsum in HG. rewrite HG. apply Rsum_const0.
      - apply cells_in. auto. }
    assert (HE : ex i j = IZR (o i j)).
    { unfold cterm in HA. destruct (Z.eqb_spec (o i j) 0) as [E0|E0].
      - rewrite E0. destruct (Req_EM_T (ex i j) 0); simpl; lra.
      - assert (Hne : ex i j <> 0) by (intros Hz; apply E0; apply ex_zero; auto).
        symmetry in HA. apply Rmult_integral in HA as [HA|HA]; [|exfalso; revert HA; apply Rinv_neq_0_compat; auto].
        apply Rsqr_0_uniq in HA. lra. }
    unfold ex in HE. apply eq_IZR. rewrite !mult_IZR, <- HE. field. apply not_0_IZR. lia.
  - intros H. unfold dsum. rewrite (Rsum_ext _ (fun _ => 0)); [apply Rsum_const0|].
    intros [i j] Hc. apply cells_in in Hc as [Hi Hj]. cbn [fst snd].
    assert (HE : ex i j = IZR (o i j)).
    { unfold ex. rewrite <- mult_IZR, Z.mul_comm, <- H, mult_IZR by auto. field. apply not_0_IZR. lia. }
    unfold cterm. rewrite HE. destruct (Z.eqb_spec (o i j) 0) as [->|]; [destruct (Req_EM_T 0 0); auto|].
    unfold Rdiv. rewrite Rminus_diag_eq by auto. lra.
Qed.
End T.

(** Independent tables: every observed count equals the expected one. *)
Lemma gStat_l p q m o : table_of p q m o ->
  exists g, @gStat XR p q m = Ok (Fin g) /\ 0 <= g /\
    (g = 0 <-> forall i j, (i < p)%nat -> (j < q)%nat ->
       (o i j * fold_right Z.add 0 (map (fun i => fold_right Z.add 0 (map (fun j => o i j) (seq 0 q))) (seq 0 p)) =
        fold_right Z.add 0 (map (fun j => o i j) (seq 0 q)) * fold_right Z.add 0 (map (fun i => o i j) (seq 0 p)))%Z).
Proof.
  intros HT. exists (2 * dsum p q (gterm p q o)). split; [apply gStat_eq; auto|].
  pose proof (g_nonneg p q m o HT). split; [lra|]. split.
  - intros E. apply (g_zero_only p q m o HT). lra.
  - intros HE. rewrite (g_zero p q m o HT HE). lra.
Qed.
Lemma chiStat_l p q m o : table_of p q m o ->
  (0 < fold_right Z.add 0 (map (fun i => fold_right Z.add 0 (map (fun j => o i j) (seq 0 q))) (seq 0 p)))%Z ->
  exists g, @chiStat XR p q m = Ok (Fin g) /\ 0 <= g /\
    (g = 0 <-> forall i j, (i < p)%nat -> (j < q)%nat ->
       (o i j * fold_right Z.add 0 (map (fun i => fold_right Z.add 0 (map (fun j => o i j) (seq 0 q))) (seq 0 p)) =
        fold_right Z.add 0 (map (fun j => o i j) (seq 0 q)) * fold_right Z.add 0 (map (fun i => o i j) (seq 0 p)))%Z).
Proof.
  intros HT Ht. exists (dsum p q (cterm p q o)). split; [apply chiStat_eq; auto|]. split.
  - unfold dsum. apply Rsum_nonneg. intros x Hx. apply in_map_iff in Hx as ([i j] & <- & Hc). apply cells_in in Hc as [Hi Hj].
    apply (cterm_nonneg p q m o HT); auto.
  - apply (c_zero_iff p q m o HT Ht).
Qed.
