From Coq Require Import Reals Lra Lia.
From Verif Require Import Base Res Arith ChiP ChiPSpec.
Local Open Scope R_scope.

(** The terms and partial sums of the series. *)
Fixpoint cs (x s : R) (n : nat) : R := match n with O => 1 | S m => cs x s m * (x / (s + INR (S m))) end.
Fixpoint ps (x s : R) (n : nat) : R := match n with O => 1 | S m => ps x s m + cs x s (S m) end.
Definition e12 : R := 1 / 1000000000000.

Lemma cs_pos x s n : 0 < x -> 0 < s -> 0 < cs x s n.
Proof.
  intros Hx Hs. induction n as [|n IH]; cbn [cs]; [lra|]. apply Rmult_lt_0_compat; auto.
  pose proof (pos_INR (S n)). apply Rdiv_lt_0_compat; lra.
Qed.
Lemma ps_ge1 x s n : 0 < x -> 0 < s -> 1 <= ps x s n.
Proof.
  intros Hx Hs. induction n as [|n IH]; [simpl; lra|]. change (ps x s (S n)) with (ps x s n + cs x s (S n)). pose proof (cs_pos x s (S n) Hx Hs). lra.
Qed.

Lemma eps_val : @eps XR = Fin e12.
Proof. unfold eps, e12. simpl. destruct (Req_EM_T 1000000000000 0); [lra|reflexivity]. Qed.

Lemma series_stop x s M : 0 < x -> 0 < s -> cs x s M <= e12 -> forall j n fuel, (n + j = M)%nat -> (j <= fuel)%nat ->
  exists m, @series XR fuel (Fin x) (Fin (s + INR n)) (Fin (cs x s n)) (Fin (ps x s n)) = Ok (Fin (ps x s m)) /\ (n <= m <= M)%nat /\ cs x s m <= e12 * ps x s m.
Proof.
  intros Hx Hs HM. induction j as [|j IH]; intros n fuel Hn Hf.
  - replace n with M by lia. exists M. pose proof (ps_ge1 x s M Hx Hs) as Hp. pose proof (cs_pos x s M Hx Hs) as Hc.
    split; [|split; [lia|unfold e12 in *; nra]].
    assert (E : @fgt XR (@fdiv XR (Fin (cs x s M)) (Fin (ps x s M))) (@eps XR) = false).
    { rewrite eps_val. simpl. destruct (Req_EM_T (ps x s M) 0); [lra|]. simpl. destruct (Rlt_dec e12 _) as [H|]; auto. exfalso.
      assert (cs x s M / ps x s M <= cs x s M) by (apply (Rmult_le_reg_r (ps x s M)); [lra|]; unfold Rdiv; rewrite Rmult_assoc, Rinv_l by lra; nra). lra. }
    destruct fuel; cbn [series]; rewrite E; reflexivity.
  - destruct fuel as [|fuel]; [lia|]. cbn [series].
    pose proof (ps_ge1 x s n Hx Hs) as Hp. pose proof (cs_pos x s n Hx Hs) as Hc.
    assert (E : @fgt XR (@fdiv XR (Fin (cs x s n)) (Fin (ps x s n))) (@eps XR) = if Rlt_dec e12 (cs x s n / ps x s n) then true else false).
    { rewrite eps_val. simpl. destruct (Req_EM_T (ps x s n) 0); [lra|]. reflexivity. }
    rewrite E. destruct (Rlt_dec e12 (cs x s n / ps x s n)) as [H|H].
    + cbv zeta. pose proof (pos_INR (S n)) as Hi.
      assert (Er : @fadd XR (Fin (s + INR n)) (@fz XR 1) = Fin (s + INR (S n))) by (rewrite S_INR; cbn [fadd fz XR xadd]; f_equal; lra).
      rewrite Er.
      assert (Ec : @fmul XR (Fin (cs x s n)) (@fdiv XR (Fin x) (Fin (s + INR (S n)))) = Fin (cs x s (S n))).
      { cbn [fmul fdiv XR xdiv xmul]. destruct (Req_EM_T (s + INR (S n)) 0); [lra|]. reflexivity. }
      rewrite Ec. change (@fadd XR (Fin (ps x s n)) (Fin (cs x s (S n)))) with (Fin (ps x s (S n))).
      destruct (IH (S n) fuel) as (m & Em & Hm & Hs'); [lia|lia|]. exists m. split; auto. split; [lia|auto].
    + exists n. split; auto. split; [lia|]. apply Rnot_lt_le in H.
      apply (Rmult_le_compat_r (ps x s n)) in H; [|lra]. unfold Rdiv in H. rewrite Rmult_assoc, Rinv_l in H by lra. lra.
Qed.

Lemma cs_small x s : 0 < x -> 0 < s -> exists M, cs x s M <= e12.
Proof.
  intros Hx Hs. assert (exists N, 2 * x < INR N) as (N & HN).
  { exists (Z.to_nat (up (2 * x))). destruct (archimed (2 * x)) as (Ha & _). rewrite INR_IZR_INZ, Z2Nat.id; [lra|]. apply le_IZR. lra. }
  assert (G : forall j, cs x s (N + j) <= cs x s N * (1/2) ^ j).
  { induction j as [|j IH]; [rewrite Nat.add_0_r; simpl; lra|]. rewrite Nat.add_succ_r. cbn [cs pow].
    pose proof (cs_pos x s (N + j) Hx Hs) as Hc. assert (Hd : x / (s + INR (S (N + j))) <= 1 / 2).
    { assert (INR N <= INR (S (N + j))) by (apply le_INR; lia).
      apply (Rmult_le_reg_r (s + INR (S (N + j)))); [pose proof (pos_INR N); lra|]. unfold Rdiv. rewrite Rmult_assoc, Rinv_l by (pose proof (pos_INR N); lra). lra. }
    apply Rle_trans with (cs x s (N + j) * (1 / 2)); [apply Rmult_le_compat_l; lra|]. lra. }
  pose proof (cs_pos x s N Hx Hs) as Hc.
  destruct (pow_lt_1_zero (1/2) ltac:(rewrite Rabs_right; lra) (e12 / cs x s N)) as (K & HK); [apply Rdiv_lt_0_compat; unfold e12; lra|].
  exists (N + K)%nat. apply Rle_trans with (cs x s N * (1 / 2) ^ K); auto.
  pose proof (HK K (le_n K)) as HKK. rewrite Rabs_right in HKK by (apply Rle_ge, pow_le; lra).
  apply (Rmult_lt_compat_l (cs x s N)) in HKK; auto. unfold Rdiv in HKK. replace (cs x s N * (e12 * / cs x s N)) with e12 in HKK by (field; lra). unfold Rdiv. lra.
Qed.

(** Partial sums of the exponential series. *)
Definition et (x : R) (j : nat) : R := x ^ j / INR (fact j).
Definition es (x : R) (n : nat) : R := sum_f_R0 (et x) n.

Lemma et_pos x j : 0 < x -> 0 < et x j.
Proof. intros Hx. apply Rdiv_lt_0_compat; [apply pow_lt; auto|apply INR_fact_lt_0]. Qed.
Lemma et_S x j : et x (S j) = et x j * (x / INR (S j)).
Proof.
  unfold et. rewrite fact_simpl, mult_INR. cbn [pow]. field. split; first [apply INR_fact_neq_0|apply not_0_INR; lia].
Qed.
Lemma es_cv x : Un_cv (es x) (exp x).
Proof.
  unfold es, exp. destruct (exist_exp x) as (l & Hl). cbn [proj1_sig]. unfold exp_in, infinite_sum in Hl.
  intros e He. destruct (Hl e He) as (N & HN). exists N. intros n Hn. specialize (HN n Hn).
  replace (sum_f_R0 (et x) n) with (sum_f_R0 (fun i => / INR (fact i) * x ^ i) n); auto.
  apply sum_eq. intros i _. unfold et, Rdiv. ring.
Qed.
Lemma es_mono x n m : 0 < x -> (n <= m)%nat -> es x n <= es x m.
Proof.
  intros Hx H. induction H as [|m H IH]; [lra|]. unfold es in *. cbn [sum_f_R0]. pose proof (et_pos x (S m) Hx). lra.
Qed.
Lemma es_le_exp x n : 0 < x -> es x n <= exp x.
Proof.
  intros Hx. apply (growing_ineq (es x)); [|apply es_cv]. intros m. apply es_mono; auto.
Qed.
Lemma lim_le (U : nat -> R) l B N : Un_cv U l -> (forall n, (N <= n)%nat -> U n <= B) -> l <= B.
Proof.
  intros Hc HB. destruct (Rle_or_lt l B) as [|H]; auto. exfalso. destruct (Hc (l - B) ltac:(lra)) as (K & HK).
  specialize (HK (Nat.max N K) ltac:(lia)). specialize (HB (Nat.max N K) ltac:(lia)). unfold R_dist in HK. apply Rabs_def2 in HK. lra.
Qed.
Lemma exp_tail x N b : 0 < x -> 0 <= b -> x <= b -> b < INR (S N) ->
  exp x - es x N <= et x N * (b / (INR (S N) - b)).
Proof.
  intros Hx Hb Hxb HN. set (q := b / INR (S N)). assert (Hq : 0 <= q < 1).
  { split; [apply Rmult_le_pos; auto; left; apply Rinv_0_lt_compat; lra|]. unfold q. apply (Rmult_lt_reg_r (INR (S N))); [lra|].
    unfold Rdiv. rewrite Rmult_assoc, Rinv_l by lra. lra. }
  assert (Ht : forall j, et x (N + j) <= et x N * q ^ j).
  { induction j as [|j IH]; [rewrite Nat.add_0_r; simpl; lra|]. rewrite Nat.add_succ_r, et_S. cbn [pow].
    assert (H1 : x / INR (S (N + j)) <= q).
    { unfold q, Rdiv. apply Rmult_le_compat; auto; try lra; [left; apply Rinv_0_lt_compat, lt_0_INR; lia|].
      apply Rinv_le_contravar; [lra|]. apply le_INR. lia. }
    pose proof (et_pos x (N + j) Hx). apply Rle_trans with (et x (N + j) * q); [apply Rmult_le_compat_l; lra|]. nra. }
  assert (Hs : forall j, es x (N + j) - es x N <= et x N * (q * (1 - q ^ j) / (1 - q))).
  { induction j as [|j IH]; [rewrite Nat.add_0_r; simpl; unfold Rdiv; lra|]. rewrite Nat.add_succ_r. unfold es in *. cbn [sum_f_R0].
    specialize (Ht (S j)). rewrite Nat.add_succ_r in Ht. cbn [pow] in *.
    replace (q * (1 - q * q ^ j) / (1 - q)) with (q * (1 - q ^ j) / (1 - q) + q * q ^ j) by (field; lra). lra. }
  enough (exp x <= es x N + et x N * (b / (INR (S N) - b))) by lra.
  apply (lim_le (es x) _ _ N); [apply es_cv|]. intros n Hn. replace n with (N + (n - N))%nat by lia. specialize (Hs (n - N)%nat).
  assert (q * (1 - q ^ (n - N)) / (1 - q) <= b / (INR (S N) - b)).
  { replace (b / (INR (S N) - b)) with (q / (1 - q)) by (unfold q; field; lra).
    unfold Rdiv. apply Rmult_le_compat_r; [left; apply Rinv_0_lt_compat; lra|]. assert (0 <= q ^ (n - N)) by (apply pow_le; lra). nra. }
  pose proof (et_pos x N Hx). nra.
Qed.

(** With an integer second argument the series is a piece of the exponential series. *)
Lemma cs_et x k n : 0 < x -> (0 < k)%nat -> et x k * cs x (INR k) n = et x (k + n).
Proof.
  intros Hx Hk. induction n as [|n IH]; [rewrite Nat.add_0_r; simpl; lra|]. rewrite Nat.add_succ_r, et_S. cbn [cs]. rewrite <- Rmult_assoc, IH.
  f_equal. f_equal. replace (S (k + n)) with (k + S n)%nat by lia. rewrite plus_INR. reflexivity.
Qed.
Lemma ps_es x k n : 0 < x -> (0 < k)%nat -> et x k * ps x (INR k) n = es x (k + n) - es x (k - 1).
Proof.
  intros Hx Hk. induction n as [|n IH].
  - rewrite Nat.add_0_r. destruct k as [|k]; [lia|]. simpl (S k - 1)%nat. rewrite Nat.sub_0_r. unfold es. cbn [ps sum_f_R0]. lra.
  - change (ps x (INR k) (S n)) with (ps x (INR k) n + cs x (INR k) (S n)). rewrite Rmult_plus_distr_l, IH, cs_et by auto.
    rewrite Nat.add_succ_r. unfold es. cbn [sum_f_R0]. lra.
Qed.

Lemma survival_es k cv : (0 < k)%nat -> survival k cv = exp (- (cv / 2)) * es (cv / 2) (k - 1).
Proof. reflexivity. Qed.

Lemma x_pow x k : 0 < x -> exp (INR k * ln x) = x ^ k.
Proof.
  intros Hx. induction k as [|k IH]; [simpl; rewrite Rmult_0_l; apply exp_0|]. rewrite S_INR, Rmult_plus_distr_r, exp_plus, IH, Rmult_1_l, exp_ln by auto. simpl. lra.
Qed.

(** The value of lgamma in the branch of the series. *)
Lemma lowerSum_ok lgam x k : 0 < x -> (0 < k)%nat -> x <= INR k -> exists f0, forall fuel, (f0 <= fuel)%nat -> exists m,
  @lowerSum XR lgam fuel (Fin x) (Fin (INR k)) false = Ok (Fin (INR (fact (k - 1)) * (exp (- x) * (es x (k + m) - es x (k - 1))))) /\
  0 <= exp x - es x (k + m) <= e12 * INR k * (es x (k + m) - es x (k - 1)).
Proof.
  intros Hx Hk Hxk. assert (HK : 0 < INR k) by (apply lt_0_INR; auto). destruct (cs_small x (INR k) Hx HK) as (M & HM).
  exists M. intros fuel Hf. destruct (series_stop x (INR k) M Hx HK HM M 0 fuel eq_refl Hf) as (m & Em & Hm & Hc). exists m. split.
  - unfold lowerSum. cbv zeta. simpl INR in Em at 1. rewrite Rplus_0_r in Em. cbn [cs ps] in Em. 
    change (@series XR fuel (Fin x) (Fin (INR k)) (@fz XR 1) (@fz XR 1)) with (@series XR fuel (Fin x) (Fin (INR k)) (Fin 1) (Fin 1)). rewrite Em. cbn [bind]. f_equal.
    cbn [fsub fmul flog fexp fdiv XR xlog]. destruct (Rlt_dec 0 x); [|lra]. cbn [xmul xsub xneg xadd xexp xdiv]. destruct (Req_EM_T (INR k) 0); [lra|]. f_equal.
    rewrite <- ps_es by auto. rewrite exp_plus, x_pow by auto. unfold et.
    destruct k as [|k]; [lia|]. simpl (S k - 1)%nat. rewrite Nat.sub_0_r, fact_simpl, mult_INR. field. split; first [apply INR_fact_neq_0|apply not_0_INR; lia].
  - split; [pose proof (es_le_exp x (k + m) Hx); lra|].
    assert (HS : INR k < INR (S (k + m))) by (apply lt_INR; lia).
    pose proof (exp_tail x (k + m) (INR k) Hx ltac:(lra) Hxk HS) as Ht.
    assert (Hb : INR k / (INR (S (k + m)) - INR k) <= INR k).
    { assert (1 <= INR (S (k + m)) - INR k) by (rewrite S_INR, plus_INR; pose proof (pos_INR m); lra).
      apply (Rmult_le_reg_r (INR (S (k + m)) - INR k)); [lra|]. unfold Rdiv. rewrite Rmult_assoc, Rinv_l by lra. nra. }
    rewrite <- ps_es by auto. rewrite <- cs_et in Ht by auto. pose proof (et_pos x k Hx) as Hek.
    eapply Rle_trans; [exact Ht|]. pose proof (cs_pos x (INR k) m Hx HK).
    apply Rle_trans with (et x k * cs x (INR k) m * INR k); [apply Rmult_le_compat_l; [nra|auto]|].
    apply Rle_trans with (et x k * (e12 * ps x (INR k) m) * INR k); [|lra].
    apply Rmult_le_compat_r; [lra|]. apply Rmult_le_compat_l; lra.
Qed.

Lemma lgamma_low gam lgam abs nan d fuel x s reg : 0 < x -> 0 < s -> x <= s ->
  @lgamma XR gam lgam abs nan (S d) fuel (Fin x) (Fin s) reg = @lowerSum XR lgam fuel (Fin x) (Fin s) reg.
Proof.
  intros Hx Hs H. cbn [lgamma].
  assert (E1 : @feq XR (Fin x) (@fz XR 0) = false) by (simpl; destruct (Req_EM_T x 0); auto; lra).
  assert (E2 : (@fgt XR (@fz XR 0) (Fin x) || @fge XR (@fz XR 0) (Fin s))%bool = false).
  { simpl. unfold xge. simpl. destruct (Rlt_dec x 0); [lra|]. destruct (Rlt_dec s 0); [lra|]. destruct (Req_EM_T 0 s); [lra|]. reflexivity. }
  assert (E3 : @fgt XR (Fin x) (Fin s) = false) by (simpl; destruct (Rlt_dec s x); auto; lra).
  rewrite E1, E2, E3, Bool.andb_false_r. reflexivity.
Qed.

Section Main.
Variables (gam lgam : xreal -> xreal) (nan : xreal).
Hypothesis Hg : gamma_ok gam.
Notation chi := (@chisquare XR gam lgam xabs nan xisnan).

Lemma chi_even d fuel k cv p : (2 <= k)%nat -> 0 <= cv -> @lgamma XR gam lgam xabs nan d fuel (Fin (cv / 2)) (Fin (INR k)) false = Ok (Fin p) ->
  chi d fuel (2 * Z.of_nat k) (Fin cv) = Ok (Fin (if Rle_dec p (1 / 100000000) then 1 / 100000000000000 else 1 - p / INR (fact (k - 1)))).
Proof.
  intros Hk Hcv E. unfold chisquare.
  assert (E1 : @fgt XR (@fz XR 0) (Fin cv) = false) by (simpl; destruct (Rlt_dec cv 0); auto; lra). rewrite E1.
  destruct (Z.ltb_spec (2 * Z.of_nat k) 1); [lia|]. cbn [orb]. cbv zeta.
  destruct (Z.eqb_spec (2 * Z.of_nat k) 2); [lia|].
  assert (E2 : @fdiv XR (@fz XR (2 * Z.of_nat k)) (@fz XR 2) = Fin (INR k)).
  { cbn [fdiv fz XR xdiv]. destruct (Req_EM_T 2 0); [lra|]. f_equal. rewrite mult_IZR, <- INR_IZR_INZ. field. }
  assert (E3 : @fdiv XR (Fin cv) (@fz XR 2) = Fin (cv / 2)) by (simpl; destruct (Req_EM_T 2 0); [lra|reflexivity]).
  rewrite E2, E3, E. cbn [bind]. cbn [xisnan orb].
  assert (E4 : (@fisinf XR (Fin p) || @fge XR (@fdiv XR (@fz XR 1) (@fz XR 100000000)) (Fin p))%bool = if Rle_dec p (1 / 100000000) then true else false).
  { simpl. destruct (Req_EM_T 100000000 0); [lra|]. unfold xge. simpl. destruct (Rlt_dec p (1 / 100000000)); destruct (Req_EM_T (1 / 100000000) p); destruct (Rle_dec p (1 / 100000000)); auto; lra. }
  rewrite E4. destruct (Rle_dec p (1 / 100000000)).
  - simpl. destruct (Req_EM_T 100000000000000 0); [lra|reflexivity].
  - assert (Eg : gam (Fin (INR k)) = Fin (INR (fact (k - 1)))) by (destruct k as [|k]; [lia|]; rewrite Hg; simpl (S k - 1)%nat; rewrite Nat.sub_0_r; auto).
    f_equal. match goal with |- context [gam ?u] => change (gam u) with (gam (Fin (INR k))) end. rewrite Eg. simpl. destruct (Req_EM_T (INR (fact (k - 1))) 0) as [Z|]; [exfalso; revert Z; apply INR_fact_neq_0|]. reflexivity.
Qed.

Lemma chi_series_l k cv d : (2 <= k)%nat -> 0 < cv <= 2 * INR k -> exists f0, forall fuel, (f0 <= fuel)%nat -> exists v,
  chi (S d) fuel (2 * Z.of_nat k) (Fin cv) = Ok (Fin v) /\
  ((1 - survival k cv) * INR (fact (k - 1)) <= 1 / 100000000 -> v = 1 / 100000000000000) /\
  ((1 + INR k / 1000000000000) / 100000000 < (1 - survival k cv) * INR (fact (k - 1)) ->
     survival k cv <= v <= survival k cv + INR k / 1000000000000).
Proof.
  intros Hk (Hp & Hle). set (x := cv / 2). assert (Hx : 0 < x) by (unfold x; lra).
  destruct (lowerSum_ok lgam x k Hx ltac:(lia)) as (f0 & Hf0); [unfold x; lra|]. exists f0. intros fuel Hf. destruct (Hf0 fuel Hf) as (m & Em & Ht).
  assert (HK : 0 < INR k) by (apply lt_0_INR; lia).
  assert (Hxk : x <= INR k) by (unfold x; lra).
  rewrite <- (lgamma_low gam lgam xabs nan d) in Em by auto.
  rewrite (chi_even _ _ _ _ _ Hk (Rlt_le _ _ Hp) Em). eexists. split; [reflexivity|].
  rewrite survival_es by lia. fold x. set (G := INR (fact (k - 1))) in *. assert (HG : 0 < G) by apply INR_fact_lt_0.
  set (a := es x (k - 1)) in *. set (b := es x (k + m)) in *. assert (He : 0 < exp (- x)) by apply exp_pos.
  assert (Hee : exp (- x) * exp x = 1) by (rewrite <- exp_plus; replace (- x + x) with 0 by lra; apply exp_0).
  assert (Hab : a <= b) by (apply es_mono; auto; lia).
  (* 1 - survival = e^-x (e^x - a) *)
  replace (1 - exp (- x) * a) with (exp (- x) * (exp x - a)) by (rewrite Rmult_minus_distr_l, Hee; reflexivity).
  assert (H1 : exp (- x) * (b - a) <= exp (- x) * (exp x - a)) by (apply Rmult_le_compat_l; lra).
  assert (H2 : exp (- x) * (exp x - a) <= exp (- x) * (b - a) * (1 + e12 * INR k)).
  { rewrite Rmult_assoc. apply Rmult_le_compat_l; [lra|]. lra. }
  split.
  - intros Hs. destruct (Rle_dec _ _) as [|n]; auto. exfalso. apply n. eapply Rle_trans; [|exact Hs]. rewrite Rmult_comm. apply Rmult_le_compat_r; lra.
  - intros Hs. destruct (Rle_dec _ _) as [Hl|Hl].
    + exfalso. revert Hs. apply Rle_not_lt. replace ((1 + INR k / 1000000000000) / 100000000) with (1 / 100000000 * (1 + e12 * INR k)) by (unfold e12; field).
      apply Rle_trans with (G * (exp (- x) * (b - a)) * (1 + e12 * INR k)); [|apply Rmult_le_compat_r; [unfold e12; lra|auto]].
      apply Rle_trans with (exp (- x) * (b - a) * (1 + e12 * INR k) * G); [apply Rmult_le_compat_r; lra|]. lra.
    + replace (1 - G * (exp (- x) * (b - a)) / G) with (1 - exp (- x) * (b - a)) by (field; lra).
      replace (exp (- x) * a) with (1 - exp (- x) * (exp x - a)) by (rewrite Rmult_minus_distr_l, Hee; lra).
      split; [lra|].
      assert (H3 : exp (- x) * (b - a) <= 1).
      { eapply Rle_trans; [exact H1|]. rewrite Rmult_minus_distr_l, Hee. assert (0 <= a) by (apply Rle_trans with (es x 0); [unfold es; simpl; unfold et; simpl; lra|apply es_mono; auto; lia]). nra. }
      assert (H4 : exp (- x) * (b - a) * (e12 * INR k) <= INR k / 1000000000000).
      { replace (INR k / 1000000000000) with (1 * (e12 * INR k)) by (unfold e12; field). apply Rmult_le_compat_r; auto. unfold e12. lra. }
      lra.
Qed.

Lemma chi_zero_l df d fuel : (1 <= df)%Z -> df <> 2%Z -> chi (S d) fuel df (Fin 0) = Ok (Fin (1 / 100000000000000)).
Proof.
  intros Hd Hn. unfold chisquare. assert (E1 : @fgt XR (@fz XR 0) (Fin 0) = false) by (simpl; destruct (Rlt_dec 0 0); auto; lra). rewrite E1.
  destruct (Z.ltb_spec df 1); [lia|]. cbn [orb]. cbv zeta. destruct (Z.eqb_spec df 2); [lia|]. cbn [lgamma].
  assert (E2 : @feq XR (@fdiv XR (Fin 0) (@fz XR 2)) (@fz XR 0) = true) by (simpl; destruct (Req_EM_T 2 0); [lra|]; simpl; destruct (Req_EM_T (0 / 2) 0); auto; lra).
  rewrite E2. cbn [bind]. simpl. destruct (Req_EM_T 100000000 0); [lra|]. unfold xge. simpl. destruct (Rlt_dec 0 (1 / 100000000)); [|lra]. simpl.
  destruct (Req_EM_T 100000000000000 0); [lra|]. reflexivity.
Qed.

Lemma chi_two_l d fuel cv : 0 <= cv -> chi d fuel 2 (Fin cv) = Ok (Fin (survival 1 cv)).
Proof.
  intros H. unfold chisquare. assert (E1 : @fgt XR (@fz XR 0) (Fin cv) = false) by (simpl; destruct (Rlt_dec cv 0); auto; lra). rewrite E1. simpl.
  destruct (Req_EM_T 2 0); [lra|]. simpl. do 2 f_equal. unfold survival. simpl. replace (0 + - (cv / 2)) with (- (cv / 2)) by lra. field.
Qed.
End Main.

Lemma survival_zero k : (0 < k)%nat -> survival k 0 = 1.
Proof.
  intros Hk. unfold survival. replace (0 / 2) with 0 by lra. rewrite Ropp_0, exp_0, Rmult_1_l. generalize (k - 1)%nat. intros n.
  induction n as [|n IH]; [simpl; lra|]. cbn [sum_f_R0]. rewrite IH. cbn [pow]. unfold Rdiv. lra.
Qed.

Lemma chisqr_zero_l gam lgam nan d fuel df : (1 <= df)%Z -> @chisqr XR gam lgam xabs nan (S d) fuel df (Fin 0) =
  Ok (xdiv nan (gam (Fin (IZR df / 2)))).
Proof.
  intros Hd. apply (IZR_le 1) in Hd. unfold chisqr. cbn [lgamma].
  assert (E1 : @fdiv XR (@fz XR df) (@fz XR 2) = Fin (IZR df / 2)) by (simpl; destruct (Req_EM_T 2 0); [lra|reflexivity]). rewrite E1.
  assert (E2 : @feq XR (Fin (IZR df / 2)) (@fz XR 0) = false) by (simpl; destruct (Req_EM_T (IZR df / 2) 0); auto; lra). rewrite E2.
  assert (E3 : @fge XR (@fz XR 0) (@fdiv XR (Fin 0) (@fz XR 2)) = true).
  { simpl. destruct (Req_EM_T 2 0); [lra|]. unfold xge. simpl. destruct (Rlt_dec (0 / 2) 0); auto. destruct (Req_EM_T 0 (0 / 2)); auto; lra. }
  rewrite E3, Bool.orb_true_r. reflexivity.
Qed.
