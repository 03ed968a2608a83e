From Coq Require Import Reals Lra Lia.
From Verif Require Import Base Res Arith ChiP ChiPSpec ChiPLemmas ChiPCases ChiAllSpec ChiAllLemmas ChiAllCases.
Local Open Scope R_scope.

(** The incomplete gamma function exists: after substituting u = t^s its integrand is continuous. *)
Section Integral.
Variable f : R -> R.
Hypothesis Hf : forall x, continuity_pt f x.
Definition prim (x : R) : R :=
  match Rle_dec (-1) x with
  | left h => RiemannInt (continuity_implies_RiemannInt h (fun y _ => Hf y))
  | right _ => 0
  end.
Lemma prim_der x : -1 < x -> derivable_pt_lim prim x (f x).
Proof.
  intros Hx. assert (h : -1 <= x + 1) by lra. pose proof (RiemannInt_P28 (f := f) (x := x) h (fun y _ => Hf y) ltac:(lra)) as D.
  intros e He. destruct (D e He) as (d & Hd). assert (P : 0 < Rmin d (Rmin 1 (x + 1))) by (apply Rmin_pos; [apply cond_pos|apply Rmin_pos; lra]).
  exists (mkposreal _ P). intros k Hk Hk2. cbn [pos] in Hk2. pose proof (Rmin_l d (Rmin 1 (x + 1))). pose proof (Rmin_r d (Rmin 1 (x + 1))). pose proof (Rmin_l 1 (x + 1)). pose proof (Rmin_r 1 (x + 1)).
  specialize (Hd k Hk ltac:(lra)).
  assert (Eq : forall y, -1 <= y <= x + 1 -> primitive h (FTC_P1 h (fun y _ => Hf y)) y = prim y).
  { intros y Hy. unfold primitive, prim. destruct (Rle_dec (-1) y); [|lra]. destruct (Rle_dec y (x + 1)); [|lra]. apply RiemannInt_P5. }
  apply Rabs_def2 in Hk2. rewrite !Eq in Hd by lra. exact Hd.
Qed.
End Integral.

Section Exist.
Variable s : R.
Hypothesis Hs : 0 < s.
Definition fint (u : R) : R := if Rle_dec u 0 then / s else exp (- Rpower u (/ s)) / s.
Lemma fint_cont u : continuity_pt fint u.
Proof.
  destruct (Rtotal_order u 0) as [H|[->|H]].
  - apply (continuity_pt_locally_ext (fun _ => / s) fint (- u)); [lra| |apply continuity_pt_const; intros ? ?; reflexivity].
    intros y Hy. unfold R_dist in Hy. apply Rabs_def2 in Hy. unfold fint. destruct (Rle_dec y 0); auto. lra.
  - intros e He. destruct (small_power (/ s) (Rinv_0_lt_compat _ Hs) (e * s)) as (d & P & Hd); [apply Rmult_lt_0_compat; auto|].
    exists d. split; auto. intros y (_ & Hy). simpl in *. unfold R_dist in *. rewrite Rminus_0_r in Hy. unfold fint. destruct (Rle_dec 0 0); [|lra]. destruct (Rle_dec y 0).
    + rewrite Rminus_diag_eq, Rabs_R0 by auto. auto.
    + rewrite Rabs_right in Hy by lra. specialize (Hd y ltac:(lra)). rewrite Rabs_right in Hd by (left; apply exp_pos).
      assert (0 < Rpower y (/ s)) by apply exp_pos. pose proof (exp_ineq1 (- Rpower y (/ s)) ltac:(lra)). pose proof (exp_small_1 (Rpower y (/ s)) ltac:(auto)).
      rewrite Rabs_left1.
      * replace (- (exp (- Rpower y (/ s)) / s - / s)) with ((1 - exp (- Rpower y (/ s))) / s) by (field; lra).
        apply (Rmult_lt_reg_r s); auto. unfold Rdiv. rewrite Rmult_assoc, Rinv_l by lra. lra.
      * assert (exp (- Rpower y (/ s)) / s <= / s) by (pose proof (Rinv_0_lt_compat s Hs); unfold Rdiv; nra). lra.
  - apply (continuity_pt_locally_ext (fun u => exp (- Rpower u (/ s)) / s) fint u); [lra| |].
    { intros y Hy. unfold R_dist in Hy. apply Rabs_def2 in Hy. unfold fint. destruct (Rle_dec y 0); auto. lra. }
    apply derivable_continuous_pt. exists (- (/ s * Rpower u (/ s - 1)) * exp (- Rpower u (/ s)) * / s).
    apply (derivable_pt_lim_ext (fun z => / s * exp (- Rpower z (/ s)))); [intros; unfold Rdiv; ring|].
    pose proof (derivable_pt_lim_comp (fun z => Rpower z (/ s)) (fun z => exp (- z)) u _ _ (derivable_pt_lim_power u (/ s) H) (exp_neg_der (Rpower u (/ s)))) as D.
    apply (derivable_pt_lim_scal _ (/ s)) in D. unfold derivable_pt_abs. 
    replace (- (/ s * Rpower u (/ s - 1)) * exp (- Rpower u (/ s)) * / s) with (/ s * (- exp (- Rpower u (/ s)) * (/ s * Rpower u (/ s - 1)))) by ring. exact D.
Qed.

Definition Gam (x : R) : R := if Rle_dec x 0 then 0 else prim fint fint_cont (Rpower x s) - prim fint fint_cont 0.
Lemma Gam_pos x : 0 < x -> Gam x = prim fint fint_cont (Rpower x s) - prim fint fint_cont 0.
Proof. intros Hx. unfold Gam. destruct (Rle_dec x 0); [lra|reflexivity]. Qed.
Lemma Gam_ok : lower_gamma s Gam.
Proof.
  split; [split; [unfold Gam; destruct (Rle_dec 0 0); lra|]|].
  - intros e He. assert (C : continuity_pt (prim fint fint_cont) 0).
    { apply derivable_continuous_pt. exists (fint 0). apply prim_der. lra. }
    destruct (C e He) as (d & P & Hd). destruct (small_power s Hs d P) as (d' & P' & Hd'). exists d'. split; auto. intros x Hx. rewrite Gam_pos by lra.
    specialize (Hd' x Hx). apply (Hd (Rpower x s)). split.
    + split; [exact I|]. pose proof (exp_pos (s * ln x)). unfold Rpower. lra.
    + simpl. unfold R_dist. rewrite Rminus_0_r. auto.
  - intros x Hx. assert (D : derivable_pt_lim (fun y => prim fint fint_cont (Rpower y s)) x (Rpower x (s - 1) * exp (- x))).
    { replace (Rpower x (s - 1) * exp (- x)) with (fint (Rpower x s) * (s * Rpower x (s - 1))).
      - apply (derivable_pt_lim_comp (fun y => Rpower y s) (prim fint fint_cont)); [apply derivable_pt_lim_power; auto|]. apply prim_der. pose proof (exp_pos (s * ln x)). unfold Rpower. lra.
      - unfold fint. destruct (Rle_dec (Rpower x s) 0) as [H|_]; [pose proof (exp_pos (s * ln x)); unfold Rpower in H; lra|].
        rewrite Rpower_mult, Rinv_r, Rpower_1 by lra. field. lra. }
    intros e He. destruct (D e He) as (d & Hd). assert (P : 0 < Rmin d x) by (apply Rmin_pos; auto; apply cond_pos). exists (mkposreal _ P). intros h Hh Hh2. cbn [pos] in Hh2.
    pose proof (Rmin_l d x). pose proof (Rmin_r d x). apply Rabs_def2 in Hh2. rewrite !Gam_pos by lra. specialize (Hd h Hh ltac:(apply Rabs_def1; lra)).
    match goal with |- Rabs (?a / h - _) < _ => replace a with (prim fint fint_cont (Rpower (x + h) s) - prim fint fint_cont (Rpower x s)) by ring end. exact Hd.
Qed.

(** The density is below a multiple of e^(-x/2). *)
Lemma dens_bound : exists K, 0 < K /\ forall x, 0 < x -> Rpower x (s - 1) * exp (- x) <= K * exp (- (x / 2)) \/ x < 1.
Proof.
  set (b := Rabs (s - 1) + 1). assert (Hb : 1 <= b) by (unfold b; pose proof (Rabs_pos (s - 1)); lra).
  exists (exp (b * ln (2 * b))). split; [apply exp_pos|]. intros x Hx. destruct (Rlt_or_le x 1) as [|H1]; auto. left.
  unfold Rpower. rewrite <- !exp_plus. assert (HL : 0 <= ln x) by (destruct H1 as [H1| <-]; [left; rewrite <- ln_1; apply ln_increasing; lra|rewrite ln_1; lra]).
  assert (Hl : ln x <= x / (2 * b) + ln (2 * b)).
  { replace x with (x / (2 * b) * (2 * b)) at 1 by (field; lra). assert (P : 0 < x / (2 * b)) by (apply Rdiv_lt_0_compat; lra). rewrite ln_mult by lra. apply Rplus_le_compat_r.
    left. rewrite <- (ln_exp (x / (2 * b))) at 2. apply ln_increasing; auto. pose proof (exp_ineq1 (x / (2 * b)) ltac:(lra)). lra. }
  assert (Hm : (s - 1) * ln x <= b * ln x) by (apply Rmult_le_compat_r; auto; unfold b; pose proof (Rle_abs (s - 1)); lra).
  assert (Hm2 : b * ln x <= x / 2 + b * ln (2 * b)).
  { apply (Rmult_le_compat_l b) in Hl; [|lra]. replace (b * (x / (2 * b) + ln (2 * b))) with (x / 2 + b * ln (2 * b)) in Hl by (field; lra). exact Hl. }
  assert (L : (s - 1) * ln x + - x <= b * ln (2 * b) + - (x / 2)) by lra. destruct L as [L| ->]; [left; apply exp_increasing; auto|lra].
Qed.
Lemma gamma_exists : exists g, tends Gam g.
Proof.
  destruct dens_bound as (K & HK & HB). pose proof (gamma_incr s Gam Gam_ok) as Inc. destruct Gam_ok as (_ & GD).
  assert (Bd : forall x, 1 <= x -> Gam x <= Gam 1 + 2 * K).
  { intros x [H1| <-]; [|lra].
    destruct (MVT_cor2 (fun y => Gam y + 2 * K * exp (- (y / 2))) (fun y => Rpower y (s - 1) * exp (- y) + 2 * K * (- exp (- (y / 2)) / 2)) 1 x H1) as (c & E & Hc).
    { intros y Hy. apply (derivable_pt_lim_plus Gam (fun z => 2 * K * exp (- (z / 2)))); [apply GD; lra|]. apply (derivable_pt_lim_scal (fun z => exp (- (z / 2)))).
      apply (half_der (fun z => exp (- z))). apply exp_neg_der. }
    destruct (HB c ltac:(lra)) as [B|B]; [|lra].
    assert (0 < exp (- (x / 2))) by apply exp_pos. assert (exp (- (1 / 2)) < 1) by (apply exp_small_1; lra). nra. }
  destruct (completeness (fun y => exists x, 1 <= x /\ y = Gam x)) as (g & Hub & Hlub).
  - exists (Gam 1 + 2 * K). intros y (x & Hx & ->). auto.
  - exists (Gam 1), 1. split; [lra|auto].
  - exists g. intros e He. destruct (Classical_Prop.classic (exists x, 1 <= x /\ g - e < Gam x)) as [(x & Hx & Hgx)|N].
    + exists x. intros y Hy. pose proof (Inc x y ltac:(lra)). assert (Gam y <= g) by (apply Hub; exists y; split; [lra|auto]). apply Rabs_def1; lra.
    + exfalso. assert (g <= g - e); [|lra]. apply Hlub. intros y (x & Hx & ->). destruct (Rle_or_lt (Gam x) (g - e)); auto. exfalso. apply N. eauto.
Qed.
End Exist.

Lemma is_gamma_exists s : 0 < s -> exists g, is_gamma s g.
Proof. intros Hs. destruct (gamma_exists s Hs) as (g & Hg). exists g, (Gam s Hs). split; auto. apply Gam_ok. Qed.
Lemma chi_cdf_exists df : (1 <= df)%Z -> exists F, chi_cdf df F.
Proof.
  intros Hdf. set (s := IZR df / 2). assert (Hs : 0 < s) by (unfold s; apply IZR_le in Hdf; lra). destruct (gamma_exists s Hs) as (g & Ht). pose proof (Gam_ok s Hs) as HG.
  set (G := Gam s Hs) in *. assert (Hg : 0 < g).
  { apply Rlt_le_trans with (G 1); [|apply (gamma_le s G g HG Ht); lra]. apply Rlt_le_trans with (qs s 0 1 * exp (- (1))); [|apply (below s); auto; lra]. cbn [qs]. apply Rmult_lt_0_compat; [apply qt_pos; lra|apply exp_pos]. }
  exists (fun x => / g * G (x / 2)). destruct HG as ((G0 & Gs) & GD). split; [|split].
  - split; [unfold Rdiv; rewrite Rmult_0_l, G0; ring|]. apply small_scal, half_small; auto.
  - rewrite <- (Rinv_l g) by lra. apply tends_half; auto.
  - exists (/ g * (Rpower (/ 2) (s - 1) / 2)). intros x Hx. pose proof (derivable_pt_lim_scal _ (/ g) x _ (half_der G _ x (GD (x / 2) ltac:(lra)))) as D. fold s.
    replace (/ g * (Rpower (/ 2) (s - 1) / 2) * (Rpower x (s - 1) * exp (- (x / 2)))) with (/ g * (Rpower (x / 2) (s - 1) * exp (- (x / 2)) / 2)); [exact D|].
    unfold Rdiv at 1. rewrite <- (Rpower_mult_distr x (/ 2)) by lra. unfold Rdiv. ring.
Qed.
Lemma chi_cdf_unique df F H : (1 <= df)%Z -> chi_cdf df F -> chi_cdf df H -> forall x, 0 <= x -> F x = H x.
Proof.
  intros Hdf HF HH x [Hx| <-].
  - assert (Hs : 0 < IZR df / 2) by (apply IZR_le in Hdf; lra). destruct (is_gamma_exists _ Hs) as (g & G & HG & Ht).
    destruct (cdf_gamma df F G g Hdf HF HG Ht) as (_ & E1). destruct (cdf_gamma df H G g Hdf HH HG Ht) as (_ & E2). rewrite E1, E2; auto.
  - destruct HF as ((-> & _) & _). destruct HH as ((-> & _) & _). reflexivity.
Qed.

(** Even degrees of freedom: the closed form. *)
Lemma es_der n x : derivable_pt_lim (fun y => es y (S n)) x (es x n).
Proof.
  assert (T : forall j, derivable_pt_lim (fun y => et y (S j)) x (et x j)).
  { intros j. pose proof (derivable_pt_lim_scal _ (/ INR (fact (S j))) x _ (derivable_pt_lim_pow x (S j))) as D. cbn [Nat.pred] in D.
    replace (/ INR (fact (S j)) * (INR (S j) * x ^ j)) with (et x j) in D.
    - revert D. apply derivable_pt_lim_ext. intros z. unfold mult_real_fct, et, Rdiv. ring.
    - unfold et. rewrite fact_simpl, mult_INR. field. split; first [apply INR_fact_neq_0|apply not_0_INR; lia]. }
  induction n as [|n IH].
  - replace (es x 0) with (0 + et x 0) by (unfold es; cbn [sum_f_R0]; ring). apply (derivable_pt_lim_plus (fun y => es y 0) (fun y => et y 1)); auto.
    apply (derivable_pt_lim_ext (fun _ => 1)); [intros; unfold es, et; simpl; field|]. apply derivable_pt_lim_const.
  - exact (derivable_pt_lim_plus (fun y => es y (S n)) (fun y => et y (S (S n))) x _ _ IH (T (S n))).
Qed.
Definition surv (n : nat) (x : R) : R := exp (- x) * es x n.
Lemma surv_der n x : derivable_pt_lim (surv n) x (- (exp (- x) * et x n)).
Proof.
  destruct n as [|n].
  - apply (derivable_pt_lim_ext (fun y => exp (- y))); [intros; unfold surv, es, et; simpl; field|]. replace (- (exp (- x) * et x 0)) with (- exp (- x)) by (unfold et; simpl; field). apply exp_neg_der.
  - pose proof (derivable_pt_lim_mult _ _ x _ _ (exp_neg_der x) (es_der n x)) as D. cbv beta in D.
    replace (- (exp (- x) * et x (S n))) with (- exp (- x) * es x (S n) + exp (- x) * es x n); [exact D|]. unfold es. cbn [sum_f_R0]. ring.
Qed.
Lemma tends_plus f h a b : tends f a -> tends h b -> tends (fun x => f x + h x) (a + b).
Proof.
  intros Hf Hh e He. destruct (Hf (e / 2) ltac:(lra)) as (u & Hu). destruct (Hh (e / 2) ltac:(lra)) as (v & Hv). exists (Rmax u v). intros x Hx. pose proof (Rmax_l u v). pose proof (Rmax_r u v).
  specialize (Hu x ltac:(lra)). specialize (Hv x ltac:(lra)). pose proof (Rabs_triang (f x - a) (h x - b)) as T. replace (f x - a + (h x - b)) with (f x + h x - (a + b)) in T by ring. lra.
Qed.
Lemma surv_tends n : tends (surv n) 0.
Proof.
  assert (T : forall j, tends (fun x => exp (- x) * et x j) 0).
  { intros j e He. exists (Rmax 1 (INR (S j) / e)). intros x Hx. pose proof (Rmax_l 1 (INR (S j) / e)). pose proof (Rmax_r 1 (INR (S j) / e)). assert (Hp : 0 < x) by lra.
    assert (He1 : exp (- x) * exp x = 1) by (rewrite <- exp_plus; replace (- x + x) with 0 by lra; apply exp_0).
    assert (Hle : et x (S j) <= exp x).
    { apply Rle_trans with (es x (S j)); [|apply es_le_exp; auto]. unfold es. cbn [sum_f_R0]. assert (0 <= sum_f_R0 (et x) j) by (apply cond_pos_sum; intros; left; apply et_pos; auto). lra. }
    pose proof (et_pos x j Hp) as Hj. pose proof (exp_pos (- x)) as Hex. assert (HS : 0 < INR (S j)) by (apply lt_0_INR; lia). rewrite Rminus_0_r, Rabs_right by nra. rewrite et_S in Hle.
    apply (Rmult_le_compat_l (exp (- x))) in Hle; [|lra]. rewrite He1 in Hle.
    assert (Hq : exp (- x) * et x j * x <= INR (S j)).
    { apply (Rmult_le_compat_r (INR (S j))) in Hle; [|lra]. replace (exp (- x) * (et x j * (x / INR (S j))) * INR (S j)) with (exp (- x) * et x j * x) in Hle by (field; lra). lra. }
    assert (Hxe : INR (S j) < x * e).
    { assert (INR (S j) / e < x) by lra. apply (Rmult_lt_compat_r e) in H1; auto. replace (INR (S j) / e * e) with (INR (S j)) in H1 by (field; lra). exact H1. }
    apply (Rmult_lt_reg_r x); auto. lra. }
  induction n as [|n IH].
  - apply (tends_ext (fun x => exp (- x) * et x 0)); auto.
  - replace 0 with (0 + 0) by ring. apply (tends_ext (fun x => surv n x + exp (- x) * et x (S n))); [intros; unfold surv, es; cbn [sum_f_R0]; ring|]. apply tends_plus; auto.
Qed.
Lemma small_cont f : f 0 = 0 -> continuity_pt f 0 -> small f.
Proof.
  intros E C e He. destruct (C e He) as (d & P & Hd). exists d. split; auto. intros x Hx. specialize (Hd x). simpl in Hd. unfold R_dist in Hd. rewrite E, !Rminus_0_r in Hd. apply Hd. split.
  - split; [exact I|lra].
  - rewrite Rabs_right; lra.
Qed.
Lemma survival_cdf_l k : (1 <= k)%nat -> chi_cdf (2 * Z.of_nat k) (fun x => 1 - survival k x).
Proof.
  intros Hk. assert (E : forall x, survival k x = surv (k - 1) (x / 2)) by reflexivity. split; [|split].
  - split; [rewrite survival_zero by lia; ring|]. apply (small_ext _ (fun x => 1 - surv (k - 1) (x / 2))); [intros; rewrite E; reflexivity|].
    apply (half_small (fun x => 1 - surv (k - 1) x)). assert (S0 : surv (k - 1) 0 = 1) by (pose proof (survival_zero k ltac:(lia)) as Z; rewrite E in Z; unfold Rdiv in Z; rewrite Rmult_0_l in Z; exact Z).
    apply small_cont; [rewrite S0; ring|]. apply derivable_continuous_pt. exists (0 - - (exp (- 0) * et 0 (k - 1))).
    apply (derivable_pt_lim_minus (fun _ => 1)); [apply derivable_pt_lim_const|apply surv_der].
  - apply (tends_ext (fun x => 1 + -1 * surv (k - 1) (x / 2))); [intros; rewrite E; ring|].
    assert (T1 : tends (fun _ => 1) 1) by (intros e He; exists 0; intros; rewrite Rminus_diag_eq, Rabs_R0 by auto; auto).
    pose proof (tends_plus (fun _ => 1) _ 1 _ T1 (tends_half _ (-1) _ (surv_tends (k - 1)))) as Q. rewrite Rmult_0_r, Rplus_0_r in Q. exact Q.
  - exists (/ 2 ^ k / INR (fact (k - 1))). intros x Hx. apply (derivable_pt_lim_ext (fun x => 1 - surv (k - 1) (x / 2))); [intros; rewrite E; reflexivity|].
    pose proof (derivable_pt_lim_minus (fun _ => 1) _ x _ _ (derivable_pt_lim_const 1 x) (half_der _ _ x (surv_der (k - 1) (x / 2)))) as D. cbv beta in D.
    replace (/ 2 ^ k / INR (fact (k - 1)) * (Rpower x (IZR (2 * Z.of_nat k) / 2 - 1) * exp (- (x / 2)))) with (0 - - (exp (- (x / 2)) * et (x / 2) (k - 1)) / 2); [exact D|].
    replace (IZR (2 * Z.of_nat k) / 2 - 1) with (INR (k - 1)) by (rewrite minus_INR, mult_IZR, <- INR_IZR_INZ by lia; simpl; field).
    rewrite Rpower_pow by auto. unfold et. replace (x / 2) with (x * / 2) at 2 by reflexivity. rewrite Rpow_mult_distr, pow_inv. destruct k as [|k]; [lia|]. simpl (S k - 1)%nat. rewrite Nat.sub_0_r. cbn [pow].
    field. split; [apply pow_nonzero; lra|apply INR_fact_neq_0].
Qed.
Lemma survival_cdf_u k F : (1 <= k)%nat -> chi_cdf (2 * Z.of_nat k) F -> forall cv, 0 <= cv -> survival k cv = 1 - F cv.
Proof. intros Hk HF cv Hcv. rewrite (chi_cdf_unique (2 * Z.of_nat k) F _ ltac:(lia) HF (survival_cdf_l k Hk) cv Hcv). ring. Qed.

Lemma chi_defined_l df : (1 <= df)%Z ->
  (exists F, chi_cdf df F) /\ (exists g, is_gamma (IZR df / 2) g) /\
  (forall F H, chi_cdf df F -> chi_cdf df H -> forall x, 0 <= x -> F x = H x).
Proof.
  intros Hdf. split; [apply chi_cdf_exists; auto|]. split; [apply is_gamma_exists; apply IZR_le in Hdf; lra|]. intros. eapply chi_cdf_unique; eauto.
Qed.
Lemma chi_case_l : exists F g, (1 <= 3)%Z /\ 3%Z <> 2%Z /\ 0 < 3 /\ 3 <= IZR 3 /\ chi_cdf 3 F /\ is_gamma (IZR 3 / 2) g /\
  (1 + (IZR 3 / 2 + 1) / 1000000000000) / 100000000 < F 3 * g.
Proof.
  destruct (chi_cdf_exists 3 ltac:(lia)) as (F & HF). destruct (is_gamma_exists (IZR 3 / 2) ltac:(lra)) as (g & G & HG & Ht).
  exists F, g. split; [lia|]. split; [lia|]. split; [lra|]. split; [lra|]. split; auto. split; [exists G; auto|].
  destruct (cdf_gamma 3 F G g ltac:(lia) HF HG Ht) as (Hg & E). rewrite E by lra. replace (G (3 / 2) / g * g) with (G (3 / 2)) by (field; auto).
  apply Rlt_le_trans with (qs (IZR 3 / 2) 0 (3 / 2) * exp (- (3 / 2))); [|apply (below (IZR 3 / 2)); auto; lra].
  cbn [qs]. unfold qt. simpl INR. rewrite Rplus_0_r. cbn [poch].
  assert (H1 : 1 <= Rpower (3 / 2) (3 / 2)) by (rewrite <- (Rpower_O (3 / 2)) by lra; left; apply Rpower_lt; lra).
  assert (H2 : 1 / 9 <= exp (- (3 / 2))).
  { apply Rle_trans with (exp (-2)); [|left; apply exp_increasing; lra]. replace (-2) with (- (1) + - (1)) by lra. rewrite exp_plus, exp_Ropp. pose proof exp_le_3 as H3. pose proof (exp_pos 1).
    assert (/ 3 <= / exp 1) by (apply Rinv_le_contravar; lra). nra. }
  nra.
Qed.
