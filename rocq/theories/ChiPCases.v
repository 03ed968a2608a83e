From Coq Require Import Reals Lra Lia.
From Verif Require Import Base Res Arith ChiP ChiPSpec ChiPLemmas ChiPFrac.
Local Open Scope R_scope.

Lemma near_one c : Rabs (c - 1) < e12 -> 0 < c /\ Rabs (/ c - 1) <= 2 * e12.
Proof.
  intros H. apply Rabs_def2 in H as (H1 & H2). unfold e12 in *. assert (Hc : 0 < c) by lra. split; auto.
  assert (E : / c * c = 1) by (apply Rinv_l; lra). assert (Hi : 0 < / c) by (apply Rinv_0_lt_compat; auto).
  apply Rabs_le. assert (/ c <= 2) by (apply (Rmult_le_reg_r c); auto; lra). split; nra.
Qed.

Lemma upperFrac_ok lgam x k : (1 <= k)%nat -> (Z.of_nat k <= 9999)%Z -> INR k < x -> exists rho,
  @upperFrac XR lgam xabs (Fin x) (Fin (INR k)) false = Fin (INR (fact (k - 1)) * (exp (- x) * es x (k - 1)) * rho) /\
  Rabs (rho - 1) <= 2 * e12.
Proof.
  intros Hk Hk2 Hx. assert (H0 : 0 < x) by (pose proof (pos_INR k); lra).
  destruct (fraction_run x k Hk Hx xabs ltac:(reflexivity) (Z.to_nat 9999) 1 ltac:(lia) ltac:(lia)) as (j & Hj & E & Hc).
  change (1 - 1)%nat with 0%nat in E. change (num x k 1) with (cb x k 0) in E. change (num x k 0) with 1 in E. change (den x k 1) with 1 in E. change (den x k 0) with 0 in E.
  change (Z.of_nat 1) with 1%Z in E.
  pose proof (num_pos x k Hk Hx j ltac:(lia)) as Nj. pose proof (num_pos x k Hk Hx (S j) ltac:(lia)) as NSj.
  pose proof (den_pos x k Hk Hx j ltac:(lia)) as Dj. pose proof (den_pos x k Hk Hx (S j) ltac:(lia)) as DSj.
  pose proof (num_pos x k Hk Hx k ltac:(lia)) as Nk. pose proof (den_pos x k Hk Hx k ltac:(lia)) as Dk.
  destruct (mediant x k Hk Hx j (k - j) ltac:(lia)) as (p & q & Hp & Hq & EN & ED). replace (j + (k - j))%nat with k in EN, ED by lia.
  set (f := num x k (S j) / den x k (S j)) in *. set (L := num x k k / den x k k) in *.
  assert (Hf : 0 < f) by (apply Rdiv_lt_0_compat; auto).
  exists (L / f). split.
  - unfold upperFrac. cbv zeta.
    assert (Ef : @fsub XR (@fadd XR (@fz XR 1) (Fin x)) (Fin (INR k)) = Fin (cb x k 0)).
    { cbn [fsub fadd fz XR xsub xneg xadd]. f_equal. unfold cb. change (INR 0) with 0. lra. }
    rewrite Ef. replace (cb x k 0 / 1) with (cb x k 0) in E by field. replace (0 / 1) with 0 in E by field.
    change (@fz XR 0) with (Fin 0). rewrite E.
    cbn [flog fmul fsub fexp XR]. unfold xlog. destruct (Rlt_dec 0 x) as [_|C]; [|contradiction]. destruct (Rlt_dec 0 f) as [_|C]; [|contradiction].
    cbn [xmul xsub xneg xadd xexp]. f_equal. rewrite !exp_plus, x_pow by auto. rewrite exp_Ropp with (x := ln f), exp_ln by auto.
    unfold L. rewrite (fraction_value x k Hk Hx). 
    assert (Hes : es x (k - 1) <> 0) by (assert (0 < es x (k - 1)); [|lra]; apply Rlt_le_trans with (es x 0); [unfold es, et; simpl; lra|apply es_mono; auto; lia]).
    pose proof (INR_fact_neq_0 (k - 1)). assert (f <> 0) by lra. field. repeat split; assumption.
  - destruct (near_one _ Hc) as (Hcp & Hci). replace (/ (f * (den x k j / num x k j))) with (num x k j / den x k j / f) in Hci by (field; repeat split; lra).
    set (g := num x k j / den x k j) in *.
    assert (EL : L / f - 1 = q * den x k j / den x k k * (g / f - 1)).
    { unfold L. rewrite EN, ED. replace (p * num x k (S j)) with (p * den x k (S j) * f) by (unfold f; field; lra).
      replace (q * num x k j) with (q * den x k j * g) by (unfold g; field; lra). rewrite ED in Dk. field. lra. }
    rewrite EL, Rabs_mult.
    assert (Hr : 0 <= q * den x k j / den x k k <= 1).
    { split; [apply Rmult_le_pos; [nra|left; apply Rinv_0_lt_compat; auto]|]. apply (Rmult_le_reg_r (den x k k)); auto. unfold Rdiv. rewrite Rmult_assoc, Rinv_l by lra. nra. }
    rewrite (Rabs_right (q * den x k j / den x k k)) by lra. pose proof (Rabs_pos (g / f - 1)). nra.
Qed.

Lemma fact_ge1 n : 1 <= INR (fact n).
Proof. pose proof (lt_O_fact n) as H. apply (le_INR 1). lia. Qed.

Lemma survival_range k cv : (0 < k)%nat -> 0 < cv -> 0 < survival k cv < 1.
Proof.
  intros Hk Hcv. rewrite survival_es by auto. set (x := cv / 2). assert (Hx : 0 < x) by (unfold x; lra).
  pose proof (exp_pos (- x)) as He. assert (Hee : exp (- x) * exp x = 1) by (rewrite <- exp_plus; replace (- x + x) with 0 by lra; apply exp_0).
  assert (0 < es x (k - 1)) by (apply Rlt_le_trans with (es x 0); [unfold es, et; simpl; lra|apply es_mono; auto; lia]).
  assert (es x (k - 1) < exp x).
  { apply Rlt_le_trans with (es x k); [|apply es_le_exp; auto]. destruct k as [|k]; [lia|]. simpl (S k - 1)%nat. rewrite Nat.sub_0_r. unfold es. cbn [sum_f_R0]. pose proof (et_pos x (S k) Hx). lra. }
  split; [apply Rmult_lt_0_compat; auto|]. rewrite <- Hee. apply Rmult_lt_compat_l; auto.
Qed.

Section Main.
Variables (gam lgam : xreal -> xreal) (nan : xreal).
Hypothesis Hg : gamma_ok gam.
Notation chi := (@chisquare XR gam lgam xabs nan xisnan).

Lemma chi_right_l k cv : (2 <= k)%nat -> (Z.of_nat k <= 9999)%Z -> 0 < cv -> 2 / 100000000 <= 1 - survival k cv -> exists f0, forall fuel, (f0 <= fuel)%nat -> exists v,
  chi 2 fuel (2 * Z.of_nat k) (Fin cv) = Ok (Fin v) /\ Rabs (v - survival k cv) <= INR k / 1000000000000.
Proof.
  intros Hk Hk2 Hcv Hs. assert (HK : 2 <= INR k) by (apply (le_INR 2); auto). assert (HK2 : INR k <= 9999) by (rewrite INR_IZR_INZ; apply (IZR_le _ 9999); auto).
  pose proof (fact_ge1 (k - 1)) as HG. pose proof (survival_range k cv ltac:(lia) Hcv) as Hr.
  destruct (Rle_or_lt cv (2 * INR k)) as [Hle|Hgt].
  - destruct (chi_series_l gam lgam nan Hg k cv 1 Hk (conj Hcv Hle)) as (f0 & Hf0). exists f0. intros fuel Hf. destruct (Hf0 fuel Hf) as (v & E & _ & Hv).
    exists v. split; auto. destruct Hv as (H1 & H2).
    + apply Rlt_le_trans with (2 / 100000000); [lra|]. apply Rle_trans with ((1 - survival k cv) * 1); [lra|]. apply Rmult_le_compat_l; lra.
    + rewrite Rabs_right by lra. lra.
  - exists 0%nat. intros fuel _. set (x := cv / 2). assert (Hx : INR k < x) by (unfold x; lra).
    destruct (upperFrac_ok lgam x k ltac:(lia) Hk2 Hx) as (rho & E & Hrho).
    assert (EL : @lgamma XR gam lgam xabs nan 2 fuel (Fin x) (Fin (INR k)) false = Ok (Fin (INR (fact (k - 1)) * (1 - survival k cv * rho)))).
    { cbn [lgamma ugamma].
      assert (E1 : @feq XR (Fin x) (@fz XR 0) = false) by (simpl; destruct (Req_EM_T x 0); auto; lra).
      assert (E2 : (@fgt XR (@fz XR 0) (Fin x) || @fge XR (@fz XR 0) (Fin (INR k)))%bool = false).
      { simpl. unfold xge. simpl. destruct (Rlt_dec x 0); [lra|]. destruct (Rlt_dec (INR k) 0); [lra|]. destruct (Req_EM_T 0 (INR k)); [lra|]. reflexivity. }
      assert (Et : @oneTenth XR = Fin (11 / 10)) by (unfold oneTenth; simpl; destruct (Req_EM_T 10 0); [lra|reflexivity]).
      assert (E3 : (@fgt XR (Fin x) (@oneTenth XR) && @fgt XR (Fin x) (Fin (INR k)))%bool = true).
      { rewrite Et. simpl. destruct (Rlt_dec (11 / 10) x); [|lra]. destruct (Rlt_dec (INR k) x); [reflexivity|lra]. }
      assert (E4 : (@fge XR (@oneTenth XR) (Fin x) || @fge XR (Fin (INR k)) (Fin x))%bool = false).
      { rewrite Et. simpl. unfold xge. simpl. destruct (Rlt_dec x (11 / 10)); [lra|]. destruct (Req_EM_T (11 / 10) x); [lra|]. destruct (Rlt_dec x (INR k)); [lra|]. destruct (Req_EM_T (INR k) x); [lra|]. reflexivity. }
      rewrite E1, E2, E3, E4. cbn [bind].
      assert (Eg : gam (Fin (INR k)) = Fin (INR (fact (k - 1)))) by (destruct k as [|k']; [lia|]; rewrite Hg; simpl (S k' - 1)%nat; rewrite Nat.sub_0_r; auto).
      f_equal. etransitivity; [exact (f_equal2 xsub Eg E)|]. cbn [xsub xneg xadd]. f_equal. rewrite survival_es by lia. fold x. ring. }
    rewrite (chi_even gam lgam nan Hg 2 fuel k cv _ Hk (Rlt_le _ _ Hcv) EL). eexists. split; [reflexivity|].
    assert (Hrho' : - (2 * e12) <= rho - 1 <= 2 * e12) by (revert Hrho; unfold Rabs; destruct (Rcase_abs (rho - 1)); lra). clear Hrho. unfold e12 in Hrho'.
    assert (Hsr : survival k cv * rho <= survival k cv + 2 / 1000000000000) by nra.
    destruct (Rle_dec _ _) as [Hl|_].
    { exfalso. assert (1 - survival k cv * rho <= INR (fact (k - 1)) * (1 - survival k cv * rho)) by (assert (0 <= 1 - survival k cv * rho) by lra; nra). lra. }
    replace (1 - INR (fact (k - 1)) * (1 - survival k cv * rho) / INR (fact (k - 1)) - survival k cv) with (survival k cv * (rho - 1)) by (field; apply INR_fact_neq_0).
    apply Rabs_le. split; nra.
Qed.
End Main.

(** The two functions end. *)
Lemma series_odd x s : (x = NaN \/ x = PInf \/ s = PInf \/ s = NaN) -> x <> NInf -> s <> NInf -> (x = PInf -> s = PInf \/ s = NaN) ->
  forall fuel, exists v, @series XR (S fuel) x s (@fz XR 1) (@fz XR 1) = Ok v.
Proof.
  intros H Hx Hs Hxs fuel. cbn [series]. rewrite eps_val.
  assert (E : @fgt XR (@fdiv XR (@fz XR 1) (@fz XR 1)) (Fin e12) = true).
  { simpl. destruct (Req_EM_T 1 0); [lra|]. simpl. destruct (Rlt_dec e12 (1 / 1)); auto. unfold e12 in *. lra. }
  rewrite E. cbv zeta.
  assert (G : forall c p, @fgt XR (@fdiv XR c p) (Fin e12) = false -> exists v, @series XR fuel x (@fadd XR s (@fz XR 1)) c p = Ok v).
  { intros c p Ec. destruct fuel; cbn [series]; rewrite eps_val, Ec; eauto. }
  apply G. destruct x as [a| | |], s as [b| | |]; try (exfalso; intuition congruence); try reflexivity.
  simpl. replace (1 * 0) with 0 by lra. replace (1 + 0) with 1 by lra. destruct (Req_EM_T 1 0); [lra|]. simpl. destruct (Rlt_dec e12 (0 / 1)); auto. unfold e12 in *. lra.
Qed.

Lemma lowerSum_total lgam x s reg : @feq XR x (@fz XR 0) = false -> (@fgt XR (@fz XR 0) x || @fge XR (@fz XR 0) s)%bool = false ->
  (@fgt XR x (@oneTenth XR) && @fgt XR x s)%bool = false ->
  exists f0, forall fuel, (f0 <= fuel)%nat -> exists v, @lowerSum XR lgam fuel x s reg = Ok v.
Proof.
  intros H1 H2 H3. apply Bool.orb_false_iff in H2 as (H2 & H2').
  assert (Et : @oneTenth XR = Fin (11 / 10)) by (unfold oneTenth; simpl; destruct (Req_EM_T 10 0); [lra|reflexivity]). rewrite Et in H3.
  assert (G : exists f0, forall fuel, (f0 <= fuel)%nat -> exists v, @series XR fuel x s (@fz XR 1) (@fz XR 1) = Ok v).
  { assert (Odd : (x = NaN \/ x = PInf \/ s = PInf \/ s = NaN) -> x <> NInf -> s <> NInf -> (x = PInf -> s = PInf \/ s = NaN) ->
      exists f0, forall fuel, (f0 <= fuel)%nat -> exists v, @series XR fuel x s (@fz XR 1) (@fz XR 1) = Ok v).
    { intros O Ox Os Oxs. exists 1%nat. intros [|fuel] Hf; [lia|]. apply series_odd; auto. }
    destruct x as [a| | |], s as [b| | |]; try discriminate; try (apply Odd; intuition congruence).
    simpl in H1, H2, H2'. unfold xge in H2'. simpl in H2'.
    destruct (Req_EM_T a 0); [discriminate|]. destruct (Rlt_dec a 0); [discriminate|]. destruct (Rlt_dec b 0); [discriminate|]. destruct (Req_EM_T 0 b); [discriminate|].
    assert (Ha : 0 < a) by lra. assert (Hb : 0 < b) by lra. destruct (cs_small a b Ha Hb) as (M & HM). exists M. intros fuel Hf.
    destruct (series_stop a b M Ha Hb HM M 0 fuel eq_refl Hf) as (m & Em & _). change (INR 0) with 0 in Em. rewrite Rplus_0_r in Em. cbn [cs ps] in Em. eauto. }
  destruct G as (f0 & G). exists f0. intros fuel Hf. destruct (G fuel Hf) as (v & E). unfold lowerSum. cbv zeta. rewrite E. cbn [bind]. eauto.
Qed.

Lemma xgt_xge_false x y : xgt x y = true -> xge y x = false.
Proof.
  unfold xge. destruct x as [a| | |], y as [b| | |]; simpl; try discriminate; auto.
  destruct (Rlt_dec b a); [|discriminate]. destruct (Rlt_dec a b); [lra|]. destruct (Req_EM_T b a); [lra|]. reflexivity.
Qed.
Lemma xge_xgt_false x y : xge x y = true -> xgt y x = false.
Proof.
  intros H. destruct (xgt y x) eqn:E; auto. apply xgt_xge_false in E. congruence.
Qed.

Lemma gamma_ends_l gam lgam abs nan x s reg : exists f0, forall fuel d, (f0 <= fuel)%nat -> (2 <= d)%nat ->
  (exists v, @lgamma XR gam lgam abs nan d fuel x s reg = Ok v) /\ (exists v, @ugamma XR gam lgam abs nan d fuel x s reg = Ok v).
Proof.
  assert (L1 : (@fgt XR x (@oneTenth XR) && @fgt XR x s)%bool = false -> exists f0, forall fuel d, (f0 <= fuel)%nat ->
    exists v, @lgamma XR gam lgam abs nan (S d) fuel x s reg = Ok v).
  { intros H3. destruct (@feq XR x (@fz XR 0)) eqn:H1; [exists 0%nat; intros fuel d _; cbn [lgamma]; rewrite H1; eauto|].
    destruct (@fgt XR (@fz XR 0) x || @fge XR (@fz XR 0) s)%bool eqn:H2; [exists 0%nat; intros fuel d _; cbn [lgamma]; rewrite H1, H2; eauto|].
    destruct (lowerSum_total lgam x s reg H1 H2 H3) as (f0 & Hf). exists f0. intros fuel d Hle. cbn [lgamma]. rewrite H1, H2, H3. auto. }
  assert (U1 : (@fge XR (@oneTenth XR) x || @fge XR s x)%bool = false -> forall fuel d, @ugamma XR gam lgam abs nan (S d) fuel x s reg = Ok (upperFrac lgam abs x s reg)).
  { intros H fuel d. cbn [ugamma]. rewrite H. reflexivity. }
  destruct (@fgt XR x (@oneTenth XR) && @fgt XR x s)%bool eqn:H3.
  - apply Bool.andb_true_iff in H3 as H4. destruct H4 as (Ha & Hb).
    assert (Hu : (@fge XR (@oneTenth XR) x || @fge XR s x)%bool = false) by (apply Bool.orb_false_iff; split; apply xgt_xge_false; auto).
    exists 0%nat. intros fuel d _ Hd. destruct d as [|[|d]]; try lia. split; [|rewrite U1 by auto; eauto].
    cbn [lgamma]. destruct (@feq XR x (@fz XR 0)); eauto. destruct (@fgt XR (@fz XR 0) x || @fge XR (@fz XR 0) s)%bool; eauto. rewrite H3.
    assert (EU := U1 Hu fuel d). cbn [ugamma] in EU. cbn [ugamma]. rewrite EU. cbn [bind]. eauto.
  - destruct (L1 eq_refl) as (f0 & Hf). exists f0. intros fuel d Hle Hd. destruct d as [|[|d]]; try lia. split; [apply Hf; auto|].
    destruct (@fge XR (@oneTenth XR) x || @fge XR s x)%bool eqn:Hu; [|rewrite U1 by auto; eauto].
    destruct (Hf fuel d Hle) as (v & E). cbn [ugamma]. rewrite Hu. cbn [lgamma] in E. cbn [lgamma]. rewrite E. cbn [bind]. eauto.
Qed.

Lemma chi_small_l gam lgam nan k cv : gamma_ok gam -> (2 <= k)%nat -> 0 <= cv <= 2 * INR k -> (1 - survival k cv) * INR (fact (k - 1)) <= 1 / 100000000 ->
  99999999 / 100000000 <= survival k cv /\
  exists f0, forall fuel, (f0 <= fuel)%nat -> @chisquare XR gam lgam xabs nan xisnan 2 fuel (2 * Z.of_nat k) (Fin cv) = Ok (Fin (1 / 100000000000000)).
Proof.
  intros Hg Hk Hcv Hs. pose proof (fact_ge1 (k - 1)) as HG. split.
  - destruct (Rle_or_lt (1 - survival k cv) 0); [lra|]. nra.
  - destruct (Req_dec cv 0) as [->|Hn].
    + exists 0%nat. intros fuel _. apply chi_zero_l; lia.
    + destruct (chi_series_l gam lgam nan Hg k cv 1 Hk) as (f0 & Hf0); [lra|]. exists f0. intros fuel Hf. destruct (Hf0 fuel Hf) as (v & E & Hv & _). rewrite E, Hv by auto. reflexivity.
Qed.

Lemma chi_refuted_l : exists df cv, 0 <= cv /\ forall gam lgam nan fuel, survival 2 cv = 1 /\
  @chisquare XR gam lgam xabs nan xisnan 2 fuel df (Fin cv) = Ok (Fin (1 / 100000000000000)) /\ df = 4%Z.
Proof.
  exists 4%Z, 0. split; [lra|]. intros. split; [apply survival_zero; lia|]. split; auto. apply chi_zero_l; lia.
Qed.

Definition xgam (x : xreal) : xreal := match x with Fin r => Fin (INR (fact (Z.to_nat (up r) - 2))) | _ => NaN end.
Lemma xgam_ok : gamma_ok xgam.
Proof.
  intros k. unfold xgam. do 3 f_equal. assert (E : up (INR (S k)) = (Z.of_nat (S k) + 1)%Z).
  { symmetry. apply tech_up; rewrite plus_IZR, <- INR_IZR_INZ; lra. }
  rewrite E. lia.
Qed.

Lemma survival_case : 2 / 100000000 <= 1 - survival 2 2.
Proof.
  unfold survival. simpl. replace (2 / 2) with 1 by lra. assert (H : exp (- (1)) <= 3 / 8).
  { rewrite exp_Ropp. assert (H : 8 / 3 <= exp 1).
    { apply Rle_trans with (es 1 3); [unfold es, et; simpl; lra|apply es_le_exp; lra]. }
    replace (3 / 8) with (/ (8 / 3)) by lra. apply Rinv_le_contravar; lra. }
  nra.
Qed.

Lemma chisqr_refuted_l : exists df, forall gam lgam fuel,
  1 - survival 1 0 = 0 /\ df = 2%Z /\ @chisqr XR gam lgam xabs NaN 2 fuel df (Fin 0) = Ok NaN.
Proof.
  exists 2%Z. intros. rewrite survival_zero by lia. split; [lra|]. split; auto. rewrite chisqr_zero_l by lia. reflexivity.
Qed.
