From Coq Require Import Reals Lra Lia.
From Verif Require Import Base Res Arith ChiP ChiPSpec ChiPLemmas ChiPCases ChiAllSpec ChiAllLemmas.
Local Open Scope R_scope.

(** The branch of the series. *)
Lemma lgamma_sum gam lgam abs nan d fuel x s reg : 0 < x -> 0 < s -> x <= s \/ x <= 11 / 10 ->
  @lgamma XR gam lgam abs nan (S d) fuel (Fin x) (Fin s) reg = @lowerSum XR lgam fuel (Fin x) (Fin s) reg.
Proof.
  intros Hx Hs H. cbn [lgamma].
  assert (E1 : @feq XR (Fin x) (@fz XR 0) = false) by (simpl; destruct (Req_EM_T x 0); auto; lra).
  assert (E2 : (@fgt XR (@fz XR 0) (Fin x) || @fge XR (@fz XR 0) (Fin s))%bool = false).
  { simpl. unfold xge. simpl. destruct (Rlt_dec x 0); [lra|]. destruct (Rlt_dec s 0); [lra|]. destruct (Req_EM_T 0 s); [lra|]. reflexivity. }
  assert (Et : @oneTenth XR = Fin (11 / 10)) by (unfold oneTenth; simpl; destruct (Req_EM_T 10 0); [lra|reflexivity]).
  assert (E3 : (@fgt XR (Fin x) (@oneTenth XR) && @fgt XR (Fin x) (Fin s))%bool = false).
  { rewrite Et. simpl. destruct (Rlt_dec (11 / 10) x); destruct (Rlt_dec s x); auto; lra. }
  rewrite E1, E2, E3. reflexivity.
Qed.
Lemma lowerSum_gen lgam x s : 0 < x -> 0 < s -> exists f0, forall fuel, (f0 <= fuel)%nat -> exists m,
  @lowerSum XR lgam fuel (Fin x) (Fin s) false = Ok (Fin (qs s m x * exp (- x))) /\ cs x s m <= e12 * ps x s m.
Proof.
  intros Hx HK. destruct (cs_small x s Hx HK) as (M & HM).
  exists M. intros fuel Hf. destruct (series_stop x s M Hx HK HM M 0 fuel eq_refl Hf) as (m & Em & Hm & Hc). exists m. split; auto.
  unfold lowerSum. cbv zeta. simpl INR in Em at 1. rewrite Rplus_0_r in Em. cbn [cs ps] in Em.
  change (@series XR fuel (Fin x) (Fin s) (@fz XR 1) (@fz XR 1)) with (@series XR fuel (Fin x) (Fin s) (Fin 1) (Fin 1)). rewrite Em. cbn [bind]. f_equal.
  cbn [fsub fmul flog fexp fdiv XR xlog]. destruct (Rlt_dec 0 x); [|lra]. cbn [xmul xsub xneg xadd xexp xdiv]. destruct (Req_EM_T s 0); [lra|]. f_equal.
  rewrite qs_ps by auto. rewrite exp_plus. unfold Rpower. field. lra.
Qed.

Section Chi.
Variables (gam lgam : xreal -> xreal) (nan : xreal).
Notation chi := (@chisquare XR gam lgam xabs nan xisnan).

Lemma chi_any d fuel df cv p g : (1 <= df)%Z -> df <> 2%Z -> 0 <= cv -> gam (Fin (IZR df / 2)) = Fin g -> g <> 0 ->
  @lgamma XR gam lgam xabs nan d fuel (Fin (cv / 2)) (Fin (IZR df / 2)) false = Ok (Fin p) ->
  chi d fuel df (Fin cv) = Ok (Fin (if Rle_dec p (1 / 100000000) then 1 / 100000000000000 else 1 - p / g)).
Proof.
  intros Hk H2 Hcv Hgam Hg E. unfold chisquare.
  assert (E1 : @fgt XR (@fz XR 0) (Fin cv) = false) by (simpl; destruct (Rlt_dec cv 0); auto; lra). rewrite E1.
  destruct (Z.ltb_spec df 1); [lia|]. cbn [orb]. cbv zeta.
  destruct (Z.eqb_spec df 2); [lia|].
  assert (E2 : @fdiv XR (@fz XR df) (@fz XR 2) = Fin (IZR df / 2)) by (cbn [fdiv fz XR xdiv]; destruct (Req_EM_T 2 0); [lra|reflexivity]).
  assert (E3 : @fdiv XR (Fin cv) (@fz XR 2) = Fin (cv / 2)) by (simpl; destruct (Req_EM_T 2 0); [lra|reflexivity]).
  rewrite E2, E3, E. cbn [bind]. cbn [xisnan orb].
  assert (E4 : (@fisinf XR (Fin p) || @fge XR (@fdiv XR (@fz XR 1) (@fz XR 100000000)) (Fin p))%bool = if Rle_dec p (1 / 100000000) then true else false).
  { simpl. destruct (Req_EM_T 100000000 0); [lra|]. unfold xge. simpl. destruct (Rlt_dec p (1 / 100000000)); destruct (Req_EM_T (1 / 100000000) p); destruct (Rle_dec p (1 / 100000000)); auto; lra. }
  rewrite E4. destruct (Rle_dec p (1 / 100000000)).
  - simpl. destruct (Req_EM_T 100000000000000 0); [lra|reflexivity].
  - f_equal. match goal with |- context [gam ?u] => change (gam u) with (gam (Fin (IZR df / 2))) end. rewrite Hgam. simpl. destruct (Req_EM_T g 0) as [Z|]; [lra|]. reflexivity.
Qed.
End Chi.

(** The distribution function is the incomplete gamma function over the gamma function. *)
Lemma flat f : small f -> (forall x, 0 < x -> derivable_pt_lim f x 0) -> forall x, 0 < x -> f x = 0.
Proof.
  intros Hs Hd x Hx. pose proof (grows f (fun _ => 0) Hs Hd ltac:(intros; lra) x Hx) as H1.
  pose proof (grows (fun y => -1 * f y) (fun _ => 0) (small_scal f (-1) Hs)) as H2. cbv beta in H2.
  specialize (H2 ltac:(intros y Hy; pose proof (derivable_pt_lim_scal f (-1) y 0 (Hd y Hy)) as D; rewrite Rmult_0_r in D; exact D) ltac:(intros; lra) x Hx). lra.
Qed.
Lemma half_small f : small f -> small (fun x => f (x / 2)).
Proof. intros Hf e He. destruct (Hf e He) as (d & P & H). exists d. split; auto. intros x Hx. apply H. lra. Qed.
Lemma half_der f l x : derivable_pt_lim f (x / 2) l -> derivable_pt_lim (fun y => f (y / 2)) x (l / 2).
Proof.
  intros D. pose proof (derivable_pt_lim_comp (fun y => y / 2) f x (/ 2) l) as C. unfold Rdiv at 2. apply C; auto.
  pose proof (derivable_pt_lim_scal id (/ 2) x 1 (derivable_pt_lim_id x)) as E. rewrite Rmult_1_r in E. revert E. apply derivable_pt_lim_ext. intros z. unfold mult_real_fct, id. lra.
Qed.
Lemma tends_unique f a b : tends f a -> tends f b -> a = b.
Proof.
  intros Ha Hb. destruct (Req_dec a b) as [|N]; auto. exfalso. assert (P : 0 < Rabs (a - b) / 2) by (pose proof (Rabs_pos_lt (a - b)); lra).
  destruct (Ha _ P) as (u & Hu). destruct (Hb _ P) as (v & Hv). set (x := Rmax u v + 1). pose proof (Rmax_l u v). pose proof (Rmax_r u v).
  specialize (Hu x ltac:(unfold x; lra)). specialize (Hv x ltac:(unfold x; lra)).
  pose proof (Rabs_triang (- (f x - a)) (f x - b)) as T. rewrite Rabs_Ropp in T. replace (- (f x - a) + (f x - b)) with (a - b) in T by ring. lra.
Qed.
Lemma tends_half f c g : tends f g -> tends (fun x => c * f (x / 2)) (c * g).
Proof.
  intros Hf e He. destruct (Req_dec c 0) as [->|N].
  - exists 0. intros. rewrite !Rmult_0_l, Rminus_0_r, Rabs_R0. auto.
  - assert (Hc : 0 < Rabs c) by (apply Rabs_pos_lt; auto). destruct (Hf (e / Rabs c)) as (b & Hb); [apply Rdiv_lt_0_compat; auto|].
    exists (2 * b). intros x Hx. specialize (Hb (x / 2) ltac:(lra)). rewrite <- Rmult_minus_distr_l, Rabs_mult. apply (Rmult_lt_compat_l (Rabs c)) in Hb; auto.
    replace (Rabs c * (e / Rabs c)) with e in Hb by (field; lra). exact Hb.
Qed.
Lemma tends_ext f h l : (forall x, 0 < x -> f x = h x) -> tends f l -> tends h l.
Proof. intros E Hf e He. destruct (Hf e He) as (b & Hb). exists (Rmax 0 b). intros x Hx. pose proof (Rmax_l 0 b). pose proof (Rmax_r 0 b). rewrite <- E by lra. apply Hb. lra. Qed.

Lemma cdf_gamma df F G g : (1 <= df)%Z -> chi_cdf df F -> lower_gamma (IZR df / 2) G -> tends G g ->
  g <> 0 /\ forall x, 0 < x -> F x = G (x / 2) / g.
Proof.
  intros Hdf ((F0 & Fs) & Ft & C & FD) ((G0 & Gs) & GD) Gt. set (s := IZR df / 2) in *.
  set (c := C * Rpower 2 s).
  assert (E : forall x, 0 < x -> F x + - c * G (x / 2) = 0).
  { apply (flat (fun x => F x + - c * G (x / 2))).
    - apply small_plus; auto. apply small_scal, half_small; auto.
    - intros x Hx. pose proof (derivable_pt_lim_plus _ _ x _ _ (FD x Hx) (derivable_pt_lim_scal _ (- c) x _ (half_der G _ x (GD (x / 2) ltac:(lra))))) as D.
      replace 0 with (C * (Rpower x (s - 1) * exp (- (x / 2))) + - c * (Rpower (x / 2) (s - 1) * exp (- (x / 2)) / 2)); [exact D|].
      unfold c. assert (Ex : Rpower x (s - 1) = Rpower 2 s / 2 * Rpower (x / 2) (s - 1)).
      { replace (Rpower 2 s) with (Rpower 2 (s - 1) * 2) by (rewrite <- (Rpower_1 2) at 2 by lra; rewrite <- Rpower_plus; f_equal; lra).
        replace (Rpower 2 (s - 1) * 2 / 2 * Rpower (x / 2) (s - 1)) with (Rpower 2 (s - 1) * Rpower (x / 2) (s - 1)) by field.
        rewrite Rpower_mult_distr by lra. f_equal. field. }
      rewrite Ex. field. }
  assert (E' : 1 = c * g).
  { apply (tends_unique F); auto. apply (tends_ext (fun x => c * G (x / 2))); [intros x Hx; specialize (E x Hx); lra|]. apply tends_half; auto. }
  assert (Hg : g <> 0) by (intros ->; lra). split; auto. intros x Hx. specialize (E x Hx). replace (F x) with (c * G (x / 2)) by lra.
  replace c with (/ g) by (apply (Rmult_eq_reg_r g); auto; rewrite Rinv_l; auto). unfold Rdiv. ring.
Qed.
Lemma gamma_incr s G : lower_gamma s G -> forall x y, 0 < x <= y -> G x <= G y.
Proof.
  intros (_ & GD) x y (Hx & [Hy| ->]); [|lra]. destruct (MVT_cor2 G (fun z => Rpower z (s - 1) * exp (- z)) x y Hy) as (c & E & Hc); [intros z Hz; apply GD; lra|].
  assert (0 < Rpower c (s - 1) * exp (- c)) by (apply Rmult_lt_0_compat; apply exp_pos). nra.
Qed.
Lemma gamma_le s G g : lower_gamma s G -> tends G g -> forall x, 0 < x -> G x <= g.
Proof.
  intros HG Ht x Hx. destruct (Rle_or_lt (G x) g) as [|H]; auto. exfalso. destruct (Ht (G x - g) ltac:(lra)) as (b & Hb).
  set (y := Rmax x b + 1). pose proof (Rmax_l x b). pose proof (Rmax_r x b). specialize (Hb y ltac:(unfold y; lra)). pose proof (gamma_incr s G HG x y ltac:(unfold y; lra)).
  apply Rabs_def2 in Hb. lra.
Qed.

(** The answer of Chisquare where the series is used. *)
Section Answer.
Variables (gam lgam : xreal -> xreal) (nan : xreal).
Notation chi := (@chisquare XR gam lgam xabs nan xisnan).

Lemma chi_all_l df cv F g : (1 <= df)%Z -> df <> 2%Z -> 0 < cv -> cv <= IZR df \/ cv <= 22 / 10 -> chi_cdf df F -> is_gamma (IZR df / 2) g ->
  gam (Fin (IZR df / 2)) = Fin g ->
  exists f0, forall fuel, (f0 <= fuel)%nat -> exists v, chi 2 fuel df (Fin cv) = Ok (Fin v) /\
    (F cv * g <= 1 / 100000000 -> v = 1 / 100000000000000) /\
    ((1 + (IZR df / 2 + 1) / 1000000000000) / 100000000 < F cv * g -> 1 - F cv <= v <= 1 - F cv + (IZR df / 2 + 1) / 1000000000000).
Proof.
  intros Hdf H2 Hcv Hle HF (G & HG & Ht) Hgam. set (s := IZR df / 2) in *. set (x := cv / 2).
  assert (Hs : 1 / 2 <= s) by (unfold s; apply IZR_le in Hdf; lra). assert (Hx : 0 < x) by (unfold x; lra).
  assert (Hxs : x <= s \/ x <= 11 / 10) by (unfold x, s; lra).
  destruct (cdf_gamma df F G g Hdf HF HG Ht) as (Hg & EF). fold s in EF.
  assert (Gp : 0 < G x).
  { apply Rlt_le_trans with (qs s 0 x * exp (- x)); [|apply (below s); auto; lra]. cbn [qs]. apply Rmult_lt_0_compat; [apply qt_pos; lra|apply exp_pos]. }
  pose proof (gamma_le s G g HG Ht x Hx) as Gg. assert (gp : 0 < g) by lra.
  destruct (lowerSum_gen lgam x s Hx ltac:(lra)) as (f0 & Hf0). exists f0. intros fuel Hf. destruct (Hf0 fuel Hf) as (m & Em & Hc).
  rewrite <- (lgamma_sum gam lgam xabs nan 1) in Em by (auto; lra).
  rewrite (chi_any gam lgam nan 2 fuel df cv _ g Hdf H2 (Rlt_le _ _ Hcv) Hgam Hg Em). eexists. split; [reflexivity|].
  assert (HF' : F cv * g = G x) by (rewrite EF by auto; unfold x; field; auto). 
  assert (HF1 : F cv = G x / g) by (rewrite EF by auto; reflexivity). rewrite HF'.
  set (p := qs s m x * exp (- x)) in *. assert (Hlow : p <= G x) by (apply (below s); auto; lra).
  assert (Hm : (1 <= m)%nat).
  { destruct m; [|lia]. simpl in Hc. unfold e12 in Hc. lra. }
  assert (Hm' : 1 <= INR m) by (apply (le_INR 1); auto).
  assert (HK : x < s + INR (S m) /\ x / (s + INR (S m) - x) <= s + 1).
  { rewrite S_INR. split; [lra|]. apply (Rmult_le_reg_r (s + (INR m + 1) - x)); [lra|]. unfold Rdiv at 1. rewrite Rmult_assoc, Rinv_l by lra. nra. }
  destruct HK as (HK1 & HK2). pose proof (gamma_tail s ltac:(lra) G HG x m Hx HK1) as Hup. fold p in Hup.
  pose proof (exp_small_1 x Hx) as He. set (A := Rpower x s / s) in *. assert (HA : 0 < A) by (apply Rdiv_lt_0_compat; [apply exp_pos|lra]).
  pose proof (cs_pos x s m Hx ltac:(lra)) as Hcp. pose proof (ps_ge1 x s m Hx ltac:(lra)) as Hps.
  assert (Ep : p = A * exp (- x) * ps x s m) by (unfold p; rewrite qs_ps by (auto; lra); fold A; ring).
  assert (Hpp : 0 < p) by (rewrite Ep; apply Rmult_lt_0_compat; [nra|lra]).
  assert (Hup2 : G x <= p * (1 + e12 * (s + 1))).
  { eapply Rle_trans; [exact Hup|]. rewrite Rmult_plus_distr_l, Rmult_1_r. apply Rplus_le_compat_l. rewrite Ep, Rmult_assoc. rewrite (Rmult_assoc (A * exp (- x))), (Rmult_assoc A).
    apply Rmult_le_compat_l; [lra|]. apply Rmult_le_compat_l; [lra|].
    apply Rle_trans with (cs x s m * (s + 1)); [apply Rmult_le_compat_l; lra|]. replace (ps x s m * (e12 * (s + 1))) with (e12 * ps x s m * (s + 1)) by ring. apply Rmult_le_compat_r; lra. }
  split.
  - intros Hsm. destruct (Rle_dec p (1 / 100000000)); auto. lra.
  - intros Hbig. destruct (Rle_dec p (1 / 100000000)) as [Hl|Hl].
    + exfalso. apply (Rmult_le_compat_r (1 + e12 * (s + 1))) in Hl; [|unfold e12; lra]. unfold e12 in *. lra.
    + rewrite HF1. assert (Hd : p / g <= G x / g) by (unfold Rdiv; apply Rmult_le_compat_r; auto; left; apply Rinv_0_lt_compat; auto).
      split; [lra|]. assert (Hd2 : G x / g - p / g <= e12 * (s + 1)).
      { replace (G x / g - p / g) with ((G x - p) / g) by (field; auto). apply (Rmult_le_reg_r g); auto. unfold Rdiv. rewrite Rmult_assoc, Rinv_l, Rmult_1_r by auto.
        apply Rle_trans with (p * (e12 * (s + 1))); [lra|]. rewrite (Rmult_comm p). apply Rmult_le_compat_l; [unfold e12; lra|lra]. }
      unfold e12 in Hd2. lra.
Qed.

Lemma chi_two_all d fuel cv F : 0 < cv -> chi_cdf 2 F -> chi d fuel 2 (Fin cv) = Ok (Fin (1 - F cv)).
Proof.
  intros Hcv HF. rewrite chi_two_l by lra.
  assert (HG : lower_gamma (IZR 2 / 2) (fun x => 1 - exp (- x))).
  { split; [split; [rewrite Ropp_0, exp_0; lra|]|].
    - apply (small_le _ (fun x => Rpower x 1)); [apply small_power; lra|]. intros x Hx. rewrite Rpower_1 by auto. pose proof (exp_ineq1 (- x) ltac:(lra)). pose proof (exp_small_1 x Hx). rewrite !Rabs_right by lra. lra.
    - intros x Hx. replace (IZR 2 / 2 - 1) with 0 by lra. rewrite Rpower_O, Rmult_1_l by auto.
      pose proof (derivable_pt_lim_minus (fun _ => 1) _ x _ _ (derivable_pt_lim_const 1 x) (exp_neg_der x)) as D. replace (exp (- x)) with (0 - - exp (- x)) by ring. exact D. }
  assert (Ht : tends (fun x => 1 - exp (- x)) 1).
  { intros e He. exists (Rmax 0 (- ln e)). intros x Hx. pose proof (Rmax_l 0 (- ln e)). pose proof (Rmax_r 0 (- ln e)). replace (1 - exp (- x) - 1) with (- exp (- x)) by ring.
    rewrite Rabs_Ropp, Rabs_right by (left; apply exp_pos). rewrite <- (exp_ln e He). apply exp_increasing. lra. }
  destruct (cdf_gamma 2 F _ 1 ltac:(lia) HF HG Ht) as (_ & E). rewrite (E cv Hcv). unfold survival. simpl. do 2 f_equal. field.
Qed.
End Answer.
