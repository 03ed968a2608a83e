From Coq Require Import Reals Lra Lia.
From Verif Require Import Base Res Arith ChiP ChiPSpec ChiPLemmas ChiPCases ChiAllSpec.
Local Open Scope R_scope.

(** Functions that vanish at 0 from the right. *)
Lemma small_plus f g : small f -> small g -> small (fun x => f x + g x).
Proof.
  intros Hf Hg e He. destruct (Hf (e / 2) ltac:(lra)) as (d1 & P1 & H1). destruct (Hg (e / 2) ltac:(lra)) as (d2 & P2 & H2).
  exists (Rmin d1 d2). split; [apply Rmin_pos; auto|]. intros x (A & B). pose proof (Rmin_l d1 d2). pose proof (Rmin_r d1 d2).
  specialize (H1 x ltac:(lra)). specialize (H2 x ltac:(lra)). pose proof (Rabs_triang (f x) (g x)). lra.
Qed.
Lemma small_scal f c : small f -> small (fun x => c * f x).
Proof.
  intros Hf e He. destruct (Req_dec c 0) as [->|N].
  - exists 1. split; [lra|]. intros. rewrite Rmult_0_l, Rabs_R0. auto.
  - assert (Hc : 0 < Rabs c) by (apply Rabs_pos_lt; auto). destruct (Hf (e / Rabs c)) as (d & P & H); [apply Rdiv_lt_0_compat; auto|].
    exists d. split; auto. intros x Hx. specialize (H x Hx). rewrite Rabs_mult. apply (Rmult_lt_compat_l (Rabs c)) in H; auto.
    replace (Rabs c * (e / Rabs c)) with e in H by (field; lra). exact H.
Qed.
Lemma small_le f g : small g -> (forall x, 0 < x -> Rabs (f x) <= Rabs (g x)) -> small f.
Proof. intros Hg H e He. destruct (Hg e He) as (d & P & Hd). exists d. split; auto. intros x Hx. eapply Rle_lt_trans; [apply H; lra|]. auto. Qed.
Lemma small_ext f g : (forall x, 0 < x -> f x = g x) -> small g -> small f.
Proof. intros H Hg. apply (small_le f g Hg). intros x Hx. rewrite H by auto. lra. Qed.
Lemma small_power a : 0 < a -> small (fun x => Rpower x a).
Proof.
  intros Ha e He. exists (Rpower e (/ a)). split; [apply exp_pos|]. intros x (H1 & H2). rewrite Rabs_right by (left; apply exp_pos).
  replace e with (Rpower (Rpower e (/ a)) a); [apply Rlt_Rpower_l; auto|]. rewrite Rpower_mult, Rinv_l, Rpower_1; lra.
Qed.

(** A function that vanishes at 0 and does not decrease is not negative. *)
Lemma grows f f' : small f -> (forall x, 0 < x -> derivable_pt_lim f x (f' x)) -> (forall x, 0 < x -> 0 <= f' x) -> forall x, 0 < x -> 0 <= f x.
Proof.
  intros Hs Hd Hp x Hx. destruct (Rle_or_lt 0 (f x)) as [|H]; auto. exfalso. destruct (Hs (- f x) ltac:(lra)) as (d & P & Hd').
  set (y := Rmin (d / 2) (x / 2)). assert (Hy : 0 < y) by (apply Rmin_pos; lra). assert (y <= d / 2) by apply Rmin_l. assert (y <= x / 2) by apply Rmin_r.
  specialize (Hd' y ltac:(lra)). destruct (MVT_cor2 f f' y x ltac:(lra)) as (c & E & Hc); [intros c Hc; apply Hd; lra|].
  specialize (Hp c ltac:(lra)). assert (0 <= f' c * (x - y)) by (apply Rmult_le_pos; lra). apply Rabs_def2 in Hd'. lra.
Qed.

(** The terms x^(s+n)/(s(s+1)...(s+n)). *)
Fixpoint poch (s : R) (n : nat) : R := match n with O => s | S m => poch s m * (s + INR (S m)) end.
Definition qt (s : R) (n : nat) (x : R) : R := Rpower x (s + INR n) / poch s n.
Fixpoint qs (s : R) (n : nat) (x : R) : R := match n with O => qt s 0 x | S m => qs s m x + qt s n x end.

Section Series.
Variable s : R.
Hypothesis Hs : 0 < s.

Lemma poch_pos n : 0 < poch s n.
Proof. induction n as [|n IH]; [simpl; auto|]. cbn [poch]. pose proof (pos_INR (S n)). apply Rmult_lt_0_compat; lra. Qed.
Lemma qt_pos n x : 0 < qt s n x.
Proof. apply Rdiv_lt_0_compat; [apply exp_pos|apply poch_pos]. Qed.
Lemma qt_cs n x : 0 < x -> qt s n x = Rpower x s / s * cs x s n.
Proof.
  intros Hx. induction n as [|n IH].
  - unfold qt. simpl INR. rewrite Rplus_0_r. cbn [poch cs]. lra.
  - cbn [cs]. rewrite <- Rmult_assoc, <- IH. unfold qt. cbn [poch]. rewrite S_INR.
    replace (s + (INR n + 1)) with (s + INR n + 1) by lra. rewrite Rpower_plus, Rpower_1 by auto.
    pose proof (poch_pos n). pose proof (pos_INR n). field. lra.
Qed.
Lemma qs_ps n x : 0 < x -> qs s n x = Rpower x s / s * ps x s n.
Proof.
  intros Hx. induction n as [|n IH].
  - cbn [qs]. rewrite qt_cs by auto. reflexivity.
  - cbn [qs]. rewrite IH, qt_cs by auto. change (ps x s (S n)) with (ps x s n + cs x s (S n)). ring.
Qed.
Lemma qt_small n : small (qt s n).
Proof.
  apply (small_ext _ (fun x => / poch s n * Rpower x (s + INR n))); [intros x _; unfold qt, Rdiv; ring|].
  apply small_scal, small_power. pose proof (pos_INR n). lra.
Qed.
Lemma qs_small n : small (qs s n).
Proof. induction n as [|n IH]; [apply qt_small|]. cbn [qs]. apply small_plus; auto. apply qt_small. Qed.

Lemma qt_der0 x : 0 < x -> derivable_pt_lim (qt s 0) x (Rpower x (s - 1)).
Proof.
  intros Hx. pose proof (derivable_pt_lim_power x s Hx) as D. apply (derivable_pt_lim_scal _ (/ s)) in D.
  replace (/ s * (s * Rpower x (s - 1))) with (Rpower x (s - 1)) in D by (field; lra).
  revert D. apply derivable_pt_lim_ext. intros z. unfold mult_real_fct, qt. simpl INR. rewrite Rplus_0_r. cbn [poch]. unfold Rdiv. ring.
Qed.
Lemma qt_der n x : 0 < x -> derivable_pt_lim (qt s (S n)) x (qt s n x).
Proof.
  intros Hx. pose proof (derivable_pt_lim_power x (s + INR (S n)) Hx) as D. apply (derivable_pt_lim_scal _ (/ poch s (S n))) in D.
  replace (/ poch s (S n) * ((s + INR (S n)) * Rpower x (s + INR (S n) - 1))) with (qt s n x) in D.
  - revert D. apply derivable_pt_lim_ext. intros z. unfold mult_real_fct, qt, Rdiv. ring.
  - unfold qt. cbn [poch]. rewrite S_INR. replace (s + (INR n + 1) - 1) with (s + INR n) by lra. pose proof (poch_pos n). pose proof (pos_INR n). field. lra.
Qed.
Lemma exp_neg_der x : derivable_pt_lim (fun y => exp (- y)) x (- exp (- x)).
Proof.
  pose proof (derivable_pt_lim_comp (fun y => - y) exp x (-1) (exp (- x))) as D. replace (- exp (- x)) with (exp (- x) * -1) by ring. apply D.
  - pose proof (derivable_pt_lim_opp id x 1 (derivable_pt_lim_id x)) as D'. exact D'.
  - apply derivable_pt_lim_exp.
Qed.
(** The partial sums have the derivative of the integral up to the next term. *)
Lemma hs_der n x : 0 < x -> derivable_pt_lim (fun y => qs s n y * exp (- y)) x (Rpower x (s - 1) * exp (- x) - qt s n x * exp (- x)).
Proof.
  intros Hx. assert (D : derivable_pt_lim (qs s n) x (Rpower x (s - 1) + (qs s n x - qt s n x))).
  { induction n as [|n IH].
    - cbn [qs]. replace (Rpower x (s - 1) + (qt s 0 x - qt s 0 x)) with (Rpower x (s - 1)) by ring. apply qt_der0; auto.
    - cbn [qs]. pose proof (derivable_pt_lim_plus _ _ x _ _ IH (qt_der n x Hx)) as D.
      replace (Rpower x (s - 1) + (qs s n x + qt s (S n) x - qt s (S n) x)) with (Rpower x (s - 1) + (qs s n x - qt s n x) + qt s n x) by ring. exact D. }
  pose proof (derivable_pt_lim_mult _ _ x _ _ D (exp_neg_der x)) as M.
  replace (Rpower x (s - 1) * exp (- x) - qt s n x * exp (- x)) with ((Rpower x (s - 1) + (qs s n x - qt s n x)) * exp (- x) + qs s n x * (- exp (- x))) by ring. exact M.
Qed.

Variable G : R -> R.
Hypothesis HG : lower_gamma s G.

Lemma exp_small_1 x : 0 < x -> 0 < exp (- x) < 1.
Proof. intros Hx. split; [apply exp_pos|]. rewrite <- exp_0. apply exp_increasing. lra. Qed.

Lemma below n x : 0 < x -> qs s n x * exp (- x) <= G x.
Proof.
  intros Hx. destruct HG as ((_ & G0) & GD). enough (0 <= G x + -1 * (qs s n x * exp (- x))) by lra.
  apply (grows (fun y => G y + -1 * (qs s n y * exp (- y))) (fun y => qt s n y * exp (- y))); auto.
  - apply small_plus; auto. apply small_scal. apply (small_le _ (qs s n)); [apply qs_small|]. intros y Hy. rewrite Rabs_mult.
    pose proof (exp_small_1 y Hy). rewrite (Rabs_right (exp (- y))) by lra. pose proof (Rabs_pos (qs s n y)). nra.
  - intros y Hy. pose proof (derivable_pt_lim_plus _ _ y _ _ (GD y Hy) (derivable_pt_lim_scal _ (-1) y _ (hs_der n y Hy))) as D.
    replace (qt s n y * exp (- y)) with (Rpower y (s - 1) * exp (- y) + -1 * (Rpower y (s - 1) * exp (- y) - qt s n y * exp (- y))) by ring. exact D.
  - intros y Hy. pose proof (qt_pos n y). pose proof (exp_small_1 y Hy). nra.
Qed.
Lemma above n x : 0 < x -> G x <= qs s n x * exp (- x) + qt s (S n) x.
Proof.
  intros Hx. destruct HG as ((_ & G0) & GD). enough (0 <= (qs s n x * exp (- x) + qt s (S n) x) + -1 * G x) by lra.
  apply (grows (fun y => (qs s n y * exp (- y) + qt s (S n) y) + -1 * G y) (fun y => qt s n y - qt s n y * exp (- y))); auto.
  - apply small_plus; [apply small_plus; [|apply qt_small]|apply small_scal; auto]. apply (small_le _ (qs s n)); [apply qs_small|]. intros y Hy. rewrite Rabs_mult.
    pose proof (exp_small_1 y Hy). rewrite (Rabs_right (exp (- y))) by lra. pose proof (Rabs_pos (qs s n y)). nra.
  - intros y Hy. pose proof (derivable_pt_lim_plus _ _ y _ _ (derivable_pt_lim_plus _ _ y _ _ (hs_der n y Hy) (qt_der n y Hy)) (derivable_pt_lim_scal _ (-1) y _ (GD y Hy))) as D.
    replace (qt s n y - qt s n y * exp (- y)) with ((Rpower y (s - 1) * exp (- y) - qt s n y * exp (- y)) + qt s n y + -1 * (Rpower y (s - 1) * exp (- y))) by ring. exact D.
  - intros y Hy. pose proof (qt_pos n y). pose proof (exp_small_1 y Hy). nra.
Qed.

(** What the series leaves out is at most a geometric series. *)
Lemma ps_step x n : ps x s (S n) = ps x s n + cs x s (S n). Proof. reflexivity. Qed.
Lemma ps_tail x N : 0 < x -> x < s + INR (S N) -> forall j,
  ps x s (N + j) + cs x s (S (N + j)) <= ps x s N + cs x s N * (x / (s + INR (S N) - x)) + cs x s (S (N + j)).
Proof.
  intros Hx HN j. set (r := x / (s + INR (S N))). assert (HD : 0 < s + INR (S N)) by (pose proof (pos_INR (S N)); lra).
  assert (Hr : 0 <= r < 1).
  { unfold r. split; [left; apply Rdiv_lt_0_compat; auto|]. apply (Rmult_lt_reg_r (s + INR (S N))); auto. unfold Rdiv. rewrite Rmult_assoc, Rinv_l by lra. lra. }
  assert (Ht : forall j, cs x s (N + j) <= cs x s N * r ^ j).
  { induction j0 as [|i IH]; [rewrite Nat.add_0_r; simpl; lra|]. rewrite Nat.add_succ_r. cbn [cs pow].
    assert (H1 : x / (s + INR (S (N + i))) <= r).
    { unfold r, Rdiv. apply Rmult_le_compat_l; [lra|]. apply Rinv_le_contravar; auto. apply Rplus_le_compat_l, le_INR. lia. }
    pose proof (cs_pos x s (N + i) Hx Hs). apply Rle_trans with (cs x s (N + i) * r); [apply Rmult_le_compat_l; lra|]. nra. }
  assert (Hsum : ps x s (N + j) - ps x s N <= cs x s N * (r * (1 - r ^ j) / (1 - r))).
  { induction j as [|i IH]; [rewrite Nat.add_0_r; simpl; unfold Rdiv; lra|]. rewrite Nat.add_succ_r, ps_step.
    specialize (Ht (S i)). rewrite Nat.add_succ_r in Ht. cbn [pow] in Ht |- *.
    replace (r * (1 - r * r ^ i) / (1 - r)) with (r * (1 - r ^ i) / (1 - r) + r * r ^ i) by (field; lra). lra. }
  assert (r * (1 - r ^ j) / (1 - r) <= x / (s + INR (S N) - x)).
  { replace (x / (s + INR (S N) - x)) with (r / (1 - r)) by (unfold r; field; lra). unfold Rdiv. apply Rmult_le_compat_r; [left; apply Rinv_0_lt_compat; lra|].
    assert (0 <= r ^ j) by (apply pow_le; lra). nra. }
  pose proof (cs_pos x s N Hx Hs). nra.
Qed.
Lemma cs_zero x : 0 < x -> Un_cv (cs x s) 0.
Proof.
  intros Hx. assert (Hle : forall n, cs x s n <= et x n).
  { induction n as [|n IH]; [unfold et; simpl; lra|]. rewrite et_S. cbn [cs]. apply Rmult_le_compat; auto.
    - left. apply cs_pos; auto.
    - left. apply Rdiv_lt_0_compat; auto. pose proof (pos_INR (S n)). lra.
    - unfold Rdiv. apply Rmult_le_compat_l; [lra|]. apply Rinv_le_contravar; [apply lt_0_INR; lia|lra]. }
  intros e He. destruct (cv_speed_pow_fact x e He) as (N & HN). exists N. intros n Hn. specialize (HN n Hn). unfold R_dist in *. rewrite Rminus_0_r in *.
  pose proof (cs_pos x s n Hx Hs). pose proof (et_pos x n Hx). rewrite Rabs_right in * by (unfold et in *; lra). specialize (Hle n). unfold et in *. lra.
Qed.
Lemma gamma_tail x N : 0 < x -> x < s + INR (S N) ->
  G x <= qs s N x * exp (- x) + Rpower x s / s * exp (- x) * (cs x s N * (x / (s + INR (S N) - x))).
Proof.
  intros Hx HN. set (A := Rpower x s / s). assert (HA : 0 < A) by (apply Rdiv_lt_0_compat; [apply exp_pos|auto]).
  set (T := cs x s N * (x / (s + INR (S N) - x))). pose proof (exp_small_1 x Hx) as He.
  destruct (Rle_or_lt (G x) (qs s N x * exp (- x) + A * exp (- x) * T)) as [|H]; auto. exfalso.
  set (D := G x - (qs s N x * exp (- x) + A * exp (- x) * T)) in *. assert (HD : 0 < D) by (unfold D; lra).
  destruct (cs_zero x Hx (D / (2 * A))) as (K & HK); [apply Rdiv_lt_0_compat; lra|].
  specialize (HK (S (N + K)) ltac:(lia)). unfold R_dist in HK. rewrite Rminus_0_r in HK. pose proof (cs_pos x s (S (N + K)) Hx Hs) as Hc. rewrite Rabs_right in HK by lra.
  pose proof (above (N + K) x Hx) as Ha. rewrite qs_ps, qt_cs in Ha by auto. fold A in Ha.
  pose proof (ps_tail x N Hx HN K) as Hp. fold T in Hp. unfold D in *. rewrite qs_ps in * by auto. fold A in HD, HK.
  apply (Rmult_lt_compat_l A) in HK; auto. replace (A * ((G x - (A * ps x s N * exp (- x) + A * exp (- x) * T)) / (2 * A))) with ((G x - (A * ps x s N * exp (- x) + A * exp (- x) * T)) / 2) in HK by (field; lra).
  assert (Hp' : ps x s (N + K) <= ps x s N + T) by lra.
  assert (A * ps x s (N + K) * exp (- x) <= A * exp (- x) * (ps x s N + T)).
  { replace (A * ps x s (N + K) * exp (- x)) with (A * exp (- x) * ps x s (N + K)) by ring. apply Rmult_le_compat_l; [nra|auto]. }
  lra.
Qed.
End Series.
