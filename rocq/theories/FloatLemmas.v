From Coq Require Import Reals Lra Lia.
From Verif Require Import Base Res Arith LogMath LogSpec LogLemmas GraphSpec Spn SpnLemmas ProbSpec ProbLemmas FloatSpec.
Local Open Scope R_scope.

Lemma abs_le a b e : - e <= a - b <= e -> Rabs (a - b) <= e.
Proof. intros H. apply Rabs_le. lra. Qed.
Lemma abs_le_inv x e : Rabs x <= e -> - e <= x <= e.
Proof. intros H. pose proof (Rle_abs x). pose proof (Rle_abs (- x)). rewrite Rabs_Ropp in *. lra. Qed.
Lemma within_more e e' x y : e <= e' -> within e x y -> within e' x y.
Proof. destruct x, y; cbn; auto. lra. Qed.
Lemma within_logval e x y : within e x y -> logval x /\ logval y.
Proof. destruct x, y; cbn; tauto. Qed.

(** The exponential and the logarithm near the points of interest. *)
Lemma exp_near d : -1 / 2 <= d <= 1 / 2 -> Rabs (exp d - 1) <= 2 * Rabs d.
Proof.
  intros H. destruct (Rle_dec 0 d) as [Hd|Hd].
  - rewrite (Rabs_pos_eq d) by auto. pose proof (exp_ineq1_le d). pose proof (exp_ineq1_le (- d)). rewrite exp_Ropp in *.
    pose proof (exp_pos d). assert (/ exp d * exp d = 1) by (field; lra). rewrite Rabs_pos_eq by lra.
    assert ((1 - d) * exp d <= 1) by nra. assert (exp d <= 2) by nra. nra.
  - rewrite (Rabs_left d) by lra. pose proof (exp_ineq1_le d). assert (exp d < 1) by (rewrite <- exp_0; apply exp_increasing; lra). rewrite Rabs_left by lra. lra.
Qed.
Lemma ln_quot x y : 0 < x -> 0 < y -> ln (x / y) = ln x - ln y.
Proof. intros Hx Hy. unfold Rdiv. rewrite ln_mult, ln_Rinv; auto. apply Rinv_0_lt_compat. auto. Qed.
Lemma ln_le_lin x y : 0 < x -> 0 < y -> ln x - ln y <= (x - y) / y.
Proof.
  intros Hx Hy. rewrite <- ln_quot by auto. replace ((x - y) / y) with (x / y - 1) by (field; lra).
  assert (0 < x / y) by (apply Rdiv_lt_0_compat; auto). pose proof (exp_ineq1_le (ln (x / y))). rewrite exp_ln in H0 by auto. lra.
Qed.
Lemma ln_near x y e : 1 / 2 <= x -> 1 / 2 <= y -> Rabs (x - y) <= e -> Rabs (ln x - ln y) <= 2 * e.
Proof.
  intros Hx Hy H. apply abs_le_inv in H. pose proof (ln_le_lin x y ltac:(lra) ltac:(lra)). pose proof (ln_le_lin y x ltac:(lra) ltac:(lra)).
  assert (Q : forall a b, 1 / 2 <= b -> - e <= a <= e -> a / b <= 2 * e).
  { intros a b Hb Ha. assert (0 < / b <= 2). { split; [apply Rinv_0_lt_compat; lra|]. replace 2 with (/ (1 / 2)) by lra. apply Rinv_le_contravar; lra. } unfold Rdiv. destruct (Rle_dec 0 a); nra. }
  pose proof (Q (x - y) y Hy ltac:(lra)). pose proof (Q (y - x) x Hx ltac:(lra)). apply Rabs_le. lra.
Qed.

(** Sums of exponentials of close numbers. *)
Lemma lin_close e x y : 0 <= e -> within e x y -> exp (- e) * lin y <= lin x <= exp e * lin y.
Proof.
  intros He H. destruct x as [a| | |], y as [b| | |]; cbn in H; try tauto; cbn [lin]; [|lra]. rewrite <- !exp_plus. apply abs_le_inv in H.
  assert (M : forall p q, p <= q -> exp p <= exp q) by (intros p q [Hl|<-]; [left; apply exp_increasing; auto|lra]). split; apply M; lra.
Qed.
Lemma sum_close e xs ys : 0 <= e -> Forall2 (within e) xs ys -> exp (- e) * Rsum (map lin ys) <= Rsum (map lin xs) <= exp e * Rsum (map lin ys).
Proof.
  intros He F. induction F as [|x y xs ys H F IH]; cbn [map Rsum]; [lra|]. pose proof (lin_close e x y He H). lra.
Qed.
Lemma lse_close e xs ys : 0 <= e -> Forall2 (within e) xs ys -> within e (xln (Rsum (map lin xs))) (xln (Rsum (map lin ys))).
Proof.
  intros He F. destruct (sum_close e xs ys He F) as (H1 & H2). pose proof (exp_pos e). pose proof (exp_pos (- e)).
  assert (N : forall zs, 0 <= Rsum (map lin zs)) by (intros zs; apply Rsum_nonneg; intros z Hz; apply in_map_iff in Hz as (q & <- & _); apply lin_nonneg).
  pose proof (N xs) as Nx. pose proof (N ys) as Ny. destruct (Rlt_dec 0 (Rsum (map lin ys))) as [Hy|Hy].
  - assert (0 < Rsum (map lin xs)) by nra. rewrite !xln_pos by auto. cbn.
    assert (ML : forall p q, 0 < p -> p <= q -> ln p <= ln q) by (intros p q Hp [Hl| <-]; [left; apply ln_increasing; auto|lra]).
    apply ML in H2; auto. apply ML in H1; [|apply Rmult_lt_0_compat; auto]. rewrite ln_mult, ln_exp in H1, H2 by auto. apply abs_le. lra.
  - assert (Rsum (map lin ys) = 0) by lra. assert (Rsum (map lin xs) = 0) by nra. rewrite H3, H4, xln_zero. exact Logic.I.
Qed.

Section Ops.
Context {A : arith}.
Variable real : F A -> xreal.
Variables eps M : R.
Hypothesis RA : rounding A real eps M.
Hypothesis Heps : 0 <= eps.

Definition small (L : R) (x : xreal) : Prop := match x with Fin a => Rabs a <= L | NInf => True | _ => False end.
Lemma small_le L L' x : L <= L' -> small L x -> small L' x.
Proof. destruct x; cbn; auto. lra. Qed.
Lemma small_logval L x : small L x -> logval x.
Proof. destruct x; cbn; auto. Qed.
Lemma small_within L e x y : small L y -> within e x y -> small (L + e) x.
Proof. destruct x as [a| | |], y as [b| | |]; cbn; try tauto. intros H1 H2. apply abs_le_inv in H1, H2. apply Rabs_le. lra. Qed.

Lemma add_within e1 e2 x y x' y' : small M (real x) -> small M (real y) -> within e1 (real x) x' -> within e2 (real y) y' -> within (e1 + e2 + eps) (real (fadd x y)) (xadd x' y').
Proof.
  intros Sx Sy Wx Wy. destruct (real x) as [a| | |] eqn:Ex; try (destruct Sx; fail); destruct (real y) as [b| | |] eqn:Ey; try (destruct Sy; fail).
  - destruct x' as [a'| | |]; cbn in Wx; try tauto. destruct y' as [b'| | |]; cbn in Wy; try tauto. pose proof (ra_add _ _ _ _ RA x y a b Ex Ey Sx Sy) as H.
    destruct (real (fadd x y)); cbn in H |- *; try tauto. apply abs_le_inv in Wx, Wy, H. apply Rabs_le. lra.
  - destruct y'; cbn in Wy; try tauto. rewrite (ra_add_inf _ _ _ _ RA) by (right; rewrite Ex, Ey; split; [exact Logic.I|auto]). destruct x'; cbn in Wx |- *; tauto.
  - destruct x'; cbn in Wx; try tauto. rewrite (ra_add_inf _ _ _ _ RA) by (left; rewrite Ex, Ey; split; [auto|exact Logic.I]). destruct y'; cbn in Wy |- *; tauto.
  - destruct x'; cbn in Wx; try tauto. rewrite (ra_add_inf _ _ _ _ RA) by (left; rewrite Ex, Ey; split; [auto|exact Logic.I]). destruct y'; cbn in Wy |- *; tauto.
Qed.
Lemma log_within w a : real w = Fin a -> 0 <= a <= M -> within eps (real (flog w)) (xln a).
Proof.
  intros E H. destruct (Rlt_dec 0 a) as [Ha|Ha].
  - rewrite xln_pos by auto. apply (ra_log _ _ _ _ RA); auto. lra.
  - assert (a = 0) by lra. subst a. rewrite xln_zero, (ra_log_zero _ _ _ _ RA); auto. exact Logic.I.
Qed.

(** The largest element. *)
Lemma fold_max_real l : forall m, logval (real m) -> (forall x, In x l -> logval (real x)) ->
  let m' := fold_left (fun m v => if fgt v m then v else m) l m in
  (m' = m \/ In m' l) /\ logval (real m') /\ lin (real m) <= lin (real m') /\ forall x, In x l -> lin (real x) <= lin (real m').
Proof.
  induction l as [|v l IH]; intros m Hm Hl; cbn [fold_left]; [split; auto; split; auto; split; [lra|intros x []]|].
  pose proof (Hl v (or_introl eq_refl)) as Hv. rewrite (ra_gt _ _ _ _ RA v m Hv Hm).
  set (b := match real v with Fin a => match real m with Fin b => if Rlt_dec b a then true else false | _ => true end | _ => false end).
  assert (Hb : if b then lin (real m) <= lin (real v) else lin (real v) <= lin (real m)).
  { subst b. destruct (real v) as [a| | |]; cbn in Hv; try tauto; destruct (real m) as [c| | |]; cbn in Hm; try tauto; cbn [lin].
    - destruct (Rlt_dec c a) as [H|H]; [left; apply exp_increasing; auto|]. destruct (Req_dec a c) as [->|]; [lra|]. left. apply exp_increasing. lra.
    - left. apply exp_pos. - left. apply exp_pos. - lra. }
  destruct b.
  - destruct (IH v Hv (fun x Hx => Hl x (or_intror Hx))) as (H1 & H2 & H3 & H4). cbv zeta. split; [destruct H1 as [->|H1]; [right; left; auto|right; right; auto]|]. split; auto. split; [lra|].
    intros x [<-|Hx]; auto.
  - destruct (IH m Hm (fun x Hx => Hl x (or_intror Hx))) as (H1 & H2 & H3 & H4). cbv zeta. split; [destruct H1 as [H1|H1]; [left; auto|right; right; auto]|]. split; auto. split; [lra|].
    intros x [<-|Hx]; auto. lra.
Qed.

(** The sum of the exponentials. *)
Lemma fold_exp_real m mm l : real m = Fin mm -> Rabs mm <= M -> eps <= 1 / 8 ->
  (forall x, In x l -> small M (real x) /\ lin (real x) <= exp mm) ->
  forall acc c s k, real acc = Fin c -> Rabs (c - s) <= 4 * INR k * eps -> 0 <= s <= INR k -> INR (k + length l) + 1 <= M -> INR (k + length l) * eps <= 1 / 8 ->
  exists c', real (fold_left (fun q v => fadd q (fexp (fsub v m))) l acc) = Fin c' /\ Rabs (c' - (s + Rsum (map lin (map real l)) / exp mm)) <= 4 * INR (k + length l) * eps.
Proof.
  intros Em Hm He. induction l as [|v l IH]; intros Hl acc c s k Ea Hc Hs HM Hk.
  - exists c. split; auto. cbn [map Rsum length]. rewrite Nat.add_0_r. replace (s + 0 / exp mm) with s by (field; pose proof (exp_pos mm); lra). auto.
  - cbn [fold_left map Rsum]. destruct (Hl v (or_introl eq_refl)) as (Sv & Lv). pose proof (exp_pos mm) as Pm. cbn [length] in HM, Hk |- *. replace (k + S (length l))%nat with (S k + length l)%nat in * by lia.
    assert (Hn : 0 <= INR (length l)) by apply pos_INR. pose proof (pos_INR k) as Hk0. rewrite plus_INR, S_INR in HM, Hk.
    assert (HkM : INR k * eps <= 1 / 8) by nra.
    assert (T : exists t, real (fexp (fsub v m)) = Fin t /\ Rabs (t - lin (real v) / exp mm) <= 3 * eps).
    { destruct (real v) as [a| | |] eqn:Ev; try (destruct Sv; fail).
      - assert (Ha : a <= mm). { cbn [lin] in Lv. destruct (Rle_dec a mm); auto. assert (exp mm < exp a) by (apply exp_increasing; lra). lra. }
        pose proof (ra_sub _ _ _ _ RA v m a mm Ev Em Sv Hm) as Hd. destruct (real (fsub v m)) as [d| | |] eqn:Ed; cbn in Hd; try tauto. apply abs_le_inv in Hd.
        pose proof (ra_exp _ _ _ _ RA (fsub v m) d Ed ltac:(lra)) as Ht. destruct (real (fexp (fsub v m))) as [t| | |] eqn:Et; cbn in Ht; try tauto. exists t. split; auto.
        cbn [lin]. replace (exp a / exp mm) with (exp (a - mm)) by (unfold Rminus; rewrite exp_plus, exp_Ropp; reflexivity).
        assert (E1 : exp (a - mm) <= 1) by (rewrite <- exp_0; destruct (Req_dec a mm) as [->|]; [rewrite Rminus_diag_eq; lra|left; apply exp_increasing; lra]).
        pose proof (exp_near (d - (a - mm)) ltac:(lra)) as Hx. assert (Hq : Rabs (d - (a - mm)) <= eps) by (apply Rabs_le; lra). apply abs_le_inv in Ht. pose proof (exp_pos (a - mm)) as Pp.
        assert (Ex : exp d = exp (a - mm) * exp (d - (a - mm))) by (rewrite <- exp_plus; f_equal; lra).
        assert (Hdx : Rabs (exp d - exp (a - mm)) <= 2 * eps).
        { rewrite Ex. replace (exp (a - mm) * exp (d - (a - mm)) - exp (a - mm)) with (exp (a - mm) * (exp (d - (a - mm)) - 1)) by ring. rewrite Rabs_mult, (Rabs_pos_eq (exp (a - mm))) by lra.
          pose proof (Rabs_pos (exp (d - (a - mm)) - 1)). nra. }
        apply abs_le_inv in Hdx. apply Rabs_le. lra.
      - exists 0. split; [apply (ra_exp_inf _ _ _ _ RA), (ra_sub_inf _ _ _ _ RA v m mm); auto|]. cbn [lin]. replace (0 - 0 / exp mm) with 0 by (field; lra). rewrite Rabs_R0. lra. }
    destruct T as (t & Et & Ht). set (p := lin (real v) / exp mm) in *. assert (Hp : 0 <= p <= 1).
    { unfold p. split; [apply Rmult_le_pos; [apply lin_nonneg|left; apply Rinv_0_lt_compat; auto]|]. apply Rmult_le_reg_r with (exp mm); auto. unfold Rdiv. rewrite Rmult_assoc, Rinv_l by lra. lra. }
    apply abs_le_inv in Ht, Hc. pose proof (ra_add _ _ _ _ RA acc _ c t Ea Et ltac:(apply Rabs_le; nra) ltac:(apply Rabs_le; nra)) as H.
    destruct (real (fadd acc (fexp (fsub v m)))) as [c1| | |] eqn:E1; cbn in H; try tauto. apply abs_le_inv in H.
    destruct (IH (fun x Hx => Hl x (or_intror Hx)) _ c1 (s + p) (S k) E1) as (c' & Ec & Hc'); [rewrite S_INR; apply Rabs_le; lra|rewrite S_INR; lra|rewrite plus_INR, S_INR; lra|rewrite plus_INR, S_INR; lra|].
    exists c'. split; auto. replace (s + (lin (real v) + Rsum (map lin (map real l))) / exp mm) with (s + p + Rsum (map lin (map real l)) / exp mm) by (unfold p; field; lra). auto.
Qed.

Lemma lse_within l : l <> [] -> eps <= 1 / 8 -> (forall x, In x l -> small M (real x)) -> INR (length l) + 2 <= M -> INR (length l) * eps <= 1 / 8 ->
  exists x, logSumExp l = Ok x /\ within ((8 * INR (length l) + 2) * eps) (real x) (xln (Rsum (map lin (map real l)))).
Proof.
  intros Hne He Hl HM Hn. destruct l as [|x0 l0] eqn:El; [congruence|]. rewrite <- El in *. clear Hne.
  assert (Hlv : forall x, In x l -> logval (real x)) by (intros x Hx; eapply small_logval; eauto).
  unfold logSumExp. assert (E0 : idx l 0 = Ok x0) by (rewrite El; reflexivity). rewrite E0. cbn [bind].
  assert (H0 : In x0 l) by (rewrite El; left; auto). destruct (fold_max_real l x0 (Hlv x0 H0) Hlv) as (H1 & H2 & H3 & H4). cbv zeta in *. set (m := fold_left _ l x0) in *. clearbody m.
  assert (Hm : In m l) by (destruct H1 as [->|H1]; auto). clear H1 H3. rewrite (ra_inf _ _ _ _ RA m H2). pose proof (pos_INR (length l)) as Pn.
  assert (Pl : forall q, In q (map lin (map real l)) -> 0 <= q) by (intros q Hq; apply in_map_iff in Hq as (z & <- & _); apply lin_nonneg).
  destruct (real m) as [mm| | |] eqn:Em; try (destruct H2; fail).
  - pose proof (Hl m Hm) as Sm. rewrite Em in Sm. cbn [lin] in H4. pose proof (exp_pos mm) as Pm.
    destruct (fold_exp_real m mm l Em Sm He (fun x Hx => conj (Hl x Hx) (H4 x Hx)) (fz 0) 0 0 0%nat (ra_zero _ _ _ _ RA)) as (c & Ec & Hc);
      [rewrite Rminus_0_r, Rabs_R0; simpl; lra|simpl; lra|simpl; lra|simpl; lra|]. cbn [plus] in Hc. rewrite Rplus_0_l in Hc.
    set (S := Rsum (map lin (map real l))) in *. assert (HS1 : exp mm <= S).
    { replace (exp mm) with (lin (real m)) by (rewrite Em; reflexivity). apply Rsum_ge_elem; auto. apply in_map, in_map. auto. }
    assert (HS2 : S <= INR (length l) * exp mm).
    { unfold S. clear -H4. induction l as [|y l IH]; [simpl; lra|]. cbn [map Rsum length]. rewrite S_INR. pose proof (H4 y (or_introl eq_refl)). specialize (IH (fun x Hx => H4 x (or_intror Hx))). lra. }
    assert (Hr1 : 1 <= S / exp mm) by (apply Rmult_le_reg_r with (exp mm); auto; unfold Rdiv; rewrite Rmult_assoc, Rinv_l by lra; lra).
    assert (Hr2 : S / exp mm <= INR (length l)) by (apply Rmult_le_reg_r with (exp mm); auto; unfold Rdiv; rewrite Rmult_assoc, Rinv_l by lra; lra).
    pose proof Hc as Hc'. apply abs_le_inv in Hc'. assert (Hc1 : 1 / 2 <= c <= M) by lra. eexists. split; [reflexivity|].
    pose proof (ln_near c (S / exp mm) (4 * INR (length l) * eps) ltac:(lra) ltac:(lra) Hc) as Hln.
    pose proof (ra_log _ _ _ _ RA _ c Ec ltac:(lra)) as Hlg. destruct (real (flog _)) as [g| | |] eqn:Eg in Hlg |- *; cbn in Hlg; try tauto.
    assert (Hlnb : 0 <= ln (S / exp mm) <= INR (length l)).
    { split; [rewrite <- ln_1; destruct Hr1 as [Hr1| <-]; [left; apply ln_increasing; lra|lra]|]. pose proof (exp_ineq1_le (ln (S / exp mm))) as Q. rewrite exp_ln in Q by lra. lra. }
    apply abs_le_inv in Hln, Hlg. pose proof (ra_add _ _ _ _ RA _ m g mm Eg Em ltac:(apply Rabs_le; lra) Sm) as Hf. destruct (real (fadd _ m)) as [f| | |]; cbn in Hf; try tauto.
    rewrite xln_pos by lra. cbn. apply abs_le_inv in Hf. assert (Els : ln S = ln (S / exp mm) + mm) by (rewrite ln_quot, ln_exp by lra; lra). apply Rabs_le. rewrite Els. lra.
  - exists m. split; auto. rewrite Em. assert (ES : Rsum (map lin (map real l)) = 0).
    { clear -H4. induction l as [|y l IH]; auto. cbn [map Rsum]. pose proof (H4 y (or_introl eq_refl)) as Hy. cbn [lin] in Hy. pose proof (lin_nonneg (real y)). rewrite IH; [lra|]. intros x Hx. apply H4. right. auto. }
    rewrite ES, xln_zero. exact Logic.I.
Qed.

(** A product of numbers. *)
Lemma prod_within L (E : nat -> R) (x : nat -> F A) (y : nat -> xreal) cs : 0 <= L -> (forall c, In c cs -> within (E c) (real (x c)) (y c) /\ small L (real (x c))) ->
  forall acc a e k, within e (real acc) a -> small (INR k * (L + eps)) (real acc) -> INR (k + length cs) * (L + eps) <= M -> L <= M ->
  within (e + Rsum (map E cs) + INR (length cs) * eps) (real (fold_left fadd (map x cs) acc)) (fold_left xadd (map y cs) a).
Proof.
  intros HL. induction cs as [|c cs IH]; intros H acc a e k W Sa HM HLM; [cbn [map fold_left Rsum length]; simpl INR; eapply within_more; [|exact W]; lra|].
  cbn [map fold_left Rsum length] in HM |- *. destruct (H c (or_introl eq_refl)) as (Wc & Sc). replace (k + S (length cs))%nat with (S k + length cs)%nat in HM by lia.
  pose proof (pos_INR (length cs)) as Pc. assert (HM' := HM). rewrite plus_INR, S_INR in HM'.
  assert (Sa' : small M (real acc)) by (eapply small_le; [|exact Sa]; nra). assert (Sc' : small M (real (x c))) by (eapply small_le; [|exact Sc]; auto).
  pose proof (add_within _ _ _ _ _ _ Sa' Sc' W Wc) as W2. rewrite S_INR. eapply within_more; [|apply (IH (fun d Hd => H d (or_intror Hd)) _ _ _ (S k) W2)]; auto; [lra|].
  assert (R0 : forall z, logval z -> within 0 z z) by (intros [| | |]; cbn; try tauto; intros _; rewrite Rminus_diag_eq, Rabs_R0 by auto; lra).
  pose proof (add_within 0 0 _ _ _ _ Sa' Sc' (R0 _ (small_logval _ _ Sa)) (R0 _ (small_logval _ _ Sc))) as W3. rewrite S_INR.
  destruct (real acc) as [b| | |]; try (destruct Sa; fail); destruct (real (x c)) as [d| | |]; try (destruct Sc; fail); cbn [xadd] in W3; destruct (real (fadd acc (x c))) as [q| | |]; cbn in W3 |- *; try tauto.
  cbn in Sa, Sc. apply abs_le_inv in Sa, Sc, W3. apply Rabs_le. lra.
Qed.
End Ops.
