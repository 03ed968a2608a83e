From Coq Require Import Reals Lra.
From Verif Require Import Base Res Arith LogMath LogSpec.
Local Open Scope R_scope.

Lemma ln_div a b : 0 < a -> 0 < b -> ln (a / b) = ln a + - ln b.
Proof.
  intros Ha Hb. unfold Rdiv. pose proof (Rinv_0_lt_compat b Hb). rewrite ln_mult, ln_Rinv; auto.
Qed.

Lemma xln_pos x : 0 < x -> xln x = Fin (ln x).
Proof. intros H. unfold xln. destruct (Rlt_dec 0 x); auto; lra. Qed.
Lemma xln_zero : xln 0 = NInf.
Proof. unfold xln. destruct (Rlt_dec 0 0); auto; lra. Qed.
Lemma xln_nonpos x : x <= 0 -> xln x = NInf.
Proof. intros. unfold xln. destruct (Rlt_dec 0 x); auto; lra. Qed.
Lemma xln_one : xln 1 = Fin 0.
Proof. rewrite xln_pos by lra. rewrite ln_1. reflexivity. Qed.

Lemma lin_xln x : 0 <= x -> lin (xln x) = x.
Proof.
  intros H. unfold xln. destruct (Rlt_dec 0 x); simpl; [apply exp_ln; auto|lra].
Qed.

Lemma xln_lin x : logval x -> xln (lin x) = x.
Proof.
  destruct x; simpl; intros H; try contradiction.
  - rewrite xln_pos by apply exp_pos. rewrite ln_exp. reflexivity.
  - apply xln_zero.
Qed.

Lemma lin_nonneg x : 0 <= lin x.
Proof. destruct x; simpl; try lra. apply Rlt_le, exp_pos. Qed.

Lemma logval_xln x : logval (xln x).
Proof. unfold xln. destruct (Rlt_dec 0 x); exact I. Qed.

Lemma xln_inj x y : 0 <= x -> 0 <= y -> xln x = xln y -> x = y.
Proof. intros Hx Hy E. rewrite <- (lin_xln x), <- (lin_xln y), E; auto. Qed.

Lemma xlog_nonneg x : 0 <= x -> xlog (Fin x) = xln x.
Proof.
  intros H. unfold xln; simpl. destruct (Rlt_dec 0 x); auto. destruct (Rlt_dec x 0); auto; lra.
Qed.

Lemma xadd_xln x y : 0 <= x -> 0 <= y -> xadd (xln x) (xln y) = xln (x * y).
Proof.
  intros Hx Hy. unfold xln at 1 2. destruct (Rlt_dec 0 x), (Rlt_dec 0 y); simpl.
  - rewrite xln_pos by (apply Rmult_lt_0_compat; auto). rewrite ln_mult; auto.
  - replace y with 0 by lra. rewrite Rmult_0_r, xln_zero. auto.
  - replace x with 0 by lra. rewrite Rmult_0_l, xln_zero. auto.
  - replace x with 0 by lra. rewrite Rmult_0_l, xln_zero. auto.
Qed.

Lemma xgt_xln x y : 0 <= x -> 0 <= y -> xgt (xln x) (xln y) = if Rlt_dec y x then true else false.
Proof.
  intros Hx Hy. unfold xln. destruct (Rlt_dec 0 x), (Rlt_dec 0 y); simpl; destruct (Rlt_dec y x); auto; try lra.
  - destruct (Rlt_dec (ln y) (ln x)); auto. exfalso. apply n. apply ln_increasing; auto.
  - destruct (Rlt_dec (ln y) (ln x)); auto. exfalso. apply n. apply ln_lt_inv; auto.
Qed.

Lemma xeq_xln x y : 0 <= x -> 0 <= y -> xeq (xln x) (xln y) = if Req_EM_T x y then true else false.
Proof.
  intros Hx Hy. unfold xln. destruct (Rlt_dec 0 x), (Rlt_dec 0 y); simpl; destruct (Req_EM_T x y); auto; try lra.
  - subst. destruct (Req_EM_T (ln y) (ln y)); auto; congruence.
  - destruct (Req_EM_T (ln x) (ln y)); auto. exfalso. apply n. apply ln_inv; auto.
Qed.

Lemma Rsum_app l1 l2 : Rsum (l1 ++ l2) = Rsum l1 + Rsum l2.
Proof. induction l1; simpl; [lra|]. rewrite IHl1. lra. Qed.
Lemma Rprod_app l1 l2 : Rprod (l1 ++ l2) = Rprod l1 * Rprod l2.
Proof. induction l1; simpl; [lra|]. rewrite IHl1. lra. Qed.

Lemma Rsum_nonneg l : (forall x, In x l -> 0 <= x) -> 0 <= Rsum l.
Proof.
  induction l as [|x l IH]; simpl; intros H; [lra|].
  pose proof (H x (or_introl eq_refl)). specialize (IH ltac:(intros; apply H; auto)). lra.
Qed.

Lemma Rprod_nonneg l : (forall x, In x l -> 0 <= x) -> 0 <= Rprod l.
Proof.
  induction l as [|x l IH]; simpl; intros H; [lra|].
  pose proof (H x (or_introl eq_refl)). specialize (IH ltac:(intros; apply H; auto)).
  apply Rmult_le_pos; auto.
Qed.

Lemma Rsum_ge_elem l x : (forall y, In y l -> 0 <= y) -> In x l -> x <= Rsum l.
Proof.
  induction l as [|y l IH]; simpl; intros H Hx; [destruct Hx|].
  pose proof (Rsum_nonneg l ltac:(intros; apply H; auto)) as HN. 
  destruct Hx as [->|Hx]; [lra|]. specialize (IH ltac:(intros; apply H; auto) Hx).
  pose proof (H y (or_introl eq_refl)). lra.
Qed.

Lemma Rsum_scal c l : Rsum (map (Rmult c) l) = c * Rsum l.
Proof. induction l; simpl; [lra|]. rewrite IHl. lra. Qed.

Lemma Rsum_ext {X} (f g : X -> R) l : (forall x, In x l -> f x = g x) -> Rsum (map f l) = Rsum (map g l).
Proof.
  induction l as [|x l IH]; simpl; intros H; auto. rewrite (H x (or_introl eq_refl)).
  rewrite IH; auto.
Qed.

Lemma Rsum_perm l1 l2 : Permutation l1 l2 -> Rsum l1 = Rsum l2.
Proof. induction 1; simpl; lra. Qed.

Lemma Rsum_le {X} (f g : X -> R) l : (forall x, In x l -> f x <= g x) -> Rsum (map f l) <= Rsum (map g l).
Proof.
  induction l as [|x l IH]; simpl; intros H; [lra|]. pose proof (H x (or_introl eq_refl)).
  specialize (IH ltac:(intros; apply H; auto)). lra.
Qed.

(** The product: log-space additions. *)
Lemma fold_xadd_xln l a : 0 <= a -> (forall x, In x l -> 0 <= x) ->
  fold_left xadd (map xln l) (xln a) = xln (a * Rprod l).
Proof.
  revert a. induction l as [|x l IH]; intros a Ha H; simpl.
  - rewrite Rmult_1_r; auto.
  - pose proof (H x (or_introl eq_refl)). rewrite xadd_xln by auto.
    rewrite IH; [f_equal; ring|apply Rmult_le_pos; auto|intros; apply H; right; auto].
Qed.

(** The maximum found by the first loop of LogSumExp. *)
Definition Rmaxl (l : list R) (a : R) : R := fold_left (fun m v => if Rlt_dec m v then v else m) l a.

Lemma Rmaxl_spec l : forall a, a <= Rmaxl l a /\ (forall x, In x l -> x <= Rmaxl l a) /\ (Rmaxl l a = a \/ In (Rmaxl l a) l).
Proof.
  induction l as [|y l IH]; intros a; simpl.
  - split; [lra|]. split; [intros x []|auto].
  - destruct (IH (if Rlt_dec a y then y else a)) as (H1 & H2 & H3).
    destruct (Rlt_dec a y).
    + split; [lra|]. split; [intros x [<-|Hx]; auto|]. destruct H3 as [->|H3]; auto.
    + split; [lra|]. split; [intros x [<-|Hx]; auto; lra|]. destruct H3 as [->|H3]; auto.
Qed.

Lemma fold_max_xln l a : 0 <= a -> (forall x, In x l -> 0 <= x) ->
  fold_left (fun m v => if xgt v m then v else m) (map xln l) (xln a) = xln (Rmaxl l a).
Proof.
  revert a. induction l as [|x l IH]; intros a Ha H; simpl; auto.
  pose proof (H x (or_introl eq_refl)). rewrite xgt_xln by auto.
  destruct (Rlt_dec a x); apply IH; auto; intros; apply H; right; auto.
Qed.

Lemma fold_exp_sum l m c : 0 < m -> (forall x, In x l -> 0 <= x) ->
  fold_left (fun l v => xadd l (xexp (xsub v (Fin (ln m))))) (map xln l) (Fin c) = Fin (c + Rsum l / m).
Proof.
  intros Hm. revert c. induction l as [|x l IH]; intros c H; simpl.
  - f_equal. unfold Rdiv. lra.
  - pose proof (H x (or_introl eq_refl)) as Hx.
    assert (E : xexp (xsub (xln x) (Fin (ln m))) = Fin (x / m)).
    { unfold xln. destruct (Rlt_dec 0 x); simpl.
      - f_equal. rewrite <- ln_div by auto. rewrite exp_ln; auto. apply Rdiv_lt_0_compat; auto.
      - replace x with 0 by lra. unfold Rdiv. rewrite Rmult_0_l. auto. }
    rewrite E. simpl. rewrite IH by (intros; apply H; right; auto).
    f_equal. field. lra.
Qed.

Lemma fadd_XR x y : @fadd XR x y = xadd x y. Proof. reflexivity. Qed.

(** C34, LogSumExp. *)
Lemma logSumExp_xln l : l <> [] -> (forall x, In x l -> 0 <= x) ->
  @logSumExp XR (map xln l) = Ok (xln (Rsum l)).
Proof.
  intros Hne H. destruct l as [|x l]; [congruence|]. clear Hne.
  unfold logSumExp. change (idx (map xln (x :: l)) 0) with (@Ok xreal (xln x)). cbn [bind].
  change (@fgt XR) with xgt. change (@fisinf XR) with xisinf. change (@fadd XR) with xadd.
  change (@fexp XR) with xexp. change (@fsub XR) with xsub. change (@flog XR) with xlog.
  change (@fz XR 0) with (Fin 0).
  pose proof (H x (or_introl eq_refl)) as Hx.
  rewrite fold_max_xln by auto.
  destruct (Rmaxl_spec (x :: l) x) as (H1 & H2 & H3). set (m := Rmaxl (x :: l) x) in *.
  assert (Hm : In m (x :: l)) by (destruct H3 as [->|H3]; [left; auto|auto]).
  destruct (Rlt_dec 0 m) as [Hp|Hp].
  - rewrite xln_pos by auto. cbn [xisinf]. rewrite fold_exp_sum by auto.
    rewrite Rplus_0_l.
    assert (HS : 0 < Rsum (x :: l)) by (pose proof (Rsum_ge_elem (x :: l) m H Hm); lra).
    f_equal. rewrite xlog_nonneg by (apply Rlt_le, Rdiv_lt_0_compat; auto).
    rewrite <- (xln_pos m) by auto. rewrite xadd_xln by (try lra; apply Rlt_le, Rdiv_lt_0_compat; auto).
    f_equal. field. lra.
  - rewrite xln_nonpos by lra. cbn [xisinf]. f_equal.
    assert (E : forall y, In y (x :: l) -> y = 0) by (intros y Hy; specialize (H y Hy); specialize (H2 y Hy); lra).
    assert (ES : Rsum (x :: l) = 0).
    { clear - E. revert E. generalize (x :: l). intros q. induction q as [|y q IH]; simpl; intros E; auto.
      rewrite (E y (or_introl eq_refl)). rewrite IH; [lra|auto]. }
    rewrite ES, xln_zero. reflexivity.
Qed.

Lemma logSumExp_l (a : list xreal) : a <> [] -> (forall x, In x a -> logval x) ->
  @logSumExp XR a = Ok (xln (Rsum (map lin a))).
Proof.
  intros Hne H. rewrite <- (logSumExp_xln (map lin a)).
  - rewrite map_map. f_equal. rewrite <- (map_id a) at 1. apply map_ext_in. intros x Hx. symmetry. apply xln_lin; auto.
  - destruct a; simpl; congruence.
  - intros x Hx. apply in_map_iff in Hx as (y & <- & _). apply lin_nonneg.
Qed.

Lemma logSumExpPair_l (l r : xreal) : logval l -> logval r ->
  @logSumExpPair XR l r = xln (lin l + lin r).
Proof.
  intros Hl Hr. rewrite <- (xln_lin l Hl), <- (xln_lin r Hr) at 1.
  generalize (lin_nonneg l) (lin_nonneg r). generalize (lin l) (lin r). clear. intros a b Ha Hb.
  unfold logSumExpPair. change (@fge XR) with xge. change (@fisinf XR) with xisinf.
  change (@fadd XR) with xadd. change (@fexp XR) with xexp. change (@fsub XR) with xsub.
  change (@flog XR) with xlog. change (@fz XR 1) with (Fin 1).
  assert (G : forall a b, 0 <= a -> 0 <= b -> b <= a ->
    (if xisinf (xln a) then xln a else if xisinf (xln b) then xln a
     else xadd (xlog (xadd (Fin 1) (xexp (xsub (xln b) (xln a))))) (xln a)) = xln (a + b)).
  { clear. intros a b Ha Hb Hab. destruct (Rlt_dec 0 a).
    - rewrite (xln_pos a) by auto. simpl xisinf at 1. cbv iota.
      destruct (Rlt_dec 0 b).
      + rewrite (xln_pos b) by auto. simpl xisinf. cbv iota. simpl xsub. simpl xexp. simpl (xadd (Fin 1) _).
        rewrite <- ln_div by auto.
        assert (0 < b / a) by (apply Rdiv_lt_0_compat; auto).
        rewrite exp_ln by auto. rewrite xlog_nonneg by lra. rewrite <- (xln_pos a) by auto.
        rewrite xadd_xln by lra. f_equal. field. lra.
      + replace b with 0 by lra. rewrite xln_zero. simpl xisinf. cbv iota.
        rewrite Rplus_0_r. symmetry; apply xln_pos; auto.
    - replace a with 0 by lra. replace b with 0 by lra. rewrite xln_zero. simpl xisinf. cbv iota.
      rewrite Rplus_0_r, xln_zero. reflexivity. }
  unfold xge. rewrite xgt_xln, xeq_xln by auto.
  destruct (Rlt_dec b a); [apply G; lra|].
  destruct (Req_EM_T a b); [apply G; lra|]. simpl. rewrite (Rplus_comm a b). apply G; lra.
Qed.

(** LogProd, LogSum, LogSumPair. *)
Lemma logProd_l (p : list R) : (forall x, In x p -> 0 <= x) ->
  @logProd XR (map Fin p) = xln (Rprod p).
Proof.
  intros H. unfold logProd. change (@fz XR 0) with (Fin 0). rewrite <- xln_one.
  rewrite <- (Rmult_1_l (Rprod p)). assert (H1 : 0 <= 1) by lra. revert H1. generalize 1 as a.
  induction p as [|x p IH]; intros a Ha.
  - simpl. rewrite Rmult_1_r; auto.
  - pose proof (H x (or_introl eq_refl)) as Hx.
    change (@logProd_from XR (xln a) (map Fin (x :: p)))
      with (@logProd_from XR (xadd (xln a) (xlog (Fin x))) (map Fin p)).
    rewrite xlog_nonneg by auto. rewrite xadd_xln by auto. rewrite IH.
    + f_equal. simpl. ring.
    + intros; apply H; right; auto.
    + apply Rmult_le_pos; auto.
Qed.

Lemma logSum_l (p : list R) : (forall x, In x p -> 0 <= x) -> (exists x, In x p /\ 0 < x) ->
  @logSum XR (map Fin p) = xln (Rsum p).
Proof.
  intros H (x0 & Hx0 & Hpos). unfold logSum.
  change (@fgt XR) with xgt. change (@fadd XR) with xadd.
  change (@fexp XR) with xexp. change (@fsub XR) with xsub. change (@flog XR) with xlog.
  change (@fz XR 0) with (Fin 0). change (@fninf XR) with NInf.
  assert (E1 : forall m, 0 <= m -> fold_left (fun pi x => let lp := xlog x in if xgt lp pi then lp else pi)
     (map Fin p) (xln m) = xln (Rmaxl p m)).
  { intros m Hm. rewrite <- fold_max_xln by auto. clear - H. generalize (xln m) as a.
    induction p as [|x p IH]; intros a; [reflexivity|]. cbn [map fold_left].
    rewrite xlog_nonneg by (apply H; left; auto). apply IH. intros; apply H; right; auto. }
  rewrite <- xln_zero. rewrite E1 by lra.
  destruct (Rmaxl_spec p 0) as (H1 & H2 & H3). set (m := Rmaxl p 0) in *.
  assert (Hm : 0 < m) by (specialize (H2 _ Hx0); lra).
  rewrite (xln_pos m) by auto.
  assert (E2 : forall c, fold_left (fun lg x => xadd lg (xexp (xsub (xlog x) (Fin (ln m))))) (map Fin p) (Fin c)
     = Fin (c + Rsum p / m)).
  { intros c. rewrite <- fold_exp_sum by auto. clearbody m. clear - H. generalize (Fin c) as a.
    induction p as [|x p IH]; intros a; [reflexivity|]. cbn [map fold_left].
    rewrite xlog_nonneg by (apply H; left; auto). apply IH. intros; apply H; right; auto. }
  rewrite E2. rewrite Rplus_0_l.
  assert (HS : 0 < Rsum p) by (pose proof (Rsum_ge_elem p x0 H Hx0); lra).
  assert (0 < Rsum p / m) by (apply Rdiv_lt_0_compat; auto).
  rewrite xlog_nonneg by lra. rewrite <- (xln_pos m) by auto. rewrite xadd_xln by lra. f_equal. field. lra.
Qed.

Lemma logSumPair_l p q : 0 < p -> 0 <= q -> @logSumPair XR (Fin p) (Fin q) = xln (p + q).
Proof.
  intros Hp Hq. unfold logSumPair. simpl fdiv. change (@fadd XR) with xadd. change (@flog XR) with xlog.
  change (@fz XR 1) with (Fin 1). destruct (Req_EM_T p 0); [lra|]. simpl (xadd (Fin 1) _).
  assert (0 <= q / p). { apply Rmult_le_pos; auto. apply Rlt_le, Rinv_0_lt_compat; auto. }
  rewrite !xlog_nonneg by lra. rewrite xadd_xln by lra. f_equal. field. lra.
Qed.


(** State of the first loop after the prefix [pre]: the running maximum [mx] in linear space
    (0 when none was taken). *)
Definition lsl1 (s : list Z) (i : nat) (st : xreal * Z * Z) (vi : xreal) : res (xreal * Z * Z) :=
  let '(max, imax, simax) := st in
  si <- idx s i;
  Ok (if andb (negb (si =? 0)%Z) (xgt vi max) then (vi, Z.of_nat i, si) else st).

Lemma lsl1_spec s v : (forall x, In x v -> logval x) -> length s = length v ->
  (forall z, In z s -> signok z) ->
  exists st, foldi (lsl1 s) v (NInf, (-1)%Z, 1%Z) = Ok st /\
    ((st = (NInf, (-1)%Z, 1%Z) /\ forall i vi si, nth_error v i = Some vi -> nth_error s i = Some si ->
        si = 0%Z \/ vi = NInf) \/
     exists p j sj, st = (Fin p, Z.of_nat j, sj) /\ nth_error v j = Some (Fin p) /\ nth_error s j = Some sj /\
        (sj = 1 \/ sj = -1)%Z).
Proof.
  intros Hv Hl Hs.
  assert (G : forall rest pre st, v = pre ++ rest ->
    ((st = (NInf, (-1)%Z, 1%Z) /\ forall i vi si, i < length pre -> nth_error v i = Some vi -> nth_error s i = Some si ->
        si = 0%Z \/ vi = NInf)%nat \/
     exists p j sj, st = (Fin p, Z.of_nat j, sj) /\ nth_error v j = Some (Fin p) /\ nth_error s j = Some sj /\
        (sj = 1 \/ sj = -1)%Z) ->
    exists st', foldi_from (length pre) (lsl1 s) rest st = Ok st' /\
      ((st' = (NInf, (-1)%Z, 1%Z) /\ forall i vi si, nth_error v i = Some vi -> nth_error s i = Some si ->
        si = 0%Z \/ vi = NInf) \/
     exists p j sj, st' = (Fin p, Z.of_nat j, sj) /\ nth_error v j = Some (Fin p) /\ nth_error s j = Some sj /\
        (sj = 1 \/ sj = -1)%Z)).
  { induction rest as [|x rest IH]; intros pre st E Hst.
    - exists st. split; auto. destruct Hst as [[H1 H2]|H]; auto. left. split; auto.
      intros i vi si Hi. apply H2; auto. rewrite app_nil_r in E. subst.
      assert (nth_error pre i <> None) by congruence. apply nth_error_Some in H. auto.
    - simpl foldi_from. unfold lsl1 at 1. destruct st as [[mx im] sm].
      assert (Hpl : (length pre < length s)%nat) by (rewrite Hl, E, app_length; simpl; lia).
      destruct (nth_error s (length pre)) as [si|] eqn:Es.
      2:{ apply nth_error_None in Es. lia. }
      unfold idx. rewrite Es. simpl bind.
      assert (Hxv : nth_error v (length pre) = Some x).
      { rewrite E, nth_error_app2 by lia. rewrite Nat.sub_diag. reflexivity. }
      assert (Hx : logval x) by (apply Hv; rewrite E; apply in_or_app; simpl; auto).
      assert (Hsi : signok si) by (apply Hs; eapply nth_error_In; eauto).
      replace (length pre + 1)%nat with (length (pre ++ [x])) by (rewrite app_length; simpl; lia).
      apply IH. { rewrite <- app_assoc. auto. }
      destruct (Z.eqb_spec si 0) as [->|Hne]; simpl.
      + destruct Hst as [[H1 H2]|H]; auto. left. split; auto. intros i vi si Hi Hi1 Hi2.
        rewrite app_length in Hi. simpl in Hi.
        destruct (Nat.eq_dec i (length pre)) as [->|Hd]; [left; congruence|]. eapply H2; eauto. lia.
      + destruct (xgt x mx) eqn:Eg.
        * right. destruct x as [p| | |]; simpl in Hx; try contradiction.
          -- exists p, (length pre), si. repeat split; auto. destruct Hsi as [|[|]]; auto; lia.
          -- destruct mx; discriminate.
        * destruct Hst as [[H1 H2]|H]; auto. left. split; auto. intros i vi si' Hi Hi1 Hi2.
          rewrite app_length in Hi. simpl in Hi.
          destruct (Nat.eq_dec i (length pre)) as [->|Hd].
          -- right. injection H1 as -> _ _. rewrite Hxv in Hi1. injection Hi1 as <-.
             destruct x; simpl in *; try contradiction; auto. discriminate.
          -- eapply H2; eauto. lia. }
  apply (G v [] (NInf, (-1)%Z, 1%Z)); auto. left. split; auto. intros i vi si Hi. simpl in Hi; lia.
Qed.

Lemma signed_sum_zero v : forall s, (forall i vi si, nth_error v i = Some vi -> nth_error s i = Some si ->
  si = 0%Z \/ vi = NInf) -> signed_sum v s = 0.
Proof.
  induction v as [|x v IH]; intros [|z s] H; simpl; auto.
  rewrite IH by (intros i; apply (H (S i))).
  destruct (H 0%nat x z eq_refl eq_refl) as [-> | ->]; simpl; lra.
Qed.

(** The second loop: everything but position [j]. *)
Definition lsl2 (s : list Z) (p : xreal) (im sm : Z) (i : nat) (r vi : xreal) : res xreal :=
  si <- idx s i;
  Ok (if andb (negb (Z.of_nat i =? im)%Z) (negb (si =? 0)%Z)
      then xadd r (xmul (xmul (xexp (xsub vi p)) (Fin (IZR si))) (Fin (IZR sm))) else r).

(** The signed sum without position [j - o]. *)
Fixpoint others (o : nat) (j : nat) (v : list xreal) (s : list Z) : R :=
  match v, s with
  | x :: v', z :: s' => (if Nat.eqb o j then 0 else IZR z * lin x) + others (S o) j v' s'
  | _, _ => 0
  end.

Lemma others_far v : forall s o j, (j < o)%nat -> others o j v s = signed_sum v s.
Proof.
  induction v as [|x v IH]; intros [|z s] o j H; simpl; auto.
  destruct (Nat.eqb_spec o j); [lia|]. rewrite IH by lia. auto.
Qed.

Lemma others_split v : forall s o j x z, nth_error v j = Some x -> nth_error s j = Some z ->
  signed_sum v s = IZR z * lin x + others o (o + j) v s.
Proof.
  induction v as [|y v IH]; intros [|w s] o j x z Hv Hz; destruct j as [|j]; simpl in *; try discriminate.
  - injection Hv as ->. injection Hz as ->. rewrite Nat.add_0_r, Nat.eqb_refl.
    rewrite others_far by lia. lra.
  - destruct (Nat.eqb_spec o (o + S j)); [lia|].
    rewrite (IH s (S o) j x z) by auto. replace (S o + j)%nat with (o + S j)%nat by lia. lra.
Qed.

Lemma lsl2_spec s0 p j sm v : forall s o r, (forall x, In x v -> logval x) -> length s = length v ->
  (forall i, nth_error s0 (o + i) = nth_error s i) ->
  foldi_from o (lsl2 s0 (Fin p) (Z.of_nat j) sm) v (Fin r) =
  Ok (Fin (r + others o j v s * / exp p * IZR sm)).
Proof.
  induction v as [|x v IH]; intros [|z s] o r Hv Hl Hs0; simpl in Hl; try discriminate.
  - simpl. f_equal. f_equal. lra.
  - simpl foldi_from. unfold lsl2 at 1. unfold idx.
    specialize (Hs0 0%nat) as E. rewrite Nat.add_0_r in E. simpl in E. rewrite E. simpl bind.
    assert (Hx : logval x) by (apply Hv; left; auto).
    assert (EX : xexp (xsub x (Fin p)) = Fin (lin x * / exp p)).
    { destruct x; simpl in Hx; try contradiction; simpl.
      - rewrite exp_plus, exp_Ropp. auto.
      - f_equal. lra. }
    assert (S1 : forall i, nth_error s0 (o + 1 + i) = nth_error s i).
    { intros i. specialize (Hs0 (S i)). simpl in Hs0. rewrite <- Hs0. f_equal. lia. }
    assert (Hv' : forall x, In x v -> logval x) by (intros; apply Hv; right; auto).
    destruct (Nat.eqb_spec o j) as [->|Hd].
    + rewrite Z.eqb_refl. cbn [negb andb]. cbn [bind]. rewrite (IH s) by (auto; lia).
      simpl. rewrite Nat.eqb_refl. replace (j + 1)%nat with (S j) by lia. f_equal. f_equal. lra.
    + destruct (Z.eqb_spec (Z.of_nat o) (Z.of_nat j)); [lia|]. cbn [negb andb].
      simpl others. destruct (Nat.eqb_spec o j); [lia|]. replace (S o) with (o + 1)%nat by lia.
      destruct (Z.eqb_spec z 0) as [->|Hz]; cbn [negb bind].
      * rewrite (IH s) by (auto; lia). f_equal. f_equal. lra.
      * rewrite EX. cbn [xmul xadd]. rewrite (IH s) by (auto; lia). f_equal. f_equal. ring.
Qed.

Lemma logSumLog_l (v : list xreal) (s : list Z) :
  (forall x, In x v -> logval x) -> length s = length v ->
  (forall z, In z s -> signok z) ->
  exists l sg, @logSumLog XR v s = Ok (l, sg) /\ logval l /\ signok sg /\
    IZR sg * lin l = signed_sum v s.
Proof.
  intros Hv Hl Hs.
  destruct (lsl1_spec s v Hv Hl Hs) as (st & E1 & Hst).
  unfold logSumLog.
  change (foldi _ v (fninf, (-1)%Z, 1%Z)) with (foldi (lsl1 s) v (NInf, (-1)%Z, 1%Z)). rewrite E1.
  cbn [bind]. destruct Hst as [[-> HZ]|(p & j & sj & -> & Hvj & Hsj & Hsg)].
  - simpl. exists (Fin 0), 0%Z. split; auto. split; [exact Logic.I|]. split; [right; left; auto|].
    rewrite signed_sum_zero; auto. lra.
  - destruct (Z.eqb_spec (Z.of_nat j) (-1)); [lia|].
    change (foldi _ v (fz 0)) with (foldi (lsl2 s (Fin p) (Z.of_nat j) sj) v (Fin 0)).
    unfold foldi. rewrite (lsl2_spec s p j sj v s 0 0 Hv Hl ltac:(reflexivity)). cbn [bind].
    rewrite Rplus_0_l. set (r := others 0 j v s * / exp p * IZR sj).
    pose proof (others_split v s 0 j _ _ Hvj Hsj) as HT. simpl (0 + j)%nat in HT. simpl lin in HT.
    pose proof (exp_pos p) as Hp.
    assert (Hs2 : IZR sj * IZR sj = 1) by (destruct Hsg as [-> | ->]; lra).
    assert (HT2 : signed_sum v s = IZR sj * (exp p * (1 + r))).
    { rewrite HT. unfold r.
      replace (IZR sj * (exp p * (1 + others 0 j v s * / exp p * IZR sj)))
        with (IZR sj * exp p + (exp p * / exp p) * others 0 j v s * (IZR sj * IZR sj)) by ring.
      rewrite Hs2. rewrite Rinv_r by lra. ring. }
    change (@fgt XR (fz (-1)) (Fin r)) with (if Rlt_dec r (-1) then true else false).
    assert (HF : Fin p = xln (exp p)) by (rewrite xln_pos by auto; rewrite ln_exp; auto).
    destruct (Rlt_dec r (-1)) as [Hr|Hr].
    + exists (xln (exp p * (-1 - r))), (- sj)%Z.
      split; [|split; [apply logval_xln|split; [destruct Hsg as [-> | ->]; unfold signok; simpl; auto|]]].
      * f_equal. f_equal.
        change (xadd (Fin p) (xlog (xsub (Fin (IZR (-1))) (Fin r))) = xln (exp p * (-1 - r))).
        simpl xsub. rewrite xlog_nonneg by lra. rewrite HF. rewrite xadd_xln by lra. f_equal.
      * rewrite lin_xln by (apply Rmult_le_pos; lra). rewrite HT2, opp_IZR. ring.
    + exists (xln (exp p * (1 + r))), sj.
      split; [|split; [apply logval_xln|split; [destruct Hsg as [-> | ->]; unfold signok; simpl; auto|]]].
      * f_equal. f_equal.
        change (xadd (Fin p) (xlog (Fin (1 + r))) = xln (exp p * (1 + r))).
        rewrite xlog_nonneg by lra. rewrite HF. rewrite xadd_xln by lra. f_equal.
      * rewrite lin_xln by (apply Rmult_le_pos; lra). rewrite HT2. ring.
Qed.

(** C35 *)
Lemma trim_loop_l {A : arith} (c : F A) k : forall a1 a2, length a1 = k ->
  (forall x, In x a2 -> feq x c = false) ->
  exists a', trim_loop k (a1 ++ a2) c = Ok a' /\
    Permutation a' (filter (fun x => negb (feq x c)) a1 ++ a2).
Proof.
  induction k as [|k IH]; intros a1 a2 Hk H2.
  - destruct a1; [|discriminate]. simpl. eauto.
  - destruct (@exists_last _ a1) as (b & x & ->). { destruct a1; [discriminate|congruence]. }
    rewrite app_length in Hk. simpl in Hk. assert (Hb : length b = k) by lia.
    simpl trim_loop. unfold idx at 1. rewrite <- app_assoc. simpl app.
    rewrite nth_error_app2 by lia. rewrite Hb, Nat.sub_diag. simpl nth_error. cbn [bind].
    rewrite filter_app. simpl filter. destruct (feq x c) eqn:Ex; cbn [negb].
    + destruct a2 as [|y a2 _] using rev_ind.
      * (* the element is the last one *)
        rewrite app_length. simpl length. replace (length b + 1 - 1)%nat with k by lia.
        unfold idx. rewrite nth_error_app2 by lia. rewrite Hb, Nat.sub_diag. simpl nth_error. cbn [bind].
        assert (E : forall z : F A, set_nth k z (b ++ [x]) = b ++ [z]).
        { intros z. rewrite <- Hb. clear. induction b; simpl; auto. f_equal; auto. }
        rewrite E. assert (E' : set_nth k x (b ++ [x]) = b ++ [x]) by apply E. 
        replace (firstn k (set_nth k x (b ++ [x]))) with b.
        2:{ rewrite E. rewrite <- Hb. rewrite firstn_app, Nat.sub_diag, firstn_all. simpl. rewrite app_nil_r. auto. }
        destruct (IH b [] Hb ltac:(intros ? [])) as (a' & E1 & P). rewrite app_nil_r in E1.
        exists a'. split; auto. rewrite !app_nil_r in *. auto.
      * rewrite !app_length. simpl length. rewrite app_length. simpl length.
        set (n := (length b + S (length a2 + 1) - 1)%nat).
        assert (Hn : n = (length (b ++ x :: a2))%nat) by (subst n; rewrite app_length; simpl; lia).
        assert (Hnl : nth_error (b ++ x :: a2 ++ [y]) n = Some y).
        { replace (b ++ x :: a2 ++ [y]) with ((b ++ x :: a2) ++ [y]) by (rewrite <- app_assoc; auto).
          rewrite nth_error_app2 by lia. rewrite Hn, Nat.sub_diag. auto. }
        unfold idx. rewrite Hnl. cbn [bind].
        assert (E : firstn n (set_nth k y (set_nth n x (b ++ x :: a2 ++ [y]))) = b ++ y :: a2).
        { replace (b ++ x :: a2 ++ [y]) with ((b ++ x :: a2) ++ [y]) by (rewrite <- app_assoc; auto).
          assert (E1 : forall l (u w : F A), set_nth (length l) u (l ++ [w]) = l ++ [u]).
          { clear. induction l; intros; simpl; auto. f_equal; auto. }
          rewrite Hn, E1.
          assert (E2 : set_nth k y ((b ++ x :: a2) ++ [x]) = (b ++ y :: a2) ++ [x]).
          { rewrite <- !app_assoc. rewrite <- Hb. clear. induction b; simpl; auto. f_equal; auto. }
          rewrite E2. replace (length (b ++ x :: a2)) with (length (b ++ y :: a2)) by (rewrite !app_length; auto).
          rewrite firstn_app, Nat.sub_diag, firstn_all. simpl. apply app_nil_r. }
        rewrite E.
        destruct (IH b (y :: a2) Hb) as (a' & E1 & P).
        { intros z [<-|Hz]; apply H2; apply in_or_app; simpl; auto. }
        exists a'. split; auto. rewrite P. rewrite app_nil_r. apply Permutation_app_head.
        apply Permutation_cons_append.
    + destruct (IH b (x :: a2) Hb) as (a' & E1 & P).
      { intros z [<-|Hz]; auto. }
      exists a'. split; auto. rewrite P. rewrite <- app_assoc. simpl. auto.
Qed.

Lemma trim_l {A : arith} (a : list (F A)) (c : F A) :
  exists a', trim a c = Ok a' /\ Permutation a' (filter (fun x => negb (feq x c)) a).
Proof.
  destruct (trim_loop_l c (length a) a [] eq_refl ltac:(intros ? [])) as (a' & E & P).
  rewrite app_nil_r in *. eauto.
Qed.

Lemma logSum_zeros_l : forall n, @logSum XR (map Fin (repeat 0 (S n))) = NaN.
Proof.
  intros n. unfold logSum.
  change (@fgt XR) with xgt. change (@fadd XR) with xadd.
  change (@fexp XR) with xexp. change (@fsub XR) with xsub. change (@flog XR) with xlog.
  change (@fz XR 0) with (Fin 0). change (@fninf XR) with NInf.
  assert (E0 : xlog (Fin 0) = NInf) by (rewrite xlog_nonneg by lra; apply xln_zero).
  assert (E1 : forall k, fold_left (fun pi x => let lp := xlog x in if xgt lp pi then lp else pi)
     (map Fin (repeat 0 k)) NInf = NInf).
  { induction k as [|k IH]; [reflexivity|]. cbn [repeat map fold_left]. rewrite E0. apply IH. }
  rewrite E1.
  assert (E2 : forall k, fold_left (fun lg x => xadd lg (xexp (xsub (xlog x) NInf))) (map Fin (repeat 0 k)) NaN = NaN).
  { induction k as [|k IH]; [reflexivity|]. cbn [repeat map fold_left]. apply IH. }
  cbn [repeat map fold_left]. rewrite E0. simpl (xadd (Fin 0) _). rewrite E2. reflexivity.
Qed.

Lemma logSumPair_zero_l q : 0 < q -> @logSumPair XR (Fin 0) (Fin q) = NaN.
Proof.
  intros Hq. unfold logSumPair. simpl fdiv. change (@fadd XR) with xadd. change (@flog XR) with xlog.
  destruct (Req_EM_T 0 0); [|congruence]. unfold xsign. destruct (Rlt_dec 0 q); [|contradiction].
  rewrite xlog_nonneg by lra. rewrite xln_zero. reflexivity.
Qed.

Lemma log_sum_exp_case_l : @logSumExp XR [Fin (ln 2); NInf; Fin (ln 3)] = Ok (Fin (ln 5)).
Proof.
  rewrite logSumExp_l.
  - f_equal. simpl. rewrite !exp_ln by lra. replace (2 + (0 + (3 + 0))) with 5 by lra. apply xln_pos. lra.
  - discriminate.
  - simpl. intros x [<-|[<-|[<-|[]]]]; exact Logic.I.
Qed.

Lemma log_sum_log_case_l :
  let v := [Fin (ln 2); Fin (ln 5); NInf] in let s := [1; -1; 1]%Z in
  (forall x, In x v -> logval x) /\ (forall z, In z s -> signok z) /\ signed_sum v s = -3.
Proof.
  split; [simpl; intros x [<-|[<-|[<-|[]]]]; exact Logic.I|].
  split; [simpl; unfold signok; intros z [<-|[<-|[<-|[]]]]; auto|].
  simpl. rewrite !exp_ln by lra. lra.
Qed.
