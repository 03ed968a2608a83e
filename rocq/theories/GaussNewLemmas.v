From Coq Require Import Reals Lra.
From Verif Require Import Base Res Arith LogSpec LogLemmas Stats StatsSpec StatsLemmas GaussNew GaussNewSpec.
Local Open Scope R_scope.

Lemma fin_fold (g : R -> R) (h : xreal -> xreal) l : (forall x, h (Fin x) = Fin (g x)) -> forall a,
  fold_left (fun s x => xadd s (h x)) (map Fin l) (Fin a) = Fin (a + Rsum (map g l)).
Proof.
  intros H. induction l as [|x l IH]; intros a; cbn [fold_left map Rsum]; [f_equal; lra|]. rewrite H. cbn [xadd]. rewrite IH. f_equal. lra.
Qed.

Lemma raw_l l : l <> [] -> @newGaussianRaw XR (map Fin l) = (Fin (mean_of l), Fin (sd_of l)).
Proof.
  intros Hl. assert (Hn : 0 < INR (length l)) by (apply lt_0_INR; destruct l; [congruence|simpl; lia]).
  unfold newGaussianRaw. cbv zeta. rewrite map_length.
  assert (HN : @fz XR (Z.of_nat (length l)) = Fin (INR (length l))) by (simpl; rewrite <- INR_IZR_INZ; auto).
  rewrite HN.
  assert (HM : @fdiv XR (fold_left (@fadd XR) (map Fin l) (@fz XR 0)) (Fin (INR (length l))) = Fin (mean_of l)).
  { change (xdiv (fold_left (fun s x => xadd s ((fun y => y) x)) (map Fin l) (Fin 0)) (Fin (INR (length l))) = Fin (mean_of l)).
    rewrite (fin_fold (fun x => x)) by auto. cbn [xdiv]. destruct (Req_EM_T (INR (length l)) 0); [lra|].
    rewrite map_id, Rplus_0_l. reflexivity. }
  rewrite HM. apply f_equal2; auto.
  change (xsqrt (xdiv (fold_left (fun s x => xadd s ((fun v => xmul (xsub v (Fin (mean_of l))) (xsub v (Fin (mean_of l)))) x)) (map Fin l) (Fin 0))
    (Fin (INR (length l)))) = Fin (sd_of l)).
  rewrite (fin_fold (fun x => (x - mean_of l) * (x - mean_of l))) by reflexivity.
  cbn [xdiv]. destruct (Req_EM_T (INR (length l)) 0); [lra|]. cbn [xsqrt]. rewrite Rplus_0_l.
  destruct (Rlt_dec _ 0) as [Hneg|]; auto. exfalso. revert Hneg. apply Rle_not_lt.
  apply Rmult_le_pos; [|left; apply Rinv_0_lt_compat; auto]. apply Rsum_nonneg. intros y Hy.
  apply in_map_iff in Hy as (z & <- & _). apply Rle_0_sqr.
Qed.

Lemma raw_empty_l : @newGaussianRaw XR [] = (NaN, NaN).
Proof.
  unfold newGaussianRaw. simpl. destruct (Req_EM_T 0 0); [|lra]. unfold xsign. destruct (Rlt_dec 0 0); [lra|]. reflexivity.
Qed.

Lemma count_musigma (A : arith) c : @newGaussian A c = @histMuSigma A c.
Proof. reflexivity. Qed.

Lemma mean_sample l : mean_of (map IZR l) = sample_mean l.
Proof. unfold mean_of, sample_mean. rewrite map_length. reflexivity. Qed.
Lemma sd_sample l : sd_of (map IZR l) = sample_sd l.
Proof. unfold sd_of, sample_sd. rewrite mean_sample, map_length, map_map. reflexivity. Qed.

Lemma sample_nonempty c : (forall n, In n c -> (0 <= n)%Z) -> (exists n, In n c /\ (0 < n)%Z) -> sample_of c <> [].
Proof.
  intros H (n & Hn & Hp). unfold sample_of. generalize 0%Z at 1. revert Hn. induction c as [|x c IH]; intros Hn i; [destruct Hn|].
  cbn [sample_from]. destruct Hn as [->|Hn].
  - destruct (Z.to_nat n) eqn:E; [lia|]. discriminate.
  - intros E. apply app_eq_nil in E as (_ & E). revert E. apply IH; auto. intros m Hm. apply H. right; auto.
Qed.

Lemma counts_l c : (forall n, In n c -> (0 <= n)%Z) -> (exists n, In n c /\ (0 < n)%Z) ->
  @newGaussian XR c = (Fin (mean_of (map IZR (sample_of c))), Fin (sd_of (map IZR (sample_of c)))) /\
  @newGaussian XR c = @newGaussianRaw XR (map (fun z => Fin (IZR z)) (sample_of c)).
Proof.
  intros H Hp. destruct (histogram_l c H Hp) as (_ & _ & E).
  assert (G : @newGaussian XR c = (Fin (mean_of (map IZR (sample_of c))), Fin (sd_of (map IZR (sample_of c))))).
  { rewrite count_musigma, mean_sample, sd_sample. exact E. }
  split; auto. rewrite G. rewrite <- (map_map IZR Fin). rewrite raw_l; auto.
  intros Em. apply map_eq_nil in Em. revert Em. apply sample_nonempty; auto.
Qed.

Lemma mode_l c : (forall n, In n c -> (0 <= n)%Z) -> (exists n, In n c /\ (0 < n)%Z) ->
  @newGaussianMode XR c = (Fin 0, Fin (sd_of (map IZR (sample_of c)))).
Proof.
  intros H Hp. destruct (counts_l c H Hp) as (E & _). unfold newGaussian in E. unfold newGaussianMode. cbv zeta in *. injection E as _ E.
  apply f_equal2; [reflexivity|exact E].
Qed.

Lemma mode_iff_l c : (forall n, In n c -> (0 <= n)%Z) -> (exists n, In n c /\ (0 < n)%Z) ->
  (exists m, mode_of c m /\ fst (@newGaussianMode XR c) = Fin (INR m)) <-> mode_of c 0.
Proof.
  intros H Hp. rewrite (mode_l c H Hp). cbn [fst]. split.
  - intros (m & Hm & E). injection E as E. destruct m; auto. exfalso. symmetry in E. revert E. apply not_0_INR. lia.
  - intros H0. exists 0%nat. split; auto.
Qed.

Lemma mode_refuted_l : exists c, (forall n, In n c -> (0 <= n)%Z) /\ (exists n, In n c /\ (0 < n)%Z) /\
  mode_of c 2 /\ (forall m, mode_of c m -> m = 2%nat) /\ fst (@newGaussianMode XR c) = Fin 0.
Proof.
  exists [1; 2; 7; 3]%Z. split; [simpl; intuition lia|]. split; [exists 7%Z; simpl; intuition lia|]. split.
  - exists 7%Z. split; auto. simpl. intuition lia.
  - split; [|reflexivity]. intros m (k & Hk & Hmax). pose proof (Hmax 7%Z ltac:(simpl; auto)) as H7.
    destruct m as [|[|[|[|m]]]]; simpl in Hk; try (injection Hk as <-; lia); auto. destruct m; discriminate.
Qed.

(** ComputeHard. *)
Lemma hardMax_run w n : forall k best, (n + k <= length w)%nat -> (0 < k \/ best <> None)%nat ->
  (forall m, best = Some m -> exists r, m = Fin r) -> (forall x, In x w -> exists r, x = Fin r) ->
  exists r, foldi_from n (fun i (best : option (F XR)) (_ : unit) =>
           wi <- idx w i;
           Ok (match best with None => Some wi | Some m => if @fgt XR wi m then Some wi else Some m end)) (repeat tt k) best = Ok (Some (Fin r)).
Proof.
  intros k. revert n. induction k as [|k IH]; intros n best Hk Hb Hbest Hw; cbn [repeat foldi_from].
  - destruct Hb as [|Hb]; [lia|]. destruct best as [m|]; [|congruence]. destruct (Hbest m eq_refl) as (r & ->). exists r. reflexivity.
  - unfold idx. destruct (nth_error w n) as [wi|] eqn:E; [|apply nth_error_None in E; lia]. cbn [bind].
    destruct (Hw wi (nth_error_In _ _ E)) as (r & ->).
    apply IH; auto; [lia|right; destruct best; [destruct (@fgt XR _ _)|]; discriminate|].
    intros m Em. destruct best as [m0|].
    + destruct (@fgt XR (Fin r) m0); injection Em as <-; [exists r; auto|apply Hbest; auto].
    + injection Em as <-. exists r; auto.
Qed.

Lemma dot_fold max : forall cv w pre a, (forall x, In x cv -> logval x) ->  (length cv <= length w)%nat ->
  foldi_from (length pre) (fun i v c => wi <- idx (map Fin (pre ++ w)) i; Ok (@fadd XR v (@fmul XR wi (@fexp XR (@fsub XR c (Fin max)))))) cv (Fin a) =
  Ok (Fin (a + exp (- max) * dot w (map lin cv))).
Proof.
  induction cv as [|c cv IH]; intros w pre a Hl Hlen; cbn [foldi_from map dot].
  - destruct w; cbn [dot]; do 2 f_equal; lra.
  - destruct w as [|x w]; [simpl in Hlen; lia|]. cbn [dot].
    unfold idx at 1. rewrite map_app, nth_error_app2, map_length, Nat.sub_diag by (rewrite map_length; auto). cbn [map nth_error bind].
    assert (E : @fadd XR (Fin a) (@fmul XR (Fin x) (@fexp XR (@fsub XR c (Fin max)))) = Fin (a + x * (exp (- max) * lin c))).
    { pose proof (Hl c (or_introl eq_refl)) as Hc. destruct c as [r| | |]; try destruct Hc; simpl.
      - f_equal. f_equal. f_equal. rewrite <- exp_plus. f_equal. lra.
      - f_equal. f_equal. lra. }
    rewrite E.
    replace (length pre + 1)%nat with (length (pre ++ [x])) by (rewrite app_length; reflexivity) || idtac.
    replace (S (length pre)) with (length (pre ++ [x])) by (rewrite app_length; simpl; lia) || idtac.
    replace (map Fin pre ++ Fin x :: map Fin w) with (map Fin ((pre ++ [x]) ++ w)) by (rewrite <- app_assoc, map_app; reflexivity).
    rewrite IH; [|intros y Hy; apply Hl; right; auto|simpl in Hlen; lia]. do 2 f_equal. lra.
Qed.

Lemma dot_nonneg w : (forall x, In x w -> 0 <= x) -> forall x, (forall y, In y x -> 0 <= y) -> 0 <= dot w x.
Proof.
  induction w as [|a w IH]; intros Hw [|b x] Hx; cbn [dot]; try lra.
  pose proof (Hw a (or_introl eq_refl)). pose proof (Hx b (or_introl eq_refl)).
  pose proof (IH ltac:(intros; apply Hw; right; auto) x ltac:(intros; apply Hx; right; auto)). nra.
Qed.

Lemma computeHard_l w nch cv scount : (0 < nch <= length w)%nat -> (length cv <= length w)%nat ->
  (forall x, In x w -> 0 <= x) -> (forall x, In x cv -> logval x) -> 0 < scount ->
  @computeHard XR (map Fin w) nch cv (Fin scount) = Ok (xln (dot w (map lin cv) / scount)).
Proof.
  intros Hn Hlen Hw Hc Hs. unfold computeHard, hardMax, foldi.
  destruct (hardMax_run (map Fin w) 0 nch None) as (m & E); [rewrite map_length; lia|left; lia|discriminate|intros x Hx; apply in_map_iff in Hx as (r & <- & _); exists r; auto|].
  match type of E with ?L = _ => match goal with |- bind ?L' _ = _ => change L' with L end end.
  rewrite E. cbn [bind]. pose proof (dot_fold m cv w [] 0 Hc Hlen) as Ed. cbn [length app] in Ed.
  match type of Ed with ?L = _ => match goal with |- context [bind ?L' _] => change L' with L end end.
  rewrite Ed. cbn [bind]. f_equal. rewrite Rplus_0_l.
  assert (Hd : 0 <= dot w (map lin cv)) by (apply dot_nonneg; auto; intros y Hy; apply in_map_iff in Hy as (z & <- & _); apply lin_nonneg).
  assert (He : 0 < exp (- m)) by apply exp_pos.
  change (xadd (xlog (xdiv (Fin (exp (- m) * dot w (map lin cv))) (Fin scount))) (Fin m) = xln (dot w (map lin cv) / scount)).
  cbn [xdiv]. destruct (Req_EM_T scount 0); [lra|]. rewrite xlog_nonneg by (apply Rmult_le_pos; [nra|left; apply Rinv_0_lt_compat; auto]).
  destruct (Req_dec (dot w (map lin cv)) 0) as [Z|NZ].
  - rewrite Z. rewrite !xln_nonpos by (unfold Rdiv; nra). reflexivity.
  - assert (0 < dot w (map lin cv) / scount) by (apply Rdiv_lt_0_compat; lra).
    replace (exp (- m) * dot w (map lin cv) / scount) with (exp (- m) * (dot w (map lin cv) / scount)) by (field; lra).
    rewrite !xln_pos by (auto; apply Rmult_lt_0_compat; auto). cbn [xadd]. f_equal.
    rewrite ln_mult by auto. rewrite ln_exp. lra.
Qed.

Lemma computeHard_childless_l (A : arith) w cv (scount : F A) : computeHard w 0 cv scount = Ok fninf.
Proof. reflexivity. Qed.

Lemma computeHard_case_l : @computeHard XR (map Fin [3; 1]) 2 [Fin (ln 2); NInf] (Fin 4) = Ok (Fin (ln (3 / 2))).
Proof.
  rewrite computeHard_l; simpl; try lia; try lra.
  - f_equal. replace ((3 * exp (ln 2) + (1 * 0 + 0)) / 4) with (3 / 2) by (rewrite exp_ln by lra; lra). apply xln_pos. lra.
  - intros x [<-|[<-|[]]]; lra.
  - intros x [<-|[<-|[]]]; simpl; auto.
Qed.

Lemma wsum_dot (g : Z -> R) : forall c i, wsum g (Z.of_nat i) c = dot (map IZR c) (map (fun j => g (Z.of_nat j)) (seq i (length c))).
Proof.
  induction c as [|n c IH]; intros i; cbn [wsum map length seq dot]; auto.
  rewrite <- IH. rewrite Nat2Z.inj_succ. unfold Z.succ. reflexivity.
Qed.

Lemma total_sum c : IZR (total c) = Rsum (map IZR c).
Proof.
  unfold total. assert (G : forall c a, IZR (fold_left Z.add c a) = IZR a + Rsum (map IZR c)).
  { clear. induction c as [|x c IH]; intros a; cbn [fold_left map Rsum]; [lra|]. rewrite IH, plus_IZR. lra. }
  rewrite G. lra.
Qed.

Lemma fit_l fit c : fits_weighted fit -> (forall n, In n c -> (0 <= n)%Z) -> (exists n, In n c /\ (0 < n)%Z) ->
  @newGaussianFit XR fit (map (fun n => Fin (IZR n)) c) = @newGaussian XR c.
Proof.
  intros Hfit H Hp. destruct (counts_l c H Hp) as (E & _). rewrite E. unfold newGaussianFit. rewrite map_length.
  assert (Hx : map (fun i => @fz XR (Z.of_nat i)) (seq 0 (length c)) = map Fin (map (fun i => IZR (Z.of_nat i)) (seq 0 (length c)))) by (rewrite map_map; reflexivity).
  rewrite <- (map_map IZR Fin c).
  assert (HT : 0 < IZR (total c)).
  { rewrite <- sample_length by auto. apply lt_0_INR. pose proof (sample_nonempty c H Hp). destruct (sample_of c); [congruence|simpl; lia]. }
  etransitivity; [exact (f_equal (fun v => fit v (map Fin (map IZR c))) Hx)|].
  rewrite Hfit; [|rewrite !map_length, seq_length; auto|intros r Hr; apply in_map_iff in Hr as (z & <- & Hz); apply IZR_le; auto|rewrite <- total_sum; auto].
  assert (HM : weighted_mean (map (fun i => IZR (Z.of_nat i)) (seq 0 (length c))) (map IZR c) = mean_of (map IZR (sample_of c))).
  { unfold weighted_mean, mean_of. rewrite <- total_sum, map_length, sample_length by auto. f_equal.
    unfold sample_of. rewrite sample_wsum by auto. symmetry. exact (wsum_dot IZR c 0). }
  apply f_equal2; f_equal; [exact HM|]. unfold weighted_sd, sd_of. rewrite HM. set (mu := mean_of _).
  f_equal. rewrite <- total_sum, map_length, sample_length by auto. f_equal. rewrite !map_map.
  unfold sample_of. rewrite sample_wsum by auto. symmetry. exact (wsum_dot (fun z => (IZR z - mu) * (IZR z - mu)) c 0).
Qed.

Lemma computeHard_underflow_l : exists w : R, 0 < w /\
  @computeHard XR [Fin w] 1 [Fin 0] (Fin w) = Ok (Fin 0) /\ @computeHard UR [Fin w] 1 [Fin 0] (Fin w) = Ok NInf.
Proof.
  exists 1000. split; [lra|]. split.
  - pose proof (computeHard_l [1000] 1 [Fin 0] 1000) as E. cbn [map] in E. rewrite E; simpl; try lia; try lra.
    + rewrite exp_0. replace ((1000 * 1 + 0) / 1000) with 1 by field. rewrite xln_one. reflexivity.
    + intros x [<-|[]]; lra.
    + intros x [<-|[]]; simpl; auto.
  - unfold computeHard, hardMax, foldi. simpl. destruct (Rlt_dec (0 + - (1000)) (-746)); [|lra]. simpl.
    destruct (Req_EM_T 1000 0); [lra|]. unfold xlog. replace ((0 + 1000 * 0) / 1000) with 0 by field.
    destruct (Rlt_dec 0 0); [lra|]. reflexivity.
Qed.
