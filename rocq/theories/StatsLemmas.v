From Coq Require Import Reals Lra.
From Verif Require Import Base Res Arith LogSpec LogLemmas ProbLemmas Stats StatsSpec.

Lemma seq_pick (X : list Z) : forall d lo acc, lo + d <= length X ->
  foldr_ (fun Q j => x <- idx X j; Ok (Q ++ [x])) (seq lo d) acc = Ok (acc ++ firstn d (skipn lo X)).
Proof.
  induction d as [|d IH]; intros lo acc H; cbn [seq foldr_].
  - simpl. rewrite app_nil_r. auto.
  - unfold idx at 1. destruct (nth_error X lo) as [x|] eqn:E; [|apply nth_error_None in E; lia]. cbn [bind].
    rewrite IH by lia. rewrite <- app_assoc. f_equal. f_equal. 
    assert (HS : skipn lo X = x :: skipn (S lo) X).
    { clear -E. revert X E. induction lo as [|lo IHl]; intros [|y X] E; simpl in *; try discriminate; [congruence|]. auto. }
    rewrite HS. auto.
Qed.

Lemma block_ok X lo q : blockOf X lo q = Ok (firstn (q - lo) (skipn lo X)).
Proof.
  unfold blockOf. destruct (Nat.le_gt_cases (length X) lo) as [H|H].
  - replace (Nat.min q (length X) - lo) with 0 by lia. rewrite skipn_all2 by lia. rewrite firstn_nil. auto.
  - rewrite seq_pick by lia. f_equal. simpl.
    destruct (Nat.le_gt_cases q (length X)).
    + rewrite Nat.min_l by auto. auto.
    + rewrite Nat.min_r by lia. rewrite !firstn_all2 by (rewrite skipn_length; lia). auto.
Qed.

Definition blocks (l m : nat) (X : list Z) : list (list Z) :=
  map (fun i => if Nat.eqb i (m - 1) then skipn (i * l) X else firstn l (skipn (i * l) X)) (seq 0 m).

Lemma concat_blocks l m X : 0 < m -> concat (blocks l m X) = X.
Proof.
  intros Hm. destruct m as [|m]; [lia|]. unfold blocks. rewrite seq_S, map_app, concat_app. cbn [map concat]. simpl (S m - 1). rewrite Nat.sub_0_r, Nat.eqb_refl, app_nil_r. simpl.
  assert (G : forall n, n <= m -> concat (map (fun i => if Nat.eqb i m then skipn (i * l) X else firstn l (skipn (i * l) X)) (seq 0 n)) = firstn (n * l) X).
  { induction n as [|n IH]; intros Hn; auto. rewrite seq_S, map_app, concat_app, IH by lia. cbn [map concat]. simpl (0 + n).
    destruct (Nat.eqb_spec n m); [lia|]. rewrite app_nil_r. simpl. rewrite (Nat.add_comm l).
    clear. generalize (n * l). intros a. revert X. induction a as [|a IH]; intros X; auto. destruct X as [|x X]; simpl; [destruct l; auto|]. f_equal. auto. }
  rewrite G by auto. apply firstn_skipn.
Qed.

Lemma quantile_run (A : arith) X (m : nat) : 0 < m -> exists l, 1 <= l /\ l = Z.to_nat (blockLen (Z.of_nat (length X)) (Z.of_nat m)) /\
  @partitionQuantiles A X (Z.of_nat m) = Ok (map blockStats (blocks l m X)).
Proof.
  intros Hm. exists (Z.to_nat (blockLen (Z.of_nat (length X)) (Z.of_nat m))). split; [|split; auto].
  - unfold blockLen. destruct (Z.leb_spec (Z.of_nat (length X) / Z.of_nat m) 1) as [H|H]; [simpl; lia|].
    enough (1 <= (2 * Z.of_nat (length X) + Z.of_nat m) / (2 * Z.of_nat m))%Z by lia.
    apply Z.div_le_lower_bound; [lia|]. pose proof (Z.mul_div_le (Z.of_nat (length X)) (Z.of_nat m) ltac:(lia)). nia.
  - unfold partitionQuantiles. destruct (Z.leb_spec (Z.of_nat m) 0); [lia|]. cbv zeta. rewrite Nat2Z.id. set (l := Z.to_nat _). clearbody l.
    unfold mapi, blocks. rewrite map_map.
    assert (G : forall n k, k + n = m -> mapi_from k (fun i (_ : unit) =>
          let q := if Nat.eqb i (m - 1) then length X else ((i + 1) * l)%nat in
          Q <- blockOf X (i * l) q; Ok (@blockStats A Q)) (repeat tt n) =
       Ok (map (fun i => blockStats (if Nat.eqb i (m - 1) then skipn (i * l) X else firstn l (skipn (i * l) X))) (seq k n))).
    { induction n as [|n IH]; intros k Hk; auto. cbn [repeat mapi_from seq map]. cbv zeta. rewrite block_ok. cbn [bind].
      specialize (IH (S k) ltac:(lia)). cbv zeta in IH. rewrite IH. cbn [bind]. f_equal. f_equal. f_equal.
      destruct (Nat.eqb k (m - 1)).
      - rewrite firstn_all2; auto. rewrite skipn_length. lia.
      - replace ((k + 1) * l - k * l) with l by nia. auto. }
    apply (G m 0). lia.
Qed.

Local Open Scope R_scope.
Lemma sum_fold (f : Z -> R) (g : Z -> xreal) l : (forall x, g x = Fin (f x)) -> forall a,
  fold_left (fun s x => xadd s (g x)) l (Fin a) = Fin (a + Rsum (map f l)).
Proof.
  intros H. induction l as [|x l IH]; intros a; cbn [fold_left map Rsum]; [f_equal; lra|]. rewrite H. cbn [xadd]. rewrite IH. f_equal. lra.
Qed.

Lemma blockStats_ok Q : Q <> [] ->
  @blockStats XR Q = (Fin (sample_mean Q), Fin (if Req_EM_T (sample_sd Q) 0 then 1 / 2 else sample_sd Q), Fin (INR (length Q))).
Proof.
  intros HQ. assert (Hn : 0 < INR (length Q)) by (apply lt_0_INR; destruct Q; [congruence|simpl; lia]).
  unfold blockStats. change (F XR) with xreal in *.
  assert (HN : @fz XR (Z.of_nat (length Q)) = Fin (INR (length Q))) by (simpl; rewrite <- INR_IZR_INZ; auto).
  change (let n := @fz XR (Z.of_nat (length Q)) in let mu := xdiv (fold_left (fun s x => xadd s (Fin (IZR x))) Q (Fin 0)) n in
    let v := fold_left (fun s x => xadd s (let d := xsub (Fin (IZR x)) mu in xmul d d)) Q (Fin 0) in
    let sigma := xsqrt (xdiv v n) in (mu, if xeq sigma (Fin 0) then xdiv (Fin 1) (Fin 2) else sigma, n) =
    (Fin (sample_mean Q), Fin (if Req_EM_T (sample_sd Q) 0 then 1 / 2 else sample_sd Q), Fin (INR (length Q)))).
  rewrite HN. cbv zeta. rewrite (sum_fold IZR (fun x => Fin (IZR x))) by auto.
  cbn [xdiv]. destruct (Req_EM_T (INR (length Q)) 0) as [|_]; [lra|].
  replace ((0 + Rsum (map IZR Q)) / INR (length Q)) with (sample_mean Q) by (unfold sample_mean; f_equal; lra).
  rewrite (sum_fold (fun x => (IZR x - sample_mean Q) * (IZR x - sample_mean Q))) by (intros; cbn [xsub xneg xadd xmul]; auto).
  cbn [xdiv]. destruct (Req_EM_T (INR (length Q)) 0) as [|_]; [lra|]. rewrite Rplus_0_l.
  cbn [xsqrt]. destruct (Rlt_dec _ 0) as [Hl|_].
  { exfalso. revert Hl. apply Rle_not_lt. apply Rmult_le_pos; [|left; apply Rinv_0_lt_compat; auto]. apply Rsum_nonneg. intros y Hy.
    apply in_map_iff in Hy as (z & Ez & _). subst y. apply Rle_0_sqr. }
  fold (sample_sd Q). cbn [xeq]. destruct (Req_EM_T (sample_sd Q) 0); cbn [xdiv]; [destruct (Req_EM_T 2 0); [lra|]|]; auto.
Qed.

Lemma blocks_nonempty l m X : (0 < m)%nat -> (1 <= l)%nat ->
  ((forall b, In b (blocks l m X) -> b <> []) <-> ((m - 1) * l < length X)%nat).
Proof.
  intros Hm Hl. unfold blocks. split.
  - intros H. destruct (Nat.lt_ge_cases ((m - 1) * l) (length X)) as [|Hge]; auto. exfalso.
    apply (H (skipn ((m - 1) * l) X)); [|apply skipn_all2; auto].
    apply in_map_iff. exists (m - 1)%nat. rewrite Nat.eqb_refl. split; auto. apply in_seq. lia.
  - intros H b Hb E. apply in_map_iff in Hb as (i & Eb & Hi). apply in_seq in Hi. apply (f_equal (@length Z)) in E. simpl in E. rewrite <- Eb in E. clear Eb.
    destruct (Nat.eqb_spec i (m - 1)) as [Ei|]; [rewrite Ei, skipn_length in E; lia|]. rewrite firstn_length, skipn_length in E.
    assert (i * l <= (m - 1) * l)%nat by (apply Nat.mul_le_mono_r; lia). lia.
Qed.

Lemma quantiles_l X m : (0 < m)%nat -> exists bs,
  length bs = m /\ concat bs = X /\ @partitionQuantiles XR X (Z.of_nat m) = Ok (map blockStats bs) /\
  (forall i b, nth_error bs i = Some b -> b <> [] ->
     @blockStats XR b = (Fin (sample_mean b), Fin (if Req_EM_T (sample_sd b) 0 then 1 / 2 else sample_sd b), Fin (INR (length b)))) /\
  ((forall b, In b bs -> b <> []) <-> ((m - 1) * Z.to_nat (blockLen (Z.of_nat (length X)) (Z.of_nat m)) < length X)%nat).
Proof.
  intros Hm. destruct (quantile_run XR X m Hm) as (l & Hl & El & E). exists (blocks l m X).
  split; [unfold blocks; rewrite map_length, seq_length; auto|]. split; [apply concat_blocks; auto|]. split; auto.
  split; [intros; apply blockStats_ok; auto|]. rewrite <- El. apply blocks_nonempty; auto.
Qed.

(** Histograms. *)
Fixpoint wsum (g : Z -> R) (i : Z) (c : list Z) : R :=
  match c with [] => 0 | n :: t => IZR n * g i + wsum g (i + 1) t end.
Lemma sample_wsum g : forall c i, (forall n, In n c -> (0 <= n)%Z) -> Rsum (map g (sample_from i c)) = wsum g i c.
Proof.
  induction c as [|n c IH]; intros i H; simpl; auto. rewrite map_app, Rsum_app, IH by (intros; apply H; right; auto). f_equal.
  pose proof (H n (or_introl eq_refl)). rewrite <- (Z2Nat.id n) at 2 by auto. rewrite <- INR_IZR_INZ. induction (Z.to_nat n) as [|k IHk]; [simpl; lra|].
  cbn [repeat map Rsum]. rewrite IHk, S_INR. lra.
Qed.
Lemma sample_length c : (forall n, In n c -> (0 <= n)%Z) -> INR (length (sample_of c)) = IZR (total c).
Proof.
  intros H. unfold sample_of, total. generalize 0%Z at 1. intros i.
  assert (G : forall c i a, (forall n, In n c -> (0 <= n)%Z) -> IZR (fold_left Z.add c a) = IZR a + INR (length (sample_from i c))).
  { clear. induction c as [|n c IH]; intros i a H; cbn [fold_left sample_from length]; [simpl; lra|].
    rewrite (IH (i + 1)%Z) by (intros; apply H; right; auto). rewrite app_length, plus_INR, repeat_length, plus_IZR.
    rewrite (INR_IZR_INZ (Z.to_nat n)), Z2Nat.id by (apply H; left; auto). lra. }
  rewrite (G c i 0%Z H). lra.
Qed.

Lemma hist_fold (g : Z -> R) (h : xreal -> Z -> xreal) N : N <> 0 -> (forall n i, h (Fin (IZR n / N)) i = Fin (IZR n / N * g i)) ->
  forall c i a, snd (fold_left (fun (st : Z * xreal) ci => ((fst st + 1)%Z, xadd (snd st) (h (xdiv (Fin (IZR ci)) (Fin N)) (fst st)))) c (i, Fin a)) =
    Fin (a + wsum g i c / N).
Proof.
  intros HN Hh. induction c as [|n c IH]; intros i a; cbn [fold_left wsum fst snd].
  - f_equal. unfold Rdiv. lra.
  - assert (Hd : xdiv (Fin (IZR n)) (Fin N) = Fin (IZR n / N)) by (cbn [xdiv]; destruct (Req_EM_T N 0); [lra|auto]).
    rewrite Hd, Hh. cbn [xadd]. rewrite IH. f_equal. field. auto.
Qed.

Lemma histogram_l c : (forall n, In n c -> (0 <= n)%Z) -> (exists n, In n c /\ (0 < n)%Z) ->
  @histMean XR c = Fin (sample_mean (sample_of c)) /\ @histStdDev XR c = Fin (sample_sd (sample_of c)) /\
  @histMuSigma XR c = (Fin (sample_mean (sample_of c)), Fin (sample_sd (sample_of c))).
Proof.
  intros H (n0 & Hn0 & Hp).
  assert (HT : 0 < IZR (total c)).
  { apply (IZR_lt 0). unfold total. clear -H Hn0 Hp.
    assert (G : forall c a, (forall n, In n c -> (0 <= n)%Z) -> (a <= fold_left Z.add c a)%Z).
    { induction c0 as [|x c0 IH]; intros a Hc; simpl; [lia|]. pose proof (Hc x (or_introl eq_refl)). pose proof (IH (a + x)%Z ltac:(intros; apply Hc; right; auto)). lia. }
    apply in_split in Hn0 as (l1 & l2 & ->). rewrite fold_left_app. simpl.
    pose proof (G l1 0%Z ltac:(intros; apply H, in_or_app; auto)). pose proof (G l2 (fold_left Z.add l1 0 + n0)%Z ltac:(intros; apply H, in_or_app; right; right; auto)). lia. }
  set (N := IZR (total c)) in *.
  assert (HM : @histMean XR c = Fin (sample_mean (sample_of c))).
  { unfold histMean. etransitivity; [exact (hist_fold IZR (fun p i => xmul p (Fin (IZR i))) N ltac:(lra) ltac:(auto) c 0%Z 0)|].
    f_equal. unfold sample_mean. rewrite sample_length by auto. fold N. unfold sample_of. rewrite sample_wsum by auto. lra. }
  assert (HV : fsqrt (@histVar XR c (histMean c)) = Fin (sample_sd (sample_of c))).
  { rewrite HM. set (mu := sample_mean _). 
    assert (E : @histVar XR c (Fin mu) = Fin (0 + wsum (fun i => (IZR i - mu) * (IZR i - mu)) 0 c / N)).
    { unfold histVar. etransitivity; [apply (hist_fold (fun i => (IZR i - mu) * (IZR i - mu)) (fun p i => let d := xsub (Fin (IZR i)) (Fin mu) in xmul (xmul p d) d) N ltac:(lra))|auto].
      intros n i. cbn [xsub xneg xadd xmul]. f_equal. unfold Rminus. ring. }
    rewrite E, Rplus_0_l. unfold sample_sd. rewrite sample_length by auto. fold N mu. unfold sample_of. rewrite sample_wsum by auto.
    change (xsqrt (Fin (wsum (fun i => (IZR i - mu) * (IZR i - mu)) 0 c / N)) = Fin (sqrt (wsum (fun x => (IZR x - mu) * (IZR x - mu)) 0 c / N))).
    cbn [xsqrt]. destruct (Rlt_dec _ 0) as [Hl|]; auto. exfalso. revert Hl. apply Rle_not_lt. apply Rmult_le_pos; [|left; apply Rinv_0_lt_compat; auto].
    rewrite <- sample_wsum by auto. apply Rsum_nonneg. intros y Hy. apply in_map_iff in Hy as (z & <- & _). apply Rle_0_sqr. }
  split; [exact HM|]. split; [exact HV|]. unfold histMuSigma. cbv zeta. apply f_equal2; [exact HM|exact HV].
Qed.

(** poon.go:106-109, dennis/region.go:32-34 pass the observed values themselves. *)
Lemma musigma_values_l : exists X, X <> [] /\ @histMuSigma XR X <> (Fin (sample_mean X), Fin (sample_sd X)).
Proof.
  exists [5%Z]. split; [discriminate|]. destruct (histogram_l [5%Z]) as (_ & _ & E); [intros n [<-|[]]; lia|exists 5%Z; split; [left; auto|lia]|].
  rewrite E. intros C. injection C as C _. unfold sample_mean, sample_of in C. simpl in C. lra.
Qed.
