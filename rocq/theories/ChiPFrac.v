(** The continued fraction of ugamma for an integer second argument. *)
From Coq Require Import Reals Lra Lia.
From Verif Require Import Base Res Arith ChiP ChiPSpec ChiPLemmas.
Local Open Scope R_scope.

Section Frac.
Variables (x : R) (k : nat).
Hypothesis Hk : (1 <= k)%nat.
Hypothesis Hx : INR k < x.

Definition ca (i : nat) : R := INR i * (INR k - INR i).
Definition cb (i : nat) : R := 2 * INR i + 1 + x - INR k.

(** Numerators and denominators of the convergents. *)
Fixpoint num2 (n : nat) : R * R :=
  match n with O => (1, cb 0) | S m => let p := num2 m in (snd p, cb (S m) * snd p + ca (S m) * fst p) end.
Fixpoint den2 (n : nat) : R * R :=
  match n with O => (0, 1) | S m => let p := den2 m in (snd p, cb (S m) * snd p + ca (S m) * fst p) end.
Definition num n := fst (num2 n).
Definition den n := fst (den2 n).

Lemma num_S n : num (S n) = snd (num2 n). Proof. reflexivity. Qed.
Lemma num_SS n : num (S (S n)) = cb (S n) * num (S n) + ca (S n) * num n. Proof. reflexivity. Qed.
Lemma den_SS n : den (S (S n)) = cb (S n) * den (S n) + ca (S n) * den n. Proof. reflexivity. Qed.

Lemma cb_pos i : 0 < cb i.
Proof. unfold cb. pose proof (pos_INR i). lra. Qed.
Lemma ca_nonneg i : (i <= k)%nat -> 0 <= ca i.
Proof. intros H. unfold ca. pose proof (pos_INR i). apply le_INR in H. nra. Qed.

Lemma num_pos i : (i <= S k)%nat -> 0 < num i.
Proof.
  assert (G : forall i, (i <= k)%nat -> 0 < num i /\ 0 < num (S i)).
  { induction i0 as [|i0 IH]; intros Hi.
    - split; [unfold num; simpl; lra|]. change (num 1) with (cb 0). apply cb_pos.
    - destruct (IH ltac:(lia)) as (H1 & H2). split; auto. rewrite num_SS. pose proof (cb_pos (S i0)). pose proof (ca_nonneg (S i0) Hi). nra. }
  intros Hi. destruct i as [|i]; [apply (G 0%nat); lia|]. apply (G i). lia.
Qed.
Lemma den_pos i : (1 <= i <= S k)%nat -> 0 < den i.
Proof.
  assert (G : forall i, (i <= k)%nat -> 0 <= den i /\ 0 < den (S i)).
  { induction i0 as [|i0 IH]; intros Hi.
    - split; unfold den; simpl; lra.
    - destruct (IH ltac:(lia)) as (H1 & H2). split; [lra|]. rewrite den_SS. pose proof (cb_pos (S i0)). pose proof (ca_nonneg (S i0) Hi). nra. }
  intros Hi. destruct i as [|i]; [lia|]. apply (G i). lia.
Qed.

(** A later convergent is a mediant of two neighbouring ones. *)
Lemma mediant j : forall d, (j + d <= S k)%nat -> exists p q, 0 <= p /\ 0 <= q /\
  num (j + d) = p * num (S j) + q * num j /\ den (j + d) = p * den (S j) + q * den j.
Proof.
  enough (G : forall d, (j + d <= k)%nat -> (exists p q, 0 <= p /\ 0 <= q /\
     num (j + d) = p * num (S j) + q * num j /\ den (j + d) = p * den (S j) + q * den j) /\
    exists p q, 0 <= p /\ 0 <= q /\
     num (S (j + d)) = p * num (S j) + q * num j /\ den (S (j + d)) = p * den (S j) + q * den j).
  { intros [|d] Hd; [rewrite Nat.add_0_r in *; exists 0, 1; repeat split; lra|].
    destruct (G d ltac:(lia)) as (_ & H). rewrite Nat.add_succ_r. exact H. }
  induction d as [|d IH]; intros Hd.
  - rewrite Nat.add_0_r. split; [exists 0, 1|exists 1, 0]; repeat split; lra.
  - destruct (IH ltac:(lia)) as ((p & q & Hp & Hq & E1 & E2) & (p' & q' & Hp' & Hq' & E1' & E2')). rewrite Nat.add_succ_r. split; [exists p', q'; auto|].
    exists (cb (S (j + d)) * p' + ca (S (j + d)) * p), (cb (S (j + d)) * q' + ca (S (j + d)) * q).
    pose proof (cb_pos (S (j + d))). pose proof (ca_nonneg (S (j + d)) ltac:(lia)).
    split; [apply Rplus_le_le_0_compat; apply Rmult_le_pos; lra|]. split; [apply Rplus_le_le_0_compat; apply Rmult_le_pos; lra|].
    rewrite num_SS, den_SS, E1, E2, E1', E2'. split; ring.
Qed.

Lemma fraction_run abs : (forall r, abs (Fin r) = Fin (Rabs r)) -> forall n i, (1 <= i <= k)%nat -> (k < n + i)%nat ->
  exists j, (1 <= j <= k)%nat /\
  @fraction XR abs n (Z.of_nat i) (Fin x) (Fin (INR k)) (Fin (num i / den i)) (Fin (num i / num (i - 1))) (Fin (den (i - 1) / den i)) =
    Fin (num (S j) / den (S j)) /\
  Rabs (num (S j) / den (S j) * (den j / num j) - 1) < e12.
Proof.
  intros Habs. induction n as [|n IH]; intros i Hi Hn; [lia|]. cbn [fraction]. cbv zeta.
  pose proof (num_pos i ltac:(lia)) as Ni. pose proof (num_pos (S i) ltac:(lia)) as NS. pose proof (num_pos (i - 1) ltac:(lia)) as Nm.
  pose proof (den_pos i ltac:(lia)) as Di. pose proof (den_pos (S i) ltac:(lia)) as DS. pose proof (cb_pos i) as Hb. pose proof (ca_nonneg i ltac:(lia)) as Ha.
  assert (RN : num (S i) = cb i * num i + ca i * num (i - 1)) by (destruct i as [|i]; [lia|]; simpl (S i - 1)%nat; rewrite Nat.sub_0_r; apply num_SS).
  assert (RD : den (S i) = cb i * den i + ca i * den (i - 1)) by (destruct i as [|i]; [lia|]; simpl (S i - 1)%nat; rewrite Nat.sub_0_r; apply den_SS).
  assert (Ea : @fmul XR (@fz XR (Z.of_nat i)) (@fsub XR (Fin (INR k)) (@fz XR (Z.of_nat i))) = Fin (ca i)).
  { cbn [fmul fz fsub XR xmul xsub xneg xadd]. rewrite <- INR_IZR_INZ. reflexivity. }
  assert (Eb : @fsub XR (@fadd XR (@fadd XR (@fz XR (2 * Z.of_nat i)) (@fz XR 1)) (Fin x)) (Fin (INR k)) = Fin (cb i)).
  { cbn [fz fadd fsub XR xsub xneg xadd]. f_equal. rewrite mult_IZR, <- INR_IZR_INZ. unfold cb. lra. }
  rewrite Ea, Eb.
  assert (ED : @fdiv XR (@fz XR 1) (@fadd XR (Fin (cb i)) (@fmul XR (Fin (ca i)) (Fin (den (i - 1) / den i)))) = Fin (den i / den (S i))).
  { cbn [fz fadd fmul fdiv XR xadd xmul xdiv]. replace (cb i + ca i * (den (i - 1) / den i)) with (den (S i) / den i) by (rewrite RD; field; lra).
    destruct (Req_EM_T (den (S i) / den i) 0) as [Z|]; [|f_equal; field; lra]. exfalso. assert (0 < den (S i) / den i) by (apply Rdiv_lt_0_compat; auto). lra. }
  assert (EC : @fadd XR (Fin (cb i)) (@fdiv XR (Fin (ca i)) (Fin (num i / num (i - 1)))) = Fin (num (S i) / num i)).
  { cbn [fadd fdiv XR xadd xdiv]. assert (0 < num i / num (i - 1)) by (apply Rdiv_lt_0_compat; auto). destruct (Req_EM_T (num i / num (i - 1)) 0); [lra|].
    cbn [xadd]. f_equal. rewrite RN. field. lra. }
  rewrite ED, EC.
  assert (Eg : @fmul XR (Fin (num (S i) / num i)) (Fin (den i / den (S i))) = Fin (num (S i) / den (S i) * (den i / num i))).
  { cbn [fmul XR xmul]. f_equal. field. lra. }
  rewrite Eg.
  assert (Ef : @fmul XR (Fin (num i / den i)) (Fin (num (S i) / den (S i) * (den i / num i))) = Fin (num (S i) / den (S i))).
  { cbn [fmul XR xmul]. f_equal. field. lra. }
  rewrite Ef.
  assert (Et : @fgt XR (@eps XR) (abs (@fsub XR (Fin (num (S i) / den (S i) * (den i / num i))) (@fz XR 1))) =
    if Rlt_dec (Rabs (num (S i) / den (S i) * (den i / num i) - 1)) e12 then true else false).
  { rewrite eps_val. cbn [fsub fz XR xsub xneg xadd]. rewrite Habs. reflexivity. }
  rewrite Et. destruct (Rlt_dec (Rabs (num (S i) / den (S i) * (den i / num i) - 1)) e12) as [Hl|Hl].
  - exists i. auto.
  - destruct (Nat.eq_dec i k) as [->|Hne].
    + exfalso. apply Hl. assert (Hz : ca k = 0) by (unfold ca; lra). rewrite RN, RD, Hz.
      replace ((cb k * num k + 0 * num (k - 1)) / (cb k * den k + 0 * den (k - 1)) * (den k / num k) - 1) with 0 by (field; lra).
      rewrite Rabs_R0. unfold e12. lra.
    + destruct (IH (S i) ltac:(lia) ltac:(lia)) as (j & Hj & E & Hc). exists j. split; auto. split; auto.
      rewrite <- E. simpl (S i - 1)%nat. rewrite Nat.sub_0_r. f_equal. lia.
Qed.

(** The closed form of the whole fraction. *)
Fixpoint yy (m j : nat) : R :=
  match j with
  | O => 1
  | S j' => match m with O => 0 | S m' => (yy m' j' + (INR m' - INR j') * yy m' (S j')) / x end
  end.
Lemma yy_0 m : yy m 0 = 1. Proof. destruct m; reflexivity. Qed.
Lemma yy_SS m j : x <> 0 -> x * yy (S m) (S j) = yy m j + (INR m - INR j) * yy m (S j).
Proof. intros H. cbn [yy]. field. auto. Qed.

Lemma yy_step : x <> 0 -> forall m j, (j <= m)%nat -> yy (S m) j = yy m j + INR j * yy (S m) (S j).
Proof.
  intros H0. induction m as [|m IH]; intros j Hj.
  - replace j with 0%nat by lia. simpl. lra.
  - destruct j as [|j]; [simpl yy at 1 2; change (INR 0) with 0; lra|].
    apply (Rmult_eq_reg_l x); auto. rewrite Rmult_plus_distr_l.
    replace (x * (INR (S j) * yy (S (S m)) (S (S j)))) with (INR (S j) * (x * yy (S (S m)) (S (S j)))) by ring.
    rewrite !yy_SS by auto. rewrite (IH j) by lia. rewrite !S_INR.
    destruct (Nat.eq_dec j m) as [->|Hne]; [ring|]. pose proof (IH (S j) ltac:(lia)) as E. rewrite S_INR in E.
    replace (yy m (S j)) with (yy (S m) (S j) - (INR j + 1) * yy (S m) (S (S j))) by lra. ring.
Qed.

Lemma yy_three : x <> 0 -> forall m j, (j <= m)%nat ->
  yy (S m) j = (2 * INR j + 1 + x - INR (S m)) * yy (S m) (S j) + INR (S j) * (INR (S m) - INR (S j)) * yy (S m) (S (S j)).
Proof.
  intros H0 m j Hj. pose proof (yy_SS m j H0) as E. pose proof (yy_step H0 m j Hj) as E1. rewrite !S_INR in *.
  destruct (Nat.eq_dec j m) as [->|Hne].
  - replace (INR m - INR m) with 0 in E by lra. lra.
  - pose proof (yy_step H0 m (S j) ltac:(lia)) as E2. rewrite S_INR in E2.
    replace (yy m (S j)) with (yy (S m) (S j) - (INR j + 1) * yy (S m) (S (S j))) in E by lra.
    replace (yy m j) with (yy (S m) j - INR j * yy (S m) (S j)) in E by lra. lra.
Qed.

Lemma yy_one : 0 < x -> forall m, x ^ (S m) * yy (S m) 1 = INR (fact m) * es x m.
Proof.
  intros H0. induction m as [|m IH].
  - unfold es, et. simpl. field. lra.
  - pose proof (yy_SS (S m) 0 ltac:(lra)) as E. change (yy (S m) 0) with 1 in E. change (INR 0) with 0 in E.
    replace (x ^ S (S m) * yy (S (S m)) 1) with (x ^ S m * (x * yy (S (S m)) 1)) by (simpl; ring). rewrite E.
    replace (x ^ S m * (1 + (INR (S m) - 0) * yy (S m) 1)) with (x ^ S m + INR (S m) * (x ^ S m * yy (S m) 1)) by ring. rewrite IH.
    unfold es. cbn [sum_f_R0]. change (et x (S m)) with (x ^ S m / INR (fact (S m))). rewrite fact_simpl, mult_INR. field. split; first [apply INR_fact_neq_0|apply not_0_INR; lia].
Qed.

Lemma wronsk (P : nat -> R) : (forall n, P (S (S n)) = cb (S n) * P (S n) + ca (S n) * P n) -> 0 < x ->
  forall n, (n < k)%nat -> P (S n) * yy k (S n) + ca (S n) * P n * yy k (S (S n)) = P 1%nat * yy k 1 + ca 1 * P 0%nat * yy k 2.
Proof.
  intros HP H0. induction n as [|n IH]; intros Hn; auto. rewrite <- IH by lia. rewrite HP.
  pose proof (yy_three ltac:(lra) (k - 1) (S n) ltac:(lia)) as E. replace (S (k - 1)) with k in E by lia. rewrite E. unfold ca, cb in *. ring.
Qed.

Lemma fraction_value : num k / den k = x ^ k / (INR (fact (k - 1)) * es x (k - 1)).
Proof.
  assert (H0 : 0 < x) by (pose proof (pos_INR k); lra).
  pose proof (wronsk num num_SS H0 (k - 1) ltac:(lia)) as EN. pose proof (wronsk den den_SS H0 (k - 1) ltac:(lia)) as ED.
  replace (S (k - 1)) with k in EN, ED by lia. assert (Hz : ca k = 0) by (unfold ca; lra). rewrite Hz in EN, ED.
  change (num 1) with (cb 0) in EN. change (num 0) with 1 in EN. change (den 1) with 1 in ED. change (den 0) with 0 in ED.
  assert (EY : cb 0 * yy k 1 + ca 1 * 1 * yy k 2 = 1).
  { pose proof (yy_three ltac:(lra) (k - 1) 0 ltac:(lia)) as E. replace (S (k - 1)) with k in E by lia. rewrite yy_0 in E. unfold ca, cb. change (INR 0) with 0 in *. change (INR 1) with 1 in *. lra. }
  rewrite EY in EN. replace (1 * yy k 1 + ca 1 * 0 * yy k 2) with (yy k 1) in ED by ring.
  pose proof (yy_one H0 (k - 1)) as E1. replace (S (k - 1)) with k in E1 by lia. rewrite <- E1, <- ED.
  pose proof (num_pos k ltac:(lia)) as Hnk. pose proof (den_pos k ltac:(lia)) as Hdk. assert (Hy : yy k k <> 0) by (intros E; rewrite E in EN; lra).
  assert (Hp : x ^ k <> 0) by (apply pow_nonzero; lra).
  replace (den k * yy k k + 0 * den (k - 1) * yy k (S k)) with (den k * yy k k) by ring.
  replace (num k / den k) with (num k * yy k k / (den k * yy k k)) by (field; split; auto; lra).
  replace (num k * yy k k) with 1 by lra. field. repeat split; auto; lra.
Qed.
End Frac.
