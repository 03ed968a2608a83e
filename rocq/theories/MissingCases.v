From Coq Require Import Reals Lra Lia.
From Verif Require Import Base Res Arith LogSpec LogLemmas GraphSpec GraphLemmas Spn Leaves GoMap DataSpec Stats Dennis DennisSpec DennisTop DennisCases ProbSpec ProbLemmas ProbCases PoonSpec MissingSpec MissingLemmas MissingDennis.
Local Open Scope R_scope.

(** A leaf with a Gaussian's behaviour and the density 1/e everywhere, and a network that mixes it with multinomials. *)
Definition flat (mu sigma x : F XR) : F XR := Fin (-1).
Definition gl : leaf XR := gaussLeaf flat (fun _ => 0%Z) (fun _ => 0%Z) 0 (Fin 1) (Fin 1).
Definition one2 : varset := fun k => if (k =? 1)%Z then Some 2%Z else None.

Lemma gl_value I : lvalue gl I = Some (match I 0%Z with Some _ => Fin (-1) | None => Fin 0 end).
Proof.
  unfold gl. cbn [lvalue gaussLeaf]. unfold gaussValue. cbn. destruct (Req_EM_T 1 0); [lra|]. destruct (I 0%Z); reflexivity.
Qed.
Lemma mleafR_value x ps mi I : lvalue (mleafR x ps mi) I = match I x with Some v => option_map (@flog XR) (prAt (map (Fin : R -> F XR) ps) v) | None => Some (Fin 0) end.
Proof. unfold mleafR, multiLeaf. cbn [lvalue]. unfold multiValue. cbn [m_varid m_pr]. destruct (I x); reflexivity. Qed.

Lemma mixed_own : own_scope (wnet gl) 0.
Proof.
  intros u l _ E. destruct u as [|[|[|[|[|u]]]]]; simpl in E; try discriminate; injection E as <-; (split; [reflexivity|]); intros I J H.
  - rewrite !mleafR_value, (H 0%Z) by (left; reflexivity). reflexivity.
  - rewrite !mleafR_value, (H 1%Z) by (left; reflexivity). reflexivity.
  - rewrite !gl_value, (H 0%Z) by (left; reflexivity). reflexivity.
Qed.

Lemma logval_log p : 0 <= p -> logval (xlog (Fin p)).
Proof. intros H. rewrite xlog_nonneg by auto. apply logval_xln. Qed.

Lemma mixed_answers o : among [0; 1]%Z o -> answers (wnet gl) (observe one2 0 o) 0.
Proof.
  intros Ho u l _ E. destruct u as [|[|[|[|[|u]]]]]; simpl in E; try discriminate; injection E as <-.
  - rewrite mleafR_value. destruct o as [v|]; [|exists (Fin 0); split; [reflexivity|exact Logic.I]].
    destruct Ho as [<-|[<-|[]]]; [exists (xlog (Fin (/3)))|exists (xlog (Fin (2/3)))]; (split; [reflexivity|apply logval_log; lra]).
  - rewrite mleafR_value. exists (xlog (Fin (/4))). split; [reflexivity|apply logval_log; lra].
  - rewrite gl_value. destruct (observe one2 0 o 0%Z); eexists; (split; [reflexivity|exact Logic.I]).
Qed.

Lemma pos_density ps mi x I v p : nth_error ps (Z.to_nat v) = Some p -> (0 <= v)%Z -> 0 < p -> I x = Some v -> density (mleafR x ps mi) I = p.
Proof.
  intros E Hv Hp HI. unfold density. rewrite mleafR_value, HI.
  unfold prAt. destruct (Z.ltb_spec v 0); [lia|]. rewrite nth_error_map, E. cbn. unfold xlog. destruct (Rlt_dec 0 p); [|lra]. cbn. apply exp_ln; auto.
Qed.

Lemma mixed_sums u l : reach (children (wnet gl)) 0 u -> nk (wnet gl u) = KLeaf l -> In 0%Z (lsc l) ->
  /2 * density l (observe one2 0 None) <= Rsum (map (fun v => density l (observe one2 0 (Some v))) [0; 1]%Z) <= 1 * density l (observe one2 0 None).
Proof.
  intros _ E Hx. destruct u as [|[|[|[|[|u]]]]]; simpl in E; try discriminate; injection E as <-.
  - cbn [map Rsum]. rewrite (pos_density _ _ _ (observe one2 0 (Some 0%Z)) 0%Z (/3)), (pos_density _ _ _ (observe one2 0 (Some 1%Z)) 1%Z (2/3)); try reflexivity; try lia; try lra.
    unfold density. rewrite mleafR_value. unfold observe. rewrite Z.eqb_refl. cbn [lin]. rewrite exp_0. lra.
  - destruct Hx as [Hx|[]]. discriminate.
  - cbn [map Rsum]. unfold density. rewrite !gl_value. unfold observe. rewrite Z.eqb_refl. cbn [lin]. rewrite exp_0.
    pose proof exp_le_3 as H3. pose proof (exp_ineq1 1 ltac:(lra)) as H2.
    assert (HE : exp (-1) * exp 1 = 1) by (rewrite <- exp_plus; replace (-1 + 1) with 0 by lra; apply exp_0).
    pose proof (exp_pos (-1)). split; nra.
Qed.

Lemma mixed_case : bounded (children (wnet gl)) 6 /\ acyclic_from (children (wnet gl)) 0 /\ weights_nonneg (wnet gl) 0 /\ weights_normalised (wnet gl) 0 /\
  own_scope (wnet gl) 0 /\ complete (wnet gl) 0 /\ decomposable (wnet gl) 0 /\ (forall o, among [0; 1]%Z o -> answers (wnet gl) (observe one2 0 o) 0) /\
  in_scope (wnet gl) 0 0%Z /\ leaves_normal (wnet gl) (fun _ => None) 0 /\
  forall u l, reach (children (wnet gl)) 0 u -> nk (wnet gl u) = KLeaf l -> In 0%Z (lsc l) ->
    /2 * density l (observe one2 0 None) <= Rsum (map (fun v => density l (observe one2 0 (Some v))) [0; 1]%Z) <= 1 * density l (observe one2 0 None).
Proof.
  destruct (wnet_graph gl) as [G1 G2]. destruct (wnet_weights gl) as [W1 W2]. destruct (wnet_valid gl eq_refl) as [V1 V2].
  split; auto. split; [intros u c _ Hc; exact (G2 u c Hc)|]. split; auto. split; auto. split; [exact mixed_own|]. split; auto. split; auto.
  split; [exact mixed_answers|]. split; [apply (wnet_scope gl eq_refl 0 0 ltac:(lia)); left; reflexivity|].
  split; [|exact mixed_sums].
  intros u l _ E. destruct u as [|[|[|[|[|u]]]]]; simpl in E; try discriminate; injection E as <-; rewrite ?mleafR_value, ?gl_value; reflexivity.
Qed.

(** The mean and standard deviation the learner takes from a column of one positive value. *)
Lemma one_value c : (0 < c)%Z -> histMuSigma (A:=XR) [c] = (Fin 0, Fin 0).
Proof.
  intros Hc. assert (Hr : IZR c <> 0) by (apply not_0_IZR; lia).
  assert (Hm : histMean (A:=XR) [c] = Fin 0).
  { unfold histMean, total. cbn. rewrite ?Z.add_0_l. cbn. destruct (Req_EM_T (IZR c) 0); [congruence|]. cbn. f_equal. lra. }
  assert (Hv : histVar (A:=XR) [c] (Fin 0) = Fin 0).
  { unfold histVar, total. cbn. rewrite ?Z.add_0_l. cbn. destruct (Req_EM_T (IZR c) 0); [congruence|]. cbn. f_equal. lra. }
  unfold histMuSigma. rewrite Hm, Hv. cbn. destruct (Rlt_dec 0 0); [lra|]. rewrite sqrt_0. reflexivity.
Qed.

(** One row: fewer than the two Gaussians asked for, so the parameters are those of the column. *)
Definition row1 : gmap := [(0, 1); (1, 3); (2, 5)]%Z.
Definition par1 (v : Z) (i : nat) : F XR * F XR := histMuSigma (A:=XR) [get0 row1 v].

Definition constant_net := @structure XR (fun _ s => s) (fun _ C => C) firstRest (fun D => [D; D]) (fun D => []) par1
  flat (fun _ => 0%Z) (fun _ => 0%Z) (fun i => Z.of_nat i mod 10)%Z 10 [row1] sc3 1 2 2 (Fin 1).

Lemma row1_l : complete_rows 3 [row1].
Proof.
  split; [discriminate|]. intros I [<-|[]]. split; [repeat constructor; simpl; lia|]. intros k; unfold member; simpl; lia.
Qed.
Lemma par1_l v i : member sc3 v -> par1 v i = (Fin 0, Fin 0).
Proof. intros H. unfold par1. apply one_value. unfold member in H. simpl in H. destruct H as [<-|[<-|[<-|[]]]]; reflexivity. Qed.

Lemma constant_l : exists net z N, constant_net = Ok (net, z) /\ forall J x, member sc3 x -> value net N (observe J x None) z = Ok NInf.
Proof.
  destruct sc3_l as (S1 & S2 & S3).
  destruct (structure_l (fun _ s => s) (fun _ C => C) firstRest (fun D => [D; D]) (fun D => []) par1 flat (fun _ => 0%Z) (fun _ => 0%Z)
    (fun i => Z.of_nat i mod 10)%Z 10 [row1] sc3 1 2 2 (Fin 1) 3) as (net & z & E & A1 & A2 & A3 & A4 & A5 & A6 & N & Lz & Bd); auto; try lia.
  - intros i m. apply Permutation_refl.
  - exact firstRest_l.
  - split; [lia|]. split; [intros _; exact row1_l|lia].
  - intros i. apply Z.mod_pos_bound. lia.
  - simpl. lia.
  - destruct (proper_nonneg net z A5) as [W1 W2]. exists net, z, N. split; auto. intros J x Hx.
    assert (HP : forall v i, member sc3 v -> exists mu s, par1 v i = (Fin mu, Fin s)) by (intros v i Hv; exists 0, 0; apply par1_l; auto).
    assert (Own : own_scope net z) by (eapply gauss_own; eauto).
    destruct (missing_l net N z J x [] Bd Lz A4 W1 Own A2 A3) as (ts & T1 & T2); [intros o _; eapply gauss_answers; eauto; intros; exact Logic.I|apply A1; auto|].
    rewrite (T2 None Logic.I), (gauss_zero par1 flat (fun _ => 0%Z) (fun _ => 0%Z) net z sc3 A1 A6 HP J x ts); auto.
    + unfold xln. destruct (Rlt_dec 0 0); [lra|reflexivity].
    + intros i. rewrite par1_l; auto.
Qed.

(** Parameters for which no standard deviation is zero. *)
Definition par2 (v : Z) (i : nat) : F XR * F XR := (Fin (IZR v), Fin (INR i + /2)).
Lemma par2_l : (forall v i, member sc3 v -> exists mu s, par2 v i = (Fin mu, Fin s)) /\
  (forall mu sigma x, logval (flat mu sigma x)) /\ (forall v i, member sc3 v -> snd (par2 v i) <> Fin 0).
Proof.
  split; [intros v i _; eexists; eexists; reflexivity|]. split; [intros; exact Logic.I|].
  intros v i _ E. unfold par2 in E. cbn in E. injection E as E. pose proof (pos_INR i). lra.
Qed.
