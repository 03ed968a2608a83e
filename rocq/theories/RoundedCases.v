From Coq Require Import QArith Qreals Reals Lra.
From Verif Require Import Base Res Arith LogMath LogSpec LogLemmas GraphSpec GraphLemmas Topo TopoLemmas Spn Leaves ProbSpec ProbLemmas Codec Serial SerialSpec CodecLemmas SerialLemmas SerialCases RoundedSpec RoundedLemmas.
Local Open Scope R_scope.

(** Rationals of a table are known exactly, and decimals are read exactly. *)
Definition table_exact (qs : list Q) (w : F XR) : num :=
  match w with
  | Fin x => match find (fun q => if Req_EM_T x (Q2R q) then true else false) qs with Some q => Val q | None => NotANum end
  | PInf => Infty false | NInf => Infty true | NaN => NotANum
  end.
Definition real_near (n : num) : F XR := match n with Val q => Fin (Q2R q) | Infty true => NInf | Infty false => PInf | NotANum => NaN end.
Lemma table_reads qs : reads_rationals (table_exact qs) real_near 0.
Proof.
  split; [|split].
  - intros w q H. destruct w as [x| | |]; try discriminate. cbn in H. destruct (find _ qs) as [q'|] eqn:E; [|discriminate]. injection H as <-.
    apply find_some in E as (_ & E). destruct (Req_EM_T x (Q2R q')) as [->|]; [auto|discriminate].
  - intros d. exists (Q2R (sixth d)). split; auto. rewrite Rminus_diag_eq by auto. rewrite Rabs_R0. lra.
  - cbn. f_equal. unfold Q2R. cbn. lra.
Qed.

(** A sum over indicators of variable 0. *)
Definition star_ch (n : nat) : graph := fun u => match u with O => seq 1 n | S _ => [] end.
Definition star_cont (qs : list Q) : nat -> content XR := fun u => match u with O => @CSum XR (map (fun q => Fin (Q2R q)) qs) | S k => @CInd XR 0 (Z.of_nat k) end.
Lemma star_bounded n : bounded (star_ch n) (S n).
Proof. intros u c Hc. destruct u; [|destruct Hc]. apply in_seq in Hc. lia. Qed.
Lemma star_reach n u v : reach (star_ch n) u v -> u = v \/ u = 0%nat.
Proof. intros H. apply reach_inv in H as [->|(c & Hc & _)]; auto. destruct u; auto. destruct Hc. Qed.
Lemma star_acyclic n : acyclic (star_ch n).
Proof. intros u c Hc H. destruct u; [|destruct Hc]. apply in_seq in Hc. apply star_reach in H as [H|H]; lia. Qed.
Lemma star_siblings n : siblings_ok (star_ch n).
Proof.
  intros u l1 a l2 v l3 E N H. destruct u; [|destruct l1; discriminate]. apply star_reach in H as [-> | ->].
  - apply N, in_or_app. right. left. auto.
  - assert (Hin : In 0%nat (star_ch n 0%nat)) by (rewrite E; apply in_or_app; right; right; apply in_or_app; right; left; auto). apply in_seq in Hin. lia.
Qed.

Section Star.
Variable logProb : F XR -> F XR -> F XR -> F XR.
Variables trunc round : F XR -> Z.
Local Notation K := (kind_of logProb trunc round).
Lemma star_value (c : nat -> content XR) n ws I p : c 0%nat = @CSum XR (map Fin ws) -> (forall k, c (S k) = @CInd XR 0 (Z.of_nat k)) -> length ws = n -> n <> 0%nat -> (forall w, In w ws -> 0 <= w) ->
  (forall k, 0 <= p k /\ @indValue XR 0 (Z.of_nat k) I = xln (p (S k))) ->
  value (network_of K c (star_ch n)) (S n) I 0 = Ok (xln (psum p (seq 1 n) ws)).
Proof.
  intros E0 E1 L Hn Hw Hp. cbn [value network_of nk nch]. rewrite E0. cbn [kind_of]. unfold sumVals, mapi. cbn [star_ch].
  rewrite (mapi_zip _ (fun k wi => xadd (xln (p k)) (@flog XR wi)) (map Fin ws) _ (map Fin ws) []); [|reflexivity|rewrite map_length, seq_length; auto|].
  - cbn [bind]. rewrite combine_map_r, map_map. cbn [fst snd].
    rewrite (map_ext_in _ (fun cw => xln (p (fst cw) * snd cw))).
    2:{ intros (k & w) Hin. apply in_combine_wt in Hin as [H1 H2]. cbn [fst snd]. change (@flog XR) with xlog. rewrite xlog_nonneg by auto. apply xadd_xln; auto. apply Hp. }
    rewrite <- (map_map (fun cw => p (fst cw) * snd cw) xln). unfold sumCompute, psum. rewrite logSumExp_xln; auto.
    + destruct n; [congruence|]. destruct ws; discriminate.
    + intros x Hx. apply in_map_iff in Hx as ((k & w) & <- & Hin). apply in_combine_wt in Hin as [H1 H2]. apply Rmult_le_pos; auto. apply Hp.
  - intros i k wi Hk Hwi. apply in_seq in Hk. destruct k as [|k]; [lia|]. destruct n as [|n']; [lia|]. cbn [value nk network_of]. rewrite E1. cbn [kind_of lvalue indLeaf orPanic].
    destruct (Hp k) as (_ & ->). cbn [bind]. unfold idx. rewrite Hwi. reflexivity.
Qed.
End Star.

Lemma star_ints qs u : (Z.of_nat (length qs) < 2 ^ 32)%Z -> (Z.of_nat u <= 2 ^ 32)%Z -> ints_ok (star_cont qs u).
Proof. intros H Hu. destruct u as [|k]; cbn [star_cont ints_ok]; unfold go_int; rewrite ?map_length; lia. Qed.
Lemma star_range n u : reach (star_ch n) 0 u -> (u <= n)%nat.
Proof. intros H. apply reach_inv in H as [<-|(c & Hc & H)]; [lia|]. apply in_seq in Hc. apply star_reach in H as [<-|H]; lia. Qed.

Definition no_evidence : varset := fun _ => None.
Lemma ind_none k : @indValue XR 0 (Z.of_nat k) no_evidence = xln 1.
Proof. cbn. rewrite xln_one. reflexivity. Qed.

(** Three thirds. *)
Definition thirds : list Q := [1 # 3; 1 # 3; 1 # 3]%Q.
Lemma thirds_exact : table_exact thirds (Fin (Q2R (1 # 3))) = Val (1 # 3).
Proof. cbn. destruct (Req_EM_T (Q2R (1 # 3)) (Q2R (1 # 3))); [auto|congruence]. Qed.
Lemma thirds_reread : reread (table_exact thirds) real_near (Fin (Q2R (1 # 3))) = Fin (333333 / 1000000).
Proof. unfold reread. rewrite thirds_exact. replace (scaled (1 # 3)) with 333333%Z by (vm_compute; reflexivity). cbn. f_equal. Qed.

Lemma thirds_refuted_l logProb trunc round : let K := kind_of (A := XR) logProb trunc round in
  exists exact near cont ch N r, reads_rationals exact near 0 /\ bounded ch N /\ (r < N)%nat /\ acyclic ch /\ siblings_ok ch /\ (forall u, reach ch r u -> ints_ok (cont u)) /\
  weights_nonneg (network_of K cont ch) r /\ weights_normalised (network_of K cont ch) r /\
  exists msg h r', marshal exact cont ch (2 * N + 1) r = Ok msg /\ unmarshal near msg = Ok (h, Some r') /\
    forall net', describes K h net' -> value (network_of K cont ch) N no_evidence r = Ok (Fin 0) /\ value net' N no_evidence r' = Ok (Fin (ln (999999 / 1000000))).
Proof.
  intros K. exists (table_exact thirds), real_near, (star_cont thirds), (star_ch 3), 4%nat, 0%nat.
  assert (HI : forall u, reach (star_ch 3) 0 u -> ints_ok (star_cont thirds u)) by (intros u H; apply star_ints; [cbn; lia|apply star_range in H; lia]).
  assert (E3 : Q2R (1 # 3) = / 3) by (unfold Q2R; cbn; lra).
  split; [apply table_reads|]. split; [apply star_bounded|]. split; [lia|]. split; [apply star_acyclic|]. split; [apply star_siblings|]. split; auto.
  split; [|split].
  - intros u w R Ek. destruct u; [|discriminate]. cbn in Ek. injection Ek as <-. split; [discriminate|]. exists (map Q2R thirds). split; [reflexivity|]. split; [reflexivity|]. intros x [<-|[<-|[<-|[]]]]; rewrite E3; lra.
  - intros u ws R Ek. destruct u; [|discriminate]. cbn in Ek. destruct ws as [|a [|b [|c [|d ws]]]]; try discriminate. injection Ek as <- <- <-. cbn. rewrite E3. lra.
  - destruct (loaded_value (table_exact thirds) real_near K (star_cont thirds) (star_ch 3) 4 0 (star_bounded 3) ltac:(lia) ltac:(lia) HI (star_acyclic 3) (star_siblings 3)) as (msg & h & r' & E1 & E2 & Hv).
    exists msg, h, r'. split; auto. split; auto. intros net' Hd. rewrite (Hv net' Hd). split.
    + unfold K. rewrite (star_value logProb trunc round (star_cont thirds) 3 (map Q2R thirds) no_evidence (fun _ => 1)); auto; try reflexivity.
      * unfold psum, thirds. cbn [map seq combine fst snd Rsum]. rewrite E3. replace (1 * / 3 + (1 * / 3 + (1 * / 3 + 0))) with 1 by lra. rewrite xln_one. auto.
      * intros w [<-|[<-|[<-|[]]]]; rewrite E3; lra.
      * intros k. split; [lra|apply ind_none].
    + unfold K. rewrite (star_value logProb trunc round _ 3 [333333 / 1000000; 333333 / 1000000; 333333 / 1000000] no_evidence (fun _ => 1)); auto; try reflexivity.
      * unfold psum. cbn [map seq combine fst snd Rsum]. replace (1 * (333333 / 1000000) + (1 * (333333 / 1000000) + (1 * (333333 / 1000000) + 0))) with (999999 / 1000000) by lra. rewrite xln_pos by lra. auto.
      * cbn [star_cont recontent thirds map]. rewrite thirds_reread. reflexivity.
      * intros w [<-|[<-|[<-|[]]]]; lra.
      * intros k. split; [lra|apply ind_none].
Qed.

(** One weight of a ten-millionth. *)
Definition tiny : list Q := [1 # 10000000; 9999999 # 10000000]%Q.
Definition state0 : varset := vsingle 0 0.
Definition is0 (k : nat) : R := if Nat.eqb k 1 then 1 else 0.
Lemma ind_state0 k : 0 <= is0 k /\ @indValue XR 0 (Z.of_nat k) state0 = xln (is0 (S k)).
Proof.
  split; [unfold is0; destruct (Nat.eqb k 1); lra|]. destruct k as [|k]; [cbn; rewrite xln_one; reflexivity|]. unfold is0. cbn [Nat.eqb]. rewrite xln_zero. cbn. reflexivity.
Qed.
Lemma tiny_refuted_l logProb trunc round : let K := kind_of (A := XR) logProb trunc round in
  exists exact near cont ch N r I, reads_rationals exact near 0 /\ bounded ch N /\ (r < N)%nat /\ acyclic ch /\ siblings_ok ch /\ (forall u, reach ch r u -> ints_ok (cont u)) /\
  weights_nonneg (network_of K cont ch) r /\ weights_normalised (network_of K cont ch) r /\
  exists msg h r', marshal exact cont ch (2 * N + 1) r = Ok msg /\ unmarshal near msg = Ok (h, Some r') /\
    forall net', describes K h net' -> value (network_of K cont ch) N I r = Ok (Fin (ln (1 / 10000000))) /\ value net' N I r' = Ok NInf.
Proof.
  intros K. exists (table_exact tiny), real_near, (star_cont tiny), (star_ch 2), 3%nat, 0%nat, state0.
  assert (HI : forall u, reach (star_ch 2) 0 u -> ints_ok (star_cont tiny u)) by (intros u H; apply star_ints; [cbn; lia|apply star_range in H; lia]).
  assert (E1 : Q2R (1 # 10000000) = 1 / 10000000) by (unfold Q2R; cbn; lra). assert (E9 : Q2R (9999999 # 10000000) = 9999999 / 10000000) by (unfold Q2R; cbn; lra).
  split; [apply table_reads|]. split; [apply star_bounded|]. split; [lia|]. split; [apply star_acyclic|]. split; [apply star_siblings|]. split; auto.
  split; [|split].
  - intros u w R Ek. destruct u; [|discriminate]. cbn in Ek. injection Ek as <-. split; [discriminate|]. exists (map Q2R tiny). split; [reflexivity|]. split; [reflexivity|]. intros x [<-|[<-|[]]]; rewrite ?E1, ?E9; lra.
  - intros u ws R Ek. destruct u; [|discriminate]. cbn in Ek. destruct ws as [|a [|b [|c ws]]]; try discriminate. injection Ek as <- <-. cbn [Rsum]. rewrite E1, E9. lra.
  - destruct (loaded_value (table_exact tiny) real_near K (star_cont tiny) (star_ch 2) 3 0 (star_bounded 2) ltac:(lia) ltac:(lia) HI (star_acyclic 2) (star_siblings 2)) as (msg & h & r' & M1 & M2 & Hv).
    exists msg, h, r'. split; auto. split; auto. intros net' Hd. rewrite (Hv net' Hd). split.
    + unfold K. rewrite (star_value logProb trunc round (star_cont tiny) 2 (map Q2R tiny) state0 is0); auto; try reflexivity.
      * unfold psum, tiny, is0. cbn [map seq combine fst snd Rsum Nat.eqb]. rewrite E1. replace (1 * (1 / 10000000) + (0 * Q2R (9999999 # 10000000) + 0)) with (1 / 10000000) by lra. rewrite xln_pos by lra. auto.
      * intros w [<-|[<-|[]]]; rewrite ?E1, ?E9; lra.
      * apply ind_state0.
    + unfold K. rewrite (star_value logProb trunc round _ 2 [0; 1] state0 is0); auto; try reflexivity.
      * unfold psum, is0. cbn [map seq combine fst snd Rsum Nat.eqb]. replace (1 * 0 + (0 * 1 + 0)) with 0 by lra. rewrite xln_zero. auto.
      * cbn [star_cont recontent tiny map]. f_equal. unfold reread. cbn [table_exact tiny find].
        destruct (Req_EM_T (Q2R (1 # 10000000)) (Q2R (1 # 10000000))); [|congruence]. destruct (Req_EM_T (Q2R (9999999 # 10000000)) (Q2R (1 # 10000000))) as [X|_]; [rewrite E1, E9 in X; lra|].
        destruct (Req_EM_T (Q2R (9999999 # 10000000)) (Q2R (9999999 # 10000000))); [|congruence].
        replace (scaled (1 # 10000000)) with 0%Z by (vm_compute; reflexivity). replace (scaled (9999999 # 10000000)) with 1000000%Z by (vm_compute; reflexivity). cbn. unfold sixth, Q2R. cbn. f_equal; [f_equal; lra|]. f_equal. f_equal. lra.
      * intros w [<-|[<-|[]]]; lra.
      * apply ind_state0.
Qed.

(** A case of the theorem: the thirds, with one parameter per term. *)
Definition one_each (u : nat) : nat := match u with O => 1%nat | S _ => 0%nat end.
Lemma thirds_above : parameters_above (table_exact thirds) (1 / 3) (star_cont thirds) (star_ch 3) 0.
Proof.
  intros u H. destruct u as [|k]; [|exact Logic.I]. cbn [star_cont]. split; [discriminate|]. split; [reflexivity|].
  assert (Z3 : zero_or_above (table_exact thirds) (1 / 3) (Fin (Q2R (1 # 3)))) by (exists (1 # 3)%Q; split; [apply thirds_exact|right; unfold Q2R; cbn; lra]). repeat constructor; exact Z3.
Qed.
Lemma thirds_counts : counts_parameters (star_cont thirds) (star_ch 3) 0 one_each.
Proof. intros u H. destruct u as [|k]; [|exact Logic.I]. cbn. intros c [<-|[<-|[<-|[]]]]; cbn; lia. Qed.
Lemma thirds_within : within_categories (star_cont thirds) (star_ch 3) 0 state0.
Proof. intros u m v R E. destruct u; discriminate. Qed.
