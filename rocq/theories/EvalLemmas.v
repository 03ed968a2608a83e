(** Proofs about the evaluation of classifiers. *)
From Coq Require Import Reals Lra.
From Verif Require Import Base Res Arith LogSpec GoMap Data DataSpec DataLemmas DataLoops DataParts DataByLabel Score ScoreSpec ScoreLemmas.
Local Open Scope Z_scope.

Lemma foldi_inv {A T} (f : nat -> T -> A -> res T) (P : list A -> T -> Prop) X s0 :
  P [] s0 -> (forall pre x post s, X = pre ++ x :: post -> P pre s -> exists s', f (length pre) s x = Ok s' /\ P (pre ++ [x]) s') ->
  exists s, foldi f X s0 = Ok s /\ P X s.
Proof.
  intros H0 H. unfold foldi. assert (G : forall post pre s, X = pre ++ post -> P pre s -> exists s', foldi_from (length pre) f post s = Ok s' /\ P X s').
  { induction post as [|x post IH]; intros pre s E Hs; simpl.
    - rewrite app_nil_r in E. subst. eauto.
    - destruct (H pre x post s E Hs) as (s' & Es & Hs'). rewrite Es. simpl. specialize (IH (pre ++ [x]) s'). rewrite app_length in IH. apply IH; auto. rewrite <- app_assoc. auto. }
  apply (G X []); auto.
Qed.
Lemma foldr_inv {A T} (f : T -> A -> res T) (P : list A -> T -> Prop) X s0 :
  P [] s0 -> (forall pre x post s, X = pre ++ x :: post -> P pre s -> exists s', f s x = Ok s' /\ P (pre ++ [x]) s') ->
  exists s, foldr_ f X s0 = Ok s /\ P X s.
Proof.
  intros H0 H. assert (G : forall post pre s, X = pre ++ post -> P pre s -> exists s', foldr_ f post s = Ok s' /\ P X s').
  { induction post as [|x post IH]; intros pre s E Hs; simpl.
    - rewrite app_nil_r in E. subst. eauto.
    - destruct (H pre x post s E Hs) as (s' & Es & Hs'). rewrite Es. simpl. apply (IH (pre ++ [x]) s'); auto. rewrite <- app_assoc. auto. }
  apply (G X []); auto.
Qed.

Lemma grown_refl w s sc : nth_error (objs w) s = Some sc -> grown w w s [].
Proof. intros H. exists sc, sc. simpl. rewrite app_nil_r. intuition lia. Qed.
Lemma grown_trans w1 w2 w3 s p q : grown w1 w2 s p -> grown w2 w3 s q -> grown w1 w3 s (p ++ q).
Proof.
  intros (a & b & Ha & Hb & V1 & T1 & H1 & M1 & L1 & O1) (b' & c & Hb' & Hc & V2 & T2 & H2 & M2 & L2 & O2). rewrite Hb in Hb'. injection Hb' as <-.
  exists a, c. rewrite !filter_app, !app_length, !Nat2Z.inj_add. rewrite V2, V1, app_assoc. repeat (split; auto); try lia. intros t Ht. rewrite O2, O1; auto.
Qed.
Lemma register_grown grow w s p e : wf w -> (s < length (objs w))%nat -> exists w', register grow w s p e = Ok w' /\ wf w' /\ grown w w' s [(p, e)].
Proof.
  intros W Hs. destruct (nth_error_lt_some _ _ Hs) as [sc Hsc]. destruct (register_ok grow w s p e sc W Hsc) as (w' & sc' & E & W' & Hs' & Hl & Ho & Hv & Hn & Hh & Hm & Ht).
  exists w'. split; auto. split; auto. exists sc, sc'. cbn [filter length]. destruct (matches (p, e)); simpl; repeat (split; auto); lia.
Qed.
Lemma grown_len w w' s ps : grown w w' s ps -> length (objs w') = length (objs w).
Proof. intros (a & b & _ & _ & _ & _ & _ & _ & H & _). auto. Qed.

Lemma del_del m k : del (del m k) k = del m k.
Proof. unfold del. induction m as [|e m IH]; simpl; auto. destruct (negb (fst e =? k)) eqn:E; simpl; rewrite ?E, IH; auto. Qed.
Lemma del_put m k x : del (put m k x) k = del m k.
Proof. unfold put. cbn [del filter fst]. rewrite Z.eqb_refl. simpl. apply del_del. Qed.
Lemma put_del m k x : put (del m k) k x = put m k x.
Proof. unfold put. rewrite del_del. auto. Qed.

(** Same maps up to v, which has the same entry. *)
Definition same (v : Z) (h h' : heap) : Prop := nxt h' = nxt h /\ forall r, del (mem h' r) v = del (mem h r) v /\ get (mem h' r) v = get (mem h r) v.
Lemma same_meq v h h' : same v h h' -> forall r, meq (mem h' r) (mem h r).
Proof.
  intros [_ H] r k. destruct (H r) as [Hd Hg]. destruct (Z.eq_dec v k) as [<-|Hk]; auto.
  assert (E : forall m, get m k = get (del m v) k) by (intros m; rewrite get_del; destruct (Z.eqb_spec v k); congruence). rewrite E, Hd. symmetry. apply E.
Qed.

Lemma progress_ok i n : (i = 0 \/ 0 < n)%nat -> progress i n = Ok tt.
Proof. intros H. unfold progress. destruct (Nat.ltb_spec 0 i), (Nat.eqb_spec n 0); simpl; auto; lia. Qed.

(** One pass over a test set: each instance is given to [cl], which sees it without v. *)
Section Pass.
Variable grow : nat -> nat -> nat -> nat.
Variable v : Z.
Variable (cl : gmap -> res Z) (good : gmap -> Z -> Prop).
Hypothesis cl_hidden : forall I J, del I v = del J v -> cl I = cl J.

Definition pass (n : nat) (s : nat) (L : list Z) (i : nat) (st : heap * world) (r : nat) : res (heap * world) :=
  let (h, w) := st in
  _ <- progress i n; p <- cl (mem h r); e <- idx L i; w' <- register grow w s p e;
  Ok (store h r (put (del (mem h r) v) v (get0 (mem h r) v)), w').

Lemma pass_ok h w s T L : wf w -> (s < length (objs w))%nat -> length L = length T -> (length T <= 1 \/ 10 <= length T)%nat ->
  (forall r, In r T -> get (mem h r) v <> None) -> (forall r, In r T -> exists p, cl (mem h r) = Ok p /\ good (mem h r) p) ->
  exists h' w' ps, foldi (pass (length T / 10) s L) T (h, w) = Ok (h', w') /\ wf w' /\ nxt h' = nxt h /\ (forall r, meq (mem h' r) (mem h r)) /\
    map snd ps = L /\ Forall2 (fun r p => good (mem h r) (fst p)) T ps /\ grown w w' s ps.
Proof.
  intros W Hs HL Hn Hv Hp.
  destruct (foldi_inv (pass (length T / 10) s L) (fun pre (st : heap * world) => let (h', w') := st in same v h h' /\ wf w' /\ exists ps, map snd ps = firstn (length pre) L /\ Forall2 (fun r p => good (mem h r) (fst p)) pre ps /\ grown w w' s ps) T (h, w)) as ([h' w'] & E & S & W' & ps & Hps & HF & Hg).
  - split; [split; auto|]. split; auto. exists []. destruct (nth_error_lt_some _ _ Hs) as [sc Hsc]. split; [|split]; auto. eapply grown_refl; eauto.
  - intros pre r post [h1 w1] E (Sm & W1 & ps & Hps & HF & Hg). unfold pass.
    assert (HT : length T = (length pre + S (length post))%nat) by (rewrite E, app_length; auto).
    rewrite progress_ok by (destruct Hn; [left; lia|right; apply Nat.div_str_pos; lia]). cbn [bind].
    assert (Hr : In r T) by (rewrite E; apply in_or_app; right; left; auto).
    destruct (Hp r Hr) as (p & Ep & Hgood). destruct Sm as [Sn Sm]. destruct (Sm r) as [Sd Sg]. rewrite (cl_hidden (mem h1 r) (mem h r) Sd), Ep. cbn [bind].
    destruct (nth_error_lt_some L (length pre)) as [e He]; [lia|]. rewrite (idx_ok _ _ _ He). cbn [bind].
    destruct (register_grown grow w1 s p e W1) as (w2 & E2 & W2 & G2); [rewrite (grown_len _ _ _ _ Hg); auto|]. rewrite E2. cbn [bind]. eexists. split; [reflexivity|].
    split; [|split; [exact W2|exists (ps ++ [(p, e)])]].
    + split; [exact Sn|]. intros r'. unfold store. simpl. destruct (Nat.eq_dec r' r) as [->|Hne]; [|rewrite upd_diff by auto; apply Sm]. rewrite upd_same, put_del, del_put. split; auto.
      rewrite get_put, Z.eqb_refl. rewrite <- Sg. unfold get0. destruct (get (mem h1 r) v) eqn:Eg; auto. exfalso. apply (Hv r Hr). congruence.
    + rewrite map_app, Hps. simpl. split.
      { rewrite app_length. cbn [length]. rewrite Nat.add_1_r. clear -He. revert L He. induction (length pre) as [|k IH]; intros [|x L] He; simpl in *; try discriminate; [congruence|]. f_equal. apply IH; auto. }
      split; [apply Forall2_app; auto|]. eapply grown_trans; eauto.
  - exists h', w', ps. rewrite E. split; auto. split; auto. split; [apply S|]. split; [apply (same_meq v); auto|].
    split; [rewrite Hps, <- HL; apply firstn_all|]. auto.
Qed.

Lemma pass_small h w s T L : (2 <= length T <= 9)%nat -> (forall I, exists p, cl I = Ok p) -> wf w -> (s < length (objs w))%nat -> length L = length T ->
  foldi (pass (length T / 10) s L) T (h, w) = Panic.
Proof.
  intros HT Hp W Hs HL. rewrite (Nat.div_small (length T) 10) by lia. destruct T as [|r1 [|r2 T]]; simpl in HT; try lia. destruct L as [|l1 L]; [discriminate|].
  unfold foldi. cbn [foldi_from]. unfold pass at 1. rewrite progress_ok by auto. cbn [bind]. destruct (Hp (mem h r1)) as [p Ep]. rewrite Ep. cbn [bind idx nth_error].
  destruct (register_grown grow w s p l1 W Hs) as (w' & E & _). rewrite E. reflexivity.
Qed.
End Pass.

Section Evaluate.
Variable grow : nat -> nat -> nat -> nat.
Definition mapLabel (smap : gmap -> res gmap) (v : Z) (I : gmap) : res Z := M <- smap (del I v); Ok (get0 M v).
Lemma evaluate_pass smap h w s T L v : evaluate grow smap h w s T L v = foldi (pass grow v (mapLabel smap v) (length T / 10) s L) T (h, w).
Proof.
  unfold evaluate, foldi. apply foldi_from_ext. intros i [h1 w1] r _. unfold pass, mapLabel. destruct (progress i (length T / 10)); simpl; auto.
  destruct (smap (del (mem h1 r) v)) as [M| |]; simpl; auto.
Qed.
Lemma evaluate_ok smap h w s T L v : wf w -> (s < length (objs w))%nat -> length L = length T -> (length T <= 1 \/ 10 <= length T)%nat ->
  (forall r, In r T -> get (mem h r) v <> None) -> (forall r, In r T -> exists M, smap (del (mem h r) v) = Ok M) ->
  exists h' w' ps, evaluate grow smap h w s T L v = Ok (h', w') /\ wf w' /\ nxt h' = nxt h /\ (forall r, meq (mem h' r) (mem h r)) /\
    map snd ps = L /\ Forall2 (fun r p => exists M, smap (del (mem h r) v) = Ok M /\ fst p = get0 M v) T ps /\ grown w w' s ps.
Proof.
  intros W Hs HL Hn Hv Hp. rewrite evaluate_pass. apply (pass_ok grow v (mapLabel smap v) (fun I l => exists M, smap (del I v) = Ok M /\ l = get0 M v)); auto.
  - intros I J E. unfold mapLabel. rewrite E. auto.
  - intros r Hr. destruct (Hp r Hr) as [M E]. unfold mapLabel. rewrite E. simpl. eauto.
Qed.
Lemma evaluate_small smap h w s T L v : wf w -> (s < length (objs w))%nat -> length L = length T -> (2 <= length T <= 9)%nat ->
  (forall I, exists M, smap I = Ok M) -> evaluate grow smap h w s T L v = Panic.
Proof.
  intros W Hs HL Hn Hp. rewrite evaluate_pass. apply pass_small; auto. intros I. unfold mapLabel. destruct (Hp (del I v)) as [M E]. rewrite E. simpl. eauto.
Qed.

(** * Posterior *)
Variable value : gmap -> res (F XR).

Lemma exp_le a b : (a <= b -> exp a <= exp b)%R.
Proof. intros [H| ->]; [left; apply exp_increasing; auto|right; auto]. Qed.

Lemma posterior_ok v c I : (1 <= c) -> possible value v (Z.to_nat c) I -> exists l, @posterior XR value v c I = Ok (del I v, l) /\ classified value v (Z.to_nat c) I l.
Proof.
  intros Hc [[e He] Hx]. unfold posterior. change (F XR) with xreal in *. rewrite He. cbn [bind].
  set (f := fun (st : gmap * xreal * Z) (j : Z) => _).
  set (q := fun j => match value (put I v (Z.of_nat j)) with Ok x => lin x | _ => 0%R end).
  destruct (foldr_inv f (fun (pre : list Z) st => let '(J, mp, ml) := st in J = del I v /\
      ((mp = NInf /\ ml = 0 /\ forall j, (j < length pre)%nat -> q j = 0%R) \/
       exists m y, value (put I v (Z.of_nat m)) = Ok (Fin y) /\ mp = Fin (y - e) /\ ml = Z.of_nat m /\ first_max q (length pre) m))
     (map Z.of_nat (seq 0 (Z.to_nat c))) (del I v, NInf, 0)) as ([[J mp] ml] & E & -> & HJ).
  - split; auto. left. split; auto. split; auto. intros j Hj. simpl in Hj. lia.
  - intros pre x post [[J mp] ml] E [-> HI].
    assert (Hlen : (length pre < Z.to_nat c)%nat /\ x = Z.of_nat (length pre)).
    { assert (Hl : length (map Z.of_nat (seq 0 (Z.to_nat c))) = Z.to_nat c) by (rewrite map_length, seq_length; auto). assert (Hlt : (length pre < Z.to_nat c)%nat) by (rewrite E, app_length in Hl; simpl in Hl; lia). split; auto.
      assert (Hn : nth_error (map Z.of_nat (seq 0 (Z.to_nat c))) (length pre) = Some x) by (rewrite E, nth_error_app2, Nat.sub_diag by auto; auto).
      rewrite nth_error_map_seq in Hn by auto. congruence. }
    destruct Hlen as [Hlt ->]. destruct (Hx _ Hlt) as (y & Ey & Hy). unfold f. rewrite put_del, Ey. cbn [bind]. rewrite del_put.
    assert (Hq : q (length pre) = lin y) by (unfold q; rewrite Ey; auto).
    rewrite app_length. cbn [length]. rewrite Nat.add_1_r.
    destruct y as [y| | |]; try contradiction.
    + destruct HI as [(-> & -> & Hz)|(m & y' & Em & -> & -> & Hm)].
      * eexists. split; [reflexivity|]. split; auto. right. exists (length pre), y. split; auto. split; [reflexivity|]. split; auto. split; [lia|].
        pose proof (exp_pos y). split; intros j Hj; [destruct (Nat.eq_dec j (length pre)) as [->|]; [lra|]|]; rewrite Hq, Hz by lia; simpl; lra.
      * assert (Hqm : q m = exp y') by (unfold q; rewrite Em; auto). destruct Hm as (Hm1 & Hm2 & Hm3).
        cbn [fgt fsub XR xsub xneg xadd xgt]. destruct (Rlt_dec (y' - e) (y + - e)) as [Hd|Hd].
        -- eexists. split; [reflexivity|]. split; auto. right. exists (length pre), y. split; auto. split; [reflexivity|]. split; auto. simpl in Hq. assert (exp y' < exp y)%R by (apply exp_increasing; lra).
           split; [lia|]. split; intros j Hj; [destruct (Nat.eq_dec j (length pre)) as [->|]; [lra|]|]; assert (q j <= q m)%R by (apply Hm2; lia); lra.
        -- eexists. split; [reflexivity|]. split; auto. right. exists m, y'. split; auto. split; auto. split; auto. simpl in Hq. assert (exp y <= exp y')%R by (apply exp_le; lra).
           split; [lia|]. split; auto. intros j Hj. destruct (Nat.eq_dec j (length pre)) as [->|]; [lra|apply Hm2; lia].
    + simpl in Hq. eexists. split; [reflexivity|]. cbn [fgt fsub XR xsub xneg xadd xgt]. replace (match mp with Fin _ | PInf | NInf | NaN => false end) with false by (destruct mp; auto).
      split; auto. destruct HI as [(-> & -> & Hz)|(m & y' & Em & -> & -> & Hm)].
      * left. split; auto. split; auto. intros j Hj. destruct (Nat.eq_dec j (length pre)) as [->|]; auto. apply Hz. lia.
      * right. exists m, y'. destruct Hm as (Hm1 & Hm2 & Hm3). repeat (split; auto). intros j Hj. destruct (Nat.eq_dec j (length pre)) as [->|]; [|apply Hm2; lia]. rewrite Hq. unfold q. rewrite Em. simpl. left. apply exp_pos.
  - rewrite map_length, seq_length in HJ. exists ml. split; [exact (f_equal (fun t => bind t (fun r => Ok (fst (fst r), snd r))) E)|].
    assert (Hqs : forall j, (j < Z.to_nat c)%nat -> exists x, value (put I v (Z.of_nat j)) = Ok x /\ q j = lin x) by (intros j Hj; destruct (Hx j Hj) as (x & Ex & _); exists x; split; auto; unfold q; rewrite Ex; auto).
    destruct HJ as [(_ & -> & Hz)|(m & y & Em & _ & -> & Hm)]; exists q; [exists 0%nat|exists m]; (split; [exact Hqs|]); split; auto.
    split; [lia|]. split; intros j Hj; [|lia]. rewrite !Hz; lra || lia.
Qed.

Lemma posterior_map v c I q : @posterior XR value v c I = Ok q -> fst q = del I v.
Proof.
  unfold posterior. intros H. apply bind_ok in H as (pe & _ & H). apply bind_ok in H as ([[J mp] ml] & Hf & H). injection H as <-. simpl. revert Hf.
  generalize (@fninf XR) 0 (map Z.of_nat (seq 0 (Z.to_nat c))). intros m0 l0 js. revert m0 l0. induction js as [|j js IH]; intros m0 l0; cbn [foldr_]; [intros [= <-]; auto|].
  intros H. apply bind_ok in H as (st & Hst & H). apply bind_ok in Hst as (pj & _ & Hst). injection Hst as <-. rewrite Z.eqb_refl in H. cbn [negb] in H. rewrite !del_del in H. destruct (xgt (xsub pj pe) m0); eapply IH; eauto.
Qed.

Definition postLabel (v c : Z) (I : gmap) : res Z := q <- @posterior XR value v c I; Ok (snd q).
Lemma posterior_hidden v c I J : del I v = del J v -> @posterior XR value v c I = @posterior XR value v c J.
Proof. intros E. unfold posterior. rewrite E. auto. Qed.

Lemma evaluatePosterior_ok h w s T L v c : wf w -> (s < length (objs w))%nat -> length L = length T -> (length T <= 1 \/ 10 <= length T)%nat -> 1 <= c ->
  (forall r, In r T -> get (mem h r) v <> None) -> (forall r, In r T -> possible value v (Z.to_nat c) (mem h r)) ->
  exists h' w' ps, @evaluatePosterior grow XR value h w s T L v c = Ok (h', w') /\ wf w' /\ nxt h' = nxt h /\ (forall r, meq (mem h' r) (mem h r)) /\
    map snd ps = L /\ Forall2 (fun r p => classified value v (Z.to_nat c) (mem h r) (fst p)) T ps /\ grown w w' s ps.
Proof.
  intros W Hs HL Hn Hc Hv Hp.
  destruct (pass_ok grow v (postLabel v c) (classified value v (Z.to_nat c))) with (h := h) (w := w) (s := s) (T := T) (L := L) as (h' & w' & ps & E & H); auto.
  { intros I J E. unfold postLabel. rewrite (posterior_hidden v c I J E). auto. }
  { intros r Hr. destruct (posterior_ok v c (mem h r) Hc (Hp r Hr)) as (l & E & Hl). exists l. unfold postLabel. rewrite E. auto. }
  exists h', w', ps. split; auto. rewrite <- E.
  unfold evaluatePosterior, foldi. apply foldi_from_ext. intros i [h1 w1] r Hr. unfold pass, postLabel. destruct (progress i (length T / 10)); simpl; auto.
  destruct (@posterior XR value v c (mem h1 r)) as [[m l]| |] eqn:Eq; simpl; auto. rewrite (posterior_map v c (mem h1 r) _ Eq : m = _). auto.
Qed.
End Evaluate.
