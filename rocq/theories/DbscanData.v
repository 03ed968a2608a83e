(** Proofs about DBSCANData: which clusterings it can return. *)
From Coq Require Import Relations Permutation.
From Verif Require DataByLabel.
From Verif Require Import Base Res Arith GoMap Tables TablesSpec TablesLemmas DataSpec DataLemmas UnionFind UnionSpec UnionLemmas
  IndGraphLemmas Cluster ClusterSpec ClusterLemmas ClusterModes Dbscan DbscanLemmas.

Lemma seq_snoc s n : seq s (S n) = seq s n ++ [s + n].
Proof. rewrite <- Nat.add_1_r, seq_app. reflexivity. Qed.

(** ** Labels *)
Section Labels.
Variable n k fuel : nat.
Variable s : uf.
Variable E : nat -> nat -> Prop.
Hypothesis HI : INV k s E.
Hypothesis Hn : unext s = n.
Hypothesis Hv : forall i, i < n -> vid s i = Z.of_nat i.
Hypothesis Hk : k < fuel.

Definition reps : list nat := filter (fun i => Nat.eqb (pa s i) i) (seq 0 n).

Lemma mark_l (v : Z) : forall (ch : list nat) (G : list Z), (forall c, In c ch -> c < length G) ->
  exists G', foldr_ (fun G c => _ <- idxZ G c; Ok (set_nth (Z.to_nat c) v G)) (map Z.of_nat ch) G = Ok G' /\ length G' = length G /\
    (forall c, In c ch -> nth_error G' c = Some v) /\ (forall c, ~ In c ch -> nth_error G' c = nth_error G c).
Proof.
  induction ch as [|c ch IH]; intros G H; cbn [map foldr_]; [exists G; split; auto; split; auto; split; auto; intros c []|].
  assert (Hc : c < length G) by (apply H; left; auto).
  unfold idxZ at 1. destruct (Z.ltb_spec (Z.of_nat c) 0); [lia|]. rewrite Nat2Z.id. destruct (idx_ok G c Hc) as (x & -> & _). cbn [bind].
  destruct (IH (set_nth c v G)) as (G' & E1 & L & H1 & H2); [intros d Hd; rewrite set_nth_length; apply H; right; auto|].
  exists G'. rewrite set_nth_length in L. split; auto. split; auto. split.
  - intros d [<-|Hd]; auto. destruct (in_dec Nat.eq_dec c ch) as [|Hnot]; auto. rewrite H2 by auto. apply nth_error_set_nth_same; auto.
  - intros d Hd. rewrite H2 by (intros ?; apply Hd; right; auto). apply nth_error_set_nth_diff. intros <-. apply Hd. left; auto.
Qed.

Lemma labels_l : exists G, labels fuel s n = Ok (G, length reps) /\ length G = n /\ forall c r, c < n -> leads s c r -> nth_error G c = Some (Z.of_nat r).
Proof.
  unfold labels, reps. pose proof (i_wf _ _ _ HI) as W.
  assert (H : forall l G0 k0, (forall i, In i l -> i < n) -> NoDup l -> length G0 = n ->
    exists G, foldr_ (fun (st : list Z * nat) i => if Nat.eqb (pa s i) i then ch <- ufVarids fuel s i;
      G <- foldr_ (fun G c => _ <- idxZ G c; Ok (set_nth (Z.to_nat c) (Z.of_nat i) G)) ch (fst st); Ok (G, S (snd st)) else Ok st) l (G0, k0) =
      Ok (G, k0 + length (filter (fun i => Nat.eqb (pa s i) i) l)) /\ length G = n /\
      (forall c r, c < n -> leads s c r -> In r l -> nth_error G c = Some (Z.of_nat r)) /\
      (forall c r, c < n -> leads s c r -> ~ In r l -> nth_error G c = nth_error G0 c)).
  { induction l as [|i l IH]; intros G0 k0 Hl N L0; cbn [foldr_ filter].
    - exists G0. rewrite Nat.add_0_r. split; auto. split; auto. split; auto. intros c r _ _ [].
    - assert (Hi : i < unext s) by (rewrite Hn; apply Hl; left; auto). apply NoDup_cons_iff in N as (Hil & Nl).
      destruct (Nat.eqb_spec (pa s i) i) as [Er|Er]; cbn [bind].
      + pose proof (w_k _ _ W i Hi). rewrite (varids_mlist k s W) by (auto; lia). cbn [bind fst snd].
        assert (Hmem : NoDup (mlist fuel s i) /\ forall y, In y (mlist fuel s i) <-> y < unext s /\ leads s y i) by (apply (i_mem _ _ _ HI); auto).
        destruct Hmem as (Nm & Hmem).
        replace (map (vid s) (mlist fuel s i)) with (map Z.of_nat (mlist fuel s i)).
        2: { apply map_ext_in. intros y Hy. symmetry. apply Hv. apply Hmem in Hy. lia. }
        destruct (mark_l (Z.of_nat i) (mlist fuel s i) G0) as (G1 & -> & L1 & M1 & M2); [intros c Hc; apply Hmem in Hc; lia|]. cbn [bind].
        destruct (IH G1 (S k0) ltac:(intros; apply Hl; right; auto) Nl ltac:(congruence)) as (G & -> & L & H1 & H2).
        exists G. cbn [length]. split; [do 2 f_equal; lia|]. split; auto. split.
        * intros c r Hc Lc [<-|Hr]; [|apply H1; auto]. rewrite (H2 c i) by auto. apply M1, Hmem. split; auto; lia.
        * intros c r Hc Lc Hr. rewrite (H2 c r) by (auto; intros ?; apply Hr; right; auto). apply M2. intros Hin. apply Hmem in Hin as (_ & Lc').
          apply Hr. left. apply (leads_fun s c); auto.
      + destruct (IH G0 k0 ltac:(intros; apply Hl; right; auto) Nl L0) as (G & -> & L & H1 & H2).
        exists G. split; auto. split; auto. split.
        * intros c r Hc Lc [<-|Hr]; [|apply H1; auto]. exfalso. apply Er. eapply leads_isroot; eauto.
        * intros c r Hc Lc Hr. apply (H2 c r); auto. intros ?; apply Hr; right; auto. }
  destruct (H (seq 0 n) (repeat 0%Z n) 0) as (G & E1 & L & H1 & _); [intros i Hi; apply in_seq in Hi; lia|apply seq_NoDup|apply repeat_length|].
  exists G. split; [exact E1|]. split; auto. intros c r Hc Lc. apply H1; auto. apply in_seq.
  assert (Hc' : c < unext s) by lia. destruct (leads_total k s W c Hc') as (r' & L' & Hr & _). rewrite (leads_fun s c r r'); auto. lia.
Qed.

End Labels.

(** The representatives are numbered 0, 1, ... exactly if none exceeds their number. *)
Lemma reps_seq n s : (forall r, In r (reps n s) -> r < length (reps n s)) -> reps n s = seq 0 (length (reps n s)).
Proof.
  intros H. unfold reps in *. set (f := fun i => Nat.eqb (pa s i) i) in *. set (m := length (filter f (seq 0 n))) in *.
  assert (Hm : m <= n) by (unfold m; rewrite <- (seq_length n 0) at 2; apply filter_len).
  assert (E1 : filter f (seq 0 n) = filter f (seq 0 m)).
  { replace n with (m + (n - m)) by lia. rewrite seq_app, filter_app. cbn [plus].
    replace (filter f (seq m (n - m))) with (@nil nat); [apply app_nil_r|].
    destruct (filter f (seq m (n - m))) as [|r l] eqn:Ef; auto. exfalso.
    assert (Hr : In r (filter f (seq m (n - m)))) by (rewrite Ef; left; auto). apply filter_In in Hr as (Hr & Hf). apply in_seq in Hr.
    assert (r < m); [|lia]. apply H, filter_In. split; auto. apply in_seq. lia. }
  rewrite E1. assert (L : length (filter f (seq 0 m)) = length (seq 0 m)) by (rewrite <- E1, seq_length; auto).
  revert L. generalize (seq 0 m). clear. induction l as [|x l IH]; simpl; auto. destruct (f x); simpl; intros L.
  - f_equal. apply IH. lia.
  - pose proof (filter_len f l). lia.
Qed.

(** ** Reading off the clusters *)
Section Guess.
Context {A : arith}.
Variable toInt : F A -> Z.

Definition instOf (Sc : gmap) (row : list (F A)) : gmap :=
  fold_left (fun m (je : nat * F A) => put m (get0 Sc (Z.of_nat (fst je))) (toInt (snd je))) (combine (seq 0 (length row)) row) [].

Lemma instOf_l vars Sc (row : list Z) v : NoDup vars -> listed_as vars Sc -> length row = length vars -> (forall x, toInt (fz x) = x) ->
  get (instOf Sc (map fz row)) v = match List.find (fun jx => Z.eqb (fst jx) v) (combine vars row) with Some jx => Some (snd jx) | None => None end.
Proof.
  intros N HS HL HT. unfold instOf. rewrite map_length.
  assert (G : forall row vs vs0 acc, vars = vs0 ++ vs -> length row = length vs -> NoDup vs ->
    get (fold_left (fun m (je : nat * F A) => put m (get0 Sc (Z.of_nat (fst je))) (toInt (snd je))) (combine (seq (length vs0) (length row)) (map fz row)) acc) v =
    match List.find (fun jx => Z.eqb (fst jx) v) (combine vs row) with Some jx => Some (snd jx) | None => get acc v end).
  { clear HL row. induction row as [|x row IH]; intros vs vs0 acc Ev L Nv; destruct vs as [|u vs]; cbn [length] in L; try discriminate; auto.
    cbn [map length seq combine fold_left fst snd List.find].
    assert (Hu : get0 Sc (Z.of_nat (length vs0)) = u).
    { unfold get0. rewrite HS. destruct (Z.ltb_spec (Z.of_nat (length vs0)) 0); [lia|]. rewrite Nat2Z.id, Ev, nth_error_app2, Nat.sub_diag by lia. reflexivity. }
    rewrite Hu, HT. apply NoDup_cons_iff in Nv as (Hnu & Nvs).
    specialize (IH vs (vs0 ++ [u]) (put acc u x)). rewrite <- app_assoc, app_length in IH. cbn [app length] in IH. rewrite Nat.add_1_r in IH.
    rewrite IH by (auto; lia). rewrite get_put. destruct (Z.eqb_spec u v) as [->|]; auto.
    destruct (List.find (fun jx => Z.eqb (fst jx) v) (combine vs row)) as [[j y]|] eqn:Ef; auto. exfalso.
    apply find_some in Ef as (Hin & Hj). simpl in Hj. apply Z.eqb_eq in Hj. subst j. apply in_combine_l in Hin. contradiction. }
  apply (G row vars [] []); auto.
Qed.

Lemma find_combine vars (row : list Z) I v : NoDup vars -> length row = length vars -> (forall j k, nth_error vars j = Some k -> nth_error row j = get I k) ->
  (forall k, get I k <> None -> In k vars) ->
  match List.find (fun jx => Z.eqb (fst jx) v) (combine vars row) with Some jx => Some (snd jx) | None => None end = get I v.
Proof.
  revert row. induction vars as [|u vars IH]; intros row N HL H Hk; destruct row as [|x row]; try discriminate.
  - simpl. destruct (get I v) eqn:Eg; auto. exfalso. apply (Hk v). congruence.
  - cbn [combine List.find fst]. destruct (Z.eqb_spec u v) as [->|Huv].
    + cbn [snd]. apply (H 0 v). reflexivity.
    + assert (Hx : nth_error (u :: vars) 0 = Some u) by reflexivity. inversion N; subst.
      destruct (in_dec Z.eq_dec v vars) as [Hin|Hni].
      * assert (G : forall row, length row = length vars -> (forall j k, nth_error vars j = Some k -> nth_error row j = get I k) ->
          match List.find (fun jx => Z.eqb (fst jx) v) (combine vars row) with Some jx => Some (snd jx) | None => None end = get I v).
        { clear -Hin. induction vars as [|w vars IH]; [destruct Hin|]. intros [|y row] L Hj; try discriminate. cbn [combine List.find fst].
          destruct (Z.eqb_spec w v) as [->|Hwv]; [apply (Hj 0 v); reflexivity|]. destruct Hin as [->|Hin]; [congruence|].
          apply IH; auto. intros j k Hjk. apply (Hj (S j) k). auto. }
        apply G; [simpl in HL; lia|]. intros j k Hjk. apply (H (S j) k). auto.
      * destruct (List.find (fun jx => Z.eqb (fst jx) v) (combine vars row)) as [[j y]|] eqn:Ef.
        -- exfalso. apply find_some in Ef as (Hin & Hj). simpl in Hj. apply Z.eqb_eq in Hj. subst j. apply in_combine_l in Hin. contradiction.
        -- destruct (get I v) eqn:Eg; auto. exfalso. destruct (Hk v) as [?|?]; congruence || contradiction.
Qed.

Definition at_label (G : list Z) (c t : nat) : list nat := filter (fun i => match nth_error G i with Some g => Z.eqb g (Z.of_nat c) | None => false end) (seq 0 t).

Lemma guess_ok k G (M : list (list (F A))) Sc : length G = length M -> (forall g, In g G -> (0 <= g < Z.of_nat k)%Z) ->
  guessToData toInt k G M Sc = Ok (map (fun c => map (fun i => instOf Sc (nth i M [])) (at_label G c (length G))) (seq 0 k)).
Proof.
  intros HL Hg. unfold guessToData, foldi.
  assert (H : forall Gs G0 C, G = G0 ++ Gs -> C = map (fun c => map (fun i => instOf Sc (nth i M [])) (at_label G c (length G0))) (seq 0 k) ->
    foldi_from (length G0) (fun i C g => row <- idx M i;
      let I := fold_left (fun m (je : nat * F A) => put m (get0 Sc (Z.of_nat (fst je))) (toInt (snd je))) (combine (seq 0 (length row)) row) [] in
      cl <- idxZ C g; Ok (set_nth (Z.to_nat g) (cl ++ [I]) C)) Gs C =
    Ok (map (fun c => map (fun i => instOf Sc (nth i M [])) (at_label G c (length G))) (seq 0 k))).
  { induction Gs as [|g Gs IH]; intros G0 C EG EC; cbn [foldi_from].
    - rewrite app_nil_r in EG. subst G0 C. auto.
    - assert (Hi : length G0 < length M) by (rewrite <- HL, EG, app_length; simpl; lia).
      unfold idx at 1. rewrite (nth_error_nth' M [] Hi). cbn [orPanic bind]. fold (instOf Sc (nth (length G0) M [])).
      assert (Hgr : (0 <= g < Z.of_nat k)%Z) by (apply Hg; rewrite EG; apply in_app_iff; right; left; auto).
      assert (HC : nth_error C (Z.to_nat g) = Some (map (fun i => instOf Sc (nth i M [])) (at_label G (Z.to_nat g) (length G0)))).
      { rewrite EC. apply (map_nth_error (fun c => map (fun i => instOf Sc (nth i M [])) (at_label G c (length G0)))).
        rewrite (nth_error_nth' _ 0) by (rewrite seq_length; lia). rewrite seq_nth by lia. auto. }
      unfold idxZ. destruct (Z.ltb_spec g 0); [lia|]. unfold idx. rewrite HC. cbn [orPanic bind].
      replace (length G0 + 1) with (length (G0 ++ [g])) by (rewrite app_length; auto).
      apply IH; [rewrite <- app_assoc; auto|]. rewrite app_length. cbn [length]. rewrite Nat.add_1_r.
      assert (Eg : nth_error G (length G0) = Some g) by (rewrite EG, nth_error_app2, Nat.sub_diag by lia; auto).
      apply nth_error_ext. intros c. destruct (lt_dec c k) as [Hck|Hck].
      + assert (Hsk : nth_error (seq 0 k) c = Some c) by (rewrite (nth_error_nth' _ 0) by (rewrite seq_length; lia); rewrite seq_nth by lia; auto).
        rewrite (map_nth_error (fun c => map (fun i => instOf Sc (nth i M [])) (at_label G c (S (length G0)))) c (seq 0 k) Hsk).
        unfold at_label. rewrite seq_snoc, filter_app. cbn [plus filter]. rewrite Eg.
        destruct (Nat.eq_dec c (Z.to_nat g)) as [->|Hcg].
        * rewrite nth_error_set_nth_same by (apply nth_error_Some; rewrite HC; discriminate).
          rewrite Z2Nat.id, Z.eqb_refl by lia. rewrite map_app. cbn [map]. auto.
        * rewrite nth_error_set_nth_diff by auto. destruct (Z.eqb_spec g (Z.of_nat c)); [lia|]. rewrite app_nil_r, EC.
          rewrite (map_nth_error (fun c => map (fun i => instOf Sc (nth i M [])) (at_label G c (length G0))) c (seq 0 k) Hsk). auto.
      + transitivity (@None (list gmap)); [|symmetry]; apply nth_error_None; rewrite ?set_nth_length, ?EC, map_length, seq_length; lia. }
  apply (H G [] (repeat [] k)); auto. unfold at_label. cbn [length seq filter map].
  clear. assert (H : forall s, repeat (@nil gmap) k = map (fun _ : nat => []) (seq s k)); auto. induction k as [|k IH]; intros s; simpl; auto. f_equal. auto.
Qed.

Lemma guess_panic k G (M : list (list (F A))) Sc g : length G = length M -> In g G -> (Z.of_nat k <= g)%Z -> guessToData toInt k G M Sc = Panic.
Proof.
  intros HL Hg Hk. unfold guessToData, foldi.
  assert (H : forall Gs t C, t + length Gs <= length M -> In g Gs -> length C = k ->
    foldi_from t (fun i C g => row <- idx M i;
      let I := fold_left (fun m (je : nat * F A) => put m (get0 Sc (Z.of_nat (fst je))) (toInt (snd je))) (combine (seq 0 (length row)) row) [] in
      cl <- idxZ C g; Ok (set_nth (Z.to_nat g) (cl ++ [I]) C)) Gs C = Panic).
  { induction Gs as [|h Gs IH]; intros t C Ht Hin HC; [destruct Hin|]. cbn [foldi_from length] in *.
    destruct (idx_ok M t ltac:(lia)) as (row & -> & _). cbn [bind]. unfold idxZ.
    destruct (h <? 0)%Z eqn:Eh; [reflexivity|]. apply Z.ltb_ge in Eh. unfold idx.
    destruct (nth_error C (Z.to_nat h)) as [cl|] eqn:Ec; [|reflexivity]. cbn [orPanic bind].
    destruct Hin as [->|Hin].
    - assert (Z.to_nat g < length C) by (apply nth_error_Some; congruence). lia.
    - apply IH; auto; [lia|rewrite set_nth_length; auto]. }
  apply H; auto; [lia|apply repeat_length].
Qed.
End Guess.

(** ** DBSCANData *)
Section Top.
Context {A : arith}.
Variable toInt : F A -> Z.

Lemma dbscanData_l ord vars D (eps : F A) mp fuel : visits_all ord -> NoDup vars -> same_variables vars D -> D <> [] ->
  length D * length D + 2 * length D + 2 <= fuel -> (forall x, toInt (fz x) = x) ->
  exists M Sc Cm, dataToMatrix ord (Some D) = Ok (M, Sc) /\ length M = length D /\ dbscan fuel M eps mp = Ok Cm /\
    (dbscanData toInt ord fuel D eps mp = Panic \/
     exists C, dbscanData toInt ord fuel D eps mp = Ok C /\
       Forall2 (fun cl clm => exists js, Permutation js (map fst clm) /\
         Forall2 (fun I j => exists J, nth_error D j = Some J /\ forall v, get I v = get J v) cl js) C Cm).
Proof.
  intros Ho Nv Hs Hd Hf HT. destruct (dataToMatrix_l ord vars D Ho Nv Hs Hd) as (M & Sc & vs & EM & HP & HS & HTab).
  assert (LM : length M = length D) by (symmetry; eapply DataByLabel.Forall2_len; eauto).
  assert (Nvs : NoDup vs) by (eapply Permutation_NoDup; [symmetry|]; eauto).
  assert (Hw : forall row, In row M -> length row = length vs).
  { intros row Hr. clear -HTab Hr. induction HTab as [|I r D M (H & _) _ IH]; [destruct Hr|]. destruct Hr as [<-|Hr]; auto. }
  assert (HMne : M <> []) by (intros ->; destruct D; [congruence|discriminate]).
  destruct (dbscan_run (length vs) M eps mp fuel Hw HMne ltac:(rewrite LM; auto)) as (k & s & E & E1 & HI & Hk & Hn & E2 & Hv & _ & _).
  exists M, Sc, (map (rowsOf M) (members (length M) fuel s)). split; auto. split; auto. split; auto.
  destruct (labels_l (length M) k fuel s E HI Hn Hv Hk) as (G & EG & LG & HG). pose proof (i_wf _ _ _ HI) as W.
  assert (HGv : forall g, In g G -> exists c r, c < length M /\ leads s c r /\ r < length M /\ pa s r = r /\ g = Z.of_nat r).
  { intros g Hg. apply In_nth_error in Hg as (c & Hc). assert (Lc : c < length M) by (rewrite <- LG; apply nth_error_Some; congruence).
    destruct (leads_total k s W c ltac:(lia)) as (r & L & Hr & _). exists c, r. split; auto. split; auto. split; [lia|]. split; [eapply leads_isroot; eauto|].
    rewrite (HG c r) in Hc by auto. congruence. }
  assert (EQ : dbscanData toInt ord fuel D eps mp = guessToData toInt (length (reps (length M) s)) G (copyMatrixF M) Sc).
  { unfold dbscanData. rewrite EM. cbn [bind fst snd]. rewrite E1. cbn [bind]. replace (length (@copyMatrixF A M)) with (length M) by (unfold copyMatrixF; rewrite map_length; auto).
    rewrite EG. reflexivity. }
  rewrite EQ. clear EQ. set (R := reps (length M) s) in *.
  destruct (Forall_Exists_dec (fun r => r < length R) (fun r => lt_dec r (length R)) R) as [Hall|Hex].
  - right. rewrite Forall_forall in Hall. pose proof (reps_seq (length M) s Hall) as HR. fold R in HR.
    assert (HRin : forall r, In r R <-> r < length M /\ pa s r = r).
    { intros r. unfold R, reps. rewrite filter_In, in_seq, Nat.eqb_eq. split; intros [? ?]; split; auto; lia. }
    eexists. split; [apply guess_ok|].
    { unfold copyMatrixF. rewrite map_length. auto. }
    { intros g Hg. destruct (HGv g Hg) as (c & r & _ & _ & Hr & Hp & ->). specialize (Hall r ltac:(apply HRin; auto)). lia. }
    unfold members. fold (reps (length M) s). fold R. rewrite HR at 2.
    rewrite map_map.
    assert (Fa : forall l, (forall r, In r l -> In r R) -> Forall2 (fun cl clm => exists js, Permutation js (map fst clm) /\
        Forall2 (fun I j => exists J, nth_error D j = Some J /\ forall v, get I v = get J v) cl js)
      (map (fun c => map (fun i => instOf toInt Sc (nth i (copyMatrixF M) [])) (at_label G c (length G))) l) (map (fun x => rowsOf M (mlist fuel s x)) l)).
    { induction l as [|r l IH]; intros Hl; cbn [map]; constructor; [|apply IH; intros; apply Hl; right; auto].
      exists (at_label G r (length G)). split.
      - unfold rowsOf. rewrite map_map. cbn [fst]. rewrite map_id.
        assert (Hr : In r R) by (apply Hl; left; auto). apply HRin in Hr as (Hr & Hpr).
        assert (Hmem : NoDup (mlist fuel s r) /\ forall y, In y (mlist fuel s r) <-> y < unext s /\ leads s y r) by (apply (i_mem _ _ _ HI); auto; lia).
        destruct Hmem as (Nm & Hmem). apply NoDup_Permutation; auto; [apply NoDup_filter, seq_NoDup|].
        intros y. unfold at_label. rewrite filter_In, in_seq, Hmem, LG, Hn. split.
        + intros (Hy & Hl'). destruct (leads_total k s W y ltac:(lia)) as (r' & L & _). rewrite (HG y r') in Hl' by (auto; lia).
          apply Z.eqb_eq, Nat2Z.inj in Hl'. subst r'. split; auto; lia.
        + intros (Hy & Ly). split; [lia|]. rewrite (HG y r) by (auto; lia). apply Z.eqb_refl.
      - unfold at_label. set (js := filter _ _). assert (Hjs : forall j, In j js -> j < length M) by (intros j Hj; apply filter_In in Hj as (Hj & _); apply in_seq in Hj; lia).
        clearbody js. induction js as [|j js IHj]; cbn [map]; constructor; [|apply IHj; intros; apply Hjs; right; auto].
        assert (Hj : j < length M) by (apply Hjs; left; auto).
        destruct (nth_error D j) as [J|] eqn:EJ; [|apply nth_error_None in EJ; lia]. exists J. split; auto. intros v.
        assert (Hrow : length (nth j M []) = length vs /\ forall i k, nth_error vs i = Some k -> nth_error (nth j M []) i = get J k).
        { clear -HTab EJ. revert j EJ. induction HTab as [|I r D M H _ IH]; intros [|j] EJ; try discriminate; cbn [nth nth_error] in *; [injection EJ as <-; auto|auto]. }
        destruct Hrow as (Lr & Hrow).
        replace (nth j (copyMatrixF M) []) with (map (@fz A) (nth j M [])).
        2: { unfold copyMatrixF. change (@nil (F A)) with (map (@fz A) []). symmetry. apply map_nth. }
        rewrite (instOf_l toInt vs Sc _ v Nvs HS Lr HT). apply find_combine; auto.
        intros q Hq. assert (HJ : In J D) by (eapply nth_error_In; eauto). destruct (Hs J HJ) as (_ & Hkeys).
        apply (Permutation_in _ (Permutation_sym HP)), Hkeys. destruct (get J q) as [z|] eqn:Eq; [|congruence].
        apply (proj1 (get_In J q z ltac:(apply Hs; auto))) in Eq. unfold keys. apply in_map_iff. exists (q, z). auto. }
    apply Fa. intros r Hr. rewrite <- HR in Hr. auto.
  - left. apply Exists_exists in Hex as (r & Hr & Hge).
    assert (HRin : r < length M /\ pa s r = r) by (unfold R, reps in Hr; apply filter_In in Hr as (Hr & Hp); apply in_seq in Hr; apply Nat.eqb_eq in Hp; split; auto; lia).
    apply (guess_panic toInt (length R) G (copyMatrixF M) Sc (Z.of_nat r)); [unfold copyMatrixF; rewrite map_length; auto| |lia].
    eapply nth_error_In. apply (HG r r); [lia|]. constructor. apply HRin.
Qed.

(** With a minimum size of at most one, the smallest row close to another is never a
    representative, but a larger one of its cluster is. *)
Lemma dbscanData_panics ord vars D (eps : F A) mp fuel M Sc : visits_all ord -> NoDup vars -> same_variables vars D -> D <> [] ->
  length D * length D + 2 * length D + 2 <= fuel -> (mp <= 1)%Z -> dataToMatrix ord (Some D) = Ok (M, Sc) ->
  (forall i j, within eps M i j -> within eps M j i) -> (exists i j, within eps M i j) ->
  dbscanData toInt ord fuel D eps mp = Panic.
Proof.
  intros Ho Nv Hs Hd Hf Hmp EM0 Hsym Hex. destruct (dataToMatrix_l ord vars D Ho Nv Hs Hd) as (M' & Sc' & vs & EM & HP & HS & HTab).
  rewrite EM in EM0. injection EM0 as -> ->.
  assert (LM : length M = length D) by (symmetry; eapply DataByLabel.Forall2_len; eauto).
  assert (Hw : forall row, In row M -> length row = length vs).
  { intros row Hr. clear -HTab Hr. induction HTab as [|I r D M (H & _) _ IH]; [destruct Hr|]. destruct Hr as [<-|Hr]; auto. }
  assert (HMne : M <> []) by (intros ->; destruct D; [congruence|discriminate]).
  destruct (dbscan_run (length vs) M eps mp fuel Hw HMne ltac:(rewrite LM; auto)) as (k & s & E & E1 & HI & Hk & Hn & E2 & Hv & HE & _).
  destruct (labels_l (length M) k fuel s E HI Hn Hv Hk) as (G & EG & LG & HG). pose proof (i_wf _ _ _ HI) as W.
  assert (EQ : dbscanData toInt ord fuel D eps mp = guessToData toInt (length (reps (length M) s)) G (copyMatrixF M) Sc).
  { unfold dbscanData. rewrite EM. cbn [bind fst snd]. rewrite E1. cbn [bind]. replace (length (@copyMatrixF A M)) with (length M) by (unfold copyMatrixF; rewrite map_length; auto).
    rewrite EG. reflexivity. }
  rewrite EQ. clear EQ.
  assert (Hlim : forall i j, within eps M i j -> i < length M) by (intros i j (p & q & H & _); apply nth_error_Some; congruence).
  assert (Hdec : forall i, (exists j, within eps M i j) \/ ~ exists j, within eps M i j).
  { intros i. destruct (nth_error M i) as [p|] eqn:Ep; [|right; intros (j & p & q & H & _); congruence].
    assert (Hj : forall j, within eps M i j \/ ~ within eps M i j).
    { intros j. destruct (nth_error M j) as [q|] eqn:Eq; [|right; intros (? & q & _ & H & _); congruence].
      destruct (Nat.eq_dec i j) as [->|Hij]; [right; intros (? & ? & _ & _ & H & _); congruence|].
      destruct (fge eps (euclid (map fz p) (map fz q))) eqn:Eg; [left; exists p, q; auto|].
      right. intros (p' & q' & H1 & H2 & _ & H3). rewrite Ep in H1. rewrite Eq in H2. congruence. }
    assert (Hb : forall b, (exists j, j < b /\ within eps M i j) \/ ~ exists j, j < b /\ within eps M i j).
    { induction b as [|b [(j & Hjb & H)|H]]; [right; intros (j & ? & _); lia|left; exists j; split; auto; lia|].
      destruct (Hj b) as [Hw'|Hw']; [left; exists b; auto|]. right. intros (j & Hjb & Hw''). apply H. exists j. split; auto.
      assert (j <> b) by (intros ->; contradiction). lia. }
    destruct (Hb (length M)) as [(j & _ & H)|H]; [left; eauto|right; intros (j & Hw'); apply H; exists j; split; auto]. apply (Hlim j i); auto. }
  assert (Hleast : exists p0, (exists q, within eps M p0 q) /\ forall i j, i < p0 -> ~ within eps M i j).
  { destruct Hex as (i & Hex). revert Hex. induction i as [i IH] using lt_wf_ind. intros Hex.
    assert (Hb : forall b, (exists i', i' < b /\ exists j, within eps M i' j) \/ forall i' j, i' < b -> ~ within eps M i' j).
    { induction b as [|b [(i' & Hi' & H)|H]]; [right; intros; lia|left; exists i'; split; auto|].
      destruct (Hdec b) as [H'|H']; [left; exists b; auto|]. right. intros i' j Hi' Hw'. destruct (Nat.eq_dec i' b) as [->|]; [apply H'; eauto|].
      apply (H i' j); auto. lia. }
    destruct (Hb i) as [(i' & Hi' & H)|H]; [apply (IH i'); auto|eauto]. }
  destruct Hleast as (p0 & Hq & Hl).
  destruct (internal_first (length vs) M eps mp fuel p0 Hw ltac:(rewrite LM; auto) Hmp Hq Hl) as (s' & E1' & Hnr).
  rewrite E1 in E1'. injection E1' as <-.
  assert (Hp0 : p0 < length M) by (destruct Hq as (q & Hq); eauto).
  destruct (leads_total k s W p0 ltac:(lia)) as (r & L & Hr & _). pose proof (leads_isroot _ _ _ L) as Hroot.
  assert (Hrst : rst E p0 r) by (apply (i_rel _ _ _ HI p0 r r r); auto; [lia|constructor; auto]).
  assert (Hge : p0 < r).
  { assert (G' : forall x y, rst E x y -> x = y \/ (p0 <= x /\ p0 <= y)).
    { induction 1 as [x y H|x|x y _ IH|x y z _ IH1 _ IH2]; auto; [|destruct IH; [left|right]; auto; tauto|].
      - right. apply HE in H. split; apply Nat.nlt_ge; intros Hlt; [apply (Hl x y)|apply (Hl y x)]; auto.
      - destruct IH1 as [->|[? ?]]; auto. destruct IH2 as [->|[? ?]]; auto. }
    destruct (G' p0 r Hrst) as [->|[_ ?]]; [contradiction|]. destruct (Nat.eq_dec p0 r) as [->|]; [contradiction|lia]. }
  assert (HRin : forall x, In x (reps (length M) s) <-> x < length M /\ pa s x = x).
  { intros x. unfold reps. rewrite filter_In, in_seq, Nat.eqb_eq. split; intros [? ?]; split; auto; lia. }
  set (R := reps (length M) s) in *.
  destruct (Forall_Exists_dec (fun r => r < length R) (fun r => lt_dec r (length R)) R) as [Hall|Hex'].
  - exfalso. rewrite Forall_forall in Hall. pose proof (reps_seq (length M) s Hall) as HR. fold R in HR.
    assert (Hin : In r R) by (apply HRin; split; auto; lia). specialize (Hall r Hin).
    assert (Hin0 : In p0 R) by (rewrite HR; apply in_seq; lia). apply HRin in Hin0 as (_ & ?). contradiction.
  - apply Exists_exists in Hex' as (x & Hx & Hxge). apply HRin in Hx as (Hx & Hxr).
    apply (guess_panic toInt (length R) G (copyMatrixF M) Sc (Z.of_nat x)); [unfold copyMatrixF; rewrite map_length; auto| |lia].
    eapply nth_error_In. apply (HG x x); [lia|]. constructor. auto.
Qed.
End Top.
