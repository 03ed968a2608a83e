(** The wrappers of the external k-means: what becomes of the rows. *)
From Coq Require Import Permutation Reals Lra.
From Verif Require Import Base Res Arith GoMap Tables TablesSpec Cluster ClusterSpec ClusterCases Dbscan IndepCases Kmeans KmeansSpec KmeansLemmas KmeansEnd.
Local Open Scope Z_scope.

Section Collect.
Context {T U : Type}.
Variable k : nat.
Variable D : list T.
Variable C : list Z.
Variable key : nat -> Z.
Variable g : T -> U.
Hypothesis HL : length C = length D.
Hypothesis HC : forall i c, nth_error C i = Some c -> 0 <= c < Z.of_nat k.
Hypothesis HK : forall i j, (i < length D)%nat -> (j < length D)%nat -> key i = key j -> i = j.
Definition kput (m : list (Z * U)) (i : Z) (v : U) : list (Z * U) := filter (fun e => negb (fst e =? i)) m ++ [(i, v)].
Definition named (e : Z * T) : Z * U := (key (Z.to_nat (fst e)), g (snd e)).

Lemma kput_fresh m i v : (forall e, In e m -> fst e <> i) -> kput m i v = m ++ [(i, v)].
Proof using.
  clear. intros H. unfold kput. f_equal. induction m as [|e m IH]; auto. cbn [filter]. destruct (Z.eqb_spec (fst e) i) as [Ei|]; [destruct (H e); [left; auto|auto]|]. cbn [negb]. f_equal. apply IH. intros e' He'. apply H. right. auto.
Qed.

Lemma collect_keys : foldi (fun i G c => J <- idx D i; m <- idxZ G c; Ok (set_nth (Z.to_nat c) (kput m (key i) (g J)) G)) C (repeat [] k)
  = Ok (map (fun p => map named (members C p D)) (seq 0 k)).
Proof using HL HC HK.
  unfold foldi.
  assert (G : forall t a u, C = a ++ t -> u = firstn (length a) D ->
    foldi_from (length a) (fun i G c => J <- idx D i; m <- idxZ G c; Ok (set_nth (Z.to_nat c) (kput m (key i) (g J)) G)) t (map (fun p => map named (members C p u)) (seq 0 k)) = Ok (map (fun p => map named (members C p D)) (seq 0 k))).
  { induction t as [|c t IH]; intros a u Ec Eu; cbn [foldi_from].
    - rewrite app_nil_r in Ec. subst a u. rewrite HL, firstn_all. auto.
    - assert (Ea : nth_error C (length a) = Some c) by (rewrite Ec, nth_error_app2, Nat.sub_diag by auto; auto).
      pose proof (nth_lt _ _ _ Ea) as La. rewrite HL in La. destruct (nth_error D (length a)) as [x|] eqn:Ex; [|apply nth_error_None in Ex; lia].
      pose proof (HC _ _ Ea) as Hc. rewrite (ok_idx _ _ _ Ex). cbn [bind]. unfold idxZ at 1. destruct (Z.ltb_spec c 0); [lia|].
      rewrite (ok_idx _ (Z.to_nat c) (map named (members C (Z.to_nat c) u))) by (apply (nth_map_seq (fun p => map named (members C p u))); lia). cbn [bind].
      assert (Lu : length u = length a) by (subst u; rewrite firstn_length; lia).
      assert (Eu' : u ++ [x] = firstn (length (a ++ [c])) D).
      { subst u. rewrite app_length, Nat.add_1_r. clear - Ex. revert Ex. generalize (length a). induction D as [|y D' IH]; intros [|q] E; try discriminate; cbn [nth_error] in E; [injection E as ->; cbn [firstn]; destruct D'; auto|].
        change (firstn (S (S q)) (y :: D')) with (y :: firstn (S q) D'). rewrite <- (IH q E). reflexivity. }
      replace (length a + 1)%nat with (length (a ++ [c])) by (rewrite app_length; auto).
      rewrite <- (IH (a ++ [c]) (u ++ [x])); [|rewrite <- app_assoc; auto|auto]. f_equal.
      assert (F : forall p e, In e (members C p u) -> (0 <= fst e < Z.of_nat (length a))).
      { intros p [z y] He. unfold members in He. apply in_map_iff in He as ((c', e') & E' & He). apply filter_In in He as [He _]. apply in_combine_r in He. cbn [snd] in E'. subst e'.
        apply numbered_in in He as (i & -> & Ei). pose proof (nth_lt _ _ _ Ei). cbn [fst]. lia. }
      rewrite kput_fresh.
      2:{ intros e He. apply in_map_iff in He as (e' & <- & He). apply F in He. unfold named. cbn [fst]. intros Hk. apply HK in Hk; lia. }
      assert (Ec' : nth_error C (length u) = Some c) by (rewrite Lu; auto).
      replace (map named (members C (Z.to_nat c) u) ++ [(key (length a), g x)]) with ((fun p => map named (members C p (u ++ [x]))) (Z.to_nat c)).
      + apply (set_nth_seq (fun p => map named (members C p u)) (fun p => map named (members C p (u ++ [x])))); [lia|].
        intros r Hr. rewrite (members_snoc _ _ _ _ c) by auto. destruct (Z.eqb_spec c (Z.of_nat r)); [lia|]. rewrite app_nil_r. auto.
      + cbv beta. rewrite (members_snoc _ _ _ _ c) by auto. rewrite Z2Nat.id, Z.eqb_refl by lia. rewrite map_app. cbn [map]. unfold named at 2. cbn [fst snd]. rewrite Nat2Z.id, Lu. auto. }
  rewrite <- (G C [] []); auto. cbn [length]. f_equal.
  assert (Em : forall p, map named (members C p []) = []) by (intros p; unfold members, numbered; simpl; rewrite combine_nil; auto).
  clear - Em. induction k as [|k' IH]; auto. rewrite seq_S, map_app, <- IH. cbn [map]. rewrite Em. change [@nil (Z * U)] with (repeat (@nil (Z * U)) 1). rewrite <- repeat_app. f_equal. lia.
Qed.

Lemma collect_perm : Permutation (concat (map (fun p => map named (members C p D)) (seq 0 k))) (map named (numbered D)).
Proof using HL HC.
  clear HK. rewrite <- (map_map (fun p => members C p D) (map named)). rewrite <- concat_map. apply Permutation_map. apply members_total; [lia|intros; eapply HC; eauto].
Qed.
End Collect.

Section Wrap.
Context {A : arith}.
Variable km : list (list (F A)) -> Z -> res (list Z).
Variable toInt : F A -> Z.
Variable k : nat.

Lemma named_id {T} (l : list T) : map (named (fun i => Z.of_nat i) (fun x => x)) (numbered l) = numbered l.
Proof using.
  apply list_ext. intros i. rewrite nth_error_map. destruct (nth_error (numbered l) i) as [[z x]|] eqn:E; auto. cbn [option_map]. unfold named. cbn [fst snd].
  apply nth_error_In, numbered_in in E as (j & -> & _). rewrite Nat2Z.id. auto.
Qed.

Lemma kMeansF_splits D C sc : labels km k D C -> exists G, kMeansF km k D sc = Ok G /\ splits k D G.
Proof using.
  intros (E & L & H). eexists. split.
  - unfold kMeansF, kMeansMuesliF. rewrite E. cbn [bind keyOf]. apply (collect_keys k D C (fun i => Z.of_nat i) (fun x => x) L H). intros i j _ _ Hij. lia.
  - split; [rewrite map_length, seq_length; auto|]. rewrite <- (named_id D). apply collect_perm; auto.
Qed.

Lemma map_toInt (data : list (list Z)) : (forall z, toInt (fz z) = z) -> map (map toInt) (@copyMatrixF A data) = data.
Proof using.
  intros Hi. unfold copyMatrixF. rewrite map_map. rewrite <- (map_id data) at 2. apply map_ext. intros row. rewrite map_map. rewrite <- (map_id row) at 2. apply map_ext. auto.
Qed.

Lemma named_map {T U} (key : nat -> Z) (g : T -> U) l : map (named key g) (numbered l) = map (named key (fun x => x)) (numbered (map g l)).
Proof using.
  apply list_ext. intros i. rewrite !nth_error_map. destruct (nth_error l i) as [x|] eqn:E.
  - rewrite (numbered_nth l i x E), (numbered_nth (map g l) i (g x)) by (rewrite nth_error_map, E; auto). reflexivity.
  - replace (nth_error (numbered l) i) with (@None (Z * T)) by (symmetry; apply nth_error_None; rewrite numbered_length; apply nth_error_None; auto).
    replace (nth_error (numbered (map g l)) i) with (@None (Z * U)); auto. symmetry. apply nth_error_None. rewrite numbered_length, map_length. apply nth_error_None; auto.
Qed.

Lemma kMeansMuesli_l M C sc : labels km k (copyMatrixF M) C -> (forall z, toInt (fz z) = z) ->
  (forall i j, (i < length M)%nat -> (j < length M)%nat -> keyOf sc i = keyOf sc j -> i = j) ->
  exists G, kMeansMuesli km toInt k M sc = Ok G /\ length G = k /\ Permutation (concat G) (combine (map (keyOf sc) (seq 0 (length M))) M).
Proof using.
  intros (E & L & H) Hi HK. assert (Lm : length (@copyMatrixF A M) = length M) by (unfold copyMatrixF; apply map_length). eexists. split; [|split].
  - unfold kMeansMuesli. rewrite E. cbn [bind]. apply (collect_keys k (copyMatrixF M) C (keyOf sc) (map toInt) L H). rewrite Lm. auto.
  - rewrite map_length, seq_length. auto.
  - rewrite collect_perm by auto. rewrite named_map, map_toInt by auto. unfold numbered. rewrite <- (map_map Z.of_nat (fun z => keyOf sc (Z.to_nat z))) with (l := seq 0 (length M)) || idtac.
    assert (G : forall (l : list nat) (m : list (list Z)), map (named (keyOf sc) (fun x => x)) (combine (map Z.of_nat l) m) = combine (map (keyOf sc) l) m).
    { induction l as [|x l IH]; intros [|y m]; auto. cbn [map combine]. rewrite IH. unfold named. cbn [fst snd]. rewrite Nat2Z.id. auto. }
    rewrite G. apply Permutation_refl.
Qed.

Lemma kMeans_splits data C : labels km k (copyMatrixF data) C -> (forall z, toInt (fz z) = z) -> exists G, kMeans km toInt k data = Ok G /\ splits k data G.
Proof using.
  intros HC Hi. destruct (kMeansMuesli_l data C None HC Hi) as (G & E & L & P); [intros i j _ _; cbn [keyOf]; lia|]. exists G. split; [exact E|]. split; auto.
Qed.

(** With the variables as keys the rows survive when there are no more rows than variables. *)
Lemma kMeansData_keeps ord data M sc C : dataToMatrix ord (Some data) = Ok (M, sc) -> labels km k (copyMatrixF M) C -> (forall z, toInt (fz z) = z) ->
  (forall i j, (i < length M)%nat -> (j < length M)%nat -> get0 sc (Z.of_nat i) = get0 sc (Z.of_nat j) -> i = j) ->
  exists G, kMeansData km toInt ord k data = Ok G /\ length G = k /\ Permutation (map snd (concat G)) M.
Proof using.
  intros Em HC Hi HK. unfold kMeansData. rewrite Em. cbn [bind fst snd]. destruct (kMeansMuesli_l M C (Some sc) HC Hi HK) as (G & E & L & P). exists G. split; auto. split; auto.
  rewrite P. rewrite <- (map_id M) at 3. assert (Hs : forall (l : list Z) (m : list (list Z)), length l = length m -> map snd (combine l m) = m).
  { induction l as [|x l IH]; intros [|y m] Hl; try discriminate; auto. cbn [combine map snd]. f_equal. apply IH. injection Hl; auto. }
  rewrite Hs, map_id; [apply Permutation_refl|]. rewrite map_length, seq_length. auto.
Qed.
End Wrap.

(** Three instances of one variable; all in one cluster. *)
Definition three : list gmap := [[(0, 0)]; [(0, 1)]; [(0, 2)]].
Definition oneCluster (D : list (list (F ZA))) (k : Z) : res (list Z) := Ok (repeat 0 (length D)).
Definition same_order (_ : nat) (m : gmap) : gmap := m.
Lemma oneCluster_labels D : labels oneCluster 2 D (repeat 0 (length D)).
Proof. split; [reflexivity|]. split; [apply repeat_length|]. intros i c E. apply nth_error_In, repeat_spec in E. lia. Qed.
Lemma three_matrix : dataToMatrix same_order (Some three) = Ok ([[0]; [1]; [2]], [(0, 0)]).
Proof. reflexivity. Qed.
Lemma three_lost : kMeansData oneCluster (fun z => z) same_order 2 three = Ok [[(0, [2])]; []].
Proof. vm_compute. reflexivity. Qed.
Lemma three_lostF : kMeansFData oneCluster same_order 2 three = Ok [[(0, [2])]; []].
Proof. vm_compute. reflexivity. Qed.

Lemma xr_strict : strict_order (@fgt XR).
Proof.
  split.
  - intros [a| | |]; auto. cbn. destruct (Rlt_dec a a); [lra|auto].
  - intros [a| | |] [b| | |] [c| | |]; auto; cbn; try discriminate. destruct (Rlt_dec b a); [|discriminate]. destruct (Rlt_dec c b); [|discriminate]. destruct (Rlt_dec c a); [auto|lra].
Qed.
Lemma xr_unit : unit_laws XR.
Proof.
  intros [a| | |]; cbn; auto; destruct (Req_EM_T 1 0); try lra; try (destruct (Rlt_dec 1 0); [lra|auto]). f_equal. field.
Qed.

Lemma kMeansData_refuted : exists (A : arith) (km : list (list (F A)) -> Z -> res (list Z)) (toInt : F A -> Z) (ord : nat -> gmap -> gmap) k data M sc C G,
  (forall i m, Permutation (ord i m) m) /\ (forall z, toInt (fz z) = z) /\ dataToMatrix ord (Some data) = Ok (M, sc) /\ labels km k (copyMatrixF M) C /\
  kMeansData km toInt ord k data = Ok G /\ kMeansFData km ord k data = Ok (map (map (fun e => (fst e, map fz (snd e)))) G) /\ (length (concat G) < length data)%nat.
Proof.
  exists ZA, oneCluster, (fun z => z), same_order, 2%nat, three. do 4 eexists. split; [intros; apply Permutation_refl|]. split; [reflexivity|]. split; [exact three_matrix|].
  split; [apply oneCluster_labels|]. split; [exact three_lost|]. split; [exact three_lostF|]. simpl. lia.
Qed.

(** Points on a line, two clusters; the first draws fall into the same half. *)
Definition far : list (list Z) := [[0]; [2]; [20]; [22]].
Lemma far_run : @oldKMeansF ClusterCases.ZS 1000000 (@euclideanF ClusterCases.ZS) ClusterCases.draws 10 10 2 far = Ok [[(0, [0]); (1, [2])]; [(2, [20]); (3, [22])]].
Proof. vm_compute. reflexivity. Qed.
Lemma far_rows : forall row, In row far -> length row = 1%nat.
Proof. intros row H. repeat (destruct H as [<-|H]; [reflexivity|]). destruct H. Qed.
Lemma zs_strict : strict_order (@fgt ClusterCases.ZS).
Proof. split; cbn; intros; rewrite ?Z.gtb_ltb, ?Z.ltb_lt, ?Z.ltb_irrefl in *; auto. lia. Qed.
Lemma zs_unit : unit_laws ClusterCases.ZS.
Proof. intros x. cbn. apply Z.div_1_r. Qed.
Definition farR : list (list R) := [[0]; [2]; [20]; [22]]%R.
Lemma farR_rows : forall row, In row farR -> length row = 1%nat.
Proof. intros row H. repeat (destruct H as [<-|H]; [reflexivity|]). destruct H. Qed.
Lemma draws_below m : (0 < m)%nat -> forall c, (ClusterCases.draws c m < m)%nat.
Proof. intros H c. apply Nat.mod_upper_bound. lia. Qed.
