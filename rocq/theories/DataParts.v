(** Proofs about Divide, Partition, PartitionByLabels and Identical. *)
From Coq Require Import Reals Lra.
From Verif Require Import Base Res Arith LogSpec LogLemmas GoMap Data DataSpec DataLemmas DataLoops DataRows.

Lemma concat_map_app {A B} (f g : A -> list B) l :
  Permutation (concat (map (fun x => f x ++ g x) l)) (concat (map f l) ++ concat (map g l)).
Proof.
  induction l as [|x l IH]; simpl; auto. rewrite IH, <- !app_assoc. apply Permutation_app_head. rewrite !app_assoc. apply Permutation_app_tail. apply Permutation_app_comm.
Qed.
Lemma concat_swap {A B C} (f : A -> B -> list C) (la : list A) (lb : list B) :
  Permutation (concat (map (fun a => concat (map (f a) lb)) la)) (concat (map (fun b => concat (map (fun a => f a b) la)) lb)).
Proof.
  induction la as [|a la IH]; simpl.
  - induction lb as [|b lb IHb]; simpl; auto.
  - rewrite IH. symmetry. apply concat_map_app.
Qed.
Lemma Forall2_chunks {A B} (P : A -> B -> Prop) M : forall l, Forall2 P l (concat M) ->
  exists ls, concat ls = l /\ Forall2 (Forall2 P) ls M.
Proof.
  induction M as [|m M IH]; intros l H; simpl in H.
  - inversion H; subst. exists []. split; auto.
  - apply Forall2_app_inv_r in H as (l1 & l2 & H1 & H2 & ->). destruct (IH l2 H2) as (ls & <- & HF). exists (l1 :: ls). split; auto.
Qed.

(** Rows taken one after the other. *)
Fixpoint chunks (sizes : list nat) (k : nat) : list (list nat) :=
  match sizes with [] => [] | s :: t => seq k s :: chunks t (k + s) end.
Lemma chunks_snoc sizes s : forall k, chunks (sizes ++ [s]) k = chunks sizes k ++ [seq (k + list_sum sizes) s].
Proof. induction sizes as [|a l IH]; intros k; simpl; [rewrite Nat.add_0_r; auto|]. rewrite IH. do 4 f_equal. lia. Qed.
Lemma chunks_concat sizes : forall k, concat (chunks sizes k) = seq k (list_sum sizes).
Proof. induction sizes as [|a l IH]; intros k; simpl; auto. rewrite IH. symmetry. apply seq_app. Qed.
Lemma chunks_length sizes : forall k, map (@length nat) (chunks sizes k) = sizes.
Proof. induction sizes as [|a l IH]; intros k; simpl; auto. rewrite IH, seq_length. auto. Qed.
Lemma list_sum_snoc l a : list_sum (l ++ [a]) = list_sum l + a.
Proof. rewrite list_sum_app. simpl. lia. Qed.

Section P.
Variable ord : nat -> gmap -> gmap.
Hypothesis Hord : visits_all ord.
Variable h : heap.
Hypothesis G : good_heap h.
Variable D : list nat.
Hypothesis HD : rows_exist h D.

Definition picked (is : list nat) : list nat := map (fun i => nth i D 0) is.
Lemma picked_exist is : (forall i, In i is -> i < length D) -> rows_exist h (picked is).
Proof. intros H r Hr. apply in_map_iff in Hr as (i & <- & Hi). apply HD, nth_In. auto. Qed.

Lemma picked_copies is : (forall i, In i is -> i < length D) -> copies h D (hdup ord h (picked is)) is (seq (nxt h) (length is)).
Proof.
  intros H. pose proof (fold_copies ord Hord h G (picked is) (picked_exist is H)) as F.
  unfold copies in *. unfold picked in F at 3 4. rewrite map_length in F. revert F. generalize (hdup ord h (picked is)). intros h'.
  assert (Gn : forall n k m, k + n <= length is -> Forall2 (fun i r' => exists r, nth_error (picked is) i = Some r /\ meq (mem h r) (mem h' r')) (seq k n) (seq m n) ->
    Forall2 (fun i r' => exists r, nth_error D i = Some r /\ meq (mem h r) (mem h' r')) (firstn n (skipn k is)) (seq m n)).
  { induction n as [|n IH]; intros k m Hk F; simpl; [constructor|]. simpl in F. inversion F as [|? ? ? ? (r & Er & Hm) F']; subst.
    destruct (skipn k is) as [|i t] eqn:Es; [pose proof (skipn_length k is) as HL; rewrite Es in HL; simpl in HL; lia|].
    assert (Ei : nth_error is k = Some i) by (rewrite <- (Nat.add_0_r k), <- nth_error_skipn, Es; auto).
    simpl. constructor.
    - exists r. split; auto. unfold picked in Er. rewrite nth_error_map, Ei in Er. simpl in Er. injection Er as <-. apply nth_error_nth'. apply H. eapply nth_error_In; eauto.
    - assert (Et : t = skipn (S k) is). { clear -Es. revert is Es. induction k as [|k IH]; intros [|a is] Es; simpl in *; try discriminate; [congruence|]. destruct is; [rewrite skipn_nil in Es; discriminate|]. rewrite (IH _ Es). auto. }
      rewrite Et. apply IH; auto; lia. }
  intros F. specialize (Gn (length is) 0 (nxt h) ltac:(lia) F). simpl in Gn. rewrite firstn_all in Gn. auto.
Qed.
Lemma picked_new is : (forall i, In i is -> i < length D) -> newly_made h (hdup ord h (picked is)) (seq (nxt h) (length is)) /\ unchanged h (hdup ord h (picked is)).
Proof. intros H. pose proof (fold_new ord Hord h G (picked is) (picked_exist is H)) as F. unfold picked in F at 2. rewrite map_length in F. auto. Qed.

(** Copying one more row. *)
Lemma pushDup_picked is i r out : (forall i, In i is -> i < length D) -> nth_error D i = Some r ->
  pushDup ord (hdup ord h (picked is), out) r = (hdup ord h (picked (is ++ [i])), out ++ [nxt h + length is]).
Proof.
  intros H Hr. unfold pushDup. cbn [fst snd]. unfold picked at 2. rewrite map_app. cbn [map]. rewrite (nth_error_nth _ _ 0 Hr), hdup_snoc. fold (picked is).
  destruct (hdup_ok ord Hord h (picked is) G (picked_exist is H)) as (I1 & _ & I3 & _).
  destruct (dup_ok ord Hord _ r I3) as (E & _). destruct (dup ord (hdup ord h (picked is)) r) as [h2 r2]. cbn [fst snd] in *. subst r2. rewrite I1. unfold picked. rewrite map_length. auto.
Qed.

Lemma firstn_snoc {T} (l : list T) k x : nth_error l k = Some x -> firstn (S k) l = firstn k l ++ [x].
Proof. revert k. induction l as [|a l IH]; intros [|k] E; simpl in *; try discriminate; [congruence|]. f_equal. auto. Qed.

Lemma takeRows_ok R s : (forall i, In i R -> i < length D) -> forall k out, k + s <= length R ->
  takeRows ord s (hdup ord h (picked (firstn k R))) D R k out = Ok (hdup ord h (picked (firstn (k + s) R)), out ++ seq (nxt h + k) s, k + s).
Proof.
  intros HR. induction s as [|s IH]; intros k out Hk; cbn [takeRows seq].
  - rewrite Nat.add_0_r, app_nil_r. auto.
  - destruct (nth_error R k) as [i|] eqn:Ei; [|apply nth_error_None in Ei; lia]. rewrite (idx_ok _ _ _ Ei). cbn [bind].
    pose proof (HR i (nth_error_In _ _ Ei)) as Hi. rewrite (idx_ok _ _ _ (nth_error_nth' D 0 Hi)). cbn [bind].
    rewrite (pushDup_picked _ i) by (try (apply nth_error_nth'; auto); intros j Hj; apply HR; rewrite <- (firstn_skipn k R); apply in_or_app; auto).
    cbn [fst snd]. rewrite <- (firstn_snoc _ _ _ Ei), IH by lia. rewrite firstn_length_le by lia. rewrite <- app_assoc. simpl.
    replace (nxt h + S k) with (S (nxt h + k)) by lia. replace (k + S s) with (S (k + s)) by lia. auto.
Qed.

Lemma parts_ok R sizes : (forall i, In i R -> i < length D) -> (forall s, In s sizes -> (0 <= s)%Z) -> list_sum (map Z.to_nat sizes) <= length R ->
  foldr_ (fun (st : heap * list (list nat) * nat) s =>
         let '(h, M, k) := st in
         if (s <? 0)%Z then Panic
         else bind (takeRows ord (Z.to_nat s) h D R k []) (fun t => Ok (fst (fst t), M ++ [snd (fst t)], snd t))) sizes (h, [], 0)
  = Ok (hdup ord h (picked (firstn (list_sum (map Z.to_nat sizes)) R)), chunks (map Z.to_nat sizes) (nxt h), list_sum (map Z.to_nat sizes)).
Proof.
  intros HR Hs Hsum.
  change (h, @nil (list nat), 0) with ((fun pre : list Z => (hdup ord h (picked (firstn (list_sum (map Z.to_nat pre)) R)), chunks (map Z.to_nat pre) (nxt h), list_sum (map Z.to_nat pre))) []).
  rewrite foldr_pre; [reflexivity|]. intros pre s post E. destruct (Z.ltb_spec s 0) as [Hn|Hn]; [specialize (Hs s); rewrite E in Hs; specialize (Hs ltac:(apply in_or_app; right; left; auto)); lia|].
  rewrite takeRows_ok; auto.
  - cbn [bind fst snd]. rewrite !map_app. cbn [map]. rewrite list_sum_snoc, chunks_snoc. auto.
  - rewrite E, map_app, list_sum_app in Hsum. simpl in Hsum. lia.
Qed.
End P.

(** Cascade rounding. *)
Section C.
Local Open Scope R_scope.
Lemma Int_part_lt x : IZR (Int_part x) <= x < IZR (Int_part x) + 1.
Proof. pose proof (base_Int_part x). lra. Qed.
Lemma go_round_close x : Rabs (IZR (go_round x) - x) <= 1 / 2.
Proof.
  unfold go_round. destruct (Rle_dec 0 x) as [H|H].
  - pose proof (Int_part_lt (x + 1 / 2)). apply Rabs_le. lra.
  - rewrite opp_IZR. pose proof (Int_part_lt (- x + 1 / 2)). apply Rabs_le. lra.
Qed.
Lemma go_round_nonneg x : - (1 / 2) < x -> (0 <= go_round x)%Z.
Proof.
  intros H. unfold go_round. destruct (Rle_dec 0 x) as [H0|H0].
  - pose proof (Int_part_lt (x + 1 / 2)) as [_ H1]. assert (-1 < IZR (Int_part (x + 1 / 2))) by lra. apply (lt_IZR (-1)) in H2. lia.
  - pose proof (Int_part_lt (- x + 1 / 2)) as [H1 _]. assert (IZR (Int_part (- x + 1 / 2)) < 1) by lra. apply (lt_IZR _ 1) in H2. lia.
Qed.
Lemma go_round_int z : go_round (IZR z) = z.
Proof.
  pose proof (go_round_close (IZR z)) as H. rewrite <- minus_IZR in H. rewrite <- abs_IZR in H.
  assert (IZR (Z.abs (go_round (IZR z) - z)) < 1) by lra. apply (lt_IZR _ 1) in H0. lia.
Qed.

Variable fround : F XR -> Z.
Hypothesis Hround : forall r, fround (Fin r) = go_round r.

Definition zsum (l : list Z) : Z := fold_right Z.add 0%Z l.
Lemma zsum_snoc l z : zsum (l ++ [z]) = (zsum l + z)%Z.
Proof. induction l as [|a l IH]; simpl; [lia|]. unfold zsum in *. simpl in *. lia. Qed.

Definition cstep (st : F XR * Z * list Z) (pi : F XR) : F XR * Z * list Z :=
  let '(s, t, q) := st in
  let s' := @fadd XR s pi in let qi := fround (@fsub XR s' (@fz XR t)) in (s', (t + qi)%Z, q ++ [qi]).
Definition cstate (q : list R) : F XR * Z * list Z := fold_left cstep (map Fin q) (@fz XR 0, 0%Z, []).
Lemma cstate_snoc q x : cstate (q ++ [x]) = cstep (cstate q) (Fin x).
Proof. unfold cstate. rewrite map_app. apply (fold_left_app cstep (map Fin q) [Fin x]). Qed.
Lemma cstate_ok q : exists zs, cstate q = (Fin (Rsum q), zsum zs, zs) /\ length zs = length q /\
  (forall k, (k <= length q)%nat -> Rabs (IZR (zsum (firstn k zs)) - Rsum (firstn k q)) <= 1 / 2) /\
  ((forall x, In x q -> 0 < x) -> forall z, In z zs -> (0 <= z)%Z).
Proof.
  induction q as [|x q IH] using rev_ind.
  - exists []. simpl. split; auto. split; auto. split; [|tauto]. intros k Hk. replace k with 0%nat by lia. simpl. rewrite Rminus_0_r, Rabs_R0. lra.
  - destruct IH as (zs & E & HL & HC & HN). set (z := go_round (Rsum q + x - IZR (zsum zs))). exists (zs ++ [z]).
    rewrite cstate_snoc, E. unfold cstep.
    assert (Ez : fround (@fsub XR (@fadd XR (Fin (Rsum q)) (Fin x)) (@fz XR (zsum zs))) = z) by (etransitivity; [apply Hround|]; reflexivity).
    cbv zeta. rewrite Ez. rewrite zsum_snoc. change (@fadd XR (Fin (Rsum q)) (Fin x)) with (Fin (Rsum q + x)).
    split; [do 3 f_equal; rewrite Rsum_app; cbn [Rsum]; lra|]. split; [rewrite !app_length, HL; auto|].
    assert (Hlast : Rabs (IZR (zsum (zs ++ [z])) - Rsum (q ++ [x])) <= 1 / 2).
    { rewrite zsum_snoc, Rsum_app, plus_IZR. cbn [Rsum]. pose proof (go_round_close (Rsum q + x - IZR (zsum zs))) as H. fold z in H.
      replace (IZR (zsum zs) + IZR z - (Rsum q + (x + 0))) with (IZR z - (Rsum q + x - IZR (zsum zs))) by lra. auto. }
    split.
    + intros k Hk. rewrite app_length in Hk. cbn [length] in Hk. destruct (Nat.eq_dec k (length q + 1)) as [->|Hne].
      * rewrite firstn_all2 by (rewrite app_length, HL; simpl; lia). rewrite firstn_all2 by (rewrite app_length; simpl; lia). auto.
      * rewrite !firstn_app. replace (k - length zs)%nat with 0%nat by lia. replace (k - length q)%nat with 0%nat by lia. cbn [firstn]. rewrite !app_nil_r. apply HC. lia.
    + intros Hp y Hy. apply in_app_or in Hy as [Hy|[<-|[]]]; [apply HN; auto; intros; apply Hp, in_or_app; auto|].
      apply go_round_nonneg. specialize (HC (length q) (le_n _)). rewrite <- HL in HC at 1. rewrite !firstn_all in HC.
      assert (0 < x) by (apply Hp, in_or_app; right; left; auto). unfold Rabs in HC. destruct (Rcase_abs _); lra.
Qed.

Lemma cstate_int zs : cstate (map IZR zs) = (Fin (IZR (zsum zs)), zsum zs, zs).
Proof.
  induction zs as [|z zs IH] using rev_ind; [reflexivity|]. rewrite map_app. cbn [map]. rewrite cstate_snoc, IH. unfold cstep. cbv zeta.
  assert (Ez : fround (@fsub XR (@fadd XR (Fin (IZR (zsum zs))) (Fin (IZR z))) (@fz XR (zsum zs))) = z).
  { etransitivity; [apply Hround|]. replace (IZR (zsum zs) + IZR z + - IZR (zsum zs)) with (IZR z) by lra. apply go_round_int. }
  rewrite Ez, zsum_snoc. change (@fadd XR (Fin (IZR (zsum zs))) (Fin (IZR z))) with (Fin (IZR (zsum zs) + IZR z)). rewrite plus_IZR. auto.
Qed.
Lemma cascade_cstate q : @cascadeRounding XR fround (map Fin q) = snd (cstate q).
Proof. reflexivity. Qed.
Lemma cascade_int zs : @cascadeRounding XR fround (map (fun z => Fin (IZR z)) zs) = zs.
Proof. rewrite <- (map_map IZR Fin), cascade_cstate, cstate_int. auto. Qed.

Lemma zsum_nat zs : (forall z, In z zs -> 0 <= z)%Z -> zsum zs = Z.of_nat (list_sum (map Z.to_nat zs)).
Proof.
  induction zs as [|z zs IH]; intros H; simpl; auto. unfold zsum in *. simpl. rewrite IH by (intros; apply H; right; auto). specialize (H z (or_introl eq_refl)). lia.
Qed.

Lemma partition_ok ord h D R p : visits_all ord -> good_heap h -> rows_exist h D -> Permutation R (seq 0 (length D)) ->
  (forall x, In x p -> 0 < x) -> Rsum p = 1 ->
  exists h' idxs M, @partition ord XR fround h D R (map Fin p) = Ok (h', M) /\
    divided h D h' idxs M /\ concat idxs = R /\ exactly_once (length D) idxs /\ length M = length p /\ totals_close (length D) p M.
Proof.
  intros Hord G HD HP Hp H1. set (n := length D). set (q := map (fun x => INR n * x) p).
  assert (HQ : exists zs, @cascadeRounding XR fround (map Fin q) = zs /\ length zs = length q /\ (forall z, In z zs -> (0 <= z)%Z) /\
    (forall k, (k <= length q)%nat -> Rabs (IZR (zsum (firstn k zs)) - Rsum (firstn k q)) <= 1 / 2)).
  { destruct n as [|n'] eqn:En.
    - assert (Eq : q = map IZR (map (fun _ => 0%Z) p)) by (unfold q; rewrite map_map; apply map_ext; intros x; simpl; lra).
      exists (map (fun _ => 0%Z) p). rewrite cascade_cstate, Eq, cstate_int. cbn [snd]. rewrite !map_length. split; auto. split; auto. split.
      + intros z Hz. apply in_map_iff in Hz as (x & <- & _). lia.
      + intros k _. rewrite (firstn_map IZR). assert (Ex : forall l, IZR (zsum l) = Rsum (map IZR l)).
        { induction l as [|a l IH]; simpl; auto. unfold zsum in *. simpl. rewrite plus_IZR, IH. auto. }
        rewrite Ex. unfold Rminus. rewrite Rplus_opp_r, Rabs_R0. lra.
    - destruct (cstate_ok q) as (zs & E & HL & HC & HN). exists zs. rewrite cascade_cstate, E. split; auto. split; auto. split; auto.
      apply HN. intros y Hy. unfold q in Hy. apply in_map_iff in Hy as (x & <- & Hx). apply Rmult_lt_0_compat; auto. apply lt_0_INR. lia. }
  destruct HQ as (zs & E & HL & HN & HC).
  assert (Hq : Rsum q = INR n) by (unfold q; rewrite (Rsum_scal (INR n)), H1; lra).
  assert (Hlen : length q = length p) by (unfold q; apply map_length).
  assert (Htot : list_sum (map Z.to_nat zs) = n).
  { specialize (HC (length q) (le_n _)). rewrite <- HL in HC at 1. rewrite !firstn_all, Hq, (zsum_nat zs HN), INR_IZR_INZ, <- minus_IZR, <- abs_IZR in HC.
    assert (HC' : IZR (Z.abs (Z.of_nat (list_sum (map Z.to_nat zs)) - Z.of_nat n)) < 1) by lra. apply (lt_IZR _ 1) in HC'. lia. }
  assert (HR : forall i, In i R -> (i < length D)%nat) by (intros i Hi; apply (Permutation_in _ HP), in_seq in Hi; lia).
  assert (HRl : length R = n) by (rewrite (Permutation_length HP); apply seq_length).
  set (h' := hdup ord h (picked D R)). set (M := chunks (map Z.to_nat zs) (nxt h)).
  assert (HM : concat M = seq (nxt h) n) by (unfold M; rewrite chunks_concat, Htot; auto).
  assert (HCp : copies h D h' R (concat M)) by (rewrite HM, <- HRl; apply picked_copies; auto).
  destruct (Forall2_chunks _ _ _ HCp) as (idxs & Ei & HF).
  destruct (picked_new ord Hord h G D HD R HR) as [N1 N2].
  exists h', idxs, M. split; [|split; [|split; [auto|split; [|split]]]].
  - unfold partition.
    assert (Em : map (fun pi : F XR => @fmul XR (@fz XR (Z.of_nat (length D))) pi) (map Fin p) = map Fin q).
    { unfold q. rewrite !map_map. apply map_ext. intros x. rewrite INR_IZR_INZ. reflexivity. }
    rewrite Em, E. rewrite (parts_ok ord Hord h G D HD R zs HR HN) by lia. cbn [bind fst]. rewrite Htot, <- HRl, firstn_all. auto.
  - split; auto. split; auto. rewrite HM, <- HRl. auto.
  - unfold exactly_once. rewrite Ei. auto.
  - unfold M. rewrite <- (map_length (@length nat)), chunks_length, map_length. lia.
  - intros k Hk. fold n. assert (Ec : length (concat (firstn k M)) = list_sum (map Z.to_nat (firstn k zs))).
    { assert (El : map (@length nat) M = map Z.to_nat zs) by apply chunks_length.
      clearbody M. clear -El. revert k zs El. induction M as [|m M IH]; intros k [|z zs] El; simpl in *; try discriminate; [rewrite firstn_nil; destruct k; auto|].
      injection El as E1 E2. destruct k as [|k]; simpl; auto. rewrite app_length, (IH k zs E2). lia. }
    rewrite Ec, INR_IZR_INZ, <- zsum_nat by (intros z Hz; apply HN; rewrite <- (firstn_skipn k zs); apply in_or_app; auto).
    specialize (HC k ltac:(lia)). unfold q in HC. rewrite firstn_map, (Rsum_scal (INR n)) in HC. auto.
Qed.
End C.

(** Divide. *)
Section V.
Variable ord : nat -> gmap -> gmap.
Hypothesis Hord : visits_all ord.
Variable h : heap.
Hypothesis G : good_heap h.
Variable D : list nat.
Hypothesis HD : rows_exist h D.
Variable L : list Z.
Hypothesis HL : length L = length D.

Definition dstep (ip : nat * nat) : step := (fst ip, snd ip, nth (snd ip) L 0%Z).
Definition dorder (N K l : nat) : list (nat * nat) :=
  map (fun ij => (fst ij, fst ij * K + snd ij)) (flat_map (fun i => map (pair i) (seq 0 K)) (seq 0 N)) ++
  map (fun i => (i, length D - i - 1)) (seq 0 l).

Lemma dorder_fst_in N K l : l <= N -> forall ip, In ip (dorder N K l) -> fst ip < N.
Proof.
  intros Hl ip Hi. unfold dorder in Hi. apply in_app_or in Hi as [Hi|Hi]; apply in_map_iff in Hi as (x & <- & Hx); cbn [fst].
  - apply in_flat_map in Hx as (i & Hi & Hx). apply in_map_iff in Hx as (j & <- & _). apply in_seq in Hi. cbn [fst]. lia.
  - apply in_seq in Hx. lia.
Qed.
Lemma flat_rows N K : forall s, map (fun ij : nat * nat => fst ij * K + snd ij) (flat_map (fun i => map (pair i) (seq 0 K)) (seq s N)) = seq (s * K) (N * K).
Proof.
  induction N as [|N IH]; intros s; simpl; auto. rewrite map_app, IH, map_map. cbn [fst snd].
  rewrite seq_app. f_equal; [|f_equal; lia]. clear. generalize (s * K). intros k. replace (seq k K) with (seq (k + 0) K) by (f_equal; lia).
  generalize 0. induction K as [|K IH]; intros j; simpl; auto. f_equal. rewrite IH. f_equal. lia.
Qed.
Lemma rev_tail l : forall m, l <= m -> Permutation (map (fun i => m - i - 1) (seq 0 l)) (seq (m - l) l).
Proof.
  induction l as [|l IH]; intros m Hl; auto. rewrite seq_S, map_app. cbn [map]. rewrite IH by lia.
  replace (m - l) with (S (m - S l)) by lia. replace (m - (0 + l) - 1) with (m - S l) by lia. cbn [seq].
  rewrite Permutation_app_comm. auto.
Qed.
Lemma dorder_snd N K l : length D = N * K + l -> Permutation (map snd (dorder N K l)) (seq 0 (length D)).
Proof.
  intros HE. unfold dorder. rewrite map_app, !map_map. cbn [snd]. rewrite (flat_rows N K 0), (rev_tail l (length D)) by lia.
  replace (length D - l) with (0 + N * K) by lia. simpl (0 * K). rewrite <- seq_app, HE. auto.
Qed.
Lemma dorder_count N K l b : b < N -> length (filter (inb b) (map dstep (dorder N K l))) = K + (if Nat.ltb b l then 1 else 0).
Proof.
  intros Hb. unfold dorder. rewrite map_app, filter_app, app_length. f_equal.
  - assert (Gn : forall n s, length (filter (inb b) (map dstep (map (fun ij => (fst ij, fst ij * K + snd ij)) (flat_map (fun i => map (pair i) (seq 0 K)) (seq s n))))) = if (s <=? b) && (b <? s + n) then K else 0).
    { induction n as [|n IH]; intros s; simpl.
      - destruct (Nat.leb_spec s b), (Nat.ltb_spec b (s + 0)); auto; lia.
      - rewrite !map_app, filter_app, app_length, IH.
        assert (Eb : length (filter (inb b) (map dstep (map (fun ij => (fst ij, fst ij * K + snd ij)) (map (pair s) (seq 0 K))))) = if Nat.eqb s b then K else 0).
        { assert (Gk : forall n0 j, length (filter (inb b) (map dstep (map (fun ij => (fst ij, fst ij * K + snd ij)) (map (pair s) (seq j n0))))) = if Nat.eqb s b then n0 else 0).
          { induction n0 as [|n0 IHk]; intros j; [simpl; destruct (Nat.eqb s b); auto|]. specialize (IHk (S j)). cbn [seq map fst snd filter].
            destruct (inb b (dstep (s, s * K + j))) eqn:Ei; unfold inb, sbk, dstep in Ei; cbn [fst] in Ei; rewrite Ei in *; cbn [length]; rewrite IHk; auto. }
          apply Gk. }
        rewrite Eb. destruct (Nat.eqb_spec s b), (Nat.leb_spec (S s) b), (Nat.leb_spec s b), (Nat.ltb_spec b (S s + n)), (Nat.ltb_spec b (s + S n)); simpl; lia. }
    rewrite (Gn N 0). destruct (Nat.leb_spec 0 b), (Nat.ltb_spec b (0 + N)); simpl; auto; lia.
  - assert (Gn : forall n s, length (filter (inb b) (map dstep (map (fun i => (i, length D - i - 1)) (seq s n)))) = if (s <=? b) && (b <? s + n) then 1 else 0).
    { induction n as [|n IH]; intros s; simpl.
      - destruct (Nat.leb_spec s b), (Nat.ltb_spec b (s + 0)); auto; lia.
      - specialize (IH (S s)). destruct (inb b (dstep (s, length D - s - 1))) eqn:Ei; unfold inb, sbk, dstep in Ei; cbn [fst] in Ei; cbn [length]; rewrite IH; [apply Nat.eqb_eq in Ei|apply Nat.eqb_neq in Ei];
          destruct (Nat.leb_spec (S s) b), (Nat.leb_spec s b), (Nat.ltb_spec b (S s + n)), (Nat.ltb_spec b (s + S n)); simpl; lia. }
    rewrite (Gn l 0). destruct (Nat.ltb_spec b l), (Nat.ltb_spec b (0 + l)); simpl; auto; lia.
Qed.

Lemma divide_ok n : (0 < n <= Z.of_nat (length D))%Z ->
  exists h' idxs Gd Gl, divide ord h D L n = Ok (h', Gd, Gl) /\ divided h D h' idxs Gd /\ Forall2 (labels_of L) idxs Gl /\
    exactly_once (length D) idxs /\ length Gd = Z.to_nat n /\ balanced (length D / Z.to_nat n) (length D mod Z.to_nat n) Gd.
Proof.
  intros Hn. set (N := Z.to_nat n). set (K := length D / N). set (l := length D mod N).
  assert (HN : N <> 0) by (subst N; lia). pose proof (Nat.div_mod (length D) N HN) as Hdm. fold K l in Hdm. pose proof (Nat.mod_upper_bound (length D) N HN) as Hl. fold l in Hl.
  assert (Eq : Z.quot (Z.of_nat (length D)) n = Z.of_nat K).
  { rewrite Z.quot_div_nonneg by lia. unfold K. rewrite Nat2Z.inj_div. f_equal. subst N. lia. }
  assert (Er : Z.rem (Z.of_nat (length D)) n = Z.of_nat l).
  { rewrite Z.rem_mod_nonneg by lia. unfold l. rewrite Nat2Z.inj_mod. f_equal. subst N. lia. }
  assert (HK : 0 < K) by (unfold K; apply Nat.div_str_pos; subst N; lia).
  set (steps := fun ips : list (nat * nat) => map dstep ips).
  assert (Hall : forall ip, In ip (dorder N K l) -> fst ip < N /\ snd ip < length D).
  { intros ip Hi. split; [apply (dorder_fst_in N K l); auto; lia|]. apply (in_map snd) in Hi. apply (Permutation_in _ (dorder_snd N K l ltac:(lia))) in Hi. apply in_seq in Hi. lia. }
  assert (Hsok : forall ips, (forall ip, In ip ips -> fst ip < N /\ snd ip < length D) -> Forall (stepok D N) (steps ips)).
  { intros ips H. apply Forall_forall. intros s Hs. apply in_map_iff in Hs as (ip & <- & Hi). apply H in Hi. exact Hi. }
  set (SS := steps (dorder N K l)).
  exists (hs ord h D SS), (rws N SS), (bks h N SS), (lbs N SS). split; [|split; [|split; [|split; [|split]]]].
  - unfold divide. destruct (Z.eqb_spec n 0); [lia|]. rewrite Eq, Er. destruct (Z.eqb_spec (Z.of_nat K) 0); [lia|]. destruct (Z.ltb_spec n 0); [lia|].
    fold N. rewrite !Nat2Z.id.
    set (row := fun (i p : nat) (st : heap * list (list nat) * list (list Z)) => let '(h, Gd, Gl) := st in
      bind (idx D p) (fun r => let (h', r') := dup ord h r in
      bind (idx Gd i) (fun gd => bind (idx Gl i) (fun gl => bind (idx L p) (fun lp =>
      Ok (h', set_nth i (gd ++ [r']) Gd, set_nth i (gl ++ [lp]) Gl)))))).
    assert (Hrow : forall pre i p, (forall ip, In ip pre -> fst ip < N /\ snd ip < length D) -> i < N -> p < length D ->
      row i p (hs ord h D (steps pre), bks h N (steps pre), lbs N (steps pre)) = Ok (hs ord h D (steps (pre ++ [(i, p)])), bks h N (steps (pre ++ [(i, p)])), lbs N (steps (pre ++ [(i, p)])))).
    { intros pre i p Hp Hi Hpl. unfold row. rewrite (idx_ok _ _ _ (nth_error_nth' D 0 Hpl)). cbn [bind].
      rewrite (step_dup ord Hord h G D HD (steps pre) (dstep (i, p))) by (try (apply nth_error_nth'; exact Hpl); apply stepok_rowok with N; auto).
      rewrite (idx_ok _ _ _ (bks_nth h N (steps pre) i Hi)), (idx_ok _ _ _ (lbs_nth N (steps pre) i Hi)). cbn [bind].
      rewrite (idx_ok _ _ _ (nth_error_nth' L 0%Z (n := p) ltac:(lia))). cbn [bind].
      unfold steps. rewrite map_app. cbn [map]. fold (steps pre).
      rewrite <- (bks_snoc h N (steps pre) (dstep (i, p))) by auto. rewrite <- (lbs_snoc N (steps pre) (dstep (i, p))) by auto. auto. }
    rewrite <- (bks_nil h N), <- (lbs_nil N).
    set (one := map (fun ij => (fst ij, fst ij * K + snd ij)) (flat_map (fun i => map (pair i) (seq 0 K)) (seq 0 N))).
    assert (E1 : foldr_ (fun st (ij : nat * nat) => row (fst ij) (fst ij * K + snd ij) st) (flat_map (fun i => map (pair i) (seq 0 K)) (seq 0 N)) (h, bks h N [], lbs N [])
      = Ok (hs ord h D (steps one), bks h N (steps one), lbs N (steps one))).
    { change (h, bks h N [], lbs N []) with ((fun pre => let ips := map (fun ij => (fst ij, fst ij * K + snd ij)) pre in (hs ord h D (steps ips), bks h N (steps ips), lbs N (steps ips))) []).
      rewrite foldr_pre; [reflexivity|]. intros pre x post E. cbv zeta. rewrite map_app. cbn [map].
      assert (HI : forall y, In y (pre ++ [x]) -> fst y < N /\ fst y * K + snd y < length D).
      { intros y Hy. apply (Hall (fst y, fst y * K + snd y)). unfold dorder. apply in_or_app. left. apply in_map_iff. exists y. split; auto. rewrite E.
        apply in_app_or in Hy as [Hy|[<-|[]]]; apply in_or_app; [auto|right; left; auto]. }
      apply Hrow.
      - intros ip Hi. apply in_map_iff in Hi as (y & <- & Hy). apply (HI y), in_or_app. auto.
      - apply (HI x), in_or_app. right; left; auto.
      - apply (HI x), in_or_app. right; left; auto. }
    change (bind (foldr_ (fun st (ij : nat * nat) => row (fst ij) (fst ij * K + snd ij) st) (flat_map (fun i => map (pair i) (seq 0 K)) (seq 0 N)) (h, bks h N [], lbs N []))
      (fun st => foldr_ (fun st i => row i (length D - i - 1) st) (seq 0 l) st) = Ok (hs ord h D SS, bks h N SS, lbs N SS)).
    rewrite E1. cbn [bind].
    assert (E2 : (hs ord h D (steps one), bks h N (steps one), lbs N (steps one)) = (fun pre => let ips := one ++ map (fun i => (i, length D - i - 1)) pre in (hs ord h D (steps ips), bks h N (steps ips), lbs N (steps ips))) []) by (cbv beta zeta; cbn [map]; rewrite app_nil_r; auto).
    rewrite E2. apply (foldr_pre (fun st i => row i (length D - i - 1) st) (fun pre => let ips := one ++ map (fun i => (i, length D - i - 1)) pre in (hs ord h D (steps ips), bks h N (steps ips), lbs N (steps ips))) (seq 0 l)).
    intros pre x post E. cbv zeta. rewrite map_app. cbn [map]. rewrite app_assoc.
    assert (HI : forall y, In y (one ++ map (fun i => (i, length D - i - 1)) (pre ++ [x])) -> fst y < N /\ snd y < length D).
    { intros y Hy. apply Hall. unfold dorder. fold one. apply in_or_app. apply in_app_or in Hy as [Hy|Hy]; auto. right. apply in_map_iff in Hy as (i & <- & Hi). apply in_map_iff. exists i. split; auto.
      rewrite E. apply in_app_or in Hi as [Hi|[<-|[]]]; apply in_or_app; [auto|right; left; auto]. }
    rewrite map_app in HI. cbn [map] in HI. rewrite app_assoc in HI. apply Hrow.
    + intros ip Hi. apply HI, in_or_app. auto.
    + apply (HI (x, length D - x - 1)). apply in_or_app. right; left; auto.
    + apply (HI (x, length D - x - 1)). apply in_or_app. right; left; auto.
  - apply final_divided; auto. apply Hsok, Hall.
  - apply final_labels. apply Forall_forall. intros s Hs. apply in_map_iff in Hs as (ip & <- & Hi). apply Hall in Hi. cbn [srow slab dstep fst snd]. apply nth_error_nth'. lia.
  - unfold exactly_once. rewrite (final_perm D N) by (apply Hsok, Hall). unfold SS, steps. rewrite map_map. cbn [srow dstep fst snd]. apply dorder_snd. lia.
  - unfold bks. rewrite map_length, seq_length. auto.
  - intros i part Hi. assert (Hlt : i < N) by ((assert (Hx : nth_error (bks h N SS) i <> None) by congruence; apply nth_error_Some in Hx; unfold bks in Hx; rewrite map_length, seq_length in Hx; auto)).
    rewrite (bks_nth h N SS i Hlt) in Hi. injection Hi as <-. rewrite bucket_length. unfold rowsin. rewrite map_length. apply dorder_count. auto.
Qed.
End V.

(** Identical. *)
Lemma go_loop {T U} (t : nat -> T -> U -> bool) (E : list U) : forall (D : list T) k g, k + length D <= length E ->
  exists b, foldi_from k (fun i (go : bool) r => if go then bind (idx E i) (fun s => Ok (t i r s)) else Ok false) D g = Ok b /\
    (b = true <-> g = true /\ forall j r, nth_error D j = Some r -> exists s, nth_error E (k + j) = Some s /\ t (k + j) r s = true).
Proof.
  induction D as [|r D IH]; intros k g Hk; cbn [foldi_from length] in *.
  - exists g. split; auto. split; [intros H; split; auto; intros [|j]; discriminate|tauto].
  - destruct (nth_error E k) as [s|] eqn:Es; [|apply nth_error_None in Es; lia].
    assert (E1 : (if g then bind (idx E k) (fun s => Ok (t k r s)) else Ok false) = Ok (g && t k r s)) by (rewrite (idx_ok _ _ _ Es); destruct g; auto).
    rewrite E1. cbn [bind]. destruct (IH (k + 1) (g && t k r s) ltac:(lia)) as (b & Eb & Hb). exists b. split; auto. rewrite Hb, andb_true_iff. split.
    + intros [[Hg Ht] H]. split; auto. intros [|j] x Hx; simpl in Hx.
      * injection Hx as <-. rewrite Nat.add_0_r. eauto.
      * destruct (H j x Hx) as (y & Hy). exists y. replace (k + S j) with (k + 1 + j) by lia. auto.
    + intros [Hg H]. split.
      * split; auto. destruct (H 0 r eq_refl) as (y & Hy & Ht). rewrite Nat.add_0_r in *. congruence.
      * intros j x Hx. destruct (H (S j) x Hx) as (y & Hy). exists y. replace (k + 1 + j) with (k + S j) by lia. auto.
Qed.

(** The test that is made: every entry of the first map agrees with the second map, where absent
    means 0. *)
Definition agrees (m m' : gmap) : Prop := forall k v, get m k = Some v -> get0 m' k = v.

Lemma forallb_agrees ord i m m' : visits_all ord -> NoDup (keys m) ->
  (forallb (fun e => Z.eqb (snd e) (get0 m' (fst e))) (ord i m) = true <-> agrees m m').
Proof.
  intros Ho Hm. rewrite forallb_forall. split.
  - intros H k v Hk. apply get_In in Hk; auto. specialize (H (k, v) (Permutation_in _ (Permutation_sym (Ho i m)) Hk)). apply Z.eqb_eq in H. auto.
  - intros H [k v] Hx. apply (Permutation_in _ (Ho i m)) in Hx. apply get_In in Hx; auto. apply Z.eqb_eq. cbn [fst snd]. symmetry. apply H. auto.
Qed.

Lemma identical_rows ord h D E L M : visits_all ord -> good_heap h -> length D = length E ->
  (match L, M with Some l, Some m => length l = length D /\ length m = length E | None, None => True | _, _ => False end) ->
  exists b, identical ord h D E L M = Ok b /\ (b = true <-> Forall2 (fun r s => agrees (mem h r) (mem h s)) D E /\ L = M).
Proof.
  intros Ho G HL HLM. unfold identical, foldi.
  destruct (go_loop (fun i r s => forallb (fun e => Z.eqb (snd e) (get0 (mem h s) (fst e))) (ord i (mem h r))) E D 0 true ltac:(lia)) as (b1 & E1 & H1).
  assert (F1 : b1 = true <-> Forall2 (fun r s => agrees (mem h r) (mem h s)) D E).
  { rewrite H1. split.
    - intros [_ H]. clear -H HL Ho G. assert (Gn : forall D E k, length D = length E -> (forall j r, nth_error D j = Some r -> exists s, nth_error E j = Some s /\ forallb (fun e => Z.eqb (snd e) (get0 (mem h s) (fst e))) (ord (k + j) (mem h r)) = true) -> Forall2 (fun r s => agrees (mem h r) (mem h s)) D E).
      { clear -Ho G. induction D as [|r D IH]; intros [|s E] k HL H; try discriminate; constructor.
        - destruct (H 0 r eq_refl) as (s' & Es & Hf). injection Es as <-. apply (forallb_agrees ord (k + 0) _ _ Ho (G r)). auto.
        - apply (IH E (S k)); [simpl in HL; lia|]. intros j x Hx. destruct (H (S j) x Hx) as (s' & Es & Hf). exists s'. split; auto. replace (S k + j) with (k + S j) by lia. auto. }
      apply (Gn D E 0 HL H).
    - intros HF. split; auto. intros j r Hr. assert (Gn : exists s, nth_error E j = Some s /\ agrees (mem h r) (mem h s)).
      { clear -HF Hr. revert j Hr. induction HF as [|a b l1 l2 H _ IH]; intros [|j] Hr; try discriminate; [injection Hr as ->; exists b; split; auto|]. apply (IH j). auto. }
      destruct Gn as (s & Es & Ha). exists s. split; auto. apply forallb_agrees; auto. }
  cbv zeta.
  assert (Hlab : forall l m : list Z, length l = length m -> exists b2, foldi_from 0 (fun i (go : bool) li => if go then bind (idx m i) (fun mi => Ok (Z.eqb mi li)) else Ok false) l true = Ok b2 /\ (b2 = true <-> l = m)).
  { intros l m Hlm. destruct (go_loop (fun _ li mi => Z.eqb mi li) m l 0 true ltac:(lia)) as (b2 & E2 & H2). exists b2. split; auto. rewrite H2. split.
    - intros [_ H]. apply nth_error_ext. intros i. destruct (nth_error l i) as [x|] eqn:Ex.
      + destruct (H i x Ex) as (y & Ey & Hy). apply Z.eqb_eq in Hy. simpl in Ey. congruence.
      + symmetry. apply nth_error_None. apply nth_error_None in Ex. lia.
    - intros ->. split; auto. intros j r Hr. exists r. split; auto. apply Z.eqb_refl. }
  destruct L as [l|], M as [m|]; try contradiction.
  - destruct HLM as [Hl Hm]. rewrite Hl, Hm, !Nat.eqb_refl. cbn [negb orb]. rewrite E1. cbn [bind].
    destruct (Hlab l m ltac:(lia)) as (b2 & E2 & H2). destruct b1.
    + exists b2. split; auto. rewrite H2. intuition (congruence || auto).
    + exists false. split; auto. intuition (congruence || auto).
  - rewrite E1. cbn [bind]. destruct b1; [exists true|exists false]; split; auto; intuition (congruence || auto).
Qed.

Lemma agrees_meq m m' : (forall k, get m k = None <-> get m' k = None) -> (agrees m m' <-> meq m m').
Proof.
  intros Hk. split.
  - intros H k. destruct (get m k) as [v|] eqn:E; [|symmetry; apply Hk; auto]. specialize (H k v E). unfold get0 in H. destruct (get m' k) as [w|] eqn:E'; [congruence|]. apply Hk in E'. congruence.
  - intros H k v E. unfold get0. rewrite <- H, E. auto.
Qed.

Lemma identical_ok ord h D E L M : visits_all ord -> good_heap h -> length D = length E ->
  (match L, M with Some l, Some m => length l = length D /\ length m = length E | None, None => True | _, _ => False end) ->
  (Forall2 (fun r s => forall k, get (mem h r) k = None <-> get (mem h s) k = None) D E) ->
  exists b, identical ord h D E L M = Ok b /\ (b = true <-> Forall2 (fun r s => meq (mem h r) (mem h s)) D E /\ L = M).
Proof.
  intros Ho G HL HLM HK. destruct (identical_rows ord h D E L M Ho G HL HLM) as (b & Eb & Hb). exists b. split; auto. rewrite Hb.
  assert (HE : Forall2 (fun r s => agrees (mem h r) (mem h s)) D E <-> Forall2 (fun r s => meq (mem h r) (mem h s)) D E).
  { clear -HK. induction HK as [|r s D E Hk _ IH]; [split; constructor|]. split; intros H; inversion H; subst; constructor; try (apply IH; auto); apply (agrees_meq _ _ Hk); auto. }
  tauto.
Qed.
