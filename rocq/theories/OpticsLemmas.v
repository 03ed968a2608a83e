(** OPTICS: core points panic, and without core points everything is noise. *)
From Coq Require Import QArith.
From Verif Require Import Base Res Arith Cluster ClusterSpec ClusterLemmas ClusterCases Optics OpticsSpec SerialCases.
Local Open Scope Z_scope.

Section L.
Context {A : arith}.
Local Notation F := (F A).
Variable undef : F.
Variable compared : list (option (F * nat)) -> list (nat * nat).
Variable sorted : list (option (F * nat)) -> list (option (F * nat)).
Variable heapFix : list (nat * F) -> nat -> list (nat * F).
Variable data : list (list Z).
Variable eps : F.
Variable mp : Z.
Variable m : nat.
Hypothesis Hm : forall row, In row data -> length row = m.
Hypothesis Hc : looks_at_all compared.
Hypothesis Hi : infinite undef eps.

Lemma euclidean_l p q : (length p <= length q)%nat -> @euclidean A p q = Ok (distance p q).
Proof using.
  intros H. unfold euclidean, distance, foldi.
  assert (G : forall p (q0 q : list Z) i s, i = length q0 -> (length p <= length q)%nat ->
    foldi_from i (fun i s x => y <- idx (q0 ++ q) i; let l := fz (x - y) in Ok (fadd s (fmul l l))) p s =
    Ok (fold_left (fun (s : F) xy => let l := fz (fst xy - snd xy) in fadd s (fmul l l)) (combine p q) s)).
  { clear. induction p as [|x p IH]; intros q0 q i s -> H; auto. destruct q as [|y q]; [simpl in H; lia|]. cbn [foldi_from combine fold_left].
    unfold idx at 1. rewrite nth_error_app2, Nat.sub_diag by lia. cbn [nth_error bind fst snd].
    replace (q0 ++ y :: q) with ((q0 ++ [y]) ++ q) by (rewrite <- app_assoc; auto). apply IH; [rewrite app_length; simpl; lia|simpl in H; lia]. }
  pose proof (G p [] q 0%nat (fz 0) eq_refl H) as E. cbn [app] in E. rewrite E. reflexivity.
Qed.

Lemma getNeighbors_l o : (o < length data)%nat -> getNeighbors data eps o = Ok (neighbours eps data o).
Proof using Hm.
  intros Ho. unfold getNeighbors, neighbours. destruct (nth_error data o) as [p1|] eqn:E; [|apply nth_error_None in E; lia].
  unfold idx at 1. rewrite E. cbn [bind]. rewrite (nth_error_nth _ _ [] E). assert (L1 : length p1 = m) by (eapply Hm, nth_error_In; eauto).
  clear Ho E. unfold foldi.
  assert (G : forall t a ns, data = a ++ t -> foldi_from (length a) (fun i ns p2 => if Nat.eqb o i then Ok ns else d <- euclidean p1 p2; Ok (if fge eps d then ns ++ [i] else ns)) t ns =
    Ok (ns ++ filter (fun j => negb (Nat.eqb o j) && fge eps (distance p1 (nth j data []))) (seq (length a) (length t)))).
  { induction t as [|p2 t IH]; intros a ns Ed; cbn [foldi_from length seq filter]; [rewrite app_nil_r; auto|].
    assert (E2 : nth (length a) data [] = p2) by (rewrite Ed, app_nth2, Nat.sub_diag by lia; auto). rewrite E2.
    assert (Ed' : data = (a ++ [p2]) ++ t) by (rewrite <- app_assoc; auto). assert (La : length (a ++ [p2]) = (length a + 1)%nat) by (rewrite app_length; auto).
    specialize (IH (a ++ [p2])). rewrite La in IH. replace (S (length a)) with (length a + 1)%nat by lia.
    destruct (Nat.eqb o (length a)); cbn [negb andb bind].
    - rewrite IH by auto. reflexivity.
    - rewrite euclidean_l by (rewrite L1, (Hm p2); [lia|rewrite Ed; apply in_or_app; right; left; auto]). cbn [bind].
      rewrite IH by auto. destruct (fge eps (distance p1 p2)); auto. rewrite <- app_assoc. auto. }
  apply (G data [] [] eq_refl).
Qed.

Lemma calls_panic (d : list (option (F * nat))) l : (exists c, In c l /\ lessCall d c = Panic) -> foldr_ (fun _ c => lessCall d c) l tt = Panic.
Proof using.
  intros (c & HI & E). induction l as [|x l IH]; [destruct HI|]. cbn [foldr_].
  destruct HI as [->|HI]; [rewrite E; auto|]. destruct (lessCall d x) as [u| |] eqn:Ex; [destruct u; cbn [bind]; auto|reflexivity|].
  unfold lessCall, idx, orPanic in Ex. destruct (nth_error d (fst x)) as [[?|]|]; try discriminate. cbn [bind] in Ex. destruct (nth_error d (snd x)) as [[?|]|]; discriminate.
Qed.

Lemma getCoreDist_l o : (o < length data)%nat ->
  getCoreDist undef compared sorted data mp (neighbours eps data o) o = if Z.of_nat (length (neighbours eps data o)) <? mp then Ok undef else Panic.
Proof using Hm Hc.
  intros Ho. unfold getCoreDist. destruct (Z.ltb_spec (Z.of_nat (length (neighbours eps data o))) mp) as [H|H]; auto.
  destruct (nth_error data o) as [p1|] eqn:E; [|apply nth_error_None in E; lia]. unfold idx at 1. rewrite E. cbn [bind].
  set (nb := neighbours eps data o) in *. assert (Hnb : forall j, In j nb -> (j < length data)%nat). { intros j Hj. apply filter_In in Hj as [Hj _]. apply in_seq in Hj. lia. }
  assert (L1 : length p1 = m) by (eapply Hm, nth_error_In; eauto).
  assert (G : exists ds, mapi (fun i j => q <- idx data j; d <- @euclidean A p1 q; Ok (Some (d, i))) nb = Ok ds /\ length ds = length nb).
  { unfold mapi. generalize 0%nat. clear H. clearbody nb. induction nb as [|j nb IH]; intros i; cbn [mapi_from]; eauto.
    destruct (nth_error data j) as [q|] eqn:Eq; [|apply nth_error_None in Eq; pose proof (Hnb j (or_introl eq_refl)); lia].
    unfold idx at 1. rewrite Eq. cbn [bind]. rewrite euclidean_l by (rewrite L1, (Hm q); [lia|eapply nth_error_In; eauto]). cbn [bind].
    destruct (IH (fun j Hj => Hnb j (or_intror Hj)) (S i)) as (ds & -> & L). cbn [bind]. eexists. split; eauto. simpl. lia. }
  destruct G as (ds & -> & L). cbn [bind]. set (dists := repeat None (length nb) ++ ds).
  destruct nb as [|j nb].
  - destruct ds; [|discriminate]. cbn [length repeat app] in *. subst dists. cbn [length repeat app].
    match goal with |- bind ?x _ = _ => destruct x as [u| |] eqn:Ef end; cbn [bind]; auto.
    + unfold idxZ. destruct (Z.ltb_spec (mp - 1) 0); [reflexivity|lia].
    + exfalso. revert Ef. match goal with |- foldr_ _ ?l _ = _ -> _ => generalize l end. induction l as [|c l IH]; cbn [foldr_]; [discriminate|]. unfold lessCall at 1, idx. destruct (fst c); discriminate.
  - rewrite calls_panic; [reflexivity|]. destruct (Hc dists 0%nat) as (c & Hin & Hcc); [unfold dists; rewrite app_length, repeat_length; simpl in *; lia|unfold dists; rewrite app_length, repeat_length; simpl in *; lia|].
    exists c. split; auto. unfold lessCall, idx. destruct Hcc as [-> | ->].
    + reflexivity.
    + destruct (nth_error dists (fst c)) as [[x|]|]; cbn [bind orPanic]; auto.
Qed.

Lemma expand_l fuel o s : (o < length data)%nat ->
  expand undef compared sorted heapFix data eps mp fuel o s =
  if Z.of_nat (length (neighbours eps data o)) <? mp
  then Ok (mkO (upd (vst s) o true) (upd (rdist s) o undef) (upd (cdist s) o undef) (order s ++ [o]) (pq s)) else Panic.
Proof using Hm Hc Hi.
  intros Ho. unfold expand. rewrite getNeighbors_l by auto. cbn [bind]. rewrite getCoreDist_l by auto. destruct (_ <? mp); cbn [bind]; auto.
  destruct Hi as [-> _]. reflexivity.
Qed.

Definition scanning n (s : @ostate A) : Prop :=
  (forall j, (n <= j)%nat -> vst s j = false) /\ (forall j, rdist s j = undef) /\ (forall j, cdist s j = undef) /\ order s = seq 0 n.

Lemma scan_l fuel k n s : scanning n s -> (n + k = length data)%nat ->
  (exists i, core_point eps mp data i /\ (n <= i)%nat) /\ foldr_ (fun s i => if vst s i then Ok s else expand undef compared sorted heapFix data eps mp fuel i s) (seq n k) s = Panic \/
  (forall i, (n <= i)%nat -> ~ core_point eps mp data i) /\
  exists s', foldr_ (fun s i => if vst s i then Ok s else expand undef compared sorted heapFix data eps mp fuel i s) (seq n k) s = Ok s' /\ scanning (n + k) s'.
Proof using Hm Hc Hi.
  revert n s. induction k as [|k IH]; intros n s Hs Hn; cbn [seq foldr_].
  - right. split; [intros i Hi' [Hl _]; lia|]. exists s. rewrite Nat.add_0_r. auto.
  - destruct Hs as (H1 & H2 & H3 & H4). rewrite H1 by lia. rewrite expand_l by lia.
    destruct (Z.ltb_spec (Z.of_nat (length (neighbours eps data n))) mp) as [H|H]; cbn [bind].
    + destruct (IH (S n) (mkO (upd (vst s) n true) (upd (rdist s) n undef) (upd (cdist s) n undef) (order s ++ [n]) (pq s))) as [((i & Hc1 & Hge) & E)|(Hno & s' & E & Hs')].
      * unfold scanning. cbn [vst rdist cdist order]. unfold upd. split; [|split; [|split]].
        -- intros j Hj. destruct (Nat.eqb_spec j n); [lia|]. apply H1. lia.
        -- intros j. destruct (Nat.eqb_spec j n); auto.
        -- intros j. destruct (Nat.eqb_spec j n); auto.
        -- rewrite H4. replace (S n) with (n + 1)%nat by lia. rewrite seq_app. reflexivity.
      * lia.
      * left. split; auto. exists i. split; auto. lia.
      * right. split.
        -- intros i Hi' Hcp. destruct (Nat.eq_dec i n) as [->|]; [destruct Hcp; lia|apply (Hno i); auto; lia].
        -- exists s'. split; auto. replace (n + S k)%nat with (S n + k)%nat by lia. auto.
    + left. split; auto. exists n. split; [split; [lia|auto]|lia].
Qed.

Lemma extract_l s : scanning (length data) s -> extract data eps s = Ok [instances data].
Proof using Hi.
  intros (_ & H2 & H3 & H4). unfold extract. rewrite H4.
  assert (G : forall l c, foldr_ (cluster1 eps s) l ([c], 0%nat) = Ok ([c ++ l], 0%nat)).
  { induction l as [|o l IH]; intros c; cbn [foldr_]; [rewrite app_nil_r; auto|]. unfold cluster1 at 1. rewrite H2, H3. destruct Hi as [_ Hinf].
    destruct (fgt undef eps) eqn:Eg.
    - rewrite Hinf by auto. cbn [idx nth_error bind set_nth]. rewrite IH, <- app_assoc. auto.
    - cbn [idx nth_error bind set_nth]. rewrite IH, <- app_assoc. auto. }
  rewrite G. cbn [app bind fst mapi mapi_from]. unfold mapi. cbn [mapi_from].
  assert (K : forall t a acc, data = a ++ t -> (forall e, In e acc -> (fst e < length a)%nat) ->
    foldr_ (fun m o => row <- idx data o; Ok (rput m o row)) (seq (length a) (length t)) acc = Ok (acc ++ combine (seq (length a) (length t)) t)).
  { induction t as [|row t IH]; intros a acc Ed Hacc; cbn [length seq foldr_ combine]; [rewrite app_nil_r; auto|].
    assert (E0 : idx data (length a) = Ok row) by (unfold idx; rewrite Ed, nth_error_app2, Nat.sub_diag by lia; auto). rewrite E0. cbn [bind]. unfold rput at 2. rewrite rdel_fresh by (intros e He; specialize (Hacc e He); lia).
    specialize (IH (a ++ [row]) (acc ++ [(length a, row)])). rewrite app_length in IH. cbn [length] in IH. replace (length a + 1)%nat with (S (length a)) in IH by lia.
    rewrite IH; [rewrite <- app_assoc; auto|rewrite <- app_assoc; auto|].
    intros e He. apply in_app_iff in He as [He|[<-|[]]]; [specialize (Hacc e He); lia|simpl; lia]. }
  pose proof (K data [] [] eq_refl ltac:(intros e [])) as E. cbn [length app] in E. rewrite E. reflexivity.
Qed.

Lemma optics_l fuel :
  (exists i, core_point eps mp data i) /\ optics undef compared sorted heapFix data eps mp fuel = Panic \/
  (forall i, ~ core_point eps mp data i) /\ optics undef compared sorted heapFix data eps mp fuel = Ok [instances data].
Proof using Hm Hc Hi.
  unfold optics. destruct (scan_l fuel (length data) 0 (mkO (fun _ => false) (fun _ => undef) (fun _ => undef) [] [])) as [((i & H & _) & E)|(Hno & s' & E & Hs)].
  - unfold scanning. cbn. auto.
  - lia.
  - left. split; eauto. rewrite E. reflexivity.
  - right. split; [intros i; apply Hno; lia|]. rewrite E. cbn [bind]. apply extract_l. auto.
Qed.
End L.

(** A sort that compares neighbouring elements. *)
Definition adjacent {T} (l : list T) : list (nat * nat) := map (fun i => (i, S i)) (seq 0 (length l - 1)).
Lemma adjacent_all {T} : looks_at_all (@adjacent T).
Proof.
  intros l i H2 Hi. destruct (Nat.eq_dec i (length l - 1)) as [->|N].
  - exists (length l - 2, S (length l - 2))%nat. split; [apply in_map_iff; exists (length l - 2)%nat; split; auto; apply in_seq; lia|cbn [fst snd]; lia].
  - exists (i, S i). split; [apply in_map_iff; exists i; split; auto; apply in_seq; lia|auto].
Qed.

Lemma infinite_real eps : @infinite XR PInf eps.
Proof. split; [reflexivity|]. destruct eps; cbn; auto; discriminate. Qed.

Definition apart : list (list Z) := [[0]; [1]; [50]; [51]].
Lemma apart_infinite : @infinite ZS 1000000 1.
Proof. split; reflexivity. Qed.
Lemma apart_length : forall row, In row apart -> length row = 1%nat.
Proof. intros row H. repeat (destruct H as [<-|H]; [reflexivity|]). destruct H. Qed.

Lemma optics_refuted_l : exists (A : arith) (inf eps : F A) (data : list (list Z)) (mp : Z) (m : nat),
  (forall row, In row data -> length row = m) /\ infinite inf eps /\ 0 < mp /\ (exists i, core_point eps mp data i) /\
  forall compared sorted heapFix fuel, looks_at_all compared -> optics inf compared sorted heapFix data eps mp fuel = Panic.
Proof.
  exists ZS, 1000000, 1, apart, 1, 1%nat. split; [apply apart_length|]. split; [apply apart_infinite|]. split; [lia|].
  assert (Hcp : @core_point ZS 1 1 apart 0) by (split; [vm_compute; lia|vm_compute; discriminate]). split; [eauto|].
  intros compared sorted heapFix fuel Hc. destruct (@optics_l ZS 1000000 compared sorted heapFix apart 1 1 1 apart_length Hc apart_infinite fuel) as [[_ E]|[N _]]; auto.
  destruct (N 0%nat Hcp).
Qed.

Lemma optics_noise_case : (forall i, ~ @core_point ZS 1 2 apart i) /\
  @optics ZS 1000000 adjacent (fun l => l) (fun q _ => q) apart 1 2 10 = Ok [[(0%nat, [0]); (1%nat, [1]); (2%nat, [50]); (3%nat, [51])]].
Proof.
  split; [|vm_compute; reflexivity]. intros i [H1 H2]. do 4 (destruct i as [|i]; [vm_compute in H2; apply H2; reflexivity|]). cbn in H1. lia.
Qed.
