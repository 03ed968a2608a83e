(** Consequences and witnesses for the codecs and for Marshal. *)
From Coq Require Import QArith Qabs Lqa.
From Verif Require Import Base Res Arith GraphSpec GraphLemmas Topo TopoLemmas Spn Leaves Codec
  Serial SerialSpec CodecLemmas SerialLemmas IndepCases.
Local Open Scope Z_scope.

Section Cases.
Context {A : arith}.
Variable exact : F A -> num.
Variable near : num -> F A.

(** A loaded node saved again loses nothing. *)
Lemma unit_scaled q : (Qabs q <= 1)%Q -> Z.abs (scaled q) <= 1000000.
Proof.
  intros H. pose proof (scaled_close q) as C. set (e := scaled q) in *. clearbody e.
  apply Qabs_Qle_condition in H. apply Qabs_Qle_condition in C.
  assert (L : (- (1000001 # 1000000) < sixth e /\ sixth e < 1000001 # 1000000)%Q)
    by (split; lra).
  unfold sixth, Qlt, Qopp in L. cbn [Qnum Qden] in L. lia.
Qed.

Lemma reread_six w : accurate exact near -> unit_weight exact w ->
  six_decimals exact near (reread exact near w).
Proof.
  intros HA (q & E & Hq). unfold six_decimals, reread. rewrite E.
  destruct (HA (scaled q) (unit_scaled q Hq)) as (q' & E' & H'). rewrite E'. eauto.
Qed.

Lemma recontent_plain c : accurate exact near -> unit_weights exact c ->
  plain exact near (recontent exact near c).
Proof.
  intros HA. destruct c as [w| |m|x v|x mu sigma]; cbn [unit_weights recontent plain]; auto.
  - intros H. apply Forall_map. eapply Forall_impl; [|exact H]. intros; apply reread_six; auto.
  - intros H. cbn. split; auto. split.
    + apply Forall_map. eapply Forall_impl; [|exact H]. intros; apply reread_six; auto.
    + destruct (computeMode _). reflexivity.
Qed.

Lemma recontent_ints c : ints_ok c -> ints_ok (recontent exact near c).
Proof. destruct c; cbn; rewrite ?map_length; auto. Qed.

Lemma codec_stable_l c c' : accurate exact near -> ints_ok c -> unit_weights exact c ->
  gobDecode near (fst (gobEncode exact c)) (snd (gobEncode exact c)) = Ok (Some c') ->
  gobDecode near (fst (gobEncode exact c')) (snd (gobEncode exact c')) = Ok (Some c').
Proof.
  intros HA HI HU H. rewrite codec_run in H by auto. injection H as <-.
  apply codec_plain; auto using recontent_ints, recontent_plain.
Qed.

(** Renaming the nodes of a network does not change what it computes. *)
Section Rename.
Variables (net net' : network A) (f : nat -> nat) (r : nat).
Hypothesis same : forall u, reach (children net) r u ->
  net' (f u) = mkNode (nk (net u)) (map f (nch (net u))).

Lemma reach_child u c : reach (children net) r u -> In c (nch (net u)) -> reach (children net) r c.
Proof.
  intros H Hc. apply reach_trans with u; auto. eapply reach_step; [exact Hc|constructor].
Qed.

Lemma mapi_from_map {X Y B} (g : X -> Y) (k : nat -> Y -> res B) l : forall i,
  mapi_from i k (map g l) = mapi_from i (fun i x => k i (g x)) l.
Proof. induction l; intros i; simpl; auto. rewrite IHl. reflexivity. Qed.

Lemma foldi_from_map {X Y B} (g : X -> Y) (k : nat -> B -> Y -> res B) l : forall i s,
  foldi_from i k (map g l) s = foldi_from i (fun i s x => k i s (g x)) l s.
Proof.
  induction l; intros i s; simpl; auto. destruct (k i s (g a)); simpl; auto.
Qed.

Lemma value_rename fuel : forall I u, reach (children net) r u ->
  value net' fuel I (f u) = value net fuel I u.
Proof.
  induction fuel as [|k IH]; intros I u Hu; [reflexivity|]. cbn [value].
  rewrite (same u Hu). cbn [nk nch]. destruct (nk (net u)) as [w| |l]; auto.
  - unfold sumVals, mapi. rewrite mapi_from_map.
    rewrite (mapi_from_ext _ (fun i c => v <- value net k I c; wi <- idx w i;
                                         Ok (fadd v (flog wi)))); auto.
    intros j c Hc. rewrite IH; auto. eapply reach_child; eauto.
  - unfold mapi. rewrite mapi_from_map.
    rewrite (mapi_from_ext _ (fun _ c => value net k I c)); auto.
    intros j c Hc. apply IH. eapply reach_child; eauto.
Qed.

Lemma max_rename fuel : forall I u, reach (children net) r u ->
  max_ net' fuel I (f u) = max_ net fuel I u.
Proof.
  induction fuel as [|k IH]; intros I u Hu; [reflexivity|]. cbn [max_].
  rewrite (same u Hu). cbn [nk nch]. destruct (nk (net u)) as [w| |l]; auto.
  - unfold foldi. rewrite foldi_from_map. apply foldi_from_ext.
    intros j s c Hc. rewrite IH; auto. eapply reach_child; eauto.
  - unfold foldi. rewrite foldi_from_map. apply foldi_from_ext.
    intros j s c Hc. rewrite IH; auto. eapply reach_child; eauto.
Qed.

Lemma best_rename k I w : (forall u, reach (children net) r u -> max_ net' k I (f u) = max_ net k I u) ->
  forall cs i s s', (forall c, In c cs -> reach (children net) r c) ->
  s' = (fst s, option_map f (snd s)) ->
  (forall c, snd s = Some c -> reach (children net) r c) ->
  match foldi_from i (fun i (st : F A * option nat) c =>
          wi <- idx w i; v <- max_ net k I c; let m := fadd (flog wi) v in
          Ok (if fgt m (fst st) then (m, Some c) else st)) cs s with
  | Ok t => foldi_from i (fun i (st : F A * option nat) c =>
          wi <- idx w i; v <- max_ net' k I (f c); let m := fadd (flog wi) v in
          Ok (if fgt m (fst st) then (m, Some (f c)) else st)) cs s'
          = Ok (fst t, option_map f (snd t)) /\
      (forall c, snd t = Some c -> reach (children net) r c)
  | Panic => foldi_from i (fun i (st : F A * option nat) c =>
          wi <- idx w i; v <- max_ net' k I (f c); let m := fadd (flog wi) v in
          Ok (if fgt m (fst st) then (m, Some (f c)) else st)) cs s' = Panic
  | Fuel => foldi_from i (fun i (st : F A * option nat) c =>
          wi <- idx w i; v <- max_ net' k I (f c); let m := fadd (flog wi) v in
          Ok (if fgt m (fst st) then (m, Some (f c)) else st)) cs s' = Fuel
  end.
Proof.
  intros HM. induction cs as [|c cs IH]; intros i s s' Hcs -> Hs.
  - simpl. auto.
  - cbn [foldi_from]. rewrite HM by (apply Hcs; left; auto).
    destruct (idx w i) as [wi| |]; cbn [bind]; auto.
    destruct (max_ net k I c) as [v| |]; cbn [bind]; auto. cbn [fst].
    apply IH.
    + intros; apply Hcs; right; auto.
    + destruct (fgt _ _); reflexivity.
    + destruct (fgt _ _); auto. cbn. intros x [= <-]. apply Hcs; left; auto.
Qed.

Lemma argMax_rename fuel : forall I u, reach (children net) r u ->
  argMax net' fuel I (f u) = argMax net fuel I u.
Proof.
  induction fuel as [|k IH]; intros I u Hu; [reflexivity|]. cbn [argMax].
  rewrite (same u Hu). cbn [nk nch]. destruct (nk (net u)) as [w| |l]; auto.
  - unfold foldi. rewrite foldi_from_map. cbv beta.
    pose proof (best_rename k I w (fun u => max_rename k I u) (nch (net u)) 0%nat (fninf, None)
      (fninf, None) (fun c => reach_child u c Hu) eq_refl ltac:(discriminate)) as B. cbv zeta in B.
    match type of B with match ?x with _ => _ end => destruct x as [t| |] end.
    + destruct B as [B1 B]. rewrite B1. cbn [bind fst snd]. destruct t as [v [c|]]; cbn [snd option_map]; auto.
      rewrite IH; auto.
    + rewrite B. reflexivity.
    + rewrite B. reflexivity.
  - unfold foldi. rewrite foldi_from_map. apply foldi_from_ext.
    intros j s c Hc. rewrite IH; auto. eapply reach_child; eauto.
Qed.
End Rename.

(** Saving and loading a network whose nodes have six decimals changes nothing. *)
Lemma same_answers_l K cont ch N r l : bounded ch N -> (r < N)%nat -> Z.of_nat N < 2 ^ 32 ->
  (forall u, reach ch r u -> ints_ok (cont u) /\ plain exact near (cont u)) ->
  topSortTarjan ch (2 * N + 1) r = Some l -> dependency_order ch l ->
  exists m h r', marshal exact cont ch (2 * N + 1) r = Ok m /\
    unmarshal near m = Ok (h, Some r') /\
    forall net', describes K h net' -> forall fuel I,
      value net' fuel I r' = value (network_of K cont ch) fuel I r /\
      max_ net' fuel I r' = max_ (network_of K cont ch) fuel I r /\
      argMax net' fuel I r' = argMax (network_of K cont ch) fuel I r.
Proof.
  intros HB Hr HN HI HT HD.
  destruct (roundtrip_copy exact near cont ch N r l HB Hr HN (fun u Hu => proj1 (HI u Hu)) HT HD)
    as (m & h & r' & Hm & Hu & _ & f & -> & Hinj & Hf).
  exists m, h, (f r). split; auto. split; auto. intros net' HD' fuel I.
  assert (S0 : forall u, reach (children (network_of K cont ch)) r u ->
    net' (f u) = mkNode (nk (network_of K cont ch u)) (map f (nch (network_of K cont ch u)))).
  { intros u Hu'. destruct (Hf u Hu') as (c' & E & ->).
    rewrite recontent_id in E by (apply HI; auto). apply HD'. rewrite E.
    f_equal. f_equal. rewrite map_map. reflexivity. }
  repeat split.
  - apply (value_rename _ _ f r S0). constructor.
  - apply (max_rename _ _ f r S0). constructor.
  - apply (argMax_rename _ _ f r S0). constructor.
Qed.

(** The network r -> [a, b], b -> [a] of C12: both sums over the same variable. *)
Definition shared_ch : graph := fun u => match u with 0 => [1; 2] | 2 => [1] | _ => [] end%nat.
Definition shared_cont : nat -> content A := fun u =>
  match u with
  | 0 => CSum [fz 1; fz 1] | 2 => CSum [fz 1] | _ => CInd 5 0
  end%nat.

Lemma shared_bounded : bounded shared_ch 3.
Proof. intros [|[|[|u]]] c H; simpl in H; intuition lia. Qed.

Lemma shared_reach u v : reach shared_ch u v ->
  (u = v \/ (u = 0 /\ v = 1) \/ (u = 0 /\ v = 2) \/ (u = 2 /\ v = 1))%nat.
Proof.
  induction 1 as [x|x c y Hc H IH]; auto.
  destruct x as [|[|[|x]]]; simpl in Hc; try tauto; intuition (subst; try discriminate; auto).
Qed.

Lemma shared_acyclic : acyclic shared_ch.
Proof.
  intros x c Hc H. apply shared_reach in H.
  destruct x as [|[|[|x]]]; simpl in Hc; try tauto; intuition (subst; try discriminate).
Qed.

Lemma shared_ints u : ints_ok (shared_cont u).
Proof. destruct u as [|[|[|u]]]; cbn; unfold go_int; lia. Qed.

Lemma marshal_refuted_l : exists cont ch N r m h r',
  bounded ch N /\ acyclic ch /\ (r < N)%nat /\ Z.of_nat N < 2 ^ 32 /\
  (forall u, ints_ok (cont u)) /\
  marshal exact cont ch (2 * N + 1) r = Ok m /\ unmarshal near m = Ok (h, Some r') /\
  ~ copy_of (fun _ _ => True) cont ch r h (Some r') /\
  forall logProb trunc round net', describes (kind_of logProb trunc round) h net' ->
  forall fuel I, value net' fuel I r' = Fuel.
Proof.
  destruct (roundtrip exact near shared_cont shared_ch 3 0 [2; 1; 0]%nat shared_bounded
    ltac:(lia) ltac:(lia) (fun u _ => shared_ints u) eq_refl) as (m & Hm & Hu).
  exists shared_cont, shared_ch, 3%nat, 0%nat, m.
  eexists. eexists. split; [exact shared_bounded|]. split; [exact shared_acyclic|].
  split; [lia|]. split; [lia|]. split; [exact shared_ints|]. split; [exact Hm|].
  split; [exact Hu|]. split.
  - intros (f & E & Hinj & Hf). cbn in E. injection E as E0.
    assert (R1 : reach shared_ch 0 1) by (eapply reach_step with (c := 1%nat); [simpl; auto|constructor]).
    assert (R2 : reach shared_ch 0 2) by (eapply reach_step with (c := 2%nat); [simpl; auto|constructor]).
    destruct (Hf 0%nat (reach_refl _ _)) as (c0 & N0 & _). rewrite <- E0 in N0. cbn in N0.
    injection N0 as _ E1 E2.
    destruct (Hf 2%nat R2) as (c2 & N2 & _). rewrite <- E2 in N2. cbn in N2.
    injection N2 as _ E3. cbn in E1, E3. congruence.
  - intros lp tr ro net' HD.
    assert (D2 : net' 0%nat = mkNode (KSum (map (reread exact near) [fz 1])) [0%nat]).
    { rewrite (HD 0%nat (CSum (map (reread exact near) [fz 1])) [0%nat]) by reflexivity.
      reflexivity. }
    assert (D0 : net' 2%nat = mkNode (KSum (map (reread exact near) [fz 1; fz 1])) [1%nat; 0%nat]).
    { rewrite (HD 2%nat (CSum (map (reread exact near) [fz 1; fz 1])) [1%nat; 0%nat]) by reflexivity.
      reflexivity. }
    assert (L : forall fuel I, value net' fuel I 0%nat = Fuel).
    { induction fuel as [|k IH]; intros I; [reflexivity|]. cbn [value]. rewrite D2.
      cbn [nk nch]. unfold sumVals, mapi. cbn [mapi_from]. rewrite IH. reflexivity. }
    assert (D1 : exists lf, net' 1%nat = mkNode (KLeaf lf) [] /\ forall I, lvalue lf I <> None).
    { exists (indLeaf 5 0). rewrite (HD 1%nat (CInd 5 0) []) by reflexivity.
      split; [reflexivity|discriminate]. }
    destruct D1 as (lf & D1 & HL).
    intros [|k] I; [reflexivity|]. change (pos [2; 1; 0]%nat 0) with 2%nat.
    cbn [value]. rewrite D0. cbn [nk nch]. unfold sumVals, mapi. cbn [mapi_from].
    rewrite L.
    assert (V1 : exists v, value net' k I 1%nat = v /\ (v = Fuel \/ exists x, v = Ok x)).
    { eexists; split; [reflexivity|]. destruct k; [left; reflexivity|right]. cbn [value].
      rewrite D1. cbn [nk]. specialize (HL I). destruct (lvalue lf I); [eexists; reflexivity|congruence]. }
    destruct V1 as (v & -> & [->|(x & ->)]); reflexivity.
Qed.

(** A weight of at most half a millionth is read back as zero. *)
Lemma tiny_lost_l w q : exact w = Val q -> (Qabs q <= 5 # 10000000)%Q ->
  gobDecode near (fst (gobEncode exact (CSum [w]))) (snd (gobEncode exact (CSum [w])))
  = Ok (Some (CSum [near (Val (sixth 0))])).
Proof.
  intros E H. rewrite codec_run by (cbn; unfold go_int; lia). cbn [recontent map].
  unfold reread. rewrite E.
  assert (Z0 : scaled q = 0); [|rewrite Z0; reflexivity].
  unfold scaled. destruct q as [n d]. unfold Qabs, Qle in H. cbn [Qnum Qden] in *.
  assert (R : roundHalfEven (Z.abs n * 1000000) d = 0); [|rewrite R; destruct (n <? 0); auto].
  assert (Hn : 2 * (Z.abs n * 1000000) <= Zpos d) by lia.
  unfold roundHalfEven. rewrite Z.div_small, Z.mod_small by lia.
  destruct (Z.ltb_spec (2 * (Z.abs n * 1000000)) (Zpos d)); auto.
  destruct (Z.ltb_spec (Zpos d) (2 * (Z.abs n * 1000000))); [lia|]. reflexivity.
Qed.

Lemma marshal_copy_l cont ch N r : bounded ch N -> (r < N)%nat -> Z.of_nat N < 2 ^ 32 ->
  (forall u, reach ch r u -> ints_ok (cont u)) -> gt_ordered (A := A) ->
  acyclic ch -> siblings_ok ch ->
  exists m h r', marshal exact cont ch (2 * N + 1) r = Ok m /\ unmarshal near m = Ok (h, r') /\
    copy_of (node_kept exact near) cont ch r h r'.
Proof.
  intros HB Hr HN HI GO HA HS.
  destruct (tarjan_order_full ch N r HB Hr HA HS) as (l & HT & HD).
  destruct (roundtrip_copy exact near cont ch N r l HB Hr HN HI HT HD)
    as (m & h & r' & Hm & Hu & _ & f & E & Hinj & Hf).
  exists m, h, r'. split; auto. split; auto. exists f. split; auto. split; auto.
  intros u Hu'. destruct (Hf u Hu') as (c' & E' & ->). eauto using recontent_kept.
Qed.

Lemma same_answers_sib K cont ch N r : bounded ch N -> (r < N)%nat -> Z.of_nat N < 2 ^ 32 ->
  (forall u, reach ch r u -> ints_ok (cont u) /\ plain exact near (cont u)) ->
  acyclic ch -> siblings_ok ch ->
  exists m h r', marshal exact cont ch (2 * N + 1) r = Ok m /\
    unmarshal near m = Ok (h, Some r') /\
    forall net', describes K h net' -> forall fuel I,
      value net' fuel I r' = value (network_of K cont ch) fuel I r /\
      max_ net' fuel I r' = max_ (network_of K cont ch) fuel I r /\
      argMax net' fuel I r' = argMax (network_of K cont ch) fuel I r.
Proof.
  intros HB Hr HN HI HA HS.
  destruct (tarjan_order_full ch N r HB Hr HA HS) as (l & HT & HD).
  eapply same_answers_l; eauto.
Qed.

(** What is loaded, for every network: the sort's nodes in order, each with its own children
    except that a child given later is replaced by the first node. *)
Lemma marshal_links_l cont ch N r : bounded ch N -> (r < N)%nat -> Z.of_nat N < 2 ^ 32 ->
  (forall u, reach ch r u -> ints_ok (cont u)) ->
  exists m h r' l, marshal exact cont ch (2 * N + 1) r = Ok m /\
    unmarshal near m = Ok (h, Some r') /\ topSortTarjan ch (2 * N + 1) r = Some l /\
    length h = length l /\ nth_error l r' = Some r /\
    forall i u, nth_error l i = Some u -> exists c' cs,
      nth_error h i = Some (c', map Some cs) /\
      Forall2 (fun c k => exists j, nth_error l j = Some c /\ k = (if j <=? i then j else 0)%nat)
              (ch u) cs.
Proof.
  intros HB Hr HN HI.
  destruct (tarjan_full ch N r HB Hr) as (l & HT & [ND EN] & l0 & El).
  destruct (roundtrip exact near cont ch N r l HB Hr HN HI HT) as (m & Hm & Hu).
  exists m, (map (built exact near cont ch l) l), (pos l r), l.
  split; auto. split; auto. split; auto. split; [apply map_length|].
  split; [apply pos_nth, EN; constructor|].
  intros i u Hi. exists (recontent exact near (cont u)), (map (target l u) (ch u)).
  split.
  - rewrite nth_error_map, Hi. cbn. unfold built. rewrite map_map. reflexivity.
  - assert (Pi : pos l u = i).
    { pose proof (pos_nth l u (nth_error_In _ _ Hi)) as P.
      apply (proj1 (NoDup_nth_error l) ND); [|congruence].
      apply pos_lt. eapply nth_error_In; eauto. }
    assert (HC : forall c, In c (ch u) -> In c l).
    { intros c Hc. apply EN. apply reach_trans with u; [apply EN; eapply nth_error_In; eauto|].
      eapply reach_step; [exact Hc|constructor]. }
    clear - Pi HC. induction (ch u) as [|c cs IH]; constructor.
    + exists (pos l c). split; [apply pos_nth, HC; left; auto|]. unfold target. rewrite Pi. auto.
    + apply IH. intros; apply HC; right; auto.
Qed.
End Cases.

(** Rational arithmetic: a concrete arithmetic for the examples. *)
Definition QA : arith := mkArith Q inject_Z (-1000000 # 1) Qplus Qminus Qmult Qdiv
  (fun q => q - 1)%Q (fun q => q) (fun q => q) (fun q => q)
  (fun a b => negb (Qle_bool a b)) (fun a b => Qle_bool b a) Qeq_bool (fun _ => false).
Definition qexact (q : F QA) : num := Val q.
Definition qnear (n : num) : F QA := match n with Val q => q | _ => 0%Q end.

Lemma QA_ordered : gt_ordered (A := QA).
Proof.
  split; cbn.
  - intros x. apply negb_false_iff, Qle_bool_iff. lra.
  - intros x y z H1 H2. apply negb_true_iff in H1. apply negb_false_iff in H2. apply negb_false_iff.
    apply Qle_bool_iff in H2. apply Qle_bool_iff.
    assert (~ (x <= y)%Q) by (intros H; apply Qle_bool_iff in H; congruence). lra.
Qed.

Lemma QA_accurate : accurate qexact qnear.
Proof.
  intros d _. exists (sixth d). split; [reflexivity|].
  apply Qabs_Qlt_condition. split; lra.
Qed.

(** A tie: the mode drawn at random is not the one found when loading. *)
Lemma mode_refuted_l : exists (m m' : multinomial QA) rnd,
  newMultinomial (A := QA) rnd 3 [sixth 500000; sixth 500000] = Ok m /\
  gobDecode qnear (fst (gobEncode qexact (CMulti m))) (snd (gobEncode qexact (CMulti m)))
  = Ok (Some (CMulti m')) /\
  option_map (fun r => fst r 3) (multiArgMax m (fun _ => None)) = Some (Some 1) /\
  option_map (fun r => fst r 3) (multiArgMax m' (fun _ => None)) = Some (Some 0).
Proof.
  eexists. eexists. exists (fun n => (n - 1)%nat). split; [vm_compute; reflexivity|].
  split; [vm_compute; reflexivity|]. split; vm_compute; reflexivity.
Qed.

(** A shared network in two layers: 0 -> [1, 2], 1 -> [3, 4], 2 -> [3, 4]. *)
Definition layers : graph := fun u =>
  match u with 0 => [1; 2] | 1 => [3; 4] | 2 => [3; 4] | _ => [] end%nat.
Definition layers_cont : nat -> content QA := fun u =>
  match u with
  | 0 => CSum (A := QA) [sixth 250000; sixth 750000]
  | 1 => CProd | 2 => CProd
  | 3 => CInd 0 1
  | _ => CMulti (mkMulti (A := QA) [1%Z] 1 [sixth 100000; sixth 900000] 1%Z (sixth 900000))
  end%nat.

Lemma layers_ok : bounded layers 5 /\ acyclic layers /\ siblings_ok layers /\
  forall u, ints_ok (layers_cont u) /\ plain qexact qnear (layers_cont u).
Proof.
  assert (G : graded layers (fun u => match u with 0 => 0 | 1 | 2 => 1 | _ => 2 end)%nat).
  { intros [|[|[|u]]] c H; simpl in H; intuition (subst; auto). }
  destruct (graded_siblings_acyclic _ _ G) as [G1 G2].
  split; [|split; [auto|split; [auto|]]].
  - intros [|[|[|u]]] c H; simpl in H; intuition lia.
  - assert (S6 : forall d, six_decimals qexact qnear (sixth d)).
    { intros d. exists d. split; [reflexivity|]. apply Qabs_Qlt_condition. split; lra. }
    intros [|[|[|[|u]]]]; cbn; unfold go_int; repeat split; try lia; repeat constructor; apply S6.
Qed.
