(** Proofs about Marshal and Unmarshal. *)
From Coq Require Import QArith Qabs.
From Verif Require Import Base Res Arith GraphSpec GraphLemmas Topo TopoLemmas Spn Leaves Codec
  Serial SerialSpec CodecLemmas.
Local Open Scope Z_scope.

Lemma uint32_put n : 0 <= n < 2 ^ 32 -> uint32Of (putUint32 n) = Ok n.
Proof.
  intros H. unfold uint32Of, putUint32. cbn [idx nth_error bind]. f_equal.
  change (2 ^ 32) with 4294967296 in H. Z.div_mod_to_equations. lia.
Qed.

(** Position in a list. *)
Fixpoint pos (l : list nat) (u : nat) : nat :=
  match l with [] => 0%nat | x :: t => if Nat.eqb x u then 0%nat else S (pos t u) end.

Lemma pos_nth l u : In u l -> nth_error l (pos l u) = Some u.
Proof.
  induction l as [|x l IH]; [intros []|]. intros H. simpl.
  destruct (Nat.eqb_spec x u) as [->|]; auto. destruct H; [congruence|auto].
Qed.

Lemma pos_lt l u : In u l -> (pos l u < length l)%nat.
Proof. intros H. apply nth_error_Some. rewrite pos_nth; auto. discriminate. Qed.

Lemma pos_app_in a b u : In u a -> pos (a ++ b) u = pos a u.
Proof.
  induction a as [|x a IH]; [intros []|]. intros H. simpl.
  destruct (Nat.eqb_spec x u); auto. destruct H; [congruence|]. rewrite IH; auto.
Qed.

Lemma pos_mid a u b : ~ In u a -> pos (a ++ u :: b) u = length a.
Proof.
  induction a as [|x a IH]; simpl; intros H.
  - rewrite Nat.eqb_refl. auto.
  - destruct (Nat.eqb_spec x u); [exfalso; auto|]. rewrite IH; auto.
Qed.

Lemma pos_inj l u v : In u l -> In v l -> pos l u = pos l v -> u = v.
Proof. intros Hu Hv E. apply pos_nth in Hu, Hv. congruence. Qed.

Section SerialLemmas.
Context {A : arith}.
Variable exact : F A -> num.
Variable near : num -> F A.
Variable cont : nat -> content A.
Variable ch : graph.

(** The link written for child [c] of [u]: its number if it came before, else 0. *)
Definition target (ord : list nat) (u c : nat) : nat :=
  if (pos ord c <=? pos ord u)%nat then pos ord c else 0%nat.

Definition row (ord : list nat) (u : nat) : list Z :=
  map (fun c => Z.of_nat (target ord u c)) (ch u).

Definition sent (ord a : list nat) :=
  map (fun u => (Z.of_nat (pos ord u), gobEncode exact (cont u))) a.

Lemma links_ok M (l0 : list (list Z)) q k : k = length l0 -> forall cs acc,
  (forall c, In c cs -> match M c with Some p => p | None => 0 end = q c) ->
  foldr_ (linkChild M (Z.of_nat k)) cs (l0 ++ [acc]) = Ok (l0 ++ [acc ++ map q cs]).
Proof.
  intros ->. induction cs as [|c cs IH]; intros acc H; simpl.
  - rewrite app_nil_r. auto.
  - unfold linkChild at 1. rewrite H by (left; auto). unfold idxZ.
    destruct (Z.ltb_spec (Z.of_nat (length l0)) 0); [lia|]. rewrite Nat2Z.id.
    unfold idx. rewrite nth_error_app2, Nat.sub_diag by lia. cbn [nth_error bind].
    assert (E : set_nth (length l0) (acc ++ [q c]) (l0 ++ [acc]) = l0 ++ [acc ++ [q c]]).
    { clear. induction l0; simpl; f_equal; auto. }
    rewrite E, IH by (intros; apply H; right; auto). rewrite <- app_assoc. reflexivity.
Qed.

Lemma pos_later a b u : ~ In u a -> In u b -> (length a <= pos (a ++ b) u)%nat.
Proof.
  induction a as [|x a IH]; simpl; intros H Hb; [lia|].
  destruct (Nat.eqb_spec x u); [exfalso; auto|]. specialize (IH ltac:(auto) Hb). lia.
Qed.

Lemma marshal_loop ord : NoDup ord -> (forall u c, In u ord -> In c (ch u) -> In c ord) ->
  Z.of_nat (length ord) < 2 ^ 32 ->
  forall b a M, ord = a ++ b ->
  (forall u, M u = if memn u a then Some (Z.of_nat (pos ord u)) else None) ->
  exists M', foldr_ (marshalNode exact cont ch) b
    (mkM M (map (row ord) a) (Z.of_nat (length a)) (sent ord a))
  = Ok (mkM M' (map (row ord) ord) (Z.of_nat (length ord)) (sent ord ord)).
Proof.
  intros ND HC Hlen. induction b as [|u b IH]; intros a M E HM.
  - rewrite app_nil_r in E. subst a. simpl. eauto.
  - assert (Hu : ~ In u a).
    { rewrite E in ND. apply NoDup_remove_2 in ND. intros H. apply ND, in_app_iff; auto. }
    assert (Pu : pos ord u = length a) by (rewrite E; apply pos_mid; auto).
    cbn [foldr_]. unfold marshalNode at 1. cbn [mM mlist mn msent].
    rewrite (links_ok _ _ (fun c => Z.of_nat (target ord u c))).
    2:{ symmetry. apply map_length. }
    2:{ intros c Hc. unfold target. rewrite Pu.
        destruct (Nat.eq_dec c u) as [->|Nu].
        - rewrite upd_same, Pu, Nat.leb_refl. reflexivity.
        - rewrite upd_diff by auto. rewrite HM.
          assert (Hin : In c ord).
          { apply (HC u); auto. rewrite E. apply in_app_iff. simpl; auto. }
          destruct (memn c a) eqn:Em.
          + apply memn_In in Em. assert (pos ord c < length a)%nat.
            { rewrite E, pos_app_in by auto. apply pos_lt; auto. }
            destruct (Nat.leb_spec (pos ord c) (length a)); [auto|lia].
          + apply memn_false in Em.
            assert (pos ord c <> length a).
            { intros X. apply Nu. apply (pos_inj ord); auto; [|congruence].
              rewrite E. apply in_app_iff; simpl; auto. }
            assert (length a <= pos ord c)%nat.
            { rewrite E in Hin |- *. apply pos_later; auto. apply in_app_iff in Hin as [|]; tauto. }
            destruct (Nat.leb_spec (pos ord c) (length a)); [lia|auto]. }
    cbn [bind app].
    destruct (IH (a ++ [u]) (upd M u (Some (Z.of_nat (length a))))) as [M' HM'].
    + rewrite <- app_assoc. auto.
    + intros v. destruct (Nat.eq_dec v u) as [->|Nv].
      * rewrite upd_same, Pu.
        assert (memn u (a ++ [u]) = true) as -> by (apply memn_In, in_app_iff; simpl; auto). auto.
      * rewrite upd_diff by auto. rewrite HM.
        assert (memn v (a ++ [u]) = memn v a) as ->; [|auto].
        unfold memn. rewrite existsb_app. cbn [existsb].
        destruct (Nat.eqb_spec v u); [congruence|]. rewrite !orb_false_r. auto.
    + exists M'. rewrite <- HM'. f_equal. f_equal.
      * rewrite map_app. reflexivity.
      * rewrite app_length. cbn [length].
        assert (length a < length ord)%nat by (rewrite E, app_length; simpl; lia).
        rewrite Z.mod_small; lia.
      * unfold sent. rewrite map_app. cbn [map]. rewrite Pu. reflexivity.
Qed.

Lemma marshal_ok N r l : bounded ch N -> (r < N)%nat -> Z.of_nat N < 2 ^ 32 ->
  topSortTarjan ch (2 * N + 1) r = Some l ->
  (forall u c, In u l -> In c (ch u) -> In c l) -> NoDup l -> (length l <= N)%nat ->
  marshal exact cont ch (2 * N + 1) r
  = Ok (mkMsg (putUint32 (Z.of_nat (length l))) (sent l l) (map (row l) l)).
Proof.
  intros HB Hr HN HT HD ND HL. unfold marshal, topSortTarjanFunc.
  rewrite tarjan_func_true by auto. unfold topSortTarjan in HT. rewrite HT.
  destruct (marshal_loop l ND HD ltac:(lia) l [] (fun _ => None) eq_refl) as [M' E].
  - reflexivity.
  - cbn [map length sent] in E. change (Z.of_nat 0) with 0 in E. rewrite E. reflexivity.
Qed.

(** Unmarshal: the decoding loop. *)
Lemma set_nth_mid {B} (l1 l2 : list B) x y : set_nth (length l1) y (l1 ++ x :: l2) = l1 ++ y :: l2.
Proof. induction l1; simpl; f_equal; auto. Qed.

Local Notation re := (recontent exact near).

Lemma decode_loop ord : NoDup ord -> (forall u, In u ord -> ints_ok (cont u)) ->
  forall b a, ord = a ++ b ->
  decodeNodes near (length b) (sent ord b) (map (fun u => (re (cont u), [])) a)
    (map Some (seq 0 (length a)) ++ repeat None (length b))
  = Ok ([], map (fun u => (re (cont u), [])) ord, map Some (seq 0 (length ord))).
Proof.
  intros ND HI. induction b as [|u b IH]; intros a E.
  - rewrite app_nil_r in E. subst a. simpl. rewrite app_nil_r. auto.
  - assert (Hu : ~ In u a).
    { rewrite E in ND. apply NoDup_remove_2 in ND. intros H. apply ND, in_app_iff; auto. }
    assert (Pu : pos ord u = length a) by (rewrite E; apply pos_mid; auto).
    cbn [length decodeNodes sent map]. 
    pose proof (codec_run exact near (cont u) (HI u ltac:(rewrite E; apply in_app_iff; simpl; auto))) as D.
    destruct (gobEncode exact (cont u)) as [g t]. cbn [fst snd] in D. rewrite D.
    cbn [bind orPanic]. rewrite Pu. unfold idxZ.
    destruct (Z.ltb_spec (Z.of_nat (length a)) 0); [lia|]. rewrite Nat2Z.id.
    assert (La : length (map (@Some nat) (seq 0 (length a))) = length a)
      by (rewrite map_length, seq_length; auto).
    unfold idx. rewrite nth_error_app2 by lia. rewrite La, Nat.sub_diag.
    cbn [repeat nth_error bind].
    specialize (IH (a ++ [u])). rewrite <- app_assoc in IH. specialize (IH E).
    rewrite map_app in IH. cbn [map] in IH. rewrite app_length in IH. cbn [length] in IH.
    rewrite Nat.add_1_r, seq_S, map_app, <- app_assoc in IH. cbn [map app plus] in IH.
    rewrite map_length.
    rewrite <- La at 1. rewrite set_nth_mid. exact IH.
Qed.

Definition built (ord : list nat) (u : nat) : content A * list (option nat) :=
  (re (cont u), map (fun c => Some (target ord u c)) (ch u)).

Lemma nth_seq_some n i : (i < n)%nat -> nth_error (map (@Some nat) (seq 0 n)) i = Some (Some i).
Proof.
  intros H. rewrite nth_error_map. 
  rewrite (nth_error_nth' _ 0%nat) by (rewrite seq_length; lia). rewrite seq_nth by lia. reflexivity.
Qed.

Lemma addLinks_ok ord u h1 h2 c0 k : k = length h1 -> forall cs acc,
  (forall c, In c cs -> In c ord) ->
  foldr_ (addLink (map Some (seq 0 (length ord))) (Some k))
    (map (fun c => Z.of_nat (target ord u c)) cs) (h1 ++ (c0, acc) :: h2)
  = Ok (h1 ++ (c0 : content A, acc ++ map (fun c => Some (target ord u c)) cs) :: h2).
Proof.
  intros ->. induction cs as [|c cs IH]; intros acc HI; simpl map; simpl foldr_.
  - rewrite app_nil_r. auto.
  - unfold addLink at 1. unfold idxZ.
    destruct (Z.ltb_spec (Z.of_nat (target ord u c)) 0); [lia|]. rewrite Nat2Z.id.
    unfold idx. rewrite nth_seq_some.
    2:{ pose proof (pos_lt ord c (HI c ltac:(left; auto))). unfold target.
        destruct (_ <=? _)%nat; lia. }
    cbn [bind orPanic].
    rewrite nth_error_app2, Nat.sub_diag by lia. cbn [nth_error bind fst snd].
    rewrite set_nth_mid, IH by (auto; intros; apply HI; right; auto).
    rewrite <- app_assoc. reflexivity.
Qed.

Lemma link_loop ord : (forall u c, In u ord -> In c (ch u) -> In c ord) ->
  forall b a, ord = a ++ b ->
  foldi_from (length a) (fun i h rw => s <- idx (map Some (seq 0 (length ord))) i;
                                       foldr_ (addLink (map Some (seq 0 (length ord))) s) rw h)
    (map (row ord) b) (map (built ord) a ++ map (fun u => (re (cont u), [])) b)
  = Ok (map (built ord) ord).
Proof.
  intros HC. induction b as [|u b IH]; intros a E.
  - rewrite app_nil_r in E. subst a. simpl. rewrite app_nil_r. auto.
  - assert (L : (length a < length ord)%nat) by (rewrite E, app_length; simpl; lia).
    assert (Hu : In u ord) by (rewrite E; apply in_app_iff; simpl; auto).
    cbn [map foldi_from]. unfold idx. rewrite nth_seq_some by auto. cbn [bind].
    assert (La : length (map (built ord) a) = length a) by apply map_length.
    unfold row at 1. rewrite (addLinks_ok ord u _ _ _ _ (eq_sym La)) by eauto. cbn [bind app].
    specialize (IH (a ++ [u])). rewrite <- app_assoc in IH. specialize (IH E).
    rewrite map_app, app_length, <- app_assoc in IH. exact IH.
Qed.

Lemma unmarshal_ok ord : NoDup ord -> ord <> [] -> Z.of_nat (length ord) < 2 ^ 32 ->
  (forall u, In u ord -> ints_ok (cont u)) ->
  (forall u c, In u ord -> In c (ch u) -> In c ord) ->
  unmarshal near (mkMsg (putUint32 (Z.of_nat (length ord))) (sent ord ord) (map (row ord) ord))
  = Ok (map (built ord) ord, Some (length ord - 1)%nat).
Proof.
  intros ND NE Hlen HI HC. unfold unmarshal. cbn [header nodes links].
  assert (1 <= length ord)%nat by (destruct ord; [congruence|simpl; lia]).
  rewrite uint32_put by lia. cbn [bind]. rewrite Nat2Z.id.
  pose proof (decode_loop ord ND HI ord [] eq_refl) as D. cbn [length seq map app] in D.
  rewrite D. cbn [bind].
  pose proof (link_loop ord HC ord [] eq_refl) as Lk. cbn [length map app] in Lk.
  unfold linkNodes, foldi. rewrite Lk. cbn [bind].
  rewrite Z.mod_small by lia. unfold idxZ.
  destruct (Z.ltb_spec (Z.of_nat (length ord) - 1) 0); [lia|].
  replace (Z.to_nat (Z.of_nat (length ord) - 1)) with (length ord - 1)%nat by lia.
  unfold idx. rewrite nth_seq_some by lia. reflexivity.
Qed.

(** The round trip, whatever the order. *)
Lemma roundtrip N r l : bounded ch N -> (r < N)%nat -> Z.of_nat N < 2 ^ 32 ->
  (forall u, reach ch r u -> ints_ok (cont u)) ->
  topSortTarjan ch (2 * N + 1) r = Some l ->
  exists m, marshal exact cont ch (2 * N + 1) r = Ok m /\
    unmarshal near m = Ok (map (built l) l, Some (pos l r)).
Proof.
  intros HB Hr HN HI HT.
  destruct (tarjan_full ch N r HB Hr) as (l' & E & [ND EN] & l0 & El). rewrite HT in E.
  injection E as <-.
  assert (HL : (length l <= N)%nat).
  { rewrite <- (seq_length N 0). apply NoDup_incl_length; auto. intros x Hx.
    apply in_seq. apply EN in Hx. split; [lia|].
    destruct Hx as [x|x c y H1 H2]; [lia|]. simpl.
    clear - HB H1 H2. assert (c < N)%nat by eauto. clear H1.
    induction H2; auto. apply IHreach. eauto. }
  assert (HC : forall u c, In u l -> In c (ch u) -> In c l).
  { intros u c Hu Hc. apply EN in Hu. apply EN.
    clear - Hu Hc. induction Hu; [eapply reach_step; eauto; constructor|].
    eapply reach_step; eauto. }
  exists (mkMsg (putUint32 (Z.of_nat (length l))) (sent l l) (map (row l) l)).
  split; [apply marshal_ok; auto|].
  replace (pos l r) with (length l - 1)%nat.
  - apply unmarshal_ok; auto; try lia.
    + subst l. destruct l0; discriminate.
    + intros u Hu. apply HI, EN; auto.
  - subst l. rewrite pos_mid.
    + rewrite app_length. simpl. lia.
    + apply NoDup_remove_2 in ND. rewrite app_nil_r in ND. auto.
Qed.

Lemma dep_pos l u c : NoDup l -> dependency_order ch l -> In u l -> In c (ch u) ->
  (pos l c < pos l u)%nat.
Proof.
  intros ND HD Hu Hc. apply in_split in Hu as (a & b & E).
  pose proof (HD a u b E c Hc) as Hin.
  assert (~ In u a).
  { rewrite E in ND. apply NoDup_remove_2 in ND. intros H. apply ND, in_app_iff; auto. }
  rewrite E, pos_mid, pos_app_in by auto. apply pos_lt; auto.
Qed.

(** The round trip when the sort gives a dependency order. *)
Lemma roundtrip_copy N r l : bounded ch N -> (r < N)%nat -> Z.of_nat N < 2 ^ 32 ->
  (forall u, reach ch r u -> ints_ok (cont u)) ->
  topSortTarjan ch (2 * N + 1) r = Some l -> dependency_order ch l ->
  exists m h r', marshal exact cont ch (2 * N + 1) r = Ok m /\ unmarshal near m = Ok (h, r') /\
    length h = length l /\ copy_of (fun c c' => c' = re c) cont ch r h r'.
Proof.
  intros HB Hr HN HI HT HD.
  destruct (tarjan_full ch N r HB Hr) as (l' & E & [ND EN] & l0 & El). rewrite HT in E.
  injection E as <-.
  destruct (roundtrip N r l HB Hr HN HI HT) as (m & Hm & Hu).
  exists m, (map (built l) l), (Some (pos l r)). split; auto. split; auto.
  split; [apply map_length|]. exists (pos l). repeat split.
  - intros u v Hu' Hv. apply pos_inj; apply EN; auto.
  - intros u Hu'. exists (re (cont u)). split; auto.
    rewrite nth_error_map, pos_nth by (apply EN; auto). cbn [option_map]. unfold built.
    f_equal. f_equal. apply map_ext_in. intros c Hc. f_equal. unfold target.
    pose proof (dep_pos l u c ND HD (proj2 (EN u) Hu') Hc).
    destruct (Nat.leb_spec (pos l c) (pos l u)); [auto|lia].
Qed.
End SerialLemmas.
