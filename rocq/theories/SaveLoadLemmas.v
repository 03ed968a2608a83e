From Coq Require Import String.
From Verif Require Import Base Res Arith GraphSpec GraphLemmas Topo TopoLemmas Leaves Codec Serial SerialSpec CodecLemmas SerialLemmas SerialCases SaveLoad SaveLoadSpec.
Local Open Scope nat_scope.

Section SaveLoad.
Context {A : arith}.
Variable exact : F A -> num.
Variable near : num -> F A.
Variable enc : list (item (A := A)) -> item (A := A) -> list Z.
Variable dec : list (item (A := A)) -> list Z -> option (item (A := A) * list Z).
Hypothesis SD : self_delimiting enc dec.

Definition flat (ns : list (Z * (tag * list (chr (F A))))) : list (item (A := A)) := flat_map (fun p => [INum (fst p); INode (snd p)]) ns.

Lemma next_ok prev i rest : next dec (Some (prev, enc prev i ++ rest)) = (Some i, Some (prev ++ [i], rest)).
Proof. unfold next. destruct SD as (H & _). rewrite H. reflexivity. Qed.
Lemma next_cut prev i k : k < length (enc prev i) -> next dec (Some (prev, firstn k (enc prev i))) = (None, None).
Proof. intros Hk. unfold next. destruct SD as (_ & H & _). rewrite H; auto. Qed.
Lemma next_none : next dec None = (None, None). Proof. reflexivity. Qed.

Lemma encAll_app l : forall prev l2, encAll enc prev (l ++ l2) = encAll enc prev l ++ encAll enc (prev ++ l) l2.
Proof.
  induction l as [|i l IH]; intros prev l2; cbn [app encAll]; [rewrite app_nil_r; auto|]. rewrite IH, <- app_assoc, <- app_assoc. reflexivity.
Qed.

Lemma read_ok : forall ns prev tb h M,
  readNodes near dec (length ns) (Some (prev, encAll enc prev (flat ns) ++ tb)) h M =
  match decodeNodes near (length ns) ns h M with
  | Ok (_, h', M') => Ok (Some (prev ++ flat ns, tb), h', M')
  | Panic => Panic | Fuel => Fuel
  end.
Proof.
  induction ns as [|[k [g t]] ns IH]; intros prev tb h M; cbn [length readNodes decodeNodes].
  - cbn [flat flat_map app encAll]. rewrite app_nil_r. reflexivity.
  - cbn [flat flat_map app fst snd encAll]. rewrite <- app_assoc, next_ok, <- app_assoc, next_ok.
    change (flat_map (fun p => [INum (fst p); INode (snd p)]) ns) with (flat ns).
    destruct (gobDecode near g t) as [o| |]; cbn [bind]; auto. destruct o as [c|]; cbn [orPanic bind]; auto.
    destruct (idxZ M k) as [u| |]; cbn [bind]; auto. rewrite IH.
    rewrite <- !app_assoc. cbn [app]. reflexivity.
Qed.

Lemma decode_rest : forall n ns (h : memory (A := A)) M r, decodeNodes near n ns h M = Ok r -> n = length ns -> fst (fst r) = [].
Proof.
  induction n as [|n IH]; intros ns h M r E Hn; cbn [decodeNodes] in E.
  - injection E as <-. destruct ns; [auto|discriminate].
  - destruct ns as [|[k [g t]] ns]; [discriminate|]. destruct (gobDecode near g t) as [o| |]; cbn [bind] in E; try discriminate.
    destruct o as [c|]; cbn [orPanic bind] in E; try discriminate. destruct (idxZ M k); cbn [bind] in E; try discriminate. eapply IH; eauto.
Qed.

Lemma bytes_head (m : message (A := A)) : length (header m) = 4 ->
  (length (bytesOf enc m) <? 4) = false /\ firstn 4 (bytesOf enc m) = header m /\ skipn 4 (bytesOf enc m) = encAll enc [] (itemsOf m).
Proof.
  intros H. unfold bytesOf. split; [apply Nat.ltb_ge; rewrite app_length; lia|].
  split; [rewrite <- H at 1; rewrite firstn_app, firstn_all, Nat.sub_diag; simpl; apply app_nil_r|].
  rewrite <- H at 1. rewrite skipn_app, skipn_all, Nat.sub_diag. reflexivity.
Qed.

Lemma bytes_ok m : length (header m) = 4 -> uint32Of (header m) = Ok (Z.of_nat (length (nodes m))) ->
  unmarshalBytes near dec (bytesOf enc m) = unmarshal near m.
Proof.
  intros H4 HU. destruct (bytes_head m H4) as (E1 & E2 & E3). unfold unmarshalBytes, unmarshal. rewrite E1, E2, E3, HU. cbn [bind]. rewrite Nat2Z.id.
  unfold itemsOf. change (flat_map (fun p => [INum (fst p); INode (snd p)]) (nodes m)) with (flat (nodes m)). rewrite encAll_app, read_ok.
  destruct (decodeNodes near (length (nodes m)) (nodes m) [] (repeat None (length (nodes m)))) as [[[r h] M]| |] eqn:ED; cbn [bind]; auto.
  pose proof (decode_rest _ _ _ _ _ ED eq_refl) as Hr. cbn [fst] in Hr. subst r. cbn [app encAll].
  rewrite next_ok. cbn [fst]. reflexivity.
Qed.

(** A file that was cut. *)
Lemma cut_panics : forall ns prev tail h M k, k < length (encAll enc prev (flat ns)) ->
  (forall z g t, In (z, (g, t)) ns -> exists c, gobDecode near g t = Ok (Some c)) ->
  (forall z n, In (z, n) ns -> exists u, idxZ M z = Ok u) ->
  readNodes near dec (length ns) (Some (prev, firstn k (encAll enc prev (flat ns) ++ tail))) h M = Panic.
Proof.
  induction ns as [|[z [g t]] ns IH]; intros prev tail h M k Hk HD HM; [simpl in Hk; lia|].
  cbn [flat flat_map app fst snd encAll length readNodes] in *.
  change (flat_map (fun p => [INum (fst p); INode (snd p)]) ns) with (flat ns) in *.
  destruct (Nat.lt_ge_cases k (length (enc prev (INum z)))) as [H1|H1].
  { rewrite <- app_assoc, firstn_app. replace (k - length (enc prev (INum z))) with 0 by lia. cbn [firstn]. rewrite app_nil_r, next_cut by auto. cbn [next]. reflexivity. }
  rewrite <- app_assoc, firstn_app, firstn_all2 by auto. rewrite next_ok. set (k1 := k - length (enc prev (INum z))).
  set (p1 := prev ++ [INum z]) in *.
  destruct (Nat.lt_ge_cases k1 (length (enc p1 (INode (g, t))))) as [H2|H2].
  { rewrite <- app_assoc, firstn_app. replace (k1 - length (enc p1 (INode (g, t)))) with 0 by lia. cbn [firstn]. rewrite app_nil_r, next_cut by auto. reflexivity. }
  rewrite <- app_assoc, firstn_app, firstn_all2 by auto. rewrite next_ok.
  destruct (HD z g t (or_introl eq_refl)) as (c & ->). cbn [bind orPanic].
  destruct (HM z (g, t) (or_introl eq_refl)) as (u & ->). cbn [bind].
  apply IH.
  - rewrite !app_length in Hk. unfold k1. lia.
  - intros z' g' t' Hin. apply (HD z' g' t'). right; auto.
  - intros z' n' Hin. destruct (HM z' n' (or_intror Hin)) as (v & Hv). unfold idxZ, idx in *. destruct (z' <? 0)%Z; [discriminate|].
    destruct (nth_error (set_nth (Z.to_nat z) (Some (length h)) M) (Z.to_nat z')) as [w|] eqn:E; [eauto|]. exfalso.
    apply nth_error_None in E. assert (EL : length (set_nth (Z.to_nat z) (Some (length h)) M) = length M).
    { generalize (Z.to_nat z). clear. intros n. revert n. induction M as [|x M IHM]; intros [|n]; simpl; auto. }
    rewrite EL in E. apply nth_error_None in E. rewrite E in Hv. discriminate.
Qed.

Section Net.
Variable cont : nat -> content A.
Variable ch : graph.
Variables N r : nat.
Hypothesis HB : bounded ch N.
Hypothesis Hr : r < N.
Hypothesis HN : (Z.of_nat N < 2 ^ 32)%Z.
Hypothesis HI : forall u, reach ch r u -> ints_ok (cont u).

Lemma marshal_shape : exists l, l <> [] /\ NoDup l /\ length l <= N /\ (forall u c, In u l -> In c (ch u) -> In c l) /\
  (forall u, In u l <-> reach ch r u) /\ nth_error l (length l - 1) = Some r /\
  marshal exact cont ch (2 * N + 1) r = Ok (mkMsg (putUint32 (Z.of_nat (length l))) (sent exact cont l l) (map (row ch l) l)).
Proof.
  destruct (tarjan_full ch N r HB Hr) as (l & HT & [ND EN] & l0 & El). exists l.
  assert (HL : (length l <= N)%nat).
  { rewrite <- (seq_length N 0). apply NoDup_incl_length; auto. intros x Hx.
    apply in_seq. apply EN in Hx. split; [lia|].
    destruct Hx as [x|x c y H1 H2]; [lia|]. simpl.
    clear - HB H1 H2. assert (c < N)%nat by eauto. clear H1.
    induction H2; auto. apply IHreach. eauto. }
  assert (HC : forall u c, In u l -> In c (ch u) -> In c l).
  { intros u c Hu Hc. apply EN in Hu. apply EN.
    clear - Hu Hc. induction Hu; [eapply reach_step; eauto; constructor|].
    eapply reach_step; eauto. }
  split; [subst l; destruct l0; discriminate|]. do 3 (split; auto). split; [exact EN|].
  split; [|apply marshal_ok; auto].
  subst l. rewrite app_length. simpl. replace (length l0 + 1 - 1) with (length l0) by lia.
  rewrite nth_error_app2, Nat.sub_diag by lia. reflexivity.
Qed.

Lemma header_len n : length (putUint32 n) = 4. Proof. reflexivity. Qed.

Lemma load_saved : exists m, marshal exact cont ch (2 * N + 1) r = Ok m /\ unmarshalBytes near dec (bytesOf enc m) = unmarshal near m.
Proof.
  destruct marshal_shape as (l & NE & ND & HL & HC & EN & Hroot & Em). eexists. split; [exact Em|].
  apply bytes_ok; [reflexivity|]. cbn [header nodes]. unfold sent. rewrite map_length. apply uint32_put. lia.
Qed.

Lemma firstn_cut (a b : list Z) k : length a <= k -> firstn k (a ++ b) = a ++ firstn (k - length a) b.
Proof. intros H. rewrite firstn_app, firstn_all2 by auto. reflexivity. Qed.

Lemma load_cut : exists m start, marshal exact cont ch (2 * N + 1) r = Ok m /\ start < length (bytesOf enc m) /\
  (forall k, k < start -> unmarshalBytes near dec (firstn k (bytesOf enc m)) = Panic) /\
  exists l, nth_error l (length l - 1) = Some r /\ (forall u, In u l <-> reach ch r u) /\
  forall k, start <= k < length (bytesOf enc m) -> unmarshalBytes near dec (firstn k (bytesOf enc m)) =
    Ok (map (fun u => (recontent exact near (cont u), [])) l, Some (length l - 1)).
Proof.
  destruct marshal_shape as (l & NE & ND & HL & HC & EN & Hroot & Em).
  set (m := mkMsg (putUint32 (Z.of_nat (length l))) (sent exact cont l l) (map (row ch l) l)) in *.
  assert (Hl1 : 1 <= length l) by (destruct l; [congruence|simpl; lia]).
  set (body := encAll enc [] (flat (nodes m))). set (tl := enc (flat (nodes m)) (ILinks (links m))).
  assert (EB : bytesOf enc m = header m ++ body ++ tl).
  { unfold bytesOf, itemsOf. change (flat_map (fun p => [INum (fst p); INode (snd p)]) (nodes m)) with (flat (nodes m)).
    rewrite encAll_app. cbn [app encAll]. rewrite app_nil_r. reflexivity. }
  assert (HT : 0 < length tl) by (destruct SD as (_ & _ & H); specialize (H (flat (nodes m)) (ILinks (links m))); fold tl in H; destruct tl; [congruence|simpl; lia]).
  assert (HD : decodeNodes near (length (nodes m)) (nodes m) [] (repeat None (length l)) = Ok ([], map (fun u => (recontent exact near (cont u), [])) l, map Some (seq 0 (length l)))).
  { pose proof (decode_loop exact near cont l ND ltac:(intros u Hu; apply HI, EN; auto) l [] eq_refl) as D. cbn [length seq map app] in D.
    unfold m. cbn [nodes]. unfold sent at 1. rewrite map_length. exact D. }
  assert (HLn : length (nodes m) = length l) by (unfold m; cbn [nodes]; unfold sent; apply map_length).
  exists m, (4 + length body). split; [exact Em|]. rewrite EB. split; [rewrite !app_length; change (length (header m)) with 4; lia|]. split.
  - intros k Hk. unfold unmarshalBytes. rewrite firstn_length, !app_length. change (length (header m)) with 4.
    destruct (Nat.ltb_spec (Nat.min k (4 + (length body + length tl))) 4) as [|H4]; auto.
    assert (Hk4 : 4 <= k) by lia. rewrite firstn_cut by auto. change (length (header m)) with 4.
    change (firstn 4 (header m ++ firstn (k - 4) (body ++ tl))) with (header m). change (skipn 4 (header m ++ firstn (k - 4) (body ++ tl))) with (firstn (k - 4) (body ++ tl)).
    unfold m at 1. cbn [header]. rewrite uint32_put by lia. cbn [bind]. rewrite Nat2Z.id.
    rewrite <- HLn at 1. unfold body. rewrite cut_panics; [reflexivity|fold body; lia| |].
    + intros z g t Hin. unfold m in Hin. cbn [nodes] in Hin. unfold sent in Hin. apply in_map_iff in Hin as (u & E & Hu). injection E as _ E.
      exists (recontent exact near (cont u)). pose proof (codec_run exact near (cont u) ltac:(apply HI, EN; auto)) as C. rewrite E in C. exact C.
    + intros z n0 Hin. unfold m in Hin. cbn [nodes] in Hin. unfold sent in Hin. apply in_map_iff in Hin as (u & E & Hu). injection E as <- _.
      unfold idxZ, idx. destruct (Z.ltb_spec (Z.of_nat (pos l u)) 0); [lia|]. rewrite Nat2Z.id.
      destruct (nth_error (repeat (@None nat) (length l)) (pos l u)) as [w|] eqn:E; [eauto|]. apply nth_error_None in E. rewrite repeat_length in E. pose proof (pos_lt l u Hu). lia.
  - exists l. do 2 (split; auto). intros k (Hk1 & Hk2). unfold unmarshalBytes. rewrite firstn_length, !app_length in *. change (length (header m)) with 4 in *.
    destruct (Nat.ltb_spec (Nat.min k (4 + (length body + length tl))) 4) as [|H4]; [lia|].
    rewrite firstn_cut by (change (length (header m)) with 4; lia). change (length (header m)) with 4. rewrite (firstn_cut body tl (k - 4)) by lia.
    set (tb := firstn (k - 4 - length body) tl).
    change (firstn 4 (header m ++ body ++ tb)) with (header m). change (skipn 4 (header m ++ body ++ tb)) with (body ++ tb).
    unfold m at 1. cbn [header]. rewrite uint32_put by lia. cbn [bind]. rewrite Nat2Z.id. rewrite <- HLn at 1. unfold body. rewrite read_ok, HD. cbn [bind app].
    unfold tb, tl. rewrite next_cut by (fold tl; lia). cbn [fst]. unfold linkNodes, foldi. cbn [foldi_from bind].
    rewrite Z.mod_small by lia. unfold idxZ. destruct (Z.ltb_spec (Z.of_nat (length l) - 1) 0); [lia|].
    replace (Z.to_nat (Z.of_nat (length l) - 1)) with (length l - 1) by lia. unfold idx. rewrite nth_seq_some by lia. reflexivity.
Qed.
End Net.
End SaveLoad.
