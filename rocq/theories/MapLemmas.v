From Coq Require Import Reals Lra.
From Verif Require Import Base Res Arith LogMath LogSpec LogLemmas GraphSpec GraphLemmas Topo TopoLemmas
  Storer StorerLemmas Spn DP SpnSpec SpnLemmas Leaves ProbSpec ProbLemmas ArgLemmas MapSpec.

Lemma combine_app {X Y} (a b : list X) (c d : list Y) : length c = length a ->
  combine (a ++ b) (c ++ d) = combine a c ++ combine b d.
Proof.
  revert c. induction a as [|x a IH]; intros [|y c] H; simpl in *; try discriminate; auto.
  rewrite IH; auto.
Qed.

(** First passes, any arithmetic. *)
Section First.
Context {A : arith}.
Local Notation F := (F A).
Variable net : network A.
Local Notation ch := (children net).

Lemma mapNode_step I k t base (Ht : tables F base k = Some t) st u :
  tinv k base st -> (forall c, In c (ch u) -> tget k st c <> None) ->
  match evM net I (fun c => Ok (dflt F (fz 0) (tget k st c))) u with
  | Ok v => exists s', mapNode net I (Some t) st u = Ok s' /\ tinv k base s' /\ tget k s' u = Some v /\
                       forall x, x <> u -> tget k s' x = tget k st x
  | Panic => mapNode net I (Some t) st u = Panic
  | Fuel => False
  end.
Proof.
  intros HI Hc.
  assert (G : forall c, fst (tSingle F (fz 0) st (Some t) c) = dflt F (fz 0) (tget k st c)).
  { intros c. rewrite (tSingle_get k t base Ht st c HI). destruct (tget k st c); reflexivity. }
  pose proof (evM_nofuel net I u (fun c => Ok (dflt F (fz 0) (tget k st c))) ltac:(discriminate)) as NF.
  assert (E : mapNode net I (Some t) st u =
    (v <- evM net I (fun c => Ok (dflt F (fz 0) (tget k st c))) u; storeVia st (Some t) u v)).
  { unfold mapNode, evM. destruct (nk (net u)) as [w| |l]; auto.
    - unfold foldi. f_equal. apply foldi_from_ext. intros j s c _. rewrite G. reflexivity.
    - unfold foldi. rewrite (foldi_fold _ (fun v c => fadd v (fst (tSingle F (fz 0) st (Some t) c)))).
      + reflexivity.
      + intros i s c _. rewrite G. reflexivity. }
  rewrite E. destruct (evM net I _ u) as [v| |]; simpl; auto.
  apply storeVia_ok; auto.
Qed.

Lemma traceNode_step I (tab : nat -> option F) u :
  match evM net I (fun c => Ok (dflt F (fz 0) (tab c))) u with
  | Ok v => exists s', traceNode net I tab u = Ok s' /\ True /\ s' u = Some v /\
                       forall x, x <> u -> s' x = tab x
  | Panic => traceNode net I tab u = Panic
  | Fuel => False
  end.
Proof.
  pose proof (evM_nofuel net I u (fun c => Ok (dflt F (fz 0) (tab c))) ltac:(discriminate)) as NF.
  assert (E : traceNode net I tab u =
    (v <- evM net I (fun c => Ok (dflt F (fz 0) (tab c))) u; Ok (upd tab u (Some v)))).
  { unfold traceNode, evM. destruct (nk (net u)) as [w| |l]; auto.
    unfold foldi. rewrite (foldi_fold _ (fun v c => fadd v (getV tab c))); [reflexivity|].
    intros i s c _. reflexivity. }
  rewrite E. destruct (evM net I _ u) as [v| |]; simpl; auto.
  eexists. split; [reflexivity|]. split; auto. split; [apply upd_same|]. intros; apply upd_diff; auto.
Qed.

(** StoreMAP up to the second pass. *)
Lemma storeMAP_first N r I tk (st : storer F) ops rnd :
  run_state (ustep F (fz 0)) (newStorer F) ops = Some st ->
  bounded ch N -> r < N -> acyclic ch -> siblings_ok ch ->
  leaves_childless net -> nch (net r) <> [] ->
  ((0 <= tk)%Z -> snd (table F st tk) = true) ->
  (max_ net N I r = Panic /\ storeMAP net rnd (2 * N + 1) r I tk st = Panic) \/
  exists st' tk' look, storeMAP net rnd (2 * N + 1) r I tk st =
      (M <- mapLoop net rnd I look (2 * N + 1) 0 [r] [r] (fun _ => None);
       Ok (st', (Some r, tk', Some M))) /\
    tk' = (if (tk <? 0)%Z then tickets F st else tk) /\
    (forall u, reach ch r u -> max_ net N I u = Ok (look u) /\ sSingle F (fz 0) st' tk' u = (look u, true)) /\
    (forall k x l, k <> tk' -> sEntry F (fz 0) st' k x l = sEntry F (fz 0) st k x l) /\
    (forall x l, (0 <= tk)%Z -> (l <> 0%Z \/ ~ reach ch r x) ->
       sEntry F (fz 0) st' tk' x l = sEntry F (fz 0) st tk' x l).
Proof.
  intros Hst Hb Hr Ha Hs HL Hne Htk.
  pose proof (wf_run F (fz 0) ops _ _ (wf_new F) Hst) as W.
  destruct (good_order net N r Hb Hr Ha Hs) as (l & l0 & E & Hd & Hn & He & Hlen & _).
  unfold storeMAP. destruct (Nat.eqb_spec (length (nch (net r))) 0) as [H0|_].
  { apply length_zero_iff_nil in H0. contradiction. }
  set (b := if (tk <? 0)%Z then newTicket F st else (st, tk)).
  assert (Hb1 : wf F (fst b) /\ snd b = (if (tk <? 0)%Z then tickets F st else tk) /\
    (exists t, tables F (fst b) (snd b) = Some t) /\
    (forall k x l, k <> snd b \/ (0 <= tk)%Z -> cval F (fst b) k x l = cval F st k x l)).
  { subst b. destruct (Z.ltb_spec tk 0).
    - pose proof (newTicket_ok F st W) as H1. destruct (newTicket F st) as [s1 k1]. simpl.
      destruct H1 as (H1 & H2 & H3 & _ & H4). split; auto. split; auto. split; auto.
      intros k x l' [Hk|Hk]; [auto|lia].
    - simpl. split; auto. split; auto. split; auto. specialize (Htk H). unfold table in Htk.
      simpl in Htk. destruct (tables F st tk) as [t|]; eauto. discriminate. }
  destruct b as [st1 tk1]. simpl in Hb1. destruct Hb1 as (W1 & Etk & (t & Et) & Hoth).
  rewrite E. unfold table. rewrite Et. simpl fst.
  pose proof (loop_gen net (evM net I) N r _ (tget tk1) (tinv tk1 st1) (mapNode net I (Some t)) l st1
    (evM_ext net I) (evM_nofuel net I) (fun u lk c => evM_panic net I u lk c HL) Hd Hn He Hlen) as H.
  specialize (H ltac:(split; auto)).
  specialize (H (fun s u _ => mapNode_step I tk1 t st1 Et s u)).
  destruct (foldr_ (mapNode net I (Some t)) l st1) as [st2| |] eqn:EF.
  - right. destruct H as (HI2 & Hv & Hout). pose proof HI2 as (W2 & Et2 & _ & Ho2).
    exists st2, tk1, (fun c => fst (tSingle F (fz 0) st2 (Some t) c)). split; auto. split; auto.
    assert (Hu : forall u, reach ch r u -> exists v, tget tk1 st2 u = Some v /\
       max_ net N I u = Ok v /\ fst (tSingle F (fz 0) st2 (Some t) u) = v).
    { intros u Hu. destruct (Hv u Hu) as (v & E1 & E2). exists v. split; auto. rewrite max_val. split; auto.
      rewrite (tSingle_get tk1 t st1 Et st2 u HI2). rewrite E1. auto. }
    split; [|split].
    + intros u Hr'. destruct (Hu u Hr') as (v & E1 & E2 & E3). rewrite E3. split; auto.
      unfold sSingle. rewrite sEntry_cval. unfold tget in E1. rewrite E1. reflexivity.
    + intros k x l' Hk. rewrite !sEntry_cval. rewrite Ho2 by auto. rewrite Hoth by auto. reflexivity.
    + intros x l' Hz Hx. rewrite !sEntry_cval. rewrite <- Hoth by auto.
      destruct Hx as [Hx|Hx]; [rewrite Ho2 by auto; reflexivity|].
      destruct (Z.eq_dec l' 0) as [->|Hl]; [|rewrite Ho2 by auto; reflexivity].
      specialize (Hout x Hx). unfold tget in Hout. rewrite Hout. reflexivity.
  - left. rewrite max_val. split; auto.
  - destruct H.
Qed.

(** TraceMAP up to the second pass. *)
Lemma traceMAP_first N r I rnd :
  bounded ch N -> r < N -> acyclic ch -> siblings_ok ch -> leaves_childless net ->
  (max_ net N I r = Panic /\ traceMAP net rnd (2 * N + 1) r I = Panic) \/
  exists look, traceMAP net rnd (2 * N + 1) r I =
      traceLoop net rnd look (2 * N + 1) 0 [r] [r] (fun _ => None) /\
    (forall u, reach ch r u -> max_ net N I u = Ok (look u)).
Proof.
  intros Hb Hr Ha Hs HL.
  destruct (good_order net N r Hb Hr Ha Hs) as (l & l0 & E & Hd & Hn & He & Hlen & _).
  unfold traceMAP. rewrite E.
  pose proof (loop_gen net (evM net I) N r _ (fun s : nat -> option F => s) (fun _ => True) (traceNode net I) l (fun _ => None)
    (evM_ext net I) (evM_nofuel net I) (fun u lk c => evM_panic net I u lk c HL) Hd Hn He Hlen Logic.I) as H.
  specialize (H (fun s u _ _ _ => traceNode_step I s u)).
  destruct (foldr_ (traceNode net I) l (fun _ => None)) as [tab| |] eqn:EF.
  - right. destruct H as (_ & Hv & _). exists (getV tab). split; auto. intros u Hu.
    destruct (Hv u Hu) as (v & E1 & E2). rewrite max_val. unfold getV. rewrite E1. auto.
  - left. rewrite max_val. split; auto.
  - destruct H.
Qed.
End First.

(** The best children of a sum node. *)
Section Best.
Local Open Scope R_scope.
Variable T : Type.
Variable tag : nat -> nat -> T.
Variable look : nat -> xreal.
Variable mx : nat -> R.

Definition bestStep (w : list xreal) (i : nat) (st : xreal * list T) (c : nat) : res (xreal * list T) :=
  let (m, mv) := st in
  wi <- idx w i;
  let u := xadd (xlog wi) (look c) in
  Ok (if xgt u m then (u, [tag i c]) else if xeq u m then (m, mv ++ [tag i c]) else st).

Lemma best_spec (cs : list nat) (ws : list R) :
  length ws = length cs -> (forall x, In x ws -> 0 <= x) ->
  (forall c, In c cs -> look c = xln (mx c) /\ 0 <= mx c) -> cs <> [] ->
  exists mv, foldi (bestStep (map Fin ws)) cs (NInf, []) = Ok (xln (pmax mx cs ws), mv) /\ mv <> [] /\
    forall t, In t mv -> exists i c w, t = tag i c /\ nth_error cs i = Some c /\ nth_error ws i = Some w /\
      w * mx c = pmax mx cs ws.
Proof.
  intros HL Hw Hc Hne.
  assert (X : forall suf wsuf pre wpre mv, cs = pre ++ suf -> ws = wpre ++ wsuf -> length wpre = length pre ->
    (pre = [] \/ mv <> []) ->
    (forall t, In t mv -> exists i c w, t = tag i c /\ nth_error cs i = Some c /\ nth_error ws i = Some w /\
      w * mx c = pmax mx pre wpre) ->
    exists mv', foldi_from (length pre) (bestStep (map Fin ws)) suf (xln (pmax mx pre wpre), mv) =
        Ok (xln (pmax mx cs ws), mv') /\ (cs = [] \/ mv' <> []) /\
      forall t, In t mv' -> exists i c w, t = tag i c /\ nth_error cs i = Some c /\ nth_error ws i = Some w /\
      w * mx c = pmax mx cs ws).
  { induction suf as [|c suf IH]; intros wsuf pre wpre mv E1 E2 E3 Hmv Ht.
    - rewrite app_nil_r in E1. subst pre. simpl.
      assert (wsuf = []). { destruct wsuf; auto. rewrite E2, app_length in HL. simpl in HL. lia. }
      subst wsuf. rewrite app_nil_r in E2. subst wpre. exists mv. auto.
    - destruct wsuf as [|w wsuf].
      { rewrite E1, E2, !app_length in HL. simpl in HL. lia. }
      assert (Hcs : nth_error cs (length pre) = Some c).
      { rewrite E1, nth_error_app2, Nat.sub_diag by lia. auto. }
      assert (Hws : nth_error ws (length pre) = Some w).
      { rewrite E2, nth_error_app2, <- E3, Nat.sub_diag by lia. auto. }
      assert (Hcin : In c cs) by (eapply nth_error_In; eauto).
      assert (Hwin : In w ws) by (eapply nth_error_In; eauto).
      destruct (Hc c Hcin) as [El Hm]. pose proof (Hw w Hwin) as Hw0.
      cbn [foldi_from]. unfold bestStep at 1. unfold idx. rewrite nth_error_map, Hws. cbn [option_map bind].
      rewrite El, xlog_nonneg, xadd_xln by auto.
      assert (Hs : 0 <= w * mx c) by (apply Rmult_le_pos; auto).
      assert (Hp : 0 <= pmax mx pre wpre) by apply Rmaxl_ge0.
      assert (EP : pmax mx (pre ++ [c]) (wpre ++ [w]) =
        if Rlt_dec (pmax mx pre wpre) (w * mx c) then w * mx c else pmax mx pre wpre).
      { unfold pmax. rewrite combine_app by auto. rewrite map_app. simpl. rewrite Rmaxl_snoc. reflexivity. }
      replace (length pre + 1)%nat with (length (pre ++ [c])) by (rewrite app_length; auto).
      assert (E1' : cs = (pre ++ [c]) ++ suf) by (rewrite <- app_assoc; auto).
      assert (E2' : ws = (wpre ++ [w]) ++ wsuf) by (rewrite <- app_assoc; auto).
      assert (E3' : length (wpre ++ [w]) = length (pre ++ [c])) by (rewrite !app_length; simpl; lia).
      rewrite xgt_xln, xeq_xln by auto.
      specialize (IH wsuf (pre ++ [c]) (wpre ++ [w])). rewrite EP in IH.
      destruct (Rlt_dec (pmax mx pre wpre) (w * mx c)) as [Hlt|Hge].
      + apply IH; auto; [right; discriminate|]. intros t [<-|[]]. exists (length pre), c, w. auto.
      + destruct (Req_EM_T (w * mx c) (pmax mx pre wpre)) as [Heq|Hneq].
        * apply IH; auto; [right; destruct mv; discriminate|]. intros t Hin. apply in_app_or in Hin as [Hin|[<-|[]]].
          -- auto.
          -- exists (length pre), c, w. auto.
        * apply IH; auto. destruct Hmv as [->|Hmv]; auto. exfalso. apply Hneq. unfold pmax in *.
          destruct wpre; [|discriminate]. simpl in *. lra. }
  destruct (X cs ws [] [] []) as (mv' & E & [->|Hmv] & Ht); auto; try congruence.
  { intros t []. }
  exists mv'. split; auto. etransitivity; [|exact E]. unfold foldi. rewrite <- xln_zero. reflexivity.
Qed.
End Best.

Section Second.
Variable net : network XR.
Variables N r : nat.
Local Notation ch := (children net).
Hypothesis Hb : bounded ch N.
Hypothesis Hr : r < N.
Hypothesis Ha : acyclic ch.
Hypothesis HW : weights_nonneg net r.
Variable I : varset.
Hypothesis HA : leaves_answer net I r.
Local Notation MX := (MX net N I).
Variable look : nat -> xreal.
Hypothesis Hlook : forall u, reach ch r u -> max_ net N I u = Ok (look u).
Variable rnd : nat -> nat -> nat.
Hypothesis Hrnd : forall i n, 0 < n -> rnd i n < n.

Lemma M_all u : reach ch r u ->
  max_ net N I u = Ok (xln (MX u)) /\ (0 <= MX u)%R /\
  match nk (net u) with
  | KSum w => forall ws, w = map Fin ws -> MX u = pmax MX (nch (net u)) ws
  | KProd => MX u = Rprod (map MX (nch (net u)))
  | KLeaf l => MX u = mleaf l I
  end.
Proof.
  intros Hu. apply (M_gen net N r Hb Hr Ha HW I); auto. intros v l Hv E.
  destruct (HA v l Hv E) as (m & J & y & H1 & H2 & _). eauto.
Qed.

Lemma look_xln u : reach ch r u -> look u = xln (MX u) /\ (0 <= MX u)%R.
Proof.
  intros Hu. destruct (M_all u Hu) as (E & H & _). rewrite (Hlook u Hu) in E. injection E as ->. auto.
Qed.

(** The candidates of a sum node, tagged. *)
Lemma best_at {T} (tag : nat -> nat -> T) u w : reach ch r u -> nk (net u) = KSum w ->
  exists m mv, foldi (bestStep T tag look w) (nch (net u)) (NInf, []) = Ok (m, mv) /\ mv <> [] /\
    forall t, In t mv -> exists i c, t = tag i c /\ nth_error (nch (net u)) i = Some c /\ attains_at net N I u i.
Proof.
  intros Hu EK. destruct (HW u w Hu EK) as (Hne & ws & -> & HLen & Hnn).
  assert (Hc : forall c, In c (nch (net u)) -> reach ch r c) by (intros c Hc; eapply reach_snoc; eauto).
  destruct (best_spec T tag look MX (nch (net u)) ws HLen Hnn) as (mv & E & Hmv & Ht); auto.
  { intros c Hin. apply look_xln; auto. }
  exists (xln (pmax MX (nch (net u)) ws)), mv. split; auto. split; auto. intros t Hin.
  destruct (Ht t Hin) as (i & c & w & H1 & H2 & H3 & H4). exists i, c. split; auto. split; auto.
  assert (Hcin : In c (nch (net u))) by (eapply nth_error_In; eauto).
  destruct (M_all u Hu) as (Eu & _ & Em). rewrite EK in Em. specialize (Em ws eq_refl).
  destruct (M_all c (Hc c Hcin)) as (Ec & Hc0 & _).
  exists (map Fin ws), (Fin w), c, (xln (MX c)). split; auto. split; [rewrite nth_error_map, H3; auto|].
  split; auto. split; auto. rewrite Eu, Em, <- H4. rewrite xlog_nonneg, xadd_xln; auto; apply Hnn; eapply nth_error_In; eauto.
Qed.

Lemma push_fold cs : forall Q V, NoDup V -> exists B, fold_left (fun QV c => push c QV) cs (Q, V) = (Q ++ B, rev B ++ V) /\
  NoDup (rev B ++ V) /\ (forall c, In c B -> In c cs) /\ (forall c, In c cs -> In c (rev B ++ V)).
Proof.
  induction cs as [|c cs IH]; intros Q V Hn; simpl.
  - exists []. rewrite app_nil_r. simpl. repeat split; auto; intros c [].
  - destruct (memn c V) eqn:E.
    + destruct (IH Q V Hn) as (B & E1 & H1 & H2 & H3). exists B. split; auto. split; auto. split; auto.
      intros d [<-|Hd]; auto. apply in_or_app. right. apply memn_In; auto.
    + apply memn_false in E.
      destruct (IH (Q ++ [c]) (c :: V)) as (B & E1 & H1 & H2 & H3); [constructor; auto|].
      exists (c :: B). simpl. rewrite E1, <- !app_assoc. simpl. split; auto. split; [|split].
      * auto.
      * intros d [<-|Hd]; auto.
      * intros d [<-|Hd]; auto. apply in_or_app. right. left. auto.
Qed.

Definition restr (D : list nat) (g : graph) : graph := fun u => if memn u D then g u else [].

Lemma restr_reach D g D' g' x y : (forall u, In u D -> In u D') -> (forall u, In u D -> g u = g' u) ->
  reach (restr D g) x y -> reach (restr D' g') x y.
Proof.
  intros HD Hg H. induction H as [|x c y Hc _ IH]; [apply reach_refl|].
  eapply reach_step; [|exact IH]. unfold restr in *. destruct (memn x D) eqn:E; [|destruct Hc].
  apply memn_In in E. rewrite (proj2 (memn_In x D') (HD x E)). rewrite <- Hg; auto.
Qed.

Lemma restr_sub D g x y : reach (restr D g) x y -> reach g x y.
Proof.
  intros H. induction H as [|x c y Hc _ IH]; [apply reach_refl|]. eapply reach_step; [|exact IH].
  unfold restr in Hc. destruct (memn x D); [auto|destruct Hc].
Qed.

Definition leafpart (M : varset) (D : list nat) : Prop :=
  (forall x v, M x = Some v -> exists u l J y, In u D /\ nk (net u) = KLeaf l /\
     largmax l I = Some (J, y) /\ J x = Some v) /\
  (forall u l J y x, In u D -> nk (net u) = KLeaf l -> largmax l I = Some (J, y) -> J x <> None -> M x <> None).

Record minv (Q V D : list nat) (sel : nat -> nat) (M : varset) : Prop := {
  mi_nd : NoDup V;
  mi_perm : Permutation V (Q ++ D);
  mi_root : In r V;
  mi_ch : forall u, In u V -> reach ch r u;
  mi_reach : forall u, In u V -> reach (restr D (selected net sel)) r u;
  mi_closed : forall u c, In u D -> In c (selected net sel u) -> In c V;
  mi_att : forall u w, In u D -> nk (net u) = KSum w ->
    exists i, nth_error (nch (net u)) i = Some (sel u) /\ attains_at net N I u i;
  mi_leaf : leafpart M D }.

Lemma leafpart_skip M D s : (forall l, nk (net s) <> KLeaf l) -> leafpart M D -> leafpart M (s :: D).
Proof.
  intros Hk (H1 & H2). split.
  - intros x v Hx. destruct (H1 x v Hx) as (u & l & J & y & Hu & H). exists u, l, J, y. split; [right|]; auto.
  - intros u l J y x [<-|Hu] Hl; [exfalso; eapply Hk; eauto|]. eapply H2; eauto.
Qed.

(** One step: process the head [s], adding the new nodes [B] to the queue. *)
Lemma minv_step Q V D sel M s B sel' M' :
  minv (s :: Q) V D sel M ->
  (forall u, u <> s -> sel' u = sel u) ->
  NoDup (rev B ++ V) -> (forall c, In c B -> In c (selected net sel' s)) ->
  (forall c, In c (selected net sel' s) -> In c (rev B ++ V)) ->
  (forall c, In c (selected net sel' s) -> In c (nch (net s))) ->
  (forall w, nk (net s) = KSum w -> exists i, nth_error (nch (net s)) i = Some (sel' s) /\ attains_at net N I s i) ->
  leafpart M' (s :: D) ->
  minv (Q ++ B) (rev B ++ V) (s :: D) sel' M'.
Proof.
  intros [H1 H2 H3 H4 H5 H6 H7 H8] Hsel Hnd HB1 HB2 HB3 Hatt HM'.
  assert (HsV : In s V) by (eapply Permutation_in; [symmetry; eauto|left; auto]).
  assert (HsD : ~ In s D).
  { intros Hs. assert (Hn : NoDup ((s :: Q) ++ D)) by (eapply Permutation_NoDup; eauto).
    simpl in Hn. inversion Hn; subst. apply H9. apply in_or_app; auto. }
  assert (Hg : forall u, In u D -> selected net sel u = selected net sel' u).
  { intros u Hu. unfold selected. rewrite Hsel; auto. intros ->. contradiction. }
  assert (Hmono : forall u, reach (restr D (selected net sel)) r u -> reach (restr (s :: D) (selected net sel')) r u).
  { intros u. apply restr_reach; auto. intros; right; auto. }
  constructor; auto.
  - rewrite <- app_assoc. transitivity (rev B ++ ((s :: Q) ++ D)); [apply Permutation_app_head; auto|].
    transitivity (B ++ ((s :: Q) ++ D)); [apply Permutation_app_tail; symmetry; apply Permutation_rev|].
    simpl. transitivity (s :: B ++ Q ++ D); [symmetry; apply Permutation_middle|].
    transitivity (s :: Q ++ B ++ D); [apply perm_skip; rewrite !app_assoc; apply Permutation_app_tail, Permutation_app_comm|].
    rewrite !app_assoc. apply Permutation_middle.
  - apply in_or_app. auto.
  - intros u Hu. apply in_app_or in Hu as [Hu|Hu]; auto. apply in_rev in Hu.
    eapply reach_snoc; [apply H4; exact HsV|]. apply HB3. apply HB1. auto.
  - intros u Hu. apply in_app_or in Hu as [Hu|Hu]; auto. apply in_rev in Hu.
    eapply reach_snoc; [apply Hmono, H5; exact HsV|]. unfold restr. simpl. rewrite Nat.eqb_refl. simpl. auto.
  - intros u c [<-|Hu] Hc; auto. apply in_or_app. right. eapply H6; eauto. rewrite Hg; auto.
  - intros u w [<-|Hu] EK; eauto. rewrite Hsel; [eapply H7; eauto|]. intros ->. contradiction.
Qed.

Lemma minv_len Q V D sel M : minv Q V D sel M -> length Q + length D <= N.
Proof.
  intros [H1 H2 H3 H4 H5 H6 H7 H8]. rewrite <- app_length, <- (Permutation_length H2).
  apply nodup_bound; auto. intros x Hx. eapply SpnLemmas.reach_bounded; eauto.
Qed.

Lemma mapLoop_ok : forall fuel i Q V D sel M, minv Q V D sel M -> N - length D < fuel ->
  exists M' sel', mapLoop net rnd I look fuel i Q V M = Ok M' /\
    maximal_tree net N I r sel' /\ union_of_leaves net I r sel' M'.
Proof.
  induction fuel as [|f IH]; intros i Q V D sel M HI Hf; [lia|]. simpl.
  pose proof (minv_len _ _ _ _ _ HI) as Hlen.
  destruct Q as [|s Q].
  - exists M, sel. split; auto. destruct HI as [H1 H2 H3 H4 H5 H6 H7 (H8 & H9)]. simpl in H2.
    assert (HVD : forall u, In u V <-> In u D).
    { intros u. split; apply Permutation_in; auto. symmetry; auto. }
    assert (Hin : forall u, reach (selected net sel) r u -> In u D).
    { intros u Hu. apply HVD. apply (reach_closed (selected net sel) (fun u => In u V)) with (2 := Hu); auto.
      intros x c Hx Hc. eapply H6; eauto. apply HVD; auto. }
    split; [intros u w Hu EK; eapply H7; eauto|]. split.
    + intros x v Hx. destruct (H8 x v Hx) as (u & l & J & y & Hu & H). exists u, l, J, y. split; auto.
      eapply restr_sub. apply H5. apply HVD; auto.
    + intros u l J y x Hu. apply H9. auto.
  - assert (HsV : In s V) by (eapply Permutation_in; [symmetry; apply (mi_perm _ _ _ _ _ HI)|left; auto]).
    pose proof (mi_ch _ _ _ _ _ HI s HsV) as Hs. pose proof (mi_nd _ _ _ _ _ HI) as Hnd.
    destruct (nk (net s)) as [w| |l] eqn:EK.
    + destruct (best_at (fun _ c => c) s w Hs EK) as (m & mv & E & Hmv & Ht).
      assert (EB : @bestChildren XR look w (nch (net s)) = Ok (m, mv)) by exact E. rewrite EB. cbn [bind snd].
      destruct (Nat.eqb_spec (length mv) 0) as [H0|H0]; [destruct mv; [congruence|discriminate]|].
      pose proof (Hrnd i (length mv) ltac:(lia)) as Hrl.
      unfold idx. destruct (nth_error mv (rnd i (length mv))) as [c|] eqn:Ec;
        [|apply nth_error_None in Ec; lia].
      cbn [bind]. destruct (Ht c (nth_error_In _ _ Ec)) as (j & c' & -> & Hj & Hatt).
      assert (Hcin : In c' (nch (net s))) by (eapply nth_error_In; eauto).
      pose proof (push_fold [c'] Q V Hnd) as (B & EP & HB1 & HB2 & HB3). simpl fold_left in EP.
      rewrite EP.
      assert (ES : selected net (upd sel s c') s = [c']) by (unfold selected; rewrite EK, upd_same; auto).
      eapply (IH (S i) (Q ++ B) (rev B ++ V) (s :: D) (upd sel s c') M); [|simpl in *; lia].
      eapply minv_step; eauto.
      * intros u Hu. apply upd_diff; auto.
      * rewrite ES. auto.
      * rewrite ES. auto.
      * rewrite ES. intros c [<-|[]]; auto.
      * intros w' _. exists j. rewrite upd_same. auto.
      * apply leafpart_skip; [intros l; congruence|apply (mi_leaf _ _ _ _ _ HI)].
    + pose proof (push_fold (nch (net s)) Q V Hnd) as (B & EP & HB1 & HB2 & HB3). rewrite EP.
      assert (ES : selected net sel s = nch (net s)) by (unfold selected; rewrite EK; auto).
      eapply (IH i (Q ++ B) (rev B ++ V) (s :: D) sel M); [|simpl in *; lia].
      eapply minv_step; eauto; try (rewrite ES; auto).
      * intros w' E. congruence.
      * apply leafpart_skip; [intros l; congruence|apply (mi_leaf _ _ _ _ _ HI)].
    + destruct (HA s l Hs EK) as (m & J & y & _ & _ & EJ). rewrite EJ. cbn [orPanic bind fst].
      assert (ES : selected net sel s = []) by (unfold selected; rewrite EK; auto).
      assert (X : minv (Q ++ []) (rev [] ++ V) (s :: D) sel (merge M J)).
      { eapply minv_step; eauto; try (rewrite ES; intros c []).
        - intros w' E. congruence.
        - destruct (mi_leaf _ _ _ _ _ HI) as (L1 & L2). split.
          + intros x v. unfold merge. destruct (J x) as [v'|] eqn:Ex.
            * intros E. injection E as <-. exists s, l, J, y. split; [left|]; auto.
            * intros E. destruct (L1 x v E) as (u & l' & J' & y' & Hu & H). exists u, l', J', y'. split; [right|]; auto.
          + intros u l' J' y' x [<-|Hu] Hl' EJ' Hx; unfold merge.
            * rewrite EK in Hl'. injection Hl' as <-. rewrite EJ in EJ'. injection EJ' as <- <-.
              destruct (J x); congruence.
            * specialize (L2 u l' J' y' x Hu Hl' EJ' Hx). destruct (J x); congruence. }
      rewrite app_nil_r in X. simpl in X. eapply IH; [exact X|simpl in *; lia].
Qed.

Lemma minv_init sel : minv [r] [r] [] sel (fun _ => None).
Proof.
  constructor; try (intros u c []; fail); try (intros u [<-|[]]; apply reach_refl); try (left; auto; fail).
  - constructor; auto. constructor.
  - apply Permutation_refl.
  - split; [discriminate|]. intros u l J y x [].
Qed.

Lemma mapLoop_final : exists M sel, mapLoop net rnd I look (2 * N + 1) 0 [r] [r] (fun _ => None) = Ok M /\
    maximal_tree net N I r sel /\ union_of_leaves net I r sel M.
Proof. apply (mapLoop_ok (2 * N + 1) 0 [r] [r] [] (fun _ => 0)); [apply minv_init|simpl; lia]. Qed.

(** TraceMAP's second pass. *)
Record tinv2 (Q V D : list nat) (P : nat -> option nat) : Prop := {
  ti_nd : NoDup V;
  ti_perm : Permutation V (Q ++ D);
  ti_root : In r V;
  ti_ch : forall u, In u V -> reach ch r u;
  ti_from : forall u, In u V -> u = r \/ exists p, In p D /\ In u (nch (net p));
  ti_closed : forall u c, In u D -> In c (followed net P u) -> In c V;
  ti_dom : forall u i, P u = Some i -> In u D /\ attains_at net N I u i;
  ti_tree : tree ch r -> forall u w, In u D -> nk (net u) = KSum w -> P u <> None }.

Lemma tinv_step Q V D P s B P' :
  tinv2 (s :: Q) V D P ->
  (forall u, u <> s -> P' u = P u) ->
  NoDup (rev B ++ V) -> (forall c, In c B -> In c (nch (net s))) ->
  (forall c, In c (followed net P' s) -> In c (rev B ++ V)) ->
  (forall i, P' s = Some i -> attains_at net N I s i) ->
  (tree ch r -> forall w, nk (net s) = KSum w -> P' s <> None) ->
  tinv2 (Q ++ B) (rev B ++ V) (s :: D) P'.
Proof.
  intros [H1 H2 H3 H4 H5 H6 H7 H8] HP Hnd HB1 HB2 Hatt Htree.
  assert (HsV : In s V) by (eapply Permutation_in; [symmetry; eauto|left; auto]).
  assert (HsD : ~ In s D).
  { intros Hs. assert (Hn : NoDup ((s :: Q) ++ D)) by (eapply Permutation_NoDup; eauto).
    simpl in Hn. inversion Hn; subst. apply H9. apply in_or_app; auto. }
  constructor; auto.
  - rewrite <- app_assoc. transitivity (rev B ++ ((s :: Q) ++ D)); [apply Permutation_app_head; auto|].
    transitivity (B ++ ((s :: Q) ++ D)); [apply Permutation_app_tail; symmetry; apply Permutation_rev|].
    simpl. transitivity (s :: B ++ Q ++ D); [symmetry; apply Permutation_middle|].
    transitivity (s :: Q ++ B ++ D); [apply perm_skip; rewrite !app_assoc; apply Permutation_app_tail, Permutation_app_comm|].
    rewrite !app_assoc. apply Permutation_middle.
  - apply in_or_app. auto.
  - intros u Hu. apply in_app_or in Hu as [Hu|Hu]; auto. apply in_rev in Hu.
    eapply reach_snoc; [apply H4; exact HsV|]. apply HB1. auto.
  - intros u Hu. apply in_app_or in Hu as [Hu|Hu].
    + apply in_rev in Hu. right. exists s. split; [left; auto|auto].
    + destruct (H5 u Hu) as [->|(p & Hp & Hc)]; auto. right. exists p. split; [right|]; auto.
  - intros u c [<-|Hu] Hc; auto. apply in_or_app. right. eapply H6; eauto.
    unfold followed in *. rewrite HP in Hc; auto. intros ->. contradiction.
  - intros u i E. destruct (Nat.eq_dec u s) as [->|Hn].
    + split; [left; auto|auto].
    + rewrite HP in E by auto. destruct (H7 u i E). split; [right|]; auto.
  - intros HT u w [<-|Hu] EK; [eapply Htree; eauto|]. rewrite HP; [eapply H8; eauto|]. intros ->. contradiction.
Qed.

Lemma tinv_len Q V D P : tinv2 Q V D P -> length Q + length D <= N.
Proof.
  intros [H1 H2 H3 H4 H5 H6 H7 H8]. rewrite <- app_length, <- (Permutation_length H2).
  apply nodup_bound; auto. intros x Hx. eapply SpnLemmas.reach_bounded; eauto.
Qed.

Lemma traceLoop_ok : forall fuel i Q V D P, tinv2 Q V D P -> N - length D < fuel ->
  exists P', traceLoop net rnd look fuel i Q V P = Ok P' /\
    (forall u j, P' u = Some j -> reach ch r u /\ attains_at net N I u j) /\
    (tree ch r -> forall u w, reach (followed net P') r u -> nk (net u) = KSum w -> P' u <> None).
Proof.
  induction fuel as [|f IH]; intros i Q V D P HI Hf; [lia|]. simpl.
  pose proof (tinv_len _ _ _ _ HI) as Hlen.
  destruct Q as [|s Q].
  - exists P. split; auto. destruct HI as [H1 H2 H3 H4 H5 H6 H7 H8]. simpl in H2.
    assert (HVD : forall u, In u V <-> In u D).
    { intros u. split; apply Permutation_in; auto. symmetry; auto. }
    split.
    + intros u j E. destruct (H7 u j E) as [Hu Hatt]. split; auto. apply H4. apply HVD; auto.
    + intros HT u w Hu. apply H8; auto. apply HVD.
      apply (reach_closed (followed net P) (fun u => In u V)) with (2 := Hu); auto.
      intros x c Hx Hc. eapply H6; eauto. apply HVD; auto.
  - assert (HsV : In s V) by (eapply Permutation_in; [symmetry; apply (ti_perm _ _ _ _ HI)|left; auto]).
    pose proof (ti_ch _ _ _ _ HI s HsV) as Hs. pose proof (ti_nd _ _ _ _ HI) as Hnd.
    assert (HsD : ~ In s D).
    { intros HsD. assert (Hn : NoDup ((s :: Q) ++ D)) by (eapply Permutation_NoDup; [apply (ti_perm _ _ _ _ HI)|auto]).
      simpl in Hn. inversion Hn; subst. apply H1. apply in_or_app; auto. }
    assert (HPs : P s = None).
    { destruct (P s) eqn:E; auto. apply (ti_dom _ _ _ _ HI) in E as [E _]. contradiction. }
    destruct (nk (net s)) as [w| |l] eqn:EK.
    + destruct (best_at (fun i _ => i) s w Hs EK) as (m & mv & E & Hmv & Ht).
      assert (EB : @bestIndices XR look w (nch (net s)) = Ok (m, mv)) by exact E. rewrite EB. cbn [bind snd].
      destruct (Nat.eqb_spec (length mv) 0) as [H0|H0]; [destruct mv; [congruence|discriminate]|].
      pose proof (Hrnd i (length mv) ltac:(lia)) as Hrl.
      unfold idx at 1. destruct (nth_error mv (rnd i (length mv))) as [j|] eqn:Ec;
        [|apply nth_error_None in Ec; lia].
      cbn [bind]. destruct (Ht j (nth_error_In _ _ Ec)) as (j' & c & -> & Hj & Hatt).
      unfold idx. rewrite Hj. cbn [bind].
      assert (Hcin : In c (nch (net s))) by (eapply nth_error_In; eauto).
      destruct (memn c V) eqn:Em.
      * assert (X : tinv2 (Q ++ []) (rev [] ++ V) (s :: D) P).
        { eapply tinv_step; eauto.
          - intros d [].
          - unfold followed. rewrite EK, HPs. intros d [].
          - rewrite HPs. discriminate.
          - intros (HT1 & HT2 & HT3) w' _. exfalso. apply memn_In in Em.
            destruct (ti_from _ _ _ _ HI c Em) as [->|(p & Hp & Hpc)]; [eapply HT1; eauto|].
            assert (p = s) by (eapply HT3; eauto). subst. contradiction. }
        rewrite app_nil_r in X. simpl in X. eapply IH; [exact X|simpl in *; lia].
      * apply memn_false in Em.
        assert (X : tinv2 (Q ++ [c]) (rev [c] ++ V) (s :: D) (upd P s (Some j'))).
        { eapply tinv_step; eauto.
          - intros u Hu. apply upd_diff; auto.
          - simpl. constructor; auto.
          - intros d [<-|[]]; auto.
          - unfold followed. rewrite EK, upd_same, Hj. intros d [<-|[]]. left; auto.
          - rewrite upd_same. intros i' E'. injection E' as <-. auto.
          - intros _ w' _. rewrite upd_same. discriminate. }
        eapply IH; [exact X|simpl in *; lia].
    + pose proof (push_fold (nch (net s)) Q V Hnd) as (B & EP & HB1 & HB2 & HB3). rewrite EP.
      eapply (IH i (Q ++ B) (rev B ++ V) (s :: D) P); [|simpl in *; lia].
      eapply tinv_step; eauto.
      * unfold followed. rewrite EK. auto.
      * rewrite HPs. discriminate.
      * intros _ w' E. congruence.
    + assert (X : tinv2 (Q ++ []) (rev [] ++ V) (s :: D) P).
      { eapply tinv_step; eauto.
        - intros d [].
        - unfold followed. rewrite EK. intros d [].
        - rewrite HPs. discriminate.
        - intros _ w' E. congruence. }
      rewrite app_nil_r in X. simpl in X. eapply IH; [exact X|simpl in *; lia].
Qed.

Lemma traceLoop_final : exists P, traceLoop net rnd look (2 * N + 1) 0 [r] [r] (fun _ => None) = Ok P /\
    (forall u j, P u = Some j -> reach ch r u /\ attains_at net N I u j) /\
    (tree ch r -> forall u w, reach (followed net P) r u -> nk (net u) = KSum w -> P u <> None).
Proof.
  apply (traceLoop_ok (2 * N + 1) 0 [r] [r] []); [|simpl; lia]. constructor; try (intros u c []; fail); try (intros u [<-|[]]; apply reach_refl); try (left; auto; fail).
  - constructor; auto. constructor.
  - apply Permutation_refl.
  - intros u [<-|[]]; auto.
  - discriminate.
  - intros _ u w [].
Qed.
End Second.

Lemma storeMAP_l (net : network XR) N r I tk (st : storer xreal) ops rnd :
  run_state (ustep xreal (Fin 0)) (newStorer xreal) ops = Some st ->
  bounded (children net) N -> r < N -> acyclic (children net) -> siblings_ok (children net) ->
  leaves_childless net -> nch (net r) <> [] -> weights_nonneg net r -> leaves_answer net I r ->
  ((0 <= tk)%Z -> snd (table xreal st tk) = true) ->
  (forall i n, 0 < n -> rnd i n < n) ->
  exists st' tk' M sel, storeMAP net rnd (2 * N + 1) r I tk st = Ok (st', (Some r, tk', Some M)) /\
    tk' = (if (tk <? 0)%Z then tickets xreal st else tk) /\
    (forall u, reach (children net) r u ->
       exists v, max_ net N I u = Ok v /\ sSingle xreal (Fin 0) st' tk' u = (v, true)) /\
    (forall k x l, k <> tk' -> sEntry xreal (Fin 0) st' k x l = sEntry xreal (Fin 0) st k x l) /\
    maximal_tree net N I r sel /\ union_of_leaves net I r sel M.
Proof.
  intros Hst Hb Hr Ha Hs HL Hne HW HA Htk Hrnd.
  destruct (@storeMAP_first XR net N r I tk st ops rnd Hst Hb Hr Ha Hs HL Hne Htk) as [[E _]|(st' & tk' & look & E & E1 & E2 & E3 & _)].
  - exfalso. destruct (M_all net N r Hb Hr Ha HW I HA r (reach_refl _ _)) as (E' & _). congruence.
  - destruct (mapLoop_final net N r Hb Hr Ha HW I HA look (fun u Hu => proj1 (E2 u Hu)) rnd Hrnd) as (M & sel & EM & H1 & H2).
    exists st', tk', M, sel. rewrite EM in E. split; auto. split; auto. split; [|split; auto].
    intros u Hu. exists (look u). apply E2; auto.
Qed.

Lemma traceMAP_l (net : network XR) N r I rnd :
  bounded (children net) N -> r < N -> acyclic (children net) -> siblings_ok (children net) ->
  leaves_childless net -> weights_nonneg net r -> leaves_answer net I r ->
  (forall i n, 0 < n -> rnd i n < n) ->
  exists P, traceMAP net rnd (2 * N + 1) r I = Ok P /\
    (forall u j, P u = Some j -> reach (children net) r u /\ attains_at net N I u j) /\
    (tree (children net) r -> forall u w, reach (followed net P) r u -> nk (net u) = KSum w -> P u <> None).
Proof.
  intros Hb Hr Ha Hs HL HW HA Hrnd.
  destruct (traceMAP_first net N r I rnd Hb Hr Ha Hs HL) as [[E _]|(look & E & E2)].
  - exfalso. destruct (M_all net N r Hb Hr Ha HW I HA r (reach_refl _ _)) as (E' & _). congruence.
  - rewrite E. apply traceLoop_final; auto.
Qed.
