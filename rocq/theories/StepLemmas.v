From Coq Require Import Reals Lra FunctionalExtensionality.
From Verif Require Import Base Res Arith LogMath LogSpec LogLemmas GraphSpec GraphLemmas Topo TopoLemmas Search SearchLemmas
  Storer StorerSpec StorerLemmas Spn DP SpnSpec SpnLemmas ProbSpec ProbLemmas Walk WalkLemmas Struct StructSpec StructLemmas
  Derive DeriveSpec DiffLemmas DeriveLemmas GradLemmas.

Lemma Zofnat_neq i j : i <> j -> Z.of_nat i <> Z.of_nat j.
Proof. lia. Qed.

(** Writing one entry per child of a sum node. *)
Section Write.
Context {A : arith}.
Local Notation F := (F A).
Variable net : network A.
Local Notation ch := (children net).
Variables (k : Z) (t : nat) (base : storer F).
Hypothesis Ht : tables F base k = Some t.

Definition winv (st : storer F) : Prop :=
  wf F st /\ tables F st = tables F base /\ tickets F st = tickets F base /\
  forall k' x l, k' <> k -> cval F st k' x l = cval F base k' x l.

Lemma storeAt_ok st u i v : winv st -> exists st', storeAt st (Some t) u i v = Ok st' /\ winv st' /\
  cval F st' k u i = Some v /\ forall x l, (x <> u \/ l <> i) -> cval F st' k x l = cval F st k x l.
Proof.
  intros (W & E & E2 & Ho). unfold storeAt.
  destruct (tstore_ok F st k t u i v W) as (st' & -> & W' & E' & E2' & Hv & Hoth); [rewrite E; auto|].
  exists st'. split; auto. split; [|split; auto].
  - split; auto. split; [congruence|]. split; [congruence|]. intros k' x l Hd.
    rewrite Hoth; auto. intros (-> & _). auto.
  - intros x l Hx. apply Hoth. intros (_ & -> & ->). destruct Hx; auto.
Qed.

(** [g i c old] is the value written at position [i] for child [c]. *)
Variable g : nat -> nat -> option F -> F.

Lemma write_children (f : nat -> storer F -> nat -> res (storer F)) u : forall cs i st, winv st ->
  (forall j c st, nth_error cs j = Some c -> winv st ->
     f (i + j) st c = storeAt st (Some t) u (Z.of_nat (i + j)) (g (i + j) c (cval F st k u (Z.of_nat (i + j))))) ->
  exists st', foldi_from i f cs st = Ok st' /\ winv st' /\
    (forall j c, nth_error cs j = Some c -> cval F st' k u (Z.of_nat (i + j)) = Some (g (i + j) c (cval F st k u (Z.of_nat (i + j))))) /\
    (forall x l, (x <> u \/ (forall j, j < length cs -> l <> Z.of_nat (i + j))) -> cval F st' k x l = cval F st k x l).
Proof.
  induction cs as [|c cs IH]; intros i st HI Hf.
  - exists st. split; auto. split; auto. split; auto. intros [|j] c H; discriminate.
  - cbn [foldi_from]. rewrite ?Nat.add_1_r. pose proof (Hf 0 c st eq_refl HI) as E0. rewrite !Nat.add_0_r in E0. rewrite E0.
    destruct (storeAt_ok st u (Z.of_nat i) (g i c (cval F st k u (Z.of_nat i))) HI) as (s1 & -> & HI1 & Hs & Ho). cbn [bind].
    destruct (IH (S i) s1 HI1) as (s2 & E2 & HI2 & Hv2 & Ho2).
    { intros j c' st' Hj HI'. replace (S i + j) with (i + S j) by lia. apply Hf; auto. }
    exists s2. split; auto. split; auto. split.
    + intros [|j] c' Hj.
      * injection Hj as <-. rewrite Nat.add_0_r. rewrite Ho2; auto. right. intros j Hj. apply Zofnat_neq. lia.
      * replace (i + S j) with (S i + j) by lia. rewrite (Hv2 j c' Hj). rewrite Ho; auto. right. apply Zofnat_neq. lia.
    + intros x l Hx. rewrite Ho2.
      * apply Ho. destruct Hx as [Hx|Hx]; auto. right. rewrite <- (Nat.add_0_r i). apply Hx. simpl; lia.
      * destruct Hx as [Hx|Hx]; auto. right. intros j Hj. replace (S i + j) with (i + S j) by lia. apply Hx. simpl; lia.
Qed.

Definition sumPos (u : nat) (l : Z) : Prop := (exists w, nk (net u) = KSum w) /\ exists i, i < length (nch (net u)) /\ l = Z.of_nat i.

Lemma write_calls (proc : storer F -> nat -> res (storer F)) (h : nat -> nat -> nat -> option F -> F) calls : NoDup calls ->
  (forall u st, winv st -> exists st', proc st u = Ok st' /\ winv st' /\
     (forall w i c, nk (net u) = KSum w -> nth_error (nch (net u)) i = Some c ->
        cval F st' k u (Z.of_nat i) = Some (h u i c (cval F st k u (Z.of_nat i)))) /\
     (forall x l, (x <> u \/ ~ sumPos u l) -> cval F st' k x l = cval F st k x l)) ->
  wf F base ->
  exists st', foldr_ proc calls base = Ok st' /\ winv st' /\
    (forall u w i c, In u calls -> nk (net u) = KSum w -> nth_error (nch (net u)) i = Some c ->
       cval F st' k u (Z.of_nat i) = Some (h u i c (cval F base k u (Z.of_nat i)))) /\
    (forall x l, (~ In x calls \/ ~ sumPos x l) -> cval F st' k x l = cval F base k x l).
Proof.
  intros Hn Hp Hwf.
  destruct (foldr_inv proc (fun a st' => winv st' /\
    (forall u w i c, In u a -> nk (net u) = KSum w -> nth_error (nch (net u)) i = Some c ->
       cval F st' k u (Z.of_nat i) = Some (h u i c (cval F base k u (Z.of_nat i)))) /\
    (forall x l, (~ In x a \/ ~ sumPos x l) -> cval F st' k x l = cval F base k x l)) calls base) as (s & E & H).
  - split; [split; auto|]. split; auto. intros u w i c [].
  - intros a u b s E (HI & Hv & Ho). destruct (Hp u s HI) as (s' & E' & HI' & Hv' & Ho').
    assert (Hna : ~ In u a).
    { rewrite E in Hn. intros Hin. apply NoDup_remove_2 in Hn. apply Hn. apply in_or_app; auto. }
    exists s'. split; auto. split; auto. split.
    + intros x w i c Hx Hk Hc. apply in_app_or in Hx as [Hx|[<-|[]]].
      * rewrite Ho' by (left; intros ->; contradiction). eauto.
      * rewrite (Hv' w i c Hk Hc), Ho; auto.
    + intros x l Hx. rewrite Ho'.
      * apply Ho. destruct Hx as [Hx|Hx]; auto. left. intros Hin. apply Hx. apply in_or_app; auto.
      * destruct (Nat.eq_dec x u) as [->|]; auto. destruct Hx as [Hx|Hx]; auto.
        exfalso. apply Hx. apply in_or_app; right; left; auto.
  - eauto.
Qed.
End Write.

(** C28 *)
Section Weights.
Context {A : arith}.
Local Notation F := (F A).
Variable net : network A.
Local Notation ch := (children net).
Local Notation single := (fun st k u => fst (sSingle F (fz 0) st k u)).

(** A sum node reachable from [r] is visited. *)
Lemma sum_visited r u w : leaves_childless net -> reach ch r u -> nk (net u) = KSum w -> reach (inner net) r u.
Proof.
  intros HL Hu E. destruct (reach_inner_parent net r HL u Hu) as [H|(H & _)]; auto. unfold isLeaf in H. rewrite E in H. discriminate.
Qed.

Lemma weights_gen (batch : bool) (comb := fun (v : F) (o : option F) => match o with Some dw => if batch then logSumExpPair v dw else v | None => v end)
    N r d (st : storer F) ops tk dtk itk (tk' := if (tk <? 0)%Z then tickets F st else tk) :
  run_state (ustep F (fz 0)) (newStorer F) ops = Some st ->
  bounded ch N -> r < N -> leaves_childless net ->
  ((0 <= tk)%Z -> snd (table F st tk) = true) -> dtk <> tk' -> itk <> tk' ->
  exists st', (if batch then deriveWeightsBatch net d (S N) r st tk dtk itk else deriveWeights net d (S N) r st tk dtk itk) = Ok (st', (r, tk')) /\
    (forall u w i c, reach ch r u -> nk (net u) = KSum w -> nth_error (nch (net u)) i = Some c ->
       sEntry F (fz 0) st' tk' u (Z.of_nat i) =
         (comb (fadd (single st itk c) (single st dtk u))
            (if (tk <? 0)%Z then None else if snd (sEntry F (fz 0) st tk u (Z.of_nat i)) then Some (fst (sEntry F (fz 0) st tk u (Z.of_nat i))) else None), true)) /\
    (forall k x l, k <> tk' -> sEntry F (fz 0) st' k x l = sEntry F (fz 0) st k x l) /\
    (forall x l, (0 <= tk)%Z -> (~ reach ch r x \/ ~ sumPos net x l) -> sEntry F (fz 0) st' tk' x l = sEntry F (fz 0) st tk' x l).
Proof.
  intros Hst Hb Hr HL Htk Hd Hi.
  pose proof (wf_run F (fz 0) ops _ _ (wf_new F) Hst) as W.
  pose proof (ticketFor_ok st tk W Htk) as HT. fold tk' in HT.
  unfold deriveWeights, deriveWeightsBatch. destruct (ticketFor st tk) as [st1 tk1]. destruct HT as (W1 & -> & (t & Et) & Ho & Hnew).
  unfold table. rewrite Et. cbn [fst].
  destruct (walk_fold (inner net) d N r (inner_bounded net N Hb) Hr) as (calls & _ & (Hn & He) & Hfold).
  set (h := fun (u i c : nat) (o : option F) => comb (fadd (single st itk c) (single st dtk u)) o).
  assert (Hrd : forall k0 s x, winv tk' st1 s -> k0 <> tk' -> fst (tSingle F (fz 0) s (tables F st1 k0) x) = single st k0 x).
  { intros k0 s x (_ & Etab & _ & Hc) Hk. unfold tSingle. rewrite <- Etab, tEntry_handle. unfold sSingle.
    rewrite !sEntry_cval, Hc, Ho by auto. auto. }
  set (proc := if batch then batchNode net (Some t) (tables F st1 dtk) (tables F st1 itk)
               else weightNode net (Some t) (tables F st1 dtk) (tables F st1 itk)).
  assert (Hproc : forall u s, winv tk' st1 s -> exists st', proc s u = Ok st' /\ winv tk' st1 st' /\
     (forall w i c, nk (net u) = KSum w -> nth_error (nch (net u)) i = Some c ->
        cval F st' tk' u (Z.of_nat i) = Some (h u i c (cval F s tk' u (Z.of_nat i)))) /\
     (forall x l, (x <> u \/ ~ sumPos net u l) -> cval F st' tk' x l = cval F s tk' x l)).
  { intros u s HI. destruct (nk (net u)) as [w| |lf] eqn:EK.
    - assert (X : exists f, proc s u = foldi f (nch (net u)) s /\ (forall j c s0, winv tk' st1 s0 ->
         f j s0 c = storeAt s0 (Some t) u (Z.of_nat j) (h u j c (cval F s0 tk' u (Z.of_nat j))))).
      { unfold proc, weightNode, batchNode. destruct batch; rewrite EK; eexists; (split; [reflexivity|]); intros j c s0 HI0; cbv beta;
          rewrite (Hrd itk s0 c HI0 Hi), (Hrd dtk s u HI Hd); unfold h, comb.
        - rewrite (tEntry_cval F (fz 0) s0 tk' t u (Z.of_nat j)) by (destruct HI0 as (_ & E0 & _); rewrite E0; auto).
          destruct (cval F s0 tk' u (Z.of_nat j)); reflexivity.
        - destruct (cval F s0 tk' u (Z.of_nat j)); reflexivity. }
      destruct X as (f & -> & Hf).
      destruct (write_children tk' t st1 Et (h u) f u (nch (net u)) 0 s HI) as (s' & E' & HI' & Hv & Ho').
      { intros j c s0 _ HI0. apply Hf; auto. }
      exists s'. split; auto. split; auto. split.
      + intros w0 i c _ Hc. apply (Hv i c Hc).
      + intros x l Hx. apply Ho'. destruct Hx as [Hx|Hx]; auto. right. intros j Hj El. apply Hx. split; eauto.
    - exists s. split; [unfold proc, weightNode, batchNode; destruct batch; rewrite EK; auto|]. split; auto. split; auto. intros w i c E; discriminate.
    - exists s. split; [unfold proc, weightNode, batchNode; destruct batch; rewrite EK; auto|]. split; auto. split; auto. intros w i c E; discriminate. }
  destruct (write_calls net tk' st1 proc h calls Hn Hproc W1) as (s' & Es & (W' & _ & _ & Hoth) & Hv & Hrest).
  exists s'. split.
  { unfold proc in Es. destruct batch; rewrite Hfold, Es; reflexivity. }
  split; [|split].
  - intros u w i c Hu EK Hc. rewrite sEntry_cval, (Hv u w i c); auto.
    + f_equal. unfold h. f_equal. destruct (Z.ltb_spec tk 0) as [Hlt|Hge].
      * apply Hnew; auto.
      * assert (Ek : tk' = tk) by (unfold tk'; destruct (Z.ltb_spec tk 0); lia). rewrite Ek in *. rewrite Ho by auto.
        rewrite sEntry_cval. destruct (cval F st tk u (Z.of_nat i)); reflexivity.
    + apply He. eapply sum_visited; eauto.
  - intros k0 x l Hk. rewrite !sEntry_cval, Hoth, Ho; auto.
  - intros x l Hz Hx. rewrite !sEntry_cval. rewrite Hrest.
    + rewrite Ho by auto. auto.
    + destruct Hx as [Hx|Hx]; auto. left. intros Hin. apply Hx. apply inner_reach. apply He. auto.
Qed.
End Weights.

(** C28 over the reals *)
Lemma deriveWeights_real (net : network XR) N r I d (st : storer xreal) ops tk dtk itk (tk' := if (tk <? 0)%Z then tickets xreal st else tk) :
  run_state (ustep xreal (Fin 0)) (newStorer xreal) ops = Some st ->
  bounded (children net) N -> r < N -> acyclic (children net) -> leaves_childless net ->
  weights_nonneg net r -> leaf_values net I r ->
  ((0 <= tk)%Z -> snd (table xreal st tk) = true) -> dtk <> tk' -> itk <> tk' ->
  (forall u, reach (children net) r u -> exists v, value net N I u = Ok v /\ sSingle xreal (Fin 0) st itk u = (v, true)) ->
  (forall u, reach (children net) r u -> exists D, (0 <= D)%R /\ sSingle xreal (Fin 0) st dtk u = (xln D, true) /\ node_derivative net I N r u D) ->
  exists st', @deriveWeights XR net d (S N) r st tk dtk itk = Ok (st', (r, tk')) /\
    (forall u ws i w, reach (children net) r u -> nk (net u) = @KSum XR (map Fin ws) -> nth_error ws i = Some w ->
       exists D, (0 <= D)%R /\ sEntry xreal (Fin 0) st' tk' u (Z.of_nat i) = (xln D, true) /\ weight_derivative net I N r u i w D).
Proof.
  intros Hst Hb Hr Ha HL HW HV Htk Hd Hi Hinf Hder.
  destruct (@weights_gen XR net false N r d st ops tk dtk itk Hst Hb Hr HL Htk Hd Hi) as (st' & E & Hv & _ & _).
  exists st'. split; auto. intros u ws i w Hu EK Hw.
  destruct (HW u _ Hu EK) as (_ & ws' & Ews & HLen & _). apply map_inj_Fin in Ews. subst ws'.
  assert (Hc : exists c, nth_error (nch (net u)) i = Some c).
  { destruct (nth_error (nch (net u)) i) eqn:En; eauto. apply nth_error_None in En.
    assert (i < length ws) by (apply nth_error_Some; congruence). lia. }
  destruct Hc as (c & Hc). assert (Hcr : reach (children net) r c) by (eapply reach_snoc; eauto; eapply nth_error_In; eauto).
  destruct (Hder u Hu) as (D & HD0 & HD1 & HD2). destruct (Hinf c Hcr) as (v & Ev & Es).
  destruct (P_gen net N r Hb Hr Ha HW I HV c Hcr) as (Ev' & HP & _). rewrite Ev' in Ev. injection Ev as <-.
  exists (P net N I c * D)%R. split; [apply Rmult_le_pos; auto|]. split.
  - pose proof (Hv u (map Fin ws) i c Hu EK Hc) as H. change (F XR) with xreal in H. change (@fz XR 0) with (Fin 0) in H. 
    etransitivity; [exact H|]. f_equal. rewrite HD1, Es. cbn [fst]. change (@fadd XR) with xadd.
    rewrite xadd_xln by auto. destruct (tk <? 0)%Z; auto. match goal with |- match (if ?b then _ else _) with Some _ => _ | None => _ end = _ => destruct b end; auto.
  - eapply weight_derivative_l; eauto.
Qed.

(** C29 *)
Section Apply.
Context {A : arith}.
Local Notation F := (F A).

(** A node update that only touches the weights of sum nodes, independently of the other nodes. *)
Definition newWeights (step : nat -> list F -> list F) (net : network A) (u : nat) : node A :=
  match nk (net u) with KSum w => mkNode (KSum (step u w)) (nch (net u)) | _ => net u end.

Lemma apply_gen (net : network A) N r d proc (step : nat -> list F -> list F) :
  bounded (children net) N -> r < N -> leaves_childless net ->
  (forall net' u, reach (children net) r u -> net' u = net u -> proc net' u = Ok (match nk (net u) with
      | KSum w => setWeights net' u (step u w) | _ => net' end)) ->
  exists net', walkFrom (inner net) d proc (S N) r net = Ok net' /\
    (forall u, reach (children net) r u -> net' u = newWeights step net u) /\
    (forall u, (~ reach (children net) r u \/ forall w, nk (net u) <> KSum w) -> net' u = net u).
Proof.
  intros Hb Hr HL Hp.
  destruct (walk_fold (inner net) d N r (inner_bounded net N Hb) Hr) as (calls & _ & (Hn & He) & Hfold). rewrite Hfold.
  destruct (foldr_inv proc (fun a net' => (forall u, In u a -> net' u = newWeights step net u) /\
    (forall u, ~ In u a -> net' u = net u)) calls net) as (net' & E & H1 & H2).
  - split; auto. intros u [].
  - intros a u b s E (H1 & H2).
    assert (Hna : ~ In u a).
    { rewrite E in Hn. intros Hin. apply NoDup_remove_2 in Hn. apply Hn. apply in_or_app; auto. }
    assert (Hu : reach (children net) r u) by (apply inner_reach; apply He; rewrite E; apply in_or_app; right; left; auto).
    rewrite Hp by auto. eexists. split; [reflexivity|]. unfold newWeights in *. split.
    + intros x Hx. destruct (Nat.eq_dec x u) as [->|Hne].
      * destruct (nk (net u)) as [w| |] eqn:EK; auto. unfold setWeights. rewrite upd_same, H2; auto.
      * assert (Hxa : In x a) by (apply in_app_or in Hx as [Hx|[Hx|[]]]; auto; congruence).
        destruct (nk (net u)) as [w| |]; auto. unfold setWeights. rewrite upd_diff by auto. auto.
    + intros x Hx. assert (x <> u) by (intros ->; apply Hx; apply in_or_app; right; left; auto).
      assert (Hxa : ~ In x a) by (intros H0; apply Hx; apply in_or_app; auto).
      destruct (nk (net u)) as [w| |]; auto. unfold setWeights. rewrite upd_diff by auto. auto.
  - exists net'. split; auto. split.
    + intros u Hu. destruct (reach_inner_parent net r HL u Hu) as [Hi|(Hl & _)].
      * apply H1. apply He. auto.
      * destruct (in_dec Nat.eq_dec u calls) as [Hin|Hin]; auto. rewrite H2 by auto. unfold newWeights.
        unfold isLeaf in Hl. destruct (nk (net u)); auto; discriminate.
    + intros u [Hu|Hu]; [apply H2; intros Hin; apply Hu; apply inner_reach; apply He; auto|].
      destruct (in_dec Nat.eq_dec u calls) as [Hin|Hin]; auto. rewrite H1 by auto. unfold newWeights.
      destruct (nk (net u)) as [w| |] eqn:EK; auto. exfalso. eapply Hu; eauto.
Qed.

(** W[i] = f i c W[i] for every child. *)
Lemma update_loop (f : nat -> nat -> F -> F) : forall cs i pre w, length pre = i -> length w = length cs ->
  foldi_from i (fun i W c => wi <- idx W i; Ok (set_nth i (f i c wi) W)) cs (pre ++ w) =
  Ok (pre ++ map (fun p => f (fst p) (fst (snd p)) (snd (snd p))) (combine (seq i (length cs)) (combine cs w))).
Proof.
  induction cs as [|c cs IH]; intros i pre w Hp Hl.
  - destruct w; [|discriminate]. simpl. auto.
  - destruct w as [|x w]; [discriminate|]. simpl in Hl. cbn [foldi_from]. rewrite ?Nat.add_1_r. unfold idx at 1.
    rewrite nth_error_app2 by lia. rewrite Hp, Nat.sub_diag. cbn [nth_error bind].
    assert (Es : set_nth i (f i c x) (pre ++ x :: w) = (pre ++ [f i c x]) ++ w).
    { generalize (f i c x) as v. intros v. subst i. clear. induction pre as [|y pre IH]; simpl; auto. f_equal. auto. }
    rewrite Es, IH; [|rewrite app_length; simpl; lia|lia]. rewrite <- app_assoc. reflexivity.
Qed.

Lemma applyWeights_l (net : network A) N r d eta (st : storer F) dtk itk nrm :
  bounded (children net) N -> r < N -> leaves_childless net ->
  (forall u w, reach (children net) r u -> nk (net u) = KSum w -> length w = length (nch (net u))) ->
  exists net', deriveApplyWeights d (S N) r eta st dtk itk nrm net = Ok net' /\
    (forall u w, reach (children net) r u -> nk (net u) = KSum w ->
       exists W, net' u = mkNode (KSum (maybeNorm nrm W)) (nch (net u)) /\ length W = length w /\
         forall i c wi, nth_error (nch (net u)) i = Some c -> nth_error w i = Some wi ->
           nth_error W i = Some (fadd wi (fmul eta (fexp (fadd (fst (sSingle F (fz 0) st itk c)) (fst (sSingle F (fz 0) st dtk u))))))) /\
    (forall u, (~ reach (children net) r u \/ forall w, nk (net u) <> KSum w) -> net' u = net u).
Proof.
  intros Hb Hr HL Hlen. unfold deriveApplyWeights, table. cbn [fst].
  set (g := fun (u i c : nat) (wi : F) => fadd wi (fmul eta (fexp (fadd (fst (sSingle F (fz 0) st itk c)) (fst (sSingle F (fz 0) st dtk u)))))).
  set (step := fun u w => maybeNorm nrm (map (fun p => g u (fst p) (fst (snd p)) (snd (snd p)))
                 (combine (seq 0 (length (nch (net u)))) (combine (nch (net u)) w)))).
  destruct (apply_gen net N r d (applyNode eta nrm st (tables F st dtk) (tables F st itk)) step Hb Hr HL) as (net' & E & H1 & H2).
  - intros net' u Hu Eu. unfold applyNode. rewrite Eu. destruct (nk (net u)) as [w| |] eqn:EK; auto.
    pose proof (update_loop (g u) (nch (net u)) 0 [] w eq_refl (Hlen u w Hu EK)) as HU. cbn [app] in HU.
    unfold foldi. unfold tSingle. rewrite tEntry_handle.
    match goal with |- bind ?a _ = _ => replace a with (foldi_from 0 (fun i W c => wi <- idx W i; Ok (set_nth i (g u i c wi) W)) (nch (net u)) w) end.
    + rewrite HU. cbn [bind]. reflexivity.
    + apply foldi_from_ext. intros i W c _. destruct (idx W i); cbn [bind]; auto. unfold g, sSingle. rewrite tEntry_handle. reflexivity.
  - exists net'. split; auto. split.
    + intros u w Hu EK. rewrite (H1 u Hu). unfold newWeights. rewrite EK. eexists. split; [reflexivity|]. split.
      * rewrite map_length, !combine_length, seq_length, (Hlen u w Hu EK). lia.
      * intros i c wi Hc Hw. rewrite nth_error_map.
        assert (Hi : i < length (nch (net u))) by (apply nth_error_Some; congruence).
        assert (Ec : nth_error (combine (seq 0 (length (nch (net u)))) (combine (nch (net u)) w)) i = Some (i, (c, wi))).
        { assert (Gc : forall X Y (l : list X) (m : list Y) j x y, nth_error l j = Some x -> nth_error m j = Some y -> nth_error (combine l m) j = Some (x, y)).
          { clear. induction l as [|a l IH]; intros m [|j] x y Hx Hy; try discriminate; destruct m as [|b m]; try discriminate.
            - injection Hx as ->. injection Hy as ->. reflexivity.
            - simpl. apply IH; auto. }
          apply Gc; [|apply Gc; auto]. rewrite (nth_error_nth' _ 0) by (rewrite seq_length; auto). f_equal. rewrite seq_nth; auto. }
        rewrite Ec. reflexivity.
    + auto.
Qed.

Lemma mapi_steps (f : nat -> F -> F) : forall w i, mapi_from i (fun i x => Ok (f i x)) w =
  Ok (map (fun p => f (fst p) (snd p)) (combine (seq i (length w)) w)).
Proof. induction w as [|x w IH]; intros i; simpl; auto. rewrite IH. reflexivity. Qed.

Lemma nth_steps (f : nat -> F -> F) : forall w i j x, nth_error w j = Some x ->
  nth_error (map (fun p => f (fst p) (snd p)) (combine (seq i (length w)) w)) j = Some (f (i + j) x).
Proof.
  induction w as [|y w IH]; intros i j x H; [destruct j; discriminate|]. destruct j as [|j].
  - injection H as ->. simpl. rewrite Nat.add_0_r. auto.
  - simpl. rewrite (IH (S i) j x H). f_equal. f_equal. lia.
Qed.

(** dW, _ := storage.Value(s); dW[i] *)
Lemma mapAt_entry (st : storer F) k u i : mapAt st (fst (tValue F st (tables F st k) u)) i = fst (sEntry F (fz 0) st k u (Z.of_nat i)).
Proof.
  unfold mapAt, sEntry, tEntry, tValue. destruct (tables F st k) as [t|]; [|reflexivity]. cbn [fst snd].
  destruct (theap F st t u); reflexivity.
Qed.

Lemma applyGD_l (net : network A) N r d eta lambda wtk (st : storer F) nrm b :
  bounded (children net) N -> r < N -> leaves_childless net ->
  exists net', applyGD d (S N) r eta lambda wtk st nrm b net = Ok net' /\
    (forall u w, reach (children net) r u -> nk (net u) = KSum w ->
       exists W, net' u = mkNode (KSum (maybeNorm nrm W)) (nch (net u)) /\ length W = length w /\
         forall i wi, nth_error w i = Some wi ->
           nth_error W i = Some (fadd wi (fsub (fdiv (fmul eta (fexp (fst (sEntry F (fz 0) st wtk u (Z.of_nat i))))) (fz b))
                                               (fmul (fmul (fz 2) lambda) wi)))) /\
    (forall u, (~ reach (children net) r u \/ forall w, nk (net u) <> KSum w) -> net' u = net u).
Proof.
  intros Hb Hr HL. unfold applyGD, table. cbn [fst].
  set (g := fun (u i : nat) (wi : F) => stepW lambda b (fmul eta (fexp (mapAt st (fst (tValue F st (tables F st wtk) u)) i))) wi).
  set (step := fun u w => maybeNorm nrm (map (fun p => g u (fst p) (snd p)) (combine (seq 0 (length w)) w))).
  destruct (apply_gen net N r d (gdNode eta lambda nrm b st (tables F st wtk)) step Hb Hr HL) as (net' & E & H1 & H2).
  - intros net' u Hu Eu. unfold gdNode. rewrite Eu. destruct (nk (net u)) as [w| |] eqn:EK; auto.
    unfold mapi. pose proof (mapi_steps (g u) w 0) as HM. unfold g at 1 in HM. rewrite HM. cbn [bind]. reflexivity.
  - exists net'. split; auto. split; auto.
    intros u w Hu EK. rewrite (H1 u Hu). unfold newWeights. rewrite EK. eexists. split; [reflexivity|]. split.
    + rewrite map_length, combine_length, seq_length. lia.
    + intros i wi Hw. rewrite (nth_steps (g u) w 0 i wi Hw). simpl Nat.add. unfold g, stepW. rewrite mapAt_entry. reflexivity.
Qed.

(** C30 *)
Lemma applyDGD_l (net : network A) r s w z u0 (st : storer F) eta lambda nrm b :
  acyclic (children net) ->
  exists net', applyDGD 2 r s w z u0 st eta lambda nrm b net = Ok net' /\
    (forall W, nk (net r) = KSum W -> exists W', net' r = mkNode (KSum (maybeNorm nrm W')) (nch (net r)) /\ length W' = length W /\
       forall i wi, nth_error W i = Some wi ->
         nth_error W' i = Some (stepW lambda b (fmul eta (fsub
            (fexp (fsub (fst (sEntry F (fz 0) st w r (Z.of_nat i))) (fst (sEntry F (fz 0) st s r (Z.of_nat i)))))
            (fexp (fsub (fst (sEntry F (fz 0) st u0 r (Z.of_nat i))) (fst (sEntry F (fz 0) st z r (Z.of_nat i))))))) wi)) /\
    (forall x, (x <> r \/ forall W, nk (net r) <> KSum W) -> net' x = net x).
Proof.
  intros Ha. unfold applyDGD, table. cbn [fst dgdLoop].
  assert (HQ : forall cs, (forall c, In c cs -> c <> r) ->
    fold_left (fun Q c => if negb (isLeaf net c) && memn c [r] then Q ++ [c] else Q) cs [] = []).
  { induction cs as [|c cs IH]; intros Hc; auto. cbn [fold_left].
    replace (memn c [r]) with false. 2:{ symmetry. apply memn_false. intros [->|[]]. apply (Hc c); simpl; auto. }
    rewrite andb_false_r. apply IH. intros; apply Hc; right; auto. }
  assert (Hc : forall c, In c (nch (net r)) -> c <> r).
  { intros c Hin ->. eapply Ha; [exact Hin|apply reach_refl]. }
  unfold dgdNode at 1. destruct (nk (net r)) as [W| |] eqn:EK.
  - set (g := fun (i : nat) wi => stepW lambda b (fmul eta (fsub
        (fexp (fsub (mapAt st (fst (tValue F st (tables F st w) r)) i) (mapAt st (fst (tValue F st (tables F st s) r)) i)))
        (fexp (fsub (mapAt st (fst (tValue F st (tables F st u0) r)) i) (mapAt st (fst (tValue F st (tables F st z) r)) i))))) wi).
    unfold mapi. pose proof (mapi_steps g W 0) as HM. unfold g at 1 in HM. rewrite HM. cbn [bind]. rewrite (HQ _ Hc).
    eexists. split; [reflexivity|]. split.
    + intros W0 E0. injection E0 as <-. eexists. split; [unfold setWeights; rewrite upd_same; reflexivity|]. split.
      * rewrite map_length, combine_length, seq_length. lia.
      * intros i wi Hw. rewrite (nth_steps g W 0 i wi Hw). simpl Nat.add. unfold g. rewrite !mapAt_entry. reflexivity.
    + intros x [Hx|Hx]; [unfold setWeights; rewrite upd_diff; auto|]. exfalso. eapply Hx; eauto.
  - cbn [bind]. rewrite (HQ _ Hc). eexists. split; [reflexivity|]. split; auto. intros W E; discriminate.
  - cbn [bind]. rewrite (HQ _ Hc). eexists. split; [reflexivity|]. split; auto. intros W E; discriminate.
Qed.
End Apply.

(** C31 *)
Lemma pull_gen : forall Y i (I : varset) pre y, NoDup Y -> length pre = i -> length y = length Y ->
  (forall u, In u Y -> I u <> None) ->
  exists I' vs, foldi_from i (fun i (Iy : varset * list Z) u =>
     let (I, y) := Iy in _ <- idx y i; Ok (updZ I u None, set_nth i (match I u with Some v => v | None => 0%Z end) y)) Y (I, pre ++ y)
   = Ok (I', pre ++ vs) /\ length vs = length Y /\ (forall u, ~ In u Y -> I' u = I u) /\ (forall u, In u Y -> I' u = None) /\
   forall j u v, nth_error Y j = Some u -> nth_error vs j = Some v -> I u = Some v.
Proof.
  induction Y as [|u Y IH]; intros i I pre y Hn Hp Hl Hs.
  - destruct y; [|discriminate]. exists I, []. simpl. split; auto. split; auto. split; auto. split; [intros u []|]. intros [|j]; discriminate.
  - destruct y as [|a y]; [discriminate|]. inversion Hn as [|? ? Hu HnY]; subst. cbn [foldi_from]. rewrite ?Nat.add_1_r. unfold idx at 1.
    rewrite nth_error_app2, Nat.sub_diag by lia. cbn [nth_error bind].
    destruct (I u) as [v|] eqn:Ev; [|exfalso; eapply Hs; [left; auto|auto]].
    assert (Es : set_nth (length pre) v (pre ++ a :: y) = (pre ++ [v]) ++ y).
    { clear. induction pre as [|b pre IH]; simpl; auto. f_equal. auto. }
    rewrite Es. destruct (IH (S (length pre)) (updZ I u None) (pre ++ [v]) y) as (I' & vs & E & Hvl & H1 & H2 & H3); auto.
    + rewrite app_length. simpl. lia.
    + intros x Hx. rewrite updZ_diff by (intros ->; contradiction). apply Hs. right; auto.
    + exists I', (v :: vs). replace (pre ++ v :: vs) with ((pre ++ [v]) ++ vs) by (rewrite <- app_assoc; auto). split; [exact E|]. split; [simpl; lia|]. split; [|split].
      * intros x Hx. rewrite H1 by (intros H; apply Hx; right; auto). apply updZ_diff. intros ->. apply Hx; left; auto.
      * intros x [<-|Hx]; auto. rewrite H1 by auto. apply updZ_same.
      * intros [|j] x w Hx Hw; simpl in Hx, Hw; [congruence|]. specialize (H3 j x w Hx Hw).
        rewrite updZ_diff in H3; auto. intros ->. apply Hu. eapply nth_error_In; eauto.
Qed.

Lemma push_gen : forall Y i (I : varset) pre vs, NoDup Y -> length pre = i -> length vs = length Y ->
  exists I', foldi_from i (fun i I u => yi <- idx (pre ++ vs) i; Ok (updZ I u (Some yi))) Y I = Ok I' /\
   (forall u, ~ In u Y -> I' u = I u) /\ forall j u v, nth_error Y j = Some u -> nth_error vs j = Some v -> I' u = Some v.
Proof.
  induction Y as [|u Y IH]; intros i I pre vs Hn Hp Hl.
  - exists I. simpl. split; auto. split; auto. intros [|j]; discriminate.
  - destruct vs as [|a vs]; [discriminate|]. inversion Hn as [|? ? Hu HnY]; subst. cbn [foldi_from]. rewrite ?Nat.add_1_r. unfold idx at 1.
    rewrite nth_error_app2, Nat.sub_diag by lia. cbn [nth_error bind].
    destruct (IH (S (length pre)) (updZ I u (Some a)) (pre ++ [a]) vs) as (I' & E & H1 & H2); auto.
    + rewrite app_length. simpl. lia.
    + exists I'. rewrite <- app_assoc in E. split; [exact E|]. split.
      * intros x Hx. rewrite H1 by (intros H; apply Hx; right; auto). apply updZ_diff. intros ->. apply Hx; left; auto.
      * intros [|j] x w Hx Hw; simpl in Hx, Hw; [|eauto]. injection Hx as <-. injection Hw as <-. rewrite H1 by auto. apply updZ_same.
Qed.

Lemma pull_push_l (I : varset) Y y : NoDup Y -> length y = length Y -> (forall u, In u Y -> I u <> None) ->
  exists I1 y1 I2, pullValues I Y y = Ok (I1, y1) /\ pushValues I1 Y y1 = Ok I2 /\ (forall u, I2 u = I u) /\
    (forall u, In u Y -> I1 u = None) /\ (forall u, ~ In u Y -> I1 u = I u) /\
    forall j u v, nth_error Y j = Some u -> nth_error y1 j = Some v -> I u = Some v.
Proof.
  intros Hn Hl Hs. destruct (pull_gen Y 0 I [] y Hn eq_refl Hl Hs) as (I1 & vs & E & Hvl & H1 & H2 & H3).
  destruct (push_gen Y 0 I1 [] vs Hn eq_refl Hvl) as (I2 & E2 & H4 & H5).
  exists I1, vs, I2. split; [exact E|]. split; [exact E2|]. split; [|auto].
  intros u. destruct (in_dec Z.eq_dec u Y) as [Hin|Hin].
  - apply In_nth_error in Hin as (j & Hj). assert (Hv : exists v, nth_error vs j = Some v).
    { destruct (nth_error vs j) eqn:Ev; eauto. apply nth_error_None in Ev. assert (j < length Y) by (apply nth_error_Some; congruence). lia. }
    destruct Hv as (v & Hv). rewrite (H5 j u v Hj Hv). symmetry. eauto.
  - rewrite H4, H1; auto.
Qed.
