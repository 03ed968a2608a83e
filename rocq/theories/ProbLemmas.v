From Coq Require Import Reals Lra Classical_Prop FunctionalExtensionality.
From Verif Require Import Base Res Arith LogMath LogSpec LogLemmas GraphSpec GraphLemmas Topo TopoLemmas
  Spn DP SpnSpec SpnLemmas Leaves ProbSpec.
Local Open Scope R_scope.

(** Induction from the leaves. *)
Lemma node_ind ch N r (Q : nat -> Prop) : bounded ch N -> (r < N)%nat -> acyclic ch ->
  (forall u, reach ch r u -> (forall c, In c (ch u) -> Q c) -> Q u) ->
  forall u, reach ch r u -> Q u.
Proof.
  intros Hb Hr Ha Hstep.
  destruct (tarjanRec_full ch N r Hb Hr) as (l & _ & _ & (Hn & He) & _ & Ho).
  destruct (Ho Ha) as [Hd _].
  assert (X : forall a b, l = a ++ b -> forall u, In u a -> Q u).
  { intros a. induction a as [|x a IH] using rev_ind; intros b E u Hu; [destruct Hu|].
    rewrite <- app_assoc in E. simpl in E.
    apply in_app_or in Hu as [Hu|[<-|[]]]; [eapply IH; eauto|].
    apply Hstep. { apply He. rewrite E. apply in_or_app. right. left. auto. }
    intros c Hc. apply (IH (x :: b)); auto. eapply Hd; eauto. }
  intros u Hu. apply (X l []); [rewrite app_nil_r; auto|apply He; auto].
Qed.

(** The same, counting fuel. *)
Lemma fuel_ind ch N r (Q : nat -> nat -> Prop) : bounded ch N -> (r < N)%nat -> acyclic ch ->
  (forall f u, reach ch r u -> (forall c, In c (ch u) -> Q f c) -> Q (S f) u) ->
  forall f u, reach ch r u -> (N <= f)%nat -> Q f u.
Proof.
  intros Hb Hr Ha Hstep.
  destruct (tarjanRec_full ch N r Hb Hr) as (l & _ & _ & (Hn & He) & _ & Ho).
  destruct (Ho Ha) as [Hd _].
  assert (HL : (length l <= N)%nat).
  { apply nodup_bound; auto. intros x Hx. eapply SpnLemmas.reach_bounded; eauto. apply He; auto. }
  assert (X : forall f a b, l = a ++ b -> (length a <= f)%nat -> forall u, In u a -> Q f u).
  { induction f as [|f IHf].
    { intros [|x a] b _ HL0 u Hu; [destruct Hu|simpl in HL0; lia]. }
    intros a. induction a as [|x a IH] using rev_ind; intros b E Hl u Hu; [destruct Hu|].
    rewrite <- app_assoc in E. simpl in E. rewrite app_length in Hl. simpl in Hl.
    apply in_app_or in Hu as [Hu|[<-|[]]]; [eapply IH; eauto; lia|].
    apply Hstep. { apply He. rewrite E. apply in_or_app. right. left. auto. }
    intros c Hc. apply (IHf a (x :: b)); auto; [lia|]. eapply Hd; eauto. }
  intros f u Hu Hf. apply (X f l []); [rewrite app_nil_r; auto|lia|apply He; auto].
Qed.

(** Index loops as loops over pairs. *)
Lemma mapi_zip {X W B} (f : nat -> X -> res B) (g : X -> W -> B) (w0 : list W) :
  forall l w pre, w0 = pre ++ w -> length w = length l ->
  (forall i c wi, In c l -> nth_error w0 i = Some wi -> f i c = Ok (g c wi)) ->
  mapi_from (length pre) f l = Ok (map (fun cw => g (fst cw) (snd cw)) (combine l w)).
Proof.
  induction l as [|c l IH]; intros w pre E HL H; simpl; auto.
  destruct w as [|wi w]; [discriminate|]. simpl.
  assert (E0 : nth_error w0 (length pre) = Some wi).
  { rewrite E. rewrite nth_error_app2 by lia. rewrite Nat.sub_diag. auto. }
  rewrite (H _ c wi (or_introl eq_refl) E0). cbn [bind].
  replace (S (length pre)) with (length (pre ++ [wi])) by (rewrite app_length; simpl; lia).
  rewrite (IH w); auto; [rewrite <- app_assoc; auto|intros; apply H; auto; right; auto].
Qed.

Lemma foldi_zip {X W S} (f : nat -> S -> X -> res S) (g : S -> X -> W -> S) (w0 : list W) :
  forall l w pre s, w0 = pre ++ w -> length w = length l ->
  (forall i s c wi, In c l -> nth_error w0 i = Some wi -> f i s c = Ok (g s c wi)) ->
  foldi_from (length pre) f l s = Ok (fold_left (fun s cw => g s (fst cw) (snd cw)) (combine l w) s).
Proof.
  induction l as [|c l IH]; intros w pre s E HL H; simpl; auto.
  destruct w as [|wi w]; [discriminate|]. simpl.
  assert (E0 : nth_error w0 (length pre) = Some wi).
  { rewrite E. rewrite nth_error_app2 by lia. rewrite Nat.sub_diag. auto. }
  rewrite (H _ s c wi (or_introl eq_refl) E0). cbn [bind].
  replace (length pre + 1)%nat with (length (pre ++ [wi])) by (rewrite app_length; simpl; lia).
  rewrite (IH w); auto; [rewrite <- app_assoc; auto|intros; apply H; auto; right; auto].
Qed.

Lemma mapi_map {X B} (f : nat -> X -> res B) (g : X -> B) : forall l i,
  (forall i c, In c l -> f i c = Ok (g c)) -> mapi_from i f l = Ok (map g l).
Proof.
  induction l as [|c l IH]; intros i H; simpl; auto. rewrite H by (left; auto). simpl.
  rewrite IH; auto. intros; apply H; right; auto.
Qed.

Lemma foldi_fold {X S} (f : nat -> S -> X -> res S) (g : S -> X -> S) : forall l i s,
  (forall i s c, In c l -> f i s c = Ok (g s c)) -> foldi_from i f l s = Ok (fold_left g l s).
Proof.
  induction l as [|c l IH]; intros i s H; simpl; auto. rewrite H by (left; auto). simpl.
  apply IH. intros; apply H; right; auto.
Qed.

Lemma combine_map_r {X Y Z} (f : Y -> Z) (l : list X) w :
  combine l (map f w) = map (fun p => (fst p, f (snd p))) (combine l w).
Proof. revert w. induction l as [|x l IH]; intros [|y w]; simpl; auto. rewrite IH. auto. Qed.

(** Evaluation of a network in any arithmetic: the maximum version. *)
Section Gen.
Context {A : arith}.
Local Notation F := (F A).
Variable net : network A.
Local Notation ch := (children net).

Definition evM (I : varset) (look : nat -> res F) (u : nat) : res F :=
  match nk (net u) with
  | KSum w =>
      foldi (fun i m c => wi <- idx w i; v <- look c;
                          let cv := fadd (flog wi) v in
                          Ok (if fgt cv m then cv else m)) (nch (net u)) fninf
  | KProd => foldi (fun _ v c => cv <- look c; Ok (fadd v cv)) (nch (net u)) (fz 0)
  | KLeaf l => orPanic (lmax l I)
  end.

Lemma max_val f I u : max_ net f I u = val F (evM I) f u.
Proof.
  revert u. induction f as [|f IH]; intros u; simpl; auto. unfold evM.
  destruct (nk (net u)) as [w| |l]; auto.
  - unfold foldi. erewrite foldi_from_ext; [reflexivity|]. intros j s c _. simpl. rewrite IH. auto.
  - unfold foldi. erewrite foldi_from_ext; [reflexivity|]. intros j s c _. simpl. rewrite IH. auto.
Qed.

Lemma evM_ext I u l1 l2 : (forall c, In c (ch u) -> l1 c = l2 c) -> evM I l1 u = evM I l2 u.
Proof.
  unfold children, evM. intros H. destruct (nk (net u)) as [w| |l]; auto; unfold foldi;
  (erewrite foldi_from_ext; [reflexivity|]); intros j s c Hc; simpl; rewrite H; auto.
Qed.

Lemma evM_nofuel I u look : (forall c, In c (ch u) -> look c <> Fuel) -> evM I look u <> Fuel.
Proof.
  unfold children, evM. intros H. destruct (nk (net u)) as [w| |l].
  - apply foldi_from_nofuel. intros j s c Hc. apply bind_nofuel; [apply idx_nofuel|].
    intros wi. apply bind_nofuel; auto. discriminate.
  - apply foldi_from_nofuel. intros j s c Hc. apply bind_nofuel; auto. discriminate.
  - apply orPanic_nofuel.
Qed.

Lemma evM_panic I u look c : leaves_childless net -> (forall c, In c (ch u) -> look c <> Fuel) ->
  In c (ch u) -> look c = Panic -> evM I look u = Panic.
Proof.
  unfold children, evM. intros HL H Hc HP. destruct (nk (net u)) as [w| |l] eqn:E.
  - unfold foldi. eapply foldi_from_panic; [|exact Hc|].
    + intros j s d Hd. apply bind_nofuel; [apply idx_nofuel|].
      intros wi. apply bind_nofuel; auto. discriminate.
    + intros j s. rewrite HP. unfold idx. destruct (nth_error w j); reflexivity.
  - unfold foldi. eapply foldi_from_panic; [|exact Hc|].
    + intros j s d Hd. apply bind_nofuel; auto. discriminate.
    + intros j s. rewrite HP. reflexivity.
  - rewrite (HL _ _ E) in Hc. destruct Hc.
Qed.

Lemma max_stable N r I : bounded ch N -> (r < N)%nat -> acyclic ch ->
  forall u f, reach ch r u -> (N <= f)%nat ->
  max_ net f I u = max_ net N I u /\ max_ net f I u <> Fuel /\
  max_ net f I u = evM I (max_ net f I) u.
Proof.
  intros Hb Hr Ha u f Hu Hf.
  destruct (tarjanRec_full ch N r Hb Hr) as (l & _ & _ & (Hn & He) & _ & Ho).
  destruct (Ho Ha) as [Hd _].
  assert (HL : (length l <= N)%nat).
  { apply nodup_bound; auto. intros x Hx. eapply SpnLemmas.reach_bounded; eauto. apply He; auto. }
  rewrite !max_val.
  assert (X : forall c, max_ net f I c = val F (evM I) f c) by (intros; apply max_val).
  rewrite (evM_ext I u _ (val F (evM I) f)) by auto.
  pose proof (val_total F ch (evM I) (fun _ => True) (evM_ext I)
                (fun u l _ => evM_nofuel I u l) l Hd (fun _ _ => Logic.I) u f (proj2 (He u) Hu) ltac:(lia)) as [T1 T2].
  split; [|split]; auto.
  apply (val_more F ch (evM I) (fun _ => True) (evM_ext I)
                (fun u l _ => evM_nofuel I u l) l Hd); auto; try lia. apply He; auto.
Qed.
End Gen.

(** Sums of sums. *)
Lemma Rsum_const0 {X} (l : list X) : Rsum (map (fun _ => 0) l) = 0.
Proof. induction l; simpl; lra. Qed.
Lemma Rsum_plus {X} (f g : X -> R) l : Rsum (map (fun x => f x + g x) l) = Rsum (map f l) + Rsum (map g l).
Proof. induction l; simpl; [lra|]. rewrite IHl. lra. Qed.
Lemma Rsum_swap {X Y} (f : X -> Y -> R) l m :
  Rsum (map (fun x => Rsum (map (f x) m)) l) = Rsum (map (fun y => Rsum (map (fun x => f x y) l)) m).
Proof.
  induction l as [|x l IH]; simpl.
  - rewrite Rsum_const0. auto.
  - rewrite IH. rewrite <- Rsum_plus. auto.
Qed.
Lemma Rsum_scal_l {X} c (f : X -> R) l : Rsum (map (fun x => c * f x) l) = c * Rsum (map f l).
Proof. induction l; simpl; [lra|]. rewrite IHl. lra. Qed.

Lemma Rprod_pos l : (forall x, In x l -> 0 < x) -> 0 < Rprod l.
Proof.
  induction l as [|x l IH]; simpl; intros H; [lra|].
  apply Rmult_lt_0_compat; auto.
Qed.
Lemma Rprod_pos_inv l : (forall x, In x l -> 0 <= x) -> 0 < Rprod l -> forall x, In x l -> 0 < x.
Proof.
  induction l as [|y l IH]; simpl; intros H HP x Hx; [destruct Hx|].
  pose proof (H y (or_introl eq_refl)) as Hy.
  assert (Hl : 0 <= Rprod l) by (apply Rprod_nonneg; auto).
  assert (0 < y) by (destruct (Rle_lt_or_eq_dec _ _ Hy) as [|E]; auto; rewrite <- E in HP; lra).
  assert (0 < Rprod l) by (destruct (Rle_lt_or_eq_dec _ _ Hl) as [|E]; auto; rewrite <- E in HP; lra).
  destruct Hx as [<-|Hx]; auto.
Qed.
Lemma Rprod_le {X} (f g : X -> R) l : (forall x, In x l -> 0 <= f x <= g x) ->
  0 <= Rprod (map f l) <= Rprod (map g l).
Proof.
  induction l as [|x l IH]; simpl; intros H; [lra|].
  pose proof (H x (or_introl eq_refl)). specialize (IH ltac:(intros; apply H; auto)).
  split; [apply Rmult_le_pos; lra|apply Rmult_le_compat; lra].
Qed.
Lemma Rprod_ext {X} (f g : X -> R) l : (forall x, In x l -> f x = g x) -> Rprod (map f l) = Rprod (map g l).
Proof.
  induction l as [|x l IH]; simpl; intros H; auto. rewrite (H x (or_introl eq_refl)).
  rewrite IH; auto.
Qed.
Lemma Rprod_ones {X} (f : X -> R) l : (forall x, In x l -> f x = 1) -> Rprod (map f l) = 1.
Proof. induction l as [|x l IH]; simpl; intros H; auto. rewrite H, IH; auto. lra. Qed.

(** Discrete leaves. *)
Definition pleaf (l : leaf XR) (I : varset) : R :=
  match lvalue l I with Some x => lin x | None => 0 end.
Definition mleaf (l : leaf XR) (I : varset) : R :=
  match lmax l I with Some x => lin x | None => 0 end.

Definition dleaf (card : Z -> nat) (l : leaf XR) (x : Z) : Prop :=
  multinomial_leaf card l x \/ indicator_leaf card l x.

Lemma dleaf_sc card l x : dleaf card l x -> lsc l = [x].
Proof. intros [(ps & mi & -> & _)|(v & -> & _)]; reflexivity. Qed.

Lemma prAt_ok (ps : list R) v : (0 <= v < Z.of_nat (length ps))%Z ->
  @prAt XR (map Fin ps) v = Some (Fin (nth (Z.to_nat v) ps 0)).
Proof.
  intros H. unfold prAt. destruct (Z.ltb_spec v 0); [lia|].
  rewrite nth_error_map. erewrite nth_error_nth' by lia. reflexivity.
Qed.

Lemma nth_range (ps : list R) n : (n < length ps)%nat -> In (nth n ps 0) ps.
Proof. apply nth_In. Qed.

Lemma Rsum_elem_le1 ps p : (forall x, In x ps -> 0 <= x) -> Rsum ps = 1 -> In p ps -> p <= 1.
Proof. intros H E Hp. rewrite <- E. apply Rsum_ge_elem; auto. Qed.

Lemma dleaf_value card l x I : dleaf card l x -> evidence_ok card I ->
  lvalue l I = Some (xln (pleaf l I)) /\ lmax l I = Some (xln (mleaf l I)) /\
  0 <= mleaf l I <= pleaf l I /\ pleaf l I <= 1 /\ (I x = None -> pleaf l I = 1).
Proof.
  intros HD HI. unfold pleaf, mleaf.
  destruct HD as [(ps & mi & -> & HL & Hp & Hs & Hm & Hmax)|(v & -> & Hv)].
  - unfold multiLeaf, lvalue, lmax, multiValue, multiMax. simpl m_varid.
    cbn [m_varid m_pr m_modev].
    destruct (I x) as [v|] eqn:E.
    + pose proof (HI x v E) as Hv. rewrite <- HL in Hv. rewrite prAt_ok by auto.
      cbn [option_map]. change (@flog XR) with xlog.
      assert (Hin : In (nth (Z.to_nat v) ps 0) ps) by (apply nth_In; lia).
      rewrite xlog_nonneg by auto. rewrite lin_xln by auto.
      pose proof (Rsum_elem_le1 ps _ Hp Hs Hin). pose proof (Hp _ Hin).
      repeat split; auto; try lra. discriminate.
    + change (@flog XR) with xlog. change (@fz XR 0) with (Fin 0).
      assert (Hin : In (nth mi ps 0) ps) by (apply nth_In; lia).
      rewrite xlog_nonneg by auto. rewrite <- xln_one. rewrite !lin_xln by (auto; lra).
      pose proof (Rsum_elem_le1 ps _ Hp Hs Hin). pose proof (Hp _ Hin).
      repeat split; auto; lra.
  - unfold indLeaf, lvalue, lmax, indValue. change (@fz XR 0) with (Fin 0). change (@fninf XR) with NInf.
    destruct (I x) as [u|].
    + destruct (u =? Z.of_nat v)%Z.
      * rewrite <- xln_one, lin_xln by lra. repeat split; auto; lra.
      * simpl lin. rewrite xln_zero. repeat split; auto; try lra. discriminate.
    + rewrite <- xln_one, lin_xln by lra. repeat split; auto; lra.
Qed.

Lemma dleaf_local card l x I J : dleaf card l x -> I x = J x ->
  lvalue l I = lvalue l J /\ lmax l I = lmax l J.
Proof.
  intros [(ps & mi & -> & _)|(v & -> & Hv)] E.
  - unfold multiLeaf, lvalue, lmax, multiValue, multiMax. cbn [m_varid]. rewrite E. auto.
  - unfold indLeaf, lvalue, lmax, indValue. rewrite E. auto.
Qed.

Lemma map_nth_seq {X} (l : list X) d : map (fun i => nth i l d) (seq 0 (length l)) = l.
Proof.
  apply nth_ext with (d := d) (d' := d); [rewrite map_length, seq_length; auto|].
  intros n Hn. rewrite map_length, seq_length in Hn.
  rewrite nth_indep with (d' := nth 0 l d) by (rewrite map_length, seq_length; auto).
  rewrite (map_nth (fun i => nth i l d)). rewrite seq_nth by auto. auto.
Qed.

Definition setv (I : varset) (x : Z) (v : nat) : varset :=
  fun k => if (k =? x)%Z then Some (Z.of_nat v) else I k.

Lemma setv_ok card I x v : evidence_ok card I -> (v < card x)%nat -> evidence_ok card (setv I x v).
Proof.
  intros HI Hv y u. unfold setv. destruct (Z.eqb_spec y x) as [->|]; [|apply HI].
  intros E; injection E as <-. lia.
Qed.

Lemma Rsum_indicator v n s : (s <= v < s + n)%nat ->
  Rsum (map (fun i => if Nat.eqb i v then 1 else 0) (seq s n)) = 1.
Proof.
  revert s. induction n as [|n IH]; intros s H; [lia|]. simpl.
  destruct (Nat.eqb_spec s v) as [->|Hn].
  - replace (Rsum _) with 0; [lra|]. symmetry. apply eq_trans with (2 := Rsum_const0 (seq (S v) n)).
    apply Rsum_ext. intros i Hi. apply in_seq in Hi. destruct (Nat.eqb_spec i v); auto; lia.
  - rewrite IH by lia. lra.
Qed.

Lemma dleaf_sum card l x I : dleaf card l x -> evidence_ok card I ->
  Rsum (map (fun v => pleaf l (setv I x v)) (seq 0 (card x))) = 1.
Proof.
  intros HD HI. unfold pleaf. destruct HD as [(ps & mi & -> & HL & Hp & Hs & Hm & Hmax)|(v & -> & Hv)].
  - rewrite <- HL. rewrite <- Hs. f_equal. rewrite <- (map_nth_seq ps 0) at 2.
    apply map_ext_in. intros v Hv. apply in_seq in Hv.
    unfold multiLeaf, lvalue, multiValue, setv. cbn [m_varid m_pr]. rewrite Z.eqb_refl.
    rewrite prAt_ok by lia. cbn [option_map]. change (@flog XR) with xlog.
    rewrite Nat2Z.id. rewrite xlog_nonneg by (apply Hp, nth_In; lia). rewrite lin_xln by (apply Hp, nth_In; lia). auto.
  - rewrite <- (Rsum_indicator v (card x) 0) by lia. apply Rsum_ext. intros i Hi.
    unfold indLeaf, lvalue, indValue, setv. rewrite Z.eqb_refl.
    destruct (Nat.eqb_spec i v) as [->|Hn].
    + rewrite Z.eqb_refl. change (@fz XR 0) with (Fin 0). rewrite <- xln_one. apply lin_xln; lra.
    + destruct (Z.eqb_spec (Z.of_nat i) (Z.of_nat v)); [lia|]. reflexivity.
Qed.

Definition MX (net : network XR) (N : nat) (I : varset) (u : nat) : R :=
  match max_ net N I u with Ok x => lin x | _ => 0 end.
Definition P (net : network XR) (N : nat) (I : varset) (u : nat) : R :=
  match value net N I u with Ok x => lin x | _ => 0 end.

(** The linear-space value of a node from those of its children. *)
Definition psum (p : nat -> R) (ch : list nat) (ws : list R) : R :=
  Rsum (map (fun cw => p (fst cw) * snd cw) (combine ch ws)).
Definition pmax (p : nat -> R) (ch : list nat) (ws : list R) : R :=
  Rmaxl (map (fun cw => snd cw * p (fst cw)) (combine ch ws)) 0.

Lemma in_combine_wt {W} (cs : list nat) (ws : list W) c w : In (c, w) (combine cs ws) -> In c cs /\ In w ws.
Proof. intros H. split; [eapply in_combine_l|eapply in_combine_r]; eauto. Qed.

Section MaxGen.
Variable net : network XR.
Variables N r : nat.
Local Notation ch := (children net).
Local Notation MX := (MX net N).
Hypothesis Hb : bounded ch N.
Hypothesis Hr : (r < N)%nat.
Hypothesis Ha : acyclic ch.
Hypothesis HW : weights_nonneg net r.

Lemma M_gen I : (forall u l, reach ch r u -> nk (net u) = KLeaf l -> exists m, lmax l I = Some m /\ logval m) ->
  forall u, reach ch r u ->
  max_ net N I u = Ok (xln (MX I u)) /\ 0 <= MX I u /\
  match nk (net u) with
  | KSum w => forall ws, w = map Fin ws -> MX I u = pmax (MX I) (nch (net u)) ws
  | KProd => MX I u = Rprod (map (MX I) (nch (net u)))
  | KLeaf l => MX I u = mleaf l I
  end.
Proof.
  intros HI. apply (node_ind ch N r); auto. intros u Hu IH.
  destruct (max_stable net N r I Hb Hr Ha u N Hu (le_n N)) as (_ & _ & E).
  assert (X : exists p, max_ net N I u = Ok (xln p) /\ 0 <= p /\
    match nk (net u) with
    | KSum w => forall ws, w = map Fin ws -> p = pmax (MX I) (nch (net u)) ws
    | KProd => p = Rprod (map (MX I) (nch (net u)))
    | KLeaf l => p = mleaf l I
    end).
  { rewrite E. unfold evM. destruct (nk (net u)) as [w| |l] eqn:EK.
    - destruct (HW u w Hu EK) as (Hne & ws & -> & HLen & Hnn).
      assert (Hpos : forall x, In x (map (fun cw => snd cw * MX I (fst cw)) (combine (nch (net u)) ws)) -> 0 <= x).
      { intros x Hx. apply in_map_iff in Hx as ((c & w) & <- & Hin). simpl.
        apply in_combine_wt in Hin as [H1 H2]. apply Rmult_le_pos; auto. apply IH; auto. }
      exists (pmax (MX I) (nch (net u)) ws). split; [|split].
      + unfold foldi.
        rewrite (foldi_zip _ (fun m c wi => let cv := xadd (@flog XR wi) (xln (MX I c)) in
                                            if xgt cv m then cv else m) (map Fin ws) _ (map Fin ws) []);
          [|reflexivity|rewrite map_length; auto|].
        * f_equal. rewrite combine_map_r. change (@fninf XR) with NInf. rewrite <- xln_zero.
          unfold pmax. rewrite <- fold_max_xln by (auto; lra).
          assert (Hsub : forall cw, In cw (combine (nch (net u)) ws) -> In (fst cw) (nch (net u)) /\ In (snd cw) ws)
            by (intros (c & w) Hin; apply in_combine_wt in Hin; auto).
          revert Hsub. generalize (combine (nch (net u)) ws) as L. generalize (xln 0) as a.
          intros a L. revert a. induction L as [|(c, w) L IHL]; intros a Hsub; auto.
          cbn [map fold_left fst snd].
          destruct (Hsub (c, w) (or_introl eq_refl)) as [H1 H2]. cbn [fst snd] in H1, H2.
          change (@flog XR) with xlog. rewrite (xlog_nonneg w) by auto.
          rewrite (xadd_xln w (MX I c)) by (auto; apply IH; auto).
          apply IHL. intros cw Hin. apply Hsub. right; auto.
        * intros i s c wi Hc Hw. unfold idx. rewrite Hw. cbn [bind]. destruct (IH c Hc) as (-> & _). reflexivity.
      + unfold pmax. destruct (Rmaxl_spec (map (fun cw => snd cw * MX I (fst cw)) (combine (nch (net u)) ws)) 0) as (H1 & _). auto.
      + intros ws' Hws. assert (ws' = ws); [|subst; auto].
        clear - Hws. revert ws' Hws. induction ws as [|a ws IH]; intros [|b ws'] H; try discriminate; auto.
        injection H as -> H. f_equal. auto.
    - exists (Rprod (map (MX I) (nch (net u)))).
      assert (Hpos : forall x, In x (map (MX I) (nch (net u))) -> 0 <= x).
      { intros x Hx. apply in_map_iff in Hx as (c & <- & Hc). apply IH; auto. }
      split; [|split; auto; apply Rprod_nonneg; auto].
      unfold foldi. rewrite (foldi_fold _ (fun v c => xadd v (xln (MX I c)))).
      2:{ intros i s c Hc. destruct (IH c Hc) as (-> & _). reflexivity. }
      f_equal. change (@fz XR 0) with (Fin 0). rewrite <- xln_one.
      rewrite <- (Rmult_1_l (Rprod _)), <- fold_xadd_xln by (auto; lra).
      rewrite map_map. generalize (nch (net u)) as L. generalize (xln 1) as a.
      intros a L. revert a. induction L as [|c L IHL]; intros a; auto. cbn [map fold_left]. apply IHL.
    - destruct (HI u l Hu EK) as (m & E1 & Hm). rewrite E1. simpl.
      exists (mleaf l I). unfold mleaf. rewrite E1. split; [rewrite xln_lin; auto|]. split; auto. apply lin_nonneg. }
  destruct X as (p & Ep & Hp & Hloc). assert (EP : MX I u = p) by (unfold MX; rewrite Ep; apply lin_xln; auto).
  rewrite EP. auto.
Qed.

Local Notation P := (P net N).
Lemma P_gen I : (forall u l, reach ch r u -> nk (net u) = KLeaf l -> exists m, lvalue l I = Some m /\ logval m) ->
  forall u, reach ch r u ->
  value net N I u = Ok (xln (P I u)) /\ 0 <= P I u /\
  match nk (net u) with
  | KSum w => forall ws, w = map Fin ws -> P I u = psum (P I) (nch (net u)) ws
  | KProd => P I u = Rprod (map (P I) (nch (net u)))
  | KLeaf l => P I u = pleaf l I
  end.
Proof.
  intros HI. apply (node_ind ch N r); auto. intros u Hu IH.
  destruct (value_stable net N r I Hb Hr Ha u N Hu (le_n N)) as (_ & _ & E).
  assert (X : exists p, value net N I u = Ok (xln p) /\ 0 <= p /\
    match nk (net u) with
    | KSum w => forall ws, w = map Fin ws -> p = psum (P I) (nch (net u)) ws
    | KProd => p = Rprod (map (P I) (nch (net u)))
    | KLeaf l => p = pleaf l I
    end).
  { rewrite E. unfold evV. destruct (nk (net u)) as [w| |l] eqn:EK.
    - destruct (HW u w Hu EK) as (Hne & ws & -> & HLen & Hnn).
      assert (Hpos : forall x, In x (map (fun cw => P I (fst cw) * snd cw) (combine (nch (net u)) ws)) -> 0 <= x).
      { intros x Hx. apply in_map_iff in Hx as ((c & w) & <- & Hin). simpl.
        apply in_combine_wt in Hin as [H1 H2]. apply Rmult_le_pos; auto. apply IH; auto. }
      exists (psum (P I) (nch (net u)) ws). split; [|split].
      + unfold sumVals, mapi.
        rewrite (mapi_zip _ (fun c wi => xadd (xln (P I c)) (@flog XR wi)) (map Fin ws) _ (map Fin ws) []);
          [|reflexivity|rewrite map_length; auto|].
        * cbn [bind]. rewrite combine_map_r, map_map. cbn [fst snd].
          rewrite (map_ext_in _ (fun cw => xln (P I (fst cw) * snd cw))).
          2:{ intros (c & w) Hin. apply in_combine_wt in Hin as [H1 H2]. cbn [fst snd].
              change (@flog XR) with xlog. rewrite xlog_nonneg by auto. apply xadd_xln; auto. apply IH; auto. }
          rewrite <- (map_map (fun cw => P I (fst cw) * snd cw) xln).
          unfold sumCompute. rewrite logSumExp_xln; auto.
          destruct (nch (net u)) as [|c cs]; [congruence|]. destruct ws; discriminate.
        * intros i c wi Hc Hw. destruct (IH c Hc) as (-> & _). cbn [bind]. unfold idx. rewrite Hw. reflexivity.
      + apply Rsum_nonneg; auto.
      + intros ws' Hws. assert (ws' = ws); [|subst; auto].
        clear - Hws. revert ws' Hws. induction ws as [|a ws IH]; intros [|b ws'] H; try discriminate; auto.
        injection H as -> H. f_equal. auto.
    - exists (Rprod (map (P I) (nch (net u)))).
      assert (Hpos : forall x, In x (map (P I) (nch (net u))) -> 0 <= x).
      { intros x Hx. apply in_map_iff in Hx as (c & <- & Hc). apply IH; auto. }
      split; [|split; auto; apply Rprod_nonneg; auto].
      unfold mapi. rewrite (mapi_map _ (fun c => xln (P I c))) by (intros i c Hc; apply IH; auto).
      cbn [bind]. unfold prodCompute. change (@fadd XR) with xadd. change (@fz XR 0) with (Fin 0).
      rewrite <- xln_one, <- (map_map (P I) xln), fold_xadd_xln; auto; [|lra]. rewrite Rmult_1_l. auto.
    - destruct (HI u l Hu EK) as (m & E1 & Hm). rewrite E1. simpl.
      exists (pleaf l I). unfold pleaf. rewrite E1. split; [rewrite xln_lin; auto|]. split; auto. apply lin_nonneg. }
  destruct X as (p & Ep & Hp & Hloc). assert (EP : P I u = p) by (unfold P; rewrite Ep; apply lin_xln; auto).
  rewrite EP. auto.
Qed.

End MaxGen.

Section Net.
Variable net : network XR.
Variable card : Z -> nat.
Variables N r : nat.
Local Notation ch := (children net).
Hypothesis Hb : bounded ch N.
Hypothesis Hr : (r < N)%nat.
Hypothesis Ha : acyclic ch.
Hypothesis HW : weights_nonneg net r.
Hypothesis HL : discrete_leaves net card r.
Local Notation P := (P net N).
Local Notation MX := (MX net N).

Lemma P_spec I : evidence_ok card I -> forall u, reach ch r u ->
  value net N I u = Ok (xln (P I u)) /\ 0 <= P I u /\
  match nk (net u) with
  | KSum w => forall ws, w = map Fin ws -> P I u = psum (P I) (nch (net u)) ws
  | KProd => P I u = Rprod (map (P I) (nch (net u)))
  | KLeaf l => P I u = pleaf l I
  end.
Proof.
  intros HI. apply P_gen; auto. intros u l Hu EK. destruct (HL u l Hu EK) as (_ & x & HD).
  destruct (dleaf_value card l x I HD HI) as (E1 & _ & E2 & _). rewrite E1.
  eexists. split; [reflexivity|]. apply logval_xln.
Qed.

Lemma P_nonneg I u : evidence_ok card I -> reach ch r u -> 0 <= P I u.
Proof. intros HI Hu. apply P_spec; auto. Qed.

Lemma M_spec I : evidence_ok card I -> forall u, reach ch r u ->
  max_ net N I u = Ok (xln (MX I u)) /\ 0 <= MX I u /\
  match nk (net u) with
  | KSum w => forall ws, w = map Fin ws -> MX I u = pmax (MX I) (nch (net u)) ws
  | KProd => MX I u = Rprod (map (MX I) (nch (net u)))
  | KLeaf l => MX I u = mleaf l I
  end.
Proof.
  intros HI. apply M_gen; auto. intros u l Hu EK. destruct (HL u l Hu EK) as (_ & x & HD).
  destruct (dleaf_value card l x I HD HI) as (_ & E1 & E2 & _). rewrite E1.
  eexists. split; [reflexivity|]. apply logval_xln.
Qed.

Lemma scope_child u c x : In c (nch (net u)) -> in_scope net c x -> in_scope net u x.
Proof.
  intros Hc (v & l & H1 & H2 & H3). exists v, l. split; auto. eapply reach_step; eauto.
Qed.

Lemma scope_inv u x : in_scope net u x -> (forall l, nk (net u) <> KLeaf l) ->
  exists c, In c (nch (net u)) /\ in_scope net c x.
Proof.
  intros (v & l & H1 & H2 & H3) Hk. apply reach_inv in H1 as [<-|(c & Hc & H1)].
  - exfalso. eapply Hk; eauto.
  - exists c. split; auto. exists v, l. auto.
Qed.

Lemma scope_leaf u l x y : reach ch r u -> nk (net u) = KLeaf l -> dleaf card l x ->
  (in_scope net u y <-> y = x).
Proof.
  intros Hu EK HD. split.
  - intros (v & l' & H1 & H2 & H3). destruct (HL u l Hu EK) as (E0 & _).
    apply reach_inv in H1 as [<-|(c & Hc & _)].
    + rewrite EK in H2. injection H2 as <-. rewrite (dleaf_sc _ _ _ HD) in H3. destruct H3 as [->|[]]; auto.
    + unfold children in Hc. rewrite E0 in Hc. destruct Hc.
  - intros ->. exists u, l. split; [apply reach_refl|]. split; auto. rewrite (dleaf_sc _ _ _ HD). left; auto.
Qed.

(** The value only depends on the variables in scope. *)
Lemma P_local I J : evidence_ok card I -> evidence_ok card J -> forall u, reach ch r u ->
  (forall x, in_scope net u x -> I x = J x) -> P I u = P J u.
Proof.
  intros HI HJ. apply (node_ind ch N r (fun u => (forall x, in_scope net u x -> I x = J x) -> P I u = P J u)); auto.
  intros u Hu IH HE.
  destruct (P_spec I HI u Hu) as (_ & _ & E1). destruct (P_spec J HJ u Hu) as (_ & _ & E2).
  assert (IH' : forall c, In c (nch (net u)) -> P I c = P J c).
  { intros c Hc. apply IH; auto. intros x Hx. apply HE. eapply scope_child; eauto. }
  destruct (nk (net u)) as [w| |l] eqn:EK.
  - destruct (HW u w Hu EK) as (_ & ws & -> & _). rewrite (E1 ws), (E2 ws) by auto. unfold psum.
    apply Rsum_ext. intros (c & w) Hin. apply in_combine_wt in Hin as [Hc _]. simpl. rewrite IH'; auto.
  - rewrite E1, E2. apply Rprod_ext. auto.
  - rewrite E1, E2. destruct (HL u l Hu EK) as (_ & x & HD). unfold pleaf.
    destruct (dleaf_local card l x I J HD) as [-> _]; auto. apply HE.
    apply (scope_leaf u l x x Hu EK HD). auto.
Qed.

Lemma P_setv_out I x v u : evidence_ok card I -> (v < card x)%nat -> reach ch r u ->
  ~ in_scope net u x -> P (setv I x v) u = P I u.
Proof.
  intros HI Hv Hu Hx. apply P_local; auto. { apply setv_ok; auto. }
  intros y Hy. unfold setv. destruct (Z.eqb_spec y x) as [->|]; auto. contradiction.
Qed.

Hypothesis HC : complete net r.
Hypothesis HD : decomposable net r.

Lemma only_child u x c i : reach ch r u -> nk (net u) = KProd -> nth_error (nch (net u)) i = Some c ->
  in_scope net c x -> forall j c', nth_error (nch (net u)) j = Some c' -> j <> i -> ~ in_scope net c' x.
Proof. intros Hu EK Hi Hx j c' Hj Hn. eapply (HD u i j c c'); eauto. Qed.

Lemma P_sum_var I x : evidence_ok card I -> I x = None -> forall u, reach ch r u -> in_scope net u x ->
  P I u = Rsum (map (fun v => P (setv I x v) u) (seq 0 (card x))).
Proof.
  intros HI HX. apply (node_ind ch N r (fun u => in_scope net u x -> P I u = Rsum (map (fun v => P (setv I x v) u) (seq 0 (card x))))); auto.
  intros u Hu IH Hs.
  destruct (P_spec I HI u Hu) as (_ & _ & E1).
  assert (E2 : forall v, (v < card x)%nat ->
    match nk (net u) with
    | KSum w => forall ws, w = map Fin ws -> P (setv I x v) u = psum (P (setv I x v)) (nch (net u)) ws
    | KProd => P (setv I x v) u = Rprod (map (P (setv I x v)) (nch (net u)))
    | KLeaf l => P (setv I x v) u = pleaf l (setv I x v)
    end). { intros v Hv. apply P_spec; auto. apply setv_ok; auto. }
  destruct (nk (net u)) as [w| |l] eqn:EK.
  - destruct (HW u w Hu EK) as (_ & ws & -> & _). rewrite (E1 ws) by auto.
    destruct (scope_inv u x Hs) as (c0 & Hc0 & Hx0); [intros l; congruence|].
    rewrite (Rsum_ext _ (fun v => psum (P (setv I x v)) (nch (net u)) ws)).
    2:{ intros v Hv. apply in_seq in Hv. apply E2; auto. lia. }
    unfold psum. rewrite Rsum_swap. apply Rsum_ext. intros (c & w) Hin. apply in_combine_wt in Hin as [Hc _].
    simpl fst. simpl snd. rewrite (IH c Hc) by (eapply (HC u _ c0 c); eauto).
    rewrite Rmult_comm, <- Rsum_scal_l. apply Rsum_ext. intros; lra.
  - rewrite E1. rewrite (Rsum_ext _ (fun v => Rprod (map (P (setv I x v)) (nch (net u))))).
    2:{ intros v Hv. apply in_seq in Hv. apply E2; auto. lia. }
    destruct (scope_inv u x Hs) as (c0 & Hc0 & Hx0); [intros l; congruence|].
    apply in_split in Hc0 as (a & b & Eab).
    assert (Hi : nth_error (nch (net u)) (length a) = Some c0).
    { rewrite Eab, nth_error_app2, Nat.sub_diag by lia. auto. }
    assert (Ha' : forall c, In c a -> ~ in_scope net c x).
    { intros c Hc. apply In_nth_error in Hc as (j & Hj).
      assert (j < length a)%nat by (apply nth_error_Some; congruence).
      apply (only_child u x c0 (length a) Hu EK Hi Hx0 j c); [|lia].
      rewrite Eab, nth_error_app1 by auto. auto. }
    assert (Hb' : forall c, In c b -> ~ in_scope net c x).
    { intros c Hc. apply In_nth_error in Hc as (j & Hj).
      apply (only_child u x c0 (length a) Hu EK Hi Hx0 (length a + S j)%nat c); [|lia].
      rewrite Eab, nth_error_app2 by lia. replace (length a + S j - length a)%nat with (S j) by lia. auto. }
    assert (Hrc : forall c, In c (nch (net u)) -> reach ch r c).
    { intros c Hc. eapply reach_snoc; eauto. }
    rewrite Eab in Hrc. rewrite Eab. rewrite map_app, Rprod_app. simpl.
    rewrite (IH c0) by (auto; unfold children; rewrite Eab; apply in_or_app; right; left; auto).
    rewrite (Rsum_ext (fun v => Rprod (map (P (setv I x v)) (a ++ c0 :: b))) (fun v => (Rprod (map (P I) a) * Rprod (map (P I) b)) * P (setv I x v) c0)).
    2:{ intros v Hv. apply in_seq in Hv. rewrite map_app, Rprod_app. simpl.
        rewrite (Rprod_ext (P (setv I x v)) (P I) a), (Rprod_ext (P (setv I x v)) (P I) b); [lra| |].
        - intros c Hc. apply P_setv_out; auto; [lia|]. apply Hrc. apply in_or_app. right; right; auto.
        - intros c Hc. apply P_setv_out; auto; [lia|]. apply Hrc. apply in_or_app. left; auto. }
    rewrite Rsum_scal_l. lra.
  - rewrite E1. destruct (HL u l Hu EK) as (_ & y & Hd).
    assert (x = y) as <- by (apply (scope_leaf u l y x Hu EK Hd); auto).
    destruct (dleaf_value card l x I Hd HI) as (_ & _ & _ & _ & E). rewrite E by auto.
    rewrite <- (dleaf_sum card l x I Hd HI). apply Rsum_ext. intros v Hv. apply in_seq in Hv.
    symmetry. apply E2. lia.
Qed.

Lemma P_sum_over xs : NoDup xs -> forall I, evidence_ok card I -> (forall x, In x xs -> in_scope net r x /\ I x = None) ->
  P I r = sum_over card xs (fun I => P I r) I.
Proof.
  induction 1 as [|x xs Hx Hn IH]; intros I HI H; simpl; auto.
  destruct (H x (or_introl eq_refl)) as [Hs HX].
  rewrite (P_sum_var I x HI HX r) by (auto; apply reach_refl).
  apply Rsum_ext. intros v Hv. apply in_seq in Hv. apply IH.
  - apply setv_ok; auto. lia.
  - intros y Hy. destruct (H y (or_intror Hy)) as [H1 H2]. split; auto. unfold setv.
    destruct (Z.eqb_spec y x) as [->|]; auto. contradiction.
Qed.

End Net.

Section Norm.
Variable net : network XR.
Variable card : Z -> nat.
Variables N r : nat.
Local Notation ch := (children net).
Hypothesis Hb : bounded ch N.
Hypothesis Hr : (r < N)%nat.
Hypothesis Ha : acyclic ch.
Hypothesis HW : weights_nonneg net r.
Hypothesis HL : discrete_leaves net card r.
Hypothesis HN : weights_normalised net r.
Local Notation P := (P net N).
Local Notation MX := (MX net N).

Lemma combine_snd {X Y} (l : list X) (w : list Y) : length w = length l -> map snd (combine l w) = w.
Proof. revert w. induction l as [|x l IH]; intros [|y w] H; simpl in *; try discriminate; auto. f_equal; auto. Qed.

Lemma P_one I : evidence_ok card I -> forall u, reach ch r u -> (forall x, in_scope net u x -> I x = None) ->
  P I u = 1.
Proof.
  intros HI. apply (node_ind ch N r (fun u => (forall x, in_scope net u x -> I x = None) -> P I u = 1)); auto.
  intros u Hu IH H.
  destruct (P_spec net card N r Hb Hr Ha HW HL I HI u Hu) as (_ & _ & E1).
  assert (IH' : forall c, In c (nch (net u)) -> P I c = 1).
  { intros c Hc. apply IH; auto. intros x Hx. apply H. eapply scope_child; eauto. }
  destruct (nk (net u)) as [w| |l] eqn:EK.
  - destruct (HW u w Hu EK) as (_ & ws & -> & HLen & _). rewrite (E1 ws) by auto.
    rewrite <- (HN u ws Hu EK). unfold psum. rewrite <- (combine_snd (nch (net u)) ws) at 2 by auto.
    apply Rsum_ext. intros (c & w) Hin. apply in_combine_wt in Hin as [Hc _]. simpl. rewrite IH'; auto. lra.
  - rewrite E1. apply Rprod_ones; auto.
  - rewrite E1. destruct (HL u l Hu EK) as (_ & x & Hd).
    destruct (dleaf_value card l x I Hd HI) as (_ & _ & _ & _ & E). apply E. apply H.
    apply (scope_leaf net card r HL u l x x Hu EK Hd). auto.
Qed.

Lemma P_le_one I : evidence_ok card I -> forall u, reach ch r u -> P I u <= 1.
Proof.
  intros HI. apply (node_ind ch N r); auto. intros u Hu IH.
  destruct (P_spec net card N r Hb Hr Ha HW HL I HI u Hu) as (_ & _ & E1).
  assert (Hrc : forall c, In c (nch (net u)) -> 0 <= P I c).
  { intros c Hc. apply (P_spec net card N r Hb Hr Ha HW HL); auto. eapply reach_snoc; eauto. }
  destruct (nk (net u)) as [w| |l] eqn:EK.
  - destruct (HW u w Hu EK) as (_ & ws & -> & HLen & Hnn). rewrite (E1 ws) by auto.
    rewrite <- (HN u ws Hu EK). unfold psum. rewrite <- (combine_snd (nch (net u)) ws) at 2 by auto.
    apply Rsum_le. intros (c & w) Hin. apply in_combine_wt in Hin as [Hc Hw]. simpl.
    specialize (IH c Hc). specialize (Hnn w Hw). rewrite <- (Rmult_1_l w) at 2.
    apply Rmult_le_compat_r; auto.
  - rewrite E1. rewrite <- (Rprod_ones (fun _ : nat => 1) (nch (net u))) by auto.
    apply Rprod_le. intros c Hc. split; auto.
  - rewrite E1. destruct (HL u l Hu EK) as (_ & x & Hd).
    destruct (dleaf_value card l x I Hd HI) as (_ & _ & _ & E & _). auto.
Qed.
End Norm.

Section MaxLe.
Variable net : network XR.
Variable card : Z -> nat.
Variables N r : nat.
Local Notation ch := (children net).
Hypothesis Hb : bounded ch N.
Hypothesis Hr : (r < N)%nat.
Hypothesis Ha : acyclic ch.
Hypothesis HW : weights_nonneg net r.
Hypothesis HL : discrete_leaves net card r.
Local Notation P := (P net N).
Local Notation MX := (MX net N).

Lemma M_le_P I : evidence_ok card I -> forall u, reach ch r u -> MX I u <= P I u.
Proof.
  intros HI. apply (node_ind ch N r); auto. intros u Hu IH.
  destruct (P_spec net card N r Hb Hr Ha HW HL I HI u Hu) as (_ & HP & E1).
  destruct (M_spec net card N r Hb Hr Ha HW HL I HI u Hu) as (_ & _ & E2).
  assert (Hrc : forall c, In c (nch (net u)) -> 0 <= P I c /\ 0 <= MX I c).
  { intros c Hc. split; [apply (P_spec net card N r Hb Hr Ha HW HL)|apply (M_spec net card N r Hb Hr Ha HW HL)];
    auto; eapply reach_snoc; eauto. }
  destruct (nk (net u)) as [w| |l] eqn:EK.
  - destruct (HW u w Hu EK) as (_ & ws & -> & HLen & Hnn). rewrite (E1 ws) in * by auto. rewrite (E2 ws) by auto.
    unfold pmax. destruct (Rmaxl_spec (map (fun cw => snd cw * MX I (fst cw)) (combine (nch (net u)) ws)) 0) as (_ & _ & [->|Hin]); auto.
    apply in_map_iff in Hin as ((c & w) & <- & Hin). pose proof Hin as Hin'. apply in_combine_wt in Hin' as [Hc Hw].
    simpl. apply Rle_trans with (P I c * w).
    + rewrite Rmult_comm. apply Rmult_le_compat_r; auto.
    + unfold psum. apply Rsum_ge_elem.
      * intros y Hy. apply in_map_iff in Hy as ((c' & w') & <- & Hin'). apply in_combine_wt in Hin' as [Hc' Hw']. simpl.
        apply Rmult_le_pos; auto. apply Hrc; auto.
      * apply in_map_iff. exists (c, w). auto.
  - rewrite E1, E2. apply Rprod_le. intros c Hc. split; auto. apply Hrc; auto.
  - rewrite E1, E2. destruct (HL u l Hu EK) as (_ & x & Hd).
    destruct (dleaf_value card l x I Hd HI) as (_ & _ & E & _). lra.
Qed.
End MaxLe.
