(** Real derivatives of network values, and their backward recurrence. *)
From Coq Require Import Reals Lra.
From Verif Require Import Base Res Arith LogMath LogSpec LogLemmas GraphSpec GraphLemmas Topo TopoLemmas
  Spn SpnSpec SpnLemmas ProbSpec ProbLemmas DeriveSpec.
Local Open Scope R_scope.

(** Products of all the others. *)
Fixpoint oth (l : list R) : list R :=
  match l with [] => [] | a :: t => Rprod t :: map (Rmult a) (oth t) end.

Lemma oth_length l : length (oth l) = length l.
Proof. induction l; simpl; auto. rewrite map_length. auto. Qed.

Lemma oth_nonneg l : (forall x, In x l -> 0 <= x) -> forall e, In e (oth l) -> 0 <= e.
Proof.
  induction l as [|a l IH]; simpl; intros H e He; [destruct He|]. destruct He as [<-|He].
  - apply Rprod_nonneg; auto.
  - apply in_map_iff in He as (x & <- & Hx). apply Rmult_le_pos; auto.
Qed.

Lemma deriv_sum (f : nat -> R -> R) (g : nat -> R) (t0 : R) (L : list (nat * xreal)) :
  (forall cw, In cw L -> derivable_pt_lim (f (fst cw)) t0 (g (fst cw))) ->
  derivable_pt_lim (fun t => Rsum (map (fun cw => f (fst cw) t * unfin (snd cw)) L)) t0
    (Rsum (map (fun cw => g (fst cw) * unfin (snd cw)) L)).
Proof.
  induction L as [|(c, w) L IH]; intros H; simpl.
  - apply derivable_pt_lim_const.
  - apply (derivable_pt_lim_plus (fun t => f c t * unfin w)
      (fun t => Rsum (map (fun cw => f (fst cw) t * unfin (snd cw)) L))).
    + replace (g c * unfin w) with (g c * unfin w + f c t0 * 0) by lra.
      apply (derivable_pt_lim_mult (f c) (fun _ => unfin w)); [apply (H (c, w)); left; auto|apply derivable_pt_lim_const].
    + apply IH. intros cw Hc. apply H; right; auto.
Qed.

Lemma deriv_prod (f : nat -> R -> R) (g : nat -> R) (t0 : R) (cs : list nat) :
  (forall c, In c cs -> derivable_pt_lim (f c) t0 (g c)) ->
  derivable_pt_lim (fun t => Rprod (map (fun c => f c t) cs)) t0
    (Rsum (map (fun ce => g (fst ce) * snd ce) (combine cs (oth (map (fun c => f c t0) cs))))).
Proof.
  induction cs as [|c cs IH]; intros H; simpl.
  - apply derivable_pt_lim_const.
  - replace (g c * Rprod (map (fun c0 : nat => f c0 t0) cs) +
      Rsum (map (fun ce : nat * R => g (fst ce) * snd ce)
        (combine cs (map (Rmult (f c t0)) (oth (map (fun c0 : nat => f c0 t0) cs))))))
    with (g c * Rprod (map (fun c0 => f c0 t0) cs) + f c t0 *
      Rsum (map (fun ce => g (fst ce) * snd ce) (combine cs (oth (map (fun c => f c t0) cs))))).
    + apply (derivable_pt_lim_mult (f c) (fun t => Rprod (map (fun c => f c t) cs))).
      * apply H; left; auto.
      * apply IH. intros d Hd. apply H; right; auto.
    + f_equal. rewrite combine_map_r, map_map. rewrite <- Rsum_scal_l. apply Rsum_ext.
      intros (d, e) _. simpl. lra.
Qed.

Lemma derivable_ext (f g : R -> R) x l : (forall t, f t = g t) -> derivable_pt_lim f x l -> derivable_pt_lim g x l.
Proof.
  intros H D eps He. destruct (D eps He) as (del & Hd). exists del. intros h H1 H2. rewrite <- !H. auto.
Qed.

Definition ind (a b : nat) : R := if Nat.eqb a b then 1 else 0.

Lemma Rsum_ind (X : list nat) a (g : nat -> R) : NoDup X -> In a X ->
  Rsum (map (fun c => ind a c * g c) X) = g a.
Proof.
  induction X as [|x X IH]; intros Hn Hin; [destruct Hin|]. inversion Hn; subst. simpl. unfold ind at 1.
  destruct (Nat.eqb_spec a x) as [->|Hne].
  - replace (Rsum _) with 0; [lra|]. symmetry.
    rewrite (Rsum_ext _ (fun _ => 0)); [apply Rsum_const0|]. intros y Hy. unfold ind.
    destruct (Nat.eqb_spec x y) as [->|]; [contradiction|lra].
  - destruct Hin as [->|Hin]; [congruence|]. rewrite IH; auto. lra.
Qed.

Lemma ind_sym a b : ind a b = ind b a.
Proof. unfold ind. rewrite Nat.eqb_sym. auto. Qed.

(** Forward and backward accumulation agree. *)
Lemma duality (X : list nat) (edges : nat -> list (nat * R)) (D G : nat -> R) r u :
  NoDup X -> In r X -> In u X ->
  (forall x ce, In x X -> In ce (edges x) -> In (fst ce) X) ->
  (forall x, In x X -> G x = ind x u + Rsum (map (fun ce => G (fst ce) * snd ce) (edges x))) ->
  (forall c, In c X -> D c = ind c r +
     Rsum (map (fun x => Rsum (map (fun ce => ind (fst ce) c * (D x * snd ce)) (edges x))) X)) ->
  D u = G r.
Proof.
  intros Hn Hr Hu Hcl HG HD.
  set (B := Rsum (map (fun x => Rsum (map (fun ce => D x * snd ce * G (fst ce)) (edges x))) X)).
  assert (E1 : Rsum (map (fun x => D x * G x) X) = D u + B).
  { rewrite (Rsum_ext (fun x => D x * G x)
       (fun x => ind u x * D x + Rsum (map (fun ce => D x * snd ce * G (fst ce)) (edges x)))).
    - rewrite Rsum_plus. rewrite (Rsum_ind X u D); auto.
    - intros x Hx. rewrite (HG x Hx) at 1. rewrite Rmult_plus_distr_l, <- Rsum_scal_l.
      rewrite (ind_sym x u). f_equal; [lra|]. apply Rsum_ext. intros ce _. lra. }
  assert (E2 : Rsum (map (fun x => D x * G x) X) = G r + B).
  { rewrite (Rsum_ext (fun x => D x * G x)
       (fun c => ind r c * G c + Rsum (map (fun x => Rsum (map (fun ce => ind (fst ce) c * (D x * snd ce) * G c) (edges x))) X))).
    - rewrite Rsum_plus. rewrite (Rsum_ind X r G); auto. f_equal. unfold B.
      rewrite (Rsum_swap (fun c x => Rsum (map (fun ce => ind (fst ce) c * (D x * snd ce) * G c) (edges x)))).
      apply Rsum_ext. intros x Hx.
      rewrite (Rsum_swap (fun c ce => ind (fst ce) c * (D x * snd ce) * G c)).
      apply Rsum_ext. intros ce Hce.
      rewrite (Rsum_ext (fun c => ind (fst ce) c * (D x * snd ce) * G c) (fun c => ind (fst ce) c * (D x * snd ce * G c)))
        by (intros; lra).
      apply (Rsum_ind X (fst ce) (fun c => D x * snd ce * G c)); auto. eapply Hcl; eauto.
    - intros c Hc. rewrite (HD c Hc) at 1. rewrite Rmult_plus_distr_r. rewrite (ind_sym c r). f_equal.
      rewrite Rmult_comm, <- Rsum_scal_l. apply Rsum_ext. intros x _. rewrite <- Rsum_scal_l. apply Rsum_ext.
      intros ce _. lra. }
  lra.
Qed.

Section Net.
Variable net : network XR.
Variables N r : nat.
Variable I : varset.
Local Notation ch := (children net).
Hypothesis Hb : bounded ch N.
Hypothesis Hr : (r < N)%nat.
Hypothesis Ha : acyclic ch.
Hypothesis HW : weights_nonneg net r.
Hypothesis HV : leaf_values net I r.
Hypothesis HL : leaves_childless net.
Local Notation P := (P net N I).

Definition edges (x : nat) : list (nat * R) :=
  match nk (net x) with
  | KSum w => combine (nch (net x)) (map unfin w)
  | KProd => combine (nch (net x)) (oth (map P (nch (net x))))
  | KLeaf _ => []
  end.

Lemma edges_fst x : reach ch r x -> map fst (edges x) = ch x.
Proof.
  intros Hx. unfold edges, children. destruct (nk (net x)) as [w| |l] eqn:E.
  - destruct (HW x w Hx E) as (_ & ws & -> & HLen & _).
    rewrite map_map. simpl. rewrite map_id. clear - HLen. revert ws HLen.
    induction (nch (net x)) as [|c cs IH]; intros [|a ws] H; try discriminate; auto. simpl. f_equal. apply IH. auto.
  - assert (HLen : length (oth (map P (nch (net x)))) = length (nch (net x))) by (rewrite oth_length, map_length; auto).
    revert HLen. generalize (oth (map P (nch (net x)))). induction (nch (net x)) as [|c cs IH]; intros [|a ws] H; try discriminate; auto.
    simpl. f_equal. apply IH. auto.
  - rewrite (HL x l E). auto.
Qed.

Lemma edges_in x c : reach ch r x -> (In c (ch x) <-> exists e, In (c, e) (edges x)).
Proof.
  intros Hx. rewrite <- (edges_fst x Hx), in_map_iff. split.
  - intros ((d, e) & <- & H). eauto.
  - intros (e & H). exists (c, e). auto.
Qed.

Lemma edges_nonneg x ce : reach ch r x -> In ce (edges x) -> 0 <= snd ce.
Proof.
  intros Hx. unfold edges. destruct (nk (net x)) as [w| |l] eqn:E; intros H.
  - destruct (HW x w Hx E) as (_ & ws & -> & _ & Hnn). destruct ce as [c e]. apply in_combine_r in H.
    rewrite map_map in H. simpl in H. rewrite map_id in H. auto.
  - destruct ce as [c e]. apply in_combine_r in H. simpl. eapply oth_nonneg; eauto.
    intros y Hy. apply in_map_iff in Hy as (d & <- & Hd).
    apply (P_gen net N r Hb Hr Ha HW I HV). eapply reach_snoc; eauto.
  - destruct H.
Qed.

Fixpoint Gr (f : nat) (u x : nat) : R :=
  match f with
  | O => 0
  | S f => if Nat.eqb x u then 1 else Rsum (map (fun ce => Gr f u (fst ce) * snd ce) (edges x))
  end.

Lemma lval_none : forall f x, reach ch r x -> (N <= f)%nat -> lval net I (fun _ => None) f x = P x.
Proof.
  apply (fuel_ind ch N r (fun f x => lval net I (fun _ => None) f x = P x)); auto.
  intros f x Hx IH. cbn [lval]. destruct (P_gen net N r Hb Hr Ha HW I HV x Hx) as (_ & _ & E).
  destruct (nk (net x)) as [w| |l] eqn:EK.
  - destruct (HW x w Hx EK) as (_ & ws & -> & _ & _). rewrite (E ws eq_refl). unfold psum.
    rewrite combine_map_r, map_map. apply Rsum_ext. intros (c, a) Hin. simpl. apply in_combine_l in Hin. rewrite IH; auto.
  - rewrite E. apply Rprod_ext. auto.
  - rewrite E. reflexivity.
Qed.

Lemma lval_set u : reach ch r u -> forall f x, reach ch r x -> (N <= f)%nat ->
  lval net I (set_one u (P u)) f x = P x /\
  derivable_pt_lim (fun t => lval net I (set_one u t) f x) (P u) (Gr f u x).
Proof.
  intros Hu. apply (fuel_ind ch N r (fun f x => lval net I (set_one u (P u)) f x = P x /\
  derivable_pt_lim (fun t => lval net I (set_one u t) f x) (P u) (Gr f u x))); auto.
  intros f x Hx IH. destruct (Nat.eq_dec x u) as [->|Hne].
  - cbn [lval Gr]. unfold set_one. rewrite Nat.eqb_refl. split; auto. apply derivable_pt_lim_id.
  - cbn [lval Gr]. unfold set_one at 1. apply Nat.eqb_neq in Hne.
    rewrite Hne. destruct (P_gen net N r Hb Hr Ha HW I HV x Hx) as (_ & _ & E).
    unfold edges. destruct (nk (net x)) as [w| |l] eqn:EK.
    + destruct (HW x w Hx EK) as (_ & ws & -> & _ & _). split.
      * rewrite (E ws eq_refl). unfold psum.
        rewrite combine_map_r, map_map. apply Rsum_ext. intros (c, a) Hin. simpl. apply in_combine_l in Hin. rewrite (proj1 (IH c Hin)); auto.
      * pose proof (deriv_sum (fun c t => lval net I (set_one u t) f c) (Gr f u) (P u) (combine (nch (net x)) (map Fin ws))) as HD.
        specialize (HD ltac:(intros (c, a) Hin; apply in_combine_l in Hin; apply IH; auto)).
        eapply derivable_ext; [|].
        2:{ match type of HD with derivable_pt_lim _ _ ?a => match goal with |- derivable_pt_lim _ _ ?b => replace b with a end end;
            [exact HD|]. rewrite !combine_map_r, !map_map. apply Rsum_ext. intros (c, a) _. reflexivity. }
        intros t. simpl. unfold set_one at 2. rewrite Hne. reflexivity.
    + split.
      * rewrite E. apply Rprod_ext. intros c Hc. apply IH; auto.
      * pose proof (deriv_prod (fun c t => lval net I (set_one u t) f c) (Gr f u) (P u) (nch (net x))) as HD.
        specialize (HD ltac:(intros c Hin; apply IH; auto)).
        eapply derivable_ext; [|].
        2:{ match type of HD with derivable_pt_lim _ _ ?a => match goal with |- derivable_pt_lim _ _ ?b => replace b with a end end;
            [exact HD|]. do 4 f_equal. apply map_ext_in. intros c Hc. apply IH; auto. }
        intros t. simpl. unfold set_one at 2. rewrite Hne. reflexivity.
    + split; [rewrite E; reflexivity|]. simpl. eapply derivable_ext; [|apply derivable_pt_lim_const].
      intros t. unfold set_one. rewrite Hne. reflexivity.
Qed.

Lemma Gr_stable u : forall f x, reach ch r x -> (N <= f)%nat -> forall f', (f <= f')%nat -> Gr f' u x = Gr f u x.
Proof.
  apply (fuel_ind ch N r (fun f x => forall f', (f <= f')%nat -> Gr f' u x = Gr f u x)); auto.
  intros f x Hx IH f' Hf. destruct f' as [|f']; [lia|]. cbn [Gr]. destruct (Nat.eqb x u); auto.
  apply Rsum_ext. intros (c, e) Hin. simpl. rewrite IH; auto; [|lia]. apply (edges_in x c Hx). eauto.
Qed.

Lemma Gr_below u : forall f x, reach ch r x -> ~ reach ch x u -> Gr f u x = 0.
Proof.
  induction f as [|f IH]; intros x Hx Hn; auto. cbn [Gr]. destruct (Nat.eqb_spec x u) as [->|Hne].
  - exfalso. apply Hn. apply reach_refl.
  - rewrite (Rsum_ext _ (fun _ => 0)); [apply Rsum_const0|]. intros (c, e) Hin. simpl.
    assert (Hc : In c (ch x)) by (apply (edges_in x c Hx); eauto).
    rewrite IH; [lra|eapply reach_snoc; eauto|]. intros H. apply Hn. eapply reach_step; eauto.
Qed.

Lemma Gr_eq u x : reach ch r x ->
  Gr N u x = ind x u + Rsum (map (fun ce => Gr N u (fst ce) * snd ce) (edges x)).
Proof.
  intros Hx. rewrite <- (Gr_stable u N x Hx (le_n N) (S N)) by lia. cbn [Gr]. unfold ind.
  destruct (Nat.eqb_spec x u) as [->|]; [|lra].
  rewrite (Rsum_ext _ (fun _ => 0)); [rewrite Rsum_const0; lra|]. intros (c, e) Hin. simpl.
  assert (Hc : In c (ch u)) by (apply (edges_in u c Hx); eauto).
  rewrite Gr_below; [lra|eapply reach_snoc; eauto|]. intros H. eapply Ha; eauto.
Qed.

(** A solution of the backward recurrence is the vector of derivatives. *)
Lemma backward_derivative (D : nat -> R) (calls : list nat) :
  NoDup calls -> (forall p, In p calls -> reach ch r p) ->
  (forall x, reach ch r x -> ~ In x calls -> ch x = []) ->
  (forall c, reach ch r c -> D c = ind c r +
     Rsum (map (fun x => Rsum (map (fun ce => ind (fst ce) c * (D x * snd ce)) (edges x))) calls)) ->
  forall u, reach ch r u -> node_derivative net I N r u (D u).
Proof.
  intros Hn Hc1 Hc2 HD u Hu. unfold node_derivative. rewrite lval_none by auto.
  assert (E : D u = Gr N u r).
  { destruct (tarjanRec_full ch N r Hb Hr) as (X & _ & _ & (HnX & HeX) & _).
    assert (Hsum : forall f : nat -> R, (forall x, In x X -> ~ In x calls -> f x = 0) ->
       Rsum (map f calls) = Rsum (map f X)).
    { intros f Hf.
      assert (Hp : Permutation calls (filter (fun x => if in_dec Nat.eq_dec x calls then true else false) X)).
      { apply NoDup_Permutation; auto; [apply NoDup_filter; auto|]. intros x. rewrite filter_In, HeX. split.
        - intros Hx. split; auto. destruct (in_dec Nat.eq_dec x calls); auto.
        - intros [_ Hx]. destruct (in_dec Nat.eq_dec x calls); auto. discriminate. }
      rewrite (Rsum_perm _ _ (Permutation_map f Hp)). clear Hp. revert Hf. clear HnX HeX.
      induction X as [|x X IH]; intros Hf; simpl; auto.
      destruct (in_dec Nat.eq_dec x calls); simpl; rewrite IH; auto; try (intros; apply Hf; auto; right; auto).
      rewrite (Hf x) by (auto; left; auto). lra. }
    apply (duality X edges D (Gr N u) r u); auto.
    - apply HeX. apply reach_refl.
    - apply HeX. auto.
    - intros x (c, e) Hx Hin. apply HeX in Hx. apply HeX. simpl. eapply reach_snoc; eauto. apply (edges_in x c Hx); eauto.
    - intros x Hx. apply Gr_eq. apply HeX; auto.
    - intros c Hc. rewrite HD by (apply HeX; auto). f_equal. apply Hsum.
      intros x Hx Hnx. apply HeX in Hx. pose proof (Hc2 x Hx Hnx) as E0. rewrite <- (edges_fst x Hx) in E0.
      destruct (edges x); [reflexivity|discriminate]. }
  rewrite E. apply lval_set; auto. apply reach_refl.
Qed.
End Net.
