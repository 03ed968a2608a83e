(** What the nodes that cannot be reached look like does not matter. *)
From Coq Require Import Reals Lra Lia.
From Verif Require Import Base Res Arith LogSpec GraphSpec GraphLemmas Search Walk WalkLemmas Topo Storer Spn SpnSpec ProbSpec PoonSpec PoonLearnSpec MapSpec DeriveSpec Train TrainSpec HardGainSpec HardKeepSpec.

Section Agree.
Context {A : arith}.
Variables (n n' : network A) (r : nat).
Hypothesis Hag : forall u, reach (children n) r u -> n' u = n u.
Local Notation S := (reach (children n) r).

Lemma push_below cs : forall stk V, (forall x, In x cs -> S x) -> (forall x, In x stk -> S x) -> forall x, In x (fst (push_children cs (stk, V))) -> S x.
Proof.
  induction cs as [|c cs IH]; intros stk V Hc Hs x; cbn [push_children fold_left]; [auto|]. change (fold_left _ cs ?q) with (push_children cs q).
  destruct (memn c V); apply IH; auto; try solve [intros y Hy; apply Hc; right; assumption].
  intros y [<-|Hy]; auto. apply Hc. left; auto.
Qed.

Lemma tarjan_below : forall f stk V P out, (forall x, In x stk -> S x) ->
  tarjan_loop (children n') f stk V P out = tarjan_loop (children n) f stk V P out.
Proof.
  induction f as [|f IH]; intros stk V P out Hs; [reflexivity|]. cbn [tarjan_loop]. destruct stk as [|u stk]; [reflexivity|].
  assert (Su : S u) by (apply Hs; left; auto).
  destruct (memn u P); [apply IH; intros; apply Hs; right; auto|].
  assert (Ec : children n' u = children n u) by (unfold children; rewrite Hag; auto). rewrite Ec.
  pose proof (push_below (children n u) (u :: stk) V) as Hp. destruct (push_children (children n u) (u :: stk, V)) as [s2 V2].
  apply IH. apply Hp; auto. intros x Hx. eapply reach_snoc; eauto.
Qed.
Lemma tarjan_out : forall f stk V P out l, (forall x, In x stk -> S x) -> (forall x, In x out -> S x) ->
  tarjan_loop (children n) f stk V P out = Some l -> forall x, In x l -> S x.
Proof.
  induction f as [|f IH]; intros stk V P out l Hs Ho; [discriminate|]. cbn [tarjan_loop]. destruct stk as [|u stk]; [intros E; injection E as <-; auto|].
  assert (Su : S u) by (apply Hs; left; auto).
  destruct (memn u P).
  - apply IH; [intros; apply Hs; right; auto|]. intros x Hx. apply in_app_or in Hx. destruct Hx as [Hx|[<-|[]]]; auto.
  - pose proof (push_below (children n u) (u :: stk) V) as Hp. destruct (push_children (children n u) (u :: stk, V)) as [s2 V2].
    apply IH; auto. apply Hp; auto. intros x Hx. eapply reach_snoc; eauto.
Qed.
Lemma top_below f : topSortTarjan (children n') f r = topSortTarjan (children n) f r.
Proof. apply tarjan_below. intros x [<-|[]]. apply reach_refl. Qed.
Lemma top_out f l : topSortTarjan (children n) f r = Some l -> forall x, In x l -> S x.
Proof. apply tarjan_out; [intros x [<-|[]]; apply reach_refl|intros x []]. Qed.

Lemma storeLoop_below I t : forall l st, (forall x, In x l -> S x) -> storeLoop n' I t l st = storeLoop n I t l st.
Proof.
  induction l as [|u l IH]; intros st Hl; [reflexivity|]. cbn [storeLoop]. unfold storeNode. rewrite (Hag u) by (apply Hl; left; auto).
  match goal with |- bind ?e _ = bind ?e _ => destruct e as [[st' go]| |]; auto end. cbn [bind]. destruct go; auto. apply IH. intros; apply Hl; right; auto.
Qed.
Lemma storeInference_below f I tk st : storeInference n' f r I tk st = storeInference n f r I tk st.
Proof.
  unfold storeInference. rewrite (Hag r) by apply reach_refl. rewrite top_below. destruct (Nat.eqb _ 0); auto.
  destruct (if (tk <? 0)%Z then _ else _) as [st1 tk1]. destruct (topSortTarjan (children n) f r) as [l|] eqn:E; auto.
  rewrite storeLoop_below; auto. eapply top_out; eauto.
Qed.

Lemma traceNodes_below I : forall l tab, (forall x, In x l -> S x) -> foldr_ (traceNode n' I) l tab = foldr_ (traceNode n I) l tab.
Proof.
  induction l as [|u l IH]; intros st Hl; [reflexivity|]. cbn [foldr_]. unfold traceNode at 1 3. rewrite (Hag u) by (apply Hl; left; auto).
  match goal with |- bind ?e _ = bind ?e _ => destruct e as [tab'| |]; auto end. cbn [bind]. apply IH. intros; apply Hl; right; auto.
Qed.
Lemma fold_push cs : forall Q V, (forall x, In x cs -> S x) -> (forall x, In x Q -> S x) -> forall x, In x (fst (fold_left (fun QV c => push c QV) cs (Q, V))) -> S x.
Proof.
  induction cs as [|c cs IH]; intros Q V Hc HQ x; cbn [fold_left]; [auto|]. unfold push at 2.
  destruct (memn c V); apply IH; auto; try solve [intros y Hy; apply Hc; right; assumption].
  intros y Hy. apply in_app_or in Hy. destruct Hy as [Hy|[<-|[]]]; auto. apply Hc. left; auto.
Qed.
Lemma traceLoop_below rnd look : forall f i Q V P, (forall x, In x Q -> S x) -> traceLoop n' rnd look f i Q V P = traceLoop n rnd look f i Q V P.
Proof.
  induction f as [|f IH]; intros i Q V P HQ; [reflexivity|]. cbn [traceLoop]. destruct Q as [|s Q]; [reflexivity|].
  assert (Ss : S s) by (apply HQ; left; auto). rewrite (Hag s Ss).
  assert (HQ' : forall x, In x Q -> S x) by (intros; apply HQ; right; auto).
  destruct (nk (n s)) as [w| |l]; auto.
  - destruct (bestIndices look w (nch (n s))) as [b| |]; auto. cbn [bind]. destruct (Nat.eqb _ 0); auto. destruct (idx (snd b) _) as [mi| |]; auto. cbn [bind].
    destruct (idx (nch (n s)) mi) as [c| |] eqn:Ec; auto. cbn [bind]. destruct (memn c V); auto. apply IH. intros x Hx. apply in_app_or in Hx. destruct Hx as [Hx|[<-|[]]]; auto.
    eapply reach_snoc; eauto. unfold idx in Ec. destruct (nth_error (nch (n s)) mi) eqn:E; [|discriminate]. injection Ec as <-. eapply nth_error_In; eauto.
  - pose proof (fold_push (nch (n s)) Q V) as Hp. destruct (fold_left _ _ _) as [Q2 V2]. apply IH. apply Hp; auto. intros x Hx. eapply reach_snoc; eauto.
Qed.
Lemma traceMAP_below rnd f I : traceMAP n' rnd f r I = traceMAP n rnd f r I.
Proof.
  unfold traceMAP. rewrite top_below. destruct (topSortTarjan (children n) f r) as [l|] eqn:E; auto.
  rewrite traceNodes_below by (eapply top_out; eauto). destruct (foldr_ _ l _); auto. cbn [bind]. apply traceLoop_below. intros x [<-|[]]. apply reach_refl.
Qed.

Lemma reach_below u : reach (children n') r u <-> S u.
Proof.
  split.
  - intros R. assert (K : forall x, S x -> reach (children n') x u -> S u).
    { intros x Sx Rx. revert Sx. induction Rx as [x|x c y Hc Rx IH]; auto. intros Sx. apply IH; auto. unfold children in Hc. rewrite Hag in Hc by auto. eapply reach_snoc; eauto. }
    apply (K r); auto. apply reach_refl.
  - intros R. assert (K : forall x, S x -> reach (children n) x u -> reach (children n') x u).
    { intros x Sx Rx. revert Sx. induction Rx as [x|x c y Hc Rx IH]; [constructor|]. intros Sx. apply reach_step with (c := c); [unfold children; rewrite Hag by auto; auto|].
      apply IH; auto. eapply reach_snoc; eauto. }
    apply (K r); auto. apply reach_refl.
Qed.
End Agree.

(** A copy without the unreachable nodes. *)
Lemma prune_below (n : network XR) N M r : hard_learnable_below n N M r ->
  exists n', (forall u, reach (children n) r u -> n' u = n u) /\ hard_learnable n' N M r.
Proof.
  intros (Hb & Hr & Ha & Hs & HL & HS & Hne & HM & HW).
  destruct (walk_fold (children n) UseQueue N r Hb Hr) as (calls & _ & (_ & He) & _).
  set (n' := fun u => if in_dec Nat.eq_dec u calls then n u else mkNode (@KProd XR) []).
  assert (In' : forall u, (reach (children n) r u /\ n' u = n u) \/ n' u = mkNode (@KProd XR) []).
  { intros u. unfold n'. destruct (in_dec Nat.eq_dec u calls) as [i|]; auto. left. split; auto. apply He, i. }
  assert (Hag : forall u, reach (children n) r u -> n' u = n u).
  { intros u Hu. unfold n'. destruct (in_dec Nat.eq_dec u calls) as [|i]; auto. exfalso. apply i, He, Hu. }
  assert (Ch : forall u c, In c (children n' u) -> In c (children n u) /\ reach (children n) r u).
  { intros u c. unfold children. destruct (In' u) as [(R & ->)| ->]; [auto|intros []]. }
  assert (Rc : forall u v, reach (children n') u v -> reach (children n) u v).
  { intros u v R. induction R; [constructor|]. destruct (Ch x c H). eapply reach_step; eauto. }
  pose proof (reach_below n n' r Hag) as Rb.
  exists n'. split; auto. unfold hard_learnable. split; [|split; [|split; [|split; [|split; [|split; [|split; [|split]]]]]]]; auto.
  - intros u c Hc. apply (Hb u c). apply Ch; auto.
  - intros u c Hc R. destruct (Ch u c Hc) as [H1 H2]. apply (Ha u c H2 H1). auto.
  - intros p l1 a l2 v l3 E Hn R. destruct (In' p) as [(Rp & Ep)|Ep].
    + unfold children in E. rewrite Ep in E. apply (Hs p l1 a l2 v l3 Rp E Hn). auto.
    + unfold children in E. rewrite Ep in E. destruct l1; discriminate.
  - intros u l. destruct (In' u) as [(R & ->)| ->]; [apply HL|discriminate].
  - intros u w. destruct (In' u) as [(R & ->)| ->]; [apply HS; auto|discriminate].
  - rewrite Hag by apply reach_refl. auto.
  - destruct HM as [M1 HM]. split; auto. intros u Hu. apply Rb in Hu. rewrite Hag by auto. auto.
  - intros u w Hu. apply Rb in Hu. rewrite Hag by auto. apply HW; auto.
Qed.

Lemma learnable_below (n : network XR) N M r : hard_learnable n N M r -> hard_learnable_below n N M r.
Proof.
  intros (Hb & Hr & Ha & Hs & HL & HS & Hne & HM & HW). unfold hard_learnable_below. split; [|split; [|split; [|split; [|split; [|split; [|split; [|split]]]]]]]; auto.
  - intros u c _. apply Ha.
  - intros p l1 a l2 v l3 _. apply Hs.
  - intros u w _. apply HS.
Qed.
