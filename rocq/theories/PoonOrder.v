(** The order in which Structure visits the regions: parts before wholes. *)
From Coq Require Import Sorting.Sorted.
From Verif Require Import Base Res Arith Poon PoonSpec PoonLemmas.
Local Open Scope Z_scope.

(** [b] is a proper part of [a]. *)
Definition part (b a : rect) : Prop :=
  left a <= left b /\ right b <= right a /\ top a <= top b /\ bottom b <= bottom a /\ b <> a.

Lemma SS_flat_map {B C} (Q : B -> B -> Prop) (R : C -> C -> Prop) (f : B -> list C) l :
  StronglySorted Q l -> (forall x, In x l -> StronglySorted R (f x)) ->
  (forall x y, In x l -> In y l -> Q x y -> forall a b, In a (f x) -> In b (f y) -> R a b) -> StronglySorted R (flat_map f l).
Proof.
  assert (Ap : forall l1 l2, StronglySorted R l1 -> StronglySorted R l2 -> (forall a b, In a l1 -> In b l2 -> R a b) -> StronglySorted R (l1 ++ l2)).
  { induction l1 as [|x l1 IH]; intros l2 S1 S2 H; simpl; auto. inversion S1; subst. constructor.
    - apply IH; auto. intros; apply H; auto. right; auto.
    - apply Forall_app. split; auto. apply Forall_forall. intros b Hb. apply H; [left|]; auto. }
  induction l as [|x l IH]; intros S Hf HQ; simpl; [constructor|]. inversion S as [|? ? Sl Fx]; subst. apply Ap.
  - apply Hf. left; auto.
  - apply IH; auto; intros; [apply Hf; right; auto|]. eapply (HQ x0 y); eauto; right; auto.
  - intros a b Ha Hb. apply in_flat_map in Hb. destruct Hb as (y & Hy & Hb). rewrite Forall_forall in Fx.
    eapply (HQ x y); eauto; [left|right]; auto.
Qed.
Lemma SS_all {C} (R : C -> C -> Prop) l : (forall a b, In a l -> In b l -> R a b) -> StronglySorted R l.
Proof.
  induction l as [|x l IH]; intros H; constructor.
  - apply IH. intros; apply H; right; auto.
  - apply Forall_forall. intros b Hb. apply H; [left|right]; auto.
Qed.
Lemma SS_steps a b d : 0 < d -> StronglySorted Z.lt (steps a b d).
Proof.
  intros Hd. unfold steps. generalize (Z.to_nat ((b - a + d) / d)). intros n. generalize 0%nat. induction n as [|n IH]; intros i; simpl; constructor; auto.
  apply Forall_forall. intros y Hy. apply in_map_iff in Hy. destruct Hy as (j & <- & Hj). apply in_seq in Hj. nia.
Qed.

Section Order.
Variables w h r : Z.
Hypothesis r1 : 0 < r.
Definition rf (i : Z * Z * Z * Z) : rect := let '(x, y, x1, y1) := i in Rect x1 y1 (x1 + x) (y1 + y).
Definition rc (i : Z * Z * Z * Z) : rect := let '(ca, cb, x1, y1) := i in Rect x1 y1 (x1 + ca * r) (y1 + cb * r).

Ltac open H := repeat (apply in_flat_map in H; let z := fresh "z" in let Iz := fresh "Iz" in destruct H as (z & Iz & H); apply In_steps in Iz; [|lia]);
  apply in_map_iff in H; let z := fresh "z" in let Iz := fresh "Iz" in destruct H as (z & <- & Iz); apply In_steps in Iz; [|lia].

Lemma fine_sorted cw ch : StronglySorted (fun i j => ~ part (rf j) (rf i)) (fine r cw ch).
Proof.
  unfold fine. apply (SS_flat_map Z.lt); [apply SS_steps; lia| |].
  2:{ intros ca ca' _ _ lt a b Ha Hb (P1 & P2 & P3 & P4 & P5). open Ha. open Hb. simpl in *. nia. }
  intros ca _. apply (SS_flat_map Z.lt); [apply SS_steps; lia| |].
  2:{ intros cb cb' _ _ lt a b Ha Hb (P1 & P2 & P3 & P4 & P5). open Ha. open Hb. simpl in *. nia. }
  intros cb _. apply (SS_flat_map Z.lt); [apply SS_steps; lia| |].
  2:{ intros x x' _ _ lt a b Ha Hb (P1 & P2 & P3 & P4 & P5). open Ha. open Hb. simpl in *. lia. }
  intros x _. apply (SS_flat_map Z.lt); [apply SS_steps; lia| |].
  2:{ intros y y' _ _ lt a b Ha Hb (P1 & P2 & P3 & P4 & P5). open Ha. open Hb. simpl in *. lia. }
  intros y _. apply SS_all. intros a b Ha Hb (P1 & P2 & P3 & P4 & P5). open Ha. open Hb. simpl in *. apply P5. f_equal; lia.
Qed.

Lemma coarse_sorted cw ch : StronglySorted (fun i j => ~ part (rc j) (rc i)) (coarse w h r cw ch).
Proof.
  unfold coarse. apply (SS_flat_map Z.lt); [apply SS_steps; lia| |].
  2:{ intros ca ca' _ _ lt a b Ha Hb (P1 & P2 & P3 & P4 & P5). open Ha. open Hb. simpl in *. nia. }
  intros ca _. apply (SS_flat_map Z.lt); [apply SS_steps; lia| |].
  2:{ intros cb cb' _ _ lt a b Ha Hb (P1 & P2 & P3 & P4 & P5). open Ha. open Hb. simpl in *. nia. }
  intros cb _. apply SS_all. intros a b Ha Hb (P1 & P2 & P3 & P4 & P5). open Ha. open Hb. simpl in *. apply P5. f_equal; lia.
Qed.

(** A fold over a list in such an order. *)
Lemma foldr_ordered {B S0} (rt : B -> rect) (f : S0 -> B -> res S0) (J : (rect -> Prop) -> S0 -> Prop) l (D0 : rect -> Prop) :
  StronglySorted (fun i j => ~ part (rt j) (rt i)) l ->
  (forall (D : rect -> Prop) i s, In i l -> (forall a, D0 a -> D a) -> (forall j, In j l -> part (rt j) (rt i) -> D (rt j)) -> J D s ->
     exists s', f s i = Ok s' /\ J (fun a => a = rt i \/ D a) s') ->
  (forall (D D' : rect -> Prop) s, (forall a, D' a -> D a) -> J D s -> J D' s) ->
  forall s, J D0 s -> exists s', foldr_ f l s = Ok s' /\ J (fun a => D0 a \/ exists i, In i l /\ a = rt i) s'.
Proof.
  intros Sl Hf Hw. 
  assert (K : forall l2 l1 s, l = l1 ++ l2 -> J (fun a => D0 a \/ exists i, In i l1 /\ a = rt i) s ->
     exists s', foldr_ f l2 s = Ok s' /\ J (fun a => D0 a \/ exists i, In i l /\ a = rt i) s').
  { induction l2 as [|i l2 IH]; intros l1 s El Js; simpl.
    - rewrite app_nil_r in El. subst. eauto.
    - set (D1 := fun a => D0 a \/ exists i, In i l1 /\ a = rt i) in *.
      assert (A1 : In i l) by (rewrite El; apply in_or_app; right; left; auto).
      assert (A2 : forall a, D0 a -> D1 a) by (unfold D1; auto).
      assert (A3 : forall j, In j l -> part (rt j) (rt i) -> D1 (rt j)).
      { intros j Hj Pj. right. exists j. split; auto. rewrite El in Hj, Sl. apply in_app_or in Hj. destruct Hj as [Hj|[<-|Hj]]; auto.
        - exfalso. destruct Pj as (_ & _ & _ & _ & Ne). apply Ne. auto.
        - exfalso. clear -Sl Hj Pj. induction l1 as [|x l1 IH1]; simpl in Sl; inversion Sl as [|? ? Sl' Fx]; subst; auto.
          rewrite Forall_forall in Fx. apply (Fx j Hj Pj). }
      destruct (Hf D1 i s A1 A2 A3 Js) as (s1 & E1 & J1).
      rewrite E1. cbn [bind]. apply (IH (l1 ++ [i])); [rewrite <- app_assoc; auto|]. eapply Hw; [|exact J1].
        unfold D1. intros a [Ha|(j & Hj & ->)]; auto. apply in_app_or in Hj. destruct Hj as [Hj|[<-|[]]]; auto. right. right. exists j. auto. }
  intros s Js. apply (K l []); auto. eapply Hw; [|exact Js]. cbv beta. intros a [Ha|(j & [] & _)]; auto.
Qed.
End Order.
