(** Dynamic programming along a dependency order computes the same as the recursion. General
    lemmas, independent of what is evaluated. *)
From Verif Require Import Base Res GraphSpec.

Section DP.
Variable D : Type.
Variable ch : graph.
Variable ev : (nat -> res D) -> nat -> res D.
Variable P : nat -> Prop.   (* the nodes considered *)

Hypothesis P_ch : forall u c, P u -> In c (ch u) -> P c.
Hypothesis ev_ext : forall u l1 l2, (forall c, In c (ch u) -> l1 c = l2 c) -> ev l1 u = ev l2 u.
Hypothesis ev_nofuel : forall u l, P u -> (forall c, In c (ch u) -> l c <> Fuel) -> ev l u <> Fuel.
Hypothesis ev_panic : forall u l c, P u -> (forall c, In c (ch u) -> l c <> Fuel) ->
  In c (ch u) -> l c = Panic -> ev l u = Panic.

Fixpoint val (f : nat) (u : nat) : res D :=
  match f with O => Fuel | S g => ev (val g) u end.

Lemma dep_prefix l1 l2 : dependency_order ch (l1 ++ l2) -> dependency_order ch l1.
Proof.
  intros H a x b E c Hc. apply (H a x (b ++ l2)); auto. rewrite E, <- app_assoc. reflexivity.
Qed.

Lemma val_stable l : dependency_order ch l -> (forall u, In u l -> P u) ->
  forall n a x b, l = a ++ x :: b -> length a <= n ->
  forall f g, n < f -> n < g -> val f x = val g x /\ val f x <> Fuel.
Proof.
  intros Hd HP n. induction n as [n IH] using (well_founded_induction lt_wf).
  intros a x b E Hn f g Hf Hg. destruct f as [|f]; [lia|]. destruct g as [|g]; [lia|]. simpl.
  assert (HC : forall c, In c (ch x) -> val f c = val g c /\ val f c <> Fuel).
  { intros c Hc. pose proof (Hd _ _ _ E c Hc) as Hin. apply in_split in Hin as (a1 & a2 & Ea).
    assert (Hlen : length a = length a1 + S (length a2)) by (rewrite Ea, app_length; reflexivity).
    apply (IH (length a1)) with (a := a1) (b := a2 ++ x :: b); try lia.
    rewrite E, Ea, <- app_assoc. reflexivity. }
  split.
  - apply ev_ext. intros c Hc. apply HC; auto.
  - apply ev_nofuel. { apply HP. rewrite E. apply in_or_app; simpl; auto. }
    intros c Hc. apply HC; auto.
Qed.

Lemma val_total l : dependency_order ch l -> (forall u, In u l -> P u) ->
  forall u f, In u l -> length l <= f -> val f u <> Fuel /\ val f u = ev (val f) u.
Proof.
  intros Hd HP u f Hu Hf. apply in_split in Hu as (a & b & E).
  assert (length l = length a + S (length b)) by (rewrite E, app_length; reflexivity).
  destruct (val_stable l Hd HP (length a) a u b E ltac:(lia) f (S f)) as [H1 H2]; [lia|lia|].
  split; auto.
Qed.

Lemma val_more l : dependency_order ch l -> (forall u, In u l -> P u) ->
  forall u f g, In u l -> length l <= f -> length l <= g -> val f u = val g u.
Proof.
  intros Hd HP u f g Hu Hf Hg. apply in_split in Hu as (a & b & E).
  assert (length l = length a + S (length b)) by (rewrite E, app_length; reflexivity).
  apply (val_stable l Hd HP (length a) a u b E); lia.
Qed.

(** The value of the root panics if that of some descendant does. *)
Lemma val_panic_up l f : dependency_order ch l -> (forall u, In u l -> P u) -> length l <= f ->
  forall r u, reach ch r u -> In r l -> val f u = Panic -> val f r = Panic.
Proof.
  intros Hd HP Hf r u Hr. induction Hr as [|x c y Hc Hr IH]; intros Hin HE; auto.
  destruct (val_total l Hd HP x f Hin Hf) as [_ ->].
  assert (HC : forall c, In c (ch x) -> In c l).
  { intros d Hdin. apply in_split in Hin as (a & b & E). rewrite E.
    apply in_or_app. left. apply (Hd a x b E d Hdin). }
  apply (ev_panic x (val f) c); auto.
  intros d Hdin. apply val_total with (l := l); auto.
Qed.

(** The loop. *)
Variable S : Type.
Variable get : S -> nat -> option D.
Variable d0 : D.
Variable Inv : S -> Prop.
Variable step : S -> nat -> res S.
Definition dflt (o : option D) : D := match o with Some v => v | None => d0 end.
Hypothesis step_ok : forall s u, P u -> Inv s -> (forall c, In c (ch u) -> get s c <> None) ->
  match ev (fun c => Ok (dflt (get s c))) u with
  | Ok v => exists s', step s u = Ok s' /\ Inv s' /\ get s' u = Some v /\
                       forall x, x <> u -> get s' x = get s x
  | Panic => step s u = Panic
  | Fuel => False
  end.

Lemma dp_loop l f s0 : dependency_order ch l -> NoDup l -> (forall u, In u l -> P u) ->
  length l <= f -> Inv s0 ->
  match foldr_ step l s0 with
  | Ok s => Inv s /\ (forall u, In u l -> exists v, get s u = Some v /\ val f u = Ok v) /\
            (forall u, ~ In u l -> get s u = get s0 u)
  | Panic => exists u, In u l /\ val f u = Panic
  | Fuel => False
  end.
Proof.
  intros Hd Hn HP Hf HI.
  assert (G : forall l1 l2, l = l1 ++ l2 ->
    match foldr_ step l1 s0 with
    | Ok s => Inv s /\ (forall u, In u l1 -> exists v, get s u = Some v /\ val f u = Ok v) /\
              (forall u, ~ In u l1 -> get s u = get s0 u)
    | Panic => exists u, In u l1 /\ val f u = Panic
    | Fuel => False
    end).
  { intros l1. induction l1 as [|x l1 IH] using rev_ind; intros l2 E.
    - simpl. split; [auto|]. split; [intros u []|auto].
    - rewrite <- app_assoc in E. simpl in E. specialize (IH _ E). rewrite foldr_app.
      destruct (foldr_ step l1 s0) as [s| |]; simpl.
      + destruct IH as (HIs & IH1 & IH2).
        assert (HC : forall c, In c (ch x) -> exists v, get s c = Some v /\ val f c = Ok v).
        { intros c Hc. apply IH1. apply (Hd _ _ _ E c Hc). }
        assert (Hx : In x l) by (rewrite E; apply in_or_app; simpl; auto).
        pose proof (step_ok s x (HP _ Hx) HIs) as HS.
        assert (Hev : ev (fun c => Ok (dflt (get s c))) x = val f x).
        { destruct (val_total l Hd HP x f Hx Hf) as [_ ->]. apply ev_ext. intros c Hc.
          destruct (HC c Hc) as (v & -> & ->). reflexivity. }
        rewrite Hev in HS. specialize (HS ltac:(intros c Hc; destruct (HC c Hc) as (v & -> & _); discriminate)).
        destruct (val f x) as [v| |] eqn:Ev.
        * destruct HS as (s' & -> & HI' & Hg & Hd'). simpl. split; [auto|].
          assert (Hxn : ~ In x l1).
          { rewrite E in Hn. apply NoDup_remove_2 in Hn. intros Hin. apply Hn. apply in_or_app; auto. }
          split.
          -- intros u Hu. apply in_app_iff in Hu as [Hu|[<-|[]]]; [|eauto].
             rewrite Hd' by (intros ->; auto). apply IH1; auto.
          -- intros u Hu. rewrite Hd'; [apply IH2|]; intros H; apply Hu; apply in_or_app; simpl; auto.
        * rewrite HS. simpl. exists x. split; auto. apply in_or_app; simpl; auto.
        * destruct HS.
      + destruct IH as (u & Hu & HE). exists u. split; auto. apply in_or_app; auto.
      + destruct IH. }
  apply (G l []). rewrite app_nil_r. reflexivity.
Qed.
End DP.
