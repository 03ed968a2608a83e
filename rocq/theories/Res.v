(** Outcomes of modelled Go functions: a result, a Go panic, or out of fuel (an artefact of the
    model, excluded by every theorem). Nothing here models gospn code. *)
From Verif Require Import Base.

Inductive res (A : Type) := Ok (a : A) | Panic | Fuel.
Arguments Ok {A} a. Arguments Panic {A}. Arguments Fuel {A}.

Definition bind {A B} (x : res A) (f : A -> res B) : res B :=
  match x with Ok a => f a | Panic => Panic | Fuel => Fuel end.

Notation "x <- e ; f" := (bind e (fun x => f)) (at level 61, e at next level, right associativity).

Definition orPanic {A} (o : option A) : res A :=
  match o with Some a => Ok a | None => Panic end.

(** s[i]: out of range panics. *)
Definition idx {A} (l : list A) (i : nat) : res A :=
  match nth_error l i with Some a => Ok a | None => Panic end.

(** s[i] for an int index: a negative index panics. *)
Definition idxZ {A} (l : list A) (i : Z) : res A :=
  if (i <? 0)%Z then Panic else idx l (Z.to_nat i).

(** A loop filling a slice: for i, c := range l { out[i] = f(i, c) }. *)
Fixpoint mapi_from {A B} (i : nat) (f : nat -> A -> res B) (l : list A) : res (list B) :=
  match l with
  | [] => Ok []
  | c :: t => v <- f i c; vs <- mapi_from (S i) f t; Ok (v :: vs)
  end.
Definition mapi {A B} (f : nat -> A -> res B) (l : list A) : res (list B) := mapi_from 0 f l.

(** A loop carrying a state: for i, c := range l { s = f(i, s, c) }. *)
Fixpoint foldi_from {A S} (i : nat) (f : nat -> S -> A -> res S) (l : list A) (s : S) : res S :=
  match l with
  | [] => Ok s
  | c :: t => s' <- f i s c; foldi_from (i + 1) f t s'
  end.
Definition foldi {A S} (f : nat -> S -> A -> res S) (l : list A) (s : S) : res S :=
  foldi_from 0 f l s.

Fixpoint foldr_ {A S} (f : S -> A -> res S) (l : list A) (s : S) : res S :=
  match l with
  | [] => Ok s
  | c :: t => s' <- f s c; foldr_ f t s'
  end.

Lemma bind_ok {A B} (x : res A) (f : A -> res B) b :
  bind x f = Ok b -> exists a, x = Ok a /\ f a = Ok b.
Proof. destruct x; simpl; try discriminate. eauto. Qed.

Lemma bind_fuel {A B} (x : res A) (f : A -> res B) :
  bind x f = Fuel -> x = Fuel \/ exists a, x = Ok a /\ f a = Fuel.
Proof. destruct x; simpl; try discriminate; eauto. Qed.

Lemma bind_panic {A B} (x : res A) (f : A -> res B) :
  bind x f = Panic -> x = Panic \/ exists a, x = Ok a /\ f a = Panic.
Proof. destruct x; simpl; try discriminate; eauto. Qed.

Lemma mapi_from_ext {A B} (f g : nat -> A -> res B) l i :
  (forall j c, In c l -> f j c = g j c) -> mapi_from i f l = mapi_from i g l.
Proof.
  revert i; induction l as [|c t IH]; intros i H; simpl; auto.
  rewrite H by (left; auto). destruct (g i c); simpl; auto.
  rewrite IH; auto. intros; apply H; right; auto.
Qed.

Lemma foldi_from_ext {A S} (f g : nat -> S -> A -> res S) l i s :
  (forall j s c, In c l -> f j s c = g j s c) -> foldi_from i f l s = foldi_from i g l s.
Proof.
  revert i s; induction l as [|c t IH]; intros i s H; simpl; auto.
  rewrite H by (left; auto). destruct (g i s c); simpl; auto.
  apply IH. intros; apply H; right; auto.
Qed.

Lemma foldr_app {A S} (f : S -> A -> res S) l1 l2 s :
  foldr_ f (l1 ++ l2) s = (s' <- foldr_ f l1 s; foldr_ f l2 s').
Proof.
  revert s; induction l1 as [|c t IH]; intros s; simpl; auto.
  destruct (f s c); simpl; auto.
Qed.

(** Length and pointwise content of a successful [mapi]. *)
Lemma mapi_from_spec {A B} (f : nat -> A -> res B) l i vs :
  mapi_from i f l = Ok vs ->
  length vs = length l /\
  forall j c, nth_error l j = Some c -> exists v, nth_error vs j = Some v /\ f (i + j) c = Ok v.
Proof.
  revert i vs; induction l as [|c t IH]; intros i vs H; simpl in H.
  - injection H as <-. split; auto. intros [|j] c H; discriminate.
  - apply bind_ok in H as (v & Hv & H). apply bind_ok in H as (vs' & Hvs & H).
    injection H as <-. destruct (IH _ _ Hvs) as [L P]. split; simpl; [lia|].
    intros [|j] c' Hj; simpl in Hj.
    + injection Hj as <-. exists v. split; auto. rewrite Nat.add_0_r. auto.
    + destruct (P _ _ Hj) as (v' & E1 & E2). exists v'. split; auto.
      replace (i + S j) with (S i + j) by lia. auto.
Qed.

Lemma mapi_from_nofuel {A B} (f : nat -> A -> res B) l i :
  (forall j c, In c l -> f j c <> Fuel) -> mapi_from i f l <> Fuel.
Proof.
  revert i; induction l as [|c t IH]; intros i H; simpl; [discriminate|].
  intros E. apply bind_fuel in E as [E|(v & Ev & E)]; [apply (H i c); simpl; auto|].
  apply bind_fuel in E as [E|(vs & Evs & E)]; [|discriminate].
  apply (IH (S i)); auto. intros; apply H; right; auto.
Qed.

Lemma mapi_from_panic {A B} (f : nat -> A -> res B) l i c :
  (forall j c, In c l -> f j c <> Fuel) -> In c l -> (forall j, f j c = Panic) ->
  mapi_from i f l = Panic.
Proof.
  revert i; induction l as [|d t IH]; intros i H Hc HP; [destruct Hc|]. simpl.
  destruct Hc as [->|Hc].
  - rewrite HP. reflexivity.
  - specialize (IH (S i) ltac:(intros; apply H; right; auto) Hc HP). rewrite IH.
    pose proof (H i d ltac:(left; auto)). destruct (f i d); simpl; congruence.
Qed.

Lemma foldi_from_nofuel {A S} (f : nat -> S -> A -> res S) l i s :
  (forall j s c, In c l -> f j s c <> Fuel) -> foldi_from i f l s <> Fuel.
Proof.
  revert i s; induction l as [|c t IH]; intros i s H; simpl; [discriminate|].
  intros E. apply bind_fuel in E as [E|(v & Ev & E)]; [apply (H i s c); simpl; auto|].
  apply (IH (i + 1) v); auto. intros; apply H; right; auto.
Qed.

Lemma foldi_from_panic {A S} (f : nat -> S -> A -> res S) l i s c :
  (forall j s c, In c l -> f j s c <> Fuel) -> In c l -> (forall j s, f j s c = Panic) ->
  foldi_from i f l s = Panic.
Proof.
  revert i s; induction l as [|d t IH]; intros i s H Hc HP; [destruct Hc|]. simpl.
  destruct Hc as [->|Hc].
  - rewrite HP. reflexivity.
  - pose proof (H i s d ltac:(left; auto)) as Hd. destruct (f i s d) as [s'| |]; simpl; try congruence.
    apply IH; auto. intros; apply H; right; auto.
Qed.
