(** Shared helpers: generic runs of state machines, list facts. Nothing here models
    gospn code. *)
From Coq Require Export List Arith ZArith Lia Bool Permutation.
Export ListNotations.

(** Run a partial step function over a list of operations, collecting results. [None] from
    the step function is a Go panic: the run stops there. The boolean says whether the run
    panicked. *)
Fixpoint run {S O R : Type} (step : S -> O -> option (S * R)) (s : S) (ops : list O)
  : list R * bool :=
  match ops with
  | [] => ([], false)
  | o :: ops' =>
      match step s o with
      | None => ([], true)
      | Some (s', r) => let (rs, p) := run step s' ops' in (r :: rs, p)
      end
  end.

(** Final state of a run ([None] if it panicked). *)
Fixpoint run_state {S O R : Type} (step : S -> O -> option (S * R)) (s : S) (ops : list O)
  : option S :=
  match ops with
  | [] => Some s
  | o :: ops' =>
      match step s o with
      | None => None
      | Some (s', _) => run_state step s' ops'
      end
  end.

Definition upd {A : Type} (f : nat -> A) (k : nat) (v : A) : nat -> A :=
  fun x => if Nat.eqb x k then v else f x.

Lemma upd_same {A} (f : nat -> A) k v : upd f k v k = v.
Proof. unfold upd. rewrite Nat.eqb_refl. reflexivity. Qed.

Lemma upd_diff {A} (f : nat -> A) k v x : x <> k -> upd f k v x = f x.
Proof. intros H. unfold upd. destruct (Nat.eqb_spec x k); congruence. Qed.

Definition updZ {A : Type} (f : Z -> A) (k : Z) (v : A) : Z -> A :=
  fun x => if Z.eqb x k then v else f x.

Lemma updZ_same {A} (f : Z -> A) k v : updZ f k v k = v.
Proof. unfold updZ. rewrite Z.eqb_refl. reflexivity. Qed.

Lemma updZ_diff {A} (f : Z -> A) k v x : x <> k -> updZ f k v x = f x.
Proof. intros H. unfold updZ. destruct (Z.eqb_spec x k); congruence. Qed.

(** Replace the [i]-th element (no effect if out of range; callers check). *)
Fixpoint set_nth {A : Type} (i : nat) (x : A) (l : list A) : list A :=
  match l, i with
  | [], _ => []
  | _ :: t, O => x :: t
  | h :: t, S j => h :: set_nth j x t
  end.

Lemma set_nth_length {A} i (x : A) l : length (set_nth i x l) = length l.
Proof. revert i; induction l as [|h t IH]; intros [|j]; simpl; auto. Qed.

Lemma nth_error_set_nth_same {A} i (x : A) l :
  i < length l -> nth_error (set_nth i x l) i = Some x.
Proof.
  revert i; induction l as [|h t IH]; intros [|j] H; simpl in *; try lia; auto.
  apply IH; lia.
Qed.

Lemma nth_error_set_nth_diff {A} i j (x : A) l :
  j <> i -> nth_error (set_nth i x l) j = nth_error l j.
Proof.
  revert i j; induction l as [|h t IH]; intros [|i] [|j] H; simpl; auto; try lia.
Qed.

Lemma nth_error_ext {A} (l1 l2 : list A) :
  (forall i, nth_error l1 i = nth_error l2 i) -> l1 = l2.
Proof.
  revert l2; induction l1 as [|h t IH]; intros [|h2 t2] H.
  - reflexivity.
  - specialize (H 0); discriminate.
  - specialize (H 0); discriminate.
  - f_equal.
    + specialize (H 0); simpl in H; congruence.
    + apply IH. intros i. apply (H (S i)).
Qed.

Lemma nth_error_firstn_lt {A} n (l : list A) i :
  i < n -> nth_error (firstn n l) i = nth_error l i.
Proof.
  revert n l; induction i as [|i IH]; intros [|n] [|h t] H; simpl; auto; try lia.
  apply IH; lia.
Qed.

Lemma nth_error_skipn {A} n (l : list A) i :
  nth_error (skipn n l) i = nth_error l (n + i).
Proof.
  revert l; induction n as [|n IH]; intros [|h t]; simpl; auto.
  destruct i; auto.
Qed.

Definition memn (x : nat) (l : list nat) : bool := existsb (Nat.eqb x) l.

Lemma memn_In x l : memn x l = true <-> In x l.
Proof.
  unfold memn. rewrite existsb_exists. split.
  - intros [y [H1 H2]]. apply Nat.eqb_eq in H2. subst. auto.
  - intros H. exists x. rewrite Nat.eqb_refl. auto.
Qed.

Lemma memn_false x l : memn x l = false <-> ~ In x l.
Proof.
  rewrite <- memn_In. destruct (memn x l); split; intros H; congruence.
Qed.
