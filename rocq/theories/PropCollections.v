(** C01-C03: queue and stack. *)
From Verif Require Import Base Collections CollectionsSpec CollectionsLemmas.

(** C01 *)
Theorem queue_is_fifo :
  forall (A : Type) (nilA : A) (lowbound : Z) (ops : list (op A)),
    run (queue_step A nilA lowbound) (empty_coll A) ops = run (fifo_step A) [] ops.
Proof. exact queue_fifo_l. Qed.
Print Assumptions queue_is_fifo.

Example queue_is_fifo_case :
  run (queue_step nat 0 1024) (empty_coll nat)
    [OPut _ 1 1; OPut _ 2 0; OPut _ 3 2; OTake _; OPut _ 4 0; OGet _ 2%Z; OInvert _; OTake _;
     OSize _; OTake _; OTake _; OTake _]
  = ([RUnit _; RUnit _; RUnit _; RElem _ 1; RUnit _; RElem _ 4; RUnit _; RElem _ 4;
      RNat _ 2; RElem _ 3; RElem _ 2], true).
Proof. vm_compute. reflexivity. Qed.

(** C02 *)
Theorem stack_is_lifo :
  forall (A : Type) (nilA : A) (lowbound : Z) (ops : list (op A)),
    run (stack_step A nilA lowbound) (empty_coll A) ops = run (lifo_step A) [] ops.
Proof. exact stack_lifo_l. Qed.
Print Assumptions stack_is_lifo.

Example stack_is_lifo_case :
  run (stack_step nat 0 1024) (empty_coll nat)
    [OPut _ 1 1; OPut _ 2 0; OTake _; OPut _ 3 5; OPut _ 4 0; OPeek _; OGet _ 0%Z; OInvert _;
     OTake _; OEmpty _; OReset _; OTake _]
  = ([RUnit _; RUnit _; RElem _ 2; RUnit _; RUnit _; RElem _ 4; RElem _ 1; RUnit _;
      RElem _ 1; RBool _ false; RUnit _], true).
Proof. vm_compute. reflexivity. Qed.

(** C03, as a user expects it: on a queue holding [l ++ [x]] DequeueBack gives [x] and
    leaves [l]. It is false: with two elements both are gone, with one it panics. *)
Theorem dequeueBack_removes_only_last_refuted :
  exists ops q q' x,
    run_state (queue_step nat 0 1024) (empty_coll nat) ops = Some q /\
    contents nat (data nat q) = [1; 2] /\
    dequeueBack nat 0 1024 q = Some (q', x) /\
    contents nat (data nat q') <> [1].
Proof. exact dequeueBack_removes_only_last_refuted_l. Qed.
Print Assumptions dequeueBack_removes_only_last_refuted.

(** C03, what the code does on every reachable queue: the last element is returned, but the
    first one is lost as well; a one-element queue panics. *)
Theorem dequeueBack_actual_partial :
  forall (A : Type) (nilA : A) (lowbound : Z) ops q,
    run_state (queue_step A nilA lowbound) (empty_coll A) ops = Some q ->
    (forall x, contents A (data A q) = [x] -> dequeueBack A nilA lowbound q = None) /\
    (forall y l x, contents A (data A q) = y :: l ++ [x] ->
       exists q', dequeueBack A nilA lowbound q = Some (q', x) /\ contents A (data A q') = l).
Proof. exact dequeueBack_actual_l. Qed.
Print Assumptions dequeueBack_actual_partial.

Example dequeueBack_actual_case :
  exists q, run_state (queue_step nat 0 1024) (empty_coll nat)
    [OPut _ 1 1; OPut _ 2 0; OPut _ 3 0; OPut _ 4 0] = Some q /\
    contents nat (data nat q) = 1 :: [2; 3] ++ [4].
Proof. eexists; vm_compute; split; reflexivity. Qed.
