(** C07-C09: the dynamic programming tables. *)
From Verif Require Import Base Storer StorerSpec StorerLemmas.

(** C07: every history of Storer calls gives the results of a plain map. *)
Theorem storer_is_a_map :
  forall (V : Type) (zero : V) (ops : list (sop V)),
    run (sstep V zero) (newStorer V) ops = run (spec_step V zero) (spec_new V) ops.
Proof. exact storer_refines_l. Qed.
Print Assumptions storer_is_a_map.

Theorem storer_never_panics :
  forall (V : Type) (zero : V) (ops : list (sop V)),
    snd (run (sstep V zero) (newStorer V) ops) = false.
Proof. exact storer_never_panics_l. Qed.
Print Assumptions storer_never_panics.

Example storer_is_a_map_case :
  run (sstep nat 0) (newStorer nat)
    [ONew _; ONew _; OStore _ 0 7 3 42; OStoreSingle _ 1 7 5; OEntry _ 0 7 3; OEntry _ 1 7 3;
     OSingle _ 1 7; OStore _ 9 7 0 1; ODelete _ 0; OStore _ 0 7 3 8; OReset _ 1; OSingle _ 1 7;
     OExistsSPN _ 1 7]
  = ([RTicket _ 0; RTicket _ 1; ROk _ true; ROk _ true; RVal _ 42 true; RVal _ 0 false;
      RVal _ 5 true; ROk _ false; RDone _; ROk _ false; RTicket _ 1; RVal _ 0 false;
      ROk _ false], false).
Proof. vm_compute. reflexivity. Qed.

(** C08: [tame_run] are the histories without Purge in which Reset and ResetTickets only get
    issued tickets; any table handles may be used in between. *)
Theorem tickets_are_unique :
  forall (V : Type) (zero : V) ops1 ops2 s0 s1 s2 s3 k1 k2 tr1 tr2,
  tame_run V zero (newStorer V) ops1 s0 tr1 ->
  ustep V zero s0 (US V (ONew V)) = Some (s1, RTicket V k1) ->
  tame_run V zero s1 ops2 s2 tr2 ->
  ustep V zero s2 (US V (ONew V)) = Some (s3, RTicket V k2) ->
  tables V s0 k1 = None /\ tables V s2 k2 = None /\ k1 <> k2.
Proof. exact tickets_unique_l. Qed.
Print Assumptions tickets_are_unique.

Example tickets_are_unique_case :
  exists s0 s1 s2 s3 tr1 tr2,
  tame_run nat 0 (newStorer nat) [US _ (ONew _); US _ (ONew _); US _ (OReset _ 1)] s0 tr1 /\
  ustep nat 0 s0 (US _ (ONew _)) = Some (s1, RTicket _ 2%Z) /\
  tame_run nat 0 s1 [US _ (ODelete _ 2%Z); US _ (OResetTickets _ [0; 2]%Z)] s2 tr2 /\
  ustep nat 0 s2 (US _ (ONew _)) = Some (s3, RTicket _ 3%Z).
Proof.
  do 6 eexists. split.
  { repeat (eapply tame_cons; [|reflexivity|]); simpl; try lia; auto. apply tame_nil. }
  split; [reflexivity|]. split.
  { eapply tame_cons; [exact I|reflexivity|]. eapply tame_cons; [|reflexivity|apply tame_nil].
    simpl. intros k [<-|[<-|[]]]; lia. }
  reflexivity.
Qed.

(** C09, while nothing replaces the table of [k]: reading and writing through the handle is
    reading and writing through the Storer. *)
Theorem handle_follows_storer :
  forall (V : Type) (zero : V) (k : Z) s ops s' t,
  free_run V zero k s ops s' -> table V s k = (Some t, true) ->
  (forall N l, tEntry V zero s' (Some t) N l = sEntry V zero s' k N l) /\
  (forall N l v, tStore V s' (Some t) N l v = sStore V s' k N l v).
Proof. exact handle_live_l. Qed.
Print Assumptions handle_follows_storer.

(** C09, after Delete/Reset/ResetTickets/Purge (or a NewTicket that takes over the number)
    touched [k]: for ever after, neither side sees the other's writes. *)
Theorem handle_detached_after_reset :
  forall (V : Type) (zero : V) ops0 s k t o s1 r ops s',
  run_state (ustep V zero) (newStorer V) ops0 = Some s ->
  table V s k = (Some t, true) -> touches V s k o -> ustep V zero s o = Some (s1, r) ->
  run_state (ustep V zero) s1 ops = Some s' ->
  (forall N l v s'' b, tStore V s' (Some t) N l v = Some (s'', b) ->
     forall k' N' l', sEntry V zero s'' k' N' l' = sEntry V zero s' k' N' l') /\
  (forall k' N l v s'' b, sStore V s' k' N l v = Some (s'', b) ->
     forall N' l', tEntry V zero s'' (Some t) N' l' = tEntry V zero s' (Some t) N' l').
Proof. exact handle_detached_l. Qed.
Print Assumptions handle_detached_after_reset.

Example handle_case :
  exists s s1 s2 s3,
    run_state (ustep nat 0) (newStorer nat) [US _ (ONew _); US _ (OStore _ 0 4 0 9)] = Some s /\
    table nat s 0 = (Some 0, true) /\
    free_run nat 0 0 s [UTStore _ (Some 0) 5 1%Z 8; US _ (ONew _)] s1 /\
    sEntry nat 0 s1 0 5 1 = (8, true) /\
    touches nat s1 0 (US _ (OReset _ 0%Z)) /\
    ustep nat 0 s1 (US _ (OReset _ 0%Z)) = Some (s2, RTicket _ 0%Z) /\
    run_state (ustep nat 0) s2 [US _ (OStore _ 0 4 0 1); UTStore _ (Some 0) 4 0%Z 2] = Some s3 /\
    sEntry nat 0 s3 0 4 0 = (1, true) /\ tEntry nat 0 s3 (Some 0) 4 0 = (2, true).
Proof.
  do 4 eexists. split; [reflexivity|]. split; [reflexivity|]. split.
  - eapply free_cons; [simpl; tauto|reflexivity|]. eapply free_cons; [simpl; lia|reflexivity|].
    apply free_nil.
  - repeat split.
Qed.
