(** What a Storer is to its user: a map from (ticket, node, position) to value, with a set of
    live tickets. No references here. *)
From Verif Require Import Base Storer.

Section Spec.
Variable V : Type.
Variable zero : V.

Record sspec := mkSpec {
  sp_next : Z;
  sp_live : Z -> bool;
  sp_node : Z -> nat -> bool;           (* something was stored for the node *)
  sp_val : Z -> nat -> Z -> option V }.

Definition spec_new : sspec := mkSpec 0 (fun _ => false) (fun _ _ => false) (fun _ _ _ => None).

Definition spec_create (s : sspec) (k : Z) : sspec :=
  mkSpec (sp_next s) (updZ (sp_live s) k true) (updZ (sp_node s) k (fun _ => false))
         (updZ (sp_val s) k (fun _ _ => None)).

Definition spec_delete (s : sspec) (k : Z) : sspec :=
  mkSpec (sp_next s) (updZ (sp_live s) k false) (updZ (sp_node s) k (fun _ => false))
         (updZ (sp_val s) k (fun _ _ => None)).

Definition spec_store (s : sspec) (k : Z) (N : nat) (l : Z) (v : V) : sspec * sres V :=
  if sp_live s k then
    (mkSpec (sp_next s) (sp_live s) (updZ (sp_node s) k (upd (sp_node s k) N true))
            (updZ (sp_val s) k (upd (sp_val s k) N (updZ (sp_val s k N) l (Some v)))),
     ROk V true)
  else (s, ROk V false).

Definition spec_read (s : sspec) (k : Z) (N : nat) (l : Z) : sres V :=
  match sp_val s k N l with None => RVal V zero false | Some v => RVal V v true end.

Definition spec_step (s : sspec) (o : sop V) : option (sspec * sres V) :=
  Some match o with
  | ONew _ =>
      (spec_create (mkSpec (sp_next s + 1) (sp_live s) (sp_node s) (sp_val s)) (sp_next s),
       RTicket V (sp_next s))
  | OStore _ k N l v => spec_store s k N l v
  | OStoreSingle _ k N v => spec_store s k N 0 v
  | OEntry _ k N l => (s, spec_read s k N l)
  | OSingle _ k N => (s, spec_read s k N 0)
  | OValueGet _ k N l => (s, spec_read s k N l)
  | OExistsSPN _ k N => (s, ROk V (sp_node s k N))
  | OExists _ k N l => (s, ROk V (match sp_val s k N l with None => false | Some _ => true end))
  | OHasTable _ k => (s, ROk V (sp_live s k))
  | ODelete _ k => (spec_delete s k, RDone V)
  | OReset _ k => (spec_create s k, RTicket V k)
  | OResetTickets _ ks => (fold_left spec_create ks s, RDone V)
  | OPurge _ =>
      (mkSpec 0 (fun _ => false) (fun _ _ => false) (fun _ _ _ => None), RDone V)
  end.

(** Histories in which Reset is only given tickets already issued, and without Purge. *)
Definition tame (s : storer V) (o : uop V) : Prop :=
  match o with
  | US _ (OReset _ k) => (0 <= k < tickets V s)%Z
  | US _ (OResetTickets _ ks) => forall k, In k ks -> (0 <= k < tickets V s)%Z
  | US _ (OPurge _) => False
  | _ => True
  end.

Inductive tame_run : storer V -> list (uop V) -> storer V -> list (uop V * sres V) -> Prop :=
| tame_nil : forall s, tame_run s [] s []
| tame_cons : forall s o s1 r ops s2 tr, tame s o -> ustep V zero s o = Some (s1, r) ->
    tame_run s1 ops s2 tr -> tame_run s (o :: ops) s2 ((o, r) :: tr).

(** Operations that replace or remove the table of ticket [k]. *)
Definition touches (s : storer V) (k : Z) (o : uop V) : Prop :=
  match o with
  | US _ (ONew _) => tickets V s = k
  | US _ (ODelete _ k') => k' = k
  | US _ (OReset _ k') => k' = k
  | US _ (OResetTickets _ ks) => In k ks
  | US _ (OPurge _) => True
  | _ => False
  end.

Inductive free_run (k : Z) : storer V -> list (uop V) -> storer V -> Prop :=
| free_nil : forall s, free_run k s [] s
| free_cons : forall s o s1 r ops s2, ~ touches s k o -> ustep V zero s o = Some (s1, r) ->
    free_run k s1 ops s2 -> free_run k s (o :: ops) s2.
End Spec.
