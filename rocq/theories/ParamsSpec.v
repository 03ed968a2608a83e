(** Parameter bindings, independently of the table. *)
From Verif Require Import Base Params.

(** What e is bound to after a history of calls and answers: the last Bind wins, Unbind removes, and
    Parameters binds the object whose method ran to what it returns. *)
Fixpoint bound_to (hist : list (pcall * panswer)) (e : key) : option nat :=
  match hist with
  | [] => None
  | (c, a) :: older =>
      match c with
      | PBind k p => if key_eqb k e then Some p else bound_to older e
      | PUnbind k => if key_eqb k e then None else bound_to older e
      | PParameters o => if key_eqb (receiver o) e then match a with APtr p => p | _ => None end else bound_to older e
      | _ => bound_to older e
      end
  end.
(** The objects created so far. *)
Fixpoint created (hist : list (pcall * panswer)) : nat :=
  match hist with
  | [] => 0
  | (c, a) :: older => created older + match c with PNew _ => 1 | PParameters o => match bound_to older (receiver o) with None => 1 | Some _ => 0 end | _ => 0 end
  end.
(** The right answer to a call, newest history first. *)
Definition right (hist : list (pcall * panswer)) (c : pcall) (a : panswer) : Prop :=
  match c with
  | PRetrieve e => a = APtr (bound_to hist e)
  | PExists e => a = ABool (match bound_to hist e with Some _ => true | None => false end)
  | PParameters o => a = APtr (match bound_to hist (receiver o) with Some p => Some p | None => Some (created hist) end)
  | PNew _ => a = APtr (Some (created hist))
  | _ => a = AUnit
  end.
