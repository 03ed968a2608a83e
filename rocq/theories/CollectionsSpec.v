(** What a queue and a stack are, stated on plain lists, without reference to slices.
    The operation and result alphabets are those of [Collections]. *)
From Verif Require Import Base Collections.

Section Spec.
Variable A : Type.

(** First-in-first-out: the list is the queue's contents, oldest first. *)
Definition fifo_step (l : list A) (o : op A) : option (list A * result A) :=
  match o with
  | OPut _ x _ => Some (l ++ [x], RUnit A)
  | OTake _ => match l with [] => None | x :: t => Some (t, RElem A x) end
  | OPeek _ => match l with [] => None | x :: t => Some (l, RElem A x) end
  | OGet _ i => if Z.ltb i 0 then None else
      match nth_error l (Z.to_nat i) with None => None | Some x => Some (l, RElem A x) end
  | OSize _ => Some (l, RNat A (length l))
  | OEmpty _ => Some (l, RBool A (match l with [] => true | _ => false end))
  | OShrink _ => Some (l, RUnit A)
  | OReset _ => Some ([], RUnit A)
  | OInvert _ => Some (rev l, RUnit A)
  end.

(** Last-in-first-out: the list is the stack's contents, top first; [Get i] counts from
    the bottom. *)
Definition lifo_step (l : list A) (o : op A) : option (list A * result A) :=
  match o with
  | OPut _ x _ => Some (x :: l, RUnit A)
  | OTake _ => match l with [] => None | x :: t => Some (t, RElem A x) end
  | OPeek _ => match l with [] => None | x :: t => Some (l, RElem A x) end
  | OGet _ i => if Z.ltb i 0 then None else
      match nth_error (rev l) (Z.to_nat i) with None => None | Some x => Some (l, RElem A x) end
  | OSize _ => Some (l, RNat A (length l))
  | OEmpty _ => Some (l, RBool A (match l with [] => true | _ => false end))
  | OShrink _ => Some (l, RUnit A)
  | OReset _ => Some ([], RUnit A)
  | OInvert _ => Some (rev l, RUnit A)
  end.
End Spec.
