(** Partial derivatives of the value of a network, in linear space. *)
From Coq Require Import Reals.
From Verif Require Import Base Res Arith LogSpec GraphSpec Spn.
Local Open Scope R_scope.

Definition unfin (x : xreal) : R := match x with Fin a => a | _ => 0 end.

(** The linear-space value of node [x] when some nodes are given other values by [ov]. [f] is fuel. *)
Fixpoint lval (net : network XR) (I : varset) (ov : nat -> option R) (f : nat) (x : nat) : R :=
  match f with
  | O => 0
  | S f =>
      match ov x with
      | Some t => t
      | None =>
          match nk (net x) with
          | KSum w => Rsum (map (fun cw => lval net I ov f (fst cw) * unfin (snd cw)) (combine (nch (net x)) w))
          | KProd => Rprod (map (lval net I ov f) (nch (net x)))
          | KLeaf l => match lvalue l I with Some v => lin v | None => 0 end
          end
      end
  end.

Definition set_one (u : nat) (t : R) : nat -> option R := fun x => if Nat.eqb x u then Some t else None.

(** [d] is the partial derivative of the value of [r] with respect to the value of [u]. *)
Definition node_derivative (net : network XR) (I : varset) (N r u : nat) (d : R) : Prop :=
  derivable_pt_lim (fun t => lval net I (set_one u t) N r) (lval net I (fun _ => None) N u) d.

(** [net] with weight [i] of sum node [u] replaced. *)
Definition set_weight (net : network XR) (u i : nat) (t : R) : network XR := fun x =>
  if Nat.eqb x u then
    match nk (net x) with
    | KSum w => mkNode (@KSum XR (firstn i w ++ Fin t :: skipn (S i) w)) (nch (net x))
    | _ => net x
    end
  else net x.

(** [d] is the partial derivative of the value of [r] with respect to weight [i] of [u], which is [w]. *)
Definition weight_derivative (net : network XR) (I : varset) (N r u i : nat) (w d : R) : Prop :=
  derivable_pt_lim (fun t => lval (set_weight net u i t) I (fun _ => None) N r) w d.

(** Leaves answer Value with a real or -inf. *)
Definition leaf_values (net : network XR) (I : varset) (r : nat) : Prop :=
  forall u l, reach (children net) r u -> nk (net u) = KLeaf l ->
    exists m, lvalue l I = Some m /\ logval m.
