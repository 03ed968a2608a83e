(** The graph traversal loop shared by the functions that visit every node once:
    spn/utils.go:283-303 (NormalizeSPN), learn/derive.go:42-83 (DeriveSPN), 117-134, 169-192,
    244-265, learn/generative.go and learn/discriminative.go (applyGD, applyDGD...). The body is
    [proc]; [ch] gives the children that may be pushed. *)
From Verif Require Import Base Res GraphSpec Search.

Section Walk.
Context {St : Type}.
Variable ch : graph.
Variable d : discipline.
Variable proc : St -> nat -> res St.

Fixpoint walk (fuel : nat) (F V : list nat) (st : St) : res St :=
  match fuel with
  | O => Fuel
  | S k =>
      match F with
      | [] => Ok st
      | u :: F' =>
          st' <- proc st u;
          let (F2, V2) := give_children d (ch u) (F', V) in walk k F2 V2 st'
      end
  end.

Definition walkFrom (fuel : nat) (G : nat) (st : St) : res St := walk fuel [G] [G] st.
End Walk.
