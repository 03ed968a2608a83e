(** How training moves the likelihood of a mixture. *)
From Coq Require Import Reals.
From Verif Require Import Base Res Arith LogSpec GraphSpec Spn ProbSpec.
Local Open Scope R_scope.

(** The root is the only sum below [r], with weights [ws]; its children have the values [g] at [I]. *)
Definition mixture_of (net : network XR) (N r : nat) (I : varset) (ws g : list R) : Prop :=
  nk (net r) = @KSum XR (map Fin ws) /\ (forall u w, reach (children net) r u -> nk (net u) = KSum w -> u = r) /\
  Forall2 (fun c x => 0 <= x /\ value net N I c = Ok (xln x)) (nch (net r)) g /\ 0 < Rsum g.

(** The mean of the values, each weighted with itself. *)
Definition self_mean (g : list R) : R := Rsum (map (fun x => x * x) g) / Rsum g.

(** The value of a mixture with weights [ws] of components with values [g]. *)
Definition dot (g ws : list R) : R := Rsum (map (fun gw => fst gw * snd gw) (combine g ws)).
