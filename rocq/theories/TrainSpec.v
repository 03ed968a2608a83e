(** What weight learning should do. *)
From Coq Require Import Reals.
From Verif Require Import Base Res Arith LogSpec GraphSpec Search Spn SpnSpec ProbSpec Struct StructSpec DeriveSpec HardSpec.

(** Range over the keys of a table with keys below [N]: each key once, in some order. *)
Definition ranges_nodes (N : nat) (ord : nat -> (nat -> bool) -> list nat) : Prop :=
  forall occ K, (forall x, K x = true -> x < N) -> NoDup (ord occ K) /\ forall x, In x (ord occ K) <-> K x = true.

(** Range over a map with keys in [0, M). *)
Definition ranges_entries {V} (M : nat) (ord : nat -> nat -> (Z -> option V) -> list (Z * V)) : Prop :=
  forall occ s m, (forall i v, m i = Some v -> (0 <= i < Z.of_nat M)%Z) ->
    NoDup (map fst (ord occ s m)) /\ forall i v, In (i, v) (ord occ s m) <-> m i = Some v.

(** The nodes below [r] have at most [M] children and weights. *)
Definition at_most {A : arith} (M r : nat) (net : network A) : Prop :=
  1 <= M /\ forall u, reach (children net) r u -> length (nch (net u)) <= M /\ forall w, nk (net u) = KSum w -> length w <= M.

(** [net'] is [net] with other weights in the sums below [r]. *)
Definition only_weights {A : arith} (r : nat) (net net' : network A) : Prop :=
  (forall u, nch (net' u) = nch (net u)) /\
  (forall u, nk (net' u) = nk (net u) \/
     reach (children net) r u /\ exists w w', nk (net u) = KSum w /\ nk (net' u) = KSum w' /\ length w' = length w).

(** One step for each element of a list. *)
Inductive chain {X S} (step : X -> S -> S -> Prop) : list X -> S -> S -> Prop :=
| chain_nil : forall s, chain step [] s s
| chain_cons : forall x l s s1 s2, step x s s1 -> chain step l s1 s2 -> chain step (x :: l) s s2.

(** [cs] cuts [l] into consecutive groups of [b], the last one possibly smaller. *)
Inductive batches {X} (b : nat) : list X -> list (list X) -> Prop :=
| batches_nil : batches b [] []
| batches_last : forall l, l <> [] -> length l < b -> batches b l [l]
| batches_cons : forall c l cs, length c = b -> batches b l cs -> batches b (c ++ l) (c :: cs).

(** The sums below [r] have weights that are reals, not negative and not all zero. *)
Definition weights_live (net : network XR) (r : nat) : Prop :=
  forall u w, reach (children net) r u -> nk (net u) = KSum w ->
    exists ws, w = map Fin ws /\ length ws = length (nch (net u)) /\ (forall x, In x ws -> (0 <= x)%R) /\ (0 < Rsum ws)%R.

(** A network on which DeriveSPN gives the derivatives (C27), with non-negative weights. *)
Definition learnable (net : network XR) (N r : nat) (d : discipline) : Prop :=
  bounded (children net) N /\ r < N /\ acyclic (children net) /\ siblings_ok (children net) /\
  (d = UseQueue /\ uniform_depth (children net) r \/ tree (children net) r) /\
  leaves_childless net /\ sums_nonempty net /\ nch (net r) <> [] /\ weights_nonneg net r.

(** The gradient step of the log-likelihood objective's code: every weight w of every sum below [r]
    becomes w + eta * (sum over the batch of dS/dw) / b - 2 * lambda * w, then the weights of the sum
    are divided by their total if [nrm]. *)
Definition gradient_step (N r : nat) (nrm : bool) (eta lambda b : R) (batch : list varset) (net net' : network XR) : Prop :=
  (forall u, (~ reach (children net) r u \/ forall w, nk (net u) <> KSum w) -> net' u = net u) /\
  forall u ws, reach (children net) r u -> nk (net u) = @KSum XR (map Fin ws) ->
    exists ws', length ws' = length ws /\
      (forall i w, nth_error ws i = Some w -> exists Ds,
         Forall2 (fun I D => weight_derivative net I N r u i w D) batch Ds /\
         nth_error ws' i = Some (w + eta * Rsum Ds / b - 2 * lambda * w)%R) /\
      net' u = mkNode (@KSum XR (map Fin (if nrm then map (fun x => (x / Rsum ws')%R) ws' else ws'))) (nch (net u)).

(** [n] of the elements of [l] satisfy [Q]. *)
Inductive counted {X} (Q : X -> Prop) : list X -> nat -> Prop :=
| counted_nil : counted Q [] 0
| counted_yes : forall x l n, Q x -> counted Q l n -> counted Q (x :: l) (S n)
| counted_no : forall x l n, ~ Q x -> counted Q l n -> counted Q (x :: l) n.

(** 0 + 1 + ... + 1. *)
Definition times {A : arith} (n : nat) : F A := Nat.iter n (fun x => fadd x (fz 1)) (fz 0).

(** The hard gradient step: each instance selects a tree with TraceMAP. A weight w on n > 0 of the
    selected trees becomes w + eta * (n / (w * b)) - 2 * lambda * w, the others stay; then the weights of
    the sums met are normalised if [nrm]. *)
Definition hard_step {A : arith} (r : nat) (nrm : bool) (eta lambda : F A) (b : Z) (batch : list varset) (net net' : network A) : Prop :=
  exists Ts, Forall2 (fun I T => exists rnd fuel, traceMAP net rnd fuel r I = Ok T) batch Ts /\
    (forall u, ((forall w, nk (net u) <> KSum w) \/ (forall T i, In T Ts -> ~ chosen_edge net T r u (Z.of_nat i))) -> net' u = net u) /\
    (forall u W T j, nk (net u) = KSum W -> In T Ts -> chosen_edge net T r u (Z.of_nat j) ->
       exists W', length W' = length W /\ net' u = mkNode (KSum (if nrm then normalize W' else W')) (nch (net u)) /\
         forall i w, nth_error W i = Some w -> exists n, counted (fun T => chosen_edge net T r u (Z.of_nat i)) Ts n /\
           nth_error W' i = Some (if Nat.eqb n 0 then w
                                  else fsub (fadd w (fmul eta (fdiv (times n) (fmul w (fz b))))) (fmul (fmul (fz 2) lambda) w))).

(** An instance without the variables [Y]. *)
Definition without (Y : list Z) (I : varset) : varset := fun v => if in_dec Z.eq_dec v Y then None else I v.

(** [n] - [m] as the code computes it. *)
Definition lessOf {A : arith} (n m : nat) : F A := if Nat.eqb m 0 then times n else fsub (times n) (times m).

(** The hard discriminative step: each instance selects one tree with all its variables and one without the
    variables [Y]. A weight w on n of the first trees and m of the second, with n - m not zero, becomes
    w + (eta * ((n - m) / (w * b)) - 2 * lambda * w), the others stay; then the weights of the sums met are
    normalised if [nrm]. *)
Definition hard_disc_step {A : arith} (r : nat) (nrm : bool) (eta lambda : F A) (b : Z) (Y : list Z) (batch : list varset) (net net' : network A) : Prop :=
  exists Ts Us, Forall2 (fun I T => exists rnd fuel, traceMAP net rnd fuel r I = Ok T) batch Ts /\
    Forall2 (fun I T => exists rnd fuel, traceMAP net rnd fuel r (without Y I) = Ok T) batch Us /\
    (forall u, (forall T i, In T (Ts ++ Us) -> ~ chosen_edge net T r u (Z.of_nat i)) -> net' u = net u) /\
    (forall u T j, In T (Ts ++ Us) -> chosen_edge net T r u (Z.of_nat j) ->
       exists W W', nk (net u) = KSum W /\ length W' = length W /\ net' u = mkNode (KSum (if nrm then normalize W' else W')) (nch (net u)) /\
         forall i w, nth_error W i = Some w -> exists n m,
           counted (fun T => chosen_edge net T r u (Z.of_nat i)) Ts n /\ counted (fun T => chosen_edge net T r u (Z.of_nat i)) Us m /\
           nth_error W' i = Some (if (Nat.eqb n 0 && Nat.eqb m 0) || feq (lessOf (A := A) n m) (fz 0) then w
                                  else fadd w (fsub (fmul eta (fdiv (lessOf n m) (fmul w (fz b)))) (fmul (fmul (fz 2) lambda) w)))).

(** The step announced in the comment of applyDGD, learn/discriminative.go:177-179: [I] has the query variables, [J] has not. *)
Definition conditional_update (net : network XR) (I J : varset) (N r u i : nat) (eta lambda w w' : R) : Prop :=
  exists D E, weight_derivative net I N r u i w D /\ weight_derivative net J N r u i w E /\
    w' = (w + eta * (D / lval net I (fun _ => None) N r - E / lval net J (fun _ => None) N r) - 2 * lambda * w)%R.
