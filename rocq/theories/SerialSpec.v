(** What it means for a node, and for a network, to survive being saved and loaded. No function of
    the codecs or of Marshal is used here. *)
From Coq Require Import QArith Qabs.
From Verif Require Import Base Res Arith GraphSpec Spn Leaves Codec.
Local Open Scope Z_scope.

(** The range of a Go int. *)
Definition go_int (z : Z) : Prop := - 2 ^ 63 <= z < 2 ^ 63.

Section SerialSpec.
Context {A : arith}.
Variable exact : F A -> num.
Variable near : num -> F A.

(** d/10^6, a number with six decimals. *)
Definition sixth (d : Z) : Q := Qmake d 1000000.

(** [w'] is the float read from a text of six decimals within half a unit of the last one of
    [w]; infinities and NaN are kept. *)
Definition kept (w w' : F A) : Prop :=
  match exact w with
  | Val q => exists d, (Qabs (sixth d - q) <= 5 # 10000000)%Q /\ w' = near (Val (sixth d))
  | other => w' = near other
  end.

(** What comparison needs of the arithmetic (true of float64, NaN included): nothing is above
    itself, and what is not above [y] is not above anything above [y]. *)
Definition gt_ordered : Prop :=
  (forall x : F A, fgt x x = false) /\
  (forall x y z : F A, fgt x y = true -> fgt z y = false -> fgt z x = false).

(** The mode recorded is the first of the largest probabilities (index 0 with value 0 when none is
    positive). *)
Definition first_mode (pr : list (F A)) (mi : Z) (mv : F A) : Prop :=
  (mi = 0 /\ mv = fz 0 /\ forall p, In p pr -> fgt p (fz 0) = false) \/
  exists i, mi = Z.of_nat i /\ nth_error pr i = Some mv /\ fgt mv (fz 0) = true /\
            (forall p, In p pr -> fgt p mv = false) /\
            (forall j p, (j < i)%nat -> nth_error pr j = Some p -> p <> mv).

(** A node and the node read back. *)
Inductive node_kept : content A -> content A -> Prop :=
| kept_sum : forall w w', Forall2 kept w w' -> node_kept (CSum w) (CSum w')
| kept_prod : node_kept CProd CProd
| kept_multi : forall m m', m_varid m' = m_varid m -> m_sc m' = [m_varid m] ->
    Forall2 kept (m_pr m) (m_pr m') -> first_mode (m_pr m') (m_modei m') (m_modev m') ->
    node_kept (CMulti m) (CMulti m')
| kept_ind : forall x v, node_kept (CInd x v) (CInd x v)
| kept_gauss : forall x mu sigma, node_kept (CGauss x mu sigma) (CGauss x mu sigma).

(** The integers of a node are Go ints. *)
Definition ints_ok (c : content A) : Prop :=
  match c with
  | CSum w => go_int (Z.of_nat (length w))
  | CProd => True
  | CMulti m => go_int (m_varid m) /\ go_int (Z.of_nat (length (m_pr m)))
  | CInd x v => go_int x /\ go_int v
  | CGauss x _ _ => go_int x
  end.

(** A weight that already has six decimals: it is the float nearest to such a decimal, and that
    decimal is the closest one to it. *)
Definition six_decimals (w : F A) : Prop :=
  match exact w with
  | Val q => exists d, w = near (Val (sixth d)) /\ (Qabs (sixth d - q) < 5 # 10000000)%Q
  | other => w = near other
  end.

(** A node whose text carries all there is to it. *)
Definition plain (c : content A) : Prop :=
  match c with
  | CSum w => Forall six_decimals w
  | CMulti m => m_sc m = [m_varid m] /\ Forall six_decimals (m_pr m) /\
                (m_modei m, m_modev m) = computeMode (m_pr m)
  | _ => True
  end.

(** The network built in memory [h] at [r'] is a copy of the one at [r]: a one-to-one renaming of
    the nodes that keeps the children, their order and their sharing, with contents related by
    [R]. *)
Definition copy_of (R : content A -> content A -> Prop) (cont : nat -> content A) (ch : graph)
  (r : nat) (h : list (content A * list (option nat))) (r' : option nat) : Prop :=
  exists f : nat -> nat,
    r' = Some (f r) /\
    (forall u v, reach ch r u -> reach ch r v -> f u = f v -> u = v) /\
    (forall u, reach ch r u -> exists c',
       nth_error h (f u) = Some (c', map (fun c => Some (f c)) (ch u)) /\ R (cont u) c').

(** The probability law of a content (gonum's log density and int conversions are those of
    Leaves.v), the network in memory, and a network described by a loaded memory. *)
Definition kind_of (logProb : F A -> F A -> F A -> F A) (trunc round : F A -> Z)
  (c : content A) : kind A :=
  match c with
  | CSum w => KSum w
  | CProd => KProd
  | CMulti m => KLeaf (multiLeaf m)
  | CInd x v => KLeaf (indLeaf x v)
  | CGauss x mu sigma => KLeaf (gaussLeaf logProb trunc round x mu sigma)
  end.

Definition network_of (K : content A -> kind A) (cont : nat -> content A) (ch : graph)
  : network A := fun u => mkNode (K (cont u)) (ch u).

Definition describes (K : content A -> kind A) (h : list (content A * list (option nat)))
  (net : network A) : Prop :=
  forall p c cs, nth_error h p = Some (c, map Some cs) -> net p = mkNode (K c) cs.

(** Rounding a decimal of six digits between -1 and 1 to a float moves it by less than half a unit
    of the last digit (for float64, by at most 2^-54). *)
Definition accurate : Prop :=
  forall d, Z.abs d <= 1000000 ->
  exists q, exact (near (Val (sixth d))) = Val q /\ (Qabs (sixth d - q) < 5 # 10000000)%Q.

(** Weights between -1 and 1. *)
Definition unit_weight (w : F A) : Prop :=
  exists q, exact w = Val q /\ (Qabs q <= 1)%Q.
Definition unit_weights (c : content A) : Prop :=
  match c with
  | CSum w => Forall unit_weight w
  | CMulti m => Forall unit_weight (m_pr m)
  | _ => True
  end.
End SerialSpec.
