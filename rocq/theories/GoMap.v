(** Go maps from int to int and slices of such maps (datasets). A map value is a list of
    (key, value) pairs with distinct keys; a dataset holds references into a heap of maps. Ranging
    over a map visits its entries in an order chosen by the runtime: the oracle [ord], which may
    choose differently at every occasion (its first argument). Nothing here models gospn code
    except [copyMap] and [dup]. *)
From Verif Require Import Base Res.
Local Open Scope Z_scope.

Definition gmap := list (Z * Z).

(** v, ok := m[k]. *)
Fixpoint get (m : gmap) (k : Z) : option Z :=
  match m with [] => None | (a, v) :: t => if a =? k then Some v else get t k end.
(** m[k]: 0 if absent. *)
Definition get0 (m : gmap) (k : Z) : Z := match get m k with Some v => v | None => 0 end.
(** delete(m, k). *)
Definition del (m : gmap) (k : Z) : gmap := filter (fun e => negb (fst e =? k)) m.
(** m[k] = v. *)
Definition put (m : gmap) (k v : Z) : gmap := (k, v) :: del m k.
Definition keys (m : gmap) : list Z := map fst m.

(** The heap of maps. *)
Record heap := mkHeap { mem : nat -> gmap; nxt : nat }.
Definition alloc (h : heap) (m : gmap) : heap * nat := (mkHeap (upd (mem h) (nxt h) m) (S (nxt h)), nxt h).
Definition store (h : heap) (r : nat) (m : gmap) : heap := mkHeap (upd (mem h) r m) (nxt h).

Section Order.
Variable ord : nat -> gmap -> gmap.

(** data/manipulate.go:22-26. *)
Definition copyMap (d s : gmap) (occasion : nat) : gmap :=
  fold_left (fun d e => put d (fst e) (snd e)) (ord occasion s) d.

(** M := make(map[int]int); copyMap(M, D[i]). *)
Definition dup (h : heap) (r : nat) : heap * nat := alloc h (copyMap [] (mem h r) (nxt h)).
End Order.
