(** Model of /repo/common/queue.go and /repo/common/stack.go.

    Go slices are modelled with their backing array, offset and length, so stale slots and
    in-place appends are visible; the growth of the backing array on reallocation is an
    argument of each append (every growth policy is covered). *)
From Verif Require Import Base.

Section Slices.
Variable A : Type.
Variable nilA : A. (* the nil interface{} value used to clear slots *)

(** A Go slice that exclusively owns its backing array. Capacity is
    [length arr - off]. *)
Record slice := mkSlice { arr : list A; off : nat; len : nat }.

Definition nil_slice : slice := mkSlice [] 0 0.
Definition scap (s : slice) : nat := length (arr s) - off s.

(** s[i]; None = index out of range panic. *)
Definition sget (s : slice) (i : nat) : option A :=
  if Nat.ltb i (len s) then nth_error (arr s) (off s + i) else None.

(** s[i] = x; None = panic. *)
Definition sset (s : slice) (i : nat) (x : A) : option slice :=
  if Nat.ltb i (len s) then Some (mkSlice (set_nth (off s + i) x (arr s)) (off s) (len s))
  else None.

(** s[lo:hi]; Go requires lo <= hi <= cap. None = panic. *)
Definition sslice (s : slice) (lo hi : nat) : option slice :=
  if andb (Nat.leb lo hi) (Nat.leb hi (scap s))
  then Some (mkSlice (arr s) (off s + lo) (hi - lo)) else None.

(** Visible contents. *)
Definition contents (s : slice) : list A := firstn (len s) (skipn (off s) (arr s)).

(** append(s, x): in place if capacity allows, otherwise a fresh array with [g] spare
    slots, [g] arbitrary. *)
Definition sappend (s : slice) (x : A) (g : nat) : slice :=
  if Nat.ltb (len s) (scap s)
  then mkSlice (set_nth (off s + len s) x (arr s)) (off s) (S (len s))
  else mkSlice (contents s ++ [x] ++ repeat nilA g) 0 (S (len s)).

(** make([]T, n) followed by the reversing loop of Invert
    (common/queue.go:75-83, common/stack.go:63-71): l[n-i-1] = v for each i, v. *)
Fixpoint invert_loop (n i : nat) (vs : list A) (l : list A) : list A :=
  match vs with
  | [] => l
  | v :: vs' => invert_loop n (S i) vs' (set_nth (n - i - 1) v l)
  end.

Definition sinvert (s : slice) : slice :=
  let n := len s in
  mkSlice (invert_loop n 0 (contents s) (repeat nilA n)) 0 n.

(** common/queue.go:8-11 and common/stack.go:8-11 (same fields). *)
Record coll := mkColl { data : slice; ccap : Z }.

Definition empty_coll : coll := mkColl nil_slice 0.

(** sys/vars.go:32: a package variable, initially 1024, that users may set; arbitrary
    here. *)
Variable MemLowBoundShrink : Z.

(** common/queue.go:66-69, common/stack.go:54-57. sys.Free (a GC hint) is not modelled. *)
Definition shrink (q : coll) : coll := mkColl (data q) (Z.of_nat (len (data q))).

(** The shrink test shared by Dequeue/DequeueBack/Pop: queue.go:25-27, 37-39,
    stack.go:25-27. *)
Definition maybe_shrink (q : coll) : coll :=
  if andb (Z.ltb MemLowBoundShrink (ccap q))
          (Z.leb (2 * Z.of_nat (len (data q))) (ccap q))
  then shrink q else q.

(** common/queue.go:14-17, common/stack.go:14-17. *)
Definition enqueue (q : coll) (x : A) (g : nat) : coll :=
  mkColl (sappend (data q) x g) (ccap q + 1).

(** common/queue.go:20-29. *)
Definition dequeue (q : coll) : option (coll * A) :=
  let n := len (data q) in
  match sget (data q) 0 with
  | None => None
  | Some e =>
      match sset (data q) 0 nilA with
      | None => None
      | Some d =>
          match sslice d 1 n with
          | None => None
          | Some d' => Some (maybe_shrink (mkColl d' (ccap q)), e)
          end
      end
  end.

(** common/queue.go:32-41. [n] is Go's len-1, which is -1 on an empty queue (panic). *)
Definition dequeueBack (q : coll) : option (coll * A) :=
  match len (data q) with
  | O => None
  | S n =>
      match sget (data q) n with
      | None => None
      | Some e =>
          match sset (data q) n nilA with
          | None => None
          | Some d =>
              match sslice d 1 n with
              | None => None
              | Some d' => Some (maybe_shrink (mkColl d' (ccap q)), e)
              end
          end
      end
  end.

(** common/stack.go:20-29. *)
Definition pop (q : coll) : option (coll * A) :=
  match len (data q) with
  | O => None
  | S n =>
      match sget (data q) n with
      | None => None
      | Some e =>
          match sset (data q) n nilA with
          | None => None
          | Some d =>
              match sslice d 0 n with
              | None => None
              | Some d' => Some (maybe_shrink (mkColl d' (ccap q)), e)
              end
          end
      end
  end.

(** common/queue.go:44-46. *)
Definition qpeek (q : coll) : option A := sget (data q) 0.

(** common/stack.go:32-34. *)
Definition speek (q : coll) : option A :=
  match len (data q) with O => None | S n => sget (data q) n end.

(** common/queue.go:49-51, common/stack.go:37-39: any int index, negative ones panic. *)
Definition cget (q : coll) (i : Z) : option A :=
  if Z.ltb i 0 then None else sget (data q) (Z.to_nat i).

(** common/queue.go:54,57; common/stack.go:42,45. *)
Definition csize (q : coll) : nat := len (data q).
Definition cempty (q : coll) : bool := Nat.eqb (len (data q)) 0.

(** common/queue.go:72, common/stack.go:60. *)
Definition creset (q : coll) : coll := empty_coll.

(** common/queue.go:75-83, common/stack.go:63-71. *)
Definition cinvert (q : coll) : coll :=
  mkColl (sinvert (data q)) (Z.of_nat (len (data q))).

(** The operations of the public interface. [OPut]'s second argument is the spare capacity
    append allocates if it has to reallocate. Give/Take (queue.go:60,63, stack.go:48,51) are
    aliases of OPut/OTake. *)
Inductive op :=
| OPut (x : A) (g : nat) | OTake | OPeek | OGet (i : Z) | OSize | OEmpty
| OShrink | OReset | OInvert.

Inductive result := RUnit | RElem (x : A) | RNat (n : nat) | RBool (b : bool).

Definition elem_result (q : coll) (r : option A) : option (coll * result) :=
  match r with None => None | Some x => Some (q, RElem x) end.

(** A Queue used through its methods. None = panic. *)
Definition queue_step (q : coll) (o : op) : option (coll * result) :=
  match o with
  | OPut x g => Some (enqueue q x g, RUnit)
  | OTake => match dequeue q with None => None | Some (q', x) => Some (q', RElem x) end
  | OPeek => elem_result q (qpeek q)
  | OGet i => elem_result q (cget q i)
  | OSize => Some (q, RNat (csize q))
  | OEmpty => Some (q, RBool (cempty q))
  | OShrink => Some (shrink q, RUnit)
  | OReset => Some (creset q, RUnit)
  | OInvert => Some (cinvert q, RUnit)
  end.

(** A Stack used through its methods. None = panic. *)
Definition stack_step (q : coll) (o : op) : option (coll * result) :=
  match o with
  | OPut x g => Some (enqueue q x g, RUnit)
  | OTake => match pop q with None => None | Some (q', x) => Some (q', RElem x) end
  | OPeek => elem_result q (speek q)
  | OGet i => elem_result q (cget q i)
  | OSize => Some (q, RNat (csize q))
  | OEmpty => Some (q, RBool (cempty q))
  | OShrink => Some (shrink q, RUnit)
  | OReset => Some (creset q, RUnit)
  | OInvert => Some (cinvert q, RUnit)
  end.

End Slices.
