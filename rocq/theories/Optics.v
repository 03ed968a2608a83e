(** OPTICS clustering: /repo/utils/cluster/optics.go, with Euclidean of
    /repo/utils/cluster/metrics/euclid.go. The queue of objects (lines 26-46) is a list. *)
From Verif Require Import Base Res Arith Cluster.
Local Open Scope Z_scope.

(** metrics/euclid.go:6-14. *)
Definition euclidean {A : arith} (p q : list Z) : res (F A) :=
  s <- foldi (fun i s x => y <- idx q i; let l := fz (x - y) in Ok (fadd s (fmul l l))) p (fz 0);
  Ok (fsqrt s).

Section Optics.
Context {A : arith}.
Local Notation F := (F A).
Variable undef : F. (* math.Inf(1), optics.go:11 *)

(** optics.go:71-75: *objDist, nil or (dist, index). *)
Local Notation distp := (option (F * nat)).

(** sort.Sort: the elements whose distances Less reads for a slice, in order, and the slice afterwards. *)
Variable compared : list distp -> list (nat * nat).
Variable sorted : list distp -> list distp.
(** heap.Fix(pq, i). *)
Variable heapFix : list (nat * F) -> nat -> list (nat * F).

Variable set : list (list Z). (* the field data of the objects; object i has index i *)
Variable eps : F.
Variable mp : Z.

(** optics.go:13-19: the fields vst, rdist and cdist of the objects; order; the queue of (object, priority). *)
Record ostate := mkO { vst : nat -> bool; rdist : nat -> F; cdist : nat -> F; order : list nat; pq : list (nat * F) }.

(** optics.go:50-62. *)
Definition getNeighbors (o : nat) : res (list nat) :=
  p1 <- idx set o;
  foldi (fun i ns p2 =>
    if Nat.eqb o i then Ok ns
    else d <- euclidean p1 p2; Ok (if fge eps d then ns ++ [i] else ns)) set [].

(** optics.go:79 reads both distances; a nil pointer panics. *)
Definition lessCall (d : list distp) (c : nat * nat) : res unit :=
  a <- idx d (fst c); _ <- orPanic a; b <- idx d (snd c); _ <- orPanic b; Ok tt.

(** optics.go:81-94: make gives n nil pointers and the distances are appended behind them. *)
Definition getCoreDist (nb : list nat) (o : nat) : res F :=
  let n := length nb in
  if Z.of_nat n <? mp then Ok undef else
  p1 <- idx set o;
  ds <- mapi (fun i j => q <- idx set j; d <- euclidean p1 q; Ok (Some (d, i))) nb;
  let dists := repeat None n ++ ds in
  _ <- foldr_ (fun _ c => lessCall dists c) (compared dists) tt;
  e <- idxZ (sorted dists) (mp - 1);
  e <- orPanic e;
  Ok (fst e).

(** optics.go:126-136. *)
Fixpoint place (q : list (nat * F)) (o : nat) (i : nat) : option nat :=
  match q with
  | [] => None
  | e :: t => if Nat.eqb (fst e) o then Some i else place t o (S i)
  end.
Definition update (q : list (nat * F)) (o : nat) (p : F) : list (nat * F) :=
  match place q o 0 with Some i => heapFix (set_nth i (o, p) q) i | None => q end.

(** optics.go:64-69. *)
Definition maxF (n m : F) : F := if fgt n m then n else m.

(** optics.go:138-152: the reachability distance stored is that of [o] itself. pq.Push is the method of line 112. *)
Definition seedsUpdate (nb : list nat) (o : nat) (s : ostate) : res ostate :=
  p1 <- idx set o;
  foldr_ (fun s j =>
    if vst s j then Ok s else
    q <- idx set j; d <- euclidean p1 q;
    let r := maxF (cdist s o) d in
    Ok (if feq (rdist s o) undef then mkO (vst s) (upd (rdist s) o r) (cdist s) (order s) (pq s ++ [(o, r)])
        else if fgt (rdist s o) r then mkO (vst s) (upd (rdist s) o r) (cdist s) (order s) (update (pq s) o r)
        else s)) nb s.

(** optics.go:161-170: pq.Pop is the method of line 118 and takes the last element. *)
Fixpoint grow (fuel : nat) (s : ostate) : res ostate :=
  match rev (pq s) with
  | [] => Ok s
  | e :: t =>
    match fuel with
    | O => Fuel
    | S f =>
      let co := fst e in
      nb <- getNeighbors co;
      c <- getCoreDist nb co;
      let s := mkO (upd (vst s) co true) (rdist s) (upd (cdist s) co c) (order s ++ [co]) (rev t) in
      s <- (if feq c undef then Ok s else seedsUpdate nb co s);
      grow f s
    end
  end.

(** optics.go:154-172. *)
Definition expand (fuel : nat) (o : nat) (s : ostate) : res ostate :=
  nb <- getNeighbors o;
  c <- getCoreDist nb o;
  let s := mkO (upd (vst s) o true) (upd (rdist s) o undef) (upd (cdist s) o c) (order s ++ [o]) (pq s) in
  if feq c undef then Ok s else s <- seedsUpdate nb o s; grow fuel s.

(** optics.go:181-195: the objects of each cluster; cluster 0 is noise. *)
Definition cluster1 (s : ostate) (st : list (list nat) * nat) (o : nat) : res (list (list nat) * nat) :=
  let (cids, idtrk) := st in
  if fgt (rdist s o) eps then
    if fge eps (cdist s o) then Ok (cids ++ [[o]], S idtrk)
    else c <- idx cids 0; Ok (set_nth 0 (c ++ [o]) cids, idtrk)
  else c <- idx cids idtrk; Ok (set_nth idtrk (c ++ [o]) cids, idtrk).

(** optics.go:174-209. *)
Definition extract (s : ostate) : res (list rowmap) :=
  st <- foldr_ (cluster1 s) (order s) ([[]], O);
  mapi (fun _ c => foldr_ (fun m o => row <- idx set o; Ok (rput m o row)) c []) (fst st).

(** optics.go:219-237. *)
Definition optics (fuel : nat) : res (list rowmap) :=
  s <- foldr_ (fun s i => if vst s i then Ok s else expand fuel i s) (seq 0 (length set))
         (mkO (fun _ => false) (fun _ => undef) (fun _ => undef) [] []);
  extract s.
End Optics.
