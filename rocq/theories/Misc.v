(** Small functions of io, app, sys and common: balanced reading, image halves, random pairs and
    hue conversion. *)
From Coq Require Import Reals.
From Verif Require Import Base Res GoMap.

(** io/npy.go:70-81. n/k panics for k = 0. Sizes are not negative (make would panic). *)
Definition newCounts (n k : nat) : res (list nat) :=
  match k with
  | O => Panic
  | _ => Ok (map (fun i => if Nat.ltb i (n mod k) then n / k + 1 else n / k) (seq 0 k))
  end.

(** m[y-1]: the last column of the row is its label. *)
Definition rowLabel (row : list Z) : res Z := match rev row with [] => Panic | l :: _ => Ok l end.
(** D[i][j] = int(m[j]) for j < y-1. *)
Definition rowMap (row : list Z) : gmap := combine (map Z.of_nat (seq 0 (length row - 1))) (removelast row).

(** The loop of io/npy.go:92-215; the eight cases differ in the element type only. [rows] are the
    rows not yet read, [k] = n - i; reading past the end is the error return, None. The result
    lists the instances and labels. *)
Fixpoint readLoop (rows : list (list Z)) (k : nat) (C : list nat) : res (option (list (gmap * Z))) :=
  match k with
  | O => Ok (Some [])
  | S k' =>
      match rows with
      | [] => Ok None
      | row :: rest =>
          l <- rowLabel row;
          cl <- idxZ C l;
          match cl with
          | O => readLoop rest (S k') C
          | S cl' =>
              r <- readLoop rest k' (set_nth (Z.to_nat l) cl' C);
              Ok (match r with Some D => Some ((rowMap row, l) :: D) | None => None end)
          end
      end
  end.

(** io/npy.go:87-218. *)
Definition readBalanced (rows : list (list Z)) (n c : nat) : res (option (list (gmap * Z))) :=
  C <- newCounts n c; readLoop rows n C.

(** sys/rand.go:52-72. [K] is the result of Random.Perm(u*v). *)
Definition allPairs (u v : nat) : list (nat * nat) := flat_map (fun i => map (fun j => (i, j)) (seq 0 v)) (seq 0 u).
Definition randomComb (K : list nat) (u v m : nat) : res (list (nat * nat)) :=
  mapi (fun i _ => k <- idx K i; idx (allPairs u v) k) (repeat tt m).

(** io/output.go:14-29. *)
Inductive cmplType := Top | Bottom | Left | Right.

(** One step of the loops of io/images.go:14-20 and 26-35: P[p] = O[p] or Q[p] = O[p]. *)
Definition share (O : gmap) (first : bool) (p : nat) (PQ : gmap * gmap) : gmap * gmap :=
  let p := Z.of_nat p in
  if first then (put (fst PQ) p (get0 O p), snd PQ) else (fst PQ, put (snd PQ) p (get0 O p)).

(** P, Q := make(spn.VarSet), make(spn.VarSet): io/images.go:10. *)
Definition noMaps : gmap * gmap := ([], []).

(** io/images.go:9-40. Sizes are not negative. *)
Definition splitHalf (O : gmap) (t : cmplType) (w h : nat) : gmap * gmap :=
  let n := w * h in
  match t with
  | Top | Bottom =>
      let PQ := fold_left (fun PQ i => share O (Nat.ltb i (n / 2)) i PQ) (seq 0 n) noMaps in
      match t with Bottom => (snd PQ, fst PQ) | _ => PQ end
  | _ =>
      let PQ := fold_left (fun PQ x => fold_left (fun PQ y => share O (Nat.ltb x (w / 2)) (x + y * w) PQ) (seq 0 h) PQ)
                          (seq 0 w) noMaps in
      match t with Right => (snd PQ, fst PQ) | _ => PQ end
  end.

(** app/image.go:137-154: the pixels to complete. p%w panics for w = 0. *)
Definition criteria (typ : cmplType) (w h : nat) (p : Z) : res bool :=
  let w := Z.of_nat w in let h := Z.of_nat h in
  match typ with
  | Top => Ok (p <? w * (Z.quot h 2))%Z
  | Bottom => Ok (negb (p <? w * (Z.quot h 2)))%Z
  | Left => if (w =? 0)%Z then Panic else Ok (Z.rem p w <? Z.quot w 2)%Z
  | Right => if (w =? 0)%Z then Panic else Ok (negb (Z.rem p w <? Z.quot w 2))%Z
  end.

(** app/image.go:133-171. [set] lists its entries in the order in which range yields them, [map_]
    is StoreMAP on the network. *)
Definition halfImg (map_ : gmap -> res gmap) (set : gmap) (typ : cmplType) (w h : nat) : res (gmap * gmap) :=
  half <- foldr_ (fun half e => b <- criteria typ w h (fst e); Ok (if b then half else put half (fst e) (snd e))) set [];
  cmpl <- map_ half;
  Ok (fold_left (fun c k => del c k) (keys half) cmpl, half).

(** common/color.go:44-54. *)
Record rgb := mkRgb { red : R; green : R; blue : R }.
(** int(x) truncates. *)
Definition truncZ (x : R) : Z := if Rle_dec 0 x then Int_part x else (- Int_part (- x))%Z.

Local Open Scope R_scope.
(** common/color.go:112-161, over the reals. *)
Definition hsv2rgb (h s v : R) : rgb :=
  if Rle_dec s 0 then mkRgb v v v
  else
    let hh := (if Rle_dec 360 h then 0 else h) / 60 in
    let i := truncZ hh in
    let ff := hh - IZR i in
    let p := v * (1 - s) in
    let q := v * (1 - s * ff) in
    let t := v * (1 - s * (1 - ff)) in
    match i with
    | 0%Z => mkRgb v t p
    | 1%Z => mkRgb q v p
    | 2%Z => mkRgb p v t
    | 3%Z => mkRgb p q v
    | 4%Z => mkRgb t p v
    | 5%Z => mkRgb 0 0 0
    | _ => mkRgb v p q
    end.
