(** The Poon-Domingos architecture for images: /repo/learn/poon/poon.go:12-20, 43-335 (regions,
    their codes, their creation and the two functions connecting all of them).

    The package variables [w] and [h] (poon.go:15-19) are parameters. int is Z, except in Encode
    and Decode where uint64 arithmetic is explicit. The parameters of the Gaussian leaves
    (utils.MuSigma, utils.PartitionQuantiles, poon.go:101-117) are given by [par]; the numbers of
    nodes per region [m] and of Gaussians per pixel [g] are naturals (make panics on a negative
    length). sys.RandIntn(10) is the oracle [rnd], indexed by the number of earlier calls. *)
From Verif Require Import Base Res Arith GraphSpec Spn Leaves Build.
Local Open Scope Z_scope.

(** Conversions to uint64 and to int. *)
Definition u64 (z : Z) : Z := z mod 18446744073709551616.
Definition i64 (z : Z) : Z :=
  let u := u64 z in if u <? 9223372036854775808 then u else u - 18446744073709551616.

(** for x := a; x <= b; x += d, for d > 0: the values of x. *)
Definition steps (a b d : Z) : list Z :=
  map (fun i => a + Z.of_nat i * d) (seq 0 (Z.to_nat ((b - a + d) / d))).

Section Codes.
Variables w h : Z.

(** learn/poon/poon.go:70-73. *)
Definition encode (x1 y1 x2 y2 : Z) : Z :=
  let w' := u64 (w + 1) in let h' := u64 (h + 1) in
  let a := u64 (u64 (u64 y1 * w') + u64 x1) in
  let b := u64 (u64 (a * w') + u64 x2) in
  u64 (u64 (b * h') + u64 y2).

(** learn/poon/poon.go:76-85. Division by zero panics. *)
Definition decode (k : Z) : res (Z * Z * Z * Z) :=
  let w' := u64 (w + 1) in let h' := u64 (h + 1) in
  if (w' =? 0) || (h' =? 0) then Panic else
  let y2 := i64 (k mod h') in
  let c := u64 (k - u64 y2) / h' in
  let x2 := i64 (c mod w') in
  let c := u64 (c - u64 x2) / w' in
  let x1 := i64 (c mod w') in
  let y1 := i64 (u64 (c - u64 x1) / w') in
  Ok (x1, y1, x2, y2).
End Codes.

Section Poon.
Context {A : arith}.
Local Notation F := (F A).
Variables w h : Z.
Variable par : Z -> nat -> F * F.
Variable logProb : F -> F -> F -> F.
Variables trunc round : F -> Z.
Variable rnd : nat -> Z.

(** learn/poon/poon.go:43-51: the fields used while connecting. *)
Record region := mkRegion { rinner : list nat; rstep : Z }.

(** L: map[uint64]*region; an absent key gives nil. *)
Definition table := Z -> option region.

(** createSum and createRegion, learn/poon/poon.go:87-97: [n] fresh sum nodes. *)
Definition createSums (n : nat) (step : Z) (H : nodes A) : nodes A * region :=
  (H ++ repeat (mkNode (KSum []) []) n, mkRegion (seq (length H) n) step).

(** createUnitRegion, learn/poon/poon.go:99-124: [n] Gaussians over pixel x + y*w. *)
Definition createUnit (x y : Z) (n : nat) (H : nodes A) : nodes A * region :=
  let p := x + y * w in
  (H ++ map (fun i => mkNode (KLeaf (gaussLeaf logProb trunc round p (fst (par p i)) (snd (par p i)))) [])
            (seq 0 n),
   mkRegion (seq (length H) n) 1).

(** The iterations of the loops over coarse regions, learn/poon/poon.go:131-138 and 255-279:
    (ca, cb, x1, y1). *)
Definition coarse (r cw ch : Z) : list (Z * Z * Z * Z) :=
  flat_map (fun ca => flat_map (fun cb => flat_map (fun x1 =>
    map (fun y1 => (ca, cb, x1, y1)) (steps 0 (h - cb * r) r))
    (steps 0 (w - ca * r) r)) (steps 1 ch 1)) (steps 1 cw 1).

(** The iterations of the loops over fine regions, learn/poon/poon.go:154-161 and 306-313:
    (x, y, x1, y1). *)
Definition fine (r cw ch : Z) : list (Z * Z * Z * Z) :=
  flat_map (fun ca => flat_map (fun cb => flat_map (fun x => flat_map (fun y => flat_map (fun x1 =>
    map (fun y1 => (x, y, x1, y1)) (steps (cb * r) ((cb + 1) * r - y) 1))
    (steps (ca * r) ((ca + 1) * r - x) 1)) (steps 1 r 1)) (steps 1 r 1))
    (steps 0 (ch - 1) 1)) (steps 0 (cw - 1) 1).

(** One coarse region: learn/poon/poon.go:135-149. *)
Definition createCoarse (m : nat) (r cw ch : Z) (st : nodes A * table) (i : Z * Z * Z * Z)
  : nodes A * table :=
  let '(H, L) := st in
  let '(ca, cb, x1, y1) := i in
  if (ca =? 1) && (cb =? 1) then (H, L) else
  let k := encode w h x1 y1 (x1 + ca * r) (y1 + cb * r) in
  let (H, R) := createSums (if (ca =? cw) && (cb =? ch) then 1%nat else m) r H in
  (H, updZ L k (Some R)).

(** One fine region: learn/poon/poon.go:162-174. *)
Definition createFine (m g : nat) (r : Z) (st : nodes A * table) (i : Z * Z * Z * Z)
  : nodes A * table :=
  let '(H, L) := st in
  let '(x, y, x1, y1) := i in
  let k := encode w h x1 y1 (x1 + x) (y1 + y) in
  let (H, R) := if (x =? 1) && (y =? 1) then createUnit x1 y1 g H else
                createSums m (if (x <=? r) || (y <=? r) then 1 else r) H in
  (H, updZ L k (Some R)).

(** learn/poon/poon.go:126-181. Division by zero panics. *)
Definition createRegions (m g : nat) (r : Z) : res (nodes A * table) :=
  if r =? 0 then Panic else
  let cw := Z.quot w r in let ch := Z.quot h r in
  Ok (fold_left (createFine m g r) (fine r cw ch)
       (fold_left (createCoarse m r cw ch) (coarse r cw ch) ([], fun _ => None))).

(** The innermost loop of linkRegions, learn/poon/poon.go:189-192: [pi] under every sum. The
    state is the allocated nodes and the number of random draws. *)
Definition linkSums (pi : nat) (R : list nat) (st : nodes A * nat) : res (nodes A * nat) :=
  foldr_ (fun st s => H <- addChildW s pi (fz (rnd (snd st) + 1)) (fst st); Ok (H, S (snd st))) R st.

(** learn/poon/poon.go:183-196; P and Q are S and T there. A nil region is dereferenced only when the loop around it runs. *)
Definition linkRegions (R P Q : option region) (st : nodes A * nat) : res (nodes A * nat) :=
  match P with
  | None => Panic
  | Some P =>
      foldr_ (fun st s =>
        match Q with
        | None => Panic
        | Some Q =>
            foldr_ (fun st t =>
              let (H, pi) := newNode (mkNode KProd [s; t]) (fst st) in
              match R with
              | None => Panic
              | Some R => linkSums pi (rinner R) (H, snd st)
              end) (rinner Q) st
        end) (rinner P) st
  end.

(** L[l].inner[0]. *)
Definition firstInner (R : option region) : res nat :=
  match R with None => Panic | Some R => idx (rinner R) 0 end.

Section Con.
Variable L : table.
Variable r : Z.

(** The two regions of a vertical and of a horizontal cut, in the order of conRegions:
    learn/poon/poon.go:219 and 234. *)
Definition cutX (x1 y1 x2 y2 x : Z) : Z * Z := (encode w h x y1 x2 y2, encode w h x1 y1 x y2).
Definition cutY (x1 y1 x2 y2 y : Z) : Z * Z := (encode w h x1 y x2 y2, encode w h x1 y1 x2 y).

(** if !V[p] { Q.Enqueue(p); V[p] = true }. *)
Definition visit (p : Z) (QV : list Z * list Z) : list Z * list Z :=
  let '(Q, V) := QV in
  if existsb (Z.eqb p) V then (Q, V) else (Q ++ [p], p :: V).

(** Body of the split loops: learn/poon/poon.go:219-230, 234-245. *)
Definition conCut (k : Z) (s : (nodes A * nat) * (list Z * list Z)) (pq : Z * Z)
  : res ((nodes A * nat) * (list Z * list Z)) :=
  st <- linkRegions (L k) (L (fst pq)) (L (snd pq)) (fst s);
  Ok (st, visit (snd pq) (visit (fst pq) (snd s))).

(** The cuts of one region: learn/poon/poon.go:207-234. *)
Definition conCuts (x1 y1 x2 y2 : Z) : list (Z * Z) :=
  let d := if (x2 - x1 <=? r) && (y2 - y1 <=? r) then 1 else r in
  map (cutX x1 y1 x2 y2) (steps (x1 + d) (x2 - 1) d) ++
  map (cutY x1 y1 x2 y2) (steps (y1 + d) (y2 - 1) d).

(** for !Q.Empty(): learn/poon/poon.go:205-246. *)
Fixpoint conLoop (fuel : nat) (s : (nodes A * nat) * (list Z * list Z)) : res (nodes A * nat) :=
  match fuel with
  | O => Fuel
  | S f =>
      match snd s with
      | ([], _) => Ok (fst s)
      | (k :: Q, V) =>
          c <- decode w h k;
          let '(x1, y1, x2, y2) := c in
          s' <- foldr_ (conCut k) (conCuts x1 y1 x2 y2) (fst s, (Q, V));
          conLoop f s'
      end
  end.

(** learn/poon/poon.go:198-249. For r < 0 there are no regions and the first cut panics. *)
Definition conRegions (fuel : nat) (H : nodes A) : res (nodes A * nat) :=
  if r <=? 0 then Panic else
  let l := encode w h 0 0 w h in
  st <- conLoop fuel ((H, O), ([l], [l]));
  z <- firstInner (L l);
  Ok (fst st, z).

(** The cuts of one region in connectRegions: learn/poon/poon.go:265-274, 288-298, 319-328. *)
Definition cuts (d x1 y1 x2 y2 : Z) : list (Z * Z) :=
  map (fun x => (encode w h x1 y1 x y2, encode w h x y1 x2 y2)) (steps (x1 + d) (x2 - 1) d) ++
  map (fun y => (encode w h x1 y x2 y2, encode w h x1 y1 x2 y)) (steps (y1 + d) (y2 - 1) d).

(** R := L[k] and the loops linking it. *)
Definition connect (d x1 y1 x2 y2 : Z) (st : nodes A * nat) : res (nodes A * nat) :=
  foldr_ (fun st pq => linkRegions (L (encode w h x1 y1 x2 y2)) (L (fst pq)) (L (snd pq)) st)
         (cuts d x1 y1 x2 y2) st.

(** learn/poon/poon.go:258-277: the cells, with unit cuts. *)
Definition connectCells (st : nodes A * nat) : res (nodes A * nat) :=
  foldr_ (fun st x1 => foldr_ (fun st y1 => connect 1 x1 y1 (x1 + r) (y1 + r) st)
                              (steps 0 (h - 1) r) st)
         (steps 0 (w - 1) r) st.

(** learn/poon/poon.go:254-302. The second component of the state is Z. *)
Definition connectCoarse (st : nodes A * nat) : res ((nodes A * nat) * option nat) :=
  let cw := Z.quot w r in let ch := Z.quot h r in
  foldr_ (fun s c =>
    let '(ca, cb) := c in
    if (ca =? 1) && (cb =? 1) then st <- connectCells (fst s); Ok (st, snd s) else
    foldr_ (fun s x1 => foldr_ (fun s y1 =>
        let x2 := x1 + ca * r in let y2 := y1 + cb * r in
        z <- (if (ca =? cw) && (cb =? ch)
              then z <- firstInner (L (encode w h x1 y1 x2 y2)); Ok (Some z) else Ok (snd s));
        st <- connect r x1 y1 x2 y2 (fst s);
        Ok (st, z)) (steps 0 (h - cb * r) r) s) (steps 0 (w - ca * r) r) s)
    (list_prod (steps 1 cw 1) (steps 1 ch 1)) (st, None).

(** learn/poon/poon.go:304-333. *)
Definition connectFine (st : nodes A * nat) : res (nodes A * nat) :=
  foldr_ (fun st i =>
    let '(x, y, x1, y1) := i in
    if (x =? 1) && (y =? 1) then Ok st else connect 1 x1 y1 (x1 + x) (y1 + y) st)
    (fine r (Z.quot w r) (Z.quot h r)) st.

(** learn/poon/poon.go:251-335. The result None is a nil network. *)
Definition connectRegions (H : nodes A) : res (nodes A * option nat) :=
  if r =? 0 then Panic else
  s <- connectCoarse (H, O);
  st <- connectFine (fst s);
  Ok (fst st, snd s).
End Con.
End Poon.
