(** The Dennis-Ventura structure learner: /repo/learn/dennis.

    A scope (map[int]*learn.Variable, scope.go:8) is a [gmap] from variable identifiers to
    pointers (numbers; only copied). Ranging over maps uses the oracles [o], [ord] and [ordC],
    arbitrary permutations, chosen anew at every call of KMeansI. The external 2-means library is
    the oracle [km]. int is Z or nat without wrap around. *)
From Verif Require Import Base Res Arith GraphSpec Spn Leaves GoMap Build Struct.
Local Open Scope Z_scope.

(** len(m). *)
Definition len (s : gmap) : Z := Z.of_nat (length s).
(** _, e := t[k]. *)
Definition hasKey (t : gmap) (k : Z) : bool := match get t k with Some _ => true | None => false end.

Section Scope.
(** The order in which this call ranges over a map. *)
Variable o : gmap -> gmap.

(** learn/dennis/scope.go:21-30: the loop leaves at the first missing key. *)
Definition subsetOf (s t : gmap) : bool := forallb (fun e => hasKey t (fst e)) (o s).

(** learn/dennis/scope.go:33-49. *)
Definition lenUnion (s t : gmap) : Z :=
  let m := len t in let n := len s in
  let '(l, T, S') := if n <? m then (m, s, t) else (n, t, s) in
  fold_left (fun l e => if hasKey S' (fst e) then l else l + 1) (o T) l.

(** learn/dennis/scope.go:52-60. *)
Definition lenIntersect (s t : gmap) : Z :=
  fold_left (fun n e => if hasKey s (fst e) then n + 1 else n) (o t) 0.

(** learn/dennis/scope.go:63-71. *)
Definition minus (s t : gmap) : gmap :=
  fold_left (fun r e => if hasKey t (fst e) then r else put r (fst e) (snd e)) (o s) [].

(** learn/dennis/scope.go:74-91. *)
Definition equal (s t : gmap) : bool :=
  let n := len s in let m := len t in
  if negb (n =? m) then false else
  let '(S', T) := if m <? n then (s, t) else (t, s) in
  forallb (fun e => hasKey T (fst e)) (o S').

(** learn/dennis/scope.go:102-109. math.Max of two numbers that are not NaN. *)
Definition similarTo {A : arith} (s r t : gmap) (d : F A) : bool :=
  if (len s =? 0) || (len t =? 0) then false else
  let p1 : F A := fdiv (fz (lenIntersect s r)) (fz (lenUnion s r)) in
  let p2 : F A := fdiv (fz (lenIntersect s t)) (fz (lenUnion s t)) in
  fgt (if fgt p1 p2 then p1 else p2) d.

(** learn/dennis/scope.go:11-18. *)
Definition contains (S' : list gmap) (s : gmap) : bool := existsb (fun r => equal s r) S'.
End Scope.

(** map[int][]int: columns of data by variable. *)
Definition columns := list (Z * list Z).

(** learn/dennis/dennis.go:44-53: every row becomes a slice; an identifier that is not below the
    number of entries panics. The order of the entries of a row makes no difference and is left out. *)
Definition rowSlice (I : gmap) : res (list Z) :=
  foldr_ (fun a (e : Z * Z) =>
    if (fst e <? 0) || (len I <=? fst e) then Panic else Ok (set_nth (Z.to_nat (fst e)) (snd e) a))
    I (repeat 0 (length I)).
Definition dataToCluster (D : list gmap) : res (list (list Z)) := mapi (fun _ I => rowSlice I) D.

(** V[i] = append(V[i], p): learn/dennis/dennis.go:22. *)
Fixpoint addTo (V : columns) (i p : Z) : columns :=
  match V with
  | [] => [(i, [p])]
  | (j, c) :: t => if j =? i then (j, c ++ [p]) :: t else (j, c) :: addTo t i p
  end.
(** learn/dennis/dennis.go:12-26: the rows, by ascending key, become columns. *)
Definition transpose (C : list (list Z)) : columns :=
  fold_left (fun V c => fold_left (fun V (ip : nat * Z) => addTo V (Z.of_nat (fst ip)) (snd ip))
    (combine (seq 0 (length c)) c) V) C [].

(** learn/dennis/region.go:9-14 (rep belongs to the network building below) and partition.go:7-10.
    Partitions are pairs of regions. *)
Record region := mkReg { rsc : gmap; rch : list nat; rid : Z }.

(** learn/dennis/graph.go:11-16. Pointers to regions and partitions are positions in [regs] and
    [parts]; R holds all regions in order, the root first. The keys of P, the formatted identifiers
    of a partition and its regions, are triples. [calls] counts the calls of KMeansI. *)
Record rgraph := mkGraph { regs : list region; parts : list (list nat); pkeys : list (Z * Z * Z);
                           gid : Z; calls : nat }.

(** learn/dennis/graph.go:18-21. *)
Definition newGraph (sc : gmap) : rgraph := mkGraph [mkReg sc [] 0] [] [] 0 0.

(** learn/dennis/graph.go:23-27. *)
Definition registerRegion (G : rgraph) (s : gmap) : rgraph * nat :=
  (mkGraph (regs G ++ [mkReg s [] (gid G)]) (parts G) (pkeys G) (gid G + 1) (calls G), length (regs G)).

(** The first index at which [f] holds. *)
Fixpoint findi {X} (f : X -> bool) (l : list X) (i : nat) : option nat :=
  match l with [] => None | x :: t => if f x then Some i else findi f t (S i) end.

Section Learner.
Context {A : arith}.
Local Notation F := (F A).
Variable ord : nat -> gmap -> gmap.
Variable ordC : nat -> columns -> columns.
Variable km : nat -> list (list Z) -> list nat.

(** learn/dennis/graph.go:41-50. *)
Definition validateRegion (G : rgraph) (s : gmap) : rgraph * nat :=
  match findi (fun r => equal (ord (calls G)) s (rsc r)) (regs G) 0 with
  | Some i => (G, i)
  | None => registerRegion G s
  end.

(** learn/dennis/graph.go:53-59. *)
Definition allScopes (G : rgraph) : list gmap := map rsc (regs G).

Definition idOf (G : rgraph) (i : nat) : res Z := r <- idx (regs G) i; Ok (rid r).
Definition eqTriple (a b : Z * Z * Z) : bool :=
  let '(x, y, z) := a in let '(x', y', z') := b in (x =? x') && (y =? y') && (z =? z').

(** learn/dennis/graph.go:34-38. *)
Definition partKey (G : rgraph) (r s t : nat) : res (Z * Z * Z) :=
  x <- idOf G r; y <- idOf G s; z <- idOf G t; Ok (x, y, z).

(** newPartition, n.add, p.add twice and registerPartition: learn/dennis/dennis.go:100-104,
    graph.go:29-32. *)
Definition newPart (G : rgraph) (n n1 n2 : nat) : res rgraph :=
  r <- idx (regs G) n;
  k <- partKey G n n1 n2;
  Ok (mkGraph (set_nth n (mkReg (rsc r) (rch r ++ [length (parts G)]) (rid r)) (regs G))
              (parts G ++ [[n1; n2]]) (k :: pkeys G) (gid G) (calls G)).

(** learn/dennis/dennis.go:117-136. The columns of [C] within the scope, and their variables; M
    has len(S) rows, those not filled stay nil and have no entry in V. float64 of ints is exact. *)
Definition clusterToMatrix (o : columns -> columns) (C : columns) (s : gmap) : res (list (list Z) * list Z) :=
  let K := filter (fun e => hasKey s (fst e)) (o C) in
  if (length s <? length K)%nat then Panic
  else Ok (map snd K ++ repeat [] (length s - length K), map fst K).

(** learn/dennis/dennis.go:138-147. V[i] without an entry is 0; sn[p] without an entry is nil. *)
Definition partitionScope (calls : nat) (sn : gmap) (C : columns) : res (gmap * gmap) :=
  MV <- clusterToMatrix (ordC calls) C sn;
  foldi (fun i (ss : gmap * gmap) c =>
      let p := nth i (snd MV) 0 in
      if (c =? 0)%nat then Ok (put (fst ss) p (get0 sn p), snd ss)
      else if (c =? 1)%nat then Ok (fst ss, put (snd ss) p (get0 sn p)) else Panic)
    (km calls (fst MV)) ([], []).

(** learn/dennis/dennis.go:81-114. *)
Fixpoint expandRegionGraph (fuel : nat) (G : rgraph) (n : nat) (C : columns) (t : F) : res rgraph :=
  match fuel with
  | O => Fuel
  | S fuel =>
    rn <- idx (regs G) n;
    let sn := rsc rn in
    ss <- partitionScope (calls G) sn C;
    let G := mkGraph (regs G) (parts G) (pkeys G) (gid G) (S (calls G)) in
    let o := ord (calls G) in
    let Sc := allScopes G in
    let '(s1, s2) :=
      match find (fun s => subsetOf o s sn && negb (equal o s sn) && similarTo o s (fst ss) (snd ss) t) Sc with
      | Some s => (s, minus o sn s)
      | None => ss
      end in
    let '(G, n1) := validateRegion G s1 in
    let '(G, n2) := validateRegion G s2 in
    k <- partKey G n n1 n2;
    G <- (if existsb (eqTriple k) (pkeys G) then Ok G else newPart G n n1 n2);
    G <- (if negb (contains o Sc s1) && (1 <? len s1) then expandRegionGraph fuel G n1 C t else Ok G);
    (if negb (contains o Sc s2) && (1 <? len s2) then expandRegionGraph fuel G n2 C t else Ok G)
  end.

(** learn/dennis/dennis.go:55-79. [kmD] stands for cluster.KMeansDataI(k, D) and [db] for
    cluster.DBSCAN(learn.CompleteDataToMatrix(D), 4, 4). *)
Variable kmD : list gmap -> list (list gmap).
Variable db : list gmap -> list (list (list Z)).
Definition views (D : list gmap) (k : Z) : res (list columns) :=
  if 1 <? k then
    let C := kmD D in
    mapi (fun i _ => Di <- idx C i; c <- dataToCluster Di; Ok (transpose c)) (repeat tt (Z.to_nat k))
  else if k =? 1 then c <- dataToCluster D; Ok [transpose c]
  else Ok (map transpose (db D)).

(** In the Go code each view is computed just before it is used; a panic in a later one comes
    after the earlier expansions, which makes no difference to the result. *)
Definition buildRegionGraph (fuel : nat) (D : list gmap) (sc : gmap) (k : Z) (t : F) : res rgraph :=
  Cs <- views D k;
  foldr_ (fun G C => expandRegionGraph fuel G 0 C t) Cs (newGraph sc).

(** learn/dennis/graph.go:61-90: the visited regions and partitions, and the order so far. *)
Record visited := mkVis { vr : list nat; vp : list nat; out : list nat }.

Fixpoint postorderRec (G : rgraph) (fuel : nat) (n : nat) (V : visited) : res visited :=
  match fuel with
  | O => Fuel
  | S fuel =>
    r <- idx (regs G) n;
    V <- foldr_ (fun V p =>
           if memn p (vp V) then Ok V else
           cs <- idx (parts G) p;
           foldr_ (fun V c => if memn c (vr V) then Ok V
                              else postorderRec G fuel c (mkVis (c :: vr V) (vp V) (out V)))
             cs (mkVis (vr V) (p :: vp V) (out V)))
         (rch r) V;
    Ok (mkVis (vr V) (vp V) (out V ++ [n]))
  end.
Definition postorder (G : rgraph) (fuel : nat) : res (list nat) :=
  V <- postorderRec G fuel 0 (mkVis [0%nat] [] []); Ok (out V).

Variable par : Z -> nat -> F * F.
Variable logProb : F -> F -> F -> F.
Variables trunc round : F -> Z.
Variable rnd : nat -> Z.

(** (n *Node) AddChild: spn/node.go:97-99. *)
Definition addChild (o c : nat) (H : nodes A) : res (nodes A) :=
  x <- idx H o; Ok (set_nth o (mkNode (nk x) (nch x ++ [c])) H).

(** learn/dennis/region.go:24-49. The parameters of the Gaussians (utils.MuSigma,
    utils.PartitionQuantiles) are [par]; [g] is the number of Gaussians and [nd] = len(D). *)
Definition translate (s : gmap) (nd m g : nat) (H : nodes A) : nodes A * list nat :=
  match s with
  | [(v, _)] =>
    let q := if (nd <? g)%nat then 1%nat else g in
    (H ++ map (fun i => mkNode (KLeaf (gaussLeaf logProb trunc round v (fst (par v i)) (snd (par v i)))) [])
              (seq 0 q), seq (length H) q)
  | _ => (H ++ repeat (mkNode (KSum []) []) m, seq (length H) m)
  end.

(** learn/dennis/dennis.go:169-176: every sum of [N] gets every product of [O'] with a random
    weight; [i] counts the calls of sys.RandIntn(10). *)
Definition linkSums (N O' : list nat) (st : nodes A * nat) : res (nodes A * nat) :=
  foldr_ (fun st n =>
    foldr_ (fun (st : nodes A * nat) o => H <- addChildW n o (fz (rnd (snd st) + 1)) (fst st);
                                          Ok (H, S (snd st)))
      O' st) N st.

(** learn/dennis/dennis.go:179-187. *)
Definition linkProds (O' S1 S2 : list nat) (H : nodes A) : res (nodes A) :=
  foldi (fun i H (cc : nat * nat) =>
    o <- idx O' i; H <- addChild o (fst cc) H; addChild o (snd cc) H)
    (list_prod S1 S2) H.

(** learn/dennis/dennis.go:162-188. [rep] is the field rep of the regions, nil (empty) at first. *)
Definition buildPart (G : rgraph) (rep : nat -> list nat) (N : list nat) (p : nat) (st : nodes A * nat) :
    res (nodes A * nat) :=
  cs <- idx (parts G) p;
  c0 <- idx cs 0; c1 <- idx cs 1;
  let n := (length (rep c0) * length (rep c1))%nat in
  let O' := seq (length (fst st)) n in
  st <- linkSums N O' (fst st ++ repeat (mkNode KProd []) n, snd st);
  H <- linkProds O' (rep c0) (rep c1) (fst st);
  Ok (H, snd st).

(** learn/dennis/dennis.go:153-159. *)
Definition buildRegion (G : rgraph) (nd m g : nat) (st : (nodes A * nat) * (nat -> list nat)) (r : nat) :
    res ((nodes A * nat) * (nat -> list nat)) :=
  let '((H, i), rep) := st in
  rr <- idx (regs G) r;
  let '(H, N) := if (r =? 0)%nat then (H ++ [mkNode (KSum []) []], [length H])
                 else translate (rsc rr) nd m g H in
  let rep := upd rep r N in
  st <- foldr_ (fun st p => buildPart G rep N p st) (rch rr) (H, i);
  Ok (st, rep).

(** learn/dennis/dennis.go:149-191. *)
Definition buildSPN (fuel : nat) (G : rgraph) (nd m g : nat) : res (nodes A * nat) :=
  R <- postorder G fuel;
  st <- foldr_ (buildRegion G nd m g) R (([], O), fun _ => []);
  root <- idx (snd st O) 0;
  Ok (fst (fst st), root).

(** learn/dennis/dennis.go:193-200 without NormalizeSPN. *)
Definition structureRaw (fuel : nat) (D : list gmap) (sc : gmap) (k : Z) (m g : nat) (t : F) : res (nodes A * nat) :=
  G <- buildRegionGraph fuel D sc k t;
  buildSPN fuel G (length D) m g.
End Learner.

(** learn/dennis/dennis.go:193-200. NormalizeSPN visits every node once, so it needs as much fuel
    as there are nodes. *)
Definition structure {A : arith} ord ordC km kmD db (par : Z -> nat -> F A * F A) logProb trunc round rnd
    fuel D sc k m g (t : F A) : res (network A * nat) :=
  Hz <- structureRaw ord ordC km kmD db par logProb trunc round rnd fuel D sc k m g t;
  net <- normalizeSPN (netOf (fst Hz)) (S (length (fst Hz))) (snd Hz);
  Ok (net, snd Hz).
