(** C56 and C57: region codes and the Poon-Domingos architecture. *)
From Verif Require Import Base Res Arith GraphSpec Spn Leaves Build Poon PoonSpec PoonCodes PoonCases ProbSpec InferLemmas.
Local Open Scope Z_scope.

(** C56: within the bound every code is decoded to the coordinates it was made from. *)
Theorem region_code_roundtrip :
  forall w h, 0 <= w -> 0 <= h -> codes_fit w h -> forall x1 y1 x2 y2,
  0 <= x1 <= w -> 0 <= x2 <= w -> 0 <= y1 <= h -> 0 <= y2 <= h ->
  decode w h (encode w h x1 y1 x2 y2) = Ok (x1, y1, x2, y2).
Proof. exact decode_encode_l. Qed.
Print Assumptions region_code_roundtrip.

(** C56: so codes are unique. *)
Theorem region_code_unique :
  forall w h, 0 <= w -> 0 <= h -> codes_fit w h -> forall x1 y1 x2 y2 x1' y1' x2' y2',
  0 <= x1 <= w -> 0 <= x2 <= w -> 0 <= y1 <= h -> 0 <= y2 <= h ->
  0 <= x1' <= w -> 0 <= x2' <= w -> 0 <= y1' <= h -> 0 <= y2' <= h ->
  encode w h x1 y1 x2 y2 = encode w h x1' y1' x2' y2' -> (x1, y1, x2, y2) = (x1', y1', x2', y2').
Proof. exact encode_inj_l. Qed.
Print Assumptions region_code_unique.

Example region_code_case : codes_fit 64 48 /\ decode 64 48 (encode 64 48 3 0 64 48) = Ok (3, 0, 64, 48).
Proof. split; [vm_compute; discriminate|vm_compute; reflexivity]. Qed.

(** C56: the bound is exact: beyond it two sets of coordinates share a code. *)
Theorem region_code_bound :
  forall w h, 0 <= w -> 0 <= h -> w < 2 ^ 63 - 1 -> h < 2 ^ 63 - 1 -> ~ codes_fit w h ->
  exists x1 y1 x2 y2, 0 <= x1 <= w /\ 0 <= x2 <= w /\ 0 <= y1 <= h /\ 0 <= y2 <= h /\
    (x1, y1, x2, y2) <> (0, 0, 0, 0) /\ encode w h x1 y1 x2 y2 = encode w h 0 0 0 0.
Proof. exact encode_overflow_l. Qed.
Print Assumptions region_code_bound.

(** C56: and two regions can. *)
Theorem region_code_clash :
  exists w h a b, inside w h a /\ inside w h b /\ a <> b /\
  encode w h (left a) (top a) (right a) (bottom a) = encode w h (left b) (top b) (right b) (bottom b).
Proof. exact region_code_clash_l. Qed.
Print Assumptions region_code_clash.

(** C57: every rectangle made of whole cells or within one cell has a region. *)
Theorem regions_exist :
  forall (A : arith) w h par logProb trunc round, 0 < w -> 0 < h -> codes_fit w h ->
  forall m g r, 0 < r -> (0 < m)%nat -> (0 < g)%nat -> (r | w) -> (r | h) ->
  forall H L a, @createRegions A w h par logProb trunc round m g r = Ok (H, L) ->
  inside w h a -> region_at r a ->
  exists R, L (encode w h (left a) (top a) (right a) (bottom a)) = Some R /\ rinner R <> [].
Proof. exact @regions_exist_l. Qed.
Print Assumptions regions_exist.

(** C57: conRegions finds all the regions it looks up, and the network it returns is complete and
    decomposable over exactly the pixels of the image, without cycles, with weights 1 to 10. *)
Theorem con_regions_valid :
  forall (A : arith) w h par logProb trunc round rnd, 0 < w -> 0 < h -> codes_fit w h ->
  forall m g r, 0 < r -> (forall i, 0 <= rnd i < 10) -> (0 < m)%nat -> (0 < g)%nat -> (r | w) -> (r | h) ->
  exists H L N, @createRegions A w h par logProb trunc round m g r = Ok (H, L) /\
  forall fuel, (N <= fuel)%nat -> exists H' z, conRegions w h rnd L r fuel H = Ok (H', z) /\
  (forall p, in_scope (netOf H') z p <-> 0 <= p < w * h) /\ complete (netOf H') z /\
  decomposable (netOf H') z /\ acyclic_from (children (netOf H')) z /\ small_weights (A:=A) (netOf H') z.
Proof. exact @con_valid_l. Qed.
Print Assumptions con_regions_valid.

Example con_regions_case : zcon 4 2 2 2 2 100 = Ok (89, 0, [37; 38; 39; 40])%nat.
Proof. vm_compute. reflexivity. Qed.
Example con_regions_hyp : codes_fit 4 2 /\ (2 | 4) /\ (2 | 2) /\ forall i, 0 <= zrnd i < 10.
Proof.
  split; [vm_compute; discriminate|]. split; [exists 2; reflexivity|]. split; [exists 1; reflexivity|].
  intros i. apply Z.mod_pos_bound. reflexivity.
Qed.

(** C57: likewise connectRegions, unless the image is a single cell. *)
Theorem connect_regions_valid :
  forall (A : arith) w h par logProb trunc round rnd, 0 < w -> 0 < h -> codes_fit w h ->
  forall m g r, 0 < r -> (forall i, 0 <= rnd i < 10) -> (0 < m)%nat -> (0 < g)%nat -> (r | w) -> (r | h) ->
  ~ (w = r /\ h = r) ->
  exists H L H' z, @createRegions A w h par logProb trunc round m g r = Ok (H, L) /\
  connectRegions w h rnd L r H = Ok (H', Some z) /\
  (forall p, in_scope (netOf H') z p <-> 0 <= p < w * h) /\ complete (netOf H') z /\
  decomposable (netOf H') z /\ acyclic_from (children (netOf H')) z /\ small_weights (A:=A) (netOf H') z.
Proof. exact @connect_valid_l. Qed.
Print Assumptions connect_regions_valid.

Example connect_regions_case : zconnect 4 2 2 2 2 = Ok (105, Some 0)%nat.
Proof. vm_compute. reflexivity. Qed.

(** C57: for a single cell it returns nil. *)
Theorem connect_regions_cell :
  forall (A : arith) w h par logProb trunc round rnd, 0 < w -> 0 < h -> codes_fit w h ->
  forall m g r, 0 < r -> (forall i, 0 <= rnd i < 10) -> (0 < m)%nat -> (0 < g)%nat -> (r | w) -> (r | h) ->
  w = r -> h = r ->
  exists H L H', @createRegions A w h par logProb trunc round m g r = Ok (H, L) /\
  connectRegions w h rnd L r H = Ok (H', None).
Proof. exact @connect_cell_l. Qed.
Print Assumptions connect_regions_cell.

Example connect_regions_cell_case : zconnect 2 2 2 2 2 = Ok (50, None)%nat /\ zcon 2 2 2 2 2 100 = Ok (42, 16, [18; 19; 20; 21; 22; 23; 24; 25])%nat.
Proof. vm_compute. auto. Qed.

(** C57: when the resolution does not divide both sides, conRegions panics. *)
Theorem con_regions_indivisible :
  forall (A : arith) w h par logProb trunc round rnd, 0 < w -> 0 < h -> codes_fit w h ->
  forall m g r, 0 < r -> forall H L fuel, ~ ((r | w) /\ (r | h)) ->
  @createRegions A w h par logProb trunc round m g r = Ok (H, L) -> (2 <= fuel)%nat ->
  conRegions w h rnd L r fuel H = Panic.
Proof. exact @con_indivisible_l. Qed.
Print Assumptions con_regions_indivisible.

Example con_regions_indivisible_case : zcon 3 2 1 1 2 100 = Panic.
Proof. vm_compute. reflexivity. Qed.
