(** C32, C33: saving and loading networks. *)
From Coq Require Import QArith Qabs.
From Verif Require Import Base Res Arith GraphSpec GraphLemmas Topo TopoLemmas Spn Leaves Codec
  Serial SerialSpec CodecLemmas SerialLemmas SerialCases.
Local Open Scope Z_scope.

(** C33: every node is read back, its numbers within half a unit of the sixth decimal. *)
Theorem node_codec : forall (A : arith) (exact : F A -> num) (near : num -> F A) (c : content A),
  gt_ordered (A := A) -> ints_ok c ->
  exists c', gobDecode near (fst (gobEncode exact c)) (snd (gobEncode exact c)) = Ok (Some c') /\
    node_kept exact near c c'.
Proof. exact (fun A exact near c GO H => codec_kept exact near GO c H). Qed.
Print Assumptions node_codec.

Example node_codec_case : gt_ordered (A := QA) /\
  gobDecode qnear TMulti (snd (gobEncode qexact
    (CMulti (mkMulti (A := QA) [7] (-12) [1 # 3; 2 # 3; 0]%Q 1 (2 # 3)%Q))))
  = Ok (Some (CMulti (mkMulti (A := QA) [-12] (-12) [sixth 333333; sixth 666667; sixth 0] 1
                              (sixth 666667)))).
Proof. split; [exact QA_ordered|vm_compute; reflexivity]. Qed.

(** C33: saving a loaded node again and loading it gives the same node. *)
Theorem node_codec_stable : forall (A : arith) (exact : F A -> num) (near : num -> F A)
  (c c' : content A),
  accurate exact near -> ints_ok c -> unit_weights exact c ->
  gobDecode near (fst (gobEncode exact c)) (snd (gobEncode exact c)) = Ok (Some c') ->
  gobDecode near (fst (gobEncode exact c')) (snd (gobEncode exact c')) = Ok (Some c').
Proof. exact (fun A exact near c c' => codec_stable_l exact near c c'). Qed.
Print Assumptions node_codec_stable.

Example node_codec_stable_case : accurate qexact qnear /\
  unit_weights (A := QA) qexact (CSum (A := QA) [1 # 3; 2 # 3]%Q).
Proof.
  split; [exact QA_accurate|]. repeat constructor; eexists; (split; [reflexivity|]);
  unfold Qle; simpl; lia.
Qed.

(** C33: small weights disappear. *)
Theorem node_codec_tiny_lost : forall (A : arith) (exact : F A -> num) (near : num -> F A) w q,
  exact w = Val q -> (Qabs q <= 5 # 10000000)%Q ->
  gobDecode near (fst (gobEncode exact (CSum [w]))) (snd (gobEncode exact (CSum [w])))
  = Ok (Some (CSum [near (Val (sixth 0))])).
Proof. exact (fun A exact near w q => tiny_lost_l exact near w q). Qed.
Print Assumptions node_codec_tiny_lost.

(** C33: the mode of a multinomial whose largest probability is tied is not kept. *)
Theorem node_codec_mode_refuted : exists (m m' : multinomial QA) rnd,
  newMultinomial (A := QA) rnd 3 [sixth 500000; sixth 500000] = Ok m /\
  gobDecode qnear (fst (gobEncode qexact (CMulti m))) (snd (gobEncode qexact (CMulti m)))
  = Ok (Some (CMulti m')) /\
  option_map (fun r => fst r 3) (multiArgMax m (fun _ => None)) = Some (Some 1) /\
  option_map (fun r => fst r 3) (multiArgMax m' (fun _ => None)) = Some (Some 0).
Proof. exact mode_refuted_l. Qed.
Print Assumptions node_codec_mode_refuted.

(** C32, for networks where no child is reachable from a later sibling (trees, layers). Missing:
    the others (refuted below). *)
Theorem marshal_copy_partial : forall (A : arith) (exact : F A -> num) (near : num -> F A)
  (cont : nat -> content A) (ch : graph) (N r : nat),
  bounded ch N -> (r < N)%nat -> Z.of_nat N < 2 ^ 32 ->
  (forall u, reach ch r u -> ints_ok (cont u)) -> gt_ordered (A := A) ->
  acyclic ch -> siblings_ok ch ->
  exists m h r', marshal exact cont ch (2 * N + 1) r = Ok m /\ unmarshal near m = Ok (h, r') /\
    copy_of (node_kept exact near) cont ch r h r'.
Proof. exact (fun A exact near => marshal_copy_l exact near). Qed.
Print Assumptions marshal_copy_partial.

(** C32: when moreover every number has six decimals, the loaded network answers every query as
    the saved one did. *)
Theorem marshal_same_answers_partial : forall (A : arith) (exact : F A -> num)
  (near : num -> F A) (K : content A -> kind A) (cont : nat -> content A) (ch : graph) (N r : nat),
  bounded ch N -> (r < N)%nat -> Z.of_nat N < 2 ^ 32 ->
  (forall u, reach ch r u -> ints_ok (cont u) /\ plain exact near (cont u)) ->
  acyclic ch -> siblings_ok ch ->
  exists m h r', marshal exact cont ch (2 * N + 1) r = Ok m /\
    unmarshal near m = Ok (h, Some r') /\
    forall net', describes K h net' -> forall fuel I,
      value net' fuel I r' = value (network_of K cont ch) fuel I r /\
      max_ net' fuel I r' = max_ (network_of K cont ch) fuel I r /\
      argMax net' fuel I r' = argMax (network_of K cont ch) fuel I r.
Proof. exact (fun A exact near => same_answers_sib exact near). Qed.
Print Assumptions marshal_same_answers_partial.

Example marshal_case : bounded layers 5 /\ acyclic layers /\ siblings_ok layers /\
  (forall u, ints_ok (layers_cont u) /\ plain qexact qnear (layers_cont u)) /\
  (m <- marshal qexact layers_cont layers 11 0; x <- unmarshal qnear m; Ok (map snd (fst x), snd x))
  = Ok ([[]; []; [Some 1; Some 0]; [Some 1; Some 0]; [Some 3; Some 2]], Some 4)%nat.
Proof.
  destruct layers_ok as (H1 & H2 & H3 & H4). do 4 (split; [assumption|]). vm_compute. reflexivity.
Qed.

(** C32, every network, cycles included: what is loaded. A child given after its parent in the
    sort is replaced by the first node. *)
Theorem marshal_links : forall (A : arith) (exact : F A -> num) (near : num -> F A)
  (cont : nat -> content A) (ch : graph) (N r : nat),
  bounded ch N -> (r < N)%nat -> Z.of_nat N < 2 ^ 32 ->
  (forall u, reach ch r u -> ints_ok (cont u)) ->
  exists m h r' l, marshal exact cont ch (2 * N + 1) r = Ok m /\
    unmarshal near m = Ok (h, Some r') /\ topSortTarjan ch (2 * N + 1) r = Some l /\
    length h = length l /\ nth_error l r' = Some r /\
    forall i u, nth_error l i = Some u -> exists c' cs,
      nth_error h i = Some (c', map Some cs) /\
      Forall2 (fun c k => exists j, nth_error l j = Some c /\ k = (if j <=? i then j else 0)%nat)
              (ch u) cs.
Proof. exact (fun A exact near => marshal_links_l exact near). Qed.
Print Assumptions marshal_links.

(** C32: a network of two sums and a shared leaf is loaded with a cycle; its Value never
    returns. *)
Theorem marshal_refuted : forall (A : arith) (exact : F A -> num) (near : num -> F A),
  exists cont ch N r m h r',
  bounded ch N /\ acyclic ch /\ (r < N)%nat /\ Z.of_nat N < 2 ^ 32 /\
  (forall u, ints_ok (cont u)) /\
  marshal exact cont ch (2 * N + 1) r = Ok m /\ unmarshal near m = Ok (h, Some r') /\
  ~ copy_of (fun _ _ => True) cont ch r h (Some r') /\
  forall logProb trunc round net', describes (kind_of logProb trunc round) h net' ->
  forall fuel I, value net' fuel I r' = Fuel.
Proof. exact (fun A exact near => marshal_refuted_l exact near). Qed.
Print Assumptions marshal_refuted.
