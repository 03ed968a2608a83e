(** C109: saving networks to files and loading them. *)
From Coq Require Import String QArith.
From Verif Require Import Base Res Arith GraphSpec Topo TopoLemmas Leaves Codec Serial SerialSpec SerialCases SaveLoad SaveLoadSpec SaveLoadLemmas SaveLoadCases.
Local Open Scope nat_scope.

(** After any number of completed saves to any files, loading a file gives a copy of the network saved
    to it last, and the other files are as they were. As in C32, for networks where no child is reachable
    from a later sibling. *)
Theorem save_load_session_partial : forall (A : arith) (exact : F A -> num) (near : num -> F A) enc dec creatable,
  self_delimiting enc dec -> gt_ordered (A := A) ->
  forall (ws : list (string * net)) (d : files),
  Forall (fun w => creatable (fst w) = true /\
    let '(cont, ch, N, r) := snd w in
    bounded ch N /\ r < N /\ (Z.of_nat N < 2 ^ 32)%Z /\ (forall u, reach ch r u -> ints_ok (cont u)) /\ acyclic ch /\ siblings_ok ch) ws ->
  exists d', saveAll exact enc creatable d ws = (d', Ok true) /\
  forall f, match last_write f ws with
            | Some (cont, ch, N, r) => exists h r', loadSPN near dec d' f = Ok (Some (h, r')) /\ copy_of (node_kept exact near) cont ch r h r'
            | None => d' f = d f
            end.
Proof. exact (fun A exact near enc dec creatable SD GO => session_l exact near enc dec creatable SD GO). Qed.
Print Assumptions save_load_session_partial.

(** Two files, one of them written twice, with a code that exists. *)
Example save_load_session_case : self_delimiting codeOf uncode /\ gt_ordered (A := QA) /\
  good (layers_cont, layers, 5, 0) /\ good (layers_cont, layers, 5, 2) /\
  (let ws := [("a"%string, (layers_cont, layers, 5, 0)); ("b"%string, (layers_cont, layers, 5, 1)); ("a"%string, (layers_cont, layers, 5, 2))] in
   match loadSPN qnear uncode (fst (saveAll qexact codeOf (fun _ => true) nofiles ws)) "a" with
   | Ok (Some (h, r)) => length h = 3 /\ r = Some 2
   | _ => False
   end).
Proof.
  split; [exact code_ok|]. split; [exact QA_ordered|]. split; [exact layers_good|]. split.
  - destruct layers_good as (H1 & H2 & H3 & H4 & H5 & H6). repeat split; auto; try lia. destruct layers_ok as (_ & _ & _ & H). intros u _. apply H.
  - vm_compute. auto.
Qed.

(** A save that fails while writing: whatever was in the file before is gone, and what is loaded from it
    is a panic or a network without any links, never an error; for all networks. *)
Theorem failed_save : forall (A : arith) (exact : F A -> num) (near : num -> F A) enc dec creatable,
  self_delimiting enc dec -> forall (d : files) f cont ch N r,
  bounded ch N -> r < N -> (Z.of_nat N < 2 ^ 32)%Z -> (forall u, reach ch r u -> ints_ok (cont u)) -> creatable f = true ->
  exists start total, start < total /\
  (forall k, k < start -> exists d', saveSPN exact enc creatable d f (Some k) cont ch (2 * N + 1) r = (d', Ok false) /\ loadSPN near dec d' f = Panic) /\
  (forall k, start <= k < total -> exists d' h r', saveSPN exact enc creatable d f (Some k) cont ch (2 * N + 1) r = (d', Ok false) /\
     loadSPN near dec d' f = Ok (Some (h, Some r')) /\ r' < length h /\ Forall (fun x => snd x = []) h).
Proof. exact (fun A exact near enc dec creatable SD => failed_l exact near enc dec creatable SD). Qed.
Print Assumptions failed_save.

Example failed_save_case :
  (exists d, saveSPN qexact codeOf (fun _ => true) nofiles "a" (Some 20) layers_cont layers 11 0 = (d, Ok false) /\ loadSPN qnear uncode d "a" = Panic) /\
  (exists b, fst (saveSPN qexact codeOf (fun _ => true) nofiles "a" None layers_cont layers 11 0) "a"%string = Some b /\ 20 < length b).
Proof. split; eexists; split; [reflexivity|vm_compute; reflexivity|vm_compute; reflexivity|cbn [length]; lia]. Qed.

(** The property asked for: a save that reports an error leaves the file as it was, or at least a load
    afterwards reports an error. False: a network was saved, saving it again fails, and the file then
    loads, without any error, as a network that is not a copy. *)
Theorem failed_save_refuted : forall enc dec, self_delimiting enc dec ->
  exists (f : string) (d1 d2 : files) (k : nat) (h h' : memory (A := QA)) (r r' : option nat),
  saveSPN qexact enc (fun _ => true) nofiles f None layers_cont layers 11 0 = (d1, Ok true) /\
  loadSPN qnear dec d1 f = Ok (Some (h, r)) /\ copy_of (node_kept qexact qnear) layers_cont layers 0 h r /\
  saveSPN qexact enc (fun _ => true) d1 f (Some k) layers_cont layers 11 0 = (d2, Ok false) /\
  loadSPN qnear dec d2 f = Ok (Some (h', r')) /\ ~ copy_of (node_kept qexact qnear) layers_cont layers 0 h' r'.
Proof. exact overwrite_refuted_l. Qed.
Print Assumptions failed_save_refuted.

(** Loading a damaged file reports an error. False: it panics. *)
Theorem load_damaged_refuted : forall enc dec, self_delimiting enc dec -> exists (f : string) (d : files) (k : nat),
  saveSPN qexact enc (fun _ => true) nofiles f (Some k) layers_cont layers 11 0 = (d, Ok false) /\ loadSPN qnear dec d f = Panic.
Proof. exact cut_refuted_l. Qed.
Print Assumptions load_damaged_refuted.

(** ReadFromFile reads what a file holds. False of every file that can be created: it is emptied, nothing
    is returned, and a network saved there cannot be loaded again. *)
Theorem read_from_file_refuted : forall (A : arith) (near : num -> F A) dec creatable (d : files) f, creatable f = true ->
  exists d', readFromFile creatable d f = (d', Ok None) /\ d' f = Some [] /\ loadSPN near dec d' f = Panic /\
  forall g, g <> f -> d' g = d g.
Proof. exact (fun A near dec creatable => empties_l near dec creatable). Qed.
Print Assumptions read_from_file_refuted.

Example read_from_file_case :
  loadSPN qnear uncode (fst (saveSPN qexact codeOf (fun _ => true) nofiles "a" None layers_cont layers 11 0)) "a" <> Panic /\
  loadSPN qnear uncode (fst (readFromFile (fun _ => true) (fst (saveSPN qexact codeOf (fun _ => true) nofiles "a" None layers_cont layers 11 0)) "a")) "a" = Panic.
Proof. split; [vm_compute; discriminate|vm_compute; reflexivity]. Qed.
