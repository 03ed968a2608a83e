(** C105: the data sets that are downloaded. *)
From Coq Require Import Ascii String.
From Verif Require Import Base Res GoMap Parse Img Download DownloadSpec DownloadLemmas.
Local Open Scope string_scope.
Local Open Scope Z_scope.

(** Starting without files and with a network that delivers everything: every call gives the published data. *)
Theorem datasets_published_partial :
  forall cwd creatable net published, reliable published net -> (forall f, creatable f = true) -> parsable published ->
  forall cs k, (forall c, In c cs -> In c calls) ->
  Forall2 (delivered published) cs (snd (session cwd creatable net (emptyDisk, k) cs)).
Proof. exact session_fresh_l. Qed.
Print Assumptions datasets_published_partial.

(** A transfer that breaks off: the next call returns the part that arrived. *)
Theorem datasets_published_refuted :
  exists published net, parsable published /\ honest published net /\
  ~ Forall2 (right published) [CSet "digits"; CSet "digits"] (run net [CSet "digits"; CSet "digits"]).
Proof. exact broken_l. Qed.
Print Assumptions datasets_published_refuted.

(** pullMNIST returns it at once. *)
Theorem mnist_published_refuted :
  exists published net, parsable published /\ honest published net /\
  ~ Forall2 (right published) [CMnist 1000 8] (run net [CMnist 1000 8]).
Proof. exact second_l. Qed.
Print Assumptions mnist_published_refuted.

(** An error page is taken for the data. *)
Theorem datasets_status_refuted :
  exists published net, parsable published /\
  (forall k u, exists st text, net k u = Reply st text true /\ (st = 200 -> text = published u)) /\
  ~ Forall2 (right published) [CSet "digits"] (run net [CSet "digits"]).
Proof. exact status_l. Qed.
Print Assumptions datasets_status_refuted.

(** Without a connection a call panics, and later calls return a data set of one empty row. *)
Theorem dataset_offline_panics :
  forall cwd creatable net d k name, In (CSet name) calls -> d (getPath cwd (fullPath name)) = Absent ->
  (forall f, creatable f = true) -> net k (upstreamURL name) = NoReply ->
  exists s', dataset cwd creatable net (d, k) name = (s', Panic) /\
    dataset cwd creatable net s' name = (s', Ok (Some ([], [[]]))).
Proof. exact dataset_offline. Qed.
Print Assumptions dataset_offline_panics.

(** Whatever the network does, a file or folder that is there is never changed, ... *)
Theorem session_keeps :
  forall cwd creatable net cs s g, fst s g <> Absent -> fst (fst (session cwd creatable net s cs)) g = fst s g.
Proof. exact session_keeps_l. Qed.
Print Assumptions session_keeps.

(** ... DownloadFromURL changes no other file even when it may override, and nil means that the file holds what arrived. *)
Theorem download_other_files :
  forall cwd creatable net s u p o g, g <> target cwd u p -> fst (fst (downloadFromURL cwd creatable net s u p o)) g = fst s g.
Proof. exact download_frame. Qed.
Print Assumptions download_other_files.

Theorem download_override :
  forall cwd creatable net d k u p s', downloadFromURL cwd creatable net (d, k) u p true = (s', RetNil) ->
  exists st text, net k u = Reply st text true /\ fst s' (target cwd u p) = AFile text /\ snd s' = S k.
Proof. exact download_stores. Qed.
Print Assumptions download_override.

(** The cases *)
Example datasets_case :
  reliable pub good_net /\ parsable pub /\ honest pub broken_net /\
  run good_net [CSet "digits"; CMnist 1000 8; CSet "digits"] =
  [ASet (Ok (Some ([(1, 3); (0, 2)], [[(1, 2); (0, 0)]; [(1, 1); (0, 1)]])));
   AMnist (Ok (Some ([(1, 3); (0, 2)], [[(1, 2); (0, 0)]; [(1, 1); (0, 1)]], [[(1, 2); (0, 0)]; [(1, 1); (0, 1)]])));
   ASet (Ok (Some ([(1, 3); (0, 2)], [[(1, 2); (0, 0)]; [(1, 1); (0, 1)]])))].
Proof. split; [exact good_net_reliable|]. split; [exact pub_parsable|]. split; [exact broken_honest|]. vm_compute. reflexivity. Qed.

Example download_case :
  target "/home/me" "http://a.b/c/d.txt" "out" = "/home/me/out/d.txt" /\
  target "/home/me" "http://a.b/c/d.txt" "x.y/out.txt" = "/home/me/x.y/out.txt" /\
  snd (downloadFromURL "/home/me" (fun _ => true) good_net (emptyDisk, O) "http://a.b/c/d.txt" "out" true) = RetNil.
Proof. repeat split; reflexivity. Qed.
