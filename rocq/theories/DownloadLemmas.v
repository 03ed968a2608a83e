(** Proofs about the data set functions. *)
From Coq Require Import Ascii String.
From Verif Require Import Base Res GoMap Parse Img Download DownloadSpec.
Local Open Scope string_scope.
Local Open Scope Z_scope.

(** A URL and the file for it. *)
Definition pairsOf (c : call) : list (string * string) :=
  match c with
  | CSet name => [(upstreamURL name, fullPath name)]
  | CMnist n b => [(mnistURL "test" n b, mnistPath "test" n b); (mnistURL "train" n b, mnistPath "train" n b)]
  end.
Definition allPairs : list (string * string) := flat_map pairsOf calls.

Lemma slash_in a b : existsb (Ascii.eqb "/") (list_ascii_of_string (a ++ String "/" b)) = true.
Proof. induction a as [|c a IH]; cbn [append list_ascii_of_string existsb]; [reflexivity|]. rewrite IH. apply Bool.orb_true_r. Qed.

Lemma lastPart_app a b : lastPart (a ++ String "/" b) = lastPart b.
Proof.
  induction a as [|c a IH]; [reflexivity|]. cbn [append lastPart]. rewrite slash_in, IH. destruct (Ascii.eqb c "/"); auto.
Qed.

Lemma ext_path cwd p : ext (getPath cwd p) = ext p.
Proof. unfold ext, getPath. change ("/" ++ p) with (String "/" p). rewrite lastPart_app. auto. Qed.

Lemma append_inj a b c : a ++ b = a ++ c -> b = c.
Proof. induction a as [|x a IH]; cbn; [auto|]. intros H. injection H as H. auto. Qed.

Lemma getPath_inj cwd p q : getPath cwd p = getPath cwd q -> p = q.
Proof. intros H. apply append_inj in H. injection H as H. auto. Qed.

Lemma pairs_target cwd u p : In (u, p) allPairs -> target cwd u p = getPath cwd p.
Proof.
  intros H. unfold target. rewrite ext_path. assert (E : forallb (fun x => negb (String.eqb (ext (snd x)) "")) allPairs = true) by (vm_compute; reflexivity).
  rewrite forallb_forall in E. apply E in H. cbn [snd] in H. apply Bool.negb_true_iff in H. rewrite H. auto.
Qed.

Definition pairEqb (x y : string * string) : bool := String.eqb (fst x) (fst y) && String.eqb (snd x) (snd y).
Lemma pairs_fun u v p : In (u, p) allPairs -> In (v, p) allPairs -> u = v.
Proof.
  intros Hu Hv.
  assert (E : forallb (fun x => forallb (fun y => negb (String.eqb (snd x) (snd y)) || String.eqb (fst x) (fst y)) allPairs) allPairs = true) by (vm_compute; reflexivity).
  rewrite forallb_forall in E. apply E in Hu. rewrite forallb_forall in Hu. apply Hu in Hv. cbn [fst snd] in Hv. rewrite String.eqb_refl in Hv. cbn [negb orb] in Hv.
  apply String.eqb_eq in Hv. auto.
Qed.

Lemma pairs_in c u p : In c calls -> In (u, p) (pairsOf c) -> In (u, p) allPairs.
Proof. intros Hc H. apply in_flat_map. eauto. Qed.

Lemma pairs_source u p : In (u, p) allPairs -> source u.
Proof.
  intros H. apply in_flat_map in H as (c & Hc & H). exists c. split; auto. destruct c as [name|n b]; cbn in *.
  - destruct H as [H|[]]. injection H as <- <-. left; auto.
  - destruct H as [H|[H|[]]]; injection H as <- <-; [left|right; left]; unfold mnistURL, mnistFile; auto.
Qed.

Lemma dput_same d f e : dput d f e f = e.
Proof. unfold dput. rewrite String.eqb_refl. auto. Qed.
Lemma dput_other d f g e : f <> g -> dput d f e g = d g.
Proof. unfold dput. intros H. apply String.eqb_neq in H. rewrite H. auto. Qed.

Section Net.
Variable cwd : string.
Variable creatable : string -> bool.
Variable net : nat -> string -> reply.
Local Notation download := (downloadFromURL cwd creatable net).
Local Notation perform := (perform cwd creatable net).
Local Notation session := (session cwd creatable net).

(** What is there stays, without a request. *)
Lemma download_exists s u p : (exists t, fst s (target cwd u p) = AFile t) \/ fst s (target cwd u p) = ADir -> download s u p false = (s, RetNil).
Proof. destruct s as (d & k). cbn [fst]. intros [(t & E)|E]; unfold downloadFromURL; rewrite E; auto. Qed.

Lemma download_keeps s u p g : fst s g <> Absent -> fst (fst (download s u p false)) g = fst s g.
Proof.
  destruct s as (d & k). cbn [fst]. intros H. unfold downloadFromURL. destruct (d (target cwd u p)) eqn:E; auto.
  assert (target cwd u p <> g) by congruence.
  destruct (creatable _); auto. destruct (net k u); cbn [fst]; rewrite ?dput_other; auto.
Qed.

Lemma download_frame s u p o g : g <> target cwd u p -> fst (fst (download s u p o)) g = fst s g.
Proof.
  destruct s as (d & k). cbn [fst]. intros H. assert (target cwd u p <> g) by congruence. unfold downloadFromURL.
  destruct (d (target cwd u p)) eqn:E; try destruct o; cbn [fst]; auto;
    (destruct (creatable _); auto; destruct (net k u); cbn [fst]; rewrite ?dput_other; auto).
Qed.

(** With [override]: nil means the file holds what arrived. *)
Lemma download_stores d k u p s' : download (d, k) u p true = (s', RetNil) ->
  exists st text, net k u = Reply st text true /\ fst s' (target cwd u p) = AFile text /\ snd s' = S k.
Proof.
  unfold downloadFromURL. destruct (d (target cwd u p)); try discriminate;
    (destruct (creatable _); [|discriminate]; destruct (net k u) as [|st tx w] eqn:En; [discriminate|];
     intros H; destruct w; [|discriminate]; injection H as <-; exists st, tx; cbn [fst snd]; rewrite dput_same; auto).
Qed.

Lemma perform_keeps s c g : fst s g <> Absent -> fst (fst (perform s c)) g = fst s g.
Proof.
  intros H. destruct c as [name|n b]; cbn [Download.perform]; unfold dataset, pullMNIST.
  - pose proof (download_keeps s (upstreamURL name) (fullPath name) g H) as K.
    destruct (download s _ _ false) as (s1 & o). cbn [fst] in K. destruct o; try exact K.
  - pose proof (download_keeps s (mnistURL "test" n b) (mnistPath "test" n b) g H) as K.
    destruct (download s _ _ false) as (s1 & o). cbn [fst] in K. destruct o; try exact K.
    assert (H1 : fst s1 g <> Absent) by congruence.
    pose proof (download_keeps s1 (mnistURL "train" n b) (mnistPath "train" n b) g H1) as K1.
    destruct (download s1 _ _ false) as (s2 & o2). cbn [fst] in K1. destruct o2; (etransitivity; [exact K1|exact K]).
Qed.

Lemma session_keeps_l : forall cs s g, fst s g <> Absent -> fst (fst (session s cs)) g = fst s g.
Proof.
  induction cs as [|c cs IH]; intros s g H; auto. cbn [Download.session]. pose proof (perform_keeps s c g H) as K.
  destruct (perform s c) as (s1 & a). cbn [fst] in K. assert (H1 : fst s1 g <> Absent) by congruence. specialize (IH s1 g H1).
  destruct (session s1 cs) as (s2 & l). cbn [fst] in *. etransitivity; [exact IH|exact K].
Qed.

(** A network that can be relied on. *)
Variable published : string -> string.
Definition good (d : disk) : Prop := forall u p, In (u, p) allPairs -> d (getPath cwd p) = Absent \/ d (getPath cwd p) = AFile (published u).

Lemma download_good s u p : reliable published net -> (forall f, creatable f = true) -> In (u, p) allPairs -> good (fst s) ->
  exists s', download s u p false = (s', RetNil) /\ fst s' (getPath cwd p) = AFile (published u) /\ good (fst s').
Proof.
  intros Hn Hc Hp Hg. destruct s as (d & k). cbn [fst] in *. unfold downloadFromURL. rewrite (pairs_target cwd u p Hp).
  destruct (Hg u p Hp) as [E|E]; rewrite E; [|eexists; eauto].
  rewrite Hc. destruct (Hn k u (pairs_source _ _ Hp)) as (st & ->). eexists. split; [reflexivity|]. cbn [fst]. rewrite dput_same. split; auto.
  intros v q Hq. destruct (string_dec (getPath cwd p) (getPath cwd q)) as [Eq|Ne].
  - apply getPath_inj in Eq. subst q. rewrite dput_same. right. f_equal. f_equal. eapply pairs_fun; eauto.
  - rewrite !dput_other by auto. auto.
Qed.

Lemma perform_good s c : reliable published net -> (forall f, creatable f = true) -> parsable published -> In c calls -> good (fst s) ->
  delivered published c (snd (perform s c)) /\ good (fst (fst (perform s c))).
Proof.
  intros Hn Hc Hp Hin Hg.
  destruct c as [name|n b]; cbn [Download.perform]; unfold dataset, pullMNIST.
  - assert (H1 : In (upstreamURL name, fullPath name) allPairs) by (eapply pairs_in; eauto; left; auto).
    destruct (download_good s _ _ Hn Hc H1 Hg) as (s1 & -> & Ef & Hg1). cbn [fst snd]. split; auto.
    unfold parseFile. rewrite Ef. destruct (Hp _ (pairs_source _ _ H1)) as (x & Ex). unfold data_of in Ex. rewrite Ex. cbn [bind].
    split; [exact Ex|eauto].
  - assert (H1 : In (mnistURL "test" n b, mnistPath "test" n b) allPairs) by (eapply pairs_in; eauto; left; auto).
    assert (H2 : In (mnistURL "train" n b, mnistPath "train" n b) allPairs) by (eapply pairs_in; eauto; right; left; auto).
    destruct (download_good s _ _ Hn Hc H1 Hg) as (s1 & -> & Ef & Hg1).
    assert (Hne : fst s1 (getPath cwd (mnistPath "test" n b)) <> Absent) by (intros X; pose proof (eq_trans (eq_sym Ef) X); discriminate).
    pose proof (download_keeps s1 (mnistURL "train" n b) (mnistPath "train" n b) (getPath cwd (mnistPath "test" n b)) Hne) as K.
    destruct (download_good s1 _ _ Hn Hc H2 Hg1) as (s2 & E2 & Ef2 & Hg2). rewrite E2 in K. rewrite E2. cbn [fst snd] in *. split; auto. pose proof (eq_trans K Ef) as K'.
    clear K E2. destruct s2 as (d2 & k2). cbn [fst] in *. unfold parseFile. rewrite K', Ef2. destruct (Hp _ (pairs_source _ _ H1)) as ((v & t) & Ex). destruct (Hp _ (pairs_source _ _ H2)) as ((v2 & r) & Ey).
    pose proof Ex as Ex'. pose proof Ey as Ey'. unfold data_of in Ex', Ey'. rewrite Ex', Ey'. cbn [bind fst snd]. split; [|eauto]. exists v2. split; auto.
Qed.

Lemma session_good_l : reliable published net -> (forall f, creatable f = true) -> parsable published ->
  forall cs s, good (fst s) -> (forall c, In c cs -> In c calls) -> Forall2 (delivered published) cs (snd (session s cs)).
Proof.
  intros Hn Hc Hp. induction cs as [|c cs IH]; intros s Hg Hin; [constructor|]. cbn [Download.session].
  destruct (perform_good s c Hn Hc Hp (Hin c (or_introl eq_refl)) Hg) as (Hd & Hg1). destruct (perform s c) as (s1 & a). cbn [fst snd] in *.
  specialize (IH s1 Hg1 (fun x Hx => Hin x (or_intror Hx))). destruct (session s1 cs) as (s2 & l). cbn [snd] in *. constructor; auto.
Qed.

(** Without a connection: a panic, and an empty file that stays. *)
Lemma dataset_offline d k name : In (CSet name) calls -> d (getPath cwd (fullPath name)) = Absent -> (forall f, creatable f = true) ->
  net k (upstreamURL name) = NoReply ->
  exists s', dataset cwd creatable net (d, k) name = (s', Panic) /\
    dataset cwd creatable net s' name = (s', Ok (Some ([], [[]]))).
Proof.
  intros Hin Hd Hc Hn. assert (Hp : In (upstreamURL name, fullPath name) allPairs) by (eapply pairs_in; eauto; left; auto).
  unfold dataset. unfold downloadFromURL at 1. rewrite (pairs_target _ _ _ Hp), Hd, Hc, Hn. eexists. split; [reflexivity|].
  rewrite download_exists by (rewrite (pairs_target _ _ _ Hp); cbn [fst]; rewrite dput_same; eauto).
  unfold parseFile. cbn [fst]. rewrite dput_same. reflexivity.
Qed.
End Net.

(** The cases *)
Definition sheet : string := "var 0 2" ++ newline ++ "var 1 3" ++ newline ++ "0 2" ++ newline ++ "1 1" ++ newline.
Definition cutSheet : string := "var 0 2" ++ newline ++ "var 1 3" ++ newline ++ "0 2" ++ newline.
Definition pub : string -> string := fun _ => sheet.
Definition good_net : nat -> string -> reply := fun _ _ => Reply 200 sheet true.
(** The first transfer breaks off. *)
Definition broken_net (k : nat) (u : string) : reply := match k with O => Reply 200 cutSheet false | _ => Reply 200 sheet true end.
(** The second one does. *)
Definition second_net (k : nat) (u : string) : reply := match k with S O => Reply 200 cutSheet false | _ => Reply 200 sheet true end.
(** The server answers with an error page. *)
Definition error_net (k : nat) (u : string) : reply := Reply 404 "404: Not Found" true.

Lemma sheet_parses : data_of pub "" = Ok ([(1, 3); (0, 2)], [[(1, 2); (0, 0)]; [(1, 1); (0, 1)]]).
Proof. vm_compute. reflexivity. Qed.

Lemma pub_parsable : parsable pub.
Proof. intros u _. eexists. exact sheet_parses. Qed.

Lemma broken_honest : honest pub broken_net.
Proof.
  intros k u. right. destruct k as [|k].
  - exists cutSheet, false. split; auto. exists ("1 1" ++ newline). split; [reflexivity|discriminate].
  - exists sheet, true. split; auto. exists "". split; [reflexivity|auto].
Qed.
Lemma second_honest : honest pub second_net.
Proof.
  intros k u. right. destruct k as [|[|k]].
  - exists sheet, true. split; auto. exists "". split; [reflexivity|auto].
  - exists cutSheet, false. split; auto. exists ("1 1" ++ newline). split; [reflexivity|discriminate].
  - exists sheet, true. split; auto. exists "". split; [reflexivity|auto].
Qed.

Definition run net cs := snd (session "/home/me" (fun _ => true) net (emptyDisk, O) cs).

Lemma broken_l : exists published net, parsable published /\ honest published net /\
  ~ Forall2 (right published) [CSet "digits"; CSet "digits"] (run net [CSet "digits"; CSet "digits"]).
Proof.
  exists pub, broken_net. split; [exact pub_parsable|]. split; [exact broken_honest|].
  assert (E : run broken_net [CSet "digits"; CSet "digits"] = [ASet (Ok None); ASet (Ok (Some ([(1, 3); (0, 2)], [[(1, 2); (0, 0)]])))]) by (vm_compute; reflexivity).
  rewrite E. intros H. inversion H as [|? ? ? ? _ H2]; subst. inversion H2 as [|? ? ? ? H3 _]; subst. cbn [right] in H3.
  pose proof (eq_trans (eq_sym H3) sheet_parses) as X. injection X as X. discriminate.
Qed.

Lemma second_l : exists published net, parsable published /\ honest published net /\
  ~ Forall2 (right published) [CMnist 1000 8] (run net [CMnist 1000 8]).
Proof.
  exists pub, second_net. split; [exact pub_parsable|]. split; [exact second_honest|].
  assert (E : run second_net [CMnist 1000 8] = [AMnist (Ok (Some ([(1, 3); (0, 2)], [[(1, 2); (0, 0)]; [(1, 1); (0, 1)]], [[(1, 2); (0, 0)]])))]) by (vm_compute; reflexivity).
  rewrite E. intros H. inversion H as [|? ? ? ? H3 _]; subst. cbn [right] in H3. destruct H3 as (v & _ & H3).
  pose proof (eq_trans (eq_sym H3) sheet_parses) as X. injection X as _ X. discriminate.
Qed.

Lemma status_l : exists published net, parsable published /\ (forall k u, exists st text, net k u = Reply st text true /\ (st = 200 -> text = published u)) /\
  ~ Forall2 (right published) [CSet "digits"] (run net [CSet "digits"]).
Proof.
  exists pub, error_net. split; [exact pub_parsable|]. split.
  { intros k u. exists 404, "404: Not Found". split; [reflexivity|discriminate]. }
  assert (E : run error_net [CSet "digits"] = [ASet (Ok (Some ([], [[]])))]) by (vm_compute; reflexivity).
  rewrite E. intros H. inversion H as [|? ? ? ? H3 _]; subst. cbn [right] in H3.
  pose proof (eq_trans (eq_sym H3) sheet_parses) as X. discriminate.
Qed.

Lemma good_net_reliable : reliable pub good_net.
Proof. intros k u _. exists 200. reflexivity. Qed.
Lemma empty_good cwd published : good cwd published emptyDisk.
Proof. intros u p _. left. reflexivity. Qed.

Lemma session_fresh_l cwd creatable net published : reliable published net -> (forall f, creatable f = true) -> parsable published ->
  forall cs k, (forall c, In c cs -> In c calls) -> Forall2 (delivered published) cs (snd (session cwd creatable net (emptyDisk, k) cs)).
Proof. intros Hn Hc Hp cs k Hin. apply session_good_l; auto. apply empty_good. Qed.
