(** The files that the completion jobs leave, and executions. *)
From Coq Require Import Ascii String.
From Verif Require Import Base Res GoMap TextSpec TextLemmas TopoLemmas Text Misc Img ImgCmpl Conc ConcSpec ConcLemmas Jobs JobsSpec ImgConcLemmas JobsLemmas.
From Verif Require ImgCases.
Local Open Scope string_scope.
Local Open Scope Z_scope.

(** Names. *)
Lemma digits_dash d1 d2 r1 r2 : allChars isDigit d1 -> allChars isDigit d2 -> d1 ++ String "-" r1 = d2 ++ String "-" r2 -> d1 = d2 /\ r1 = r2.
Proof.
  revert d2. induction d1 as [|c d1 IH]; intros [|c' d2] H1 H2 E; cbn [append] in E.
  - injection E as ->. auto.
  - injection E as <- _. destruct H2 as (H2 & _). exfalso. apply H2. reflexivity.
  - injection E as -> _. destruct H1 as (H1 & _). exfalso. apply H1. reflexivity.
  - injection E as -> E. destruct H1 as (_ & H1), H2 as (_ & H2). destruct (IH d2 H1 H2 E) as (-> & ->). auto.
Qed.
Lemma nat_digits k : allChars isDigit (numeral (Z.of_nat k)).
Proof.
  destruct k as [|k].
  - split; [discriminate|exact Logic.I].
  - destruct (numeral_shape (Z.of_nat (S k))) as (neg & ds & E & Hne & Hc & Hv & Hs). destruct neg; [lia|rewrite E; auto].
Qed.
Lemma app_eq s t1 t2 : s ++ t1 = s ++ t2 -> t1 = t2.
Proof. induction s as [|c s IH]; auto. cbn [append]. intros E. injection E as E. auto. Qed.
Lemma instanceFile_inj a b u v : instanceFile a u = instanceFile b v -> a = b /\ u = v.
Proof.
  unfold instanceFile. intros E. apply app_eq in E. cbn [append] in E. apply digits_dash in E as (E1 & E2); auto using nat_digits. split.
  - apply ImgCases.numeral_inj in E1. lia.
  - destruct u, v; auto; discriminate.
Qed.
Lemma completion_name id i v : completionName id i v = instanceFile id v.
Proof. destruct v; reflexivity. Qed.
Lemma test_name id k v : testName id (Z.of_nat k) v = quadrantFile k v.
Proof. destruct v; reflexivity. Qed.

(** Training data. *)
Lemma combine_seq_in (rows : list (gmap * Z)) a j r : In (j, r) (combine (seq a (List.length rows)) rows) -> (a <= j)%nat /\ nth_error rows (j - a) = Some r.
Proof.
  revert a. induction rows as [|r0 rows IH]; intros a; [intros []|]. cbn [List.length seq combine]. intros [E|H].
  - injection E as <- <-. split; [lia|]. rewrite Nat.sub_diag. auto.
  - destruct (IH _ H) as (H1 & H2). split; [lia|]. replace (j - a)%nat with (S (j - S a)) by lia. auto.
Qed.
Lemma filter_same {T} (f g : T -> bool) l : (forall x, In x l -> f x = g x) -> filter f l = filter g l.
Proof. induction l as [|a l IH]; auto. intros H. cbn [filter]. rewrite (H a) by (left; auto). rewrite IH; auto. intros; apply H; right; auto. Qed.
Lemma train_others rows id row l : nth_error rows id = Some (row, l) -> trainOn rows (fun k => negb (k =? l)) id = othersOf rows l.
Proof.
  intros E. unfold trainOn, othersOf. rewrite (filter_same _ (fun jr => negb (snd (snd jr) =? l))).
  - clear E. generalize 0%nat. induction rows as [|r rows IH]; intros a; auto. cbn [List.length seq combine filter map fst snd]. destruct (snd r =? l); cbn [negb map fst snd]; rewrite IH; auto.
  - intros (j & r) Hj. apply combine_seq_in in Hj as (_ & Hj). cbn [fst snd]. rewrite Nat.sub_0_r in Hj. destruct (Nat.eqb_spec id j) as [<-|]; auto. rewrite E in Hj. injection Hj as <-. cbn [snd]. rewrite Z.eqb_refl. auto.
Qed.
Lemma train_allBut rows id : trainOn rows (fun _ => true) id = allBut rows id.
Proof.
  unfold trainOn, allBut. rewrite (filter_same _ (fun jr => negb (Nat.eqb id (fst jr)))) by (intros; rewrite andb_true_r; auto).
  assert (G : forall (rs : list (gmap * Z)) a, map (fun jr : nat * (gmap * Z) => fst (snd jr)) (filter (fun jr => negb (Nat.eqb (id + a) (fst jr))) (combine (seq a (List.length rs)) rs)) = map fst (firstn id rs ++ skipn (S id) rs)).
  { induction id as [|id IH]; intros rs a.
    - destruct rs as [|r rs]; auto. cbn [List.length seq combine filter fst Nat.add]. rewrite Nat.eqb_refl. cbn [negb firstn skipn app].
      rewrite (filter_same _ (fun _ => true)).
      + clear. generalize (S a). induction rs as [|r rs IH]; intros b; auto. cbn [List.length seq combine filter map fst snd]. f_equal. auto.
      + intros (j & q) Hj. apply combine_seq_in in Hj as (Hj & _). cbn [fst]. destruct (Nat.eqb_spec a j); auto. lia.
    - destruct rs as [|r rs]; auto. cbn [List.length seq combine filter fst]. destruct (Nat.eqb_spec (S id + a) a) as [|_]; [lia|]. cbn [negb map fst snd firstn app]. f_equal.
      change (skipn (S (S id)) (r :: rs)) with (skipn (S id) rs). rewrite <- (IH rs (S a)). replace (S id + a)%nat with (id + S a)%nat by lia. auto. }
  specialize (G rows 0%nat). rewrite Nat.add_0_r in G. exact G.
Qed.

(** ImgCompletion. *)
Lemma lookup_in d nm c : lookup d nm = Some c -> In (nm, c) d.
Proof. induction d as [|(k, e) d IH]; [discriminate|]. cbn [lookup]. destruct (String.eqb_spec k nm) as [->|]; [intros E; injection E as ->; left; auto|right; auto]. Qed.
Lemma lookup_some d nm c : In (nm, c) d -> exists c', lookup d nm = Some c'.
Proof. induction d as [|(k, e) d IH]; [intros []|]. cbn [lookup]. intros H. destruct (String.eqb_spec k nm) as [->|Hn]; [eauto|]. destruct H as [E|H]; [congruence|auto]. Qed.
Lemma completion_job learn rows w h max id row l v : nth_error rows id = Some (row, l) ->
  completionJob learn rows w h max id v = (ch <- halfImg (learn id (othersOf rows l)) row v w h; Ok (imgCmplToPGM (snd ch) (fst ch) v (Z.of_nat w) (Z.of_nat h) max)).
Proof. intros E. unfold completionJob, idx. rewrite E. cbn [orPanic bind fst snd]. rewrite (train_others rows id row l E). auto. Qed.
Lemma test_job learn rows w h max id row l v : nth_error rows id = Some (row, l) ->
  testJob learn rows w h max id v = (ch <- halfImg (learn id (allBut rows id)) row v w h; Ok (imgCmplToPGM (snd ch) (fst ch) v (Z.of_nat w) (Z.of_nat h) max)).
Proof. intros E. unfold testJob, idx. rewrite E. cbn [orPanic bind fst snd]. rewrite train_allBut. auto. Qed.
Lemma all_orientations v : In v Orientations.
Proof. destruct v; cbn; auto. Qed.
Lemma all_quadrants v : In v Quadrants.
Proof. destruct v; cbn; auto. Qed.
Lemma completion_files_l learn rows w h max n m s id row l v : 1 <= n -> completionSteps learn rows w h max n m s -> jobsDone s -> nth_error rows id = Some (row, l) ->
  exists cmpl half, halfImg (learn id (othersOf rows l)) row v w h = Ok (cmpl, half) /\
    lookup (disk s) (instanceFile id v) = Some (imgCmplToPGM half cmpl v (Z.of_nat w) (Z.of_nat h) max).
Proof.
  intros Hn Hs Hd E. assert (Hid : (id < List.length rows)%nat) by (apply nth_error_Some; congruence).
  destruct (jobs_out _ _ _ _ _ m s Hn Hs Hd id Hid v (all_orientations v)) as (i & c & Hin & Hc). rewrite completion_name in Hin.
  destruct (lookup_some _ _ _ Hin) as (c' & Hl). pose proof (jinv_steps _ _ _ _ _ _ _ _ Hs (jinv_initial _ _ _ _)) as I.
  destruct (j_disk _ _ _ _ _ I _ _ (lookup_in _ _ _ Hl)) as (x & i' & v' & En & Hc' & _). rewrite completion_name in En. apply instanceFile_inj in En as (<- & <-).
  rewrite (completion_job learn rows w h max id row l v E) in Hc'. destruct (halfImg (learn id (othersOf rows l)) row v w h) as [[cmpl half]| |]; try discriminate.
  cbn [bind fst snd] in Hc'. exists cmpl, half. split; auto. congruence.
Qed.
Lemma completion_only_l learn rows w h max n m s nm : completionSteps learn rows w h max n m s -> lookup (disk s) nm <> None ->
  exists id v, (id < List.length rows)%nat /\ nm = instanceFile id v.
Proof.
  intros Hs Hl. destruct (lookup (disk s) nm) as [c|] eqn:E; [|congruence]. pose proof (jinv_steps _ _ _ _ _ _ _ _ Hs (jinv_initial _ _ _ _)) as I.
  destruct (j_disk _ _ _ _ _ I _ _ (lookup_in _ _ _ E)) as (x & i & v & En & _ & Hx & _). rewrite completion_name in En. eauto.
Qed.
Lemma completion_ready learn rows w h max :
  (forall id row l v, nth_error rows id = Some (row, l) -> exists r, halfImg (learn id (othersOf rows l)) row v w h = Ok r) ->
  forall x v, (x < List.length rows)%nat -> In v Orientations -> exists c, completionJob learn rows w h max x v = Ok c.
Proof.
  intros H x v Hx _. destruct (nth_error rows x) as [[row l]|] eqn:E; [|apply nth_error_None in E; lia]. rewrite (completion_job _ _ _ _ _ _ _ _ _ E).
  destruct (H x row l v E) as (r & ->). cbn [bind]. eauto.
Qed.
Lemma completion_progress_l learn rows w h max n m s : 1 <= n ->
  (forall id row l v, nth_error rows id = Some (row, l) -> exists r, halfImg (learn id (othersOf rows l)) row v w h = Ok r) ->
  completionSteps learn rows w h max n m s -> exists m' s', completionSteps learn rows w h max n (m' + m) s' /\ jobsDone s'.
Proof.
  intros Hn Hr Hs. destruct (jobs_ends _ _ _ _ _ m s Hn Hs (completion_ready learn rows w h max Hr)) as (m' & s' & H1 & H2). exists m', s'. split; auto.
  eapply jsteps_app; eauto.
Qed.
Lemma completion_bound_l learn rows w h max n m s : completionSteps learn rows w h max n m s -> (m <= 28 * List.length rows + 12)%nat.
Proof.
  intros Hs. pose proof (jobs_finite _ _ _ _ _ _ _ Hs) as H. unfold jobsBound in H. cbn [work fst Orientations List.length] in H. rewrite seq_length in H. lia.
Qed.

(** ImgTestParallel. *)
Lemma parallel_files_l learn rows w h max n m s nm c : parallelSteps learn rows w h max n m s -> lookup (disk s) nm = Some c ->
  exists id row l v k cmpl half, nth_error rows id = Some (row, l) /\ halfImg (learn id (allBut rows id)) row v w h = Ok (cmpl, half) /\
    c = imgCmplToPGM half cmpl v (Z.of_nat w) (Z.of_nat h) max /\ nm = quadrantFile k v /\ (id <= k <= List.length rows)%nat.
Proof.
  intros Hs Hl. pose proof (jinv_steps _ _ _ _ _ _ _ _ Hs (jinv_initial _ _ _ _)) as I.
  destruct (j_disk _ _ _ _ _ I _ _ (lookup_in _ _ _ Hl)) as (x & i & v & En & Hc & Hx & _ & Hi). destruct (nth_error rows x) as [[row l]|] eqn:E; [|apply nth_error_None in E; lia].
  rewrite (test_job learn rows w h max x row l v E) in Hc. destruct (halfImg (learn x (allBut rows x)) row v w h) as [[cmpl half]| |] eqn:Eh; try discriminate.
  cbn [bind fst snd] in Hc. injection Hc as <-. exists x, row, l, v, (Z.to_nat i), cmpl, half. repeat (split; [solve [auto]|]). split; [|lia].
  rewrite En, <- (test_name x). rewrite Z2Nat.id by lia. auto.
Qed.

(** Two instances: the files of the first are those of the second. *)
Definition twoRows : list (gmap * Z) := [([(0, 1)], 0); ([(0, 5)], 1)].
Definition same (_ : nat) (_ : list gmap) (s : gmap) : res gmap := Ok s.
Definition pic (x : nat) (v : cmplType) : string := match testJob same twoRows 1 1 8 x v with Ok c => c | _ => "" end.
Lemma pic_ok x v : (x < 2)%nat -> testJob same twoRows 1 1 8 x v = Ok (pic x v).
Proof. intros H. destruct x as [|[|]]; [| |lia]; destruct v; vm_compute; reflexivity. Qed.
Ltac sc := cbn -[testJob testName lookup pic].
Tactic Notation "qstep" uconstr(c) := eapply jsteps_cons; [eapply j_queue; [eapply c; first [reflexivity|(cbn; lia)]|reflexivity|intros (? & ? & Ha & Hb); first [reflexivity|discriminate Ha|(cbn in Ha; injection Ha as <- <-; cbn in Hb; lia)]]|sc].
Ltac qnone j := eapply jsteps_cons; [eapply j_queue; [eapply (s_signal_none 2 _ j); [reflexivity|intros [|[|]] ? ? E; discriminate]|reflexivity|reflexivity]|sc].
Ltac incr := eapply jsteps_cons; [eapply j_incr; eexists _, _; split; [reflexivity|cbn; lia]|sc].
Ltac run1 x := qstep (s_call 2 _ 0%nat x); qstep (s_lock 2 _ 0%nat); qstep (s_free 2 _ 0%nat); qstep (s_inc 2 _ 0%nat); qstep (s_unlock 2 _ 0%nat);
  qstep (s_add 2 _ 0%nat); qstep (s_spawn 2 _ 0%nat); incr; qstep (s_start 2 _ x).
Ltac drw x := eapply jsteps_cons; [eapply (j_draw 2 _ _ _ _ _ _ _ _ _ x x); [reflexivity|reflexivity|apply pic_ok; lia]|sc].
Ltac body x := eapply jsteps_cons; [eapply (j_lock 2 _ _ _ _ _ _ _ _ x x); reflexivity|sc]; eapply jsteps_cons; [eapply (j_copy 2 _ _ _ _ _ _ _ _ _ x x); reflexivity|sc];
  drw x; drw x; drw x; drw x; eapply jsteps_cons; [eapply (j_drawn 2 _ _ _ _ _ _ _ _ _ x x); reflexivity|sc].
Ltac fin1 x := eapply jsteps_cons; [eapply (j_return 2 _ _ _ _ _ _ _ _ _ _ x); [eapply (s_return 2 _ x); reflexivity|reflexivity|reflexivity]|sc];
  qstep (s_tlock 2 _ x); qstep (s_dec 2 _ x); qstep (s_tunlock 2 _ x); qnone x; qstep (s_done 2 _ x).
Lemma parallel_lost : exists m s, parallelSteps same twoRows 1 1 8 2 m s /\ jobsDone s /\
  disk s = (map (fun v => (testName 1 2 v, pic 1 v)) [Bottom; Left; Right; Top] ++ map (fun v => (testName 0 2 v, pic 0 v)) [Bottom; Left; Right; Top])%list.
Proof.
  eexists _, _. split; [|split].
  - unfold parallelSteps, jinitial. cbn [twoRows List.length]. sc. run1 0%nat. run1 1%nat. body 0%nat. body 1%nat. fin1 0%nat. fin1 1%nat.
    qstep (s_wait 2 _ 0%nat). qstep (s_waited 2 _ 0%nat). apply jsteps_0.
  - eexists _, _. reflexivity.
  - reflexivity.
Qed.
Lemma parallel_refuted_l : exists learn rows w h max n m s, 1 <= n /\ parallelSteps learn rows w h max n m s /\ jobsDone s /\
  (forall id v, (id < List.length rows)%nat -> lookup (disk s) (quadrantFile id v) = None) /\
  exists row l cmpl half, nth_error rows 0 = Some (row, l) /\ halfImg (learn 0%nat (allBut rows 0)) row Top w h = Ok (cmpl, half) /\
    forall nm, lookup (disk s) nm <> Some (imgCmplToPGM half cmpl Top (Z.of_nat w) (Z.of_nat h) max).
Proof.
  destruct parallel_lost as (m & s & H1 & H2 & H3). exists same, twoRows, 1%nat, 1%nat, 8, 2, m, s. split; [lia|]. split; [auto|]. split; [auto|]. rewrite H3. split.
  - intros id v H. cbn [twoRows List.length] in H. destruct id as [|[|]]; [| |lia]; destruct v; vm_compute; reflexivity.
  - eexists _, _, _, _. split; [reflexivity|]. split; [vm_compute; reflexivity|]. intros nm. cbn [map app lookup].
    change (testName 1 2) with (testName 0 2).
    destruct (String.eqb (testName 0 2 Bottom) nm); [vm_compute; discriminate|]. destruct (String.eqb (testName 0 2 Left) nm); [vm_compute; discriminate|].
    destruct (String.eqb (testName 0 2 Right) nm); [vm_compute; discriminate|]. destruct (String.eqb (testName 0 2 Top) nm); [vm_compute; discriminate|]. discriminate.
Qed.

(** ImgTest. *)
Lemma digits_dot d1 d2 r1 r2 : allChars isDigit d1 -> allChars isDigit d2 -> d1 ++ String "." r1 = d2 ++ String "." r2 -> d1 = d2.
Proof.
  revert d2. induction d1 as [|c d1 IH]; intros [|c' d2] H1 H2 E; cbn [append] in E; auto.
  - injection E as <- _. destruct H2 as (H2 & _). exfalso. apply H2. reflexivity.
  - injection E as -> _. destruct H1 as (H1 & _). exfalso. apply H1. reflexivity.
  - injection E as -> E. destruct H1 as (_ & H1), H2 as (_ & H2). rewrite (IH d2 H1 H2 E). auto.
Qed.
Lemma quadrantFile_inj a b u v : quadrantFile a u = quadrantFile b v -> a = b /\ u = v.
Proof.
  unfold quadrantFile. intros E. apply app_eq in E. assert (u = v) as <- by (destruct u, v; auto; discriminate). split; auto.
  apply app_eq in E. cbn [append] in E. injection E as E. apply digits_dot in E; auto using nat_digits. apply ImgCases.numeral_inj in E. lia.
Qed.
Lemma fold_writes {T} (f : files -> T -> res files) (P : T -> files -> Prop) l : (forall d x d', In x l -> f d x = Ok d' -> exists pre, d' = (pre ++ d)%list /\ P x pre) ->
  forall d d', foldr_ f l d = Ok d' -> exists pres, Forall2 P l pres /\ d' = (List.concat (rev pres) ++ d)%list.
Proof.
  induction l as [|x l IH]; intros Hf d d' E.
  - injection E as <-. exists []. split; [constructor|auto].
  - cbn [foldr_] in E. destruct (f d x) as [d1| |] eqn:E1; try discriminate. cbn [bind] in E. destruct (Hf d x d1 (or_introl eq_refl) E1) as (pre & -> & HP).
    destruct (IH (fun d x d' Hx => Hf d x d' (or_intror Hx)) _ _ E) as (pres & HF & ->). exists (pre :: pres). split; [constructor; auto|].
    cbn [rev]. rewrite concat_app. cbn [List.concat]. rewrite app_nil_r, <- app_assoc. auto.
Qed.
Lemma in_pres (pres : list files) e : In e (List.concat (rev pres)) <-> exists p, In p pres /\ In e p.
Proof. rewrite in_concat. split; intros (p & H1 & H2); exists p; split; auto; [apply in_rev; auto|apply -> in_rev; auto]. Qed.
Lemma f2_left {A B} (P : A -> B -> Prop) l r a : Forall2 P l r -> In a l -> exists b, In b r /\ P a b.
Proof. induction 1 as [|x y l r H HF IH]; [intros []|]. intros [->|Hi]; [exists y; split; auto; left; auto|]. destruct (IH Hi) as (b & H1 & H2). exists b. split; auto. right; auto. Qed.
Lemma f2_right {A B} (P : A -> B -> Prop) l r b : Forall2 P l r -> In b r -> exists a, In a l /\ P a b.
Proof. induction 1 as [|x y l r H HF IH]; [intros []|]. intros [->|Hi]; [exists x; split; auto; left; auto|]. destruct (IH Hi) as (a & H1 & H2). exists a. split; auto. right; auto. Qed.

Section Test.
Context (learn : nat -> list gmap -> gmap -> res gmap) (rows : list (gmap * Z)) (w h : nat) (max : Z).
Definition entryOf (id : nat) (q : cmplType) (e : string * string) : Prop :=
  exists row l cmpl half, nth_error rows id = Some (row, l) /\ halfImg (learn id (allBut rows id)) row q w h = Ok (cmpl, half) /\
    e = (quadrantFile id q, imgCmplToPGM half cmpl Left (Z.of_nat w) (Z.of_nat h) max).
Lemma imgTest_pres d : imgTest learn rows w h max = Ok d ->
  (forall id, (id < List.length rows)%nat -> forall q, exists e, In e d /\ entryOf id q e) /\ (forall e, In e d -> exists id q, (id < List.length rows)%nat /\ entryOf id q e).
Proof.
  intros E. unfold imgTest in E. apply (fold_writes _ (fun id pre => (forall q, exists e, In e pre /\ entryOf id q e) /\ (forall e, In e pre -> exists q, entryOf id q e))) in E.
  - destruct E as (pres & HF & ->). rewrite app_nil_r. split.
    + intros id Hid q. destruct (f2_left _ _ _ id HF) as (p & Hp & H1 & _); [apply in_seq; lia|]. destruct (H1 q) as (e & He & Ho). exists e. split; auto. apply in_pres. eauto.
    + intros e He. apply in_pres in He as (p & Hp & He). destruct (f2_right _ _ _ p HF Hp) as (id & Hid & _ & H2). apply in_seq in Hid. destruct (H2 e He) as (q & Hq). exists id, q. split; [lia|auto].
  - clear d E. intros d id d' Hid E. unfold idx in E. destruct (nth_error rows id) as [[row l]|] eqn:Er; [|discriminate]. cbn [orPanic bind fst] in E.
    apply (fold_writes _ (fun q pre => exists e, pre = [e] /\ entryOf id q e)) in E.
    + destruct E as (pres & HF & ->). exists (List.concat (rev pres)). split; auto. split.
      * intros q. destruct (f2_left _ _ _ q HF (all_quadrants q)) as (p & Hp & e & -> & He). exists e. split; auto. apply in_pres. exists [e]. split; auto. left. auto.
      * intros e He. apply in_pres in He as (p & Hp & He). destruct (f2_right _ _ _ p HF Hp) as (q & _ & e' & -> & Hq). destruct He as [<-|[]]. eauto.
    + clear d d' E. intros d q d' _ E. rewrite train_allBut in E. destruct (halfImg (learn id (allBut rows id)) row q w h) as [[cmpl half]| |] eqn:Eh; try discriminate.
      cbn [bind fst snd] in E. injection E as <-. eexists [_]. split; [reflexivity|]. eexists. split; [reflexivity|]. exists row, l, cmpl, half. split; [exact Er|]. split; [exact Eh|]. reflexivity.
Qed.
Lemma imgTest_files_l d id row l v : imgTest learn rows w h max = Ok d -> nth_error rows id = Some (row, l) ->
  exists cmpl half, halfImg (learn id (allBut rows id)) row v w h = Ok (cmpl, half) /\
    lookup d (quadrantFile id v) = Some (imgCmplToPGM half cmpl Left (Z.of_nat w) (Z.of_nat h) max).
Proof.
  intros E Er. destruct (imgTest_pres d E) as (H1 & H2). assert (Hid : (id < List.length rows)%nat) by (apply nth_error_Some; congruence).
  destruct (H1 id Hid v) as (e & He & row' & l' & cmpl & half & Er' & Eh & ->). rewrite Er in Er'. injection Er' as <- <-. exists cmpl, half. split; auto.
  destruct (lookup_some _ _ _ He) as (c & Hc). destruct (H2 _ (lookup_in _ _ _ Hc)) as (id' & q & Hid' & row' & l' & cmpl' & half' & Er' & Eh' & Ee). pose proof (f_equal fst Ee) as En. pose proof (f_equal snd Ee) as Ec. cbn [fst snd] in En, Ec. apply quadrantFile_inj in En as (<- & <-).
  rewrite Er in Er'. injection Er' as <- <-. rewrite Eh in Eh'. injection Eh' as <- <-. congruence.
Qed.
Lemma imgTest_only_l d nm : imgTest learn rows w h max = Ok d -> lookup d nm <> None -> exists id v, (id < List.length rows)%nat /\ nm = quadrantFile id v.
Proof.
  intros E Hl. destruct (lookup d nm) as [c|] eqn:El; [|congruence]. destruct (imgTest_pres d E) as (_ & H2).
  destruct (H2 _ (lookup_in _ _ _ El)) as (id & q & Hid & row & l & cmpl & half & _ & _ & Ee). apply (f_equal fst) in Ee. cbn [fst] in Ee. eauto.
Qed.
Lemma fold_total {S T} (f : S -> T -> res S) l : (forall s x, In x l -> exists s', f s x = Ok s') -> forall s, exists s', foldr_ f l s = Ok s'.
Proof.
  induction l as [|x l IH]; intros H s; [exists s; auto|]. cbn [foldr_]. destruct (H s x (or_introl eq_refl)) as (s1 & ->). cbn [bind]. apply IH. intros; apply H; right; auto.
Qed.
Lemma imgTest_total_l : (forall id row l v, nth_error rows id = Some (row, l) -> exists r, halfImg (learn id (allBut rows id)) row v w h = Ok r) ->
  exists d, imgTest learn rows w h max = Ok d.
Proof.
  intros H. unfold imgTest. apply fold_total. intros d id Hid. apply in_seq in Hid. unfold idx. destruct (nth_error rows id) as [[row l]|] eqn:Er; [|apply nth_error_None in Er; lia].
  cbn [orPanic bind fst]. apply fold_total. intros d' q _. rewrite train_allBut. destruct (H id row l q Er) as (r & ->). cbn [bind]. eauto.
Qed.
End Test.

(** Two by two pixels: a vertical line where the completed half is the top one. *)
Definition square : gmap := [(0, 1); (1, 2); (2, 3); (3, 4)].
Definition fillTop (_ : nat) (_ : list gmap) (s : gmap) : res gmap := Ok (fold_left (fun c k => match get c k with Some _ => c | None => put c k 7 end) [0; 1; 2; 3] s).
Lemma imgTest_refuted_l : exists learn rows w h max d row l cmpl half, imgTest learn rows w h max = Ok d /\ nth_error rows 0 = Some (row, l) /\
  halfImg (learn 0%nat (allBut rows 0)) row Top w h = Ok (cmpl, half) /\ cmpl <> [] /\ half <> [] /\
  exists c, lookup d (quadrantFile 0 Top) = Some c /\ c <> imgCmplToPGM half cmpl Top (Z.of_nat w) (Z.of_nat h) max.
Proof.
  eexists fillTop, [(square, 0)], 2%nat, 2%nat, 8, _, square, 0, _, _. split; [vm_compute; reflexivity|]. split; [reflexivity|]. split; [vm_compute; reflexivity|].
  split; [discriminate|]. split; [discriminate|]. eexists. split; [vm_compute; reflexivity|]. vm_compute. discriminate.
Qed.

Lemma completion_case_l : exists m s, completionSteps same twoRows 1 1 8 2 m s /\ jobsDone s /\
  lookup (disk s) "cmpl_0-TOP.pgm" = Some (imgCmplToPGM [(0, 1)] [] Top 1 1 8) /\
  lookup (disk s) "cmpl_1-TOP.pgm" = Some (imgCmplToPGM [(0, 5)] [] Top 1 1 8) /\
  lookup (disk s) "cmpl_1-BOTTOM.pgm" = Some (imgCmplToPGM [] [] Bottom 1 1 8).
Proof.
  destruct (completion_progress_l same twoRows 1 1 8 2 0 (jinitial 2)) as (m & s & Hs & Hd).
  - lia.
  - intros id row l v E. destruct id as [|[|id]]; [| |destruct id; discriminate]; injection E as <- <-; destruct v; eexists; vm_compute; reflexivity.
  - apply jsteps_0.
  - exists (m + 0)%nat, s. split; [auto|]. split; [auto|].
    assert (G : forall id row l v, nth_error twoRows id = Some (row, l) -> lookup (disk s) (instanceFile id v) =
      match halfImg (same id (othersOf twoRows l)) row v 1 1 with Ok (cmpl, half) => Some (imgCmplToPGM half cmpl v 1 1 8) | _ => None end).
    { intros id row l v E. destruct (completion_files_l same twoRows 1 1 8 2 _ s id row l v ltac:(lia) Hs Hd E) as (cmpl & half & -> & H). exact H. }
    split; [exact (G 0%nat _ _ Top eq_refl)|]. split; [exact (G 1%nat _ _ Top eq_refl)|exact (G 1%nat _ _ Bottom eq_refl)].
Qed.
