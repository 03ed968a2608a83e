(** What BufferedPGMFToData compiles. *)
From Coq Require Import Ascii String.
From Verif Require Import Base Res GoMap TextSpec TextLemmas Text Parse ParseLemmas Conc ConcSpec ConcLemmas Img ImgSpec ImgLemmas ImgData ImgConc ImgConcSpec ImgConcLemmas ImgCases.
Local Open Scope string_scope.
Local Open Scope Z_scope.

Definition pgmLine (fl : string * Z) : string := prints printVal (pgmPixels (fst fl)) ++ itoa (snd fl).
Definition heading (w h max N : Z) : string := prints (fun i => declare1 i (max + 1)) (upto (w * h)) ++ declare1 (w * h) N.
Definition headVars (w h max N : Z) : list (Z * Z) := (pixelVars (w * h) (max + 1) ++ [(w * h, N)])%list.
Lemma heading_lines w h max N ins : fileLines (heading w h max N ++ prints pgmRow ins) = (map var_line (headVars w h max N) ++ map pgmLine ins)%list.
Proof.
  unfold heading. rewrite append_ass.
  rewrite (prints_ext _ (fun i => var_line (i, max + 1) ++ newline)) by (intros; apply declare1_line).
  rewrite fileLines_prints by (intros; apply one_line_var). rewrite declare1_line, append_ass, fileLines_cons by apply one_line_var.
  rewrite (prints_ext _ (fun fl => pgmLine fl ++ newline)) by (intros; unfold pgmRow, pgmLine; rewrite append_ass; auto).
  rewrite <- (append_nil (prints _ ins)), fileLines_prints.
  2:{ intros fl _. unfold pgmLine. apply one_line_app; [apply one_line_prints|apply one_line_numeral]. }
  unfold headVars, pixelVars. rewrite map_app, map_map, <- app_assoc. cbn [map app fileLines rawLines]. rewrite app_nil_r. auto.
Qed.
Lemma f2_perm {A B} (P : A -> B -> Prop) l l' : Permutation l l' -> forall r, Forall2 P r l -> exists r', Permutation r r' /\ Forall2 P r' l'.
Proof.
  induction 1 as [|x l l' H IH|x y l|l l' l'' H1 IH1 H2 IH2]; intros r HF.
  - inversion HF; subst. exists []. auto.
  - inversion HF as [|a ? r0 ? Ha Hr]; subst. destruct (IH _ Hr) as (r' & Hp & Hf). exists (a :: r'). auto.
  - inversion HF as [|a ? r0 ? Ha Hr]; subst. inversion Hr as [|b ? r1 ? Hb Hr']; subst. exists (b :: a :: r1). split; [constructor|auto].
  - destruct (IH1 _ HF) as (r1 & Hp1 & Hf1). destruct (IH2 _ Hf1) as (r2 & Hp2 & Hf2). exists r2. split; auto. eapply perm_trans; eauto.
Qed.

(** The head, for every folder. *)
Lemma head_ok dir : bufferedHead dir = match numbered 0 (classes dir) with
  | [] => Panic
  | f0 :: rest => let '(w, h, max) := pgmSizes (fst f0) in Ok (w, h, max, heading w h max (Z.of_nat (List.length (classes dir))) ++ pgmRow f0, rest)
  end.
Proof.
  unfold bufferedHead. rewrite subdirs_ok. cbn [bind]. rewrite subfiles_ok. cbn [bind]. rewrite classes_len. destruct (numbered 0 (classes dir)) as [|f0 rest]; auto.
  destruct (pgmSizes (fst f0)) as [[w h] max]. unfold heading. rewrite append_ass. auto.
Qed.
Lemma pgm_ok dir : pgmFToData dir = match numbered 0 (classes dir) with
  | [] => Panic
  | f0 :: rest => let '(w, h, max) := pgmSizes (fst f0) in Ok (w, h, max, heading w h max (Z.of_nat (List.length (classes dir))) ++ prints pgmRow (f0 :: rest))
  end.
Proof.
  unfold pgmFToData. rewrite subdirs_ok. cbn [bind]. rewrite subfiles_ok. cbn [bind]. rewrite classes_len. destruct (numbered 0 (classes dir)) as [|f0 rest]; auto.
  unfold idx. cbn [nth_error bind]. destruct (pgmSizes (fst f0)) as [[w h] max]. unfold heading. rewrite append_ass. auto.
Qed.
Lemma buffered_panics_l dir : bufferedHead dir = Panic <-> pgmFToData dir = Panic.
Proof.
  rewrite head_ok, pgm_ok. destruct (numbered 0 (classes dir)) as [|f0 rest]; [tauto|]. destruct (pgmSizes (fst f0)) as [[w h] max]. split; discriminate.
Qed.
Lemma buffered_same_l dir w h max head rest n m s : bufferedHead dir = Ok (w, h, max, head, rest) -> 1 <= n ->
  bsteps n rest m (binitial rest head) s -> returned s ->
  exists text tail, pgmFToData dir = Ok (w, h, max, text) /\ out s = head ++ tail /\ Permutation (fileLines text) (fileLines (out s)).
Proof.
  intros Hh Hn Hs Hr. destruct (buffered_out_l n rest head m s Hn Hs Hr) as (rest' & Hp & Ho).
  rewrite pgm_ok. rewrite head_ok in Hh. destruct (numbered 0 (classes dir)) as [|f0 r]; [discriminate|].
  destruct (pgmSizes (fst f0)) as [[w' h'] max']. injection Hh as -> -> -> <- ->. eexists _, _. split; [reflexivity|]. split; [exact Ho|].
  rewrite Ho, append_ass, <- prints_cons, !heading_lines. apply Permutation_app_head, Permutation_map, perm_skip. auto.
Qed.

(** The compiled data, for images in the usual layout. *)
Lemma buffered_data_l dir w h max imgs n :
  Forall2 (Forall2 (pgm_text w h max)) imgs (classes dir) -> List.concat imgs <> [] ->
  int64 w -> int64 h -> int64 (w * h) -> int64 max -> int64 (max + 1) -> int64 (Z.of_nat (List.length imgs)) ->
  (forall px, In px (List.concat imgs) -> forall v, In v px -> int64 v) -> 1 <= n ->
  exists head rest, bufferedHead dir = Ok (w, h, max, head, rest) /\
    forall m s, bsteps n rest m (binitial rest head) s -> returned s ->
    exists sc data rows, parseData (fileLines (out s)) = Ok (sc, data) /\ image_vars (w * h) (max + 1) (Some (Z.of_nat (List.length imgs))) sc /\
      Permutation (labelled 0 imgs) rows /\ Forall2 as_row rows data.
Proof.
  intros HF Hne Hw Hh Hwh Hm Hm1 Hc Hv Hn.
  pose proof (numbered_rows imgs (classes dir) (strengthen _ _ imgs (classes dir) HF Hv) 0) as HN.
  pose proof (head_ok dir) as Eh. destruct (numbered 0 (classes dir)) as [|f0 rest] eqn:En.
  { inversion HN as [E|]. symmetry in E. apply labelled_nil in E. congruence. }
  assert (Hs : pgmSizes (fst f0) = (w, h, max)).
  { inversion HN as [|r0 y rs ys H0 _]; subst. destruct H0 as (px & _ & (Hp & _) & _). eapply pgmSizes_ok; eauto. }
  rewrite Hs in Eh. eexists _, _. split; [exact Eh|]. intros m s Hst Hr.
  destruct (buffered_out_l n rest _ m s Hn Hst Hr) as (rest' & Hp & Ho).
  destruct (f2_perm _ _ _ (perm_skip f0 Hp) _ HN) as (rows & Hpr & HR).
  assert (Hpos : 0 <= w * h).
  { inversion HN as [|r0 y rs ys H0 _]; subst. destruct H0 as (px & _ & (Hp0 & _) & _). destruct Hp0 as (? & ? & ? & ? & _ & _ & _ & _ & _ & H1 & H2 & _). nia. }
  rewrite Ho, append_ass, <- prints_cons, heading_lines, <- (f2_len _ _ _ HF).
  destruct (rows_image_l (headVars w h max (Z.of_nat (List.length imgs))) rows (map pgmLine (f0 :: rest')) (w * h) (max + 1) (Z.of_nat (List.length imgs))) as (sc & data & E & H1 & H2); auto.
  - intros ->. inversion HR.
  - apply f2_map_r. eapply f2_impl; [|exact HR]. intros r fl (px & -> & (Hp1 & Hi) & Hk). unfold pgmLine. rewrite (pgmPixels_ok _ _ _ _ _ Hp1 Hi). apply row_blank, row_label.
  - intros r Hrow. destruct (f2_in_l _ _ _ _ HR Hrow) as (fl & _ & px & -> & (Hp1 & Hi) & Hk). rewrite app_length. unfold headVars. rewrite app_length. cbn [List.length]. split.
    + f_equal. unfold pixelVars. rewrite map_length, upto_len. destruct Hp1 as (? & ? & ? & ? & _ & _ & _ & _ & _ & _ & _ & H3). lia.
    + intros v Hv'. apply in_app_or in Hv' as [Hv'|[<-|[]]]; [auto|]. unfold int64 in *. lia.
  - exists sc, data, rows. auto.
Qed.

(** Every execution can be continued to the end. *)
Lemma bsteps_app n files m1 m2 s1 s2 s3 : bsteps n files m1 s1 s2 -> bsteps n files m2 s2 s3 -> bsteps n files (m2 + m1) s1 s3.
Proof. intros H1 H2. revert s1 m1 H1. induction H2; intros; simpl; auto. econstructor; eauto. Qed.
Lemma buffered_ends_l n files head m s : 1 <= n -> bsteps n files m (binitial files head) s -> exists m' s', bsteps n files m' s s' /\ returned s'.
Proof.
  intros Hn. remember (work [(seq 0 (List.length files), true)] + fileWork files - m)%nat as b eqn:Eb. revert m s Eb.
  induction b as [|b IH]; intros m s Eb H.
  - destruct (buffered_progress_l n files head m s Hn H) as [Hr|(s1 & Hs)]; [exists 0%nat, s; split; auto; constructor|].
    pose proof (buffered_finite_l _ _ _ _ _ (bsteps_S _ _ _ _ _ _ H Hs)). lia.
  - destruct (buffered_progress_l n files head m s Hn H) as [Hr|(s1 & Hs)]; [exists 0%nat, s; split; auto; constructor|].
    destruct (IH (S m) s1) as (m' & s' & H1 & H2); [lia|econstructor; eauto|]. exists (m' + 1)%nat, s'. split; auto.
    eapply bsteps_app; [|exact H1]. econstructor; [constructor|auto].
Qed.

(** An execution in which the third file is written before the second. *)
Lemma bsteps_cons n files m s1 s2 s3 : bstep n files s1 s2 -> bsteps n files m s2 s3 -> bsteps n files (m + 1) s1 s3.
Proof. intros H1 H2. eapply bsteps_app; eauto. econstructor; [constructor|auto]. Qed.
Definition dot (c : string) : string := "P2" ++ nl ++ "1 1" ++ nl ++ "9" ++ nl ++ c ++ nl.
Definition dots : listing := [("a", ADir [dot "1"; dot "2"]); ("b", ADir [dot "3"])].
Definition rest2 : list (string * Z) := [(dot "2", 0); (dot "3", 1)].
Lemma vals2 : fileVals (dot "2", 0) = [2; 0].
Proof. vm_compute. reflexivity. Qed.
Lemma vals3 : fileVals (dot "3", 1) = [3; 1].
Proof. vm_compute. reflexivity. Qed.
Ltac sc := cbn -[fileVals writeVal append].
Tactic Notation "qstep" uconstr(c) := eapply bsteps_cons; [eapply b_queue; [eapply c; first [reflexivity|(cbn; lia)]|reflexivity]|sc].
Ltac qnone j := eapply bsteps_cons; [eapply b_queue; [eapply (s_signal_none 2 _ j); [reflexivity|intros [|[|]] ? ? E; discriminate]|reflexivity]|sc].
Tactic Notation "bst" uconstr(c) := eapply bsteps_cons; [eapply c; reflexivity|sc].
Ltac run1 x := qstep (s_call 2 _ 0%nat x); qstep (s_lock 2 _ 0%nat); qstep (s_free 2 _ 0%nat); qstep (s_inc 2 _ 0%nat); qstep (s_unlock 2 _ 0%nat);
  qstep (s_add 2 _ 0%nat); qstep (s_spawn 2 _ 0%nat); qstep (s_start 2 _ x).
Ltac fin1 x := eapply bsteps_cons; [eapply (b_return 2 rest2 _ _ _ _ _ x); [eapply (s_return 2 _ x); reflexivity|reflexivity|reflexivity]|sc];
  qstep (s_tlock 2 _ x); qstep (s_dec 2 _ x); qstep (s_tunlock 2 _ x); qnone x; qstep (s_done 2 _ x).
Ltac body x V := bst (b_lock 2 rest2 _ _ _ x x); bst (b_open 2 rest2 _ _ _ _ x x); bst (b_read 2 rest2 _ _ _ _ x x); rewrite V;
  bst (b_lock2 2 rest2 _ _ _ x x); bst (b_write 2 rest2 _ _ _ _ x x); bst (b_write_last 2 rest2 _ _ _ _ x x); bst (b_unlock 2 rest2 _ _ _ _ x x).
Lemma swapped_l head : exists m s, bsteps 2 rest2 m (binitial rest2 head) s /\ returned s /\
  out s = ((((head ++ writeVal 3 false) ++ writeVal 1 true) ++ writeVal 2 false) ++ writeVal 0 true).
Proof.
  eexists _, _. split; [|split].
  - unfold binitial, rest2. sc. run1 0%nat. run1 1%nat. body 1%nat vals3. body 0%nat vals2. fin1 0%nat. fin1 1%nat.
    qstep (s_wait 2 _ 0%nat). qstep (s_waited 2 _ 0%nat). apply bsteps_0.
  - eexists _, _. reflexivity.
  - reflexivity.
Qed.

Lemma dots_head : bufferedHead dots = Ok (1, 1, 9, "var 0 10" ++ nl ++ "var 1 2" ++ nl ++ "1 0" ++ nl, rest2).
Proof. vm_compute. reflexivity. Qed.
Lemma order_differs_l : exists dir w h max head rest n m s text, bufferedHead dir = Ok (w, h, max, head, rest) /\ 1 <= n /\
  bsteps n rest m (binitial rest head) s /\ returned s /\ pgmFToData dir = Ok (w, h, max, text) /\ out s <> text.
Proof.
  destruct (swapped_l ("var 0 10" ++ nl ++ "var 1 2" ++ nl ++ "1 0" ++ nl)) as (m & s & H1 & H2 & H3).
  eexists dots, 1, 1, 9, _, rest2, 2, m, s, _. split; [apply dots_head|]. split; [lia|]. split; [exact H1|]. split; [auto|]. split; [vm_compute; reflexivity|].
  rewrite H3. vm_compute. discriminate.
Qed.
Lemma buffered_bound_l dir w h max head rest : bufferedHead dir = Ok (w, h, max, head, rest) ->
  exists bound, forall n m s, bsteps n rest m (binitial rest head) s -> (m <= bound)%nat.
Proof. intros _. eexists. intros. eapply buffered_finite_l; eauto. Qed.
Lemma dots_case : Forall2 (Forall2 (pgm_text 1 1 9)) [[[1]; [2]]; [[3]]] (classes dots) /\
  bufferedHead dots = Ok (1, 1, 9, "var 0 10" ++ nl ++ "var 1 2" ++ nl ++ "1 0" ++ nl, rest2) /\
  exists m s, bsteps 2 rest2 m (binitial rest2 ("var 0 10" ++ nl ++ "var 1 2" ++ nl ++ "1 0" ++ nl)) s /\ returned s /\
    out s = "var 0 10" ++ nl ++ "var 1 2" ++ nl ++ "1 0" ++ nl ++ "3 1" ++ nl ++ "2 0" ++ nl.
Proof.
  split.
  - assert (D : forall v, pgm_text 1 1 9 [v] (dot (numeral v))).
    { intros v. exists "1 1", "9", [[v]], [numeral v]. split.
      - do 3 (apply fl_line with (e := nl); [ln|left; reflexivity|]). apply fl_line with (e := nl); [apply one_line_numeral|left; reflexivity|constructor].
      - split; [apply (num_next "" 1 [1] "1"); [exact Logic.I|apply (num_last " " 1); cbn; auto]|].
        split; [apply (num_last "" 9); exact Logic.I|]. split; [|repeat split; auto; lia]. constructor; [apply (num_last "" v); exact Logic.I|constructor]. }
    repeat constructor; [apply (D 1)|apply (D 2)|apply (D 3)].
  - split; [apply dots_head|]. destruct (swapped_l ("var 0 10" ++ nl ++ "var 1 2" ++ nl ++ "1 0" ++ nl)) as (m & s & H1 & H2 & H3). exists m, s. split; [exact H1|]. split; [auto|].
    rewrite H3. vm_compute. reflexivity.
Qed.
