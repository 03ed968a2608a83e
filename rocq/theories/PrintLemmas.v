(** Proofs about PrintSPN. *)
From Coq Require Import String DecimalString DecimalZ.
From Verif Require Import Base Res GraphSpec GraphLemmas Topo TopoLemmas Search SearchLemmas Text Print PrintSpec.
Local Open Scope string_scope.

Lemma to_int_pos z : Z.to_int z <> Decimal.Pos Decimal.Nil.
Proof.
  intros E. destruct z as [|p|p]; cbn in E; [discriminate| |discriminate].
  injection E as E. apply (f_equal Pos.of_uint) in E. rewrite DecimalPos.Unsigned.of_to in E. discriminate.
Qed.
Lemma to_int_neg z : Z.to_int z <> Decimal.Neg Decimal.Nil.
Proof.
  intros E. destruct z as [|p|p]; cbn in E; [discriminate|discriminate|].
  injection E as E. apply (f_equal Pos.of_uint) in E. rewrite DecimalPos.Unsigned.of_to in E. discriminate.
Qed.

Lemma itoa_inj a b : itoa a = itoa b -> a = b.
Proof.
  unfold itoa. intros E. apply (f_equal NilZero.int_of_string) in E.
  rewrite !NilZero.isi in E by (auto using to_int_pos, to_int_neg).
  injection E as E. apply (f_equal Z.of_int) in E. rewrite !DecimalZ.of_to in E. auto.
Qed.

Section P.
Context {F : Type} (fmt5 : F -> string).
Variable net : pnet F.

Local Notation ch := (graph_of net).
Local Notation kd u := (pk (net u)).

Lemma letter_initial k : fst (letterOf F k) = initial k.
Proof. destruct k; reflexivity. Qed.
Lemma letter_lt k : snd (letterOf F k) < 3.
Proof. destruct k; cbn; lia. Qed.
Lemma initial_inj a b x y : initial (F := F) a ++ x = initial (F := F) b ++ y -> snd (letterOf F a) = snd (letterOf F b) /\ x = y.
Proof. destruct a, b; cbn; intros E; try discriminate; injection E as ->; auto. Qed.

Record named (done : list nat) (L : nat -> option string) (T : list nat) : Prop := {
  nm_len : length T = 3;
  nm_some : forall u, In u done -> exists t T0, nth_error T (snd (letterOf F (kd u))) = Some T0 /\ t < T0 /\
              L u = Some (initial (kd u) ++ itoa (Z.of_nat t));
  nm_inj : forall u v, In u done -> In v done -> L u = L v -> u = v }.

Lemma nameStep_ok done L T u : ~ In u done -> named done L T ->
  exists L' T', nameStep F net (L, T) u = Ok (L', T') /\ named (done ++ [u]) L' T'.
Proof.
  intros Hu [H1 H2 H3]. unfold nameStep. pose proof (letter_initial (kd u)) as El. pose proof (letter_lt (kd u)) as Hp.
  destruct (letterOf F (kd u)) as (c & p) eqn:E. cbn [fst snd] in *. subst c.
  unfold idx. destruct (nth_error T p) as [t|] eqn:Et; [|apply nth_error_None in Et; lia]. cbn [bind].
  eexists _, _. split; [reflexivity|].
  assert (Hother : forall v, In v done -> v <> u) by (intros v Hv ->; auto).
  assert (Hgrow : forall q T0, nth_error T q = Some T0 -> exists T1, nth_error (set_nth p (t + 1) T) q = Some T1 /\ T0 <= T1).
  { intros q T0 Hq. destruct (Nat.eq_dec q p) as [->|Hne].
    - exists (t + 1). rewrite nth_error_set_nth_same by lia. split; auto. assert (T0 = t) by congruence. lia.
    - exists T0. rewrite nth_error_set_nth_diff by auto. auto. }
  split.
  - rewrite set_nth_length. auto.
  - intros v Hv. apply in_app_or in Hv as [Hv|[<-|[]]].
    + destruct (H2 v Hv) as (tv & T0 & A & B & C). destruct (Hgrow _ _ A) as (T1 & A1 & A2).
      exists tv, T1. rewrite upd_diff by auto. split; auto. split; auto. lia.
    + exists t, (t + 1). rewrite upd_same, E. cbn [snd]. rewrite nth_error_set_nth_same by lia. split; auto. split; auto. lia.
  - assert (Fresh : forall v, In v done -> L v <> Some (initial (kd u) ++ itoa (Z.of_nat t))).
    { intros v Hv Ev. destruct (H2 v Hv) as (tv & T0 & A & B & C). rewrite C in Ev. injection Ev as Ev.
      apply initial_inj in Ev as (Ep & Es). apply itoa_inj in Es. rewrite Ep, E in A. cbn [snd] in A.
      assert (T0 = t) by congruence. lia. }
    intros v w Hv Hw. apply in_app_or in Hv as [Hv|[<-|[]]]; apply in_app_or in Hw as [Hw|[<-|[]]]; auto.
    + rewrite !upd_diff by auto. auto.
    + rewrite upd_diff by auto. rewrite upd_same. intros Ev. destruct (Fresh v Hv Ev).
    + rewrite upd_same, upd_diff by auto. intros Ev. destruct (Fresh w Hw (eq_sym Ev)).
Qed.

Lemma name_list : forall ord done L T, NoDup (done ++ ord)%list -> named done L T ->
  exists L' T', foldr_ (nameStep F net) ord (L, T) = Ok (L', T') /\ named (done ++ ord)%list L' T'.
Proof.
  induction ord as [|u ord IH]; intros done L T Hn Hi; cbn [foldr_].
  - rewrite app_nil_r. eauto.
  - destruct (nameStep_ok done L T u) as (L1 & T1 & -> & H1); auto.
    { apply NoDup_remove_2 in Hn. intros H. apply Hn. apply in_or_app. auto. }
    cbn [bind]. destruct (IH (done ++ [u])%list L1 T1) as (L2 & T2 & E2 & H2); auto.
    { rewrite <- app_assoc. auto. }
    rewrite <- app_assoc in H2. eauto.
Qed.

Lemma names_l N r : bounded ch N -> r < N -> exists L, nameAll F net (2 * N + 1) r = Ok L /\
  (forall u, reach ch r u -> exists x, L u = Some (initial (kd u) ++ x)) /\
  (forall u v, reach ch r u -> reach ch r v -> L u = L v -> u = v).
Proof.
  intros HB Hr. destruct (tarjanFunc_full ch (fun _ => true) N r HB Hr) as (l & l1 & l2 & E & El & E1 & _ & Hf).
  assert (l2 = []) as -> by (destruct l2; auto; destruct Hf as (_ & A); discriminate). rewrite app_nil_r in El. subst l1.
  destruct (tarjan_full ch N r HB Hr) as (l' & E' & (Hn & He) & _). rewrite E in E'. injection E' as <-.
  unfold nameAll. change (fun u => pch (net u)) with ch. rewrite E1.
  destruct (name_list l [] (fun _ => None) [0; 0; 0]) as (L & T & E3 & [A B C]).
  - exact Hn.
  - split; [reflexivity|intros u []|intros u v []].
  - rewrite E3. cbn [bind fst]. exists L. split; auto. cbn [app] in *. split.
    + intros u Hu. apply He in Hu. destruct (B u Hu) as (t & _ & _ & _ & EL). eauto.
    + intros u v Hu Hv. apply C; apply He; auto.
Qed.

(** The lines of one node *)
Lemma items_ok L w : forall cs i, length w = i + length cs ->
  mapi_from i (fun i c => x <- idx w i; Ok (LItem [nameOf L c; fmt5 x])) cs =
  Ok (map (fun cw => LItem [nameOf L (fst cw); fmt5 (snd cw)]) (combine cs (skipn i w))).
Proof.
  induction cs as [|c cs IH]; intros i H; cbn [mapi_from]; auto. cbn [length] in H.
  unfold idx. destruct (nth_error w i) as [x|] eqn:Ex; [|apply nth_error_None in Ex; lia]. cbn [bind].
  rewrite IH by lia. cbn [bind].
  assert (Es : skipn i w = x :: skipn (S i) w).
  { clear -Ex. revert w Ex. induction i as [|i IH]; intros [|a w] Ex; try discriminate; simpl in Ex.
    - injection Ex as ->. auto.
    - apply IH in Ex. simpl. rewrite Ex. auto. }
  rewrite Es. reflexivity.
Qed.

Lemma printNode_ok L u name : printable (net u) -> L u = Some name ->
  printNode F fmt5 net L u = Ok (entry fmt5 (nameOf L) net u).
Proof.
  intros Hp Hn. unfold printNode, entry, printable in *. rewrite Hn. cbn [orPanic bind].
  assert (En : nameOf L u = name) by (unfold nameOf; rewrite Hn; auto). rewrite En.
  destruct (kd u) as [w| |m s|m s|]; auto; [|contradiction].
  unfold mapi. rewrite items_ok by (cbn; lia). cbn [bind skipn]. reflexivity.
Qed.

Lemma search_zero_step d k u Q V calls :
  search_loop ch d (fun _ _ => 0%Z) (S k) (u :: Q) V calls =
  (let (Q2, V2) := give_children d (ch u) (Q, V) in search_loop ch d (fun _ _ => 0%Z) k Q2 V2 (calls ++ [u])%list).
Proof. reflexivity. Qed.

Lemma search_more d : forall k k' Q V calls res, k <= k' -> search_loop ch d (fun _ _ => 0%Z) k Q V calls = Some res ->
  search_loop ch d (fun _ _ => 0%Z) k' Q V calls = Some res.
Proof.
  induction k as [|k IH]; intros k' Q V calls res Hk E; [discriminate|]. destruct k' as [|k']; [lia|].
  destruct Q as [|u Q]; [exact E|]. rewrite search_zero_step in *. destruct (give_children d (ch u) (Q, V)) as (Q2 & V2).
  eapply IH; [|exact E]. lia.
Qed.

Section Loop.
Variables (r : nat) (L : nat -> option string).
Hypothesis HL : forall u, reach ch r u -> exists x, L u = Some (initial (kd u) ++ x).

Lemma next_ok u Q V : printable (net u) ->
  match kd u with PSum _ | PProd => give_children UseQueue (pch (net u)) (Q, V) | _ => (Q, V) end =
  give_children UseQueue (ch u) (Q, V).
Proof.
  unfold printable, graph_of. destruct (kd u); auto; try contradiction; intros ->; reflexivity.
Qed.

Lemma queue_reach u Q V Q2 V2 : (forall x, In x (u :: Q) -> reach ch r x) -> give_children UseQueue (ch u) (Q, V) = (Q2, V2) ->
  forall x, In x Q2 -> reach ch r x.
Proof.
  intros H E x Hx. destruct (give_children_spec UseQueue (ch u) Q V) as (new & E' & _ & Hi & _). rewrite E' in E. injection E as <- <-.
  cbn [front] in Hx. apply in_app_or in Hx as [Hx|Hx]; [apply H; right; auto|].
  eapply reach_snoc; [apply H; left; reflexivity|]. apply Hi. auto.
Qed.

Lemma printLoop_ok : (forall u, reach ch r u -> printable (net u)) ->
  forall fuel Q V calls res out, (forall x, In x Q -> reach ch r x) ->
  search_loop ch UseQueue (fun _ _ => 0%Z) fuel Q V calls = Some res ->
  exists new, res = (calls ++ new)%list /\
    printLoop F fmt5 net L fuel Q V out = Ok (out ++ concat (map (entry fmt5 (nameOf L) net) new))%list.
Proof.
  intros HP. induction fuel as [|fuel IH]; intros Q V calls res out HQ E; [discriminate|].
  destruct Q as [|u Q]; [cbn in E; injection E as <-; exists []; cbn; rewrite !app_nil_r; auto|].
  rewrite search_zero_step in E. cbn [printLoop].
  assert (Hu : reach ch r u) by (apply HQ; left; auto).
  destruct (HL u Hu) as (x & Ex). rewrite (printNode_ok L u _ (HP u Hu) Ex). cbn [bind]. rewrite next_ok by auto.
  destruct (give_children UseQueue (ch u) (Q, V)) as (Q2 & V2) eqn:Eg.
  destruct (IH Q2 V2 (calls ++ [u])%list res (out ++ entry fmt5 (nameOf L) net u)%list) as (new & -> & E2); auto.
  { eapply queue_reach; eauto. }
  exists (u :: new). rewrite <- app_assoc. split; auto. rewrite E2, <- app_assoc. reflexivity.
Qed.

Lemma printLoop_panic : (forall u, reach ch r u -> printable (net u) \/ kd u = PLeaf) ->
  forall fuel Q V calls res out, (forall x, In x Q -> reach ch r x) ->
  search_loop ch UseQueue (fun _ _ => 0%Z) fuel Q V calls = Some res ->
  (exists v, In v res /\ ~ In v calls /\ kd v = PLeaf) -> printLoop F fmt5 net L fuel Q V out = Panic.
Proof.
  intros HP. induction fuel as [|fuel IH]; intros Q V calls res out HQ E (v & H1 & H2 & H3); [discriminate|].
  destruct Q as [|u Q]; [cbn in E; injection E as <-; contradiction|].
  rewrite search_zero_step in E. cbn [printLoop].
  assert (Hu : reach ch r u) by (apply HQ; left; auto).
  destruct (HL u Hu) as (x & Ex). destruct (HP u Hu) as [Hp|Hp].
  - rewrite (printNode_ok L u _ Hp Ex). cbn [bind]. rewrite next_ok by auto.
    destruct (give_children UseQueue (ch u) (Q, V)) as (Q2 & V2) eqn:Eg. eapply IH; eauto.
    { eapply queue_reach; eauto. }
    exists v. split; auto. split; auto. intros Hin. apply in_app_or in Hin as [Hin|[<-|[]]]; auto.
    unfold printable in Hp. rewrite H3 in Hp. contradiction.
  - unfold printNode. rewrite Ex, Hp. reflexivity.
Qed.
End Loop.

Lemma print_text_l N r : bounded ch N -> r < N -> (forall u, reach ch r u -> printable (net u)) ->
  exists nm ord, printSPN F fmt5 net (2 * N + 1) r = Ok (concat (map (entry fmt5 nm net) ord)) /\
    enumerates ch r ord /\ (exists t, ord = r :: t) /\
    (forall u, reach ch r u -> exists x, nm u = initial (kd u) ++ x) /\
    (forall u v, reach ch r u -> reach ch r v -> nm u = nm v -> u = v).
Proof.
  intros HB Hr HP. destruct (names_l N r HB Hr) as (L & E & HL & HI).
  destruct (searchFunc_l ch UseQueue (fun _ _ => 0%Z) r N HB Hr) as (calls & Ec & _ & Hh & _).
  destruct (search_zero_enum ch UseQueue N r HB Hr) as (calls' & Ec' & He). rewrite Ec in Ec'. injection Ec' as <-.
  unfold searchFunc in Ec. apply (search_more _ _ (2 * N + 1)) in Ec; [|lia].
  destruct (printLoop_ok r L HL HP (2 * N + 1) [r] [r] [] calls []) as (new & -> & Ep); auto.
  { intros x [<-|[]]. constructor. }
  exists (nameOf L), new. unfold printSPN. rewrite E. cbn [bind]. rewrite Ep. split; auto. split; auto. split; auto. split.
  - intros u Hu. destruct (HL u Hu) as (x & Ex). exists x. unfold nameOf. rewrite Ex. auto.
  - intros u v Hu Hv Ev. apply HI; auto. destruct (HL u Hu) as (x & Ex), (HL v Hv) as (y & Ey). unfold nameOf in Ev.
    rewrite Ex, Ey in *. congruence.
Qed.

Lemma print_panic_l N r : bounded ch N -> r < N -> (forall u, reach ch r u -> printable (net u) \/ kd u = PLeaf) ->
  (exists v, reach ch r v /\ kd v = PLeaf) -> printSPN F fmt5 net (2 * N + 1) r = Panic.
Proof.
  intros HB Hr HP (v & Hv & Ev). destruct (names_l N r HB Hr) as (L & E & HL & HI).
  destruct (search_zero_enum ch UseQueue N r HB Hr) as (calls & Ec & _ & He).
  unfold searchFunc in Ec. apply (search_more _ _ (2 * N + 1)) in Ec; [|lia].
  unfold printSPN. rewrite E. cbn [bind]. eapply printLoop_panic; eauto.
  - intros x [<-|[]]. constructor.
  - exists v. split; [apply He; auto|]. split; auto.
Qed.
End P.

(** Reading the text back *)
Section Iso.
Context {F : Type} (fmt5 : F -> string).

Definition body (nm : nat -> string) (net : pnet F) u := (LHead (nm u) ::
   match pk (net u) with
   | PSum w => map (fun cw => LItem [nm (fst cw); fmt5 (snd cw)]) (combine (pch (net u)) w)
   | PProd => map (fun c => LItem [nm c]) (pch (net u))
   | PMulti m s | PGauss m s => [LItem [fmt5 m; fmt5 s]]
   | PLeaf => []
   end)%list.

Lemma entry_body nm net u : entry fmt5 nm net u = (body nm net u ++ [LEnd])%list.
Proof. reflexivity. Qed.

Lemma body_no_end nm net u : ~ In LEnd (body nm net u).
Proof.
  unfold body. intros [H|H]; [discriminate|]. destruct (pk (net u)); try (destruct H as [H|[]]; discriminate); try contradiction;
    apply in_map_iff in H as (? & H & _); discriminate.
Qed.

Lemma split_end (a b : list pline) x y : ~ In LEnd a -> ~ In LEnd b -> (a ++ LEnd :: x = b ++ LEnd :: y)%list -> a = b /\ x = y.
Proof.
  revert b. induction a as [|p a IH]; intros [|q b] Ha Hb E; cbn [app] in E.
  - injection E as ->. auto.
  - injection E as E1 E2. destruct Hb. left. auto.
  - injection E as E1 E2. destruct Ha. left. auto.
  - injection E as -> E2. apply IH in E2 as (-> & ->); auto; intros H; [apply Ha|apply Hb]; right; auto.
Qed.

Lemma same_entries nm net nm' net' : forall ord ord',
  concat (map (entry fmt5 nm net) ord) = concat (map (entry fmt5 nm' net') ord') ->
  Forall2 (fun u u' => body nm net u = body nm' net' u') ord ord'.
Proof.
  induction ord as [|u ord IH]; intros [|u' ord'] E; cbn [map concat] in E; try rewrite !entry_body in E; try discriminate; [constructor|].
  rewrite <- !app_assoc in E. cbn [app] in E. apply split_end in E as (E1 & E2); try apply body_no_end.
  constructor; auto.
Qed.

Lemma iso_fun : forall (ord ord' : list nat), NoDup ord -> length ord = length ord' -> exists f : nat -> nat, map f ord = ord'.
Proof.
  induction ord as [|u ord IH]; intros [|u' ord'] Hn Hl; try discriminate; [exists (fun x => x); auto|].
  inversion Hn; subst. destruct (IH ord') as (f & Ef); auto. exists (upd f u u'). cbn [map]. rewrite upd_same. f_equal.
  rewrite <- Ef. apply map_ext_in. intros x Hx. apply upd_diff. intros ->; auto.
Qed.

Lemma forall2_map {A B} (P : A -> B -> Prop) (f : A -> B) : forall l, Forall2 P l (map f l) -> forall x, In x l -> P x (f x).
Proof.
  induction l as [|a l IH]; intros H x Hx; [destruct Hx|]. cbn in H. inversion H; subst. destruct Hx as [<-|Hx]; auto.
Qed.

Lemma forall2_len {A B} (P : A -> B -> Prop) a b : Forall2 P a b -> length a = length b.
Proof. induction 1; simpl; auto. Qed.

Lemma map_inj_on {A B} (g : A -> B) : forall a b, (forall x y, In x a -> In y b -> g x = g y -> x = y) -> map g a = map g b -> a = b.
Proof.
  induction a as [|x a IH]; intros [|y b] H E; try discriminate; auto. cbn in E. injection E as E1 E2. f_equal.
  - apply H; auto; left; auto.
  - apply IH; auto. intros; apply H; auto; right; auto.
Qed.

Lemma item_names nm nm' : forall (a b : list nat) (w w' : list F), length w = length a -> length w' = length b ->
  map (fun cw => LItem [nm (fst cw); fmt5 (snd cw)]) (combine a w) = map (fun cw => LItem [nm' (fst cw); fmt5 (snd cw)]) (combine b w') ->
  map nm a = map nm' b /\ map fmt5 w = map fmt5 w'.
Proof.
  induction a as [|x a IH]; intros [|y b] [|u w] [|v w'] H H' E; try discriminate; auto. cbn in E. injection E as E1 E2 E3.
  apply IH in E3 as (A & B); auto. cbn. rewrite E1, E2, A, B. auto.
Qed.

Lemma print_same_l (net net' : pnet F) N N' r r' t :
  bounded (graph_of net) N -> r < N -> (forall u, reach (graph_of net) r u -> printable (net u)) ->
  bounded (graph_of net') N' -> r' < N' -> (forall u, reach (graph_of net') r' u -> printable (net' u)) ->
  printSPN F fmt5 net (2 * N + 1) r = Ok t -> printSPN F fmt5 net' (2 * N' + 1) r' = Ok t ->
  same_network fmt5 net net' r r'.
Proof.
  intros HB Hr HP HB' Hr' HP' E E'.
  destruct (print_text_l fmt5 net N r HB Hr HP) as (nm & ord & E1 & (Hn & He) & (t1 & Hh) & Hl & Hi).
  destruct (print_text_l fmt5 net' N' r' HB' Hr' HP') as (nm' & ord' & E1' & (Hn' & He') & (t1' & Hh') & Hl' & Hi').
  assert (Et : concat (map (entry fmt5 nm net) ord) = concat (map (entry fmt5 nm' net') ord')) by congruence.
  apply same_entries in Et. destruct (iso_fun ord ord' Hn (forall2_len _ _ _ Et)) as (f & Ef).
  exists f. rewrite <- Ef in Et. pose proof (forall2_map _ _ _ Et) as Hb. clear Et.
  assert (Hf : forall u, reach (graph_of net) r u -> reach (graph_of net') r' (f u)).
  { intros u Hu. apply He'. rewrite <- Ef. apply in_map. apply He. auto. }
  assert (Hhead : forall u, reach (graph_of net) r u -> nm u = nm' (f u)).
  { intros u Hu. apply He in Hu. apply Hb in Hu. unfold body in Hu. injection Hu as Hu _. auto. }
  split; [subst ord ord'; cbn in Ef; congruence|]. split; [|split].
  - intros u v Hu Hv Euv. apply Hi; auto. rewrite !Hhead, Euv by auto. auto.
  - intros u' Hu'. apply He' in Hu'. rewrite <- Ef in Hu'. apply in_map_iff in Hu' as (u & Eu & Hu). exists u. split; auto. apply He. auto.
  - intros u Hu. split; auto. pose proof (Hhead u Hu) as Ehd. pose proof (Hf u Hu) as Hu'.
    destruct (Hl u Hu) as (x & Ex), (Hl' (f u) Hu') as (y & Ey). rewrite Ex, Ey in Ehd.
    pose proof (HP u Hu) as Pu. pose proof (HP' _ Hu') as Pu'. assert (Hbu := Hb u (proj2 (He u) Hu)).
    assert (Hc : forall c, In c (pch (net u)) -> reach (graph_of net) r c) by (intros c Hc; eapply reach_snoc; eauto).
    assert (Hc' : forall c, In c (pch (net' (f u))) -> reach (graph_of net') r' c) by (intros c Hc0; eapply reach_snoc; eauto).
    assert (Hch : map nm (pch (net u)) = map nm' (pch (net' (f u))) -> pch (net' (f u)) = map f (pch (net u))).
    { intros Em. apply (map_inj_on nm').
      - intros a b Ha Hb0. apply in_map_iff in Hb0 as (b0 & <- & Hb0). apply Hi'; auto.
      - rewrite <- Em, map_map. apply map_ext_in. intros c Hcc. apply Hhead. auto. }
    unfold body, printable in *.
    destruct (pk (net u)) as [w| |m s|m s|] eqn:Ek; destruct (pk (net' (f u))) as [w'| |m' s'|m' s'|] eqn:Ek';
      cbn [initial append] in Ehd; try discriminate Ehd; try contradiction; apply (f_equal (@tl pline)) in Hbu; cbn [tl] in Hbu.
    + apply item_names in Hbu as (A & B); auto. split; [constructor; auto|auto].
    + split; [constructor|]. apply Hch. apply (f_equal (map (fun l => match l with LItem [a] => a | _ => "" end))) in Hbu.
      rewrite !map_map in Hbu. exact Hbu.
    + injection Hbu as A B. split; [eapply same_leaf; eauto|]. rewrite Pu, Pu'. auto.
    + injection Hbu as A B. split; [eapply same_leaf; eauto|]. rewrite Pu, Pu'. auto.
    + injection Hbu as A B. split; [eapply same_leaf; eauto|]. rewrite Pu, Pu'. auto.
    + injection Hbu as A B. split; [eapply same_leaf; eauto|]. rewrite Pu, Pu'. auto.
Qed.
End Iso.

(** Cases *)
Definition exNet : pnet Z := fun u => match u with
  | 0 => mkP (PSum [3; 7]%Z) [1; 2] [0; 1]%Z
  | 1 => mkP PProd [3; 4] [0; 1]%Z
  | 2 => mkP PProd [3; 5] [0; 1]%Z
  | 3 => mkP (PMulti 0 1)%Z [] [0]%Z
  | 4 => mkP (PGauss 5 2)%Z [] [1]%Z
  | 5 => mkP (PGauss 8 2)%Z [] [1]%Z
  | _ => mkP PProd [] []
  end.

Lemma exNet_bounded : bounded (graph_of exNet) 6.
Proof.
  intros u c H. unfold graph_of in H.
  do 6 (destruct u as [|u]; [cbn in H; repeat (destruct H as [<-|H]; [lia|]); destruct H|]). destruct H.
Qed.
Lemma exNet_printable u : printable (exNet u).
Proof. do 6 (destruct u as [|u]; [cbn; auto|]). exact Logic.I. Qed.

Lemma print_scope_l : exists (net net' : pnet Z) t, bounded (graph_of net) 1 /\ bounded (graph_of net') 1 /\
  (forall u, printable (net u)) /\ (forall u, printable (net' u)) /\
  printSPN Z itoa net 3 0 = Ok t /\ printSPN Z itoa net' 3 0 = Ok t /\ psc (net 0) <> psc (net' 0).
Proof.
  exists (fun _ => mkP (PGauss 5 2)%Z [] [0]%Z), (fun _ => mkP (PGauss 5 2)%Z [] [1]%Z). eexists.
  split; [intros u c []|]. split; [intros u c []|]. split; [intros; reflexivity|]. split; [intros; reflexivity|].
  split; [vm_compute; reflexivity|]. split; [vm_compute; reflexivity|]. discriminate.
Qed.
