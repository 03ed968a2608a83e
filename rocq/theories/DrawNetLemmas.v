(** Proofs about DrawGraph and DrawGraphTools. *)
From Coq Require Import String.
From Verif Require Import Base Res GraphSpec GraphLemmas Text PrintLemmas DrawNet DrawNetSpec.
Local Open Scope string_scope.

Lemma key_dec (a b : key) : {a = b} + {a <> b}.
Proof. decide equality; [apply list_eq_dec, Nat.eq_dec|apply Z.eq_dec]. Defined.
Definition updk (nm : key -> string) (k : key) (s : string) : key -> string := fun x => if key_dec x k then s else nm x.
Lemma updk_same nm k s : updk nm k s k = s.
Proof. unfold updk. destruct (key_dec k k); congruence. Qed.
Lemma updk_diff nm k s x : x <> k -> updk nm k s x = nm x.
Proof. unfold updk. destruct (key_dec x k); congruence. Qed.

Lemma nodes_app a b : nodes_in (a ++ b)%list = (nodes_in a ++ nodes_in b)%list.
Proof. induction a as [|[]]; simpl; congruence. Qed.
Lemma edges_app a b : edges_in (a ++ b)%list = (edges_in a ++ edges_in b)%list.
Proof. induction a as [|[]]; simpl; congruence. Qed.

Lemma snoc_inj {A} (a b : list A) x y : (a ++ [x] = b ++ [y])%list -> a = b /\ x = y.
Proof. apply app_inj_tail. Qed.

Lemma NoDup_app_iff_ {A} (a b : list A) : NoDup a /\ NoDup b /\ (forall x, In x a -> ~ In x b) -> NoDup (a ++ b)%list.
Proof.
  induction a as [|x a IH]; intros (Ha & Hb & H); auto. inversion Ha; subst. cbn. constructor.
  - intros Hx. apply in_app_or in Hx as [Hx|Hx]; auto. apply (H x); auto. left; auto.
  - apply IH. split; auto. split; auto. intros y Hy. apply H. right; auto.
Qed.
Lemma NoDup_app_l {A} (a b : list A) : NoDup (a ++ b)%list -> NoDup a.
Proof.
  induction a as [|x a IH]; intros H; [constructor|]. inversion H; subst. constructor; auto. intros Hx. apply H2. apply in_or_app; auto.
Qed.
Lemma NoDup_app_r {A} (a b : list A) : NoDup (a ++ b)%list -> NoDup b.
Proof. induction a as [|x a IH]; intros H; auto. inversion H; subst. auto. Qed.
Lemma NoDup_app_not {A} (a b : list A) : NoDup (a ++ b)%list -> forall x, In x a -> ~ In x b.
Proof.
  induction a as [|y a IH]; intros H x Hx Hb; [destruct Hx|]. inversion H; subst. destruct Hx as [<-|Hx].
  - apply H2. apply in_or_app; auto.
  - apply (IH H3 x); auto.
Qed.
Lemma nodup_snoc {A} (l : list A) x : NoDup l -> ~ In x l -> NoDup (l ++ [x])%list.
Proof.
  intros H Hx. apply NoDup_app_iff_. split; auto. split; [repeat constructor; auto|]. intros y Hy [<-|[]]. auto.
Qed.

Section D.
Context {F : Type} (minus1 : F) (ge0 : F -> bool) (fmt3 : F -> string).
Variable tools : bool.
Variable net : dnet F.
Variable r : nat.
Hypothesis Hm1 : ge0 minus1 = false.
Hypothesis HD : forall u, reach (graph_of net) r u -> drawable ge0 (net u).

Local Notation k := (key_at tools net r).
Local Notation lab := (label_at net r).
Local Notation wt := (weight_at fmt3 net r).
Local Notation valid p := (walk net r p <> None).

Lemma walk_snoc : forall p u i, walk net u (p ++ [i])%list =
  match walk net u p with Some v => nth_error (dch (net v)) i | None => None end.
Proof.
  induction p as [|j p IH]; intros u i; cbn [walk app].
  - destruct (nth_error (dch (net u)) i); auto.
  - destruct (nth_error (dch (net u)) j); auto.
Qed.

Lemma walk_reach : forall p u v, walk net u p = Some v -> reach (graph_of net) u v.
Proof.
  induction p as [|i p IH]; intros u v E; cbn [walk] in E; [injection E as ->; constructor|].
  destruct (nth_error (dch (net u)) i) as [c|] eqn:Ec; [|discriminate].
  eapply reach_step; [eapply nth_error_In; exact Ec|]. auto.
Qed.

Lemma reach_walk u v : reach (graph_of net) u v -> exists p, walk net u p = Some v.
Proof.
  induction 1 as [x|x c y Hc Hr (p & IH)]; [exists []; auto|]. apply In_nth_error in Hc as (i & Hi). exists (i :: p). cbn.
  change (nth_error (dch (net x)) i = Some c) in Hi. rewrite Hi. auto.
Qed.

Lemma inner_key p u : walk net r p = Some u -> isLeaf (net u) = false -> k p = KPath p.
Proof. intros E H. unfold key_at. rewrite E, H, andb_false_r. auto. Qed.

Lemma leaf_key p u : walk net r p = Some u -> isLeaf (net u) = true ->
  k p = if tools then KVar (hd 0%Z (dsc (net u))) else KPath p.
Proof. intros E H. unfold key_at. rewrite E, H, andb_true_r. auto. Qed.

Lemma key_path p q : k p = KPath q -> p = q.
Proof. unfold key_at. destruct (walk net r p); [destruct (_ && _)%bool|]; congruence. Qed.

Lemma leaf_label p u v : walk net r p = Some u -> isLeaf (net u) = true -> hd 0%Z (dsc (net u)) = v -> lab p = LVar v.
Proof. intros E H <-. unfold label_at, label_of. rewrite E. unfold isLeaf in H. destruct (dk (net u)); auto; discriminate. Qed.

Definition eline (nm : key -> string) (e : list nat * nat) : string * string * option string :=
  (nm (k (fst e)), nm (k (fst e ++ [snd e])%list), wt (fst e) (snd e)).

Definition numbered (nv ns np : nat) (s : string) : Prop :=
  exists c t, s = c ++ itoa (Z.of_nat t) /\ ((c = "S" /\ t < ns) \/ (c = "P" /\ t < np) \/ (c = "X" /\ t < nv)).

Record core (nm : key -> string) (ks : list (list nat)) (es : list (list nat * nat)) (nv ns np : nat)
  (vm : list (Z * string)) (nl : list (string * dlabel)) (el : list (string * string * option string)) : Prop := {
  c_nodes : nl = map (fun p => (nm (k p), lab p)) ks;
  c_edges : el = map (eline nm) es;
  c_nd : NoDup (map k ks);
  c_val : forall p, In p ks -> valid p;
  c_names : forall p, In p ks -> numbered nv ns np (nm (k p));
  c_inj : forall p q, In p ks -> In q ks -> nm (k p) = nm (k q) -> k p = k q;
  c_ends : forall p i, In (p, i) es -> In (k p) (map k ks) /\ In (k (p ++ [i])%list) (map k ks);
  c_vm : tools = true -> forall v s, vget vm v = Some s <-> In (KVar v) (map k ks) /\ nm (KVar v) = s }.

Definition agree (ks : list (list nat)) (nm nm' : key -> string) : Prop := forall p, In p ks -> nm (k p) = nm' (k p).

Lemma agree_in ks nm nm' x : agree ks nm nm' -> In x (map k ks) -> nm x = nm' x.
Proof. intros H Hx. apply in_map_iff in Hx as (p & <- & Hp). auto. Qed.

Lemma numbered_fresh nv ns np c t : numbered nv ns np (c ++ itoa (Z.of_nat t)) ->
  (c = "S" -> ns <= t -> False) /\ (c = "P" -> np <= t -> False) /\ (c = "X" -> nv <= t -> False).
Proof.
  intros (d & s & E & H). repeat split; intros -> Ht; destruct H as [(-> & H)|[(-> & H)|(-> & H)]];
    cbn in E; try discriminate; injection E as E; apply itoa_inj in E; lia.
Qed.

Lemma numbered_mono nv ns np nv' ns' np' s : nv <= nv' -> ns <= ns' -> np <= np' -> numbered nv ns np s -> numbered nv' ns' np' s.
Proof. intros A B C (c & t & E & H). exists c, t. split; auto. intuition lia. Qed.

(** A node is drawn. *)
Lemma add_node nm ks es nv ns np vm nl el p name nv' ns' np' vm' :
  core nm ks es nv ns np vm nl el -> valid p -> ~ In (k p) (map k ks) ->
  ((name = "S" ++ itoa (Z.of_nat ns) /\ nv' = nv /\ ns' = ns + 1 /\ np' = np) \/
   (name = "P" ++ itoa (Z.of_nat np) /\ nv' = nv /\ ns' = ns /\ np' = np + 1) \/
   (name = "X" ++ itoa (Z.of_nat nv) /\ nv' = nv + 1 /\ ns' = ns /\ np' = np)) ->
  (tools = true -> (exists q, k p = KPath q /\ vm' = vm) \/ (exists v, k p = KVar v /\ vm' = (v, name) :: vm)) ->
  core (updk nm (k p) name) (ks ++ [p])%list es nv' ns' np' vm' (nl ++ [(name, lab p)])%list el /\
  agree ks nm (updk nm (k p) name).
Proof.
  intros [C1 C2 C3 C4 C5 C6 C7 C8] Hp Hnew Hname Hvm.
  assert (Hag : agree ks nm (updk nm (k p) name)).
  { intros q Hq. rewrite updk_diff; auto. intros E. apply Hnew. rewrite <- E. apply in_map. auto. }
  assert (Hfr : forall q, In q ks -> nm (k q) <> name).
  { intros q Hq E. pose proof (C5 q Hq) as N. rewrite E in N.
    destruct Hname as [(-> & _)|[(-> & _)|(-> & _)]]; apply numbered_fresh in N as (N1 & N2 & N3); eauto. }
  split; auto. split.
  - rewrite map_app, C1. cbn [map]. rewrite updk_same. f_equal. apply map_ext_in. intros q Hq. rewrite <- Hag; auto.
  - rewrite C2. apply map_ext_in. intros (q & i) Hq. unfold eline. cbn [fst snd]. destruct (C7 q i Hq) as (A & B).
    rewrite (agree_in _ _ _ _ Hag A), (agree_in _ _ _ _ Hag B). auto.
  - rewrite map_app. cbn [map]. apply nodup_snoc; auto.
  - intros q Hq. apply in_app_or in Hq as [Hq|[<-|[]]]; auto.
  - intros q Hq. apply in_app_or in Hq as [Hq|[<-|[]]].
    + rewrite <- Hag by auto. eapply numbered_mono; [| | |exact (C5 q Hq)]; intuition lia.
    + rewrite updk_same. destruct Hname as [(-> & -> & -> & ->)|[(-> & -> & -> & ->)|(-> & -> & -> & ->)]]; eexists _, _; (split; [reflexivity|]);
        [left|right; left|right; right]; split; auto; lia.
  - intros q q' Hq Hq'. apply in_app_or in Hq as [Hq|[<-|[]]]; apply in_app_or in Hq' as [Hq'|[<-|[]]].
    + rewrite <- !Hag by auto. auto.
    + rewrite <- Hag by auto. rewrite updk_same. intros E. destruct (Hfr q Hq E).
    + rewrite <- (Hag q') by auto. rewrite updk_same. intros E. destruct (Hfr q' Hq' (eq_sym E)).
    + auto.
  - intros q i Hq. destruct (C7 q i Hq) as (A & B). rewrite map_app. split; apply in_or_app; auto.
  - intros Ht v s. rewrite map_app, in_app_iff. cbn [map In]. destruct (Hvm Ht) as [(q & Eq & ->)|(v0 & Ev & ->)].
    + rewrite (C8 Ht v s). rewrite Eq. split.
      * intros (A & B). split; [auto|]. rewrite updk_diff by discriminate. exact B.
      * intros ([A|[A|[]]] & B); [|discriminate]. rewrite updk_diff in B by discriminate. auto.
    + cbn [vget]. rewrite Ev in *. destruct (Z.eqb_spec v0 v) as [->|Hne].
      * rewrite updk_same. clear. split; [intros E; injection E; auto|intros [_ E]; congruence].
      * rewrite (C8 Ht v s). rewrite updk_diff by congruence. split; [tauto|]. intros ([A|[A|[]]] & B); [auto|congruence].
Qed.

(** An edge is drawn. *)
Lemma add_edge nm ks es nv ns np vm nl el p i a b t :
  core nm ks es nv ns np vm nl el -> In (k p) (map k ks) -> In (k (p ++ [i])%list) (map k ks) ->
  a = nm (k p) -> b = nm (k (p ++ [i])%list) -> t = wt p i ->
  core nm ks (es ++ [(p, i)])%list nv ns np vm nl (el ++ [(a, b, t)])%list.
Proof.
  intros [C1 C2 C3 C4 C5 C6 C7 C8] Hp Hi -> -> ->. split; auto.
  - rewrite C2, map_app. reflexivity.
  - intros q j Hq. apply in_app_or in Hq as [Hq|[E|[]]]; auto. injection E as <- <-. auto.
Qed.

Definition leafAt (u j : nat) : bool := match nth_error (dch (net u)) j with Some c => isLeaf (net c) | None => false end.
Definition innerAt (u j : nat) : bool := match nth_error (dch (net u)) j with Some c => negb (isLeaf (net c)) | None => false end.

Definition wOf (u : nat) : option (list F) := match dk (net u) with DSum w => Some w | _ => None end.

Lemma wt_text p u i c : walk net r p = Some u -> nth_error (dch (net u)) i = Some c ->
  match wOf u with None => Ok None | Some w => x <- idx w i; Ok (Some (fmt3 x)) end = Ok (wt p i).
Proof.
  intros Ew Ec. unfold wOf, weight_at. rewrite Ew. pose proof (HD u (walk_reach _ _ _ Ew)) as H. unfold drawable in H.
  destruct (dk (net u)) as [w| |]; auto. destruct H as (Hl & _). unfold idx.
  destruct (nth_error w i) as [x|] eqn:Ex; [reflexivity|]. apply nth_error_None in Ex.
  assert (i < length (dch (net u))) by (apply nth_error_Some; congruence). lia.
Qed.

Lemma wt_later p u i c : walk net r p = Some u -> nth_error (dch (net u)) i = Some c -> exists x,
  match wOf u with None => Ok minus1 | Some [] => Ok minus1 | Some w => idx w i end = Ok x /\
  (if ge0 x then Some (fmt3 x) else None) = wt p i.
Proof.
  intros Ew Ec. unfold wOf, weight_at. rewrite Ew. pose proof (HD u (walk_reach _ _ _ Ew)) as H. unfold drawable in H.
  assert (Hi : i < length (dch (net u))) by (apply nth_error_Some; congruence).
  destruct (dk (net u)) as [w| |]; [|exists minus1; rewrite Hm1; auto|exists minus1; rewrite Hm1; auto].
  destruct H as (Hl & Hg). destruct w as [|x0 w]; [cbn in Hl; lia|]. unfold idx.
  destruct (nth_error (x0 :: w) i) as [x|] eqn:Ex; [|apply nth_error_None in Ex; lia].
  exists x. split; auto. rewrite (Hg x) by (eapply nth_error_In; eauto). auto.
Qed.

(** What is put in the queue for the inner children. *)
Definition queued (nm : key -> string) (p : list nat) (b : bpair F) : Prop :=
  exists u p0 i, walk net r p = Some u /\ isLeaf (net u) = false /\ bspn b = u /\ p = (p0 ++ [i])%list /\
    bname b = nm (k p0) /\ (if ge0 (bweight b) then Some (fmt3 (bweight b)) else None) = wt p0 i.

Lemma children_ok p u name ns np : walk net r p = Some u -> isLeaf (net u) = false ->
  forall cs i nm ks es nv vm nl el q o, cs = skipn i (dch (net u)) -> (forall j, i <= j -> ~ In (p ++ [j])%list ks) -> In (k p) (map k ks) -> nm (k p) = name ->
  core nm ks es nv ns np vm nl el ->
  exists s' nm' ks' es', foldi_from i (childStep F minus1 fmt3 tools net name (wOf u)) cs (mkC nv vm q o) = Ok s' /\
    (exists o', co s' = (o ++ o')%list /\
       core nm' (ks ++ ks')%list (es ++ es')%list (cnv s') ns np (cvm s') (nl ++ nodes_in o')%list (el ++ edges_in o')%list) /\
    agree ks nm nm' /\
    es' = map (fun j => (p, j)) (filter (leafAt u) (seq i (length cs))) /\
    (forall x, In x ks' -> exists j, x = (p ++ [j])%list /\ leafAt u j = true) /\
    (exists qs, cq s' = (q ++ qs)%list /\
       Forall2 (queued nm') (map (fun j => (p ++ [j])%list) (filter (innerAt u) (seq i (length cs)))) qs).
Proof.
  intros Ew Hin. induction cs as [|c cs IH]; intros i nm ks es nv vm nl el q o Hcs Hfresh Hp Hname Hc.
  - cbn [foldi_from]. exists (mkC nv vm q o), nm, [], []. split; auto. cbn [co cnv cvm cq length seq filter map].
    split; [exists []; cbn [nodes_in edges_in]; rewrite !app_nil_r; auto|]. split; [intros x _; auto|]. split; auto. split; [intros x []|].
    exists []. rewrite app_nil_r. auto.
  - assert (Ec : nth_error (dch (net u)) i = Some c).
    { rewrite <- (Nat.add_0_r i), <- nth_error_skipn, <- Hcs. auto. }
    assert (Hcs' : cs = skipn (i + 1) (dch (net u))).
    { clear -Hcs. revert i Hcs. induction (dch (net u)) as [|a l IHl]; intros i Hcs.
      - rewrite skipn_nil in Hcs. discriminate.
      - destruct i as [|i]; cbn [skipn Nat.add] in *; [congruence|]. apply IHl. auto. }
    assert (Ew' : walk net r (p ++ [i])%list = Some c) by (rewrite walk_snoc, Ew; auto).
    assert (Hi1 : i + 1 = S i) by lia.
    cbn [foldi_from]. unfold childStep at 1. cbn [cnv cvm cq co].
    assert (Hdc : drawable ge0 (net c)) by (apply HD; eapply walk_reach; eauto).
    destruct (isLeaf (net c)) eqn:El.
    + assert (exists v vs, dsc (net c) = v :: vs) as (v & vs & Ev).
      { unfold isLeaf in El. unfold drawable in Hdc. destruct (dk (net c)); try discriminate. destruct Hdc as (_ & H).
        destruct (dsc (net c)); [congruence|eauto]. }
      unfold idx at 1. rewrite Ev. cbn [nth_error bind].
      assert (EL : leafAt u i = true) by (unfold leafAt; rewrite Ec; auto).
      assert (EI : innerAt u i = false) by (unfold innerAt; rewrite Ec, El; auto).
      assert (Elab : lab (p ++ [i])%list = LVar v) by (eapply leaf_label; eauto; rewrite Ev; auto).
      pose proof (leaf_key _ _ Ew' El) as Ek. rewrite Ev in Ek. cbn [hd] in Ek.
      pose proof (wt_text p u i c Ew Ec) as Et. rewrite Et. cbn [bind].
      cbn [length seq filter]. rewrite EL, EI.
      (* the leaf is drawn already, or not *)
      destruct (if tools then vget vm v else None) as [n|] eqn:Eold.
      * assert (Etl : tools = true) by (revert Eold; case tools; [reflexivity|discriminate]).
        assert (Eg : vget vm v = Some n) by (rewrite Etl in Eold; exact Eold).
        assert (Ek1 : k (p ++ [i])%list = KVar v) by (rewrite Ek, Etl; reflexivity).
        apply (c_vm _ _ _ _ _ _ _ _ _ Hc Etl) in Eg as (Hk & Hn). cbn [bind].
        assert (Hc1 : core nm ks (es ++ [(p, i)])%list nv ns np vm nl (el ++ [(name, n, wt p i)])%list).
        { apply add_edge; auto; rewrite Ek1; auto. }
        destruct (IH (i + 1) nm ks (es ++ [(p, i)])%list nv vm nl (el ++ [(name, n, wt p i)])%list q (o ++ [DEdge name n (wt p i)])%list)
          as (s' & nm' & ks' & es' & E & (o' & Eo & Hc') & Hag & Ees & Hks & (qs & Eq & Hqs)); auto.
        { intros j Hj. apply Hfresh. lia. }
        rewrite E. exists s', nm', ks', ((p, i) :: es'). split; auto. split.
        { exists (DEdge name n (wt p i) :: o'). rewrite <- app_assoc in Eo. split; auto.
          cbn [nodes_in edges_in]. rewrite <- !app_assoc in Hc'. auto. }
        split; auto. rewrite Hi1 in *. split; [rewrite Ees; reflexivity|]. split; auto. exists qs. split; auto.
      * assert (Hnew : ~ In (k (p ++ [i])%list) (map k ks)).
        { intros Hk. destruct (Bool.bool_dec tools true) as [Etl|Etl].
          - assert (Ek1 : k (p ++ [i])%list = KVar v) by (rewrite Ek, Etl; reflexivity). rewrite Ek1 in Hk.
            assert (X : vget vm v = Some (nm (KVar v))) by (apply (c_vm _ _ _ _ _ _ _ _ _ Hc Etl); auto).
            rewrite Etl in Eold. congruence.
          - assert (Ek1 : k (p ++ [i])%list = KPath (p ++ [i])%list).
            { rewrite Ek. apply Bool.not_true_is_false in Etl. rewrite Etl. reflexivity. }
            rewrite Ek1 in Hk. apply in_map_iff in Hk as (x & Ex & Hx). apply key_path in Ex. subst x. apply (Hfresh i); auto. }
        cbn [bind]. set (cname := "X" ++ itoa (Z.of_nat nv)) in *.
        destruct (add_node nm ks es nv ns np vm nl el (p ++ [i])%list cname (nv + 1) ns np ((v, cname) :: vm) Hc) as (Hc0 & Hag0).
        { congruence. }
        { exact Hnew. }
        { right; right. auto. }
        { intros Ht. right. exists v. split; auto. rewrite Ek, Ht. reflexivity. }
        rewrite Elab in Hc0. set (nm1 := updk nm (k (p ++ [i])%list) cname) in *.
        assert (En : nm1 (k p) = name) by (rewrite <- (agree_in ks nm nm1 (k p) Hag0 Hp); auto).
        assert (Hc1 : core nm1 (ks ++ [(p ++ [i])%list])%list (es ++ [(p, i)])%list (nv + 1) ns np ((v, cname) :: vm)
           (nl ++ [(cname, LVar v)])%list (el ++ [(name, cname, wt p i)])%list).
        { apply add_edge; auto.
          - rewrite map_app. apply in_or_app. auto.
          - rewrite map_app. apply in_or_app. right. left. auto.
          - unfold nm1. rewrite updk_same. auto. }
        destruct (IH (i + 1) nm1 (ks ++ [(p ++ [i])%list])%list (es ++ [(p, i)])%list (nv + 1) ((v, cname) :: vm)
          (nl ++ [(cname, LVar v)])%list (el ++ [(name, cname, wt p i)])%list q (o ++ [DNode cname (LVar v); DEdge name cname (wt p i)])%list)
          as (s' & nm' & ks' & es' & E & (o' & Eo & Hc') & Hag & Ees & Hks & (qs & Eq & Hqs)); auto.
        { intros j Hj Hx. apply in_app_or in Hx as [Hx|[Hx|[]]]; [apply (Hfresh j); auto; lia|]. apply snoc_inj in Hx as (_ & ->). lia. }
        { rewrite map_app. apply in_or_app. auto. }
        rewrite E. exists s', nm', ((p ++ [i])%list :: ks'), ((p, i) :: es'). split; auto. split.
        { exists (DNode cname (LVar v) :: DEdge name cname (wt p i) :: o'). rewrite <- app_assoc in Eo. split; auto.
          cbn [nodes_in edges_in]. rewrite <- !app_assoc in Hc'. auto. }
        split. { intros x Hx. rewrite (Hag0 x Hx). apply Hag. apply in_or_app; auto. }
        rewrite Hi1 in *. split; [rewrite Ees; reflexivity|]. split.
        { intros x [<-|Hx]; [exists i; auto|auto]. }
        exists qs. split; auto.
    + assert (EL : leafAt u i = false) by (unfold leafAt; rewrite Ec; auto).
      assert (EI : innerAt u i = true) by (unfold innerAt; rewrite Ec, El; auto).
      destruct (wt_later p u i c Ew Ec) as (x & Ex & Ext). rewrite Ex. cbn [bind].
      destruct (IH (i + 1) nm ks es nv vm nl el (q ++ [mkB c name x])%list o)
          as (s' & nm' & ks' & es' & E & (o' & Eo & Hc') & Hag & Ees & Hks & (qs & Eq & Hqs)); auto.
      { intros j Hj. apply Hfresh. lia. }
      rewrite E. exists s', nm', ks', es'. split; auto. split; [eauto|]. split; auto. rewrite Hi1 in *.
      cbn [length seq filter]. rewrite EL, EI. split; auto. split; auto.
      exists (mkB c name x :: qs). rewrite <- app_assoc in Eq. split; auto. cbn [map]. constructor; auto.
      exists c, p, i. cbn [bspn bname bweight]. repeat split; auto. rewrite <- (agree_in ks nm nm' (k p) Hag Hp). auto.
Qed.

Definition qok (nm : key -> string) (done : list (list nat)) (p : list nat) (b : bpair F) : Prop :=
  queued nm p b \/ (p = [] /\ done = [] /\ bspn b = r /\ bname b = "" /\ isLeaf (net r) = false).

Record inv (nm : key -> string) (ks : list (list nat)) (es : list (list nat * nat)) (done ps : list (list nat))
  (Q : list (bpair F)) (nv ns np : nat) (vm : list (Z * string)) (out : list dline) : Prop := {
  v_core : core nm ks es nv ns np vm (nodes_in out) (edges_in out);
  v_q : Forall2 (qok nm done) ps Q;
  v_nd : NoDup (done ++ ps)%list;
  v_root : In [] (done ++ ps)%list;
  v_done : forall p, In p done -> In p ks /\ exists u, walk net r p = Some u /\ isLeaf (net u) = false;
  v_kids : forall p u i c, In p done -> walk net r p = Some u -> nth_error (dch (net u)) i = Some c ->
     if isLeaf (net c) then In (k (p ++ [i])%list) (map k ks) /\ In (p, i) es else In (p ++ [i])%list (done ++ ps)%list;
  v_es : forall p i, In (p, i) es -> In p done /\ valid (p ++ [i])%list /\
     (In (p ++ [i])%list done \/ exists c, walk net r (p ++ [i])%list = Some c /\ isLeaf (net c) = true);
  v_esdone : forall p i, In (p ++ [i])%list done -> In (p, i) es;
  v_par : forall p i, In (p ++ [i])%list (done ++ ps)%list -> In p done;
  v_ndes : NoDup es;
  v_ks : forall p, In p ks -> In p done \/
     exists p0 i c, p = (p0 ++ [i])%list /\ In p0 done /\ walk net r p = Some c /\ isLeaf (net c) = true }.

Lemma snoc_neq {A} (l : list A) x : (l ++ [x])%list <> l.
Proof. intros E. apply (f_equal (@length A)) in E. rewrite app_length in E. simpl in E. lia. Qed.
Lemma snoc_nil {A} (l : list A) x : (l ++ [x])%list <> [].
Proof. destruct l; discriminate. Qed.

Lemma name_nonempty nv ns np s : numbered nv ns np s -> String.eqb s "" = false.
Proof. intros (c & t & -> & [(-> & _)|[(-> & _)|(-> & _)]]); reflexivity. Qed.

Lemma leaf_at_index u j : leafAt u j = true -> exists c, nth_error (dch (net u)) j = Some c /\ isLeaf (net c) = true.
Proof. unfold leafAt. destruct (nth_error _ j); [eauto|discriminate]. Qed.
Lemma inner_at_index u j : innerAt u j = true -> exists c, nth_error (dch (net u)) j = Some c /\ isLeaf (net c) = false.
Proof. unfold innerAt. destruct (nth_error _ j) as [c|]; [|discriminate]. intros H. exists c. split; auto. destruct (isLeaf (net c)); auto. Qed.

(** The declaration of a node. *)
Definition declOf (u ns np : nat) : string * list dline * nat * nat :=
  match dk (net u) with
  | DSum _ => let name := "S" ++ itoa (Z.of_nat ns) in (name, [DNode name LPlus], ns + 1, np)
  | DProd => let name := "P" ++ itoa (Z.of_nat np) in (name, [DNode name LTimes], ns, np + 1)
  | DLeaf => ("N", [], ns, np)
  end.

Lemma decl_ok u ns np : isLeaf (net u) = false -> exists name ns' np', declOf u ns np = (name, [DNode name (label_of (net u))], ns', np') /\
  forall nv, (name = "S" ++ itoa (Z.of_nat ns) /\ nv = nv /\ ns' = ns + 1 /\ np' = np) \/
   (name = "P" ++ itoa (Z.of_nat np) /\ nv = nv /\ ns' = ns /\ np' = np + 1) \/
   (name = "X" ++ itoa (Z.of_nat nv) /\ nv = nv + 1 /\ ns' = ns /\ np' = np).
Proof.
  unfold isLeaf, declOf, label_of. destruct (dk (net u)); [| |discriminate]; intros _; eexists _, _, _; (split; [reflexivity|]); intros nv; auto 7.
Qed.

Lemma inv_step nm ks es done p ps b Q nv ns np vm out :
  inv nm ks es done (p :: ps) (b :: Q) nv ns np vm out ->
  exists u name ns' np' s' nm' ks' es' qps, walk net r p = Some u /\ bspn b = u /\ isLeaf (net u) = false /\
    declOf u ns np = (name, [DNode name (label_of (net u))], ns', np') /\
    foldi (childStep F minus1 fmt3 tools net name (wOf u)) (dch (net u)) (mkC nv vm [] []) = Ok s' /\
    qps = map (fun j => (p ++ [j])%list) (filter (innerAt u) (seq 0 (length (dch (net u))))) /\
    inv nm' ks' es' (done ++ [p])%list (ps ++ qps)%list (Q ++ cq s')%list (cnv s') ns' np' (cvm s')
      (out ++ [DNode name (label_of (net u))] ++
       (if String.eqb (bname b) "" then [] else [DEdge (bname b) name (if ge0 (bweight b) then Some (fmt3 (bweight b)) else None)]) ++ co s')%list.
Proof.
  intros [V1 V2 V3 V4 V5 V6 V7 V8 V9 V10 V11]. inversion V2 as [|p1 b1 ps1 Q1 Hq HQ E1 E2]; subst p1 b1 ps1 Q1.
  assert (exists u, walk net r p = Some u /\ bspn b = u /\ isLeaf (net u) = false) as (u & Ew & Eb & Hin).
  { destruct Hq as [(u & p0 & i & A & B & C & _)|(-> & _ & A & _ & B)]; [eauto|]. exists r. auto. }
  destruct (decl_ok u ns np Hin) as (name & ns' & np' & Ed & Hd).
  pose proof (inner_key p u Ew Hin) as Ek.
  assert (Hpd : ~ In p done).
  { apply NoDup_remove_2 in V3. intros H. apply V3. apply in_or_app. auto. }
  assert (Hpk : ~ In p ks).
  { intros H. destruct (V11 p H) as [H1|(p0 & i & c & -> & H1 & Hw & Hlf)]; auto. rewrite Ew in Hw. injection Hw as ->. congruence. }
  assert (Hnew : ~ In (k p) (map k ks)).
  { intros H. apply in_map_iff in H as (x & Ex & Hx). rewrite Ek in Ex. apply key_path in Ex. subst x. auto. }
  destruct (add_node nm ks es nv ns np vm (nodes_in out) (edges_in out) p name nv ns' np' vm V1) as (C0 & Hag0); auto.
  { congruence. }
  { intros Ht. left. eauto. }
  set (nm1 := updk nm (k p) name) in *.
  assert (Elab : lab p = label_of (net u)) by (unfold label_at; rewrite Ew; auto). rewrite Elab in C0.
  assert (Hkp : In (k p) (map k (ks ++ [p])%list)) by (rewrite map_app; apply in_or_app; right; left; auto).
  assert (Enm : nm1 (k p) = name) by (unfold nm1; apply updk_same).
  (* the edge from the parent *)
  set (edge := if String.eqb (bname b) "" then [] else [DEdge (bname b) name (if ge0 (bweight b) then Some (fmt3 (bweight b)) else None)]).
  assert (exists eadd, core nm1 (ks ++ [p])%list (es ++ eadd)%list nv ns' np' vm (nodes_in out ++ [(name, label_of (net u))])%list (edges_in out ++ edges_in edge)%list /\
     nodes_in edge = [] /\ ((p = [] /\ eadd = []) \/ exists p0 i, p = (p0 ++ [i])%list /\ In p0 done /\ eadd = [(p0, i)])) as (eadd & C1 & En & Hadd).
  { destruct Hq as [(u1 & p0 & i & A & B & C & -> & D & E)|(-> & _ & _ & A & _)].
    - assert (Hp0 : In p0 done) by (apply (V9 p0 i); apply in_or_app; right; left; auto).
      assert (Hp0k : In p0 ks) by (apply V5; auto).
      assert (Hnn : String.eqb (bname b) "" = false).
      { rewrite D. eapply name_nonempty. apply (c_names _ _ _ _ _ _ _ _ _ V1 p0 Hp0k). }
      exists [(p0, i)]. unfold edge. rewrite Hnn. cbn [edges_in nodes_in]. split; [|split; [auto|right; eauto]].
      apply add_edge; auto.
      + rewrite map_app. apply in_or_app. left. apply in_map. auto.
      + rewrite D. apply Hag0. auto.
    - exists []. unfold edge. rewrite A. cbn. rewrite !app_nil_r. auto. }
  (* the children *)
  destruct (children_ok p u name ns' np' Ew Hin (dch (net u)) 0 nm1 (ks ++ [p])%list (es ++ eadd)%list nv vm
     (nodes_in out ++ [(name, label_of (net u))])%list (edges_in out ++ edges_in edge)%list [] [])
    as (s' & nm' & ks' & es' & E & (o' & Eo & C2) & Hag & Ees & Hks & (qs & Eq & Hqs)); auto.
  { intros j _ Hx. apply in_app_or in Hx as [Hx|[Hx|[]]].
    - destruct (V11 _ Hx) as [H1|(p0 & i & c & H1 & H2 & _)].
      + apply Hpd. apply (V9 p j). apply in_or_app. auto.
      + apply snoc_inj in H1 as (-> & _). auto.
    - symmetry in Hx. apply snoc_neq in Hx. auto. }
  cbn [app] in Eo, Eq.
  exists u, name, ns', np', s', nm', ((ks ++ [p]) ++ ks')%list, ((es ++ eadd) ++ es')%list, (map (fun j => (p ++ [j])%list) (filter (innerAt u) (seq 0 (length (dch (net u)))))).
  repeat (split; [solve [auto]|]).
  assert (Hsub : forall x, In x ks -> In x ((ks ++ [p]) ++ ks')%list) by (intros x Hx; apply in_or_app; left; apply in_or_app; auto).
  assert (Hag' : agree ks nm nm').
  { intros x Hx. rewrite (Hag0 x Hx). apply Hag. apply in_or_app. auto. }
  assert (Hes' : forall q i, In (q, i) es' <-> q = p /\ leafAt u i = true).
  { intros q i. rewrite Ees. rewrite in_map_iff. split.
    - intros (j & Ej & Hj). injection Ej as <- <-. apply filter_In in Hj. tauto.
    - intros (-> & Hj). exists i. split; auto. apply filter_In. split; auto. apply in_seq. destruct (leaf_at_index u i Hj) as (c & Hc & _).
      assert (i < length (dch (net u))) by (apply nth_error_Some; congruence). lia. }
  assert (Hqps : forall x, In x (map (fun j => (p ++ [j])%list) (filter (innerAt u) (seq 0 (length (dch (net u)))))) <-> exists j, x = (p ++ [j])%list /\ innerAt u j = true).
  { intros x. rewrite in_map_iff. split.
    - intros (j & <- & Hj). apply filter_In in Hj as (_ & Hj). eauto.
    - intros (j & -> & Hj). exists j. split; auto. apply filter_In. split; auto. apply in_seq. destruct (inner_at_index u j Hj) as (c & Hc & _).
      assert (j < length (dch (net u))) by (apply nth_error_Some; congruence). lia. }
  set (qps := map (fun j => (p ++ [j])%list) (filter (innerAt u) (seq 0 (length (dch (net u)))))) in *.
  assert (Hnotdone : forall q i, In (q, i) es -> q <> p).
  { intros q i Hqi ->. apply V7 in Hqi. tauto. }
  fold edge. split.
  - rewrite !nodes_app, !edges_app. rewrite En. cbn [nodes_in edges_in app]. rewrite Eo. rewrite <- !app_assoc in C2. rewrite <- !app_assoc. cbn [app] in *. exact C2.
  - rewrite Eq. apply Forall2_app.
    + assert (Hps : forall q, In q ps -> In q ps) by auto. revert HQ Hps. generalize ps at 1 2 4 as l. generalize Q as l'.
      intros l' l HF. induction HF as [|x y l l' Hx HF IHF]; intros Hs; [constructor|]. constructor.
      * destruct Hx as [(u1 & p0 & i & A & B & C & D & Ex & G)|(Ex0 & Ed0 & _)].
        -- left. exists u1, p0, i. repeat (split; [solve [auto]|]). split; auto. rewrite Ex. apply Hag'.
           assert (In p0 done); [|apply V5; auto]. apply (V9 p0 i). apply in_or_app. right. right. rewrite <- D. apply Hs. left; auto.
        -- (* the root is first in the queue only once *)
           exfalso. rewrite Ed0 in V3, V9. cbn [app] in V3, V9. destruct Hq as [(u1 & p0 & i & A & B & C & D & Ex & G)|(Ep0 & _)].
           ++ apply (V9 p0 i). left. auto.
           ++ inversion V3 as [|? ? Hn1 Hn2]. apply Hn1. rewrite Ep0, <- Ex0. apply Hs. left; auto.
      * apply IHF. intros q Hq'. apply Hs. right; auto.
    + clear -Hqs. clearbody qps. induction Hqs; constructor; auto. left. auto.
  - (* no path is queued twice *)
    rewrite <- app_assoc. cbn [app]. apply NoDup_app_iff_. split; [eapply NoDup_app_l; eauto|].
    assert (V3' : NoDup (p :: ps)) by (eapply NoDup_app_r; eauto). apply NoDup_cons_iff in V3' as (Hp1 & Hp2).
    assert (Hfr : forall x, In x qps -> ~ In x done /\ ~ In x (p :: ps)).
    { intros x Hx. apply Hqps in Hx as (j & -> & _). split; intros Hx.
      - apply Hpd. apply (V9 p j). apply in_or_app. auto.
      - apply Hpd. apply (V9 p j). apply in_or_app. auto. }
    split.
    + constructor.
      * intros Hx. apply in_app_or in Hx as [Hx|Hx]; auto. apply Hfr in Hx as (_ & Hx). apply Hx. left; auto.
      * apply NoDup_app_iff_. split; auto. split.
        -- unfold qps. apply FinFun.Injective_map_NoDup; [intros a b0 Eab; apply snoc_inj in Eab; tauto|]. apply NoDup_filter, seq_NoDup.
        -- intros x Hx1 Hx2. apply Hfr in Hx2 as (_ & Hx2). apply Hx2. right; auto.
    + intros x Hx1 [<-|Hx2]; auto. apply in_app_or in Hx2 as [Hx2|Hx2].
      * apply (NoDup_app_not _ _ V3 x Hx1). right; auto.
      * apply Hfr in Hx2 as (Hx2 & _). auto.
  - rewrite <- app_assoc. cbn [app]. apply in_app_or in V4 as [H|[H|H]]; apply in_or_app; [left; auto|right; left; auto|].
    right. right. apply in_or_app. auto.
  - intros q Hq'. apply in_app_or in Hq' as [Hq'|[<-|[]]].
    + destruct (V5 q Hq') as (A & B). split; auto.
    + split; [apply in_or_app; left; apply in_or_app; right; left; auto|eauto].
  - intros q u1 i c Hq' Hw Hc. apply in_app_or in Hq' as [Hq'|[<-|[]]].
    + pose proof (V6 q u1 i c Hq' Hw Hc) as H. destruct (isLeaf (net c)).
      * destruct H as (A & B). split; [|apply in_or_app; left; apply in_or_app; auto].
        apply in_map_iff in A as (x & Ex & Hx). rewrite <- Ex. apply in_map. auto.
      * rewrite <- app_assoc. cbn [app]. apply in_app_or in H as [H|[H|H]]; apply in_or_app; [left; auto|right; left; auto|].
        right. right. apply in_or_app. auto.
    + assert (u1 = u) as -> by congruence. destruct (isLeaf (net c)) eqn:El.
      * assert (Hi : In (p, i) es') by (apply Hes'; split; auto; unfold leafAt; rewrite Hc; auto).
        split; [|apply in_or_app; auto]. apply (c_ends _ _ _ _ _ _ _ _ _ C2 p i). apply in_or_app; auto.
      * apply in_or_app. right. apply in_or_app. right. apply Hqps. exists i. split; auto. unfold innerAt. rewrite Hc, El. auto.
  - intros q i Hqi. apply in_app_or in Hqi as [Hqi|Hqi]; [apply in_app_or in Hqi as [Hqi|Hqi]|].
    + destruct (V7 q i Hqi) as (A & B & C). split; [apply in_or_app; auto|]. split; auto. destruct C as [C|C]; auto. left. apply in_or_app; auto.
    + destruct Hadd as [(_ & ->)|(p0 & i0 & Ep & Hp0 & ->)]; [destruct Hqi|]. destruct Hqi as [Hqi|[]]. injection Hqi as <- <-.
      split; [apply in_or_app; auto|]. rewrite <- Ep. split; [congruence|]. left. apply in_or_app. right; left; auto.
    + apply Hes' in Hqi as (-> & Hl). destruct (leaf_at_index u i Hl) as (c & Hc & Hlf).
      assert (Hw : walk net r (p ++ [i])%list = Some c) by (rewrite walk_snoc, Ew; auto).
      split; [apply in_or_app; right; left; auto|]. split; [congruence|]. right. eauto.
  - intros q i Hqi. apply in_app_or in Hqi as [Hqi|[Hqi|[]]].
    + apply in_or_app. left. apply in_or_app. left. auto.
    + destruct Hadd as [(-> & _)|(p0 & i0 & Ep & Hp0 & ->)]; [symmetry in Hqi; apply snoc_nil in Hqi; destruct Hqi|].
      rewrite Ep in Hqi. apply snoc_inj in Hqi as (-> & ->). apply in_or_app. left. apply in_or_app. right. left. auto.
  - intros q i Hqi. rewrite <- app_assoc in Hqi. cbn [app] in Hqi. apply in_app_or in Hqi as [Hqi|[Hqi|Hqi]].
    + apply in_or_app. left. apply (V9 q i). apply in_or_app; auto.
    + apply in_or_app. left. apply (V9 q i). apply in_or_app. right. left. auto.
    + apply in_app_or in Hqi as [Hqi|Hqi].
      * apply in_or_app. left. apply (V9 q i). apply in_or_app. right. right. auto.
      * apply Hqps in Hqi as (j & Ej & _). apply snoc_inj in Ej as (-> & _). apply in_or_app. right. left. auto.
  - apply NoDup_app_iff_. split; [|split].
    + apply NoDup_app_iff_. split; auto. destruct Hadd as [(_ & ->)|(p0 & i0 & Ep & Hp0 & ->)].
      * split; [constructor|]. intros x _ [].
      * split; [repeat constructor; auto|]. intros x Hx [<-|[]]. apply V7 in Hx as (_ & _ & [Hx|(c & Hc & Hlf)]).
        -- rewrite <- Ep in Hx. auto.
        -- rewrite <- Ep, Ew in Hc. injection Hc as <-. congruence.
    + rewrite Ees. apply FinFun.Injective_map_NoDup; [intros a b0 Eab; congruence|]. apply NoDup_filter, seq_NoDup.
    + intros (q & i) Hx Hx'. apply Hes' in Hx' as (-> & _). apply in_app_or in Hx as [Hx|Hx].
      * apply Hnotdone in Hx. auto.
      * destruct Hadd as [(_ & ->)|(p0 & i0 & Ep & Hp0 & ->)]; [destruct Hx|]. destruct Hx as [Hx|[]]. injection Hx as <- <-. auto.
  - intros q Hqk. apply in_app_or in Hqk as [Hqk|Hqk]; [apply in_app_or in Hqk as [Hqk|[<-|[]]]|].
    + destruct (V11 q Hqk) as [H|(p0 & i & c & A & B & C)]; [left; apply in_or_app; auto|].
      right. exists p0, i, c. split; auto. split; auto. apply in_or_app; auto.
    + left. apply in_or_app. right; left; auto.
    + apply Hks in Hqk as (j & -> & Hl). destruct (leaf_at_index u j Hl) as (c & Hc & Hlf). right. exists p, j, c. split; auto.
      split; [apply in_or_app; right; left; auto|]. split; auto. rewrite walk_snoc, Ew. auto.
Qed.

Lemma draw_step fuel nm ks es done p ps b Q nv ns np vm out :
  inv nm ks es done (p :: ps) (b :: Q) nv ns np vm out ->
  exists u nm' ks' es' Q' nv' ns' np' vm' out', walk net r p = Some u /\
    inv nm' ks' es' (done ++ [p])%list (ps ++ map (fun j => (p ++ [j])%list) (filter (innerAt u) (seq 0 (length (dch (net u))))))%list Q' nv' ns' np' vm' out' /\
    drawLoop F minus1 ge0 fmt3 tools net (S fuel) (b :: Q) nv ns np vm out = drawLoop F minus1 ge0 fmt3 tools net fuel Q' nv' ns' np' vm' out'.
Proof.
  intros H. destruct (inv_step _ _ _ _ _ _ _ _ _ _ _ _ _ H) as (u & name & ns' & np' & s' & nm' & ks' & es' & qps & Ew & Eb & Hin & Ed & Ef & -> & H').
  exists u, nm', ks', es'. eexists _, _, _, _, _, _. split; [exact Ew|]. split; [exact H'|].
  cbn [drawLoop]. rewrite Eb. unfold declOf in Ed. rewrite Ed. change (match dk (net u) with DSum w => Some w | _ => None end) with (wOf u).
  rewrite Ef. reflexivity.
Qed.

Lemma draw_inv : forall fuel nm ks es done ps Q nv ns np vm out, inv nm ks es done ps Q nv ns np vm out ->
  match drawLoop F minus1 ge0 fmt3 tools net fuel Q nv ns np vm out with
  | Ok lines => exists nm' ks' es' done' nv' ns' np' vm', inv nm' ks' es' done' [] [] nv' ns' np' vm' lines
  | Panic => False
  | Fuel => True
  end.
Proof.
  induction fuel as [|fuel IH]; intros nm ks es done ps Q nv ns np vm out H; [exact Logic.I|].
  destruct Q as [|b Q].
  - cbn. pose proof (v_q _ _ _ _ _ _ _ _ _ _ _ H) as Hq. inversion Hq; subst. eauto 12.
  - assert (exists p ps', ps = p :: ps') as (p & ps' & ->).
    { pose proof (v_q _ _ _ _ _ _ _ _ _ _ _ H) as Hq. inversion Hq; subst. eauto. }
    destruct (draw_step fuel _ _ _ _ _ _ _ _ _ _ _ _ _ H) as (u & nm' & ks' & es' & Q' & nv' & ns' & np' & vm' & out' & Ew & H' & ->).
    apply (IH _ _ _ _ _ _ _ _ _ _ _ H').
Qed.

Lemma inv_init : isLeaf (net r) = false -> inv (fun _ => "") [] [] [] [[]] [mkB r "" minus1] 0 0 0 [] [].
Proof.
  intros Hl. split; cbn [app nodes_in edges_in map].
  - split; cbn [map]; auto; try (intros p0; cbn; tauto); try (intros p0 i0; cbn; tauto); try apply NoDup_nil.
    intros _ v s. cbn. split; [discriminate|tauto].
  - constructor; [|constructor]. right. auto.
  - repeat constructor; auto.
  - left; auto.
  - intros p [].
  - intros p u i c [].
  - intros p i [].
  - intros p i [].
  - intros p i [H|[]]. symmetry in H. apply snoc_nil in H. auto.
  - constructor.
  - intros p [].
Qed.

(** Everything below the root has been seen. *)
Lemma inv_end nm ks es done nv ns np vm out : inv nm ks es done [] [] nv ns np vm out -> shows fmt3 tools net r out.
Proof.
  intros [V1 V2 V3 V4 V5 V6 V7 V8 V9 V10 V11]. rewrite app_nil_r in *.
  assert (Hcover : forall p u, walk net r p = Some u ->
     if isLeaf (net u) then In (k p) (map k ks) /\ (forall p0 i, p = (p0 ++ [i])%list -> In (p0, i) es) else In p done).
  { intros p. induction p as [|i p IH] using rev_ind; intros u E.
    - assert (Hl : isLeaf (net u) = false).
      { destruct (V5 [] V4) as (_ & v & Hv & Hl). rewrite E in Hv. injection Hv as ->. auto. }
      rewrite Hl. auto.
    - rewrite walk_snoc in E. destruct (walk net r p) as [v|] eqn:Ev; [|discriminate].
      pose proof (IH v eq_refl) as H. pose proof (HD v (walk_reach _ _ _ Ev)) as Hd.
      assert (Hlv : isLeaf (net v) = false).
      { unfold isLeaf. unfold drawable in Hd. destruct (dk (net v)); auto. destruct Hd as (Hd & _). rewrite Hd in E. destruct i; discriminate. }
      rewrite Hlv in H. pose proof (V6 p v i u H Ev E) as K. destruct (isLeaf (net u)); auto.
      destruct K as (K1 & K2). split; auto. intros p0 j Ej. apply snoc_inj in Ej as (<- & <-). auto. }
  assert (Hin : forall p, valid p -> In (k p) (map k ks)).
  { intros p Hp. destruct (walk net r p) as [u|] eqn:E; [|congruence]. pose proof (Hcover p u E) as H.
    destruct (isLeaf (net u)); [tauto|]. apply in_map. apply V5. auto. }
  destruct V1 as [C1 C2 C3 C4 C5 C6 C7 C8].
  exists nm, ks, es. cbn zeta. split; auto. split; auto. split; auto. split; auto. split; auto. split; [|split; auto].
  - intros p q Hp Hq E. apply Hin in Hp. apply Hin in Hq. apply in_map_iff in Hp as (p' & Ep & Hp). apply in_map_iff in Hq as (q' & Eq & Hq).
    rewrite <- Ep, <- Eq in *. auto.
  - intros p i. split.
    + intros H. apply V7 in H. tauto.
    + intros H. destruct (walk net r (p ++ [i])%list) as [u|] eqn:E; [|congruence]. pose proof (Hcover _ u E) as K.
      destruct (isLeaf (net u)); [apply K; auto|]. apply V8. auto.
Qed.

Lemma draw_shows_l fuel lines : isLeaf (net r) = false -> drawGraph F minus1 ge0 fmt3 tools net fuel r = Ok lines -> shows fmt3 tools net r lines.
Proof.
  intros Hl E. unfold drawGraph in E. rewrite Hl in E. pose proof (draw_inv fuel _ _ _ _ _ _ _ _ _ _ _ (inv_init Hl)) as H. rewrite E in H.
  destruct H as (nm & ks & es & done & nv & ns & np & vm & H). eapply inv_end; eauto.
Qed.

Lemma draw_no_panic_l fuel : drawGraph F minus1 ge0 fmt3 tools net fuel r <> Panic.
Proof.
  unfold drawGraph. destruct (isLeaf (net r)) eqn:Hl; [destruct tools; discriminate|].
  pose proof (draw_inv fuel _ _ _ _ _ _ _ _ _ _ _ (inv_init Hl)) as H. intros E. rewrite E in H. auto.
Qed.

(** It returns on networks without cycles. *)
Variable lev : nat -> nat.
Hypothesis Hlev : forall u c, In c (dch (net u)) -> lev c < lev u.

Fixpoint size (n u : nat) : nat :=
  match n with O => 0 | S n' => S (list_sum (map (fun c => if isLeaf (net c) then 0 else size n' c) (dch (net u)))) end.

Lemma size_stable : forall n m u, lev u < n -> lev u < m -> size n u = size m u.
Proof.
  induction n as [|n IH]; intros m u Hn Hm; [lia|]. destruct m as [|m]; [lia|]. cbn [size]. f_equal. f_equal.
  apply map_ext_in. intros c Hc. apply Hlev in Hc. destruct (isLeaf (net c)); auto. apply IH; lia.
Qed.

Lemma sum_map_app {A} (g : A -> nat) a b : list_sum (map g (a ++ b)%list) = list_sum (map g a) + list_sum (map g b).
Proof. rewrite map_app. apply list_sum_app. Qed.

Lemma inner_sum (g : nat -> nat) u : forall l pre, dch (net u) = (pre ++ l)%list ->
  list_sum (map (fun j => match nth_error (dch (net u)) j with Some c => g c | None => 0 end) (filter (innerAt u) (seq (length pre) (length l)))) =
  list_sum (map (fun c => if isLeaf (net c) then 0 else g c) l).
Proof.
  induction l as [|c l IH]; intros pre E; auto. cbn [length seq filter map].
  assert (Ec : nth_error (dch (net u)) (length pre) = Some c) by (rewrite E, nth_error_app2, Nat.sub_diag; auto).
  specialize (IH (pre ++ [c])%list). rewrite app_length in IH. cbn [length] in IH. rewrite Nat.add_1_r in IH.
  unfold innerAt at 1. rewrite Ec. destruct (isLeaf (net c)) eqn:El; cbn [negb].
  - apply IH. rewrite <- app_assoc. auto.
  - cbn [map]. rewrite Ec. change (list_sum (?a :: ?b)) with (a + list_sum b). cbn [list_sum fold_right]. f_equal. apply IH. rewrite <- app_assoc. auto.
Qed.

Definition psize (n : nat) (p : list nat) : nat := match walk net r p with Some u => size n u | None => 0 end.

Lemma lev_walk : forall p u v, walk net u p = Some v -> lev v <= lev u.
Proof.
  induction p as [|i p IH]; intros u v E; cbn in E; [injection E as ->; auto|].
  destruct (nth_error (dch (net u)) i) as [c|] eqn:Ec; [|discriminate]. apply nth_error_In, Hlev in Ec. apply IH in E. lia.
Qed.

Lemma draw_terminates : forall fuel nm ks es done ps Q nv ns np vm out, inv nm ks es done ps Q nv ns np vm out ->
  list_sum (map (psize (S (lev r))) ps) < fuel -> drawLoop F minus1 ge0 fmt3 tools net fuel Q nv ns np vm out <> Fuel.
Proof.
  induction fuel as [|fuel IH]; intros nm ks es done ps Q nv ns np vm out H Hs; [lia|].
  destruct Q as [|b Q]; [discriminate|].
  assert (exists p ps', ps = p :: ps') as (p & ps' & ->).
  { pose proof (v_q _ _ _ _ _ _ _ _ _ _ _ H) as Hq. inversion Hq; subst. eauto. }
  destruct (draw_step fuel _ _ _ _ _ _ _ _ _ _ _ _ _ H) as (u & nm' & ks' & es' & Q' & nv' & ns' & np' & vm' & out' & Ew & H' & ->).
  apply (IH _ _ _ _ _ _ _ _ _ _ _ H'). rewrite sum_map_app. cbn [map] in Hs. change (list_sum (?a :: ?b)) with (a + list_sum b) in Hs.
  pose proof (inner_sum (size (S (lev r))) u (dch (net u)) [] eq_refl) as Hi. cbn [length] in Hi.
  assert (E1 : list_sum (map (psize (S (lev r))) (map (fun j => (p ++ [j])%list) (filter (innerAt u) (seq 0 (length (dch (net u))))))) =
               list_sum (map (fun c => if isLeaf (net c) then 0 else size (S (lev r)) c) (dch (net u)))).
  { rewrite <- Hi, map_map. f_equal. apply map_ext. intros j. unfold psize. rewrite walk_snoc, Ew. auto. }
  rewrite E1. unfold psize at 1 in Hs. rewrite Ew in Hs. cbn [size] in Hs.
  assert (E2 : list_sum (map (fun c => if isLeaf (net c) then 0 else size (S (lev r)) c) (dch (net u))) =
               list_sum (map (fun c => if isLeaf (net c) then 0 else size (lev r) c) (dch (net u)))).
  { f_equal. apply map_ext_in. intros c Hc. destruct (isLeaf (net c)); auto. apply Hlev in Hc. apply lev_walk in Ew. apply size_stable; lia. }
  rewrite E2. change (list_sum (?a :: ?b)) with (a + list_sum b) in Hs. lia.
Qed.

Lemma draw_returns_l : exists fuel lines, drawGraph F minus1 ge0 fmt3 tools net fuel r = Ok lines.
Proof.
  destruct (isLeaf (net r)) eqn:Hl; [exists 0; unfold drawGraph; rewrite Hl; eauto|].
  pose (fuel := S (list_sum (map (psize (S (lev r))) [[]]))). exists fuel.
  pose proof (draw_no_panic_l fuel) as Hp. unfold drawGraph in *. rewrite Hl in *.
  pose proof (draw_terminates fuel _ _ _ _ _ _ _ _ _ _ _ (inv_init Hl) ltac:(unfold fuel; lia)) as Ht.
  destruct (drawLoop _ _ _ _ _ _ _ _ _ _ _ _ _); [eauto|congruence|congruence].
Qed.
End D.

(** Without sharing the drawing of DrawGraph is the network. *)
Lemma faithful_l {F} (fmt3 : F -> string) (net : dnet F) r lines :
  shows fmt3 false net r lines -> unshared net r -> faithful fmt3 net r lines.
Proof.
  intros (nm & ks & es & En & Ee & Hv & Hn & Hc & Hi & He & Hes) Hu. cbn zeta in *.
  assert (Ek : forall p, key_at false net r p = KPath p) by (intros p; unfold key_at; destruct (walk net r p); auto).
  assert (Hks : forall p, walk net r p <> None -> In p ks).
  { intros p Hp. apply Hc in Hp. rewrite Ek in Hp. apply in_map_iff in Hp as (q & Eq & Hq). rewrite Ek in Eq. congruence. }
  pose (node := fun p => match walk net r p with Some u => u | None => 0 end).
  pose (path := fun u => match find (fun p => match walk net r p with Some v => Nat.eqb v u | None => false end) ks with Some p => p | None => [] end).
  assert (Hpath : forall p u, walk net r p = Some u -> path u = p).
  { intros p u E. unfold path. destruct (find _ ks) as [q|] eqn:Ef.
    - apply find_some in Ef as (_ & Ef). destruct (walk net r q) as [v|] eqn:Eq; [|discriminate]. apply Nat.eqb_eq in Ef. subst v. eapply Hu; eauto.
    - assert (In p ks) as Hp by (apply Hks; congruence). apply (find_none _ _ Ef) in Hp. rewrite E, Nat.eqb_refl in Hp. discriminate. }
  exists (fun u => nm (KPath (path u))), (map node ks), (map (fun e => (node (fst e), snd e)) es).
  assert (Hnd : NoDup ks) by (apply (NoDup_map_inv _ _ Hn)).
  split; [|split; [|split; [|split; [|split]]]].
  - rewrite En, map_map. apply map_ext_in. intros p Hp. apply Hv in Hp. unfold node, label_at. rewrite Ek.
    destruct (walk net r p) as [u|] eqn:E; [|congruence]. rewrite (Hpath p u E). auto.
  - split.
    + assert (X : forall l, NoDup l -> (forall p, In p l -> walk net r p <> None) -> NoDup (map node l)).
      { induction 1 as [|p l Hp Hl IH]; intros Hw; constructor; auto.
        - intros H. apply in_map_iff in H as (q & Eq & Hq). assert (q = p); [|congruence].
          pose proof (Hw p (or_introl eq_refl)) as W1. pose proof (Hw q (or_intror Hq)) as W2. unfold node in Eq.
          destruct (walk net r p) as [u|] eqn:E1; [|congruence]. destruct (walk net r q) as [v|] eqn:E2; [|congruence]. subst v. eapply Hu; eauto.
        - apply IH. intros q Hq. apply Hw. right; auto. }
      apply X; auto.
    + intros u. split.
      * intros H. apply in_map_iff in H as (p & Eu & Hp). apply Hv in Hp. unfold node in Eu. destruct (walk net r p) as [v|] eqn:E; [|congruence].
        subst v. eapply walk_reach; eauto.
      * intros H. apply reach_walk in H as (p & E). apply in_map_iff. exists p. unfold node. rewrite E. split; auto. apply Hks. congruence.
  - intros u v Hu' Hv'. apply in_map_iff in Hu' as (p & Eu & Hp). apply in_map_iff in Hv' as (q & Eq & Hq).
    apply Hv in Hp. apply Hv in Hq. unfold node in Eu, Eq.
    destruct (walk net r p) as [u1|] eqn:E1; [|congruence]. destruct (walk net r q) as [v1|] eqn:E2; [|congruence]. subst u1 v1.
    rewrite (Hpath p u E1), (Hpath q v E2). intros E. rewrite <- (Ek p), <- (Ek q) in E. apply Hi in E; [|congruence|congruence].
    rewrite !Ek in E. injection E as ->. congruence.
  - rewrite Ee, map_map. apply map_ext_in. intros (p & i) Hp. cbn [fst snd]. apply Hes in Hp. rewrite walk_snoc in Hp.
    rewrite !Ek. unfold weight_at, node. destruct (walk net r p) as [u|] eqn:E; [|congruence].
    destruct (nth_error (dch (net u)) i) as [c|] eqn:Ec; [|congruence]. rewrite (nth_error_nth _ _ 0 Ec).
    rewrite (Hpath p u E), (Hpath (p ++ [i])%list c) by (rewrite walk_snoc, E; auto). auto.
  - assert (X : forall l : list (list nat * nat), NoDup l -> (forall p i, In (p, i) l -> walk net r p <> None) -> NoDup (map (fun e => (node (fst e), snd e)) l)).
    { induction 1 as [|(p & i) l Hp Hl IH]; intros Hw; constructor; auto.
      - intros H. apply in_map_iff in H as ((q & j) & Eq & Hq). cbn [fst snd] in Eq. injection Eq as Eq ->. assert (q = p); [|congruence].
        pose proof (Hw p i (or_introl eq_refl)) as W1. pose proof (Hw q i (or_intror Hq)) as W2. unfold node in Eq.
        destruct (walk net r p) as [u|] eqn:E1; [|congruence]. destruct (walk net r q) as [v|] eqn:E2; [|congruence]. subst v. eapply Hu; eauto.
      - apply IH. intros q j Hq. apply (Hw q j). right; auto. }
    apply X; auto. intros p i Hp. apply Hes in Hp. rewrite walk_snoc in Hp. destruct (walk net r p); congruence.
  - intros u i. rewrite in_map_iff. split.
    + intros ((p & j) & E & Hp). cbn [fst snd] in E. injection E as E ->. apply Hes in Hp. rewrite walk_snoc in Hp. unfold node in E.
      destruct (walk net r p) as [v|] eqn:Ew; [|congruence]. subst v. split; [eapply walk_reach; eauto|]. apply nth_error_Some. auto.
    + intros (Hr & Hl). apply reach_walk in Hr as (p & Ew). exists (p, i). cbn [fst snd]. unfold node. rewrite Ew. split; auto.
      apply Hes. rewrite walk_snoc, Ew. apply nth_error_Some. auto.
Qed.

(** Cases *)
Definition exD : dnet Z := fun u => match u with
  | 0 => mkD (DSum [3; 7]%Z) [1; 2] [0; 1]%Z
  | 1 => mkD DProd [3; 4] [0; 1]%Z
  | 2 => mkD DProd [5; 4] [0; 1]%Z
  | 3 => mkD DLeaf [] [0]%Z
  | 4 => mkD (DSum [1]%Z) [6] [1]%Z
  | 5 => mkD DLeaf [] [0]%Z
  | 6 => mkD DLeaf [] [1]%Z
  | _ => mkD DProd [] []
  end.
Definition exT : dnet Z := fun u => match u with
  | 0 => mkD (DSum [3; 7]%Z) [1; 2] [0; 1]%Z
  | 1 => mkD DProd [3; 4] [0; 1]%Z
  | 2 => mkD DLeaf [] [0]%Z
  | 3 => mkD DLeaf [] [0]%Z
  | 4 => mkD DLeaf [] [1]%Z
  | _ => mkD DProd [] []
  end.
Definition geZ (z : Z) : bool := (0 <=? z)%Z.

Lemma exD_drawable u : drawable geZ (exD u).
Proof.
  do 7 (destruct u as [|u]; [cbn; repeat split; auto; try discriminate; intros x Hx; repeat (destruct Hx as [<-|Hx]; [reflexivity|]); destruct Hx|]).
  exact Logic.I.
Qed.
Lemma exT_drawable u : drawable geZ (exT u).
Proof.
  do 5 (destruct u as [|u]; [cbn; repeat split; auto; try discriminate; intros x Hx; repeat (destruct Hx as [<-|Hx]; [reflexivity|]); destruct Hx|]).
  exact Logic.I.
Qed.

Definition exLev (u : nat) : nat := 10 - u.
Lemma exD_lev u c : In c (dch (exD u)) -> exLev c < exLev u.
Proof.
  do 7 (destruct u as [|u]; [cbn; intros H; repeat (destruct H as [<-|H]; [unfold exLev; lia|]); destruct H|]). intros [].
Qed.

Lemma lev_unfaithful {F} (fmt3 : F -> string) (net : dnet F) r lines N :
  bounded (graph_of net) N -> r < N -> N < length (nodes_in lines) -> ~ faithful fmt3 net r lines.
Proof.
  intros HB Hr Hl (nm & us & es & En & (Hn & He) & _). rewrite En, map_length in Hl.
  assert (length us <= length (seq 0 N)); [|rewrite seq_length in *; lia]. apply NoDup_incl_length; auto.
  intros u Hu. apply He in Hu. apply in_seq. pose proof (reach_bounded _ N r u HB Hr Hu). lia.
Qed.

Lemma lev_unfaithful' {F} (fmt3 : F -> string) (net : dnet F) r lines us :
  enumerates (graph_of net) r us -> length (nodes_in lines) <> length us -> ~ faithful fmt3 net r lines.
Proof.
  intros (Hn & He) Hl (nm & us' & es & En & (Hn' & He') & _). apply Hl. rewrite En, map_length. apply Permutation_length.
  apply NoDup_Permutation; auto. intros x. rewrite He, He'. tauto.
Qed.

Lemma exD_bounded : bounded (graph_of exD) 7.
Proof.
  intros u c H. unfold graph_of in H.
  do 7 (destruct u as [|u]; [cbn in H; repeat (destruct H as [<-|H]; [lia|]); destruct H|]). destruct H.
Qed.

Lemma exT_reach : enumerates (graph_of exT) 0 [0; 1; 2; 3; 4].
Proof.
  split; [repeat constructor; cbn; intuition lia|]. intros x. split.
  - intros H. assert (E : exists p, walk exT 0 p = Some x).
    { cbn in H. destruct H as [<-|[<-|[<-|[<-|[<-|[]]]]]]; [exists []|exists [0]|exists [1]|exists [0; 0]|exists [0; 1]]; reflexivity. }
    destruct E as (p & E). eapply walk_reach; eauto.
  - intros H.
    assert (X : forall a b, reach (graph_of exT) a b -> In a [0; 1; 2; 3; 4] -> In b [0; 1; 2; 3; 4]).
    { induction 1 as [|a c b Hc Hr IH]; auto. intros Ha. apply IH. unfold graph_of in Hc. cbn in Ha.
      destruct Ha as [<-|[<-|[<-|[<-|[<-|[]]]]]]; cbn in Hc; cbn; intuition. }
    apply (X 0 x); auto. left; auto.
Qed.

Lemma draw_shared_l : exists (net : dnet Z) lines, (forall u, drawable geZ (net u)) /\ isLeaf (net 0) = false /\
  drawGraph Z (-1)%Z geZ itoa false net 9 0 = Ok lines /\ ~ faithful itoa net 0 lines.
Proof.
  exists exD. eexists. split; [exact exD_drawable|]. split; [reflexivity|]. split; [vm_compute; reflexivity|].
  apply (lev_unfaithful _ _ _ _ 7 exD_bounded); [lia|cbn; lia].
Qed.

Lemma draw_tools_l : exists (net : dnet Z) lines, (forall u, drawable geZ (net u)) /\ isLeaf (net 0) = false /\ unshared net 0 /\
  drawGraph Z (-1)%Z geZ itoa true net 9 0 = Ok lines /\ ~ faithful itoa net 0 lines.
Proof.
  exists exT. eexists. split; [exact exT_drawable|]. split; [reflexivity|]. split.
  - intros p q u Hp Hq.
    assert (X : forall p u, walk exT 0 p = Some u -> p = match u with 0 => [] | 1 => [0] | 2 => [1] | 3 => [0; 0] | _ => [0; 1] end).
    { clear. intros p u E.
      destruct p as [|i p]; [cbn in E; injection E as <-; auto|].
      destruct i as [|[|i]]; cbn in E.
      - destruct p as [|j p]; [cbn in E; injection E as <-; auto|]. destruct j as [|[|j]]; cbn in E.
        + destruct p as [|j p]; [cbn in E; injection E as <-; auto|]. cbn in E. destruct j; discriminate.
        + destruct p as [|j p]; [cbn in E; injection E as <-; auto|]. cbn in E. destruct j; discriminate.
        + destruct j; discriminate.
      - destruct p as [|j p]; [cbn in E; injection E as <-; auto|]. cbn in E. destruct j; discriminate.
      - destruct i; discriminate. }
    rewrite (X p u Hp), (X q u Hq). auto.
  - split; [vm_compute; reflexivity|]. apply (lev_unfaithful' _ _ _ _ _ exT_reach). cbn. discriminate.
Qed.

(** A network of one leaf. *)
Definition exLeaf : dnet Z := fun _ => mkD DLeaf [] [5%Z].
Lemma draw_leaf_l : exists net : dnet Z, (forall u, drawable geZ (net u)) /\
  forall tools fuel, exists lines, drawGraph Z (-1)%Z geZ itoa tools net fuel 0 = Ok lines /\ ~ faithful itoa net 0 lines.
Proof.
  exists exLeaf. split; [intros u; cbn; split; [auto|discriminate]|]. intros tools fuel.
  assert (He : enumerates (graph_of exLeaf) 0 [0]).
  { split; [repeat constructor; auto|]. intros x. split; [intros [<-|[]]; apply reach_refl|].
    intros H. inversion H as [|a b c Hc Hr]; subst; [left; auto|]. destruct Hc. }
  destruct tools; (eexists; split; [reflexivity|]).
  - apply (lev_unfaithful' _ _ _ _ _ He). discriminate.
  - intros (nm & us & es & En & _). cbn in En. destruct us as [|u us]; discriminate.
Qed.

Lemma draw_faithful_l {F} (minus1 : F) (ge0 : F -> bool) (fmt3 : F -> string) (net : dnet F) r fuel lines :
  ge0 minus1 = false -> (forall u, reach (graph_of net) r u -> drawable ge0 (net u)) -> isLeaf (net r) = false ->
  unshared net r -> drawGraph F minus1 ge0 fmt3 false net fuel r = Ok lines -> faithful fmt3 net r lines.
Proof. intros Hm Hd Hl Hu E. apply faithful_l; auto. eapply draw_shows_l; eauto. Qed.

Lemma exT_unshared : unshared exT 0.
Proof.
  intros p q u Hp Hq.
  assert (X : forall p u, walk exT 0 p = Some u -> p = match u with 0 => [] | 1 => [0] | 2 => [1] | 3 => [0; 0] | _ => [0; 1] end).
  { clear. intros p u E.
    destruct p as [|i p]; [cbn in E; injection E as <-; auto|].
    destruct i as [|[|i]]; cbn in E.
    - destruct p as [|j p]; [cbn in E; injection E as <-; auto|]. destruct j as [|[|j]]; cbn in E.
      + destruct p as [|j p]; [cbn in E; injection E as <-; auto|]. cbn in E. destruct j; discriminate.
      + destruct p as [|j p]; [cbn in E; injection E as <-; auto|]. cbn in E. destruct j; discriminate.
      + destruct j; discriminate.
    - destruct p as [|j p]; [cbn in E; injection E as <-; auto|]. cbn in E. destruct j; discriminate.
    - destruct i; discriminate. }
  rewrite (X p u Hp), (X q u Hq). auto.
Qed.
