(** Trees laid out as nodes. *)
From Verif Require Import Base Res Arith GraphSpec Spn Build ProbSpec PoonSpec GraphLemmas ScopedLemmas Gens GensSpec.

Section Tree.
Context {A : arith}.

(** A tree over the variables [Vs] with shares as weights. *)
Inductive fits : (Z -> Prop) -> tree A -> Prop :=
| f_leaf : forall (Vs : Z -> Prop) l v, lsc l = [v] -> (forall x, Vs x <-> x = v) -> fits Vs (TLeaf l)
| f_sum : forall (Vs : Z -> Prop) cs, cs <> [] -> (forall i w c, nth_error cs i = Some (w, c) -> fits Vs c) -> shares (map fst cs) -> fits Vs (TSum cs)
| f_prod : forall (Vs : Z -> Prop) cs (Ws : nat -> Z -> Prop), (forall i c, nth_error cs i = Some c -> fits (Ws i) c) ->
    (forall x, Vs x <-> exists i, i < length cs /\ Ws i x) -> (forall i j x, i < length cs -> j < length cs -> i <> j -> Ws i x -> ~ Ws j x) -> fits Vs (TProd cs).

Fixpoint placeAll (cs : list (tree A)) (H : nodes A) : nodes A * list nat :=
  match cs with
  | [] => (H, [])
  | c :: cs => let (H1, z) := place c H in let (H2, zs) := placeAll cs H1 in (H2, z :: zs)
  end.

Lemma place_sum cs H : place (TSum cs) H = let (H', zs) := placeAll (map snd cs) H in newNode (mkNode (KSum (map fst cs)) zs) H'.
Proof.
  cbn [place]. set (go := fix go (cs : list (F A * tree A)) (H : nodes A) : nodes A * list nat := match cs with [] => (H, []) | (_, c) :: cs => let (H1, z) := place c H in let (H2, zs) := go cs H1 in (H2, z :: zs) end).
  assert (E : forall cs H, go cs H = placeAll (map snd cs) H).
  { clear. induction cs as [|[w c] cs IH]; intros H; [reflexivity|]. cbn [map snd placeAll go]. destruct (place c H) as (H1, z). fold go. rewrite IH. reflexivity. }
  rewrite E. auto.
Qed.
Lemma place_prod cs H : place (TProd cs) H = let (H', zs) := placeAll cs H in newNode (mkNode KProd zs) H'.
Proof.
  cbn [place]. set (go := fix go (cs : list (tree A)) (H : nodes A) : nodes A * list nat := match cs with [] => (H, []) | c :: cs => let (H1, z) := place c H in let (H2, zs) := go cs H1 in (H2, z :: zs) end).
  assert (E : forall cs H, go cs H = placeAll cs H).
  { clear. reflexivity. }
  rewrite E. auto.
Qed.

Definition wgood (n : node A) : Prop := forall ws, nk n = KSum ws -> nch n <> [] /\ length ws = length (nch n) /\ shares ws.
Definition seg (H : nodes A) (lab : nat -> Z -> Prop) (lo hi : nat) : Prop :=
  forall u, lo <= u < hi -> fits_label (netOf H) lab u /\ (forall c, In c (nch (netOf H u)) -> lo <= c < u) /\ wgood (netOf H u).

Lemma netOf_app (H N : nodes A) u : u < length H -> netOf (H ++ N) u = netOf H u.
Proof. intros L. unfold netOf. apply app_nth1; auto. Qed.

Lemma seg_ext H N lab lab' lo hi lo' : hi <= length H -> lo' <= lo -> (forall u, lo <= u < hi -> lab' u = lab u) -> seg H lab lo hi ->
  forall u, lo <= u < hi -> fits_label (netOf (H ++ N)) lab' u /\ (forall c, In c (nch (netOf (H ++ N) u)) -> lo' <= c < u) /\ wgood (netOf (H ++ N) u).
Proof.
  intros Lh Ll E S u Hu. destruct (S u Hu) as (F & C & W). rewrite netOf_app by lia.
  split; [|split; [intros c Hc; specialize (C c Hc); lia|auto]].
  unfold fits_label in *. rewrite netOf_app by lia.
  assert (Ec : forall c, In c (nch (netOf H u)) -> lab' c = lab c) by (intros c Hc; apply E; specialize (C c Hc); lia).
  rewrite (E u Hu). destruct (nk (netOf H u)) as [w| |l]; auto.
  - destruct F as (F1 & F2). split; auto. intros c Hc. rewrite (Ec c Hc). auto.
  - destruct F as (F1 & F2). split.
    + intros x. rewrite F1. split; intros (c & Hc & Hx); exists c; (split; [auto|]); [rewrite Ec|rewrite Ec in Hx]; auto.
    + intros i j c c' x Hij Hi Hj. rewrite (Ec c), (Ec c') by (eapply nth_error_In; eauto). eapply F2; eauto.
Qed.

Definition placed (Vs : Z -> Prop) (t : tree A) : Prop :=
  forall H, exists N lab, place t H = (H ++ N, length H + length N - 1) /\ 0 < length N /\
    (forall x, lab (length H + length N - 1) x <-> Vs x) /\ seg (H ++ N) lab (length H) (length (H ++ N)).

Lemma placeAll_l : forall cs (Ws : nat -> Z -> Prop), (forall i c, nth_error cs i = Some c -> placed (Ws i) c) ->
  forall H, exists N lab zs, placeAll cs H = (H ++ N, zs) /\ length zs = length cs /\
    (forall i z, nth_error zs i = Some z -> length H <= z < length (H ++ N) /\ forall x, lab z x <-> Ws i x) /\
    seg (H ++ N) lab (length H) (length (H ++ N)).
Proof.
  induction cs as [|c cs IH]; intros Ws HP H; cbn [placeAll].
  - exists [], (fun _ _ => True), []. rewrite app_nil_r. split; auto. split; auto. split; [intros [|i] z E; discriminate|]. intros u Hu. lia.
  - destruct (HP 0 c eq_refl H) as (N1 & lab1 & E1 & L1 & R1 & S1). rewrite E1.
    destruct (IH (fun i => Ws (S i)) (fun i c' Hc => HP (S i) c' Hc) (H ++ N1)) as (N2 & lab2 & zs & E2 & L2 & R2 & S2). rewrite E2.
    set (z := length H + length N1 - 1) in *.
    set (lab := fun u => if u <? length (H ++ N1) then lab1 u else lab2 u).
    exists (N1 ++ N2), lab, (z :: zs). rewrite app_assoc. split; auto. split; [simpl; lia|]. rewrite !app_length in *.
    split.
    + intros [|i] q Eq; cbn [nth_error] in Eq.
      * injection Eq as <-. split; [lia|]. intros x. unfold lab. destruct (Nat.ltb_spec z (length (H ++ N1))); rewrite app_length in *; [|lia]. auto.
      * destruct (R2 i q Eq) as (B & Hx). split; [lia|]. intros x. unfold lab. destruct (Nat.ltb_spec q (length (H ++ N1))); rewrite app_length in *; [lia|]. auto.
    + intros u Hu. destruct (Nat.lt_ge_cases u (length H + length N1)) as [Lu|Lu].
      * apply (seg_ext (H ++ N1) N2 lab1 lab (length H) (length H + length N1)); auto; [rewrite app_length; auto| |].
        -- intros v Hv. unfold lab. destruct (Nat.ltb_spec v (length (H ++ N1))); auto. rewrite app_length in *. lia.
        -- lia.
      * rewrite <- (app_nil_r ((H ++ N1) ++ N2)).
        apply (seg_ext ((H ++ N1) ++ N2) [] lab2 lab (length H + length N1) (length H + length N1 + length N2)); try (rewrite ?app_length; lia).
        -- intros v Hv. unfold lab. destruct (Nat.ltb_spec v (length (H ++ N1))); auto. rewrite app_length in *. lia.
        -- intros v Hv. apply S2. lia.
Qed.

Lemma place_node (Vs : Z -> Prop) cs Ws H N lab zs n : length zs = length cs ->
  (forall i z, nth_error zs i = Some z -> length H <= z < length (H ++ N) /\ forall x, lab z x <-> (Ws i x : Prop)) ->
  seg (H ++ N) lab (length H) (length (H ++ N)) -> nch n = zs -> length cs = length (cs : list (tree A)) ->
  (forall lab', (forall z, In z zs -> lab' z = lab z) -> lab' (length (H ++ N)) = Vs ->
     match nk n with
     | KSum _ => zs <> [] /\ forall c, In c zs -> forall x, lab' c x <-> Vs x
     | KProd => (forall x, Vs x <-> exists c, In c zs /\ lab' c x) /\ (forall i j c c' x, i <> j -> nth_error zs i = Some c -> nth_error zs j = Some c' -> lab' c x -> ~ lab' c' x)
     | KLeaf l => zs = [] /\ forall x, In x (lsc l) <-> Vs x
     end) -> wgood n ->
  exists N' lab', newNode n (H ++ N) = (H ++ N', length H + length N' - 1) /\ 0 < length N' /\
    (forall x, lab' (length H + length N' - 1) x <-> Vs x) /\ seg (H ++ N') lab' (length H) (length (H ++ N')).
Proof.
  intros Lz Hz Sg En _ Hn Wn. exists (N ++ [n]), (fun u => if u =? length (H ++ N) then Vs else lab u). unfold newNode. rewrite <- app_assoc. rewrite !app_length. cbn [length].
  assert (Eq : length H + (length N + 1) - 1 = length H + length N) by lia. rewrite Eq. split; [reflexivity|]. split; [lia|]. rewrite Nat.eqb_refl. split; [tauto|].
  assert (Hin : forall z, In z zs -> length H <= z < length H + length N).
  { intros z Hzs. apply In_nth_error in Hzs as (i & Hi). destruct (Hz i z Hi) as (B & _). rewrite app_length in B. auto. }
  intros u Hu. rewrite app_assoc. destruct (Nat.eq_dec u (length H + length N)) as [->|Nu].
  - assert (Enet : netOf ((H ++ N) ++ [n]) (length H + length N) = n).
    { unfold netOf. rewrite app_nth2; rewrite app_length; [|lia]. rewrite Nat.sub_diag. auto. }
    rewrite Enet, En. split; [|split; [intros c Hc; specialize (Hin c Hc); lia|auto]].
    unfold fits_label. rewrite Enet, En, Nat.eqb_refl. specialize (Hn (fun u => if u =? length H + length N then Vs else lab u)).
    rewrite app_length, Nat.eqb_refl in Hn. apply Hn; auto. intros z Hzs. specialize (Hin z Hzs). destruct (Nat.eqb_spec z (length H + length N)); auto. lia.
  - apply (seg_ext (H ++ N) [n] lab _ (length H) (length (H ++ N))); auto; try (rewrite app_length; lia).
    intros v Hv. rewrite app_length in Hv. destruct (Nat.eqb_spec v (length H + length N)); auto. lia.
Qed.

Lemma fits_placed Vs t : fits Vs t -> placed Vs t.
Proof.
  induction 1 as [Vs l v Hl HV|Vs cs Ne _ IH Sh|Vs cs Ws _ IH HV Hd]; intros H.
  - cbn [place]. destruct (place_node Vs [] (fun _ _ => True) H [] (fun _ _ => True) [] (mkNode (KLeaf l) [])) as (N & lab & E & R); auto.
    + intros [|i] z Hz; discriminate.
    + intros u Hu. rewrite app_nil_r in Hu. lia.
    + intros lab' _ _. cbn. split; auto. intros x. rewrite Hl, HV. simpl. intuition.
    + intros ws Hw. discriminate.
    + rewrite app_nil_r in E. eauto.
  - rewrite place_sum. destruct (placeAll_l (map snd cs) (fun _ => Vs)) with (H := H) as (N & lab & zs & E & L & R & S).
    { intros i c Hc. assert (exists w, nth_error cs i = Some (w, c)) as (w & Hw).
      { destruct (nth_error cs i) as [[w c']|] eqn:Ei; [|rewrite (proj2 (nth_error_None (map snd cs) i)) in Hc; [discriminate|rewrite map_length; apply nth_error_None; auto]].
        rewrite (map_nth_error snd _ _ Ei) in Hc. injection Hc as <-. eauto. }
      eapply IH; eauto. }
    rewrite E. destruct (place_node Vs (map snd cs) (fun _ => Vs) H N lab zs (mkNode (KSum (map fst cs)) zs)) as (N' & lab' & E' & R'); auto; [| |eauto].
    + intros lab' Hl _. cbn [nk]. split.
      * intros ->. rewrite map_length in L. destruct cs; [congruence|discriminate].
      * intros c Hc x. rewrite Hl by auto. apply In_nth_error in Hc as (i & Hi). apply (R i c Hi).
    + intros ws Hw. injection Hw as <-. cbn [nch]. rewrite map_length in *. split; [intros ->; destruct cs; [congruence|discriminate]|]. auto.
  - rewrite place_prod. destruct (placeAll_l cs Ws) with (H := H) as (N & lab & zs & E & L & R & S).
    { intros i c Hc. eapply IH; eauto. }
    rewrite E. destruct (place_node Vs cs Ws H N lab zs (mkNode KProd zs)) as (N' & lab' & E' & R'); auto; [| |eauto].
    + intros lab' Hl _. cbn [nk]. split.
      * intros x. rewrite HV. split.
        -- intros (i & Hi & Hx). destruct (nth_error zs i) as [z|] eqn:Ez; [|apply nth_error_None in Ez; lia]. exists z. split; [eapply nth_error_In; eauto|].
           rewrite Hl by (eapply nth_error_In; eauto). apply (R i z Ez). auto.
        -- intros (c & Hc & Hx). rewrite Hl in Hx by auto. apply In_nth_error in Hc as (i & Hi). exists i. split; [rewrite <- L; apply nth_error_Some; congruence|]. apply (R i c Hi). auto.
      * intros i j c c' x Hij Hi Hj Hx Hx'. rewrite Hl in Hx, Hx' by (eapply nth_error_In; eauto). apply (R i c Hi) in Hx. apply (R j c' Hj) in Hx'.
        eapply (Hd i j x); eauto; rewrite <- L; apply nth_error_Some; congruence.
    + intros ws Hw. discriminate.
Qed.

Lemma fits_valid Vs t : fits Vs t -> exists H z, place t [] = (H, z) /\ z < length H /\ (forall u c, In c (children (netOf H) u) -> c < length H) /\
  (forall x, in_scope (netOf H) z x <-> Vs x) /\ complete (netOf H) z /\ decomposable (netOf H) z /\ acyclic_from (children (netOf H)) z /\ share_weights (netOf H) z.
Proof.
  intros Ft. destruct (fits_placed Vs t Ft []) as (N & lab & E & L & R & S). cbn [app length] in *. exists N, (length N - 1). split; auto. split; [lia|].
  assert (Cl : forall u c, u < length N -> In c (children (netOf N) u) -> c < length N /\ c < u).
  { intros u c Hu Hc. destruct (S u ltac:(lia)) as (_ & C & _). specialize (C c Hc). lia. }
  split.
  { intros u c Hc. destruct (Nat.lt_ge_cases u (length N)) as [Lu|Lu]; [apply (Cl u); auto|]. exfalso. unfold children, netOf in Hc. rewrite nth_overflow in Hc by auto. destruct Hc. }
  destruct (scoped_network (netOf N) lab (fun u => u) (fun u => u < length N)) with (z := length N - 1) as (S1 & S2 & S3 & S4).
  - intros u Hu. apply (S u). lia.
  - intros u c Hu Hc. apply Cl; auto.
  - lia.
  - split; [intros x; rewrite S1; auto|]. split; auto. split; auto. split; auto.
    intros u ws Hr Hk. assert (Hu : u < length N).
    { clear -Hr Cl L. assert (G : forall a b, reach (children (netOf N)) a b -> a < length N -> b < length N).
      { induction 1 as [|a c b I R' IH]; auto. intros Ha. apply IH. apply (Cl a c Ha I). }
      eapply G; eauto. lia. }
    destruct (S u ltac:(lia)) as (_ & _ & W). apply W; auto.
Qed.
End Tree.
