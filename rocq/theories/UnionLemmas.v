(** Proofs about union-find. *)
From Coq Require Import Relations.
From Verif Require Import Base Res UnionFind UnionSpec.

(** The representative reached by following Pa. *)
Inductive leads (s : uf) : nat -> nat -> Prop :=
| leads_root x : pa s x = x -> leads s x x
| leads_up x r : pa s x <> x -> leads s (pa s x) r -> leads s x r.

Lemma leads_fun s x r r' : leads s x r -> leads s x r' -> r = r'.
Proof.
  intros H. revert r'. induction H as [x E|x r E H IH]; intros r' H'; inversion H'; subst; congruence || auto.
Qed.
Lemma leads_isroot s x r : leads s x r -> pa s r = r.
Proof. induction 1; auto. Qed.

(** Ranks grow towards the root and towards the root of the child trees. [k] bounds them. *)
Record wfu (k : nat) (s : uf) : Prop := {
  w_pa : forall x, x < unext s -> pa s x < unext s;
  w_rank : forall x, x < unext s -> pa s x <> x -> rank s x < rank s (pa s x);
  w_k : forall x, x < unext s -> rank s x <= k;
  w_ch : forall x c, x < unext s -> In c (uch s x) -> c < unext s /\ rank s c < rank s x }.

Lemma leads_total k s : wfu k s -> forall x, x < unext s -> exists r, leads s x r /\ r < unext s /\ rank s x <= rank s r.
Proof.
  intros W. assert (G : forall n x, x < unext s -> k - rank s x < n -> exists r, leads s x r /\ r < unext s /\ rank s x <= rank s r).
  { induction n as [|n IH]; intros x Hx Hn; [lia|].
    destruct (Nat.eq_dec (pa s x) x) as [E|E]; [exists x; split; [constructor; auto|lia]|].
    pose proof (w_pa _ _ W x Hx) as Hp. pose proof (w_rank _ _ W x Hx E). pose proof (w_k _ _ W _ Hp).
    destruct (IH (pa s x) Hp) as (r & H1 & H2 & H3); [lia|]. exists r. split; [constructor 2; auto|]. lia. }
  intros x Hx. apply (G (S (k - rank s x))); auto.
Qed.

(** What Find may change: nothing but Pa, and no representative. *)
Definition same_sets (s s' : uf) : Prop :=
  rank s' = rank s /\ vid s' = vid s /\ uch s' = uch s /\ unext s' = unext s /\
  (forall x, pa s' x = x <-> pa s x = x) /\
  (forall x r, x < unext s -> leads s x r <-> leads s' x r).
Lemma same_refl s : same_sets s s.
Proof. repeat split; auto. Qed.
Lemma same_trans s1 s2 s3 : same_sets s1 s2 -> same_sets s2 s3 -> same_sets s1 s3.
Proof.
  intros (A1 & A2 & A3 & A4 & A5 & A6) (B1 & B2 & B3 & B4 & B5 & B6).
  repeat split; try congruence.
  - intros H. apply A5, B5; auto.
  - intros H. apply B5, A5; auto.
  - intros H'. apply B6; [lia|]. apply A6; auto.
  - intros H'. apply A6; auto. apply B6; [lia|]; auto.
Qed.

Lemma find_ok k : forall fuel s x, wfu k s -> x < unext s -> k - rank s x < fuel ->
  exists s' r, find fuel s x = Ok (s', r) /\ wfu k s' /\ same_sets s s' /\ leads s x r /\ r < unext s.
Proof.
  induction fuel as [|f IH]; intros s x W Hx Hf; [lia|]. cbn [find].
  destruct (Nat.eqb_spec x (pa s x)) as [E|E].
  { exists s, x. rewrite <- E. split; auto. split; auto. split; [apply same_refl|]. split; auto. constructor; auto. }
  pose proof (w_pa _ _ W x Hx) as Hp. pose proof (w_rank _ _ W x Hx (not_eq_sym E)) as Hr. pose proof (w_k _ _ W _ Hp).
  destruct (IH s (pa s x) W Hp) as (s1 & r & -> & W1 & S1 & L & Hrn); [lia|]. cbn [bind fst snd].
  destruct S1 as (A1 & A2 & A3 & A4 & A5 & A6).
  destruct (leads_total k s W _ Hp) as (r1 & L1 & _ & Hrr). rewrite (leads_fun _ _ _ _ L1 L) in Hrr.
  assert (Hxr : r <> x) by (intros ->; lia).
  assert (Lx : leads s x r) by (constructor 2; auto).
  assert (Hroot : pa s r = r) by (eapply leads_isroot; eauto).
  cbn [setPa pa]. rewrite upd_same.
  exists (setPa s1 x r), r. split; auto. split; [|split; [|split; auto]].
  - constructor; cbn [setPa pa rank vid uch unext]; rewrite ?A1, ?A3, ?A4.
    + intros y Hy. unfold upd. destruct (Nat.eqb_spec y x); auto. rewrite <- A4. apply (w_pa _ _ W1). lia.
    + intros y Hy. unfold upd. destruct (Nat.eqb_spec y x) as [->|Hn]; intros Hne; [lia|].
      rewrite <- A1. apply (w_rank _ _ W1); auto. lia.
    + intros y Hy. apply (w_k _ _ W). auto.
    + apply (w_ch _ _ W).
  - assert (K : forall y, pa (setPa s1 x r) y = y <-> pa s y = y).
    { intros y. cbn [setPa pa]. unfold upd. destruct (Nat.eqb_spec y x) as [->|Hn]; [|apply A5]. split; intros HH; congruence. }
    assert (K1 : forall y r', leads s1 y r' -> y < unext s -> leads (setPa s1 x r) y r').
    { intros y r' Hy. induction Hy as [y Ey|y r' Ey Hy IHy]; intros Hlt.
      - constructor. apply K, A5. auto.
      - pose proof (w_pa _ _ W1 y ltac:(lia)) as Hpy. rewrite A4 in Hpy. specialize (IHy Hpy).
        destruct (Nat.eq_dec y x) as [->|Hn].
        + assert (r' = r). { assert (leads s x r') by (apply A6; auto; constructor 2; auto). eapply leads_fun; eauto. }
          subst r'. constructor 2; cbn [setPa pa]; rewrite upd_same; auto. constructor. apply K. auto.
        + constructor 2; cbn [setPa pa]; rewrite upd_diff by auto; auto. }
    assert (K2 : forall y r', y < unext s -> leads s y r' -> leads (setPa s1 x r) y r').
    { intros y r' Hlt Hy. apply K1; auto. apply A6; auto. }
    repeat split; auto; try (apply K); cbn [setPa rank vid uch unext]; auto.
    intros Hy. destruct (leads_total k s W x0 H0) as (r2 & L2 & _). pose proof (K2 _ _ H0 L2) as L3.
    rewrite (leads_fun _ _ _ _ Hy L3). auto.
Qed.

(** The nodes of the tree of Ch pointers, in the order UFVarids visits them. *)
Fixpoint mlist (f : nat) (s : uf) (x : nat) : list nat :=
  match f with O => [] | S g => x :: flat_map (mlist g s) (uch s x) end.

Lemma varids_mlist k s : wfu k s -> forall f x, x < unext s -> rank s x < f -> ufVarids f s x = Ok (map (vid s) (mlist f s x)).
Proof.
  intros W. induction f as [|f IH]; intros x Hx Hf; [lia|]. cbn [ufVarids mlist map].
  assert (G : forall l acc, (forall c, In c l -> In c (uch s x)) ->
    foldr_ (fun ch c => l0 <- ufVarids f s c; Ok (ch ++ l0)) l acc = Ok (acc ++ map (vid s) (flat_map (mlist f s) l))).
  { induction l as [|c l IHl]; intros acc Hl; cbn [foldr_ flat_map]; [rewrite app_nil_r; auto|].
    destruct (w_ch _ _ W x c Hx (Hl c (or_introl eq_refl))) as [Hc Hr].
    rewrite IH by lia. cbn [bind]. rewrite IHl by (intros; apply Hl; right; auto). rewrite map_app, app_assoc. auto. }
  rewrite G; auto.
Qed.

Lemma mlist_rank k s : wfu k s -> forall f x y, x < unext s -> In y (mlist f s x) -> y < unext s /\ rank s y <= rank s x.
Proof.
  intros W. induction f as [|f IH]; intros x y Hx Hy; [destruct Hy|]. destruct Hy as [<-|Hy]; [lia|].
  apply in_flat_map in Hy as (c & Hc & Hy). destruct (w_ch _ _ W x c Hx Hc). apply IH in Hy; auto. lia.
Qed.

Lemma mlist_frame s s' b f : forall z, (forall x, x <> b -> uch s' x = uch s x) -> ~ In b (mlist f s z) -> mlist f s' z = mlist f s z.
Proof.
  induction f as [|f IH]; intros z Hs Hb; auto. cbn [mlist] in *.
  rewrite Hs by (intros ->; apply Hb; left; auto). f_equal.
  assert (H : forall c, In c (uch s z) -> mlist f s' c = mlist f s c).
  { intros c Hc. apply IH; auto. intros Hi. apply Hb. right. apply in_flat_map. eauto. }
  revert H. generalize (uch s z). induction l as [|c l IHl]; intros H; simpl; auto. rewrite H by (left; auto). f_equal. apply IHl.
  intros; apply H; right; auto.
Qed.

Definition rst := clos_refl_sym_trans nat.

Record INV (k : nat) (s : uf) (E : nat -> nat -> Prop) : Prop := {
  i_wf : wfu k s;
  i_E : forall x y, E x y -> x < unext s /\ y < unext s;
  i_rel : forall x y r r', x < unext s -> y < unext s -> leads s x r -> leads s y r' -> (r = r' <-> rst E x y);
  i_mem : forall f r, k < f -> r < unext s -> pa s r = r ->
          NoDup (mlist f s r) /\ forall y, In y (mlist f s r) <-> y < unext s /\ leads s y r }.

Lemma INV_same k s s' E : INV k s E -> wfu k s' -> same_sets s s' -> INV k s' E.
Proof.
  intros [W HE HR HM] W' (A1 & A2 & A3 & A4 & A5 & A6). 
  assert (Hml : forall f r, mlist f s' r = mlist f s r).
  { induction f; intros r; simpl; auto. rewrite A3. f_equal. apply flat_map_ext. auto. }
  constructor; auto; rewrite ?A4; auto.
  - intros x y r r' Hx Hy Lx Ly. apply HR; auto; apply A6; auto.
  - intros f r Hf Hr Hp. rewrite Hml. destruct (HM f r Hf Hr) as [H1 H2]; [apply A5; auto|]. split; auto.
    intros y. rewrite H2. split; intros [? ?]; split; auto; apply A6; auto.
Qed.

Lemma INV_more k k' s E : k <= k' -> INV k s E -> INV k' s E.
Proof.
  intros Hk [W HE HR HM]. constructor; auto.
  - destruct W as [W1 W2 W3 W4]. constructor; auto. intros x Hx. specialize (W3 x Hx). lia.
  - intros f r Hf. apply HM. lia.
Qed.

Lemma rst_sub (E E' : nat -> nat -> Prop) x y : (forall a b, E a b -> rst E' a b) -> rst E x y -> rst E' x y.
Proof. intros H. induction 1; [apply H; auto|apply rst_refl|apply rst_sym; auto|eapply rst_trans; eauto]. Qed.

Lemma rst_add (E : nat -> nat -> Prop) a b x y :
  rst (fun u v => E u v \/ u = a /\ v = b) x y <->
  rst E x y \/ rst E x a /\ rst E b y \/ rst E x b /\ rst E a y.
Proof.
  split.
  - induction 1 as [x y [H|[-> ->]]|x|x y H IH|x y z H IH H' IH'].
    + left. constructor; auto.
    + right; left. split; apply rst_refl.
    + left. apply rst_refl.
    + destruct IH as [H1|[[H1 H2]|[H1 H2]]]; [left; apply rst_sym; auto|right; right|right; left]; split; apply rst_sym; auto.
    + destruct IH as [H1|[[H1 H2]|[H1 H2]]]; destruct IH' as [H3|[[H3 H4]|[H3 H4]]].
      * left. eapply rst_trans; eauto.
      * right; left. split; auto. eapply rst_trans; eauto.
      * right; right. split; auto. eapply rst_trans; eauto.
      * right; left. split; auto. eapply rst_trans; eauto.
      * right; left. split; auto.
      * left. eapply rst_trans; eauto.
      * right; right. split; auto. eapply rst_trans; eauto.
      * left. eapply rst_trans; eauto.
      * right; right. split; auto.
  - assert (S1 : forall u v, rst E u v -> rst (fun u v => E u v \/ u = a /\ v = b) u v).
    { intros u v. apply rst_sub. intros. constructor; auto. }
    assert (S2 : rst (fun u v => E u v \/ u = a /\ v = b) a b) by (constructor; auto).
    intros [H|[[H1 H2]|[H1 H2]]]; auto; (eapply rst_trans; [apply S1; eauto|eapply rst_trans; [|apply S1; eauto]]); auto.
    apply rst_sym; auto.
Qed.

(** Linking the representative a below the representative b. *)
Definition linked (s s' : uf) (a b : nat) : Prop :=
  pa s' = upd (pa s) a b /\ uch s' = upd (uch s) b (uch s b ++ [a]) /\ vid s' = vid s /\ unext s' = unext s /\
  rank s' a < rank s' b /\ (forall x, x <> b -> rank s' x = rank s x) /\ rank s b <= rank s' b <= S (rank s b).

Lemma INV_link k s s' E a b x y : INV k s E -> x < unext s -> y < unext s -> a < unext s -> b < unext s -> a <> b ->
  pa s a = a -> pa s b = b -> (leads s x a /\ leads s y b \/ leads s x b /\ leads s y a) -> linked s s' a b ->
  INV (S k) s' (fun u v => E u v \/ u = x /\ v = y).
Proof.
  intros [W HE HR HM] Hx Hy Ha Hb Hab Pa_ Pb Hxy (L1 & L2 & L3 & L4 & L5 & L6 & L7).
  assert (Hge : forall z, rank s z <= rank s' z) by (intros z; destruct (Nat.eq_dec z b) as [->|]; [lia|rewrite L6; auto]).
  assert (W' : wfu (S k) s').
  { constructor; rewrite ?L1, ?L4.
    - intros z Hz. unfold upd. destruct (Nat.eqb_spec z a); auto. apply (w_pa _ _ W); auto.
    - intros z Hz. unfold upd. destruct (Nat.eqb_spec z a) as [->|Hn]; intros Hp; auto.
      pose proof (w_rank _ _ W z Hz Hp). destruct (Nat.eq_dec z b) as [->|]; [congruence|]. rewrite L6 by auto.
      pose proof (Hge (pa s z)). lia.
    - intros z Hz. pose proof (w_k _ _ W z Hz). destruct (Nat.eq_dec z b) as [->|]; [lia|rewrite L6; auto].
    - intros z c Hz Hc. rewrite L2 in Hc. unfold upd in Hc. destruct (Nat.eqb_spec z b) as [->|Hn].
      + apply in_app_iff in Hc as [Hc|[<-|[]]]; [|auto]. destruct (w_ch _ _ W b c Hb Hc). split; auto.
        rewrite L6 by (intros ->; lia). lia.
      + destruct (w_ch _ _ W z c Hz Hc) as [? Hr]. split; auto. rewrite (L6 z) by auto.
        destruct (Nat.eq_dec c b) as [->|]; [|rewrite L6; auto].
        (* b is a representative, so it is nobody's child *)
        exfalso. destruct (leads_total k s W z Hz) as (r & Lz & Hr' & _). 
        (* z is in the tree of its representative, hence so is b *)
        assert (Hzr : In z (mlist (S k) s r)).
        { destruct (HM (S k) r ltac:(lia) Hr' (leads_isroot _ _ _ Lz)) as [_ HH]. apply HH. auto. }
        assert (HT : forall f u v c, In v (mlist f s u) -> In c (uch s v) -> In c (mlist (S f) s u)).
        { induction f as [|f IHf]; intros u v c Hv Hcc; [destruct Hv|]. destruct Hv as [<-|Hv].
          - cbn [mlist]. right. apply in_flat_map. exists c. split; auto. left; auto.
          - apply in_flat_map in Hv as (w & Hw & Hv). right. apply in_flat_map. exists w. split; auto.
            apply (IHf w v c); auto. }
        pose proof (HT _ _ _ _ Hzr Hc) as Hbr.
        destruct (HM (S (S k)) r ltac:(lia) Hr' (leads_isroot _ _ _ Lz)) as [_ HH]. apply HH in Hbr as [_ Hbr].
        assert (r = b) by (eapply leads_fun; [exact Hbr|constructor; auto]). subst r.
        destruct (leads_total k s W z Hz) as (r2 & Lz2 & _ & Hle). rewrite (leads_fun _ _ _ _ Lz2 Lz) in Hle. lia. }
  assert (K1 : forall z r, leads s z r -> r <> a -> leads s' z r).
  { intros z r H. induction H as [z Ez|z r Ez H IH]; intros Hr.
    - constructor. rewrite L1, upd_diff; auto.
    - assert (z <> a) by congruence. constructor 2; rewrite L1, upd_diff by auto; auto. }
  assert (K2 : forall z, leads s z a -> leads s' z b).
  { intros z H. remember a as a' eqn:Ea in H. induction H as [z Ez|z r Ez H IH].
    - subst z. constructor 2; rewrite L1, upd_same; auto. constructor. rewrite L1, upd_diff; auto.
    - subst r. assert (z <> a) by congruence. constructor 2; rewrite L1, upd_diff by auto; auto. }
  constructor; auto; rewrite ?L4.
  - intros u v [H|[-> ->]]; auto.
  - intros u v r r' Hu Hv Hur Hvr. fold rst. rewrite rst_add.
    destruct (leads_total k s W u Hu) as (ru & Lu & _). destruct (leads_total k s W v Hv) as (rv & Lv & _).
    destruct (leads_total k s W x Hx) as (rx & Lx & _). destruct (leads_total k s W y Hy) as (ry & Ly & _).
    pose proof (HR u v _ _ Hu Hv Lu Lv) as R1.
    pose proof (HR u x _ _ Hu Hx Lu Lx) as R2. pose proof (HR y v _ _ Hy Hv Ly Lv) as R3.
    pose proof (HR u y _ _ Hu Hy Lu Ly) as R4. pose proof (HR x v _ _ Hx Hv Lx Lv) as R5.
    rewrite <- R1, <- R2, <- R3, <- R4, <- R5.
    assert (Hrr : (rx = a /\ ry = b) \/ (rx = b /\ ry = a)).
    { destruct Hxy as [[H1 H2]|[H1 H2]]; [left|right]; split; eapply leads_fun; eauto. }
    assert (Er : r = if Nat.eqb ru a then b else ru).
    { destruct (Nat.eqb_spec ru a) as [->|]; eapply leads_fun; try exact Hur; auto. }
    assert (Er' : r' = if Nat.eqb rv a then b else rv).
    { destruct (Nat.eqb_spec rv a) as [->|]; eapply leads_fun; try exact Hvr; auto. }
    destruct (Nat.eqb_spec ru a), (Nat.eqb_spec rv a); subst; intuition (subst; auto; try congruence).
  - intros f r Hf Hr Hp.
    assert (Hra : r <> a) by (intros ->; rewrite L1, upd_same in Hp; congruence).
    assert (Pr : pa s r = r) by (rewrite L1, upd_diff in Hp; auto).
    assert (Hch : forall z, z <> b -> uch s' z = uch s z) by (intros; rewrite L2, upd_diff; auto).
    destruct (Nat.eq_dec r b) as [->|Hrb].
    + destruct f as [|f]; [lia|]. cbn [mlist]. rewrite L2, upd_same, flat_map_app. cbn [flat_map]. rewrite app_nil_r.
      destruct (HM (S f) b ltac:(lia) Hb Pb) as [N1 M1]. destruct (HM f a ltac:(lia) Ha Pa_) as [N2 M2].
      assert (E1 : flat_map (mlist f s') (uch s b) = flat_map (mlist f s) (uch s b)).
      { assert (H : forall c, In c (uch s b) -> mlist f s' c = mlist f s c).
        { intros c Hc. destruct (w_ch _ _ W b c Hb Hc). apply (mlist_frame s s' b); auto. intros Hi.
          apply (mlist_rank k s W) in Hi; auto. lia. }
        revert H. generalize (uch s b). induction l as [|c l IHl]; intros H; simpl; auto. rewrite H by (left; auto). f_equal.
        apply IHl. intros; apply H; right; auto. }
      assert (E2 : mlist f s' a = mlist f s a).
      { apply (mlist_frame s s' b); auto. intros Hi. apply M2 in Hi as [_ Hi]. apply Hab. symmetry.
        eapply leads_fun; [constructor; exact Pb|exact Hi]. }
      rewrite E1, E2. change (b :: flat_map (mlist f s) (uch s b) ++ mlist f s a) with (mlist (S f) s b ++ mlist f s a).
      split.
      * assert (HD : forall z, In z (mlist (S f) s b) -> ~ In z (mlist f s a)).
        { intros z H1 H2. apply M1 in H1 as [_ H1]. apply M2 in H2 as [_ H2]. apply Hab. eapply leads_fun; eauto. }
        revert N1 HD. generalize (mlist (S f) s b). induction l as [|z l IHl]; intros HN HD; simpl; auto.
        inversion HN; subst. constructor; [|apply IHl; auto; intros; apply HD; right; auto].
        intros Hi. apply in_app_iff in Hi as [Hi|Hi]; [auto|]. apply (HD z); auto. left; auto.
      * intros z. rewrite in_app_iff, M1, M2. split.
        -- intros [[Hz Hl]|[Hz Hl]]; split; auto.
        -- intros [Hz Hl]. destruct (leads_total k s W z Hz) as (rz & Lz & _). destruct (Nat.eq_dec rz a) as [->|Hn]; auto.
           left. split; auto. rewrite (leads_fun _ _ _ _ Hl (K1 _ _ Lz Hn)). auto.
    + destruct (HM f r ltac:(lia) Hr Pr) as [N1 M1]. rewrite (mlist_frame s s' b); auto.
      2:{ intros Hi. apply M1 in Hi as [_ Hi]. apply Hrb. eapply leads_fun; [exact Hi|constructor; exact Pb]. }
      split; auto. intros z. rewrite M1. split; intros [Hz Hl]; split; auto.
      destruct (leads_total k s W z Hz) as (rz & Lz & _). destruct (Nat.eq_dec rz a) as [->|Hn].
      * exfalso. apply Hrb. eapply leads_fun; [exact Hl|apply K2; auto].
      * rewrite (leads_fun _ _ _ _ Hl (K1 _ _ Lz Hn)). auto.
Qed.

Lemma same_leads s s' x r : same_sets s s' -> x < unext s -> leads s x r -> leads s' x r.
Proof. intros (_ & _ & _ & _ & _ & H). intros; apply H; auto. Qed.

Lemma union_ok k fuel s x y E : INV k s E -> x < unext s -> y < unext s -> k < fuel ->
  exists s' o z, union fuel s x y = Ok (s', (o, z)) /\ INV (S k) s' (fun u v => E u v \/ u = x /\ v = y) /\
    unext s' = unext s /\ vid s' = vid s.
Proof.
  intros HI Hx Hy Hf. pose proof (i_wf _ _ _ HI) as W. unfold union.
  destruct (find_ok k fuel s x W Hx ltac:(lia)) as (s1 & a & -> & W1 & S1 & La & Hra). cbn [bind fst snd].
  pose proof (INV_same _ _ _ _ HI W1 S1) as HI1.
  assert (E1 : unext s1 = unext s) by apply S1.
  destruct (find_ok k fuel s1 y W1 ltac:(lia) ltac:(lia)) as (s2 & b & -> & W2 & S2 & Lb & Hrb). cbn [bind fst snd].
  pose proof (INV_same _ _ _ _ HI1 W2 S2) as HI2.
  assert (E2 : unext s2 = unext s) by (destruct S2 as (_ & _ & _ & -> & _); auto).
  assert (V2 : vid s2 = vid s) by (destruct S1 as (_ & V1 & _); destruct S2 as (_ & -> & _); auto).
  assert (La2 : leads s2 x a) by (apply (same_leads s1); [auto|lia|]; apply (same_leads s); auto).
  assert (Lb2 : leads s2 y b) by (apply (same_leads s1); [auto|lia|auto]).
  pose proof (leads_isroot _ _ _ La2) as Ra. pose proof (leads_isroot _ _ _ Lb2) as Rb.
  destruct (Nat.eqb_spec a b) as [->|Hab].
  - exists s2, None, (-1)%Z. split; auto. split; [|auto].
    apply (INV_more k); auto. destruct HI2 as [I1 I2 I3 I4]. constructor; auto.
    + intros u v [H|[-> ->]]; auto. lia.
    + intros u v r r' Hu Hv Lu Lv. rewrite (I3 u v r r') by auto. fold rst. rewrite rst_add.
      assert (Hxy : rst E x y) by (apply (I3 x y b b); auto; lia).
      split; [auto|]. intros [H|[[H1 H2]|[H1 H2]]]; auto.
      * eapply rst_trans; [exact H1|]. eapply rst_trans; eauto.
      * eapply rst_trans; [exact H1|]. eapply rst_trans; [apply rst_sym; exact Hxy|auto].
  - destruct (Nat.ltb_spec (rank s2 b) (rank s2 a)) as [Hr|Hr].
    + exists (addCh (setPa s2 b a) a b), (Some a), 1%Z. split; auto. split; [|split; auto].
      apply (INV_link k s2 _ E b a x y); auto; try lia.
      repeat split; simpl; auto.
    + eexists _, (Some b), 2%Z. split; [reflexivity|]. cbn [addCh setPa rank].
      destruct (Nat.eqb_spec (rank s2 a) (rank s2 b)) as [He|He].
      * split; [|split; simpl; auto]. apply (INV_link k s2 _ E a b x y); auto; try lia.
        repeat split; simpl; auto.
        -- rewrite upd_diff by auto. rewrite upd_same. lia.
        -- intros z Hz. rewrite upd_diff; auto.
        -- rewrite upd_same; auto.
        -- rewrite upd_same; auto.
      * split; [|split; simpl; auto]. apply (INV_link k s2 _ E a b x y); auto; try lia.
        repeat split; simpl; auto; try lia.
Qed.

Lemma INV_make k s v E : INV k s E -> INV k (fst (makeSet s v)) E.
Proof.
  intros [W HE HR HM]. set (n := unext s). unfold makeSet. cbn [fst]. fold n.
  set (s' := mkUf _ _ _ _ _).
  assert (P1 : forall x, x < n -> pa s' x = pa s x) by (intros; unfold s'; simpl; rewrite upd_diff; auto; lia).
  assert (W' : wfu k s').
  { destruct W as [W1 W2 W3 W4]. constructor; unfold s'; cbn [pa rank vid uch unext].
    - intros x Hx. unfold upd. destruct (Nat.eqb_spec x n); [lia|]. assert (x < n) by lia. specialize (W1 x H). lia.
    - intros x Hx. destruct (Nat.eq_dec x n) as [->|Hn]; [rewrite upd_same; congruence|].
      rewrite (upd_diff _ _ _ x) by auto. intros Hp. assert (x < n) by lia. specialize (W1 x H). rewrite !upd_diff by lia. auto.
    - intros x Hx. destruct (Nat.eq_dec x n) as [->|Hn]; [rewrite upd_same; lia|]. rewrite upd_diff by auto. apply W3. lia.
    - intros x c Hx. destruct (Nat.eq_dec x n) as [->|Hn]; [rewrite upd_same; intros []|]. rewrite upd_diff by auto. intros Hc.
      destruct (W4 x c) as [H1 H2]; [lia|auto|]. split; [lia|]. rewrite !upd_diff by lia. auto. }
  assert (L1 : forall x r, leads s x r -> x < n -> leads s' x r).
  { intros x r H. induction H as [x Ex|x r Ex H IH]; intros Hx; [constructor; rewrite P1; auto|].
    pose proof (w_pa _ _ W x Hx). constructor 2; rewrite P1; auto. }
  assert (L2 : forall x r, x < n -> leads s' x r -> leads s x r).
  { intros x r Hx Hl. destruct (leads_total k s W x Hx) as (r0 & H & _). rewrite (leads_fun _ _ _ _ Hl (L1 _ _ H Hx)). auto. }
  assert (Ln : leads s' n n) by (constructor; unfold s'; simpl; apply upd_same).
  assert (Lr : forall x r, x < n -> leads s' x r -> r < n).
  { intros x r Hx Hl. destruct (leads_total k s W x Hx) as (r0 & H & Hr & _). rewrite (leads_fun _ _ _ _ Hl (L1 _ _ H Hx)). auto. }
  assert (Hiso : forall x y, rst E x y -> x = n \/ y = n -> x = y).
  { induction 1 as [x y H|x|x y H IH|x y z H IH H' IH']; intros Ho; auto.
    - apply HE in H. fold n in H. lia.
    - symmetry. apply IH. tauto.
    - destruct Ho as [Ho|Ho]; [rewrite IH in * by auto; auto|]. rewrite <- IH' in * by auto. auto. }
  constructor; auto.
  - intros x y H. apply HE in H. unfold s'; simpl. fold n in H. lia.
  - intros x y r r' Hx Hy Lx Ly. change (unext s') with (S n) in *.
    destruct (Nat.eq_dec x n) as [->|Hxn], (Nat.eq_dec y n) as [->|Hyn].
    + split; intros _; [apply rst_refl|eapply leads_fun; eauto].
    + rewrite (leads_fun _ _ _ _ Lx Ln). assert (r' < n) by (eapply Lr; [|exact Ly]; lia). split; intros H'; [lia|].
      apply Hiso in H'; auto. congruence.
    + rewrite (leads_fun _ _ _ _ Ly Ln). assert (r < n) by (eapply Lr; [|exact Lx]; lia). split; intros H'; [lia|].
      apply Hiso in H'; auto. congruence.
    + apply HR; [fold n; lia|fold n; lia| |]; apply L2; auto; lia.
  - intros f r Hf Hr Hp. change (unext s') with (S n) in *. destruct (Nat.eq_dec r n) as [->|Hn].
    + destruct f as [|f]; [lia|]. cbn [mlist]. replace (uch s' n) with (@nil nat) by (unfold s'; simpl; rewrite upd_same; auto).
      simpl. split; [repeat constructor; auto|]. intros y. split.
      * intros [<-|[]]. split; [lia|auto].
      * intros [Hy Hl]. left. destruct (Nat.eq_dec y n) as [->|]; auto. pose proof (Lr y n ltac:(lia) Hl). lia.
    + assert (Hrn : r < n) by lia. rewrite P1 in Hp by auto. destruct (HM f r Hf Hrn Hp) as [N1 M1].
      rewrite (mlist_frame s s' n). 
      * split; auto. intros y. rewrite M1. fold n. split.
        -- intros [? ?]. split; [lia|]. apply L1; auto.
        -- intros [Hy Hl]. destruct (Nat.eq_dec y n) as [->|]. { pose proof (leads_fun _ _ _ _ Hl Ln). congruence. }
           split; [lia|]. apply L2; auto. lia.
      * intros x Hx. unfold s'; simpl. apply upd_diff; auto.
      * intros Hi. apply M1 in Hi. fold n in Hi. lia.
Qed.

Lemma INV_ext k s E E' : (forall x y, E x y <-> E' x y) -> INV k s E -> INV k s E'.
Proof.
  intros HE [W H1 H2 H3]. constructor; auto.
  - intros x y H. apply H1, HE; auto.
  - intros x y r r' Hx Hy Lx Ly. rewrite (H2 x y r r') by auto. split; apply rst_sub; intros; constructor; apply HE; auto.
Qed.

Lemma run_ok : forall ops k s E fuel, INV k s E -> well_used (unext s) ops -> k + length ops < fuel ->
  exists s', ufrun fuel s ops = Ok s' /\ INV (k + length ops) s' (fun x y => E x y \/ In (OUnion x y) ops) /\
    unext s' = unext s + length (created ops) /\
    (forall x, x < unext s -> vid s' x = vid s x) /\
    (forall i v, nth_error (created ops) i = Some v -> vid s' (unext s + i) = v).
Proof.
  induction ops as [|o ops IH]; intros k s E fuel HI HU Hf.
  { exists s. split; auto. simpl. rewrite Nat.add_0_r. split; [|split; [lia|split; auto]].
    - apply (INV_ext k s E); auto. tauto.
    - intros [|i]; discriminate. }
  cbn [length] in *. destruct o as [v|x|x y]; cbn [ufrun ufstep well_used created] in *.
  - destruct (makeSet s v) as [s1 x] eqn:Em. cbn [bind fst].
    pose proof (INV_make k s v E HI) as HI1. rewrite Em in HI1. cbn [fst] in HI1.
    unfold makeSet in Em. injection Em as E1 Ex. 
    assert (En : unext s1 = S (unext s)) by (rewrite <- E1; auto).
    destruct (IH k s1 E fuel HI1) as (s' & -> & H1 & H2 & H3 & H4); [rewrite En; auto|lia|].
    exists s'. split; auto. split; [|split; [|split]].
    + apply (INV_more (k + length ops)); [lia|]. refine (INV_ext _ _ _ _ _ H1). intros x' y'. simpl. intuition (congruence || auto).
    + rewrite H2, En. simpl. lia.
    + intros z Hz. rewrite H3 by lia. rewrite <- E1. simpl. apply upd_diff. lia.
    + intros [|i] w Hw; cbn [nth_error] in Hw.
      * injection Hw as <-. rewrite Nat.add_0_r, H3 by lia. rewrite <- E1. simpl. apply upd_same.
      * specialize (H4 _ _ Hw). rewrite En in H4. replace (unext s + S i) with (S (unext s) + i) by lia. auto.
  - destruct HU as [Hx HU]. rewrite (proj2 (Nat.ltb_lt _ _) Hx).
    destruct (find_ok k fuel s x (i_wf _ _ _ HI) Hx ltac:(lia)) as (s1 & r & -> & W1 & S1 & _). cbn [bind fst].
    pose proof (INV_same _ _ _ _ HI W1 S1) as HI1. destruct S1 as (_ & Ev & _ & En & _).
    destruct (IH k s1 E fuel HI1) as (s' & -> & H1 & H2 & H3 & H4); [rewrite En; auto|lia|].
    exists s'. split; auto. split; [|split; [|split]].
    + apply (INV_more (k + length ops)); [lia|]. refine (INV_ext _ _ _ _ _ H1). intros x' y'. simpl. intuition (congruence || auto).
    + rewrite H2, En. auto.
    + intros z Hz. rewrite H3 by lia. rewrite Ev. auto.
    + rewrite <- En. auto.
  - destruct HU as (Hx & Hy & HU). rewrite (proj2 (Nat.ltb_lt _ _) Hx), (proj2 (Nat.ltb_lt _ _) Hy). cbn [andb].
    destruct (union_ok k fuel s x y E HI Hx Hy ltac:(lia)) as (s1 & oo & z & -> & HI1 & En & Ev). cbn [bind fst snd].
    destruct (IH (S k) s1 _ fuel HI1) as (s' & -> & H1 & H2 & H3 & H4); [rewrite En; auto|lia|].
    exists s'. split; auto. split; [|split; [|split]].
    + replace (k + S (length ops)) with (S k + length ops) by lia. refine (INV_ext _ _ _ _ _ H1). intros x' y'. simpl. intuition (congruence || auto).
    + rewrite H2, En. auto.
    + intros w Hw. rewrite H3 by lia. rewrite Ev. auto.
    + rewrite <- En. auto.
Qed.

Lemma INV_new : INV 0 newHeap (fun _ _ => False).
Proof.
  constructor; simpl; try (intros; lia); try (intros; contradiction).
  constructor; simpl; intros; lia.
Qed.

Lemma union_find_l ops fuel : well_used 0 ops -> length ops < fuel ->
  exists s, ufrun fuel newHeap ops = Ok s /\ unext s = length (created ops) /\
    (forall x, x < length (created ops) -> exists s' r, find fuel s x = Ok (s', r) /\ r < length (created ops)) /\
    (forall x y sx rx sy ry, x < length (created ops) -> y < length (created ops) ->
       find fuel s x = Ok (sx, rx) -> find fuel s y = Ok (sy, ry) -> (rx = ry <-> joined ops x y)) /\
    (forall x sx r, x < length (created ops) -> find fuel s x = Ok (sx, r) ->
       exists l, NoDup l /\ (forall y, In y l <-> y < length (created ops) /\ joined ops x y) /\
         ufVarids fuel s r = Ok (map (fun y => nth y (created ops) 0%Z) l)).
Proof.
  intros HU Hf. destruct (run_ok ops 0 newHeap (fun _ _ => False) fuel INV_new HU Hf) as (s & E & HI & En & _ & Hv). simpl in En, Hv, HI.
  exists s. split; auto. split; auto. pose proof (i_wf _ _ _ HI) as W. rewrite <- En.
  assert (Hjo : forall x y, joined ops x y <-> rst (fun x y => False \/ In (OUnion x y) ops) x y).
  { intros x y. split; apply rst_sub; intros; constructor; tauto. }
  assert (HF : forall x sx r, x < unext s -> find fuel s x = Ok (sx, r) -> leads s x r /\ r < unext s).
  { intros x sx r Hx Hq. destruct (find_ok (length ops) fuel s x W Hx ltac:(lia)) as (s' & r' & E' & _ & _ & L & Hr). 
    rewrite E' in Hq. injection Hq as <- <-. auto. }
  split; [|split].
  - intros x Hx. destruct (find_ok (length ops) fuel s x W Hx ltac:(lia)) as (s' & r & Hq & _ & _ & _ & Hr). eauto.
  - intros x y sx rx sy ry Hx Hy Hqx Hqy. apply HF in Hqx as [Lx _]; auto. apply HF in Hqy as [Ly _]; auto.
    rewrite Hjo. apply (i_rel _ _ _ HI); auto.
  - intros x sx r Hx Hq. apply HF in Hq as [L Hr]; auto. pose proof (leads_isroot _ _ _ L) as Hroot.
    destruct (i_mem _ _ _ HI fuel r ltac:(lia) Hr Hroot) as [HN HM]. exists (mlist fuel s r). split; auto. split.
    + intros y. rewrite HM, Hjo. split; intros [Hy H]; split; auto.
      * apply (i_rel _ _ _ HI x y r r); auto.
      * destruct (leads_total _ s W y Hy) as (ry & Ly & _). assert (r = ry) by (apply (i_rel _ _ _ HI x y r ry); auto). subst; auto.
    + pose proof (w_k _ _ W r Hr). rewrite (varids_mlist _ s W) by (auto; lia). f_equal. apply map_ext_in. intros y Hy. apply HM in Hy as [Hy _].
      destruct (nth_error (created ops) y) as [v|] eqn:Ey.
      * rewrite (Hv _ _ Ey). symmetry. apply nth_error_nth. auto.
      * apply nth_error_None in Ey. lia.
Qed.
