(** Cases for the Poon-Domingos regions: whole builds, resolutions that do not divide the image,
    a single cell, codes beyond 64 bits. *)
From Verif Require Import Base Res Arith GraphSpec Spn Leaves Build Poon PoonSpec PoonCodes PoonLemmas
  PoonLink PoonConn PoonTop ProbSpec ScopedLemmas.
Local Open Scope Z_scope.

Section Cases.
Context {A : arith}.
Local Notation F := (F A).
Variables w h : Z.
Variable par : Z -> nat -> F * F.
Variable logProb : F -> F -> F -> F.
Variables trunc round : F -> Z.
Variable rnd : nat -> Z.
Hypothesis w1 : 0 < w.
Hypothesis h1 : 0 < h.
Hypothesis fit : codes_fit w h.
Variables m g : nat.
Variable r : Z.
Hypothesis r1 : 0 < r.

Local Notation create := (createRegions w h par logProb trunc round m g r).

Section Whole.
Hypothesis rnd10 : forall i, 0 <= rnd i < 10.
Hypothesis m1 : (0 < m)%nat.
Hypothesis g1 : (0 < g)%nat.
Hypothesis rw : (r | w).
Hypothesis rh : (r | h).

Lemma created_good H L : created w h (region_at r) (H, L) ->
  exists G, @good A w h L H G /\ tableOk w h L H G /\
    (forall u n, nth_error H u = Some n -> ~ isProd n) /\
    (forall a, inside w h a -> region_at r a -> L (code w h a) <> None).
Proof.
  intros (G & A1 & A2 & A3). exists G. cbn [fst snd] in *. split; [|split; [exact A2|split; [|exact A3]]].
  - intros u n E. destruct (A1 u n E) as [Iu [-> |(l & -> & U & Sc)]]; split; auto; cbn.
    + split; [reflexivity|]. split; [constructor|]. intros c [].
    + split; [reflexivity|]. split; assumption.
  - intros u n E. destruct (A1 u n E) as [_ [-> |(l & -> & _)]]; cbn; auto.
Qed.

Lemma regions_exist_l H L a : create = Ok (H, L) -> inside w h a -> region_at r a ->
  exists R, L (encode w h (left a) (top a) (right a) (bottom a)) = Some R /\ rinner R <> [].
Proof.
  intros E Ia Ra.
  destruct (createRegions_l w h par logProb trunc round w1 h1 fit m g r m1 g1 r1 rw rh) as (H' & L' & E' & C).
  rewrite E in E'. injection E' as <- <-. destruct (created_good H L C) as (G & _ & T & _ & Al).
  specialize (Al a Ia Ra). change (encode w h (left a) (top a) (right a) (bottom a)) with (code w h a).
  destruct (L (code w h a)) as [R|] eqn:EL; [|congruence]. exists R. split; auto.
  destruct (T a R Ia EL); auto.
Qed.

Lemma con_valid_l : exists H L N, create = Ok (H, L) /\
  forall fuel, (N <= fuel)%nat -> exists H' z, conRegions w h rnd L r fuel H = Ok (H', z) /\
  (forall p, in_scope (netOf H') z p <-> 0 <= p < w * h) /\ complete (netOf H') z /\
  decomposable (netOf H') z /\ acyclic_from (children (netOf H')) z /\ small_weights (A:=A) (netOf H') z.
Proof.
  destruct (createRegions_l w h par logProb trunc round w1 h1 fit m g r m1 g1 r1 rw rh) as (H & L & E & C).
  destruct (created_good H L C) as (G & Gd & T & Np & Al).
  destruct (conRegions_l w h rnd w1 h1 fit rnd10 L r r1 rw rh Al H G Gd T Np) as (N & X).
  exists H, L, N. split; auto.
Qed.

Lemma connect_valid_l : ~ (w = r /\ h = r) -> exists H L H' z, create = Ok (H, L) /\
  connectRegions w h rnd L r H = Ok (H', Some z) /\
  (forall p, in_scope (netOf H') z p <-> 0 <= p < w * h) /\ complete (netOf H') z /\
  decomposable (netOf H') z /\ acyclic_from (children (netOf H')) z /\ small_weights (A:=A) (netOf H') z.
Proof.
  intros Nr.
  destruct (createRegions_l w h par logProb trunc round w1 h1 fit m g r m1 g1 r1 rw rh) as (H & L & E & C).
  destruct (created_good H L C) as (G & Gd & T & Np & Al).
  destruct (connectRegions_l w h rnd w1 h1 fit rnd10 L r r1 rw rh Al H G Gd T Np Nr) as (H' & z & X).
  exists H, L, H', z. split; auto.
Qed.

Lemma connect_cell_l : w = r -> h = r -> exists H L H', create = Ok (H, L) /\
  connectRegions w h rnd L r H = Ok (H', None).
Proof.
  intros Ew Eh.
  destruct (createRegions_l w h par logProb trunc round w1 h1 fit m g r m1 g1 r1 rw rh) as (H & L & E & C).
  destruct (created_good H L C) as (G & Gd & T & Np & Al).
  assert (Lk : linked w h L r (fun _ => False) (H, O)).
  { exists G. split; auto. split; auto. split; [intros a R _ []|]. intros u n c Eu Pu. exfalso. eapply Np; eauto. }
  destruct (connectCells_l w h rnd w1 h1 fit rnd10 L r r1 rw rh Al _ _ Lk) as (s1 & E1 & Lk1).
  destruct (connectFine_l w h rnd w1 h1 fit rnd10 L r r1 rw rh Al _ _ Lk1) as (s2 & E2 & _).
  exists H, L, (fst s2). split; auto. unfold connectRegions. destruct (Z.eqb_spec r 0); [lia|].
  unfold connectCoarse. cbv zeta.
  assert (Q1 : Z.quot w r = 1) by (rewrite Ew; apply Z.quot_same; lia).
  assert (Q2 : Z.quot h r = 1) by (rewrite Eh; apply Z.quot_same; lia).
  rewrite Q1, Q2. change (list_prod (steps 1 1 1) (steps 1 1 1)) with [(1, 1)]. cbn [foldr_ fst].
  cbn [Z.eqb Pos.eqb andb]. rewrite E1. cbn [bind fst snd]. rewrite E2. reflexivity.
Qed.
End Whole.

(** Created regions stay within the whole cells. *)
Let cw := Z.quot w r.
Let ch := Z.quot h r.

Definition below (L : table) : Prop := forall a, inside w h a -> L (code w h a) <> None ->
  right a <= cw * r /\ bottom a <= ch * r.

Lemma below_put L a R : below L -> inside w h a -> right a <= cw * r -> bottom a <= ch * r ->
  below (updZ L (code w h a) R).
Proof.
  intros B Ia Hx Hy b Ib Nb. destruct (Z.eq_dec (code w h b) (code w h a)) as [Ec|Nc].
  - assert (b = a) as -> by (apply (code_inj w h); auto; lia). auto.
  - rewrite updZ_diff in Nb by auto. auto.
Qed.

Lemma fold_below {B} (f : nodes A * table -> B -> nodes A * table) l :
  (forall i st, In i l -> below (snd st) -> below (snd (f st i))) ->
  forall st, below (snd st) -> below (snd (fold_left f l st)).
Proof.
  induction l as [|i l IH]; intros Hf st Bl; cbn [fold_left]; auto.
  apply IH; [intros; apply Hf; [right|]; auto|]. apply Hf; [left|]; auto.
Qed.

Lemma create_below H L : create = Ok (H, L) -> below L.
Proof.
  unfold createRegions. destruct (Z.eqb_spec r 0); [lia|]. cbv zeta. fold cw ch. intros E.
  assert (Cw : 0 <= cw /\ cw * r <= w) by (unfold cw; rewrite Z.quot_div_nonneg by lia; split; [apply Z.div_pos; lia|]; pose proof (Z.mul_div_le w r r1); lia).
  assert (Ch : 0 <= ch /\ ch * r <= h) by (unfold ch; rewrite Z.quot_div_nonneg by lia; split; [apply Z.div_pos; lia|]; pose proof (Z.mul_div_le h r r1); lia).
  assert (X : below (snd (fold_left (createFine w h par logProb trunc round m g r) (fine r cw ch)
       (fold_left (createCoarse w h m r cw ch) (coarse w h r cw ch) (([] : nodes A), fun _ => None))))).
  { apply fold_below; [|apply fold_below].
    - intros [[[x y] x1] y1] [H0 L0] I B0. apply in_fine in I.
      destruct I as (Ix & Iy & ca & cb & Ha & Hb & B1 & B2). unfold createFine.
      assert ((ca + 1) * r <= cw * r) by nia. assert ((cb + 1) * r <= ch * r) by nia.
      assert (P : forall R, below (updZ L0 (encode w h x1 y1 (x1 + x) (y1 + y)) R)).
      { intros R. apply (below_put L0 (Rect x1 y1 (x1 + x) (y1 + y))); auto; unfold inside; simpl; nia. }
      destruct (_ && _); cbn; apply P.
    - intros [[[ca cb] x1] y1] [H0 L0] I B0. apply in_coarse in I; auto.
      destruct I as (Ia & Ib & (Ix & (i & Ei)) & (Iy & (j & Ej))). unfold createCoarse.
      destruct (_ && _); [exact B0|]. cbn.
      apply (below_put L0 (Rect x1 y1 (x1 + ca * r) (y1 + cb * r))); auto; try (unfold inside; simpl; nia); simpl.
      + assert (i + ca < cw + 1) by (unfold cw; rewrite Z.quot_div_nonneg by lia;
          apply Z.lt_succ_r, Z.div_le_lower_bound; nia). nia.
      + assert (j + cb < ch + 1) by (unfold ch; rewrite Z.quot_div_nonneg by lia;
          apply Z.lt_succ_r, Z.div_le_lower_bound; nia). nia.
    - intros a _ N. exfalso. apply N. reflexivity. }
  injection E as E. apply (f_equal snd) in E. cbn [snd] in E. rewrite <- E. exact X.
Qed.

Lemma con_indivisible_l H L fuel : ~ ((r | w) /\ (r | h)) -> create = Ok (H, L) -> (2 <= fuel)%nat ->
  conRegions w h rnd L r fuel H = Panic.
Proof.
  intros Nd E Fu. pose proof (create_below H L E) as Bl.
  assert (Cw : cw * r <= w) by (unfold cw; rewrite Z.quot_div_nonneg by lia; pose proof (Z.mul_div_le w r r1); lia).
  assert (Ch : ch * r <= h) by (unfold ch; rewrite Z.quot_div_nonneg by lia; pose proof (Z.mul_div_le h r r1); lia).
  assert (Miss : forall x y, 0 <= x < w -> 0 <= y < h -> L (encode w h x y w h) = None).
  { intros x y Hx Hy. destruct (L (encode w h x y w h)) as [R|] eqn:EL; auto. exfalso.
    destruct (Bl (Rect x y w h)) as [B1 B2].
    - unfold inside; simpl; lia.
    - unfold code; simpl. congruence.
    - simpl in B1, B2. apply Nd. split; [exists cw|exists ch]; lia. }
  unfold conRegions. destruct (Z.leb_spec r 0); [lia|]. cbv zeta.
  destruct fuel as [|[|f]]; try lia. cbn [conLoop fst snd].
  rewrite (decode_encode_l w h) by (auto; lia). cbn [bind].
  unfold conCuts. cbv zeta. rewrite !Z.sub_0_r.
  set (d := if (w <=? r) && (h <=? r) then 1 else r).
  assert (Dp : 0 < d) by (unfold d; destruct ((w <=? r) && (h <=? r)); lia).
  assert (Hx : forall x, In x (steps (0 + d) (w - 1) d) -> 0 <= x < w) by (intros x I; apply In_steps in I; lia).
  assert (Hy : forall y, In y (steps (0 + d) (h - 1) d) -> 0 <= y < h) by (intros y I; apply In_steps in I; lia).
  destruct (steps (0 + d) (w - 1) d) as [|x xs].
  - destruct (steps (0 + d) (h - 1) d) as [|y ys].
    + cbn [map app foldr_ bind]. unfold firstInner. simpl. rewrite Miss by lia. reflexivity.
    + cbn [map app foldr_]. unfold conCut at 1. cbn [fst snd cutY].
      rewrite (Miss 0 y) by (try lia; apply Hy; left; auto). reflexivity.
  - cbn [map app foldr_]. unfold conCut at 1. cbn [fst snd cutX].
    rewrite (Miss x 0) by (try lia; apply Hx; left; auto). reflexivity.
Qed.
End Cases.

(** Two regions of a 65536 by 65536 image with the same code. *)
Lemma region_code_clash_l : exists w h a b, inside w h a /\ inside w h b /\ a <> b /\
  encode w h (left a) (top a) (right a) (bottom a) = encode w h (left b) (top b) (right b) (bottom b).
Proof.
  exists 65536, 65536, (Rect 0 0 1 65535), (Rect 5 65533 65534 65536).
  unfold inside; simpl. repeat split; try lia. discriminate.
Qed.

(** A build over an arithmetic on Z, reduced to the number of nodes and the result. *)
From Verif Require Import InferLemmas.
Definition zcreate (w h : Z) (m g : nat) (r : Z) : res (nodes ZA * table) :=
  @createRegions ZA w h (fun p i => (p, Z.of_nat i)) (fun mu _ x => mu - x) (fun z => z) (fun z => z) m g r.
Definition zrnd (i : nat) : Z := Z.of_nat i mod 10.
Definition zcon (w h : Z) (m g : nat) (r : Z) (fuel : nat) : res (nat * nat * list nat) :=
  HL <- zcreate w h m g r;
  Hz <- conRegions w h zrnd (snd HL) r fuel (fst HL);
  Ok (length (fst Hz), snd Hz, nch (netOf (fst Hz) (snd Hz))).
Definition zconnect (w h : Z) (m g : nat) (r : Z) : res (nat * option nat) :=
  HL <- zcreate w h m g r;
  Hz <- connectRegions w h zrnd (snd HL) r (fst HL);
  Ok (length (fst Hz), snd Hz).
