(** Proofs about the .npy reader. *)
From Coq Require Import String.
From Verif Require Import Base Res GoMap Misc MiscSpec MiscLemmas DataLemmas Npy NpySpec.

(** Types *)
Lemma isValid_from_some t : forall vs i k, isValid_from i vs t = Some k ->
  exists j, nth_error vs j = Some t /\ k = integerType (i + j).
Proof.
  induction vs as [|v vs IH]; intros i k E; simpl in E; [discriminate|].
  destruct (String.eqb_spec t v) as [->|].
  - injection E as <-. exists 0. rewrite Nat.add_0_r. auto.
  - apply IH in E as (j & Hj & ->). exists (S j). split; auto. f_equal. lia.
Qed.

Lemma isValid_from_none t : forall vs i, isValid_from i vs t = None -> ~ In t vs.
Proof.
  induction vs as [|v vs IH]; intros i E; simpl in *; [tauto|].
  destruct (String.eqb_spec t v) as [->|]; [discriminate|]. intros [->|H]; [congruence|]. eapply IH; eauto.
Qed.

Ltac pick_in := repeat (first [left; reflexivity | right]).
Lemma isValid_kind_l t k : isValid t = Some k -> exists ty, caseType k = Some ty /\ denotes t ty.
Proof.
  intros E. unfold isValid in E. apply isValid_from_some in E as (j & Hj & ->). cbn [Nat.add].
  assert (Hl : j < 39) by (change 39 with (length validTypes); apply nth_error_Some; congruence).
  do 39 (destruct j as [|j]; [injection Hj as <-; eexists; split; [vm_compute; reflexivity|];
    first [ apply (short_name "" false "1" 1); cbn; tauto | apply (short_name "<" false "1" 1); cbn; tauto
          | apply (short_name "|" false "1" 1); cbn; tauto | apply (short_name ">" false "1" 1); cbn; tauto
          | apply (short_name "" false "2" 2); cbn; tauto | apply (short_name "<" false "2" 2); cbn; tauto
          | apply (short_name "|" false "2" 2); cbn; tauto | apply (short_name ">" false "2" 2); cbn; tauto
          | apply (short_name "" false "4" 4); cbn; tauto | apply (short_name "<" false "4" 4); cbn; tauto
          | apply (short_name "|" false "4" 4); cbn; tauto | apply (short_name ">" false "4" 4); cbn; tauto
          | apply (short_name "" false "8" 8); cbn; tauto | apply (short_name "<" false "8" 8); cbn; tauto
          | apply (short_name "|" false "8" 8); cbn; tauto | apply (short_name ">" false "8" 8); cbn; tauto
          | apply (short_name "" true "1" 1); cbn; tauto | apply (short_name "<" true "1" 1); cbn; tauto
          | apply (short_name "|" true "1" 1); cbn; tauto | apply (short_name ">" true "1" 1); cbn; tauto
          | apply (short_name "" true "2" 2); cbn; tauto | apply (short_name "<" true "2" 2); cbn; tauto
          | apply (short_name "|" true "2" 2); cbn; tauto | apply (short_name ">" true "2" 2); cbn; tauto
          | apply (short_name "" true "4" 4); cbn; tauto | apply (short_name "<" true "4" 4); cbn; tauto
          | apply (short_name "|" true "4" 4); cbn; tauto | apply (short_name ">" true "4" 4); cbn; tauto
          | apply (short_name "" true "8" 8); cbn; tauto | apply (short_name "<" true "8" 8); cbn; tauto
          | apply (short_name "|" true "8" 8); cbn; tauto | apply (short_name ">" true "8" 8); cbn; tauto
          | apply (long_name false "8" 8); cbn; tauto | apply (long_name false "16" 16); cbn; tauto
          | apply (long_name false "32" 32); cbn; tauto | apply (long_name false "64" 64); cbn; tauto
          | apply (long_name true "8" 8); cbn; tauto | apply (long_name true "16" 16); cbn; tauto
          | apply (long_name true "32" 32); cbn; tauto | apply (long_name true "64" 64); cbn; tauto ]|]).
  lia.
Qed.

Lemma isValid_all_l t ty : denotes t ty -> t <> ">u1"%string -> exists k, isValid t = Some k.
Proof.
  intros D N.
  inversion D as [order signed digit bytes Ho Hd E1 E2|signed digits bits Hd E1 E2]; subst.
  - cbn in Ho, Hd.
    destruct Ho as [<-|[<-|[<-|[<-|[]]]]]; destruct Hd as [E|[E|[E|[E|[]]]]]; injection E as <- <-; destruct signed;
      try (exfalso; apply N; reflexivity); eexists; vm_compute; reflexivity.
  - cbn in Hd. destruct Hd as [E|[E|[E|[E|[]]]]]; injection E as <- <-; destruct signed; eexists; vm_compute; reflexivity.
Qed.

(** A name has one meaning only. *)
Lemma denotes_fun_l t a b : denotes t a -> denotes t b -> a = b.
Proof.
  assert (X : forall t a, denotes t a -> In (t, a)
    (flat_map (fun o => flat_map (fun s : bool => map (fun d => ((o ++ (if s then "i" else "u") ++ fst d)%string, (s, 8 * snd d)))
       [("1", 1); ("2", 2); ("4", 4); ("8", 8)]%string) [false; true]) [""; "<"; "|"; ">"]%string ++
     flat_map (fun s : bool => map (fun d => (((if s then "int" else "uint") ++ fst d)%string, (s, snd d)))
       [("8", 8); ("16", 16); ("32", 32); ("64", 64)]%string) [false; true])).
  { intros u c D. apply in_or_app. inversion D as [o s d y Ho Hd E1 E2|s d y Hd E1 E2]; subst; [left|right].
    - apply in_flat_map. exists o. split; auto. apply in_flat_map. exists s. split; [destruct s; simpl; auto|].
      apply in_map_iff. exists (d, y). auto.
    - apply in_flat_map. exists s. split; [destruct s; simpl; auto|]. apply in_map_iff. exists (d, y). auto. }
  intros Ha Hb. apply X in Ha. apply X in Hb. vm_compute in Ha, Hb.
  repeat (destruct Ha as [Ha|Ha]; [injection Ha as <- <-;
    repeat (destruct Hb as [Hb|Hb]; [try discriminate Hb; injection Hb as <-; reflexivity|]); contradiction|]).
  contradiction.
Qed.

(** The slices filled by read *)
Definition cell (m : list Z) (y p i : nat) : gmap -> Prop := fun g =>
  forall k, get g k = if ((k <? 0) || (Z.of_nat (y - 1) <=? k))%Z then None
                      else if Nat.ltb (p * y + Z.to_nat k) i then nth_error m (p * y + Z.to_nat k) else None.
Definition filled (m : list Z) (y n i : nat) (ul : list (option gmap) * list Z) : Prop :=
  length (fst ul) = n /\ length (snd ul) = n /\
  forall p, p < n ->
    (if Nat.ltb (p * y) i then exists g, nth_error (fst ul) p = Some (Some g) /\ cell m y p i g
     else nth_error (fst ul) p = Some None) /\
    nth_error (snd ul) p = if Nat.ltb (p * y + (y - 1)) i then nth_error m (p * y + (y - 1)) else Some 0%Z.

Lemma div_of y p j : j < y -> (p * y + j) / y = p.
Proof. intros H. rewrite Nat.div_add_l by lia. rewrite Nat.div_small by lia. lia. Qed.
Lemma mod_of y p j : j < y -> (p * y + j) mod y = j.
Proof. intros H. rewrite Nat.add_comm, Nat.mod_add by lia. apply Nat.mod_small; auto. Qed.
Lemma split_at y i : 0 < y -> exists p j, j < y /\ i = p * y + j.
Proof.
  intros H. exists (i / y), (i mod y). split; [apply Nat.mod_upper_bound; lia|]. rewrite Nat.mul_comm. apply Nat.div_mod. lia.
Qed.

Lemma blocks_lt y p q j : p < q -> j < y -> p * y + j < q * y.
Proof. nia. Qed.

Lemma placeStep_ok m y n p j v ul : j < y -> p < n -> nth_error m (p * y + j) = Some v -> filled m y n (p * y + j) ul ->
  exists ul', placeStep y (p * y + j) ul v = Ok ul' /\ filled m y n (S (p * y + j)) ul'.
Proof.
  intros Hj Hp Hv (F1 & F2 & F3). destruct ul as [u l]. cbn [fst snd] in *.
  unfold placeStep. destruct (Nat.eqb_spec y 0); [lia|]. rewrite div_of, mod_of by auto.
  destruct (F3 p Hp) as (Hu & Hl).
  assert (exists up, nth_error u p = Some up /\ cell m y p (p * y + j) match up with None => [] | Some g => g end) as (up & Eu & Hc).
  { destruct (Nat.ltb_spec (p * y) (p * y + j)).
    - destruct Hu as (g & Eg & Hg). eexists. split; [exact Eg|]. exact Hg.
    - eexists. split; [exact Hu|]. cbn. intros k. simpl. destruct (_ || _)%bool; auto.
      destruct (Nat.ltb_spec (p * y + Z.to_nat k) (p * y + j)); auto. lia. }
  unfold idx. rewrite Eu. cbn [bind]. set (g := match up with None => [] | Some g => g end) in *.
  assert (Hpl : p < length u) by lia.
  assert (Hll : p < length l) by lia.
  (* the other rows are not concerned *)
  assert (Other : forall q, q < n -> q <> p -> Nat.ltb (q * y) (S (p * y + j)) = Nat.ltb (q * y) (p * y + j) /\
            Nat.ltb (q * y + (y - 1)) (S (p * y + j)) = Nat.ltb (q * y + (y - 1)) (p * y + j) /\
            forall g', cell m y q (p * y + j) g' -> cell m y q (S (p * y + j)) g').
  { intros q Hq Hne. assert (Hcmp : q < p \/ p < q) by lia.
    assert (A : q < p -> q * y + y <= p * y) by nia. assert (B : p < q -> p * y + y <= q * y) by nia.
    split; [|split].
    - apply eq_true_iff_eq. rewrite !Nat.ltb_lt. lia.
    - apply eq_true_iff_eq. rewrite !Nat.ltb_lt. lia.
    - intros g' Hg' k. rewrite Hg'. destruct (Z.ltb_spec k 0); cbn [orb]; auto.
      destruct (Z.leb_spec (Z.of_nat (y - 1)) k); auto.
      assert (Z.to_nat k < y) by lia.
      replace (Nat.ltb (q * y + Z.to_nat k) (S (p * y + j))) with (Nat.ltb (q * y + Z.to_nat k) (p * y + j)); auto.
      apply eq_true_iff_eq. rewrite !Nat.ltb_lt. lia. }
  destruct (Nat.eqb_spec j (y - 1)) as [Ej|Ej].
  - destruct (nth_error l p) as [l0|] eqn:El; [|apply nth_error_None in El; lia]. cbn [bind].
    eexists. split; [reflexivity|]. unfold filled; cbn [fst snd]. rewrite !set_nth_length. split; auto. split; auto.
    intros q Hq. destruct (Nat.eq_dec q p) as [->|Hne].
    + rewrite !nth_error_set_nth_same by auto. destruct (Nat.ltb_spec (p * y) (S (p * y + j))); [|lia].
      destruct (Nat.ltb_spec (p * y + (y - 1)) (S (p * y + j))); [|lia]. rewrite <- Ej, Hv. split; auto.
      exists g. split; auto. intros k. rewrite Hc. destruct (Z.ltb_spec k 0); cbn [orb]; auto.
      destruct (Z.leb_spec (Z.of_nat (y - 1)) k); auto.
      destruct (Nat.ltb_spec (p * y + Z.to_nat k) (p * y + j)); [|lia].
      destruct (Nat.ltb_spec (p * y + Z.to_nat k) (S (p * y + j))); [|lia]. auto.
    + destruct (Other q Hq Hne) as (O1 & O2 & O3). rewrite !nth_error_set_nth_diff by auto. rewrite O1, O2.
      destruct (F3 q Hq) as (A & B). split; auto. destruct (Nat.ltb (q * y) (p * y + j)); auto.
      destruct A as (g' & A1 & A2). exists g'. auto.
  - eexists. split; [reflexivity|]. unfold filled; cbn [fst snd]. rewrite !set_nth_length. split; auto. split; auto.
    intros q Hq. destruct (Nat.eq_dec q p) as [->|Hne].
    + rewrite nth_error_set_nth_same by (rewrite set_nth_length; auto).
      destruct (Nat.ltb_spec (p * y) (S (p * y + j))); [|lia].
      destruct (Nat.ltb_spec (p * y + (y - 1)) (S (p * y + j))); [lia|].
      destruct (Nat.ltb_spec (p * y + (y - 1)) (p * y + j)); [lia|]. split; auto.
      eexists. split; [reflexivity|]. intros k. rewrite get_put, Hc.
      destruct (Z.eqb_spec (Z.of_nat j) k) as [<-|Hk].
      * destruct (Z.ltb_spec (Z.of_nat j) 0); [lia|]. destruct (Z.leb_spec (Z.of_nat (y - 1)) (Z.of_nat j)); [lia|]. cbn [orb].
        rewrite Nat2Z.id. destruct (Nat.ltb_spec (p * y + j) (S (p * y + j))); [|lia]. auto.
      * destruct (Z.ltb_spec k 0); cbn [orb]; auto. destruct (Z.leb_spec (Z.of_nat (y - 1)) k); auto.
        replace (Nat.ltb (p * y + Z.to_nat k) (S (p * y + j))) with (Nat.ltb (p * y + Z.to_nat k) (p * y + j)); auto.
        apply eq_true_iff_eq. rewrite !Nat.ltb_lt. lia.
    + destruct (Other q Hq Hne) as (O1 & O2 & O3). rewrite !nth_error_set_nth_diff by auto. rewrite O1, O2.
      destruct (F3 q Hq) as (A & B). split; auto. destruct (Nat.ltb (q * y) (p * y + j)); auto.
      destruct A as (g' & A1 & A2). exists g'. auto.
Qed.

Lemma place_from m y n : 0 < y -> length m <= n * y -> forall b a ul, m = a ++ b -> filled m y n (length a) ul ->
  exists ul', foldi_from (length a) (placeStep y) b ul = Ok ul' /\ filled m y n (length m) ul'.
Proof.
  intros Hy Hm. induction b as [|v b IH]; intros a ul E F; cbn [foldi_from].
  - rewrite app_nil_r in E. subst a. eauto.
  - destruct (split_at y (length a) Hy) as (p & j & Hj & Ep).
    assert (Hp : p < n). { rewrite E, app_length in Hm. cbn in Hm. nia. }
    assert (Hv : nth_error m (length a) = Some v).
    { rewrite E, nth_error_app2, Nat.sub_diag by lia. auto. }
    rewrite Ep in Hv, F |- *.
    destruct (placeStep_ok m y n p j v ul Hj Hp Hv F) as (ul' & -> & F'). cbn [bind].
    destruct (IH (a ++ [v]) ul') as (ul2 & E2 & F2).
    + rewrite <- app_assoc. auto.
    + rewrite app_length, Ep. cbn [length]. rewrite Nat.add_1_r. auto.
    + exists ul2. split; auto. rewrite app_length, Ep in E2. auto.
Qed.

Lemma filled_start m y n : filled m y n 0 (repeat None n, repeat 0%Z n).
Proof.
  unfold filled. cbn [fst snd]. rewrite !repeat_length. split; auto. split; auto. intros p Hp. cbn.
  rewrite !nth_error_repeat by auto. auto.
Qed.

Lemma place_fill y n m : 0 < y -> length m <= n * y -> exists ul, place y n m = Ok ul /\ filled m y n (length m) ul.
Proof. intros Hy Hm. apply (place_from m y n Hy Hm m []); auto. apply filled_start. Qed.

(** More values than asked for: index out of range. *)
Lemma place_over y n m : n * y < length m -> place y n m = Panic.
Proof.
  intros H. destruct (Nat.eq_dec y 0) as [->|Hy].
  { rewrite Nat.mul_0_r in H. destruct m; [simpl in H; lia|]. reflexivity. }
  assert (Hm : m = firstn (n * y) m ++ skipn (n * y) m) by (symmetry; apply firstn_skipn).
  destruct (skipn (n * y) m) as [|v b] eqn:Eb.
  { rewrite app_nil_r in Hm. rewrite Hm in H. rewrite firstn_length in H. lia. }
  assert (X : forall a b s i, foldi_from i (placeStep y) (a ++ b) s = (s' <- foldi_from i (placeStep y) a s; foldi_from (i + length a) (placeStep y) b s')).
  { clear. induction a as [|x a IH]; intros b s i; cbn [app foldi_from length bind].
    - rewrite Nat.add_0_r. auto.
    - destruct (placeStep y i s x); cbn [bind]; auto. rewrite IH. f_equal. replace (i + S (length a)) with (i + 1 + length a) by lia. auto. }
  unfold place, foldi. rewrite Hm, X.
  assert (Hl : length (firstn (n * y) m) = n * y) by (rewrite firstn_length; lia).
  destruct (place_fill y n (firstn (n * y) m)) as (ul & E & F1 & F2 & _); [lia|lia|].
  unfold place, foldi in E. rewrite E. cbn [bind]. rewrite Hl. cbn [Nat.add foldi_from]. destruct ul as [u l]. unfold placeStep.
  destruct (Nat.eqb_spec y 0); [lia|]. rewrite Nat.div_mul by lia. cbn [fst] in F1. unfold idx.
  destruct (nth_error u n) eqn:E2; auto. assert (n < length u) by (apply nth_error_Some; congruence). lia.
Qed.

(** Rows of the same length *)
Definition uniform (y : nat) (T : list (list Z)) : Prop := forall r, In r T -> length r = y.

Lemma uniform_concat y T : uniform y T -> length (concat T) = length T * y.
Proof.
  induction T as [|r T IH]; intros H; simpl; auto. rewrite app_length, IH, (H r); simpl; auto.
  intros r' H'. apply H. right; auto.
Qed.

Lemma uniform_nth y : forall T p j r, uniform y T -> nth_error T p = Some r -> j < y -> nth_error (concat T) (p * y + j) = nth_error r j.
Proof.
  induction T as [|a T IH]; intros [|p] j r H E Hj; try discriminate; simpl in E |- *.
  - injection E as ->. rewrite nth_error_app1; auto. rewrite (H r); simpl; auto.
  - assert (La : length a = y) by (apply H; left; auto).
    rewrite nth_error_app2 by lia. replace (y + p * y + j - length a) with (p * y + j) by lia.
    apply IH; auto. intros r' H'. apply H. right; auto.
Qed.

Lemma uniform_skipn y p T : uniform y T -> uniform y (skipn p T).
Proof. intros H r Hr. apply H. rewrite <- (firstn_skipn p T). apply in_or_app. auto. Qed.
Lemma uniform_firstn y p T : uniform y T -> uniform y (firstn p T).
Proof. intros H r Hr. apply H. rewrite <- (firstn_skipn p T). apply in_or_app. auto. Qed.

Lemma skipn_concat y : forall p T, uniform y T -> skipn (p * y) (concat T) = concat (skipn p T).
Proof.
  induction p as [|p IH]; intros T H; auto. destruct T as [|r T]; [rewrite !skipn_nil; auto|].
  cbn [skipn concat]. assert (Lr : length r = y) by (apply H; left; auto).
  replace (S p * y) with (length r + p * y) by (simpl; lia).
  rewrite skipn_app, skipn_all2 by lia. cbn [app]. replace (length r + p * y - length r) with (p * y) by lia.
  apply IH. intros r' H'. apply H. right; auto.
Qed.
Lemma firstn_concat y : forall p T, uniform y T -> firstn (p * y) (concat T) = concat (firstn p T).
Proof.
  induction p as [|p IH]; intros T H; auto. destruct T as [|r T]; [rewrite !firstn_nil; auto|].
  cbn [firstn concat]. assert (Lr : length r = y) by (apply H; left; auto).
  replace (S p * y) with (length r + p * y) by (simpl; lia).
  rewrite firstn_app, firstn_all2 by lia. f_equal. replace (length r + p * y - length r) with (p * y) by lia.
  apply IH. intros r' H'. apply H. right; auto.
Qed.

Lemma f2_nth {A B} (P : A -> B -> Prop) : forall a b, length a = length b ->
  (forall i x y, nth_error a i = Some x -> nth_error b i = Some y -> P x y) -> Forall2 P a b.
Proof.
  induction a as [|x a IH]; intros [|y b] H K; simpl in H; try discriminate; constructor.
  - apply (K 0); auto.
  - apply IH; [lia|]. intros i. apply (K (S i)).
Qed.

Lemma nth_combine {A B} : forall (a : list A) (b : list B) i x y, nth_error (combine a b) i = Some (x, y) -> nth_error a i = Some x /\ nth_error b i = Some y.
Proof.
  induction a as [|a0 a IH]; intros [|b0 b] [|i] x y E; simpl in E; try discriminate.
  - injection E as <- <-. auto.
  - apply (IH b i x y E).
Qed.

Lemma somes {A} : forall (u : list (option A)), (forall i, i < length u -> exists g, nth_error u i = Some (Some g)) ->
  exists ms, u = map Some ms.
Proof.
  induction u as [|o u IH]; intros H; [exists []; auto|].
  destruct (H 0) as (g & Eg); [simpl; lia|]. simpl in Eg. injection Eg as ->.
  destruct IH as (ms & ->). { intros i Hi. apply (H (S i)). simpl. lia. }
  exists (g :: ms). auto.
Qed.

Lemma row_last (r : list Z) y : length r = S y -> exists a l, r = a ++ [l] /\ length a = y /\ nth_error r y = Some l /\ a = firstn y r.
Proof.
  intros H. destruct (exists_last (l := r)) as (a & l & ->); [destruct r; discriminate|].
  rewrite app_length in H. simpl in H. exists a, l. split; auto. split; [lia|]. split.
  - rewrite nth_error_app2 by lia. replace (y - length a) with 0 by lia. auto.
  - rewrite firstn_app. replace (y - length a) with 0 by lia. rewrite firstn_all2 by lia. rewrite firstn_O, app_nil_r. auto.
Qed.

Lemma place_rows y T : 0 < y -> uniform y T -> exists u l, place y (length T) (concat T) = Ok (u, l) /\ answers T (RData u l).
Proof.
  intros Hy H. pose proof (uniform_concat y T H) as Hl.
  destruct (place_fill y (length T) (concat T)) as ((u & l) & E & F1 & F2 & F3); [auto|lia|].
  exists u, l. split; auto. cbn [fst snd] in *. rewrite Hl in F3.
  assert (A : forall p, p < length T -> exists r g v, nth_error T p = Some r /\ nth_error u p = Some (Some g) /\ nth_error l p = Some v /\ row_is r (g, v)).
  { intros p Hp. destruct (nth_error T p) as [r|] eqn:Er; [|apply nth_error_None in Er; lia].
    assert (Lr : length r = y) by (apply H; eapply nth_error_In; eauto).
    destruct (F3 p Hp) as (Hu & Hv).
    assert (p * y + y <= length T * y) by nia.
    destruct (Nat.ltb_spec (p * y) (length T * y)); [|lia]. destruct (Nat.ltb_spec (p * y + (y - 1)) (length T * y)); [|lia].
    destruct Hu as (g & Eg & Hg). rewrite (uniform_nth y T p (y - 1) r) in Hv by (auto; lia).
    destruct (row_last r (y - 1)) as (a & v & Ea & La & Ev & Ef); [lia|]. rewrite Ev in Hv.
    exists r, g, v. repeat (split; auto). exists a. cbn [fst snd]. split; auto.
    intros k. rewrite Hg. destruct (Z.ltb_spec k 0); cbn [orb]; auto.
    destruct (Z.leb_spec (Z.of_nat (y - 1)) k).
    - symmetry. apply nth_error_None. lia.
    - destruct (Nat.ltb_spec (p * y + Z.to_nat k) (length T * y)); [|lia].
      rewrite (uniform_nth y T p (Z.to_nat k) r) by (auto; lia). rewrite Ea. apply nth_error_app1. lia. }
  destruct (somes u) as (ms & ->).
  { rewrite F1. intros i Hi. destruct (A i Hi) as (r & g & v & _ & B & _). eauto. }
  exists ms, l. rewrite map_length in F1. split; auto. split; [lia|]. apply f2_nth; [rewrite combine_length; lia|].
  intros i r (g & v) Er Eg. apply nth_combine in Eg as (E1 & E2).
  assert (Hi : i < length T) by (apply nth_error_Some; congruence).
  destruct (A i Hi) as (r' & g' & v' & B1 & B2 & B3 & B4).
  rewrite nth_error_map, E1 in B2. cbn in B2. injection B2 as <-. congruence.
Qed.

(** Balanced reading *)
Lemma row_fields y row l a : row = a ++ [l] -> length a = y -> rowFields (S y) row = rowMap row.
Proof.
  intros -> H. unfold rowFields, rowMap. rewrite app_length. cbn [length]. rewrite removelast_last.
  replace (S y - 1) with (length a) by lia. replace (length a + 1 - 1) with (length a) by lia.
  rewrite firstn_app, Nat.sub_diag, firstn_O, app_nil_r, firstn_all. auto.
Qed.

Section Lib.
Context {St : Type} (rd : St -> nat -> St * option (list Z)) (reopen : St -> St * bool).
Variables (T : list (list Z)) (y : nat) (at_ : nat -> St).
Hypothesis Hlib : library rd reopen (concat T) at_.
Hypothesis HT : uniform (S y) T.

Lemma rd_rows p n : p + n <= length T ->
  rd (at_ (p * S y)) (n * S y) = (at_ ((p + n) * S y), Some (concat (firstn n (skipn p T)))).
Proof.
  intros H. pose proof (uniform_concat _ _ HT) as Hl. rewrite (lib_read _ _ _ _ Hlib) by nia.
  rewrite (skipn_concat _ _ _ HT), (firstn_concat (S y)) by (apply uniform_skipn; auto).
  f_equal. f_equal. lia.
Qed.

Lemma rd_past p n : length T < p + n -> exists s', rd (at_ (p * S y)) (n * S y) = (s', None).
Proof.
  intros H. pose proof (uniform_concat _ _ HT) as Hl. pose proof (lib_end _ _ _ _ Hlib (p * S y) (n * S y)) as K.
  destruct (rd _ _) as (s' & r). cbn in K. rewrite K by nia. eauto.
Qed.

Lemma skipn_nth {A} : forall p (l : list A), p < length l -> exists x, nth_error l p = Some x /\ skipn p l = x :: skipn (S p) l.
Proof.
  induction p as [|p IH]; intros [|x l] H; simpl in H; try lia.
  - exists x. auto.
  - destruct (IH l) as (z & A1 & A2); [lia|]. exists z. auto.
Qed.

Lemma rd_row p : p < length T -> exists row, nth_error T p = Some row /\ length row = S y /\ skipn p T = row :: skipn (S p) T /\
  rd (at_ (p * S y)) (S y) = (at_ (S p * S y), Some row).
Proof.
  intros H. destruct (skipn_nth p T H) as (row & E1 & E2). exists row. split; auto.
  assert (Lr : length row = S y) by (apply HT; eapply nth_error_In; eauto). split; auto. split; auto.
  pose proof (rd_rows p 1 ltac:(lia)) as K. rewrite Nat.mul_1_l in K. rewrite K, E2. cbn [firstn concat]. rewrite app_nil_r.
  rewrite Nat.add_1_r. auto.
Qed.

Lemma bal_some : forall fuel p k C s' D, p <= length T -> balLoop St rd (S y) fuel (at_ (p * S y)) k C = Ok (s', Some D) ->
  exists q, p <= q <= length T /\ s' = at_ (q * S y) /\ readLoop (firstn (q - p) (skipn p T)) k C = Ok (Some D) /\
    exists rs, picked rs (firstn (q - p) (skipn p T)) /\ Forall2 row_is rs D.
Proof.
  induction fuel as [|fuel IH]; intros p k C s' D Hp E; destruct k as [|k]; cbn [balLoop] in E; try discriminate.
  - injection E as <- <-. exists p. rewrite Nat.sub_diag. split; [lia|]. split; auto. split; auto. exists []. split; constructor.
  - injection E as <- <-. exists p. rewrite Nat.sub_diag. split; [lia|]. split; auto. split; auto. exists []. split; constructor.
  - destruct (Nat.eq_dec p (length T)) as [->|Hne].
    { destruct (rd_past (length T) 1) as (s1 & K); [lia|]. rewrite Nat.mul_1_l in K. rewrite K in E. discriminate. }
    destruct (rd_row p ltac:(lia)) as (row & E1 & Lr & E2 & E3). rewrite E3 in E.
    change (Nat.eqb (S y) 0) with false in E. cbn iota in E. replace (S y - 1) with y in E by lia.
    destruct (row_last row y Lr) as (a & l & Ea & La & El & _). unfold idx in E at 1. rewrite El in E. cbn [bind] in E.
    destruct (idxZ C l) as [cl| |] eqn:Ec; cbn [bind] in E; try discriminate.
    assert (Hlab : rowLabel row = Ok l). { unfold rowLabel. rewrite Ea, rev_unit. auto. }
    destruct cl as [|cl].
    + destruct (IH (S p) (S k) C s' D ltac:(lia) E) as (q & Hq & Hs & Hr & rs & P1 & P2).
      exists q. split; [lia|]. split; auto. rewrite E2. replace (q - p) with (S (q - S p)) by lia. cbn [firstn readLoop].
      rewrite Hlab. cbn [bind]. rewrite Ec. cbn [bind]. split; [exact Hr|]. exists rs. split; auto. constructor; auto.
      intros ->. inversion P2; subst. cbn [readLoop] in Hr.
      assert (X : forall b k C, readLoop b (S k) C <> Ok (Some [])).
      { clear. induction b as [|r b IH]; intros k C; cbn [readLoop]; [discriminate|].
        destruct (rowLabel r); cbn [bind]; try discriminate. destruct (idxZ C a) as [[|c]| |]; cbn [bind]; try discriminate; auto.
        destruct (readLoop b k _) as [[D|]| |]; cbn [bind]; discriminate. }
      apply (X _ _ _ Hr).
    + destruct (balLoop St rd (S y) fuel (at_ (S p * S y)) k (set_nth (Z.to_nat l) cl C)) as [(s2 & D2)| |] eqn:Eb; cbn [bind] in E; try discriminate.
      cbn [fst snd] in E. destruct D2 as [D2|]; [|discriminate]. injection E as <- <-.
      destruct (IH (S p) k _ s2 D2 ltac:(lia) Eb) as (q & Hq & Hs & Hr & rs & P1 & P2).
      exists q. split; [lia|]. split; auto. rewrite E2. replace (q - p) with (S (q - S p)) by lia. cbn [firstn readLoop].
      rewrite Hlab. cbn [bind]. rewrite Ec. cbn [bind]. rewrite Hr. cbn [bind]. rewrite (row_fields y row l a) by auto.
      split; auto. exists (row :: rs). split; [apply picked_take; auto|]. constructor; auto. rewrite Ea. apply rowMap_ok.
Qed.

Lemma bal_none : forall fuel p k C s', p <= length T -> balLoop St rd (S y) fuel (at_ (p * S y)) k C = Ok (s', None) ->
  readLoop (skipn p T) k C = Ok None.
Proof.
  induction fuel as [|fuel IH]; intros p k C s' Hp E; destruct k as [|k]; cbn [balLoop] in E; try discriminate.
  destruct (Nat.eq_dec p (length T)) as [->|Hne].
  { rewrite skipn_all. reflexivity. }
  destruct (rd_row p ltac:(lia)) as (row & E1 & Lr & E2 & E3). rewrite E3 in E.
  change (Nat.eqb (S y) 0) with false in E. cbn iota in E. replace (S y - 1) with y in E by lia.
  destruct (row_last row y Lr) as (a & l & Ea & La & El & _). unfold idx in E at 1. rewrite El in E. cbn [bind] in E.
  destruct (idxZ C l) as [cl| |] eqn:Ec; cbn [bind] in E; try discriminate.
  assert (Hlab : rowLabel row = Ok l). { unfold rowLabel. rewrite Ea, rev_unit. auto. }
  rewrite E2. cbn [readLoop]. rewrite Hlab. cbn [bind]. rewrite Ec. cbn [bind]. destruct cl as [|cl].
  - apply (IH (S p) (S k) C s'); auto. lia.
  - destruct (balLoop St rd (S y) fuel (at_ (S p * S y)) k (set_nth (Z.to_nat l) cl C)) as [(s2 & D2)| |] eqn:Eb; cbn [bind] in E; try discriminate.
    cbn [fst snd] in E. destruct D2 as [D2|]; [discriminate|]. rewrite (IH (S p) k _ s2); auto. lia.
Qed.

Lemma answers_data rs D : Forall2 row_is rs D -> answers rs (RData (map (fun e => Some (fst e)) D) (map snd D)).
Proof.
  intros H. exists (map fst D), (map snd D). rewrite map_map, !map_length. split; auto. split; auto.
  assert (X : combine (map fst D) (map snd D) = D).
  { clear. induction D as [|(a & b) D IH]; simpl; congruence. }
  rewrite X. auto.
Qed.

Lemma labelled_data rs D l : Forall2 row_is rs D -> labelled rs l = count_occ Z.eq_dec (map snd D) l.
Proof.
  induction 1 as [|r (g & v) rs D (a & -> & _) H IH]; auto. cbn [map snd] in *. rewrite labelled_cons, last_last, IH.
  cbn [count_occ]. destruct (Z.eqb_spec v l); destruct (Z.eq_dec v l); congruence || auto.
Qed.

Lemma f2_same {A B} (P : A -> B -> Prop) a b : Forall2 P a b -> length a = length b.
Proof. induction 1; simpl; auto. Qed.

Lemma session_l fuel : forall os s s' rs P,
  match P with Some p => s = at_ (p * S y) /\ p <= length T | None => True end ->
  npyRun St rd reopen (length T) (S y) fuel s os = Ok (s', rs) -> session T P os rs.
Proof.
  induction os as [|o os IH]; intros s s' rs P HP E; cbn [npyRun] in E.
  { injection E as <- <-. constructor. }
  destruct (npyStep St rd reopen (length T) (S y) fuel s o) as [(s1 & r)| |] eqn:E1; cbn [bind fst snd] in E; try discriminate.
  destruct (npyRun St rd reopen (length T) (S y) fuel s1 os) as [(s2 & rs2)| |] eqn:E2; cbn [bind fst snd] in E; try discriminate.
  injection E as <- <-.
  destruct o as [n| |n c|]; cbn [npyStep] in E1.
  4:{ rewrite (lib_open _ _ _ _ Hlib) in E1. injection E1 as <- <-. constructor. eapply IH; [|exact E2]. cbn. split; auto. lia. }
  all: destruct P as [p|]; [destruct HP as [Es Hp]; subst s|apply ses_lost; [discriminate|]; eapply IH; [|exact E2]; exact Logic.I].
  1,2: unfold npyRead in E1;
    match type of E1 with context [rd _ (?k * _)] => set (w := k) in * end;
    (destruct (le_lt_dec (p + w) (length T)) as [Hle|Hgt];
      [rewrite (rd_rows p w Hle) in E1|
       destruct (rd_past p w Hgt) as (s3 & K); rewrite K in E1; injection E1 as <- <-;
       eapply (ses_end T p w); [first [left; reflexivity|right; split; reflexivity]|auto|eapply IH; [|exact E2]; exact Logic.I]]);
    (assert (Lf : length (firstn w (skipn p T)) = w) by (rewrite firstn_length, skipn_length; lia));
    (destruct (place_rows (S y) (firstn w (skipn p T))) as (u & l & Epl & Ha);
      [lia|apply uniform_firstn, uniform_skipn; auto|]);
    rewrite Lf in Epl; rewrite Epl in E1; cbn [bind fst snd] in E1; injection E1 as <- <-;
    (eapply (ses_read T p w); [first [left; reflexivity|right; split; reflexivity]|auto|exact Ha|eapply IH; [|exact E2]; cbn; auto]).
  unfold npyBalanced in E1. destruct c as [|c]; [discriminate|].
  destruct (newCounts_l n (S c) ltac:(lia)) as (quota & Eq & (Q1 & Q2 & Q3) & Q4). rewrite Eq in E1. cbn [bind] in E1.
  destruct (balLoop St rd (S y) fuel (at_ (p * S y)) n quota) as [(s3 & [D|])| |] eqn:Eb; cbn [bind fst snd] in E1; try discriminate;
    injection E1 as <- <-.
  - destruct (bal_some _ _ _ _ _ _ Hp Eb) as (q & Hq & -> & Hr & rs & P1 & P2).
    destruct (readLoop_ok _ _ _ _ Q2 Hr) as (R1 & R2 & R3 & _).
    eapply (ses_balanced T p q n (S c) rs quota); auto.
    + apply answers_data. auto.
    + rewrite (f2_same _ _ _ P2). auto.
    + split; auto.
    + intros i x Hi. rewrite (labelled_data _ _ _ P2). apply R2. auto.
    + eapply IH; [|exact E2]. cbn. split; auto. lia.
  - apply ses_lacking; [|eapply IH; [|exact E2]; exact Logic.I].
    intros (H1 & H2). apply bal_none in Eb; auto.
    destruct (readLoop_total (skipn p T) n quota Q2) as (D & K).
    + intros r Hr. split; [|rewrite Q1; auto]. intros ->. apply (uniform_skipn (S y) p T HT) in Hr. discriminate.
    + intros i x Hi. apply (Q4 i x Hi). apply H2. rewrite <- Q1. apply nth_error_Some. congruence.
    + congruence.
Qed.

Lemma pieces_l fuel : forall ns p, p + list_sum ns <= length T ->
  exists rs parts, npyRun St rd reopen (length T) (S y) fuel (at_ (p * S y)) (map ORead ns) = Ok (at_ ((p + list_sum ns) * S y), rs) /\
    concat parts = firstn (list_sum ns) (skipn p T) /\ Forall2 (fun n part => length part = n) ns parts /\ Forall2 answers parts rs.
Proof.
  induction ns as [|n ns IH]; intros p H.
  - exists [], []. cbn. rewrite Nat.add_0_r. repeat split; constructor.
  - change (list_sum (n :: ns)) with (n + list_sum ns) in *.
    cbn [map npyRun npyStep]. unfold npyRead. rewrite (rd_rows p n) by lia.
    assert (Lf : length (firstn n (skipn p T)) = n) by (rewrite firstn_length, skipn_length; lia).
    destruct (place_rows (S y) (firstn n (skipn p T))) as (u & l & Epl & Ha); [lia|apply uniform_firstn, uniform_skipn; auto|].
    rewrite Lf in Epl. rewrite Epl. cbn [bind fst snd].
    destruct (IH (p + n)) as (rs & parts & E & C & F1 & F2); [lia|]. rewrite E. cbn [bind fst snd].
    exists (RData u l :: rs), (firstn n (skipn p T) :: parts). split.
    { f_equal. f_equal. f_equal. f_equal. lia. }
    split; [|split; constructor; auto]. cbn [concat]. rewrite C.
    rewrite <- (firstn_skipn n (firstn (n + list_sum ns) (skipn p T))). f_equal.
    + rewrite firstn_firstn. f_equal. lia.
    + rewrite skipn_firstn_comm. replace (n + list_sum ns - n) with (list_sum ns) by lia. f_equal.
      clear. revert p T. intros p. induction p as [|p IHp]; intros [|x T]; cbn [skipn Nat.add]; rewrite ?skipn_nil; auto.
Qed.

Lemma bal_run : forall fuel p k C D, p <= length T -> length T - p < fuel -> readLoop (skipn p T) k C = Ok (Some D) ->
  exists q, q <= length T /\ balLoop St rd (S y) fuel (at_ (p * S y)) k C = Ok (at_ (q * S y), Some D).
Proof.
  induction fuel as [|fuel IH]; intros p k C D Hp Hf E; [lia|].
  destruct k as [|k]; [exists p; destruct (skipn p T); cbn in E; injection E as <-; auto|]. cbn [balLoop].
  destruct (Nat.eq_dec p (length T)) as [->|Hne].
  { rewrite skipn_all in E. discriminate. }
  destruct (rd_row p ltac:(lia)) as (row & E1 & Lr & E2 & E3). rewrite E3. rewrite E2 in E. cbn [readLoop] in E.
  change (Nat.eqb (S y) 0) with false. cbn iota. replace (S y - 1) with y by lia.
  destruct (row_last row y Lr) as (a & l & Ea & La & El & _). unfold idx at 1. rewrite El. cbn [bind].
  assert (Hlab : rowLabel row = Ok l). { unfold rowLabel. rewrite Ea, rev_unit. auto. }
  rewrite Hlab in E. cbn [bind] in E.
  destruct (idxZ C l) as [cl| |] eqn:Ec; cbn [bind] in E |- *; try discriminate.
  destruct cl as [|cl]; [apply IH; auto; lia|].
  destruct (readLoop (skipn (S p) T) k (set_nth (Z.to_nat l) cl C)) as [[D2|]| |] eqn:Er; cbn [bind] in E; try discriminate.
  injection E as <-. destruct (IH (S p) k _ D2 ltac:(lia) ltac:(lia) Er) as (q & Hq & ->). exists q. cbn [bind fst snd].
  rewrite (row_fields y row l a) by auto. auto.
Qed.

Lemma balanced_l fuel p n c : p <= length T -> length T - p < fuel -> 0 < c -> enough (skipn p T) n c ->
  exists q u l, q <= length T /\ npyBalanced St rd (S y) fuel (at_ (p * S y)) n c = Ok (at_ (q * S y), RData u l) /\
    length u = n /\ length l = n.
Proof.
  intros Hp Hf Hc (H1 & H2). unfold npyBalanced.
  destruct (newCounts_l n c Hc) as (quota & Eq & (Q1 & Q2 & Q3) & Q4). rewrite Eq. cbn [bind].
  destruct (readLoop_total (skipn p T) n quota Q2) as (D & K).
  - intros r Hr. split; [|rewrite Q1; auto]. intros ->. apply (uniform_skipn (S y) p T HT) in Hr. discriminate.
  - intros i x Hi. apply (Q4 i x Hi). apply H2. rewrite <- Q1. apply nth_error_Some. congruence.
  - destruct (bal_run fuel p n quota D Hp Hf K) as (q & Hq & ->). cbn [bind fst snd]. eexists q, _, _. split; [auto|]. split; [reflexivity|].
    rewrite !map_length. destruct (readLoop_ok _ _ _ _ Q2 K) as (R1 & _). auto.
Qed.
End Lib.

(** Whatever the library does. *)
Lemma read_any_l {St} (rd : St -> nat -> St * option (list Z)) cols s n s' m :
  rd s (n * cols) = (s', Some m) ->
  (length m = n * cols -> exists u l, npyRead St rd cols s n = Ok (s', RData u l) /\ length u = n /\ length l = n) /\
  (n * cols < length m -> npyRead St rd cols s n = Panic).
Proof.
  intros E. unfold npyRead. rewrite E. split; intros H.
  - destruct (Nat.eq_dec cols 0) as [->|Hc].
    + rewrite Nat.mul_0_r in H. destruct m; [|discriminate]. cbn. eexists _, _. rewrite !repeat_length. auto.
    + destruct (place_fill cols n m) as ((u & l) & -> & F1 & F2 & _); [lia|lia|]. cbn. eauto.
  - rewrite place_over; auto.
Qed.

Lemma isValid_miss_l : exists t ty, denotes t ty /\ isValid t = None.
Proof.
  exists ">u1"%string, (false, 8). split; [|reflexivity]. apply (short_name ">" false "1" 1); cbn; tauto.
Qed.

Lemma npy_session_l St (rd : St -> nat -> St * option (list Z)) reopen (T : list (list Z)) y at_ :
  library rd reopen (concat T) at_ -> (forall r, In r T -> length r = S y) ->
  forall fuel os s rs, npyRun St rd reopen (length T) (S y) fuel (at_ 0) os = Ok (s, rs) -> session T (Some 0) os rs.
Proof.
  intros H1 H2 fuel os s rs E. eapply (session_l rd reopen T y at_ H1 H2); [|exact E]. cbn. split; auto. lia.
Qed.

Lemma npy_pieces_l St (rd : St -> nat -> St * option (list Z)) reopen (T : list (list Z)) y at_ :
  library rd reopen (concat T) at_ -> (forall r, In r T -> length r = S y) ->
  forall fuel ns, list_sum ns <= length T ->
  exists s rs parts, npyRun St rd reopen (length T) (S y) fuel (at_ 0) (map ORead ns) = Ok (s, rs) /\
    concat parts = firstn (list_sum ns) T /\ Forall2 (fun n part => length part = n) ns parts /\ Forall2 answers parts rs.
Proof.
  intros H1 H2 fuel ns H. destruct (pieces_l rd reopen T y at_ H1 H2 fuel ns 0 H) as (rs & parts & E).
  exists (at_ ((0 + list_sum ns) * S y)), rs, parts. exact E.
Qed.

Lemma npy_balanced_l St (rd : St -> nat -> St * option (list Z)) reopen (T : list (list Z)) y at_ :
  library rd reopen (concat T) at_ -> (forall r, In r T -> length r = S y) ->
  forall fuel p n c, p <= length T -> length T - p < fuel -> 0 < c -> enough (skipn p T) n c ->
  exists q u l, q <= length T /\ npyBalanced St rd (S y) fuel (at_ (p * S y)) n c = Ok (at_ (q * S y), RData u l) /\
    length u = n /\ length l = n.
Proof. intros H1 H2. exact (balanced_l rd reopen T y at_ H1 H2). Qed.

(** A file for the examples. *)
Definition fileRows : list (list Z) := [[1; 2; 0]; [3; 4; 0]; [5; 6; 1]; [7; 8; 1]]%Z.
Definition fileRead (p k : nat) : nat * option (list Z) :=
  if Nat.leb (p + k) (length (concat fileRows)) then (p + k, Some (firstn k (skipn p (concat fileRows)))) else (p, None).
Definition fileReopen (p : nat) : nat * bool := (0, true).
Lemma fileLib : library fileRead fileReopen (concat fileRows) (fun p => p).
Proof.
  split; auto; intros p k H; unfold fileRead.
  - destruct (Nat.leb_spec (p + k) (length (concat fileRows))); [auto|lia].
  - destruct (Nat.leb_spec (p + k) (length (concat fileRows))); [lia|auto].
Qed.
