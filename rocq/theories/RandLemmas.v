(** The shared generator. *)
From Verif Require Import Base Res Rand RandSpec.
Local Open Scope nat_scope.

Section Lemmas.
Variables G O V : Type.
Variable src : Z -> G.
Variable step : O -> G -> V * G.
Local Notation op := (op O). Local Notation config := (config G O V). Local Notation entry := (nat * op * option V)%type.
Local Notation tick := (tick G O V src step). Local Notation runs := (runs G O V src step).

Definition gen_of (g : G) (h : list entry) : G :=
  fold_left (fun g e => match snd (fst e) with Refresh _ s => src s | Draw _ o => snd (step o g) end) h g.
Arguments gen_of : simpl never.
Arguments own : simpl never.
Arguments calls : simpl never.
Arguments drawn : simpl never.
Arguments given : simpl never.
Fixpoint good_from (g : G) (h : list entry) : Prop :=
  match h with
  | [] => True
  | (_, Refresh _ s, r) :: l => r = None /\ good_from (src s) l
  | (_, Draw _ o, r) :: l => r = Some (fst (step o g)) /\ good_from (snd (step o g)) l
  end.

Lemma gen_app a b : forall g, gen_of g (a ++ b) = gen_of (gen_of g a) b.
Proof. intros g. unfold gen_of. apply fold_left_app. Qed.
Lemma good_app a b : forall g, good_from g (a ++ b) <-> good_from g a /\ good_from (gen_of g a) b.
Proof.
  induction a as [|[[t [s|o]] r] a IH]; intros g; cbn; [tauto| |]; rewrite IH; unfold gen_of; cbn; tauto.
Qed.

Definition crit (p : phase G V) : Prop := match p with Held _ _ | Seen _ _ _ | Wrote _ _ _ => True | _ => False end.
Definition pending (th : thread G O V) : list op := match ph _ _ _ th with Wrote _ _ _ | Left _ _ _ => tl (todo _ _ _ th) | _ => todo _ _ _ th end.
Definition held (p : phase G V) : list V := match p with Wrote _ _ (Some v) | Left _ _ (Some v) => [v] | _ => [] end.
Definition shaped (th : thread G O V) : Prop :=
  match ph _ _ _ th with
  | Idle _ _ => True
  | Held _ _ => todo _ _ _ th <> []
  | Seen _ _ _ => exists o l, todo _ _ _ th = Draw _ o :: l
  | Wrote _ _ None | Left _ _ None => exists s l, todo _ _ _ th = Refresh _ s :: l
  | Wrote _ _ (Some _) | Left _ _ (Some _) => exists o l, todo _ _ _ th = Draw _ o :: l
  end.

Record Inv (progs : nat -> list op) (c : config) : Prop := mkInv {
  i_lock : forall t, crit (ph _ _ _ (thr _ _ _ c t)) -> lock _ _ _ c = true;
  i_one : forall t u, crit (ph _ _ _ (thr _ _ _ c t)) -> crit (ph _ _ _ (thr _ _ _ c u)) -> t = u;
  i_free : lock _ _ _ c = true -> exists t, crit (ph _ _ _ (thr _ _ _ c t));
  i_cur : nth_error (heap _ _ _ c) (cur _ _ _ c) = Some (gen_of (src 101010101) (hist _ _ _ c));
  i_seen : forall t g, ph _ _ _ (thr _ _ _ c t) = Seen _ _ g -> nth_error (heap _ _ _ c) (cur _ _ _ c) = Some g;
  i_good : good_from (src 101010101) (hist _ _ _ c);
  i_prog : forall t, progs t = calls _ _ (own _ _ t (hist _ _ _ c)) ++ pending (thr _ _ _ c t);
  i_vals : forall t, given _ (got _ _ _ (thr _ _ _ c t)) ++ held (ph _ _ _ (thr _ _ _ c t)) = drawn _ _ (own _ _ t (hist _ _ _ c));
  i_shape : forall t, shaped (thr _ _ _ c t)
}.

Lemma own_app t a b : own O V t (a ++ b) = own _ _ t a ++ own _ _ t b.
Proof. apply filter_app. Qed.
Lemma calls_app a b : calls O V (a ++ b) = calls _ _ a ++ calls _ _ b. Proof. apply map_app. Qed.
Lemma drawn_app a b : drawn O V (a ++ b) = drawn _ _ a ++ drawn _ _ b. Proof. apply flat_map_app. Qed.
Lemma given_app a b : given V (a ++ b) = given _ a ++ given _ b. Proof. apply flat_map_app. Qed.
Lemma nth_set {X} (l : list X) i x y : nth_error l i = Some y -> nth_error (set_nth i x l) i = Some x.
Proof. revert i. induction l as [|a l IH]; intros [|i]; simpl; try discriminate; auto. Qed.

Lemma inv_start progs : Inv progs (start _ _ _ src progs).
Proof. constructor; cbn; try tauto; try discriminate; auto; reflexivity. Qed.

Ltac per t := let u := fresh "u" in let E := fresh "E" in intros u; cbn; unfold upd; destruct (Nat.eqb_spec u t) as [E|E]; [subst u|].

Lemma inv_tick progs t c c' : Inv progs c -> tick t c = Some c' -> Inv progs c'.
Proof.
  intros [H1 H2 HF H3 H4 H5 H6 H7 H8] E. unfold Rand.tick in E.
  destruct c as [lk sd hp cu th hs]; cbn in *.
  specialize (H8 t) as St. specialize (H6 t) as Pt. specialize (H7 t) as Vt. unfold shaped in St. unfold pending in Pt.
  assert (Only : crit (ph _ _ _ (th t)) -> forall u, u <> t -> ~ crit (ph _ _ _ (th u))).
  { intros Ct u Hu Cu. apply Hu. apply H2; auto. }
  destruct (th t) as [td p gt] eqn:Et; cbn in *.
  destruct p as [| |g|v|v].
  - destruct td as [|o l]; [discriminate|]. destruct lk; [discriminate|]. injection E as <-.
    assert (None_ : forall u, ~ crit (ph _ _ _ (th u))) by (intros u Cu; specialize (H1 u Cu); discriminate).
    constructor; cbn; auto.
    + intros a b. unfold upd. destruct (Nat.eqb_spec a t) as [->|Na], (Nat.eqb_spec b t) as [->|Nb]; intros Ca Cb; [reflexivity|exfalso; exact (None_ b Cb)|exfalso; exact (None_ a Ca)|exfalso; exact (None_ a Ca)].
    + intros _. exists t. unfold upd. rewrite Nat.eqb_refl. exact Logic.I.
    + per t; [discriminate|]; intros; eapply H4; eauto.
    + per t; [exact Pt|apply H6].
    + per t; [exact Vt|apply H7].
    + per t; [discriminate|apply H8].
  - destruct td as [|[s|o] l]; [discriminate| |].
    + injection E as <-. pose proof (Only Logic.I) as On. constructor; cbn.
      * per t; intros C; [exact (H1 t ltac:(rewrite Et; exact Logic.I))|exact (H1 _ C)].
      * intros a b. unfold upd. destruct (Nat.eqb_spec a t) as [->|Na], (Nat.eqb_spec b t) as [->|Nb]; intros Ca Cb; [reflexivity|exfalso; exact (On b Nb Cb)|exfalso; exact (On a Na Ca)|exfalso; exact (On a Na Ca)].
      * intros _. exists t. unfold upd. rewrite Nat.eqb_refl. exact Logic.I.
      * rewrite nth_error_app2, Nat.sub_diag, gen_app by lia. reflexivity.
      * per t; [discriminate|]. intros g' Eg. exfalso. apply (On u); auto. rewrite Eg. exact Logic.I.
      * apply good_app. split; auto. cbn. auto.
      * per t; rewrite own_app, calls_app; unfold own at 2; cbn [filter fst snd].
        -- rewrite Nat.eqb_refl. rewrite <- app_assoc. exact Pt.
        -- destruct (Nat.eqb_spec t u) as [E'|E']; [congruence|]. rewrite app_nil_r. apply H6.
      * per t; rewrite own_app, drawn_app; unfold own at 2; cbn [filter fst snd].
        -- rewrite Nat.eqb_refl. cbn. rewrite app_nil_r. rewrite !app_nil_r in *. exact Vt.
        -- destruct (Nat.eqb_spec t u) as [E'|E']; [congruence|]. rewrite app_nil_r. apply H7.
      * per t; [cbn; eauto|apply H8].
    + rewrite H3 in E. injection E as <-. pose proof (Only Logic.I) as On. constructor; cbn.
      * per t; intros C; [exact (H1 t ltac:(rewrite Et; exact Logic.I))|exact (H1 _ C)].
      * intros a b. unfold upd. destruct (Nat.eqb_spec a t) as [->|Na], (Nat.eqb_spec b t) as [->|Nb]; intros Ca Cb; [reflexivity|exfalso; exact (On b Nb Cb)|exfalso; exact (On a Na Ca)|exfalso; exact (On a Na Ca)].
      * intros _. exists t. unfold upd. rewrite Nat.eqb_refl. exact Logic.I.
      * exact H3.
      * per t; [intros g [= <-]; exact H3|]. intros g' Eg. exfalso. apply (On u); auto. rewrite Eg. exact Logic.I.
      * exact H5.
      * per t; [exact Pt|apply H6].
      * per t; [exact Vt|apply H7].
      * per t; [cbn; eauto|apply H8].
  - destruct St as (o & l & ->). destruct (step o g) as [v g'] eqn:Es. injection E as <-. pose proof (Only Logic.I) as On.
    assert (Eg : g = gen_of (src 101010101) hs).
    { specialize (H4 t g). rewrite Et in H4. specialize (H4 eq_refl). rewrite H3 in H4. injection H4 as <-. reflexivity. }
    constructor; cbn.
    * per t; intros C; [exact (H1 t ltac:(rewrite Et; exact Logic.I))|exact (H1 _ C)].
    * intros a b. unfold upd. destruct (Nat.eqb_spec a t) as [->|Na], (Nat.eqb_spec b t) as [->|Nb]; intros Ca Cb; [reflexivity|exfalso; exact (On b Nb Cb)|exfalso; exact (On a Na Ca)|exfalso; exact (On a Na Ca)].
    * intros _. exists t. unfold upd. rewrite Nat.eqb_refl. exact Logic.I.
    * rewrite (nth_set _ _ _ _ H3), gen_app, <- Eg. unfold gen_of. cbn. rewrite Es. reflexivity.
    * per t; [discriminate|]. intros g2 E2. exfalso. apply (On u); auto. rewrite E2. exact Logic.I.
    * apply good_app. split; auto. cbn. rewrite <- Eg, Es. auto.
    * per t; rewrite own_app, calls_app; unfold own at 2; cbn [filter fst snd].
      -- rewrite Nat.eqb_refl. rewrite <- app_assoc. exact Pt.
      -- destruct (Nat.eqb_spec t u) as [E'|E']; [congruence|]. rewrite app_nil_r. apply H6.
    * per t; rewrite own_app, drawn_app; unfold own at 2; cbn [filter fst snd].
      -- rewrite Nat.eqb_refl. cbn. cbn in Vt. rewrite app_nil_r in Vt. rewrite Vt. reflexivity.
      -- destruct (Nat.eqb_spec t u) as [E'|E']; [congruence|]. rewrite app_nil_r. apply H7.
    * per t; [cbn; eauto|apply H8].
  - injection E as <-. pose proof (Only Logic.I) as On. constructor; cbn.
    * per t; [intros []|]. intros C. exfalso. apply (On u); auto.
    * intros a b. unfold upd. destruct (Nat.eqb_spec a t) as [->|Na], (Nat.eqb_spec b t) as [->|Nb]; intros Ca Cb; [reflexivity|exfalso; exact (On b Nb Cb)|exfalso; exact (On a Na Ca)|exfalso; exact (On a Na Ca)].
    * discriminate.
    * exact H3.
    * per t; [discriminate|apply H4].
    * exact H5.
    * per t; [exact Pt|apply H6].
    * per t; [exact Vt|apply H7].
    * per t; [exact St|apply H8].
  - assert (C' : forall l r, Inv progs (mkConfig _ _ _ lk sd hp cu (upd _ _ _ th t (mkThread _ _ _ l (Idle _ _) (gt ++ r))) hs) <->
                 (progs t = calls _ _ (own _ _ t hs) ++ l /\ given _ (gt ++ r) = drawn _ _ (own _ _ t hs))).
    { intros l r. split.
      - intros K. pose proof (i_prog _ _ K t) as K1. pose proof (i_vals _ _ K t) as K2. cbn in K1, K2. unfold upd in K1, K2. rewrite Nat.eqb_refl in K1, K2. cbn in K1, K2. rewrite app_nil_r in K2. auto.
      - intros (K1 & K2). constructor; cbn.
        + per t; [intros []|apply H1].
        + intros a b. unfold upd. destruct (Nat.eqb_spec a t) as [->|Na], (Nat.eqb_spec b t) as [->|Nb]; intros Ca Cb; [reflexivity|destruct Ca|destruct Cb|apply H2; auto].
        + intros L. destruct (HF L) as (u & Cu). exists u. unfold upd. destruct (Nat.eqb_spec u t) as [->|]; auto. rewrite Et in Cu. destruct Cu.
        + exact H3.
        + per t; [discriminate|apply H4].
        + exact H5.
        + per t; [exact K1|apply H6].
        + per t; [cbn; rewrite app_nil_r; exact K2|apply H7].
        + per t; [exact Logic.I|apply H8]. }
    destruct v as [v|].
    + destruct St as (o & l & ->). injection E as <-. apply C'. split; [exact Pt|]. rewrite given_app. exact Vt.
    + destruct St as (s & l & ->). injection E as <-. apply C'. split; [exact Pt|]. rewrite given_app. exact Vt.
Qed.

Lemma inv_runs progs sched : forall c, Inv progs c -> Inv progs (runs sched c).
Proof.
  induction sched as [|t l IH]; intros c Hc; cbn; auto. apply IH. destruct (tick t c) as [c'|] eqn:E; auto. eapply inv_tick; eauto.
Qed.

Lemma events_good h : forall g, good_from g h -> forall a b, events _ _ h = map inr a ++ b -> map snd a = values _ _ _ step g (map fst a).
Proof.
  induction h as [|[[t [s|o]] r] h IH]; intros g Hg a b E; cbn in *.
  - destruct a; [reflexivity|discriminate].
  - destruct a; [reflexivity|discriminate].
  - destruct Hg as (-> & Hg). cbn in E. destruct a as [|[o' v'] a]; [reflexivity|]. cbn in E. injection E as <- <- E. cbn. f_equal. eapply IH; eauto.
Qed.
Lemma events_split h : forall g, good_from g h -> forall x s y, events _ _ h = x ++ inl s :: y -> exists h', good_from (src s) h' /\ events _ _ h' = y.
Proof.
  induction h as [|[[t [s|o]] r] h IH]; intros g Hg x s0 y E; cbn in *.
  - destruct x; discriminate.
  - destruct Hg as (-> & Hg). destruct x as [|z x]; cbn in E.
    + injection E as <- <-. exists h. auto.
    + injection E as _ E. eapply IH; eauto.
  - destruct Hg as (-> & Hg). cbn in E. destruct x as [|z x]; cbn in E; [discriminate|]. injection E as _ E. eapply IH; eauto.
Qed.
Lemma good_seeded s0 h : good_from (src s0) h -> seeded _ _ _ src step s0 (events _ _ h).
Proof.
  intros Hg. split.
  - intros a b E. eapply events_good; eauto.
  - intros x s a b E. destruct (events_split h _ Hg x s _ E) as (h' & Hg' & E'). eapply events_good; eauto.
Qed.
Lemma good_length h : forall g, good_from g h -> length (events _ _ h) = length h.
Proof. induction h as [|[[t [s|o]] r] h IH]; intros g Hg; cbn in *; auto; destruct Hg as (-> & Hg); cbn; f_equal; eauto. Qed.

Lemma linear_l progs sched : let c := runs sched (start _ _ _ src progs) in
  seeded _ _ _ src step 101010101 (events _ _ (hist _ _ _ c)) /\ length (events _ _ (hist _ _ _ c)) = length (hist _ _ _ c) /\
  forall t, (exists rest, progs t = calls _ _ (own _ _ t (hist _ _ _ c)) ++ rest) /\
    (exists rest, drawn _ _ (own _ _ t (hist _ _ _ c)) = given _ (got _ _ _ (thr _ _ _ c t)) ++ rest /\ length rest <= 1) /\
    (todo _ _ _ (thr _ _ _ c t) = [] -> calls _ _ (own _ _ t (hist _ _ _ c)) = progs t /\
       given _ (got _ _ _ (thr _ _ _ c t)) = drawn _ _ (own _ _ t (hist _ _ _ c))).
Proof.
  intros c. pose proof (inv_runs progs sched _ (inv_start progs)) as [H1 H2 HF H3 H4 H5 H6 H7 H8]. fold c in H1, H2, HF, H3, H4, H5, H6, H7, H8.
  split; [apply good_seeded; auto|]. split; [eapply good_length; eauto|]. intros t. split; [eauto|]. split.
  - eexists. split; [symmetry; apply H7|]. destruct (ph _ _ _ (thr _ _ _ c t)) as [| | |[v|]|[v|]]; cbn; lia.
  - intros Et. specialize (H6 t). specialize (H7 t). specialize (H8 t). unfold shaped in H8. unfold pending in H6. rewrite Et in *.
    assert (Hn : ph _ _ _ (thr _ _ _ c t) = Idle _ _).
    { destruct (ph _ _ _ (thr _ _ _ c t)) as [| |g|[v|]|[v|]]; auto; try congruence; destruct H8 as (? & ? & H8); discriminate. }
    rewrite Hn in *. rewrite app_nil_r in *. auto.
Qed.

Lemma progress_l progs sched : let c := runs sched (start _ _ _ src progs) in
  (exists t, todo _ _ _ (thr _ _ _ c t) <> []) -> exists u c', tick u c = Some c'.
Proof.
  intros c (t & Ht). pose proof (inv_runs progs sched _ (inv_start progs)) as [H1 H2 HF H3 H4 H5 H6 H7 H8]. fold c in H1, H2, HF, H3, H4, H5, H6, H7, H8.
  assert (K : exists u, todo _ _ _ (thr _ _ _ c u) <> [] /\ (crit (ph _ _ _ (thr _ _ _ c u)) \/ lock _ _ _ c = false)).
  { destruct (lock _ _ _ c) eqn:EL.
    - destruct (HF eq_refl) as (u & Cu). exists u. split; auto. specialize (H8 u). unfold shaped in H8.
      destruct (ph _ _ _ (thr _ _ _ c u)) as [| |g|[v|]|[v|]]; cbn in Cu; try tauto; destruct H8 as (? & ? & H8); congruence.
    - exists t. auto. }
  destruct K as (u & Hu & K). exists u. unfold Rand.tick. specialize (H8 u). unfold shaped in H8.
  destruct (thr _ _ _ c u) as [td p gt]; cbn in *. destruct p as [| |g|v|v].
  - destruct td; [congruence|]. destruct K as [[]|K]. rewrite K. eauto.
  - destruct td as [|[s|o] l]; [congruence|eauto|]. rewrite H3. eauto.
  - destruct H8 as (o & l & ->). destruct (step o g). eauto.
  - eauto.
  - destruct v; destruct H8 as (? & ? & ->); eauto.
Qed.

Lemma returned_l progs sched t s l h : let c := runs sched (start _ _ _ src progs) in
  todo _ _ _ (thr _ _ _ c t) = Refresh _ s :: l -> ph _ _ _ (thr _ _ _ c t) = Left _ _ None -> hist _ _ _ c = h ++ [(t, Refresh _ s, None)] ->
  exists c' p, tick t c = Some c' /\ got _ _ _ (thr _ _ _ c' t) = got _ _ _ (thr _ _ _ c t) ++ [RGen _ p] /\ nth_error (heap _ _ _ c') p = Some (src s).
Proof.
  intros c E1 E2 E3. pose proof (i_cur _ _ (inv_runs progs sched _ (inv_start progs))) as H. fold c in H.
  unfold Rand.tick. destruct (thr _ _ _ c t) as [td p gt] eqn:Et; cbn in *. subst td p. do 2 eexists. split; [reflexivity|]. cbn. unfold upd. rewrite Nat.eqb_refl. cbn.
  split; [reflexivity|]. rewrite H, E3, gen_app. reflexivity.
Qed.

Definition two (a b : op) : nat -> list op := fun t => match t with 0 => [a] | 1 => [b] | _ => [] end.

Lemma wrong_gen_l s s' : exists sched, let c := runs sched (start _ _ _ src (two (Refresh _ s) (Refresh _ s'))) in
  exists p, got _ _ _ (thr _ _ _ c 0) = [RGen _ p] /\ nth_error (heap _ _ _ c) p = Some (src s').
Proof. exists [0; 0; 0; 1; 1; 1; 0]. exists 2. split; reflexivity. Qed.

Lemma schedules_l o : fst (step o (src 101010101)) <> fst (step o (snd (step o (src 101010101)))) ->
  exists sched sched', let c := runs sched (start _ _ _ src (two (Draw _ o) (Draw _ o))) in
    let c' := runs sched' (start _ _ _ src (two (Draw _ o) (Draw _ o))) in
  (forall t, todo _ _ _ (thr _ _ _ c t) = [] /\ todo _ _ _ (thr _ _ _ c' t) = []) /\
  given _ (got _ _ _ (thr _ _ _ c 0)) <> given _ (got _ _ _ (thr _ _ _ c' 0)).
Proof.
  intros H. exists [0; 0; 0; 0; 0; 1; 1; 1; 1; 1], [1; 1; 1; 1; 1; 0; 0; 0; 0; 0].
  destruct (step o (src 101010101)) as [v g] eqn:E1. cbn in H. destruct (step o g) as [v' g'] eqn:E2. cbn in H. cbn. rewrite E1. cbn. rewrite E2. cbn.
  split; [|intros E; injection E; auto]. intros [|[|t]]; cbn; auto.
Qed.
Lemma seed_tick s0 t c c' : seed _ _ _ c = last_seed O V s0 (events _ _ (hist _ _ _ c)) -> tick t c = Some c' ->
  seed _ _ _ c' = last_seed O V s0 (events _ _ (hist _ _ _ c')).
Proof.
  intros H E. unfold Rand.tick in E. unfold last_seed in *.
  destruct (ph _ _ _ (thr _ _ _ c t)) as [| |g|v|[v|]], (todo _ _ _ (thr _ _ _ c t)) as [|[s|o] l]; try discriminate;
    try (destruct (lock _ _ _ c); [discriminate|]); try (destruct (nth_error _ _); [|discriminate]); try destruct (step o g);
    injection E as <-; cbn; auto; unfold events; rewrite flat_map_app, fold_left_app; cbn; auto.
Qed.
Lemma seed_l progs sched : let c := runs sched (start G O V src progs) in
  seedOf _ _ _ c = last_seed O V 101010101 (events _ _ (hist _ _ _ c)).
Proof.
  cbn. unfold seedOf. assert (H : seed G O V (start G O V src progs) = last_seed O V 101010101 (events _ _ (hist G O V (start G O V src progs)))) by reflexivity.
  revert H. generalize (start G O V src progs) as c. induction sched as [|t l IH]; intros c H; cbn; auto.
  apply IH. destruct (tick t c) as [c'|] eqn:E; auto. eapply seed_tick; eauto.
Qed.
End Lemmas.

(** A generator that counts. *)
Definition countStep (o : unit) (g : Z) : Z * Z := (g, (g + 1)%Z).
