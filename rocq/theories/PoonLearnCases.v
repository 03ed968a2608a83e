(** The statements of PropPoonLearn.v and their witnesses. *)
From Coq Require Import Reals Lra QArith.
From Verif Require Import Base Res Arith LogMath LogSpec GraphSpec GraphLemmas Search Walk WalkLemmas Storer Spn SpnSpec Leaves Build Struct StructSpec StructLemmas
  Stats Poon PoonSpec PoonCodes PoonLemmas PoonLearn PoonLearnSpec ProbSpec PoonRun PoonBuilt PoonStruct PoonTotal PoonOrder PoonWhole PoonHist PoonSingle
  Train TrainSpec TrainCases TrainProps DennisTop.
Local Open Scope Z_scope.

Lemma structure_any_l (A : arith) w h logProb trunc round rnd data m g r H z :
  0 < w -> 0 < h -> codes_fit w h -> 0 < r -> (r | w) -> (r | h) -> (0 < m)%nat ->
  @structure A w h logProb trunc round rnd data m g r = Ok (H, z) ->
  (forall p, in_scope (netOf H) z p -> 0 <= p < w * h) /\ decomposable (netOf H) z /\
  acyclic_from (children (netOf H)) z /\ unit_weights (netOf H) z.
Proof. intros. eapply structure_any; eauto. Qed.

Lemma structure_one_l (A : arith) w h logProb trunc round rnd data g r H z :
  0 < w -> 0 < h -> codes_fit w h -> 0 < r -> (r | w) -> (r | h) -> data <> [] ->
  @structure A w h logProb trunc round rnd data 1 g r = Ok (H, z) ->
  image_network w h (netOf H) z /\ unit_weights (netOf H) z /\ no_empty_sums (netOf H) z.
Proof.
  intros w1 h1 fit r1 rw rh Nd E.
  destruct (structure_one w h logProb trunc round rnd w1 h1 fit 1%nat g r r1 rw rh (le_n 1) data H z eq_refl Nd E) as (A1 & A2 & A3 & A4 & A5 & A6).
  unfold image_network. auto 10.
Qed.

Lemma structure_total_l w h logProb trunc round rnd data m g r :
  0 < w -> 0 < h -> codes_fit w h -> draws rnd -> log_density logProb -> 2 <= r -> (r | w) -> (r | h) ->
  (0 < m)%nat -> (2 <= g)%nat -> data <> [] ->
  exists H z, @structure XR w h logProb trunc round rnd data m g r = Ok (H, z).
Proof. intros. eapply structure_total; eauto. Qed.

Lemma structure_empty_root_l w logProb trunc round rnd I m g :
  2 <= w -> codes_fit w w -> log_density logProb -> draws rnd -> (forall c, rnd c m <> 0%nat) -> (2 <= m)%nat -> (2 <= g)%nat ->
  exists H z, @structure XR w w logProb trunc round rnd [I] m g w = Ok (H, z) /\ forall p, ~ in_scope (netOf H) z p.
Proof.
  intros w2 fit lp dr nz m2 g2.
  destruct (structure_total w w logProb trunc round rnd ltac:(lia) ltac:(lia) fit dr lp m g w ltac:(lia) (Z.divide_refl w) (Z.divide_refl w)
    ltac:(lia) g2 [I] ltac:(discriminate)) as (H & z & E).
  exists H, z. split; auto.
  pose proof (@structure_single XR w logProb trunc round rnd ltac:(lia) fit I m g H z w2 m2 nz E) as Hz.
  assert (Nz : netOf H z = mkNode (KSum []) []) by (unfold netOf; apply nth_error_nth; auto).
  intros p (v & l & R & K & _). inversion R; subst.
  - rewrite Nz in K. discriminate.
  - unfold children in *. rewrite Nz in *. simpl in *. contradiction.
Qed.

Lemma structure_unit_l (A : arith) w h logProb trunc round rnd data m g :
  0 < w -> 0 < h -> codes_fit w h -> 1 < w * h -> (0 < m)%nat -> (0 < g)%nat -> data <> [] ->
  @structure A w h logProb trunc round rnd data m g 1 = Panic.
Proof. intros. eapply structure_unit; eauto; try lia; apply Z.divide_1_l. Qed.

Lemma structure_hist_l w h logProb trunc round rnd data m r :
  0 < w -> 0 < h -> codes_fit w h -> (forall x, logProb NaN NaN x = NaN) -> 2 <= r -> (r | w) -> (r | h) -> (0 < m)%nat ->
  data <> [] -> (forall I, In I data -> I 0 = Some 0 /\ I w = Some 0) ->
  @structure XR w h logProb trunc round rnd data m 1 r = Panic.
Proof. intros. eapply structure_hist; eauto. Qed.

(** LearnGD only changes weights. *)
Section GD.
Context {A : arith}.
Definition reW (net net' : network A) : Prop :=
  forall u, nch (net' u) = nch (net u) /\
    (nk (net' u) = nk (net u) \/ exists w w', nk (net u) = KSum w /\ nk (net' u) = KSum w' /\ length w' = length w).

Lemma reW_trans a b c : reW a b -> reW b c -> reW a c.
Proof.
  intros H1 H2 u. destruct (H1 u) as [C1 K1], (H2 u) as [C2 K2]. split; [congruence|].
  destruct K1 as [K1|(w & w' & K1 & K1' & L1)]; destruct K2 as [K2|(v & v' & K2 & K2' & L2)]; auto.
  - left; congruence.
  - right. exists v, v'. repeat split; congruence.
  - right. exists w, w'. repeat split; congruence.
  - right. exists w, v'. repeat split; congruence.
Qed.

Lemma norm_len (v : list (F A)) : length (norm v) = length v.
Proof. unfold norm, divBySum. destruct (fgt (fz 0) (minBelow0 v)); rewrite ?map_length; auto. Qed.

Lemma walk_any {St} ch d (proc : St -> nat -> res St) (P : St -> Prop) : (forall s u s', P s -> proc s u = Ok s' -> P s') ->
  forall fuel Fr V st st', P st -> walk ch d proc fuel Fr V st = Ok st' -> P st'.
Proof.
  intros HP. induction fuel as [|k IH]; intros Fr V st st' H E; simpl in E; [discriminate|].
  destruct Fr as [|u Fr]; [injection E as <-; auto|]. destruct (proc st u) as [s1| |] eqn:E1; try discriminate. cbn [bind] in E.
  destruct (give_children d (ch u) (Fr, V)) as [F2 V2]. eapply IH; [|exact E]. eapply HP; eauto.
Qed.

Lemma normalize_reW (net net' : network A) fuel z : normalizeSPN net fuel z = Ok net' -> reW net net'.
Proof.
  intros E. apply (walk_any (children net) UseQueue normNode (reW net)) with (3 := E).
  - intros s u s' H E'. unfold normNode in E'. injection E' as <-. eapply reW_trans; [exact H|]. intros x.
    destruct (nk (s u)) as [v| |l] eqn:K; auto. unfold upd. destruct (Nat.eqb_spec x u) as [->|]; auto. cbn [nch nk]. split; auto.
    right. exists v, (norm v). rewrite norm_len. auto.
  - intros u. auto.
Qed.

Lemma reW_reweighted (net net' : network A) : reW net net' -> reweighted net net'.
Proof.
  intros H u. destruct (H u) as [C [K|(w & w' & K & K' & _)]].
  - left. destruct (net' u), (net u); simpl in *; congruence.
  - right. exists w, w'. split; auto. destruct (net' u); simpl in *; congruence.
Qed.
End GD.

Lemma learn_gd_weights_l (A : arith) w h logProb trunc round rnd ordN ordP rndT data m g r eta lambda iter fuelT fuel net z :
  @learnGD A w h logProb trunc round rnd ordN ordP rndT data m g r eta lambda iter fuelT fuel = Ok (net, z) ->
  exists H, structure w h logProb trunc round rnd data m g r = Ok (H, z) /\
  forall N M, ranges_nodes N ordN -> ranges_entries M ordP -> (forall u, reach (children (netOf H)) z u -> (u < N)%nat) ->
  at_most M z (netOf H) -> (forall u, nch (net u) = nch (netOf H u)) /\
    forall u, nk (net u) = nk (netOf H u) \/ exists a b, nk (netOf H u) = KSum a /\ nk (net u) = KSum b /\ length b = length a.
Proof.
  unfold learnGD. intros E. destruct (structure w h logProb trunc round rnd data m g r) as [[H z0]| |] eqn:Es; try discriminate. cbn [bind fst snd] in E.
  destruct (normalizeSPN (netOf H) fuel z0) as [n1| |] eqn:En; try discriminate. cbn [bind] in E.
  match type of E with context [bind ?e _] => destruct e as [n2| |] eqn:Eg; try discriminate end. cbn [bind] in E. injection E as -> ->.
  exists H. split; auto. intros N M HN HP Hb HM. apply normalize_reW in En.
  assert (Rr : forall u, reach (children n1) z u -> reach (children (netOf H)) z u).
  { apply same_reach. intros u. apply (proj1 (En u)). }
  assert (Hb1 : forall u, reach (children n1) z u -> (u < N)%nat) by auto.
  assert (HM1 : at_most M z n1).
  { destruct HM as [M1 HM]. split; auto. intros u Ru. destruct (HM u (Rr u Ru)) as [L1 L2]. destruct (En u) as [C K]. split; [rewrite C; auto|].
    intros v Kv. destruct K as [K|(a & b & Ka & Kb & L)]; [apply L2; congruence|]. assert (v = b) by congruence. subst v. rewrite L. auto. }
  destruct (proj1 (only_weights_l n1 z N M ordN ordP rndT fuelT fuel (@mkParams A true 0 eta 50 lambda iter) UseQueue [] data HM1 Hb1 HN HP) net) as [O1 O2].
  { right. right. right. left. exact Eg. }
  assert (Rw : reW (netOf H) net).
  { eapply reW_trans; [exact En|]. intros u. split; auto. destruct (O2 u) as [K|(_ & a & b & K)]; auto. right; eauto. }
  split; intros u; apply (Rw u).
Qed.

Lemma learn_gd_image_l (A : arith) w h logProb trunc round rnd ordN ordP rndT data g r eta lambda iter fuelT fuel net z H z0 N M :
  0 < w -> 0 < h -> codes_fit w h -> 0 < r -> (r | w) -> (r | h) -> data <> [] ->
  structure w h logProb trunc round rnd data 1 g r = Ok (H, z0) ->
  (forall u, reach (children (netOf H)) z0 u -> (u < N)%nat) -> at_most M z0 (netOf H) -> ranges_nodes N ordN -> ranges_entries M ordP ->
  @learnGD A w h logProb trunc round rnd ordN ordP rndT data 1 g r eta lambda iter fuelT fuel = Ok (net, z) ->
  z = z0 /\ image_network w h net z /\ no_empty_sums net z.
Proof.
  intros w1 h1 fit r1 rw rh Nd Es Hb HM HN HP E.
  destruct (learn_gd_weights_l A w h logProb trunc round rnd ordN ordP rndT data 1 g r eta lambda iter fuelT fuel net z E) as (H' & Es' & K).
  rewrite Es in Es'. injection Es' as <- <-. split; auto. destruct (K N M HN HP Hb HM) as [K1 K2].
  destruct (structure_one_l A w h logProb trunc round rnd data g r H z0 w1 h1 fit r1 rw rh Nd Es) as ((A1 & A2 & A3 & A4) & _ & A6).
  assert (Rw : reW (netOf H) net) by (intros u; split; auto). apply reW_reweighted in Rw.
  destruct (reweighted_l (netOf H) net z0 Rw) as (Ch & T1 & T2 & T3 & T4). split.
  - split; [intros p; rewrite T1; auto|]. auto.
  - intros u ws R Ku. rewrite K1. destruct (K2 u) as [Q|(a & b & Qa & _)]; [apply (A6 u ws)|apply (A6 u a)]; auto; try congruence; apply (same_reach _ _ Ch); auto.
Qed.

(** Witnesses: the logarithm of the normal density, a random choice, images of one shade. *)
Definition normalLog (mu sd x : xreal) : xreal :=
  match mu, sd, x with
  | Fin m, Fin s, Fin v => Fin (- ((v - m) * (v - m)) / (2 * s * s) - ln (s * sqrt (2 * PI)))
  | _, _, _ => NaN
  end.
Lemma normalLog_ok : log_density normalLog.
Proof. split; intros; simpl; eauto. Qed.
Definition lastOf (_ n : nat) : nat := Nat.pred n.
Lemma lastOf_ok : draws lastOf.
Proof. intros c n Hn. unfold lastOf. lia. Qed.
Definition shade (v : Z) : varset := fun _ => Some v.

(** Rationals and minus infinity, to run the learner. *)
Definition liftQ (f : Q -> Q -> Q) (a b : option Q) : option Q := match a, b with Some x, Some y => Some (Qred (f x y)) | _, _ => None end.
Definition gtQ (a b : option Q) : bool := match a, b with Some x, Some y => negb (Qle_bool x y) | Some _, None => true | None, _ => false end.
Definition eqQ (a b : option Q) : bool := match a, b with Some x, Some y => Qeq_bool x y | None, None => true | _, _ => false end.
Definition NQ : arith := mkArith (option Q) (fun z => Some (inject_Z z)) None (liftQ Qplus) (liftQ Qminus) (liftQ Qmult) (liftQ Qdiv)
  (fun a => match a with Some x => if Qeq_bool x 0 then None else Some (x - 1)%Q | None => None end) (fun a => a)
  (fun a => match a with Some x => Some (x + 1)%Q | None => Some 0%Q end) (fun a => a) gtQ (fun a b => gtQ a b || eqQ a b)%bool eqQ
  (fun a => match a with None => true | _ => false end).
Definition logNQ (mu sd x : F NQ) : F NQ :=
  match mu, sd, x with Some m, Some s, Some v => Some (Qred (- (v - m) * (v - m) / (2 * s * s) - (1 # 4)))%Q | _, _, _ => None end.
Definition runNQ (w h : Z) (rnd : nat -> nat -> nat) (data : list varset) (m g : nat) (r : Z) : res (nodes NQ * nat) :=
  @structure NQ w h logNQ (fun _ => 0) (fun _ => 0) rnd data m g r.
Definition sizeNQ (x : res (nodes NQ * nat)) : res (nat * nat * nat) :=
  match x with
  | Ok (H, z) => Ok (length H, z, length (filter (fun n => match nk n with KSum _ => negb (Nat.eqb (length (nch n)) 0) | _ => false end) H))
  | Panic => Panic
  | Fuel => Fuel
  end.
(** Products with a child that is a sum without children. *)
Definition hollow (x : res (nodes NQ * nat)) : list nat :=
  match x with
  | Ok (H, z) => filter (fun u => match nk (netOf H u) with
      | KProd => existsb (fun c => match nk (netOf H c), nch (netOf H c) with KSum _, [] => true | _, _ => false end) (nch (netOf H u))
      | _ => false end) (seq 0 (length H))
  | _ => []
  end.
Definition gdNQ (w h : Z) (data : list varset) (m g : nat) (r : Z) : res (network NQ * nat) :=
  @learnGD NQ w h logNQ (fun _ => 0) (fun _ => 0) (fun _ _ => 0%nat) (ascN 200) (ascP 9) (fun _ _ _ => 0%nat) data m g r (Some (1 # 10)%Q) (Some 0%Q) 2 500 500.
Definition probe (x : res (network NQ * nat)) : option (nat * list nat * kind NQ) :=
  match x with Ok (n, z) => Some (z, nch (n 9%nat), nk (n 9%nat)) | _ => None end.
Lemma probe_gd : probe (gdNQ 4 2 [shade 0; shade 1; shade 2] 1 2 2) = Some (0%nat, [27; 38]%nat, @KSum NQ [Some (1032257268 # 2048512411); Some (1016255143 # 2048512411)]%Q).
Proof. vm_compute. reflexivity. Qed.
Lemma learn_gd_case_l : ranges_nodes 200 (ascN 200) /\ ranges_entries (V := F NQ) 9 (ascP 9) /\
  exists net, gdNQ 4 2 [shade 0; shade 1; shade 2] 1 2 2 = Ok (net, 0%nat) /\ nch (net 9%nat) = [27; 38]%nat /\
    nk (net 9%nat) = @KSum NQ [Some (1032257268 # 2048512411); Some (1016255143 # 2048512411)]%Q.
Proof.
  split; [apply ascN_ok|]. split; [apply ascP_ok|]. pose proof probe_gd as Q. revert Q. unfold probe. generalize (gdNQ 4 2 [shade 0; shade 1; shade 2] 1 2 2).
  intros [[net z]| |] Q; try discriminate. exists net. injection Q as -> E1 E2. auto.
Qed.
