(** Discriminative learning, for every arithmetic. *)
From Coq Require Import FunctionalExtensionality Classical_Prop.
From Verif Require Import Base Res Arith LogMath GraphSpec GraphLemmas Search SearchLemmas Topo TopoLemmas Storer StorerSpec StorerLemmas
  Spn DP SpnSpec MapSpec Walk WalkLemmas Struct Derive DeriveLemmas GradLemmas StepLemmas Hard HardSpec HardLemmas PipeLemmas
  Train TrainSpec TrainRange TrainKeep TrainShape TrainAll TrainKept TrainSteps TrainBatch TrainHard.

Lemma foldr_concat {X S} (f : S -> X -> res S) l n : forall s, foldr_ (fun s _ => foldr_ f l s) (repeat tt n) s = foldr_ f (concat (repeat l n)) s.
Proof. induction n as [|n IH]; intros s; cbn [repeat foldr_ concat]; auto. rewrite foldr_app. destruct (foldr_ f l s); auto. cbn [bind]. apply IH. Qed.
Lemma foldr_ok {X S} (K : S -> Prop) (f g : S -> X -> res S) l : (forall x s s', In x l -> K s -> f s x = Ok s' -> g s x = Ok s' /\ K s') ->
  forall s s', K s -> foldr_ f l s = Ok s' -> foldr_ g l s = Ok s' /\ K s'.
Proof.
  induction l as [|x l IH]; intros H s s' Hs E; cbn [foldr_] in *; [split; congruence|].
  destruct (f s x) as [s1| |] eqn:E1; try discriminate. cbn [bind] in E. destruct (H x s s1 (or_introl eq_refl) Hs E1) as [-> H2]. cbn [bind].
  apply IH; auto. intros y a b Hy. apply H. right; auto.
Qed.

Lemma pull_without I Y y : NoDup Y -> length y = length Y -> (forall u, In u Y -> I u <> None) ->
  exists y1, pullValues I Y y = Ok (without Y I, y1) /\ pushValues (without Y I) Y y1 = Ok I /\ length y1 = length Y.
Proof.
  intros Hn Hl Hs. destruct (pull_gen Y 0 I [] y Hn eq_refl Hl Hs) as (I0 & vs & E0 & Hvl & _).
  destruct (pull_push_l I Y y Hn Hl Hs) as (I1 & y1 & I2 & E1 & E2 & H2 & H3 & H4 & _).
  assert (I1 = without Y I). { extensionality u. unfold without. destruct (in_dec Z.eq_dec u Y); auto. }
  assert (I2 = I) by (extensionality u; auto). subst I1 I2. exists y1. split; auto. split; auto.
  assert (E3 : pullValues I Y y = Ok (I0, vs)) by exact E0. rewrite E1 in E3. congruence.
Qed.

Section Data.
Context {A : arith}.
Local Notation F := (F A).
Local Notation storer := (storer F).
Variables r fuelT fuel : nat.
Variables (ordN : nat -> (nat -> bool) -> list nat) (ordP : nat -> nat -> (Z -> option F) -> list (Z * F)).
Variable rnd : nat -> nat -> nat -> nat.
Variable P : params A.
Variable Y : list Z.
Hypothesis HY : NoDup Y.

Definition has_all (I : varset) : Prop := forall u, In u Y -> I u <> None.
(** An instance is left as it was. *)
Definition restores (one : dstate A -> varset -> res (dstate A * varset)) : Prop :=
  forall s I x, has_all I -> length (dy s) = length Y -> one s I = Ok x -> snd x = I /\ length (dy (fst x)) = length Y.

Lemma gradients_restore (s : dstate A) I st J y : has_all I -> length (dy s) = length Y -> gradients fuelT fuel r Y s I = Ok (st, J, y) -> J = I /\ length y = length Y.
Proof.
  intros HI Hl. unfold gradients. destruct (pull_without I Y (dy s) HY Hl HI) as (y1 & E1 & E2 & E3).
  destruct (storeInference _ _ _ _ _ _); try discriminate. cbn [bind]. destruct (deriveSPN _ _ _ _ _ _ _); try discriminate. cbn [bind].
  destruct (deriveWeights _ _ _ _ _ _ _ _); try discriminate. cbn [bind]. rewrite E1. cbn [bind fst snd].
  destruct (storeInference _ _ _ _ _ _); try discriminate. cbn [bind]. destruct (deriveSPN _ _ _ _ _ _ _); try discriminate. cbn [bind].
  destruct (deriveWeights _ _ _ _ _ _ _ _); try discriminate. cbn [bind]. rewrite E2. cbn [bind]. intros E. injection E as _ <- <-. auto.
Qed.
Lemma hardCounts_restore (s : dstate A) I st J y : has_all I -> length (dy s) = length Y -> hardCounts rnd fuelT fuel r Y s I = Ok (st, J, y) -> J = I /\ length y = length Y.
Proof.
  intros HI Hl. unfold hardCounts. destruct (pull_without I Y (dy s) HY Hl HI) as (y1 & E1 & E2 & E3).
  destruct (deriveHard _ _ _ _ _ _ _ _); try discriminate. cbn [bind]. rewrite E1. cbn [bind fst snd].
  destruct (deriveHard _ _ _ _ _ _ _ _); try discriminate. cbn [bind]. rewrite E2. cbn [bind]. intros E. injection E as _ <- <-. auto.
Qed.

Lemma dgd_restores : restores (dgdInstance fuelT fuel r P Y).
Proof.
  intros s I x HI Hl. unfold dgdInstance. destruct (gradients fuelT fuel r Y s I) as [[[st J] y]| |] eqn:E; try discriminate. cbn [bind].
  destruct (gradients_restore s I st J y HI Hl E) as [-> Hy]. destruct (applyDGD _ _ _ _ _ _ _ _ _ _ _ _); try discriminate. cbn [bind].
  intros E'. injection E' as <-. auto.
Qed.
Lemma dhgd_restores : restores (dhgdInstance ordN ordP rnd fuelT fuel r P Y).
Proof.
  intros s I x HI Hl. unfold dhgdInstance. destruct (hardCounts rnd fuelT fuel r Y s I) as [[[st J] y]| |] eqn:E; try discriminate. cbn [bind].
  destruct (hardCounts_restore s I st J y HI Hl E) as [-> Hy]. destruct (applyHDGD _ _ _ _ _ _ _ _ _ _ _); try discriminate. cbn [bind].
  intros E'. injection E' as <-. auto.
Qed.
Lemma dbgd_restores : restores (dbgdInstance fuelT fuel r Y).
Proof.
  intros s I x HI Hl. unfold dbgdInstance. destruct (gradients fuelT fuel r Y s I) as [[[st J] y]| |] eqn:E; try discriminate. cbn [bind].
  destruct (gradients_restore s I st J y HI Hl E) as [-> Hy]. destruct (storeDGD _ _ _ _ _ _ _ _ _); try discriminate. cbn [bind].
  intros E'. injection E' as <-. auto.
Qed.
Lemma dhbgd_restores : restores (dhbgdInstance rnd fuelT fuel r Y).
Proof.
  intros s I x HI Hl. unfold dhbgdInstance. destruct (storeInference _ _ _ _ _ _) as [a| |]; try discriminate. cbn [bind].
  destruct (hardCounts _ _ _ _ _ _ _) as [[[st J] y]| |] eqn:E; try discriminate. cbn [bind].
  apply hardCounts_restore in E as [-> Hy]; auto. intros E'. injection E' as <-. auto.
Qed.
Lemma afterOne_restores one ap tks : restores one -> restores (fun s I => x <- one s I; afterOne P (flushD ap tks) x).
Proof.
  intros H s I x HI Hl. destruct (one s I) as [y| |] eqn:E; try discriminate. cbn [bind]. destruct (H s I y HI Hl E) as [H1 H2].
  unfold afterOne. destruct (remOf _ _) as [m| |]; try discriminate. cbn [bind]. destruct (m =? 0)%Z.
  - unfold flushD. destruct (ap _ _ _) as [n| |]; try discriminate. cbn [bind]. intros E'. injection E' as <-. auto.
  - cbn [bind]. intros E'. injection E' as <-. auto.
Qed.

(** The loop over the instances, when they are left as they were. *)
Definition just (one : dstate A -> varset -> res (dstate A * varset)) (s : dstate A) (I : varset) : res (dstate A) := x <- one s I; Ok (fst x).
Lemma overData_restored one data : restores one -> (forall I, In I data -> has_all I) -> forall s x, length (dy s) = length Y ->
  overData one data s = Ok x -> snd x = data /\ length (dy (fst x)) = length Y /\ foldr_ (just one) data s = Ok (fst x).
Proof.
  intros H. induction data as [|I data IH]; intros HD s x Hl E; cbn [overData foldr_] in *; [injection E as <-; auto|].
  destruct (one s I) as [y| |] eqn:E1; try discriminate. cbn [bind] in E. destruct (H s I y (HD I (or_introl eq_refl)) Hl E1) as [H1 H2].
  destruct (overData one data (fst y)) as [z| |] eqn:E2; try discriminate. cbn [bind] in E. injection E as <-. cbn [fst snd].
  destruct (IH (fun J HJ => HD J (or_intror HJ)) (fst y) z H2 E2) as (K1 & K2 & K3). split; [congruence|]. split; auto.
  unfold just at 1. rewrite E1. cbn [bind]. auto.
Qed.
Lemma dEpochs_restored one data : restores one -> (forall I, In I data -> has_all I) -> forall s x, length (dy s) = length Y ->
  dEpochs P one data s = Ok x -> snd x = data /\ length (dy (fst x)) = length Y /\
    foldr_ (just one) (concat (repeat data (Z.to_nat (piter P)))) s = Ok (fst x).
Proof.
  intros H HD s x Hl. unfold dEpochs, epochs. revert s x Hl. induction (Z.to_nat (piter P)) as [|n IH]; intros s x Hl E; cbn [repeat foldr_ concat] in *.
  - injection E as <-. auto.
  - cbn [fst snd] in E. destruct (overData one data s) as [[s1 d1]| |] eqn:E1; try discriminate. cbn [bind] in E.
    destruct (overData_restored one data H HD s (s1, d1) Hl E1) as (K1 & K2 & K3). cbn [fst snd] in *. subst d1.
    destruct (IH s1 x K2 E) as (L1 & L2 & L3). split; auto. split; auto. rewrite foldr_app, K3. cbn [bind]. auto.
Qed.

Lemma start_y (s : tstate A) : length (dy (mkD s (repeat 0%Z (length Y)))) = length Y.
Proof. cbn [dy]. apply repeat_length. Qed.

Lemma dBatches_data data net' data' one ap tks s : (forall I, In I data -> has_all I) -> restores one -> length (dy s) = length Y ->
  dBatches P one (flushD ap tks) data s = Ok (net', data') -> data' = data.
Proof.
  intros HD H Hl. unfold dBatches. destruct (dEpochs P _ data s) as [x| |] eqn:E; try discriminate. cbn [bind].
  destruct (dEpochs_restored _ data (afterOne_restores one ap tks H) HD s x Hl E) as (K1 & _). destruct (remOf _ _) as [m| |]; try discriminate. cbn [bind].
  destruct (m =? 0)%Z; [|destruct (flushD _ _ _)]; cbn [bind]; intros E'; try discriminate; injection E' as _ <-; auto.
Qed.
Section Each.
Variables (data : list varset) (net net' : network A) (data' : list varset).
Hypothesis HD : forall I, In I data -> has_all I.
Lemma dhbgd_data : discriminativeHardBGD ordN ordP rnd fuelT fuel r P Y data net = Ok (net', data') -> data' = data.
Proof. apply dBatches_data; auto; [apply dhbgd_restores|apply start_y]. Qed.
Lemma dbgd_data : discriminativeBGD ordN ordP fuelT fuel r P Y data net = Ok (net', data') -> data' = data.
Proof. apply dBatches_data; auto; [apply dbgd_restores|apply start_y]. Qed.
Lemma dhgd_data : discriminativeHardGD ordN ordP rnd fuelT fuel r P Y data net = Ok (net', data') -> data' = data.
Proof.
  unfold discriminativeHardGD. destruct (dEpochs P _ data _) as [x| |] eqn:E; try discriminate. cbn [bind].
  destruct (dEpochs_restored _ data dhgd_restores HD _ x (start_y _) E) as (K1 & _). intros E'. injection E' as _ <-. auto.
Qed.
Lemma dgd_data : discriminativeGD fuelT fuel r P Y data net = Ok (net', data') -> data' = data.
Proof.
  unfold discriminativeGD. destruct (dEpochs P _ data _) as [x| |] eqn:E; try discriminate. cbn [bind].
  destruct (dEpochs_restored _ data dgd_restores HD _ x (start_y _) E) as (K1 & _). intros E'. injection E' as _ <-. auto.
Qed.
Lemma discriminative_data : discriminative ordN ordP rnd fuelT fuel r P Y data net = Ok (net', data') -> data' = data.
Proof. unfold discriminative. destruct (isHard (ptype P)), (1 <? pbatch P)%Z; [apply dhbgd_data|apply dhgd_data|apply dbgd_data|apply dgd_data]. Qed.
End Each.
End Data.
