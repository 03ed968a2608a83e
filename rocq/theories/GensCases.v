(** Witnesses for the learner of Gens and Domingos. *)
From Coq Require Import QArith Reals Lra.
From Verif Require Import Base Res Arith GraphSpec Spn Build GoMap LogSpec Tables TablesSpec DataSpec DataLemmas ProbSpec PoonSpec DennisSpec
  Indep IndepSpec Dbscan SerialCases ClusterCases Gens GensSpec GensTree GensParts GensClusters GensLemmas.
Local Open Scope nat_scope.

(** Exact weights are proper. *)
Lemma shares_proper net z : share_weights (A := XR) net z -> proper_weights net z.
Proof.
  intros H u w R K. destruct (H u w R K) as (Ne & L & ns & n & -> & Hp & Hs). rewrite map_length in L. split; auto.
  assert (Nn : ns <> []) by (intros ->; simpl in L; destruct (nch (net u)); [congruence|discriminate]).
  assert (G : forall l, (forall a, In a l -> 0 < a)%Z -> (0 <= fold_right Z.add 0 l)%Z /\ (l <> [] -> 0 < fold_right Z.add 0 l)%Z).
  { induction l as [|a l IH]; intros Hl; simpl; [split; [lia|congruence]|]. destruct IH as (IH & _); [intros; apply Hl; right; auto|]. specialize (Hl a (or_introl eq_refl)). split; intros; lia. }
  assert (Pn : (0 < n)%Z) by (rewrite <- Hs; apply G; auto). assert (Pr : (0 < IZR n)%R) by (apply IZR_lt; auto).
  exists (map (fun a => IZR a / IZR n)%R ns). split; [|split; [rewrite map_length; auto|split]].
  - rewrite map_map. apply map_ext. intros a. cbn [fdiv fz XR xdiv]. destruct (Req_EM_T (IZR n) 0); [lra|]. reflexivity.
  - intros q Hq. apply in_map_iff in Hq as (a & <- & Ha). apply Rdiv_lt_0_compat; auto. apply IZR_lt, Hp. auto.
  - assert (E : forall l, Rsum (map (fun a => IZR a / IZR n)%R l) = (IZR (fold_right Z.add 0%Z l) / IZR n)%R).
    { induction l as [|a l IH]; cbn [map Rsum fold_right]; [lra|]. rewrite IH, plus_IZR. lra. }
    rewrite E, Hs. field. lra.
Qed.

(** Two variables with two values each, four rows. *)
Definition sc2 : scope := [(0, mkVar 0 2); (1, mkVar 1 2)]%Z.
Definition rows4 : list gmap := [[(0, 0); (1, 0)]; [(0, 0); (1, 0)]; [(0, 1); (1, 1)]; [(0, 1); (1, 0)]]%Z.
Definition oS (_ : list nat) (_ : nat) (s : scope) : scope := rev s.
Definition oD (_ : list nat) (_ : nat) (m : gmap) : gmap := rev m.
Definition alternate {T} (_ : list nat) (M : list T) : res (list Z) := Ok (map (fun i => Z.of_nat (i mod 2)) (seq 0 (length M))).
Definition first (_ : list nat) (_ _ : nat) : nat := 0.
Definition qInt (q : Q) : Z := Z.div (Qnum q) (Zpos (Qden q)).
(** No test finds variables independent. *)
Definition dependent (_ : Q) (_ : Z) : Q := 1%Q.

Lemma admissible_q : @admissible QA oS oD first qInt.
Proof.
  split; [intros p i s; apply Permutation_sym, Permutation_rev|]. split; [intros p i m; apply Permutation_sym, Permutation_rev|]. split; [intros p i n H; exact H|].
  intros x. unfold qInt. cbn. apply Z.div_1_r.
Qed.
Lemma alternate_all : @uses_all_labels (list (F QA)) 2 alternate.
Proof.
  intros p M L. eexists. split; [reflexivity|]. split; [rewrite map_length, seq_length; auto|]. split.
  - intros g H. apply in_map_iff in H as (i & <- & _). pose proof (Nat.mod_upper_bound i 2 ltac:(lia)). lia.
  - intros c Hc. apply in_map_iff. exists (Z.to_nat c). assert (Z.to_nat c < 2) by lia. split; [rewrite Nat.mod_small by auto; lia|apply in_seq; lia].
Qed.
Lemma learnable_4 : learnable sc2 rows4.
Proof.
  constructor; try discriminate.
  - repeat constructor; simpl; intuition congruence.
  - intros x v [E|[E|[]]]; injection E as <- <-; reflexivity.
  - exists [0; 1]%Z. split; [repeat constructor; simpl; intuition congruence|]. split; [|auto].
    intros I H. repeat (destruct H as [<-|H]; [split; [repeat constructor; simpl; intuition congruence|intros x; simpl; tauto]|]). destruct H.
  - intros I x v y HI [E|[E|[]]]; injection E as <- <-; repeat (destruct HI as [<-|HI]; [cbn; intros E; injection E as <-; lia|]); destruct HI.
Qed.

Local Notation qlearn := (@learn QA oS oD alternate first dependent qInt (fun _ _ _ => 0%Q) (fun _ => 0%Z) (fun _ => 0%Z) 100 2 1 (1 # 2)%Q 1%Q).
Local Notation qlearnC := (@learnConcurrent QA oS oD alternate first dependent qInt (fun _ _ _ => 0%Q) (fun _ => 0%Z) (fun _ => 0%Z) 100 2 1 (1 # 2)%Q 1%Q).
Definition shape : tree QA -> list (list Z) := fun t =>
  match t with TLeaf l => [lsc l] | TSum cs => map (fun c => match snd c with TLeaf l => lsc l | TSum cs => [Z.of_nat (length cs)] | TProd cs => [- Z.of_nat (length cs)]%Z end) cs
  | TProd cs => [[Z.of_nat (length cs)]] end.
Lemma qlearn_4 : exists t, qlearn 7 sc2 rows4 = Ok t /\ arity t = 2 /\ shape t = [[2]; [2]]%Z.
Proof. eexists. split; [vm_compute; reflexivity|]. split; reflexivity. Qed.
Lemma qlearn_swap : exists t, qlearnC 6 [1; 0] sc2 rows4 = Ok t /\ arity t = 2.
Proof. eexists. split; [vm_compute; reflexivity|]. reflexivity. Qed.

(** All rows in the first of two clusters. *)
Definition lumped {T} (_ : list nat) (M : list T) : res (list Z) := Ok (repeat 0%Z (length M)).
Definition rows2 : list gmap := [[(1, 0); (0, 0)]; [(1, 1); (0, 1)]]%Z.
Lemma learnable_2 : learnable sc2 rows2.
Proof.
  constructor; try discriminate.
  - repeat constructor; simpl; intuition congruence.
  - intros x v [E|[E|[]]]; injection E as <- <-; reflexivity.
  - exists [0; 1]%Z. split; [repeat constructor; simpl; intuition congruence|]. split; [|auto].
    intros I H. repeat (destruct H as [<-|H]; [split; [repeat constructor; simpl; intuition congruence|intros x; simpl; tauto]|]). destruct H.
  - intros I x v y HI [E|[E|[]]]; injection E as <- <-; repeat (destruct HI as [<-|HI]; [cbn; intros E; injection E as <-; lia|]); destruct HI.
Qed.
Lemma endless_l : exists (A : arith) ordS ordD km rnd chi2 (toInt : F A -> Z) logProb trunc round ufuel k mp pval eps Sc D,
  admissible ordS ordD rnd toInt /\ learnable Sc D /\ (0 < k)%Z /\
  (forall p M, exists G, km p M = Ok G /\ length G = length M /\ forall g, In g G -> (0 <= g < k)%Z) /\
  forall fuel, learn ordS ordD km rnd chi2 toInt logProb trunc round ufuel k mp pval eps fuel Sc D = Fuel.
Proof.
  exists QA, oS, oD, lumped, first, dependent, qInt, (fun _ _ _ => 0%Q), (fun _ => 0%Z), (fun _ => 0%Z), 100, 2%Z, 1%Z, (1 # 2)%Q, 1%Q, sc2, rows2.
  split; [apply admissible_q|]. split; [apply learnable_2|]. split; [lia|]. split.
  - intros p M. eexists. split; [reflexivity|]. split; [apply repeat_length|]. intros g H. apply repeat_spec in H. lia.
  - intros fuel. unfold learn. generalize (@nil nat). induction fuel as [|fuel IH]; intros p; [reflexivity|]. cbn [learnAt].
    revert IH. change (0 <? 0)%Z with false. generalize (@learnAt QA oS oD lumped first dependent qInt (fun _ _ _ : F QA => 0%Q) (fun _ : F QA => 0%Z) (fun _ : F QA => 0%Z) 100 2 1 (1 # 2)%Q 1%Q fuel false 0).
    intros rec IH. vm_compute in IH. vm_compute. rewrite IH. reflexivity.
Qed.

(** DBSCAN. *)
Lemma admissible_z : @admissible ZS oS oD first (fun z => z).
Proof.
  split; [intros p i s; apply Permutation_sym, Permutation_rev|]. split; [intros p i m; apply Permutation_sym, Permutation_rev|]. split; [intros p i n H; exact H|]. auto.
Qed.
Lemma dbscan_panics_l : exists (A : arith) ordS ordD km rnd chi2 (toInt : F A -> Z) logProb trunc round ufuel mp pval eps Sc D fuel,
  admissible ordS ordD rnd toInt /\ learnable Sc D /\
  length Sc + length D < fuel /\ length Sc * length Sc < ufuel /\ length D * length D + 2 * length D + 2 <= ufuel /\
  learn ordS ordD km rnd chi2 toInt logProb trunc round ufuel 0 mp pval eps fuel Sc D = Panic.
Proof.
  exists ZS, oS, oD, alternate, first, (fun _ _ => 1%Z), (fun z => z), (fun _ _ _ => 0%Z), (fun _ => 0%Z), (fun _ => 0%Z), 100, 1%Z, 1%Z, 2%Z, sc2, rows2, 9.
  split; [apply admissible_z|]. split; [apply learnable_2|]. simpl length. repeat (split; [lia|]). vm_compute. reflexivity.
Qed.
