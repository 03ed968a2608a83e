(** Concrete datasets: counterexamples and instances of the theorems. *)
From Coq Require Import Reals Lra.
From Verif Require Import Base Res Arith LogSpec LogLemmas GoMap Data DataSpec DataLemmas DataLoops DataRows DataParts DataByLabel.

Definition inorder (_ : nat) (m : gmap) : gmap := m.
Lemma inorder_ok : visits_all inorder. Proof. intros i m. apply Permutation_refl. Qed.
(** The entries backwards. *)
Definition backwards (_ : nat) (m : gmap) : gmap := rev m.
Lemma backwards_ok : visits_all backwards. Proof. intros i m. apply Permutation_sym, Permutation_rev. Qed.

(** Three instances over variables 0 and 1. *)
Definition three : heap := mkHeap (fun r => match r with 0 => [(0%Z, 3%Z); (1%Z, 4%Z)] | 1 => [(0%Z, 5%Z)] | 2 => [(1%Z, 6%Z); (0%Z, 7%Z)] | _ => [] end) 3.
Lemma three_good : good_heap three.
Proof. intros [|[|[|r]]]; simpl; repeat constructor; simpl; intuition lia. Qed.
Lemma three_rows : rows_exist three [0; 1; 2].
Proof. intros r [<-|[<-|[<-|[]]]]; simpl; lia. Qed.

Lemma go_round_eq x z : (IZR z - 1 / 2 < x < IZR z + 1 / 2)%R -> go_round x = z.
Proof.
  intros H. pose proof (go_round_close x) as Hc. assert (Hd : (Rabs (IZR (go_round x) - IZR z) < 1)%R).
  { replace (IZR (go_round x) - IZR z)%R with ((IZR (go_round x) - x) + (x - IZR z))%R by lra. eapply Rle_lt_trans; [apply Rabs_triang|].
    assert (Rabs (x - IZR z) < 1 / 2)%R by (apply Rabs_def1; lra). lra. }
  rewrite <- minus_IZR, <- abs_IZR in Hd. apply (lt_IZR _ 1) in Hd. lia.
Qed.
Lemma Int_part_is x z : (IZR z <= x < IZR z + 1)%R -> Int_part x = z.
Proof.
  intros H. pose proof (Int_part_lt x) as H'. assert (H1 : (IZR (Int_part x) < IZR (z + 1))%R) by (rewrite plus_IZR; lra). assert (H2 : (IZR z < IZR (Int_part x + 1))%R) by (rewrite plus_IZR; lra).
  apply lt_IZR in H1. apply lt_IZR in H2. lia.
Qed.
Lemma go_round_half : go_round (1 / 2) = 1%Z.
Proof. unfold go_round. destruct (Rle_dec 0 (1 / 2)); [|lra]. apply Int_part_is. lra. Qed.
Lemma go_round_mhalf : go_round (- (1 / 2)) = (-1)%Z.
Proof. unfold go_round. destruct (Rle_dec 0 (- (1 / 2))); [lra|]. rewrite (Int_part_is _ 1); [auto|]. lra. Qed.

Lemma partition_panics (fround : F XR -> Z) : (forall r, fround (Fin r) = go_round r) ->
  @partition inorder XR fround three [1] [0] (map Fin [1 / 2; 0; 1 / 2]%R) = Panic.
Proof.
  intros Hr. unfold partition.
  assert (E : exists z, @cascadeRounding XR fround (map (fun pi => @fmul XR (@fz XR (Z.of_nat (length [1]))) pi) (map Fin [1 / 2; 0; 1 / 2]%R)) = [1%Z; (-1)%Z; z]).
  { eexists. unfold cascadeRounding. cbn [map fold_left snd length Z.of_nat app].
    assert (E1 : fround (@fsub XR (@fadd XR (@fz XR 0) (@fmul XR (@fz XR (Z.of_nat 1)) (Fin (1 / 2)))) (@fz XR 0)) = 1%Z).
    { etransitivity; [apply Hr|]. etransitivity; [|apply go_round_half]. f_equal. simpl. lra. }
    cbn [Pos.of_succ_nat] in *. change (Z.of_nat 1) with 1%Z in *. rewrite E1.
    assert (E2 : fround (@fsub XR (@fadd XR (@fadd XR (@fz XR 0) (@fmul XR (@fz XR 1) (Fin (1 / 2)))) (@fmul XR (@fz XR 1) (Fin 0))) (@fz XR (0 + 1))) = (-1)%Z).
    { etransitivity; [apply Hr|]. etransitivity; [|apply go_round_mhalf]. f_equal. simpl. lra. }
    rewrite E2. reflexivity. }
  destruct E as [z E]. change (F XR) with xreal in *. rewrite E. reflexivity.
Qed.

Lemma partition_refuted_w : exists ord h D R p,
  visits_all ord /\ good_heap h /\ rows_exist h D /\ Permutation R (seq 0 (length D)) /\ (forall x, In x p -> 0 <= x)%R /\ Rsum p = 1%R /\
  forall fround : F XR -> Z, (forall r, fround (Fin r) = go_round r) -> @partition ord XR fround h D R (map Fin p) = Panic.
Proof.
  exists inorder, three, [1], [0], [1 / 2; 0; 1 / 2]%R. split; [apply inorder_ok|]. split; [apply three_good|]. split; [intros r [<-|[]]; simpl; lia|].
  split; [apply Permutation_refl|]. split; [intros x [<-|[<-|[<-|[]]]]; lra|]. split; [simpl; lra|]. apply partition_panics.
Qed.

Lemma divide_refuted_w : exists ord h D L n, visits_all ord /\ good_heap h /\ rows_exist h D /\ length L = length D /\ (0 < n)%Z /\ divide ord h D L n = Panic.
Proof.
  exists inorder, three, [0], [0%Z], 2%Z. split; [apply inorder_ok|]. split; [apply three_good|]. split; [intros r [<-|[]]; simpl; lia|]. split; auto. split; [lia|]. reflexivity.
Qed.

Lemma identical_refuted_w : exists ord h D E, visits_all ord /\ good_heap h /\ rows_exist h D /\ rows_exist h E /\ length D = length E /\
  identical ord h D E None None = Ok true /\ ~ Forall2 (fun r s => meq (mem h r) (mem h s)) D E.
Proof.
  exists inorder, (mkHeap (fun r => match r with 1 => [(1%Z, 1%Z)] | _ => [] end) 2), [0], [1].
  split; [apply inorder_ok|]. split; [intros [|[|r]]; simpl; repeat constructor; simpl; tauto|]. split; [intros r [<-|[]]; simpl; lia|]. split; [intros r [<-|[]]; simpl; lia|].
  split; auto. split; [reflexivity|]. intros H. inversion H as [|? ? ? ? H1 _]; subst. specialize (H1 1%Z). discriminate H1.
Qed.

(** PartitionByLabels on rows 0 and 1 with labels 1 and 0. *)
Lemma byLabels_lost (fround : F XR -> Z) (ffloor fabs : F XR -> F XR) : (forall r, fround (Fin r) = go_round r) -> (forall r, ffloor (Fin r) = Fin (IZR (Int_part r))) ->
  exists h' M U, @partitionByLabels inorder XR fround ffloor fabs three [0; 1] [1%Z; 0%Z] 2 (map Fin [1 / 2; 1 / 2]%R) [[0]; [0]] = Ok (h', M, U) /\
    (M = [[3; 4]; []] \/ M = [[]; [3; 4]]) /\ get (mem h' 3) 0 = Some 3%Z /\ get (mem h' 4) 0 = Some 3%Z.
Proof.
  intros Hr Hf. unfold partitionByLabels. change (byClass (length [0; 1]) [1%Z; 0%Z] 2) with (Ok [[1]; [0]]). cbn [bind].
  assert (Es : @partSizes XR fround ffloor (Z.to_nat 2) (map (@length nat) [[1]; [0]]) (map Fin [1 / 2; 1 / 2]%R) = Ok [[0%Z; 0%Z]; [0%Z; 0%Z]]).
  { unfold partSizes, mapi. rewrite mapi_pure. f_equal. cbn [map length].
    assert (E1 : ffloor (@fmul XR (@fz XR (Z.of_nat 1)) (Fin (1 / 2))) = Fin (IZR 0)).
    { etransitivity; [apply Hf|]. rewrite (Int_part_is _ 0); auto. simpl. lra. }
    change (F XR) with xreal in *. rewrite E1. pose proof (cascade_int fround Hr [0%Z; 0%Z]) as Ec. cbn [map] in Ec. change (F XR) with xreal in *. rewrite Ec. auto. }
  change (F XR) with xreal in *. rewrite Es. cbn [bind].
  assert (Ef : exists d, @furthest XR fabs (length [0; 1]) [[]; []] (map Fin [1 / 2; 1 / 2]%R) = Ok d /\ (d = 0 \/ d = 1)).
  { unfold furthest, foldi. cbn [foldi_from map idx nth_error orPanic bind]. cbn [Nat.add]. unfold idx, orPanic. cbn [nth_error bind]. eexists. split; [reflexivity|].
    match goal with |- snd (if ?a then _ else _) = _ \/ _ => destruct a end; cbn [snd]; auto. match goal with |- snd (if ?a then _ else _) = _ \/ _ => destruct a end; cbn [snd]; auto. }
  destruct Ef as (d & Ed & Hd).
  assert (Ep : foldr_ (fun (st : heap * list (list nat) * list (list Z) * list nat) Si =>
         let '(h, M, U, K) := st in
         if (fold_left Z.add Si 0 <? 0)%Z then Panic else
         bind (takePart inorder [0; 1] [[1]; [0]] [[0]; [0]] Si h K) (fun t =>
         let '(h', out, lab, K') := t in
         if (fold_left Z.add Si 0 <? Z.of_nat (length out))%Z then Panic else Ok (h', M ++ [out], U ++ [lab], K'))) [[0%Z; 0%Z]; [0%Z; 0%Z]] (three, [], [], repeat 0 (Z.to_nat 2))
    = Ok (three, [[]; []], [[]; []], [0; 0])) by reflexivity.
  rewrite Ep. cbn [bind]. change (F XR) with xreal in *. rewrite Ed. cbn [bind].
  destruct Hd as [-> | ->]; eexists; eexists; eexists; (split; [reflexivity|]); (split; [auto|]); split; reflexivity.
Qed.

Lemma byLabels_refuted_w : exists ord h D L c p Rs, visits_all ord /\ good_heap h /\ rows_exist h D /\ length L = length D /\ (forall l, In l L -> 0 <= l < c)%Z /\
  length Rs = Z.to_nat c /\ (forall j, j < Z.to_nat c -> Permutation (nth j Rs []) (seq 0 (length (where_label (Z.eqb (Z.of_nat j)) L)))) /\
  (forall x, In x p -> 0 <= x)%R /\ Rsum p = 1%R /\
  forall (fround : F XR -> Z) (ffloor fabs : F XR -> F XR), (forall r, fround (Fin r) = go_round r) -> (forall r, ffloor (Fin r) = Fin (IZR (Int_part r))) ->
  exists h' M U, @partitionByLabels ord XR fround ffloor fabs h D L c (map Fin p) Rs = Ok (h', M, U) /\
    ~ exists idxs, exactly_once (length D) idxs /\ Forall2 (copies h D h') idxs M.
Proof.
  exists inorder, three, [0; 1], [1%Z; 0%Z], 2%Z, [1 / 2; 1 / 2]%R, [[0]; [0]].
  split; [apply inorder_ok|]. split; [apply three_good|]. split; [intros r [<-|[<-|[]]]; simpl; lia|]. split; auto. split; [intros l [<-|[<-|[]]]; lia|]. split; auto.
  split; [intros [|[|j]] Hj; simpl in *; try lia; apply Permutation_refl|]. split; [intros x [<-|[<-|[]]]; lra|]. split; [simpl; lra|].
  intros fround ffloor fabs Hr Hf. destruct (byLabels_lost fround ffloor fabs Hr Hf) as (h' & M & U & E & HM & H3 & H4). exists h', M, U. split; auto.
  intros (idxs & HP & HF).
  assert (Hall : forall i, In i (concat idxs) -> i <> 1).
  { intros i Hi ->. apply in_concat in Hi as (is & His & Hi). assert (Hx : exists out, In out M /\ copies three [0; 1] h' is out).
    { clear -HF His. induction HF as [|a b l m H _ IH]; [destruct His|]. destruct His as [->|His]; [exists b; split; [left; auto|auto]|]. destruct (IH His) as (o & Ho & Hc). exists o. split; [right; auto|auto]. }
    destruct Hx as (out & Ho & Hc). assert (Hy : exists r', In r' out /\ meq (mem three 1) (mem h' r')).
    { clear -Hc Hi. unfold copies in Hc. induction Hc as [|a b l m H _ IH]; [destruct Hi|]. destruct Hi as [->|Hi].
      - destruct H as (r & Hr & Hm). injection Hr as <-. exists b. split; [left; auto|auto].
      - destruct (IH Hi) as (r' & Hr' & Hm). exists r'. split; [right; auto|auto]. }
    destruct Hy as (r' & Hr' & Hm). specialize (Hm 0%Z). cbn [three mem get Z.eqb] in Hm.
    assert (Hr3 : r' = 3 \/ r' = 4) by (destruct HM as [-> | ->]; simpl in Ho; intuition (subst; simpl in *; intuition auto)).
    destruct Hr3 as [-> | ->]; [rewrite H3 in Hm|rewrite H4 in Hm]; discriminate Hm. }
  apply (Hall 1); auto. apply (Permutation_in _ (Permutation_sym HP)). simpl. auto.
Qed.
