(** Concrete scores: counterexamples and instances of the theorems. *)
From Coq Require Import Reals Lra.
From Verif Require Import Base Res Arith LogSpec GoMap Data DataSpec DataLemmas DataCases Score ScoreSpec ScoreLemmas EvalLemmas EvalConc Params ParamsSpec ParamsLemmas.
Local Open Scope Z_scope.

Lemma bookkeeping : forall grow cs, well_formed 0 cs -> no_add cs ->
  exists w, performs grow cs = Ok w /\ length (objs w) = length (recorded cs) /\
  forall s sc l, nth_error (objs w) s = Some sc -> nth_error (recorded cs) s = Some l -> view w sc = l /\ tallies sc l /\
  forall c : nat, (forall p e, In (p, e) l -> 0 <= p < Z.of_nat c /\ 0 <= e < Z.of_nat c) ->
  exists M, confusionMatrix w sc (Z.of_nat c) = Ok M /\ square c M /\
    (forall e p, (e < c)%nat -> (p < c)%nat -> cell M e p = Z.of_nat (count_occ pair_dec l (Z.of_nat p, Z.of_nat e))) /\
    total_of M = total sc /\ trace_of M = hits sc.
Proof.
  intros grow cs Hw Hn. destruct (refines_run grow cs Hw (no_add_full grow cs Hn)) as (w & E & W & Sp & H). exists w. split; auto. split; [apply holds_length; auto|].
  intros s sc l Hs Hl. destruct (holds_at w _ s sc H Hs) as (Hv & Ht & Hnth). rewrite Hl in Hnth. injection Hnth as Hnth. rewrite <- Hnth in *. split; auto. split; auto.
  intros c Hc. unfold confusionMatrix. destruct (Z.ltb_spec (Z.of_nat c) 0); [lia|]. rewrite Nat2Z.id, Hv.
  destruct (confusion_ok c l Hc) as (M & EM & Sq & Hcell & Htot & Htr). exists M. split; auto. split; auto. split; auto. destruct Ht as (T1 & T2 & T3 & T4). lia.
Qed.
Lemma add_isolated : forall grow cs, well_formed 0 cs -> adds_full grow cs ->
  exists w, performs grow cs = Ok w /\ Forall2 (fun sc l => view w sc = l /\ tallies sc l) (objs w) (recorded cs).
Proof. intros grow cs Hw Ha. destruct (refines_run grow cs Hw Ha) as (w & E & W & Sp & H). eauto. Qed.

Lemma add_case_w : let cs := [CNew; CRegister 0 1 1; CRegister 0 0 2; CAdd 0 0; CRegister 0 3 4; CRegister 1 5 5] in
  well_formed 0 cs /\ adds_full go_grow cs /\ recorded cs = [[(1, 1); (0, 2); (3, 4)]; [(1, 1); (0, 2); (1, 1); (0, 2); (5, 5)]].
Proof.
  split; [simpl; repeat split; lia|]. split; [|reflexivity]. intros pre s t post w E Ew.
  destruct pre as [|c0 [|c1 [|c2 [|c3 [|c4 [|c5 [|c6 pre]]]]]]]; simpl in E; try discriminate.
  injection E as <- <- <- <- <- <-. vm_compute in Ew. injection Ew as <-. intros sc Hsc. simpl in Hsc. injection Hsc as <-. reflexivity.
Qed.
Lemma add_refuted_w : exists cs c w w' m sc, well_formed 0 (cs ++ [c]) /\ performs go_grow cs = Ok w /\ perform go_grow w c = Ok w' /\
  (exists s t, In (CAdd s t) cs) /\ c = CRegister 0 9 9 /\ m <> 0%nat /\ nth_error (objs w) m = Some sc /\ nth_error (objs w') m = Some sc /\ view w' sc <> view w sc.
Proof.
  exists [CNew; CRegister 0 1 1; CRegister 0 0 2; CRegister 0 2 2; CNew; CRegister 1 5 5; CAdd 0 1], (CRegister 0 9 9).
  eexists. eexists. exists 2%nat. eexists. split; [simpl; repeat split; lia|]. split; [vm_compute; reflexivity|]. split; [vm_compute; reflexivity|].
  split; [exists 0%nat, 1%nat; simpl; auto 10|]. split; auto. split; [lia|]. split; [reflexivity|]. split; [reflexivity|]. vm_compute. discriminate.
Qed.

(** One empty score. *)
Definition score1 : world := fst (newScore world0).
Lemma score1_wf : wf score1. Proof. apply newScore_wf, wf0. Qed.

Lemma evaluate_refuted_w : exists grow smap h w s T L v, wf w /\ (s < length (objs w))%nat /\ length L = length T /\ T <> [] /\
  (forall r, In r T -> get (mem h r) v <> None) /\ (forall I, exists M, smap I = Ok M) /\ evaluate grow smap h w s T L v = Panic.
Proof.
  exists go_grow, (fun I => Ok I), three, score1, 0%nat, [0; 2]%nat, [0; 1], 1. split; [exact score1_wf|]. split; [simpl; lia|]. split; auto. split; [discriminate|].
  split; [intros r [<-|[<-|[]]]; discriminate|]. split; [eauto|reflexivity].
Qed.

(** Prefers label 1 for odd values of variable 0. *)
Definition prefer (I : gmap) : res xreal :=
  match get I 1 with
  | None => Ok (Fin 0)
  | Some j => if j =? (get0 I 0) mod 2 then Ok (Fin (- 1)) else Ok NInf
  end.
Lemma concurrent_case_w : (forall a b, meq a b -> prefer a = prefer b) /\ (forall r, In r [0; 2; 0; 2; 0; 2; 0; 2; 0; 2]%nat -> possible prefer 1 2 (mem three r)) /\
  wf score1 /\ (0 < length (objs score1))%nat /\ rows_exist three [0; 2; 0; 2; 0; 2; 0; 2; 0; 2]%nat.
Proof.
  split; [intros a b H; unfold prefer, get0; rewrite !H; auto|]. split; [|split; [exact score1_wf|split; [simpl; lia|]]].
  - intros r _. split.
    + exists 0%R. unfold prefer. rewrite get_del. reflexivity.
    + intros j _. unfold prefer. rewrite get_put. simpl. destruct (Z.of_nat j =? _); eexists; split; try reflexivity; exact Logic.I.
  - intros r Hr. simpl in Hr. simpl. lia.
Qed.

Lemma leaf_refuted_w : exists t e p q t1, fst e = TLeaf 0 /\ (p < length (ps t))%nat /\ parametersOf (bindP t e p) e = (t1, q) /\ q <> p.
Proof. exists (fst (newP table0 defaultP)), (TLeaf 0, 4%nat), 0%nat, 1%nat. eexists. split; auto. split; [simpl; lia|]. split; [reflexivity|discriminate]. Qed.
Lemma concurrent_refuted_w : exists o sched t ths p q, interleave sched table0 [Calling o; Calling o] = (t, ths) /\ ths = [Got p; Got q] /\
  p <> q /\ retrieve t (receiver o) = Some q.
Proof. exists (TSum, 1%nat), [0; 1; 0; 1]%nat. eexists. eexists. exists 0%nat, 1%nat. split; [reflexivity|]. split; [reflexivity|]. split; [discriminate|reflexivity]. Qed.
