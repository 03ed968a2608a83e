From Coq Require Import Reals Lra.
From Verif Require Import Base Res Arith LogMath LogSpec LogLemmas GraphSpec GraphLemmas Topo TopoLemmas
  Storer Spn SpnSpec SpnLemmas.

Lemma value_fuel_l {A : arith} (net : network A) N r I :
  bounded (children net) N -> r < N -> acyclic (children net) ->
  forall fuel, N <= fuel -> value net fuel I r = value net N I r /\ value net fuel I r <> Fuel.
Proof.
  intros Hb Hr Ha fuel Hf. destruct (value_stable net N r I Hb Hr Ha r fuel (reach_refl _ _) Hf) as (H1 & H2 & _).
  auto.
Qed.

(** Witness for C15: 0 = sum(1/2: 1, 1/2: 2), 2 = sum(1/2: 1, 1/2: 3), leaves 1 and 3. *)
Definition const_leaf (x : xreal) : leaf XR :=
  @mkLeaf XR [0%Z] (fun _ => Some x) (fun _ => Some x) (fun _ => Some ((fun _ => None), x)).

Definition wit15 : network XR := fun u =>
  match u with
  | 0 => mkNode (@KSum XR [Fin (/2); Fin (/2)]) [1; 2]
  | 1 => mkNode (KLeaf (const_leaf NInf)) []
  | 2 => mkNode (@KSum XR [Fin (/2); Fin (/2)]) [1; 3]
  | _ => mkNode (KLeaf (const_leaf (Fin 0))) []
  end.

Definition wit15_rank (u : nat) : nat := match u with 0 => 2 | 2 => 1 | _ => 0 end.

Lemma wlog_half : @flog XR (Fin (/2)) = xln (/2).
Proof. apply xlog_nonneg. lra. Qed.

Lemma inference_refuted_l :
  exists (net : network XR) (N r : nat) (I : varset),
    bounded (children net) N /\ r < N /\ acyclic (children net) /\
    leaves_childless net /\ sums_nonempty net /\
    value net N I r = Ok (xln (/4)) /\ inference net (2 * N + 1) r I = Ok (xln (/2)).
Proof.
  exists wit15, 4, 0, (fun _ => None).
  assert (H0 : Fin 0 = xln 1) by (rewrite xln_one; auto).
  assert (HN : NInf = xln 0) by (rewrite xln_zero; auto).
  repeat match goal with |- _ /\ _ => split end.
  - intros u c. unfold children. destruct u as [|[|[|u]]]; simpl; intros H; intuition lia.
  - lia.
  - apply (ranked_acyclic _ wit15_rank). intros x c. unfold children.
    destruct x as [|[|[|x]]]; simpl; intros H; intuition (subst; simpl; lia).
  - intros u l. destruct u as [|[|[|u]]]; simpl; try discriminate; auto.
  - intros u w. destruct u as [|[|[|u]]]; simpl; discriminate.
  - assert (V2 : value wit15 3 (fun _ => None) 2 = Ok (xln (/2))).
    { change (value wit15 3 (fun _ => None) 2)
        with (@logSumExp XR [xadd NInf (@flog XR (Fin (/2))); xadd (Fin 0) (@flog XR (Fin (/2)))]).
      rewrite wlog_half, H0, HN, !xadd_xln by lra.
      change [xln (0 * / 2); xln (1 * / 2)] with (map xln [0 * /2; 1 * /2])%R.
      rewrite logSumExp_xln; [f_equal; f_equal; simpl; lra|discriminate|].
      simpl; intros x [<-|[<-|[]]]; lra. }
    change (value wit15 4 (fun _ => None) 0)
      with (vals <- sumVals (value wit15 3 (fun _ => None)) [Fin (/2); Fin (/2)] [1; 2];
            @sumCompute XR vals).
    unfold sumVals, mapi. cbn [mapi_from]. rewrite V2.
    change (value wit15 3 (fun _ => None) 1) with (@Ok xreal NInf). cbn [bind idx nth_error].
    change (@fadd XR) with xadd. unfold sumCompute.
    rewrite wlog_half, HN, !xadd_xln by lra.
    change [xln (0 * / 2); xln (/ 2 * / 2)] with (map xln [0 * /2; /2 * /2])%R.
    rewrite logSumExp_xln; [f_equal; f_equal; simpl; lra|discriminate|].
    simpl; intros x [<-|[<-|[]]]; lra.
  - set (V1 := upd (fun _ : nat => @None xreal) 3 (Some (Fin 0))).
    assert (E2 : inferNode wit15 (fun _ => None) V1 2 = Ok (upd V1 2 (Some (xln 1)))).
    { change (inferNode wit15 (fun _ => None) V1 2) with
        (v <- @logSumExp XR [xadd (Fin 0) (@flog XR (Fin (/2))); xadd (Fin 0) (@flog XR (Fin (/2)))];
         Ok (upd V1 2 (Some v))).
      rewrite wlog_half, H0, !xadd_xln by lra.
      change [xln (1 * / 2); xln (1 * / 2)] with (map xln [1 * /2; 1 * /2])%R.
      rewrite logSumExp_xln; [|discriminate|simpl; intros x [<-|[<-|[]]]; lra]. cbn [bind].
      do 3 f_equal. f_equal. simpl; lra. }
    set (V2 := upd V1 2 (Some (xln 1))) in *.
    set (V3 := upd V2 1 (Some NInf)).
    assert (E0 : inferNode wit15 (fun _ => None) V3 0 = Ok (upd V3 0 (Some (xln (/2))))).
    { change (inferNode wit15 (fun _ => None) V3 0) with
        (v <- @logSumExp XR [xadd NInf (@flog XR (Fin (/2))); xadd (xln 1) (@flog XR (Fin (/2)))];
         Ok (upd V3 0 (Some v))).
      rewrite wlog_half, HN, !xadd_xln by lra.
      change [xln (0 * / 2); xln (1 * / 2)] with (map xln [0 * /2; 1 * /2])%R.
      rewrite logSumExp_xln; [|discriminate|simpl; intros x [<-|[<-|[]]]; lra]. cbn [bind].
      do 3 f_equal. f_equal. simpl; lra. }
    change (inference wit15 (2 * 4 + 1) 0 (fun _ => None)) with
      (V <- foldr_ (inferNode wit15 (fun _ => None)) [2; 1; 0] V1; Ok (getV V 0)).
    cbn [foldr_]. rewrite E2. cbn [bind].
    change (inferNode wit15 (fun _ => None) V2 1) with (Ok V3). cbn [bind]. rewrite E0. cbn [bind].
    unfold getV. rewrite upd_same. reflexivity.
Qed.

(** A computable arithmetic for examples. *)
Definition ZA : arith :=
  mkArith Z (fun z => z) (-1000)%Z Z.add Z.sub Z.mul Z.div (fun x => x) (fun x => x) (fun x => x)
          (fun x => x) Z.gtb Z.geb Z.eqb (fun _ => false).

Definition ex_leaf (x : Z) (a b : Z) : leaf ZA :=
  @mkLeaf ZA [x] (fun I => match I x with None => Some 0%Z | Some 0%Z => Some a | Some 1%Z => Some b | _ => None end)
         (fun I => None) (fun I => None).

Definition ex_net : network ZA := fun u =>
  match u with
  | 0 => mkNode (@KSum ZA [3%Z; 4%Z]) [1; 2]
  | 1 => mkNode KProd [3; 4]
  | 2 => mkNode KProd [4; 3]
  | 3 => mkNode (KLeaf (ex_leaf 0 5 6)) []
  | _ => mkNode (KLeaf (ex_leaf 1 1 2)) []
  end.

Lemma ex_net_case :
  bounded (children ex_net) 5 /\ acyclic (children ex_net) /\ siblings_ok (children ex_net) /\
  leaves_childless ex_net /\ sums_nonempty ex_net /\ nch (ex_net 0) <> [] /\
  (forall u l, nk (ex_net u) = KLeaf l -> univariate l) /\
  inference ex_net 11 0 (setvar (setvar (fun _ => None) 0 1) 1 0) = Ok 10%Z /\
  inferenceY ex_net 11 0 (setvar (fun _ => None) 0 1) 1 0 = Ok 10%Z.
Proof.
  assert (G : graded (children ex_net) (fun u => match u with 0 => 0 | 1 | 2 => 1 | _ => 2 end)).
  { intros x c. unfold children. destruct x as [|[|[|[|x]]]]; simpl; intros H; intuition (subst; auto). }
  destruct (graded_siblings_acyclic _ _ G) as [Hs Ha].
  split. { intros u c. unfold children. destruct u as [|[|[|[|u]]]]; simpl; intros H; intuition lia. }
  split; auto. split; auto.
  split. { intros u l. destruct u as [|[|[|[|u]]]]; simpl; try discriminate; auto. }
  split. { intros u w. destruct u as [|[|[|[|u]]]]; simpl; discriminate. }
  split; [discriminate|].
  split. { intros u l. destruct u as [|[|[|[|u]]]]; simpl; try discriminate; intros E; injection E as <-;
    eexists; exists []; (split; [reflexivity|]); intros I J HE; simpl; rewrite HE; reflexivity. }
  split; vm_compute; reflexivity.
Qed.
