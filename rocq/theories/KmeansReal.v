(** OldKMeansF with the Euclidean distance over the reals: distances, centroids and the total squared distance. *)
From Coq Require Import Reals Lra Permutation.
From Verif Require Import Base Res Arith LogSpec LogLemmas ProbLemmas Dbscan Kmeans KmeansSpec KmeansLemmas.
Local Open Scope R_scope.

Definition co (x : list R) (j : nat) : R := nth j x 0.
Definition d2 (n : nat) (x y : list R) : R := Rsum (map (fun j => (co x j - co y j) * (co x j - co y j)) (seq 0 n)).

Lemma d2_pos n x y : 0 <= d2 n x y.
Proof. apply Rsum_nonneg. intros v Hv. apply in_map_iff in Hv as (j & <- & _). apply Rle_0_sqr. Qed.

Lemma d2_combine x : forall y, length x = length y -> d2 (length x) x y = Rsum (map (fun p => (fst p - snd p) * (fst p - snd p)) (combine x y)).
Proof.
  induction x as [|a x IH]; intros [|b y] L; try discriminate; [reflexivity|]. cbn [combine map length]. unfold d2. cbn [seq map Rsum fst snd]. f_equal.
  rewrite <- IH by (injection L; auto). unfold d2. rewrite <- seq_shift, map_map. reflexivity.
Qed.

Lemma euclid_fin n x y : length x = n -> length y = n -> @euclideanF XR (map Fin x) (map Fin y) = Ok (Fin (sqrt (d2 n x y))).
Proof.
  intros Lx Ly. unfold euclideanF, foldi.
  assert (G : forall t u a s, length t = length u -> foldi_from (length a) (fun i (s : F XR) (w : F XR) => v <- idx (map Fin (a ++ u) : list (F XR)) i; let l := fsub w v in Ok (fadd s (fmul l l))) (map Fin t) (Fin s)
     = Ok (Fin (s + Rsum (map (fun p => (fst p - snd p) * (fst p - snd p)) (combine t u))))).
  { induction t as [|v t IH]; intros [|w u] a s L; try discriminate; cbn [map foldi_from combine Rsum]; [rewrite Rplus_0_r; reflexivity|].
    rewrite (ok_idx _ _ (Fin w : F XR)); [|rewrite nth_error_map, nth_error_app2, Nat.sub_diag by auto; reflexivity]. cbn [bind].
    replace (length a + 1)%nat with (length (a ++ [w])) by (rewrite app_length; reflexivity).
    replace (a ++ w :: u) with ((a ++ [w]) ++ u) by (rewrite <- app_assoc; reflexivity).
    cbn [fst snd]. rewrite <- Rplus_assoc. refine (eq_trans _ (IH u (a ++ [w]) (s + (v - w) * (v - w)) _)); [reflexivity|injection L; auto]. }
  pose proof (G x y [] 0 ltac:(congruence)) as E. cbn [app length] in E. change (@fz XR 0) with (Fin (IZR 0)). rewrite E. cbn [bind].
  rewrite Rplus_0_l, <- d2_combine, Lx by congruence. cbn [fsqrt XR xsqrt]. pose proof (d2_pos n x y).
  destruct (Rlt_dec (d2 n x y) 0); [lra|reflexivity].
Qed.

(** *** Centroids *)
Definition lift (e : Z * list R) : Z * list (F XR) := (fst e, map Fin (snd e)).
Definition rtot (cl : list (Z * list R)) (j : nat) : R := Rsum (map (fun e => co (snd e) j) cl).
Definition rcent (n : nat) (cl : list (Z * list R)) : list R :=
  match cl with [] => repeat 0 n | _ => map (fun j => rtot cl j / INR (length cl)) (seq 0 n) end.

Lemma rcent_length n cl : length (rcent n cl) = n.
Proof. destruct cl; cbn [rcent]; [apply repeat_length|rewrite map_length, seq_length; auto]. Qed.

Lemma co_map f n j : (j < n)%nat -> co (map f (seq 0 n)) j = f j.
Proof. intros H. unfold co. apply nth_error_nth. apply nth_map_seq. auto. Qed.

Lemma vadd_fin (u x : list R) : length u = length x ->
  @vadd XR (map Fin u) (map Fin x) = map Fin (map (fun j => co u j + co x j) (seq 0 (length x))).
Proof.
  revert x. induction u as [|a u IH]; intros [|b x] L; try discriminate; [reflexivity|].
  unfold vadd in *. cbn [map combine length seq fst snd]. rewrite IH by (injection L; auto). rewrite <- seq_shift, !map_map. reflexivity.
Qed.

Lemma total_fin n cl : (forall e, In e cl -> length (snd e) = n) -> @total XR n (map lift cl) = map Fin (map (rtot cl) (seq 0 n)).
Proof.
  unfold total. induction cl as [|e cl IH] using rev_ind; intros H.
  - cbn [map fold_left rtot]. unfold rtot. cbn [map Rsum]. rewrite map_map. rewrite <- (seq_length n 0) at 1. generalize (seq 0 n). induction l as [|y l IH]; auto. cbn [length repeat map]. rewrite IH. reflexivity.
  - rewrite map_app, fold_left_app, IH by (intros; apply H, in_or_app; auto). cbn [map fold_left lift snd].
    assert (Le : length (snd e) = n) by (apply H, in_or_app; right; left; auto). rewrite vadd_fin by (rewrite map_length, seq_length; auto).
    f_equal. rewrite Le. apply map_ext_in. intros j Hj. apply in_seq in Hj. rewrite co_map by lia. unfold rtot. rewrite map_app, Rsum_app. cbn [map Rsum]. lra.
Qed.

Lemma centroid_fin n cl : (forall e, In e cl -> length (snd e) = n) -> @centroid XR n (map lift cl) = map Fin (rcent n cl).
Proof.
  intros H. destruct cl as [|e cl].
  - cbn [map centroid rcent]. generalize n. induction n0 as [|m IH]; auto. cbn [repeat map]. rewrite IH. reflexivity.
  - unfold centroid. change (map lift (e :: cl)) with (lift e :: map lift cl). cbv iota beta. change (lift e :: map lift cl) with (map lift (e :: cl)).
    rewrite total_fin by auto. rewrite map_length. unfold rcent. rewrite !map_map. apply map_ext. intros j. cbn [fdiv fz XR xdiv].
    rewrite <- INR_IZR_INZ. destruct (Req_EM_T (INR (length (e :: cl))) 0) as [E|]; auto. exfalso. revert E. apply not_0_INR. discriminate.
Qed.

(** The mean minimises the squared distance. *)
Lemma mean_min1 (l : list R) y : l <> [] -> Rsum (map (fun x => (x - Rsum l / INR (length l)) * (x - Rsum l / INR (length l))) l) <= Rsum (map (fun x => (x - y) * (x - y)) l).
Proof.
  intros Hl. set (N := INR (length l)). set (m := Rsum l / N).
  assert (HN : 0 < N) by (apply lt_0_INR; destruct l; [congruence|simpl; lia]).
  assert (G : forall z l', Rsum (map (fun x => (x - z) * (x - z)) l') = Rsum (map (fun x => x * x) l') - 2 * z * Rsum l' + INR (length l') * (z * z)).
  { intros z. induction l' as [|a l' IH]; [simpl; lra|]. cbn [map Rsum]. rewrite IH. change (length (a :: l')) with (S (length l')). rewrite S_INR. ring. }
  rewrite !G. fold N. assert (Em : Rsum l = N * m) by (unfold m; field; lra). rewrite Em.
  assert (0 <= N * ((m - y) * (m - y))) by (apply Rmult_le_pos; [lra|apply Rle_0_sqr]). nra.
Qed.

Definition csum (n : nat) (cl : list (Z * list R)) (y : list R) : R := Rsum (map (fun e => d2 n (snd e) y) cl).
Lemma mean_min n cl y : csum n cl (rcent n cl) <= csum n cl y.
Proof.
  destruct cl as [|e0 cl0] eqn:Ecl; [unfold csum; simpl; lra|]. rewrite <- Ecl. assert (Hcl : cl <> []) by congruence.
  unfold csum, d2. rewrite (Rsum_swap (fun e j => (co (snd e) j - co (rcent n cl) j) * (co (snd e) j - co (rcent n cl) j))), (Rsum_swap (fun e j => (co (snd e) j - co y j) * (co (snd e) j - co y j))). apply Rsum_le. intros j Hj. apply in_seq in Hj.
  replace (co (rcent n cl) j) with (rtot cl j / INR (length cl)) by (subst cl; unfold rcent; rewrite co_map by lia; reflexivity).
  pose proof (mean_min1 (map (fun e => co (snd e) j) cl) (co y j)) as M. rewrite map_length in M. rewrite !map_map in M. unfold rtot. apply M. subst cl. discriminate.
Qed.

(** *** Members of a lifted matrix *)
Lemma numbered_map {T U} (f : T -> U) a : numbered (map f a) = map (fun e => (fst e, f (snd e))) (numbered a).
Proof.
  unfold numbered. rewrite map_length. generalize (map Z.of_nat (seq 0 (length a))). induction a as [|x a IH]; intros [|z l]; auto. cbn [map combine fst snd]. rewrite IH. auto.
Qed.
Lemma members_map {T U} (f : T -> U) C p a : members C p (map f a) = map (fun e => (fst e, f (snd e))) (members C p a).
Proof.
  unfold members. rewrite numbered_map. generalize (numbered a). induction C as [|c C IH]; intros [|e l]; auto. cbn [map combine filter fst].
  destruct (Z.eqb c (Z.of_nat p)); cbn [map snd]; rewrite IH; auto.
Qed.

(** *** The cost of an assignment *)
Section Cost.
Variable n k : nat.
Variable Dr : list (list R).
Hypothesis HD : forall row, In row Dr -> length row = n.

Definition good (C : list Z) : Prop := length C = length Dr /\ forall i c, nth_error C i = Some c -> (0 <= c < Z.of_nat k)%Z.
Definition rmeans (C : list Z) : list (list R) := map (fun p => rcent n (members C p Dr)) (seq 0 k).
Definition at_ (C : list Z) (M : list (list R)) (e : Z * list R) : R :=
  d2 n (snd e) (nth (Z.to_nat (nth (Z.to_nat (fst e)) C 0%Z)) M []).
Definition cost (C : list Z) (M : list (list R)) : R := Rsum (map (at_ C M) (numbered Dr)).

Lemma Rsum_concat {T} (f : T -> R) (ls : list (list T)) : Rsum (map f (concat ls)) = Rsum (map (fun l => Rsum (map f l)) ls).
Proof using. induction ls as [|l ls IH]; auto. cbn [concat map Rsum]. rewrite map_app, Rsum_app, IH. auto. Qed.

Lemma cost_members C M : good C -> cost C M = Rsum (map (fun p => csum n (members C p Dr) (nth p M [])) (seq 0 k)).
Proof using.
  clear HD. intros [L HC]. unfold cost. rewrite <- (Rsum_perm _ _ (Permutation_map (at_ C M) (members_total C k Dr ltac:(lia) ltac:(intros; eapply HC; eauto)))).
  rewrite Rsum_concat, map_map. apply Rsum_ext. intros p Hp. unfold csum. apply Rsum_ext. intros [z x] He. apply members_in in He as (i & -> & Ei & Ec); auto.
  unfold at_. cbn [fst snd]. rewrite Nat2Z.id, (nth_error_nth _ _ _ Ec), Nat2Z.id. auto.
Qed.

Lemma rmeans_nth C p : (p < k)%nat -> nth p (rmeans C) [] = rcent n (members C p Dr).
Proof using. intros H. apply nth_error_nth. unfold rmeans. apply (nth_map_seq (fun p => rcent n (members C p Dr))). auto. Qed.

Lemma cost_means C M : good C -> cost C (rmeans C) <= cost C M.
Proof using.
  clear HD. intros H. rewrite !cost_members by auto. apply Rsum_le. intros p Hp. apply in_seq in Hp. rewrite rmeans_nth by lia. apply mean_min.
Qed.

Lemma Rsum_lt {T} (f g : T -> R) l x : (forall y, In y l -> f y <= g y) -> In x l -> f x < g x -> Rsum (map f l) < Rsum (map g l).
Proof using.
  induction l as [|y l IH]; intros H Hx L; [destruct Hx|]. cbn [map Rsum]. pose proof (H y (or_introl eq_refl)). destruct Hx as [->|Hx].
  - pose proof (Rsum_le f g l ltac:(intros; apply H; right; auto)). lra.
  - specialize (IH ltac:(intros; apply H; right; auto) Hx L). lra.
Qed.

(** What a round of assignments does: a row stays, or moves to a strictly nearer centre. *)
Definition moves (M : list (list R)) (C C' : list Z) : Prop :=
  forall i c x, nth_error C i = Some c -> nth_error Dr i = Some x -> exists c', nth_error C' i = Some c' /\
    (c' = c \/ d2 n x (nth (Z.to_nat c') M []) < d2 n x (nth (Z.to_nat c) M [])).

Lemma moves_cost M C C' : good C -> good C' -> moves M C C' -> C' <> C -> cost C' M < cost C M.
Proof using.
  clear HD. intros [L HC] [L' HC'] Hm N.
  assert (P : forall i c x, nth_error C i = Some c -> nth_error Dr i = Some x -> exists c', nth_error C' i = Some c' /\
     at_ C M (Z.of_nat i, x) = d2 n x (nth (Z.to_nat c) M []) /\ at_ C' M (Z.of_nat i, x) = d2 n x (nth (Z.to_nat c') M []) /\ (c' = c \/ d2 n x (nth (Z.to_nat c') M []) < d2 n x (nth (Z.to_nat c) M []))).
  { intros i c x E1 E2. destruct (Hm i c x E1 E2) as (c' & E3 & H). exists c'. unfold at_. cbn [fst snd]. rewrite Nat2Z.id, (nth_error_nth _ _ _ E1), (nth_error_nth _ _ _ E3). auto. }
  assert (Ex : exists i c c', nth_error C i = Some c /\ nth_error C' i = Some c' /\ c' <> c).
  { clear - N L L'. assert (LL : length C' = length C) by congruence. clear L L'. revert C' N LL. induction C as [|c C IH]; intros [|c' C'] N LL; try discriminate; [congruence|].
    destruct (Z.eq_dec c' c) as [->|Nc]; [|exists 0%nat, c, c'; cbn; auto]. destruct (IH C') as (i & a & b & E1 & E2 & E3); [congruence|injection LL; auto|]. exists (S i), a, b. auto. }
  destruct Ex as (i & c & c' & E1 & E2 & Nc). destruct (nth_error Dr i) as [x|] eqn:Ex; [|apply nth_error_None in Ex; pose proof (nth_lt _ _ _ E1); lia].
  unfold cost. apply (Rsum_lt _ _ _ (Z.of_nat i, x)).
  - intros [z y] Hy. apply numbered_in in Hy as (q & -> & Eq). destruct (nth_error C q) as [cq|] eqn:Ecq; [|apply nth_error_None in Ecq; pose proof (nth_lt _ _ _ Eq); lia].
    destruct (P q cq y Ecq Eq) as (cq' & Eq' & -> & -> & [->|Hlt]); lra.
  - eapply nth_error_In. apply numbered_nth. eauto.
  - destruct (P i c x E1 Ex) as (c2 & E2' & -> & -> & [->|Hlt]); [congruence|auto].
Qed.

(** All assignments. *)
Fixpoint lists_of (m : nat) : list (list Z) :=
  match m with O => [[]] | S m => flat_map (fun l => map (fun p => Z.of_nat p :: l) (seq 0 k)) (lists_of m) end.
Lemma lists_of_in m : forall C, length C = m -> (forall c, In c C -> (0 <= c < Z.of_nat k)%Z) -> In C (lists_of m).
Proof using.
  induction m as [|m IH]; intros [|c C] L H; try discriminate; [left; auto|]. cbn [lists_of]. apply in_flat_map. exists C. split; [apply IH; [injection L; auto|intros; apply H; right; auto]|].
  apply in_map_iff. exists (Z.to_nat c). pose proof (H c (or_introl eq_refl)). split; [f_equal; lia|apply in_seq; lia].
Qed.
Lemma lists_of_length m : length (lists_of m) = (k ^ m)%nat.
Proof using.
  induction m as [|m IH]; auto. cbn [lists_of Nat.pow]. rewrite <- IH. clear IH. induction (lists_of m) as [|l ls IHl]; [simpl; lia|].
  cbn [flat_map length]. rewrite app_length, map_length, seq_length, IHl. lia.
Qed.

Definition best (C : list Z) : R := cost C (rmeans C).
Definition below (C C' : list Z) : bool := if Rlt_dec (best C') (best C) then true else false.
Definition rank (C : list Z) : nat := length (filter (below C) (lists_of (length Dr))).

Lemma rank_bound C : (rank C <= k ^ length Dr)%nat.
Proof using. unfold rank. rewrite <- lists_of_length. generalize (lists_of (length Dr)). induction l as [|x l IH]; auto. cbn [filter]. destruct (below C x); cbn [length]; lia. Qed.

Lemma rank_less C C' : good C' -> best C' < best C -> (rank C' < rank C)%nat.
Proof using.
  clear HD. intros [L H] Hb. assert (I : In C' (lists_of (length Dr))) by (apply lists_of_in; auto; intros c Hc; apply In_nth_error in Hc as (i & Ei); eauto).
  unfold rank. revert I. generalize (lists_of (length Dr)). assert (Le : forall l, (length (filter (below C') l) <= length (filter (below C) l))%nat).
  { induction l as [|x l IH]; auto. cbn [filter]. unfold below at 1 4. destruct (Rlt_dec (best x) (best C')); destruct (Rlt_dec (best x) (best C)); cbn [length]; try lia; lra. }
  induction l as [|x l IH]; intros Hx; [destruct Hx|]. cbn [filter]. destruct Hx as [->|Hx].
  - unfold below at 1 4. destruct (Rlt_dec (best C') (best C')); [lra|]. destruct (Rlt_dec (best C') (best C)); [|lra]. cbn [length]. specialize (Le l). lia.
  - specialize (IH Hx). unfold below at 1 4. destruct (Rlt_dec (best x) (best C')); destruct (Rlt_dec (best x) (best C)); cbn [length]; try lia; lra.
Qed.

Lemma round_rank C C' : good C -> good C' -> moves (rmeans C) C C' -> C' <> C -> (rank C' < rank C)%nat.
Proof using.
  clear HD. intros G G' Hm N. apply rank_less; auto. unfold best. pose proof (moves_cost _ _ _ G G' Hm N). pose proof (cost_means C' (rmeans C) G'). lra.
Qed.
End Cost.
