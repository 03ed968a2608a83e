From Verif Require Import Base Res GraphSpec GraphLemmas Search SearchLemmas Walk.

Lemma search_calls ch d f k : forall F V calls c', search_loop ch d f k F V calls = Some c' -> exists t, c' = calls ++ t.
Proof.
  induction k as [|k IH]; intros F V calls c' E; [discriminate|]. simpl in E.
  destruct F as [|u F]; [injection E as <-; exists []; rewrite app_nil_r; auto|].
  destruct (Z.ltb 0 (f calls u)); [injection E as <-; eauto|].
  destruct (if Z.eqb (f calls u) 0 then _ else _) as [F2 V2]. apply IH in E as (t & ->).
  exists (u :: t). rewrite <- app_assoc. auto.
Qed.

Lemma walk_search {St} ch d (proc : St -> nat -> res St) k : forall F V calls c' st,
  search_loop ch d (fun _ _ => 0%Z) k F V calls = Some c' ->
  exists t, c' = calls ++ t /\ walk ch d proc k F V st = foldr_ proc t st.
Proof.
  induction k as [|k IH]; intros F V calls c' st E; [discriminate|]. simpl in E |- *.
  destruct F as [|u F]; [injection E as <-; exists []; rewrite app_nil_r; auto|].
  destruct (give_children d (ch u) (F, V)) as [F2 V2] eqn:EG.
  destruct (search_calls _ _ _ _ _ _ _ _ E) as (t & Et).
  exists (u :: t). rewrite Et, <- app_assoc. split; auto. simpl.
  destruct (proc st u) as [st'| |]; simpl; auto.
  destruct (IH F2 V2 (calls ++ [u]) c' st' E) as (t' & Et' & EW). rewrite EW. f_equal.
  rewrite Et in Et'. apply app_inv_head in Et'. auto.
Qed.

(** The traversal is a fold over an enumeration of the reachable nodes that does not depend on
    the body. *)
Lemma walk_fold ch d N G : bounded ch N -> G < N ->
  exists calls, searchFunc ch d (fun _ _ => 0%Z) (S N) G = Some calls /\ enumerates ch G calls /\
    forall St (proc : St -> nat -> res St) st, walkFrom ch d proc (S N) G st = foldr_ proc calls st.
Proof.
  intros Hb HG. destruct (search_zero_enum ch d N G Hb HG) as (calls & E & He).
  exists calls. split; auto. split; auto. intros St proc st. unfold walkFrom.
  destruct (walk_search ch d proc (S N) [G] [G] [] calls st E) as (t & -> & EW). auto.
Qed.

(** Folding an invariant along a list. *)
Lemma foldr_inv {X S} (f : S -> X -> res S) (J : list X -> S -> Prop) l s0 :
  J [] s0 ->
  (forall a x b s, l = a ++ x :: b -> J a s -> exists s', f s x = Ok s' /\ J (a ++ [x]) s') ->
  exists s, foldr_ f l s0 = Ok s /\ J l s.
Proof.
  intros H0 Hs. assert (X0 : forall b a s, l = a ++ b -> J a s -> exists s', foldr_ f b s = Ok s' /\ J l s').
  { induction b as [|x b IH]; intros a s E HJ; simpl.
    - rewrite app_nil_r in E. subst. eauto.
    - destruct (Hs a x b s E HJ) as (s' & E' & HJ'). rewrite E'. simpl. apply (IH (a ++ [x])); auto.
      rewrite <- app_assoc. auto. }
  apply (X0 l []); auto.
Qed.
