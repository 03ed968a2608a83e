From Coq Require Import String QArith.
From Verif Require Import Base Res Arith GraphSpec GraphLemmas Topo TopoLemmas Leaves Codec Serial SerialSpec CodecLemmas SerialLemmas SerialCases SaveLoad SaveLoadSpec SaveLoadLemmas.
Local Open Scope nat_scope.

Section Session.
Context {A : arith}.
Variable exact : F A -> num.
Variable near : num -> F A.
Variable enc : list (item (A := A)) -> item (A := A) -> list Z.
Variable dec : list (item (A := A)) -> list Z -> option (item (A := A) * list Z).
Variable creatable : string -> bool.
Hypothesis SD : self_delimiting enc dec.
Hypothesis GO : gt_ordered (A := A).

Definition good (w : net (A := A)) : Prop :=
  let '(cont, ch, N, r) := w in
  bounded ch N /\ r < N /\ (Z.of_nat N < 2 ^ 32)%Z /\ (forall u, reach ch r u -> ints_ok (cont u)) /\ acyclic ch /\ siblings_ok ch.

Lemma good_saves d f cont ch N r : good (cont, ch, N, r) -> creatable f = true -> exists b,
  saveSPN exact enc creatable d f None cont ch (2 * N + 1) r = (fput d f b, Ok true) /\
  exists h r', unmarshalBytes near dec b = Ok (h, r') /\ copy_of (node_kept exact near) cont ch r h r'.
Proof.
  intros (HB & Hr & HN & HI & HA & HS) HC.
  destruct (marshal_copy_l exact near cont ch N r HB Hr HN HI GO HA HS) as (m & h & r' & Em & Eu & Cp).
  destruct (load_saved exact near enc dec SD cont ch N r HB Hr HN HI) as (m' & Em' & EB).
  rewrite Em in Em'. injection Em' as <-. exists (bytesOf enc m). unfold saveSPN. rewrite HC, Em. split; auto.
  exists h, r'. rewrite EB. auto.
Qed.

Lemma fput_eq d f b : fput d f b f = Some b. Proof. unfold fput. rewrite String.eqb_refl. auto. Qed.
Lemma fput_neq d f g b : String.eqb f g = false -> fput d f b g = d g. Proof. unfold fput. intros ->. auto. Qed.

Lemma session_l : forall ws d, Forall (fun w => creatable (fst w) = true /\ good (snd w)) ws ->
  exists d', saveAll exact enc creatable d ws = (d', Ok true) /\
  forall f, match last_write f ws with
            | Some (cont, ch, N, r) => exists h r', loadSPN near dec d' f = Ok (Some (h, r')) /\ copy_of (node_kept exact near) cont ch r h r'
            | None => d' f = d f
            end.
Proof.
  induction ws as [|[g [[[cont ch] N] r]] ws IH]; intros d H; cbn [saveAll last_write].
  - exists d. auto.
  - inversion H as [|? ? (H1 & H2) H3]; subst. cbn [fst snd] in *. destruct (good_saves d g cont ch N r H2 H1) as (b & -> & h & r' & EU & Cp).
    destruct (IH (fput d g b) H3) as (d' & -> & Hd). exists d'. split; auto. intros f. specialize (Hd f).
    destruct (last_write f ws) as [[[[cont' ch'] N'] r0]|]; auto.
    destruct (String.eqb g f) eqn:E.
    + apply String.eqb_eq in E. subst f. rewrite fput_eq in Hd. exists h, r'. unfold loadSPN. rewrite Hd, EU. auto.
    + rewrite Hd. apply fput_neq; auto.
Qed.

Lemma failed_l d f cont ch N r : bounded ch N -> r < N -> (Z.of_nat N < 2 ^ 32)%Z -> (forall u, reach ch r u -> ints_ok (cont u)) -> creatable f = true ->
  exists start total, start < total /\
  (forall k, k < start -> exists d', saveSPN exact enc creatable d f (Some k) cont ch (2 * N + 1) r = (d', Ok false) /\ loadSPN near dec d' f = Panic) /\
  (forall k, start <= k < total -> exists d' h r', saveSPN exact enc creatable d f (Some k) cont ch (2 * N + 1) r = (d', Ok false) /\
     loadSPN near dec d' f = Ok (Some (h, Some r')) /\ r' < length h /\ Forall (fun x => snd x = []) h).
Proof.
  intros HB Hr HN HI HC. destruct (load_cut exact near enc dec SD cont ch N r HB Hr HN HI) as (m & start & Em & Hst & Hp & l & Hl & EN & Hok).
  exists start, (length (bytesOf enc m)). split; auto. unfold saveSPN. rewrite HC, Em. split.
  - intros k Hk. eexists. split; [reflexivity|]. unfold loadSPN. rewrite fput_eq, Hp by auto. reflexivity.
  - intros k Hk. do 3 eexists. split; [reflexivity|]. unfold loadSPN. rewrite fput_eq, Hok by auto. split; [reflexivity|]. split.
    + rewrite map_length. apply nth_error_Some. rewrite Hl. discriminate.
    + apply Forall_forall. intros x Hx. apply in_map_iff in Hx as (u & <- & _). reflexivity.
Qed.

Lemma childless_no_copy (R : content A -> content A -> Prop) cont ch r h (r' : option nat) : ch r <> [] -> Forall (fun x : content A * list (option nat) => snd x = []) h -> ~ copy_of R cont ch r h r'.
Proof.
  intros Hc HF (f & -> & _ & H). destruct (H r (reach_refl _ _)) as (c' & E & _). apply nth_error_In in E.
  rewrite Forall_forall in HF. specialize (HF _ E). cbn in HF. destruct (ch r); [congruence|discriminate].
Qed.
End Session.

(** A concrete code: a length, then the value. *)
Section Code.
Definition chrZ (c : chr Q) : list Z :=
  match c with
  | Dig d => [0; d; 0] | Minus => [1; 0; 0] | Plus => [2; 0; 0] | Dot => [3; 0; 0] | Space => [4; 0; 0] | NL => [5; 0; 0]
  | InfTok => [6; 0; 0] | NaNTok => [7; 0; 0] | Shortest q => [8; Qnum q; Zpos (Qden q)]
  end%Z.
Fixpoint textOf (l : list Z) : list (chr Q) :=
  match l with
  | a :: b :: c :: t =>
      (match a with
       | 0 => Dig b | 1 => Minus | 2 => Plus | 3 => Dot | 4 => Space | 5 => NL | 6 => InfTok | 7 => NaNTok
       | _ => Shortest (Qmake b (Z.to_pos c))
       end)%Z :: textOf t
  | _ => []
  end.
Lemma text_back t : textOf (flat_map chrZ t) = t.
Proof. induction t as [|[| | | | | | | |[n d]] t IH]; simpl; try rewrite IH; auto. Qed.
Definition tagZ (g : tag) : Z := match g with TSum => 0 | TProd => 1 | TMulti => 2 | TInd => 3 | TGauss => 4 end%Z.
Definition tagOf (z : Z) : tag := match z with 0 => TSum | 1 => TProd | 2 => TMulti | 3 => TInd | _ => TGauss end%Z.
Definition rowsZ (l : list (list Z)) : list Z := flat_map (fun r => flat_map (fun z => [1; z]%Z) r ++ [0; 0]%Z) l.
Fixpoint rowsOf (l : list Z) : list (list Z) :=
  match l with
  | a :: b :: t => if (a =? 0)%Z then [] :: rowsOf t else match rowsOf t with r :: rs => (b :: r) :: rs | [] => [] end
  | _ => []
  end.
Lemma rows_back l : rowsOf (rowsZ l) = l.
Proof.
  induction l as [|r l IH]; auto. unfold rowsZ in *. cbn [flat_map]. rewrite <- app_assoc. induction r as [|z r IHr]; cbn [flat_map app rowsOf Z.eqb].
  - rewrite IH. auto.
  - cbn [app] in IHr. rewrite IHr. auto.
Qed.
Definition itemZ (i : item (A := QA)) : list Z :=
  match i with INum k => [0; k]%Z | INode (g, t) => (1 :: tagZ g :: flat_map chrZ t)%Z | ILinks l => (2 :: rowsZ l)%Z end.
Definition itemOf (l : list Z) : option (item (A := QA)) :=
  match l with
  | 0 :: k :: _ => Some (INum k)
  | 1 :: g :: t => Some (INode (A := QA) (tagOf g, textOf t))
  | 2 :: t => Some (ILinks (rowsOf t))
  | _ => None
  end%Z.
Lemma item_back i : itemOf (itemZ i) = Some i.
Proof.
  destruct i as [k|[g t]|l]; cbn [itemZ itemOf]; auto; [|rewrite rows_back; auto].
  change (flat_map chrZ t) with (flat_map chrZ t : list Z). rewrite text_back. destruct g; reflexivity.
Qed.
Definition codeOf (prev : list (item (A := QA))) (i : item (A := QA)) : list Z := Z.of_nat (length (itemZ i)) :: itemZ i.
Definition uncode (prev : list (item (A := QA))) (b : list Z) : option (item (A := QA) * list Z) :=
  match b with
  | n :: t => if (length t <? Z.to_nat n) then None else match itemOf (firstn (Z.to_nat n) t) with Some i => Some (i, skipn (Z.to_nat n) t) | None => None end
  | [] => None
  end.
Lemma code_ok : self_delimiting codeOf uncode.
Proof.
  split; [|split]; [| |discriminate].
  - intros prev i rest. unfold codeOf, uncode. cbn [app]. rewrite Nat2Z.id.
    destruct (Nat.ltb_spec (length (itemZ i ++ rest)) (length (itemZ i))) as [H|H]; [rewrite app_length in H; lia|].
    rewrite firstn_app, firstn_all, Nat.sub_diag, skipn_app, skipn_all, Nat.sub_diag. cbn [firstn skipn app]. rewrite app_nil_r, item_back. reflexivity.
  - intros prev i k Hk. unfold codeOf, uncode in *. cbn [length] in Hk. destruct k as [|k]; cbn [firstn]; auto. rewrite Nat2Z.id.
    destruct (Nat.ltb_spec (length (firstn k (itemZ i))) (length (itemZ i))) as [H|H]; auto. rewrite firstn_length in H. lia.
Qed.
End Code.

Definition nofiles : files := fun _ => None.

Lemma layers_good : good (layers_cont, layers, 5, 0).
Proof. destruct layers_ok as (H1 & H2 & H3 & H4). repeat split; auto; try lia. intros u _. apply H4. Qed.

Lemma overwrite_refuted_l : forall enc dec, self_delimiting enc dec -> exists (f : string) (d1 d2 : files) (k : nat) (h h' : memory (A := QA)) (r r' : option nat),
  saveSPN qexact enc (fun _ => true) nofiles f None layers_cont layers 11 0 = (d1, Ok true) /\
  loadSPN qnear dec d1 f = Ok (Some (h, r)) /\ copy_of (node_kept qexact qnear) layers_cont layers 0 h r /\
  saveSPN qexact enc (fun _ => true) d1 f (Some k) layers_cont layers 11 0 = (d2, Ok false) /\
  loadSPN qnear dec d2 f = Ok (Some (h', r')) /\ ~ copy_of (node_kept qexact qnear) layers_cont layers 0 h' r'.
Proof.
  intros enc dec SD. destruct layers_good as (H1 & H2 & H3 & H4 & H5 & H6).
  destruct (good_saves qexact qnear enc dec (fun _ => true) SD QA_ordered nofiles "spn"%string layers_cont layers 5 0 layers_good eq_refl) as (b & E1 & h & r & EU & Cp).
  destruct (failed_l qexact qnear enc dec (fun _ => true) SD (fput nofiles "spn"%string b) "spn"%string layers_cont layers 5 0 H1 H2 H3 H4 eq_refl) as (start & total & Hst & _ & Hok).
  destruct (Hok start ltac:(lia)) as (d2 & h' & r' & E2 & EL & _ & HF).
  exists "spn"%string, (fput nofiles "spn"%string b), d2, start, h, h', r, (Some r'). do 6 (try split); auto.
  - unfold loadSPN. rewrite fput_eq, EU. reflexivity.
  - apply childless_no_copy; [discriminate|exact HF].
Qed.

Lemma cut_refuted_l : forall enc dec, self_delimiting enc dec -> exists (f : string) (d : files) (k : nat),
  saveSPN qexact enc (fun _ => true) nofiles f (Some k) layers_cont layers 11 0 = (d, Ok false) /\ loadSPN qnear dec d f = Panic.
Proof.
  intros enc dec SD. destruct layers_good as (H1 & H2 & H3 & H4 & H5 & H6).
  destruct (load_saved qexact qnear enc dec SD layers_cont layers 5 0 H1 H2 H3 H4) as (m & Em & _). change (2 * 5 + 1) with 11 in Em.
  exists "spn"%string, (fput nofiles "spn"%string []), 0. unfold saveSPN. rewrite Em.
  split; [reflexivity|]. unfold loadSPN. rewrite fput_eq. reflexivity.
Qed.

Lemma empties_l {A : arith} (near : num -> F A) dec creatable (d : files) f : creatable f = true ->
  exists d', readFromFile creatable d f = (d', Ok None) /\ d' f = Some [] /\ loadSPN near dec d' f = Panic /\
  forall g, g <> f -> d' g = d g.
Proof.
  intros H. exists (fput d f []). unfold readFromFile. rewrite H. split; [reflexivity|]. split; [apply fput_eq|].
  split; [unfold loadSPN; rewrite fput_eq; reflexivity|]. intros g Hg. apply fput_neq. apply String.eqb_neq. auto.
Qed.
