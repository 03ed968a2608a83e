(** C111: the seed of the random train/test partition. *)
From Verif Require Import Base Res GoMap Arith Tables Classify InferLemmas Seed SeedSpec SeedLemmas.
Local Open Scope nat_scope.

(** The first call with a seed of its own gives the partition of that seed, whatever was drawn before with
    negative seeds. *)
Theorem seed_first_partial : forall (G : Type) (src : Z -> G) (intn : G -> nat -> nat * G) fuel st cs xs st' rows m nv s,
  (glrseed G st < 0)%Z -> Forall (fun c : call => (snd c < 0)%Z) cs -> parseMany G src intn fuel st cs = Ok (xs, st') -> (0 <= s)%Z ->
  outcome (partition (stream intn (src s)) fuel rows m nv) (parsePartitioned G src intn fuel st' (rows, m, nv, s)).
Proof. exact first_session_l. Qed.
Print Assumptions seed_first_partial.

(** Later ones do not depend on the seed given. *)
Theorem seed_ignored : forall (G : Type) (src : Z -> G) (intn : G -> nat -> nat * G) fuel st cs xs st' rows m nv s s',
  Exists (fun c : call => (0 <= snd c)%Z) cs -> parseMany G src intn fuel st cs = Ok (xs, st') -> (0 <= s)%Z -> (0 <= s')%Z ->
  parsePartitioned G src intn fuel st' (rows, m, nv, s) = parsePartitioned G src intn fuel st' (rows, m, nv, s').
Proof. exact ignored_l. Qed.
Print Assumptions seed_ignored.

(** The property asked for: the partition is defined by the file, p and the seed. False for every generator
    whose seeds make a difference: the same call gives another partition after some other calls. *)
Theorem seed_defines_refuted : forall (G : Type) (src : Z -> G) (intn : G -> nat -> nat * G) fuel st rows m nv s s' x y,
  (glrseed G st < 0)%Z -> (0 <= s)%Z -> (0 <= s')%Z ->
  partition (stream intn (src s)) fuel rows m nv = Ok x -> partition (stream intn (src s')) fuel rows m nv = Ok y -> x <> y ->
  exists cs xs st' st1 st2, parseMany G src intn fuel st cs = Ok (xs, st') /\
    parsePartitioned G src intn fuel st (rows, m, nv, s') = Ok (y, st1) /\
    parsePartitioned G src intn fuel st' (rows, m, nv, s') = Ok (x, st2).
Proof. exact seed_refuted_l. Qed.
Print Assumptions seed_defines_refuted.

(** A generator, three rows, and two seeds that give different partitions. *)
Example seed_case :
  partition (stream walk 0%Z) 5 threeRows 1 2 = Ok ([Some [(0, 6); (1, 1)]; Some [(0, 7); (1, 0)]], [[(0, 5)]], [0])%Z /\
  partition (stream walk 1%Z) 5 threeRows 1 2 = Ok ([Some [(0, 5); (1, 0)]; Some [(0, 7); (1, 0)]], [[(0, 6)]], [1])%Z /\
  (exists st', parseMany Z (fun s => s) walk 5 (mkProc Z 0%Z (-1) 0%Z) [(threeRows, 1, 2, (-1)%Z); (threeRows, 1, 2, 4%Z)] =
    Ok ([([Some [(0, 6); (1, 1)]; Some [(0, 7); (1, 0)]], [[(0, 5)]], [0]); ([Some [(0, 5); (1, 0)]; Some [(0, 7); (1, 0)]], [[(0, 6)]], [1])]%Z, st')).
Proof. split; [vm_compute; reflexivity|]. split; [vm_compute; reflexivity|]. eexists. vm_compute. reflexivity. Qed.

(** ImgBatchClassify adds up the classifications of as many partitions as there are iterations, made one
    after another; the total is the number of iterations times the size of the test set. *)
Theorem batch_counts : forall (G : Type) (src : Z -> G) (intn : G -> nat -> nat * G) (A : arith) (learn : list (option gmap) -> gmap -> res (F A))
  vars rows m rseed fuel its st c t st',
  imgBatchClassify G src intn learn fuel st vars rows m rseed its = Ok (c, t, st') ->
  exists xs cts, parseMany G src intn fuel st (repeat (rows, m, length vars, rseed) its) = Ok (xs, st') /\
    Forall2 (fun (x : split) ct => imgClassify (learn (fst (fst x))) vars (snd (fst x)) (snd x) = Ok ct) xs cts /\
    c = sumZ (map fst cts) /\ t = Z.of_nat (its * m) /\ (0 <= c <= t)%Z.
Proof. exact batch_counts_l. Qed.
Print Assumptions batch_counts.

(** With a seed of its own, a batch that is the first use of the function is reproducible. *)
Theorem batch_reproducible : forall (G : Type) (src : Z -> G) (intn : G -> nat -> nat * G) (A : arith) (learn : list (option gmap) -> gmap -> res (F A))
  vars rows m rseed fuel st st' its, (0 <= rseed)%Z -> (glrseed G st < 0)%Z -> (glrseed G st' < 0)%Z ->
  same_out (imgBatchClassify G src intn learn fuel st vars rows m rseed its) (imgBatchClassify G src intn learn fuel st' vars rows m rseed its).
Proof. exact (fun G src intn A learn vars rows m rseed => batch_same_l G src intn learn vars rows m rseed). Qed.
Print Assumptions batch_reproducible.

(** Two iterations, with a learner whose network prefers class 0. *)
Example batch_case : exists st', imgBatchClassify Z (fun s => s) walk zeroClass 5 (mkProc Z 0%Z (-1) 0%Z) [(0, 9); (1, 2)]%Z threeRows 1 0%Z 2 = Ok (1%Z, 2%Z, st').
Proof. eexists. vm_compute. reflexivity. Qed.
