(** Properties12.v -- the missing-link sampler of src/missing.c (C31, C32, C33, C67, C68). *)
From Coq Require Import List Arith ZArith Bool QArith Qcanon Lia.
From Verif Require Import Base Num ListLib NatSum QcSum IoModel GraphModel GraphSpec GroupModel GroupSpec MatLib ToolsModel ToolsProof ModulesModel SAProof RolesBounds Refute
  MissModel MissSpec MissSets MissStep MissRun MissScore MissExact MissUninit Properties4.
Import ListNotations.
Local Open Scope nat_scope.

Section Exact.
Variables ex sq : Qc -> Qc.
#[local] Instance ops12 : NumOps Qc := Qc_ops ex sq.
(** The logarithms of the program: any functions with log 1 = 0 and log (0 choose 0) = 0. *)
Variable logf : nat -> Qc.
Variable lnchoose : nat -> nat -> Qc.
Variable lnfact : nat -> Qc.
Variable linC : Qc.
Hypothesis log1 : logf 1 = 0%Qc.
Hypothesis choose00 : lnchoose 0 0 = 0%Qc.
Variable mutual : gpart Qc -> gpart Qc -> Qc.
Variable decay_of : nat -> nat -> Qc -> nat -> Qc -> Qc.
Variables lcsize lfsize : nat.
Variable g : net Qc.
Hypothesis U : undirected g.
Notation E := (energy logf lnchoose lnfact linC g).
Notation reached := (reached ex sq logf lnchoose lnfact linC g lcsize lfsize).
Notation LinkScore_from x := (LinkScore_on logf lnchoose lnfact mutual decay_of lcsize lfsize linC g (repeat x (length g))).

(** C31: PartitionH is the energy of the partition; the running energy is PartitionH; the change computed for any move is
    PartitionH after it minus PartitionH before it.  [x] is what the fresh array n2gList holds: None is uninitialised. *)
Theorem C31_running_energy x ds factors st : x = None \/ x = Some 0%Z -> Forall good_draw ds -> reached (repeat x (length g)) ds factors = Ok st ->
  assigned (length g) (abs (mpart st)) /\ PartitionH logf lnchoose lnfact linC (mnet st) (mpart st) = Ok (mH st) /\ mH st = energy logf lnchoose lnfact linC g (abs (mpart st)) /\
  table_exact g (abs (mpart st)) (mG2G st).
Proof. exact (reached_energy ex sq logf lnchoose lnfact linC log1 choose00 g U mutual decay_of lcsize lfsize x ds factors st). Qed.
Theorem C31_change x ds factors st slg v o w : x = None \/ x = Some 0%Z -> Forall good_draw ds -> reached (repeat x (length g)) ds factors = Ok st ->
  listed g (abs (mpart st)) slg -> o < length g -> w < length g -> o <> w -> In v (nth_members (abs (mpart st)) o) ->
  exists r g' P' after tab n2g,
    MoveNode (mnet st, mpart st) v o w = Ok (r, (g', P')) /\
    PartitionH logf lnchoose lnfact linC g' P' = Ok after /\
    mc_change logf lnchoose lnfact lcsize lfsize linC (length g) (map Some (seq 0 (length g))) (InitializeTable lnfact lfsize) st slg v o w = Ok ((after - mH st)%Qc, tab, n2g).
Proof. exact (reached_change ex sq logf lnchoose lnfact linC log1 choose00 g U mutual decay_of lcsize lfsize x ds factors st slg v o w). Qed.

(** C32: the table of links between groups is a recount in every state reached; the only errors. *)
Theorem C32_table x nIter ds m st : x = None \/ x = Some 0%Z -> Forall good_draw ds -> LinkScore_from x nIter ds = Ok (m, st) ->
  table_exact g (abs (mpart st)) (mG2G st) /\ PartitionH logf lnchoose lnfact linC (mnet st) (mpart st) = Ok (mH st).
Proof.
  exact (fun Hx HD E => let H := LinkScore_bounds ex sq logf lnchoose lnfact linC log1 choose00 g U mutual decay_of lcsize lfsize x nIter ds m st Hx HD E in
    conj (proj1 (proj2 (proj2 H))) (proj1 H)).
Qed.
Theorem C32_errors x nIter ds e : x = None \/ x = Some 0%Z -> Forall good_draw ds -> LinkScore_from x nIter ds = Err e -> e = RngOut \/ e = Diverge \/ (e = UB_uninit /\ x = None).
Proof. exact (LinkScore_errors ex sq logf lnchoose lnfact linC log1 choose00 g U mutual decay_of lcsize lfsize x nIter ds e). Qed.

(** C33: the scores are averages over the sampled partitions, which are what the Metropolis algorithm visits; they are strictly between 0 and 1. *)
Theorem C33_scores x nIter ds m st : x = None \/ x = Some 0%Z -> Forall good_draw ds -> LinkScore_from x nIter ds = Ok (m, st) ->
  (exists M0 d0 warm decor M1 d1 Ms, assigned (length g) M0 /\ started (length g) ds M0 d0 /\ attempts ex (length g) E warm M0 d0 M1 d1 /\
     samples ex (length g) E (length g * decor) M1 d1 Ms (abs (mpart st)) (mds st) /\ length Ms = nIter /\
     mat (length g) (length g) m (fun i j => if i =? j then 0%Qc else (Qsum (fun M => pair_score g M i j) Ms / Qc_of_nat nIter)%Qc)) /\
  (0 < nIter -> exists f, mat (length g) (length g) m f /\ (forall i j, i < length g -> j < length g -> f i j = f j i) /\ (forall i, i < length g -> f i i = 0%Qc) /\
     (forall i j, i < length g -> j < length g -> i <> j -> (0 < f i j)%Qc /\ (f i j < 1)%Qc)).
Proof.
  exact (fun Hx HD E => let H := LinkScore_bounds ex sq logf lnchoose lnfact linC log1 choose00 g U mutual decay_of lcsize lfsize x nIter ds m st Hx HD E in
    proj2 (proj2 (proj2 H))).
Qed.

(** C67: "only initialised memory is read" is false on every network with two nodes: all nodes start in one group and the
    first proposed move is accepted. *)
Theorem C67_initialised_refuted nIter : (forall x, 0 < ex x)%Qc -> 2 <= length g ->
  exists ds, Forall good_draw ds /\ LinkScore logf lnchoose lnfact mutual decay_of lcsize lfsize linC g nIter ds = Err UB_uninit.
Proof. exact (fun Hex H2 => ex_intro _ _ (LinkScore_uninit ex sq Hex logf lnchoose lnfact mutual decay_of lcsize lfsize linC g U H2 nIter)). Qed.

(** C68: the sampler is the Metropolis algorithm for the energy of PartitionH: nodes placed by the first draws, then N attempts
    per step; what the algorithm does is determined by the draws. *)
Theorem C68_metropolis x ds factors st : x = None \/ x = Some 0%Z -> Forall good_draw ds -> reached (repeat x (length g)) ds factors = Ok st ->
  exists M0 d0, assigned (length g) M0 /\ started (length g) ds M0 d0 /\ attempts ex (length g) E (length g * list_sum factors) M0 d0 (abs (mpart st)) (mds st).
Proof. exact (reached_attempts ex sq logf lnchoose lnfact linC log1 choose00 g U mutual decay_of lcsize lfsize x ds factors st). Qed.
Theorem C68_determined n M ds M1 d1 M2 d2 : assigned (length g) M -> attempts ex (length g) E n M ds M1 d1 -> attempts ex (length g) E n M ds M2 d2 -> M1 = M2 /\ d1 = d2.
Proof. exact (fun HA H1 => attempts_det ex logf lnchoose lnfact linC g n M ds M1 d1 HA H1 M2 d2). Qed.
End Exact.

(** ** Examples *)
Definition ex1 (x : Qc) : Qc := 1%Qc.
#[local] Instance ops12' : NumOps Qc := Qc_ops ex1 sq0.
Definition lf1 (n : nat) : Qc := Qc_of_nat (n - 1).
Definition lc1 (r l : nat) : Qc := Qc_of_nat (l * (r - l)).
Definition ft1 (n : nat) : Qc := Qc_of_nat (n * n).
Definition mu1 (P Q : gpart Qc) : Qc := 1%Qc.
Definition de1 (n x1 : nat) (y1 : Qc) (x2 : nat) (y2 : Qc) : Qc := 1%Qc.
Notation kiteQ := (kite (A := Qc)).
(** Every node in its own group, then any draws. *)
Definition some13 : list Qc := [qq (3 # 10); qq (1 # 10); qq (9 # 10); qq (1 # 2); qq (7 # 10); qq 0; qq (4 # 5); qq (1 # 5); qq (1 # 4); qq (3 # 5); qq (1 # 3); qq (19 # 20); qq (2 # 5)].
Definition five : list Qc := [qq 0; qq (1 # 5); qq (2 # 5); qq (3 # 5); qq (4 # 5)].
Definition ds12 : list Qc := five ++ concat (repeat some13 400).
Example ds12_good : Forall good_draw ds12.
Proof.
  assert (H : forall l, Forall (fun u => 0 <= u /\ u < 1)%Qc l -> Forall (@good_draw Qc ops12') l) by (intros l; apply Forall_impl; intros u [H1 H2]; now apply good_draw_Qc).
  apply Forall_app. split.
  - apply H. repeat (apply Forall_cons; [split; [vm_compute; congruence|reflexivity]|]). constructor.
  - generalize 400. intros n. induction n as [|n IH]; [constructor|]. cbn [repeat concat]. apply Forall_app. split; auto.
    apply H. repeat (apply Forall_cons; [split; [vm_compute; congruence|reflexivity]|]). constructor.
Qed.
Example logs12 : lf1 1 = 0%Qc /\ lc1 0 0 = 0%Qc /\ (forall x, 0 < ex1 x)%Qc.
Proof. splits; reflexivity. Qed.
Example kite12 : undirected kiteQ /\ 2 <= length kiteQ.
Proof. destruct (kite_undirected (A := Qc)) as [H1 H2]. split; [exact H1|rewrite H2; lia]. Qed.

(** The state after seven steps. *)
Definition seen (r : res (mc Qc)) := match r with Ok st => Some (map snd (abs (mpart st)), this (mH st), mG2G st, length (mds st)) | Err _ => None end.
Example seven_steps : seen (reached ex1 sq0 lf1 lc1 ft1 1%Qc kiteQ 10 10 (repeat None 5) (firstn 200 ds12) (repeat 1 7)) =
  Some ([[]; [2]; [4; 0]; []; [3; 1]], 13%Q, [[0; 0; 0; 0; 0]; [0; 0; 1; 0; 2]; [0; 1; 0; 0; 1]; [0; 0; 0; 0; 0]; [0; 2; 1; 0; 0]]%Z, 103).
Proof. vm_compute. reflexivity. Qed.
(** With the exponential 1/10 everywhere: most moves that raise the energy are refused. *)
Example seven_steps_cold : seen (@reached (fun _ => qq (1 # 10)) sq0 lf1 lc1 ft1 1%Qc kiteQ 10 10 (repeat None 5) (firstn 200 ds12) (repeat 1 7)) =
  Some ([[0; 1; 3]; [4]; [2]; []; []], 11%Q, [[1; 0; 3; 0; 0]; [0; 0; 0; 0; 0]; [3; 0; 0; 0; 0]; [0; 0; 0; 0; 0]; [0; 0; 0; 0; 0]]%Z, 87).
Proof. vm_compute. reflexivity. Qed.
(** Three samples of the kite; the isolated node is the last. *)
Example kite_scores : match LinkScore_on lf1 lc1 ft1 mu1 de1 10 10 1%Qc kiteQ (repeat None 5) 3 ds12 with Ok (m, st) => (map (map this) m, map snd (abs (mpart st))) | Err _ => ([], []) end =
  ([[0; 1 # 2; 11 # 18; 1 # 3; 5 # 18]; [1 # 2; 0; 11 # 18; 1 # 2; 7 # 18]; [11 # 18; 11 # 18; 0; 13 # 18; 1 # 3]; [1 # 3; 1 # 2; 13 # 18; 0; 5 # 18]; [5 # 18; 7 # 18; 1 # 3; 5 # 18; 0]]%Q,
   [[2]; [0; 3]; []; [4]; [1]]).
Proof. vm_compute. reflexivity. Qed.
(** All nodes in group 0: the first accepted move reads n2gList[1]. *)
Example kite_uninit : match LinkScore lf1 lc1 ft1 mu1 de1 10 10 1%Qc kiteQ 3 (repeat (qq 0) 6 ++ [qq (1 # 5)]) with Ok _ => None | Err e => Some e end = Some UB_uninit.
Proof. vm_compute. reflexivity. Qed.
Example kite_zeroed : match LinkScore_on lf1 lc1 ft1 mu1 de1 10 10 1%Qc kiteQ (repeat (Some 0%Z) 5) 1 (repeat (qq 0) 6 ++ [qq (1 # 5)] ++ concat (repeat some13 400)) with Ok (m, _) => map (map this) (firstn 1 m) | Err _ => [] end =
  [[0; 1 # 2; 2 # 3; 1 # 2; 1 # 3]]%Q.
Proof. vm_compute. reflexivity. Qed.

Print Assumptions C31_running_energy.
Print Assumptions C31_change.
Print Assumptions C32_table.
Print Assumptions C32_errors.
Print Assumptions C33_scores.
Print Assumptions C67_initialised_refuted.
Print Assumptions C68_metropolis.
Print Assumptions C68_determined.
