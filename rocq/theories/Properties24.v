(** Properties24.v -- the samplers of src/multiblock.c and src/only_deg.c (C135-C139). *)
From Coq Require Import List Arith ZArith Bool QArith Qcanon Lia.
From Verif Require Import Base Num ListLib NatSum QcSum IoModel GraphModel GraphSpec GroupModel GroupSpec MatLib ToolsModel ToolsProof ModulesModel SAProof RolesBounds Refute
  MissModel MissSpec MissSets MissStep MissRun MissScore MissExact MbModel MbSpec MbStep MbRun MbExact MbScore Properties4 Properties12 Properties20 Properties21 Properties23.
Import ListNotations.
Local Open Scope nat_scope.

Section Exact.
Variables ex sq : Qc -> Qc.
#[local] Instance ops24 : NumOps Qc := Qc_ops ex sq.
(** The logarithms of the program: any functions with ln 1 = 0 and ln (0 choose 0) = 0.  [kd] chooses the program: AND is
    LinkScoreMB, OR is ORLinkScoreMB, OD is LinkScoreMB_OD. *)
Variable ln : Qc -> Qc.
Variable lnchoose : nat -> nat -> Qc.
Variable lnfact : nat -> Qc.
Variable mutual : gpart Qc -> gpart Qc -> Qc.
Variable decay_of : nat -> nat -> Qc -> nat -> Qc -> Qc.
Variables lcsize lfsize : nat.
Variable linC : Qc.
Variable kd : kind.
Hypothesis ln1 : ln 1%Qc = 0%Qc.
Hypothesis choose00 : lnchoose 0 0 = 0%Qc.
Variable g : net Qc.
Hypothesis U : undirected g.
Notation E := (mb_energy ln lnchoose lnfact linC kd g).
Notation reached hl := (mb_reached ex sq ln lnchoose lnfact lcsize lfsize linC kd g hl).
(** A table of harmonic numbers: entry i is 1 + 1/2 + ... + 1/i. *)
Definition harmonics (hl : list Qc) : Prop := forall i, i < length hl -> nth_error hl i = Some (Qsum (fun j => 1 / Qc_of_nat j) (seq 1 i))%Qc.
(** The errors that are left: the end of the random numbers, a loop that does not end, and a table of harmonic numbers with fewer
    than n(n-1)/2 + 3 entries. *)
Definition mb_only (hsize : nat) (e : err) : Prop := e = RngOut \/ e = Diverge \/ (e = UB_oob /\ kd <> OD /\ hsize < choose2 (length g) + 3).

Theorem C135_running_energy hl ds factors st : harmonics hl -> Forall good_draw ds -> reached hl ds factors = Ok st ->
  assigned (length g) (abs (mpart st)) /\ mH st = E (abs (mpart st)) /\ table_exact g (abs (mpart st)) (mG2G st) /\
  (forall H, PartitionHMB ln lnchoose lnfact linC kd hl (mnet st) (mpart st) = Ok H -> H = mH st).
Proof. exact (fun Hhl => mb_reached_energy ex sq ln lnchoose lnfact mutual decay_of lcsize lfsize linC kd ln1 choose00 g U hl Hhl ds factors st). Qed.
Theorem C135_change hl ds factors st v o w : harmonics hl -> Forall good_draw ds -> reached hl ds factors = Ok st ->
  o < length g -> w < length g -> o <> w -> In v (nth_members (abs (mpart st)) o) ->
  exists r g' P', MoveNode (mnet st, mpart st) v o w = Ok (r, (g', P')) /\
    ends (mb_only (length hl)) (PartitionHMB ln lnchoose lnfact linC kd hl g' P') (fun after =>
      ends (mb_only (length hl)) (mb_change ln lnchoose lnfact lcsize lfsize linC kd (length g) (InitializeTable lnfact lfsize) hl st v o w) (fun '(dH, _, _) => dH = (after - mH st)%Qc)).
Proof. exact (fun Hhl => mb_reached_change ex sq ln lnchoose lnfact mutual decay_of lcsize lfsize linC kd ln1 choose00 g U hl Hhl ds factors st v o w). Qed.

Theorem C136_errors hl ds factors e : harmonics hl -> Forall good_draw ds -> reached hl ds factors = Err e -> mb_only (length hl) e.
Proof. exact (fun Hhl => mb_reached_errors ex sq ln lnchoose lnfact mutual decay_of lcsize lfsize linC kd ln1 choose00 g U hl Hhl ds factors e). Qed.
Theorem C136_score_errors hsize debug nIter ds e : 0 < hsize -> Forall good_draw ds ->
  LinkScoreMB_on ln lnchoose lnfact mutual decay_of lcsize lfsize linC kd hsize debug g nIter ds = Err e -> mb_only hsize e.
Proof.
  intros Hs HD EQ. pose proof (LinkScoreMB_any ex sq ln lnchoose lnfact mutual decay_of lcsize lfsize linC kd ln1 choose00 g U hsize debug nIter ds Hs HD) as H.
  match type of H with ends _ ?a _ => assert (EQ' : a = Err e) by exact EQ; rewrite EQ' in H end. exact H.
Qed.

(** C137: "the programs stay inside HarmonicList" is false of the sizes that they choose, on every network. *)
Theorem C137_inside_refuted debug nIter tail : 0 < length g -> kd <> OD -> Forall good_draw tail ->
  exists ds, Forall good_draw ds /\ LinkScoreMB ln lnchoose lnfact mutual decay_of lcsize lfsize linC kd debug g nIter ds = Err UB_oob.
Proof. exact (fun HN HK HT => ex_intro _ _ (LinkScoreMB_oob ex sq ln lnchoose lnfact mutual decay_of lcsize lfsize linC kd g U HN HK debug nIter tail HT)). Qed.

(** C138: the scores. *)
Theorem C138_scores hsize debug nIter ds m st : 0 < hsize -> 0 < nIter -> Forall good_draw ds ->
  LinkScoreMB_on ln lnchoose lnfact mutual decay_of lcsize lfsize linC kd hsize debug g nIter ds = Ok (m, st) ->
  exists M0 d0 warm decor M1 d1 Ms,
    assigned (length g) M0 /\ started (length g) ds M0 d0 /\ attempts ex (length g) E warm M0 d0 M1 d1 /\
    samples ex (length g) E (length g * decor) M1 d1 Ms (abs (mpart st)) (mds st) /\ length Ms = nIter /\ (forall M, In M Ms -> assigned (length g) M) /\
    table_exact g (abs (mpart st)) (mG2G st) /\ mH st = (if debug then E (abs (mpart st)) else E (abs (mpart st)) - E M1)%Qc /\
    mat (length g) (length g) m (fun i j =>
      if i =? j then match kd with OR => 1%Qc | _ => 0%Qc end
      else let mean := (Qsum (fun M => mb_score kd g M i j) Ms / Qc_of_nat nIter)%Qc in match kd with OR => (1 - mean)%Qc | _ => mean end).
Proof.
  intros Hs Hn HD EQ. pose proof (LinkScoreMB_any ex sq ln lnchoose lnfact mutual decay_of lcsize lfsize linC kd ln1 choose00 g U hsize debug nIter ds Hs HD) as H.
  match type of H with ends _ ?a _ => assert (EQ' : a = Ok (m, st)) by exact EQ; rewrite EQ' in H end. cbn [ends] in H.
  destruct H as (M0 & d0 & warm & decor & M1 & d1 & Ms & H1 & H2 & H3 & H4 & H5 & H6 & H7 & H8 & H9 & H10).
  exists M0, d0, warm, decor, M1, d1, Ms. splits; auto. eapply mat_ext; [exact (H10 Hn)|]. intros i j _ _. unfold mb_average. rewrite H5. destruct kd, (i =? j); reflexivity.
Qed.
Theorem C138_bounds hsize debug nIter ds m st : 0 < hsize -> 0 < nIter -> Forall good_draw ds ->
  LinkScoreMB_on ln lnchoose lnfact mutual decay_of lcsize lfsize linC kd hsize debug g nIter ds = Ok (m, st) ->
  exists f, mat (length g) (length g) m f /\ (forall i j, i < length g -> j < length g -> f i j = f j i) /\
    (forall i j, i < length g -> j < length g -> i <> j -> (0 < f i j)%Qc /\ (f i j < 1)%Qc).
Proof.
  intros Hs Hn HD EQ. pose proof (LinkScoreMB_any ex sq ln lnchoose lnfact mutual decay_of lcsize lfsize linC kd ln1 choose00 g U hsize debug nIter ds Hs HD) as H.
  match type of H with ends _ ?a _ => assert (EQ' : a = Ok (m, st)) by exact EQ; rewrite EQ' in H end. cbn [ends] in H.
  destruct H as (M0 & d0 & warm & decor & M1 & d1 & Ms & H1 & H2 & H3 & H4 & H5 & H6 & H7 & H8 & H9 & H10).
  exists (mb_average kd g Ms). splits; [exact (H10 Hn)|intros; now apply mb_average_sym|intros; apply mb_average_between; auto]. intros ->. cbn in H5. lia.
Qed.
(** What one partition adds to a score is strictly between 0 and 1. *)
Theorem C138_share r l : l <= r -> (0 < mb_share kd r l)%Qc /\ (mb_share kd r l < 1)%Qc.
Proof. exact (share_between kd r l). Qed.

(** C139: the step is the Metropolis algorithm for this energy. *)
Theorem C139_metropolis hl ds factors st : harmonics hl -> Forall good_draw ds -> reached hl ds factors = Ok st ->
  exists M0 d0, assigned (length g) M0 /\ started (length g) ds M0 d0 /\ attempts ex (length g) E (length g * list_sum factors) M0 d0 (abs (mpart st)) (mds st) /\
    forall M' d', attempts ex (length g) E (length g * list_sum factors) M0 d0 M' d' -> M' = abs (mpart st) /\ d' = mds st.
Proof. exact (fun Hhl => mb_reached_attempts ex sq ln lnchoose lnfact mutual decay_of lcsize lfsize linC kd ln1 choose00 g U hl Hhl ds factors st). Qed.
Theorem C139_table hsize : 0 < hsize -> exists hl, InitializeHarmonicList hsize = Ok hl /\ length hl = hsize /\ harmonics hl.
Proof.
  intros H. destruct (harmonic_spec ex sq hsize H) as (hl & EH & L & Hh). exists hl. split; [exact EH|]. split; auto. intros i Hi. apply Hh. lia.
Qed.
End Exact.

(** ** Examples *)
#[local] Instance ops24' : NumOps Qc := Qc_ops ex1 sq0.
Definition ln24 (x : Qc) : Qc := (x - 1)%Qc.
Definition lc24 (r l : nat) : Qc := Qc_of_nat (l * (r - l)).
Example logs24 : ln24 1%Qc = 0%Qc /\ lc24 0 0 = 0%Qc.
Proof. split; apply Qc_is_canon; reflexivity. Qed.
(** A triangle with a tail; the tables of harmonic numbers have 9 entries. *)
Definition run24 (kd : kind) := LinkScoreMB_on ln24 lc24 ft1 mu1 de1 10 10 1%Qc kd 9.
Definition shown24 (r : res (list (list Qc) * mc Qc)) := match r with Ok (m, st) => inl (map (map this) m, map snd (abs (mpart st)), this (mH st), length (mds st)) | Err e => inr e end.
Example net24_fine : undirected net23 /\ length net23 = 4 /\ choose2 (length net23) + 3 = 9 /\ Forall good_draw (lcg 3000 5).
Proof. splits; [apply net23_fine|reflexivity|reflexivity|apply lcg_good]. Qed.
Example and24 : shown24 (run24 AND false net23 2 (lcg 3000 5)) =
  inl ([[0; 1429 # 3150; 14089 # 32900; 14089 # 32900]; [1429 # 3150; 0; 14089 # 32900; 14089 # 32900]; [14089 # 32900; 14089 # 32900; 0; 1429 # 3150]; [14089 # 32900; 14089 # 32900; 1429 # 3150; 0]]%Q,
    [[0; 1]; []; [2; 3]; []], 597831373729567 # 300000000000000, 99).
Proof. vm_compute. reflexivity. Qed.
Example or24 : shown24 (run24 OR true net23 2 (lcg 3000 5)) =
  inl ([[1; 3194 # 4725; 14273 # 16875; 1721 # 3150]; [3194 # 4725; 1; 14273 # 16875; 1721 # 3150]; [14273 # 16875; 14273 # 16875; 1; 14273 # 16875]; [1721 # 3150; 1721 # 3150; 14273 # 16875; 1]]%Q,
    [[0]; [3]; [1]; [2]], 4.2726121813%Q, 85).
Proof. vm_compute. reflexivity. Qed.
Example od24 : shown24 (run24 OD false net23 2 (lcg 3000 5)) =
  inl ([[0; 8 # 15; 13 # 20; 9 # 20]; [8 # 15; 0; 13 # 20; 9 # 20]; [13 # 20; 13 # 20; 0; 11 # 15]; [9 # 20; 9 # 20; 11 # 15; 0]]%Q, [[2]; [1; 0; 3]; []; []], (-1.39056208756811)%Q, 95).
Proof. vm_compute. reflexivity. Qed.
(** Three steps: node 0 is in group 0 and could go to group 1. *)
Example steps24 : match InitializeHarmonicList 9 with
  | Ok hl => match mb_reached ex1 sq0 ln24 lc24 ft1 10 10 1%Qc AND net23 hl (lcg 300 5) [1; 2] with Ok st => Some (map snd (abs (mpart st)), this (mH st), mG2G st, length (mds st)) | Err e => None end
  | Err _ => None end =
  Some ([[0]; []; []; [1; 3; 2]], 2320416313399567 # 300000000000000, [[0; 0; 0; 2]; [0; 0; 0; 0]; [0; 0; 0; 0]; [2; 0; 0; 2]]%Z, 262).
Proof. vm_compute. reflexivity. Qed.
(** All nodes in group 0. *)
Example oob24 : shown24 (LinkScoreMB ln24 lc24 ft1 mu1 de1 10 10 1%Qc AND false net23 2 (repeat 0%Qc 4)) = inr UB_oob.
Proof. vm_compute. reflexivity. Qed.

Print Assumptions C135_running_energy.
Print Assumptions C135_change.
Print Assumptions C136_errors.
Print Assumptions C136_score_errors.
Print Assumptions C137_inside_refuted.
Print Assumptions C138_scores.
Print Assumptions C138_bounds.
Print Assumptions C138_share.
Print Assumptions C139_metropolis.
Print Assumptions C139_table.
