(** Properties23.v -- what is computed from the scores of the links and from the sampled partitions (src/missing.c): C129 to C134. *)
From Coq Require Import List Arith ZArith Lia Bool QArith Qcanon Qround.
From Coq Require Import Strings.Ascii.
From Verif Require Import Base Num ListLib NatSum QcSum ToolsProof IoModel GraphModel GraphSpec GraphProof GraphRand NetModel GenModel GenSpec GenProof GroupModel GroupSpec ModulesModel ModulesSpec ModulesCopy SAProof Refute
  MissModel MissSpec MissStep MissExact ScoreModel ScoreSpec ScoreProof ScoreNet ScoreRec Properties12 Properties20 Properties21 Properties22.
Import ListNotations.
Local Open Scope nat_scope.

Section Exact.
Variables ex sq : Qc -> Qc.
#[local] Instance ops23 : NumOps Qc := Qc_ops ex sq.
Variable logf : nat -> Qc.
Variable lnchoose : nat -> nat -> Qc.
Variable lnfact : nat -> Qc.
Variable mutual : gpart Qc -> gpart Qc -> Qc.
Variable decay_of : nat -> nat -> Qc -> nat -> Qc -> Qc.
Variables lcsize lfsize : nat.
Hypothesis log1 : logf 1 = 0%Qc.
Hypothesis choose00 : lnchoose 0 0 = 0%Qc.
Variable x : option Z.
Hypothesis Hx : x = None \/ x = Some 0%Z.
Implicit Types g h : net Qc.
Notation energy := (energy logf lnchoose lnfact).
Notation err_ok e := (e = RngOut \/ e = Diverge \/ (e = UB_uninit /\ x = None)).

(** C129: the error of the block model. *)
Theorem C129_error reps g ds : undirected g -> Forall good_draw ds ->
  match SBMError logf lnchoose lnfact mutual decay_of lcsize lfsize x reps g ds with
  | Ok (e, g', ds') => net_after g g' /\ Forall good_draw ds' /\ exists Ms, sampled ex sq (length g) (energy 0%Qc g) (fun d => d) reps ds Ms ds' /\ e = sq (misfit g (mean_score ex sq g Ms))
  | Err e => err_ok e
  end.
Proof. exact (SBMError_ok ex sq logf lnchoose lnfact mutual decay_of lcsize lfsize log1 choose00 x Hx reps g ds). Qed.
Theorem C129_range g Ms : undirected g -> Forall (assigned (length g)) Ms -> Ms <> [] -> 2 <= length g -> (0 < misfit g (mean_score ex sq g Ms) /\ misfit g (mean_score ex sq g Ms) < 1)%Qc.
Proof. exact (misfit_bounds ex sq g Ms). Qed.

(** C130: the structure score. *)
Theorem C130_structure reps nrep g ds : undirected g -> Forall good_draw ds -> NoDup (map glabel g) -> (forall n, In n g -> length (glabel n) < 100) -> (exists i j, In j (nbrs g i)) -> 0 < nrep ->
  match SBMStructureScore logf lnchoose lnfact mutual decay_of lcsize lfsize x reps g nrep ds with
  | Ok (z, g', ds') => net_after g g' /\ Forall good_draw ds' /\
      exists e0 d1 hs errs, error_of ex sq logf lnchoose lnfact reps g ds e0 d1 /\ length errs = nrep /\ Forall2 (fun h e => rewired g h /\ exists d d', error_of ex sq logf lnchoose lnfact reps h d e d') hs errs /\
        z = ((Qsum (fun e => e) errs / Qc_of_nat nrep - e0) / deviation sq errs)%Qc
  | Err e => err_ok e
  end.
Proof. exact (Structure_ok ex sq logf lnchoose lnfact mutual decay_of lcsize lfsize log1 choose00 x Hx reps nrep g ds). Qed.

(** C131: the network of the scores. *)
Theorem C131_network reps g ds : undirected g -> Forall good_draw ds -> writable (length g) -> (forall n, In n g -> length (glabel n) < 100) ->
  match NetFromSBMScores logf lnchoose lnfact mutual decay_of lcsize lfsize x reps g ds with
  | Ok (h, g', ds') => net_after g g' /\ Forall good_draw ds' /\ exists Ms, sampled ex sq (length g) (energy 0%Qc g) (fun d => d) reps ds Ms ds' /\
      drawn g (fun i j => (Q2Qc (1 # 2) < mean_score ex sq g Ms i j)%Qc) h /\ weightless h
  | Err e => err_ok e
  end.
Proof. exact (NetFrom_ok ex sq logf lnchoose lnfact mutual decay_of lcsize lfsize log1 choose00 x Hx reps g ds). Qed.

(** C132: the partitions sampled.  The counter of the links inside the groups of a copy is twice their number. *)
Theorem C132_partitions g linC nIter burnin thinning ds : undirected g -> NoDup (map glabel g) -> Forall good_draw ds ->
  match PartitionSampling logf lnchoose lnfact mutual decay_of lcsize lfsize x linC g nIter burnin thinning ds with
  | Ok (Qs, st) => net_after g (mnet st) /\ exists Ms, sampled ex sq (length g) (energy linC g) (fun d => Z.to_nat (Qfloor (this (Qc_of_nat d * thinning)%Qc))) nIter ds Ms (mds st) /\
      Forall2 (fun M Q => abs Q = M /\ cells_right g Q /\ forall G, In G Q -> psize G = Z.of_nat (length (members G)) /\ pin G = Z.of_nat (2 * links_in g (members G))) Ms Qs
  | Err e => err_ok e
  end.
Proof. exact (fun U ND HD => PartitionSampling_ok ex sq logf lnchoose lnfact mutual decay_of lcsize lfsize log1 choose00 x Hx g U ND linC nIter burnin thinning ds HD). Qed.

(** C133: the score of a network. *)
Theorem C133_score g tar linC nIter ds : undirected g -> undirected tar -> NoDup (map glabel g) -> map glabel tar = map glabel g -> Forall good_draw ds -> 0 < nIter ->
  match NetworkScore logf lnchoose lnfact mutual decay_of lcsize lfsize x linC tar g nIter ds with
  | Ok (s, tar', g', ds') => net_after tar tar' /\ net_after g g' /\ Forall good_draw ds' /\
      exists Ms, sampled ex sq (length g) (energy linC g) (fun d => d) nIter ds Ms ds' /\ s = network_score ex logf lnchoose g tar Ms
  | Err e => err_ok e
  end.
Proof. exact (fun U UT ND EL HD Hn => NetworkScore_ok ex sq logf lnchoose lnfact mutual decay_of lcsize lfsize log1 choose00 x Hx g tar U UT ND EL linC nIter ds HD Hn). Qed.
(** Only the links count, and the observed network has score one. *)
Theorem C133_links g g' h h' Ms : like g g' -> like h h' -> network_score ex logf lnchoose g' h' Ms = network_score ex logf lnchoose g h Ms.
Proof. exact (score_like ex logf lnchoose g g' h h' Ms). Qed.
Theorem C133_self g Ms : (forall y, 0 < ex y)%Qc -> Ms <> [] -> network_score ex logf lnchoose g g Ms = 1%Qc.
Proof. exact (score_self ex logf lnchoose g Ms). Qed.

(** C134: the reconstruction. *)
Theorem C134_search few some obs ds : 0 < few -> 0 < some -> undirected obs -> NoDup (map glabel obs) -> (forall n, In n obs -> length (glabel n) < 100) ->
  0 < n_links obs -> n_links obs < length (upper (length obs)) -> Forall good_draw ds ->
  match NetReconstruct logf lnchoose lnfact mutual decay_of lcsize lfsize x few some obs ds with
  | Ok (h, obs', ds') => undirected h /\ net_after obs obs' /\ Forall good_draw ds' /\ exists s, climbed ex sq logf lnchoose lnfact few some obs h s
  | Err e => err_ok e
  end.
Proof. exact (fun Hf Hs UO ND H100 HL HG HD => NetReconstruct_ok ex sq logf lnchoose lnfact mutual decay_of lcsize lfsize log1 choose00 x Hx few some Hf Hs obs UO ND HL HG ds H100 HD). Qed.
Theorem C134_keeps few some obs h s : climbed ex sq logf lnchoose lnfact few some obs h s -> map glabel h = map glabel obs /\ n_links h = n_links obs.
Proof. exact (climbed_keeps ex sq logf lnchoose lnfact few some obs h s). Qed.
Theorem C134_rises few some obs h s : (forall y, 0 < ex y)%Qc -> 0 < few -> climbed ex sq logf lnchoose lnfact few some obs h s -> (s = 1 /\ like obs h \/ 1 < s)%Qc.
Proof. exact (climbed_score ex sq logf lnchoose lnfact few some obs h s). Qed.
(** Without a link to remove or a pair to join, no run ends well. *)
Theorem C134_blind few some obs ds r : 0 < few -> 0 < some -> undirected obs -> NoDup (map glabel obs) -> (forall n, In n obs -> length (glabel n) < 100) ->
  n_links obs = 0 \/ n_links obs = length (upper (length obs)) -> Forall good_draw ds ->
  NetReconstruct logf lnchoose lnfact mutual decay_of lcsize lfsize x few some obs ds <> Ok r.
Proof. exact (fun Hf Hs UO ND H100 HN HD => NetReconstruct_blind ex sq logf lnchoose lnfact mutual decay_of lcsize lfsize log1 choose00 x Hx few some Hf Hs obs UO ND ds r HN H100 HD). Qed.
End Exact.

(** * Concrete cases *)
#[local] Instance ops23e : NumOps Qc := Qc_ops ex1 sq0.
(** A triangle with a tail. *)
Definition names4 : list label := [["a"]; ["b"]; ["c"]; ["d"]]%char.
Definition net23 := wired names4 [(0, 1); (0, 2); (1, 2); (2, 3)].
Example net23_fine : undirected net23 /\ map glabel net23 = names4.
Proof. apply wired_ok; vm_compute; reflexivity. Qed.
Example net23_names : NoDup (map glabel net23).
Proof. rewrite (proj2 net23_fine). apply nodup_labels. vm_compute. reflexivity. Qed.
Example net23_short : forall n, In n net23 -> length (glabel n) < 100.
Proof.
  intros n Hn. apply (in_map glabel) in Hn. rewrite (proj2 net23_fine) in Hn. cbn in Hn. destruct Hn as [<-|[<-|[<-|[<-|[]]]]]; cbn; lia.
Qed.
Example net23_links : n_links net23 = 4 /\ length (upper (length net23)) = 6 /\ nbrs net23 0 = [1; 2].
Proof. vm_compute. auto. Qed.
Example net23_writable : writable (length net23).
Proof. exists 1. replace (length net23) with 4 by (vm_compute; reflexivity). cbn. lia. Qed.
Notation run f := (f lf1 lc1 ft1 mu1 de1 10 10 (Some 0%Z)).
Lemma lcg_good n s : Forall good_draw (lcg n s).
Proof.
  revert s. induction n as [|n IH]; intros s; cbn [lcg]; [constructor|]. constructor; [|apply IH].
  set (t := ((s * 1103515245 + 12345) mod 2147483648)%N). assert (H : (t / 134217728 < 16)%N).
  { apply N.div_lt_upper_bound; [discriminate|]. unfold t. pose proof (N.mod_upper_bound (s * 1103515245 + 12345) 2147483648 ltac:(discriminate)). lia. }
  revert H. generalize (t / 134217728)%N. intros v H. assert (B : (0 <= Z.of_N v < 16)%Z) by lia. generalize dependent (Z.of_N v). intros z B.
  apply good_draw_Qc.
  - unfold Qcle, Q2Qc. cbn [this]. rewrite !Qred_correct. unfold Qle. cbn [Qnum Qden]. lia.
  - unfold Qclt, Q2Qc. cbn [this]. rewrite !Qred_correct. unfold Qlt. cbn. lia.
Qed.
Example error23 : match run (SBMError (A := Qc)) 3 net23 (lcg 3000 5) with Ok (e, _, d) => Some (this e, length d) | Err _ => None end = Some ((1423 # 8640)%Q, 154).
Proof. vm_compute. reflexivity. Qed.
(** The tail is drawn to the triangle. *)
Example drawn23 : match run (NetFromSBMScores (A := Qc)) 3 net23 (lcg 3000 5) with Ok (h, _, d) => Some (map (nbrs h) (seq 0 4), length d) | Err _ => None end = Some ([[1; 2; 3]; [0; 2]; [0; 1; 3]; [0; 2]], 154).
Proof. vm_compute. reflexivity. Qed.
(** The triangle a, b, c has three links; its counter is six. *)
Example partitions23 : match run (PartitionSampling (A := Qc)) 0%Qc net23 3 2 (qq 2) (lcg 4900 5) with Ok (Qs, _) => map (fun Q => (map snd (abs Q), map pin Q)) Qs | Err _ => [] end =
  [([[3]; [2]; [0]; [1]], [0; 0; 0; 0]%Z); ([[3]; [1; 0; 2]; []; []], [0; 6; 0; 0]%Z); ([[3]; [2]; [1]; [0]], [0; 0; 0; 0]%Z)].
Proof. vm_compute. reflexivity. Qed.
Definition two23 := wired names4 [(0, 1); (2, 3)].
Example structure23 : match run (SBMStructureScore (A := Qc)) 1 two23 2 (lcg (300 * 100) 6) with Ok (z, _, d) => Some (this z, length d) | Err _ => None end = Some ((108 # 5)%Q, 172 * 100 + 91).
Proof. vm_compute. reflexivity. Qed.
(** The network itself has score one; the square does not. *)
Definition tar23 := wired names4 [(0, 1); (0, 3); (1, 2); (2, 3)].
Example tar23_fine : undirected tar23 /\ map glabel tar23 = map glabel net23.
Proof. destruct net23_fine as [_ ->]. apply wired_ok; vm_compute; reflexivity. Qed.
Definition score23 (t : net Qc) := match run (NetworkScore (A := Qc)) 0%Qc t net23 3 (lcg 3000 5) with Ok (s, _, _, d) => Some (this s, length d) | Err _ => None end.
Example scores23 : score23 net23 = Some (1%Q, 154) /\ score23 tar23 = Some ((17 # 18)%Q, 154).
Proof. vm_compute. auto. Qed.
(** A path a, b, c with other numbers for the binomials: a different path has a larger score, then five exchanges are
    rejected twice. *)
Definition lc23 (r l : nat) : Qc := (- Qc_of_nat (l * (r - l)))%Qc.
Example path23 : n_links path21 = 2 /\ length (upper (length path21)) = 3 /\ lf1 1 = 0%Qc /\ lc1 0 0 = 0%Qc /\ lc23 0 0 = 0%Qc /\ (forall y, 0 < ex1 y)%Qc.
Proof. repeat split; try (vm_compute; reflexivity); try (apply Qc_is_canon; vm_compute; reflexivity). apply ex1_pos. Qed.
Example rebuilt23 : match NetReconstruct lf1 lc23 ft1 mu1 de1 10 10 (Some 0%Z) 1 1 path21 (lcg (250 * 200) 17) with Ok (h, _, d) => Some (map (nbrs h) (seq 0 3), length d) | Err _ => None end =
  Some ([[2]; [2]; [1; 0]], 69 * 100 + 63).
Proof. vm_compute. reflexivity. Qed.
(** Three nodes without links. *)
Example bare23 : n_links bare21 = 0 /\ match run (NetReconstruct (A := Qc)) 1 1 bare21 (lcg (200 * 100) 4) with Ok _ => None | Err e => Some e end = Some UB_uninit.
Proof. vm_compute. auto. Qed.

Print Assumptions C129_error.
Print Assumptions C129_range.
Print Assumptions C130_structure.
Print Assumptions C131_network.
Print Assumptions C132_partitions.
Print Assumptions C133_score.
Print Assumptions C133_links.
Print Assumptions C133_self.
Print Assumptions C134_search.
Print Assumptions C134_keeps.
Print Assumptions C134_rises.
Print Assumptions C134_blind.
