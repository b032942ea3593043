(** Properties27.v -- the Gibbs sampler for sparse networks of src/sparse_missing.c (C148-C155). *)
From Coq Require Import List Arith ZArith Bool QArith Qcanon Lia.
From Verif Require Import Base Num ListLib NatSum QcSum GraphModel GraphSpec GraphRand GroupModel GroupSpec MatLib ToolsModel ModulesModel SAProof Refute
  MissModel MissSpec MissStep MbModel GibbsModel GibbsSpec GibbsStep GibbsExact SparseModel SparseSpec SparseRun SparseMain Properties12 Properties20 Properties21 Properties23 Properties24 Properties25.
From Verif Require RecSpec.
Import ListNotations.
Local Open Scope nat_scope.

Section Exact.
Variables ex sq : Qc -> Qc.
Hypothesis ex_pos : forall x, (0 < ex x)%Qc.
#[local] Instance ops27 : NumOps Qc := Qc_ops ex sq.
(** The logarithms of the program: any functions. *)
Variable lngamma : Qc -> Qc.
Variable lnfact : nat -> Qc.
Variables lgsize lfsize : nat.
Variable g : net Qc.
Hypothesis U : undirected g.
Let n := length g.

(** For any two parameters of the prior. *)
Section AnyPrior.
Variables a b : Qc.
Notation E := (sparse_energy lngamma lnfact a b g).
Notation reached ds := (sp_reached ex sq lngamma lnfact lgsize lfsize a b g ds).
Notation sweeps := (RecSpec.power (gsweep ex E)).

Theorem C148_running_energy ds k st : Forall unit_draw ds -> reached ds k = Ok st ->
  assigned n (abs (mpart st)) /\ mH st = E (abs (mpart st)) /\ table_exact g (abs (mpart st)) (mG2G st) /\ SparsePartitionH lngamma lnfact a b (mnet st) (mpart st) = Ok (mH st).
Proof. exact (sp_reached_energy ex sq ex_pos lngamma lnfact lgsize lfsize a b g U ds k st). Qed.

Theorem C149_heat_bath ds k st : Forall unit_draw ds -> reached ds k = Ok st ->
  sweeps k (alone n, skipn n ds) (abs (mpart st), mds st) /\ forall t, sweeps k (alone n, skipn n ds) t -> t = (abs (mpart st), mds st).
Proof. exact (sp_reached_sweeps ex sq ex_pos lngamma lnfact lgsize lfsize a b g U ds k st). Qed.
Theorem C149_rule M v ks u : 0 < length M -> (forall k, In k (occupied M) -> In k ks) -> (forall k, In k ks -> k < length M) -> (0 < u)%Qc -> (u <= 1)%Qc ->
  exists w, w < length M /\ gheats ex E M v ks u w /\ forall w', gheats ex E M v ks u w' -> w' = w.
Proof. exact (gheats_total ex ex_pos E M v ks u). Qed.

(** The errors that are left. *)
Definition sparse_only (rest : list Qc) (e : err) : Prop :=
  e = RngOut \/ e = Diverge \/ (e = UB_oob /\ exists u, In u rest /\ (u <= 0)%Qc) \/
  (e = UB_uninit /\ 0 < n /\ exists k t, sweeps k (alone n, rest) t /\ filled (fst t) = 1).
Theorem C150_errors ds k e : Forall unit_draw ds -> reached ds k = Err e -> sparse_only (skipn n ds) e.
Proof.
  intros HD EQ. destruct (sp_reached_errors ex sq ex_pos lngamma lnfact lgsize lfsize a b g U ds k e HD EQ) as [H|[H|[(H & K)|H]]]; unfold sparse_only; auto.
  right; right; left. split; auto. now apply not_pos.
Qed.
Theorem C150_when_uninitialised ds k : Forall unit_draw ds ->
  reached ds k = Err UB_uninit <-> 0 < n /\ exists j st, j < k /\ reached ds j = Ok st /\ filled (abs (mpart st)) = 1.
Proof. exact (sp_reached_uninit ex sq ex_pos lngamma lnfact lgsize lfsize a b g U ds k). Qed.
End AnyPrior.

(** The whole program, with its own choice of the prior. *)
Notation run := (SparseGibbsLinkScore lngamma lnfact lgsize lfsize).
Notation E := (sparse_energy lngamma lnfact (prior_a g) prior_b g).
Notation sweeps := (RecSpec.power (gsweep ex E)).
Theorem C150_score_errors nIter ds e : some_links g -> Forall unit_draw ds -> run g nIter ds = Err e -> sparse_only (prior_a g) prior_b (skipn n ds) e.
Proof.
  intros HL HD EQ. pose proof (Sparse_any ex sq ex_pos lngamma lnfact lgsize lfsize g U nIter ds HL HD) as H.
  match type of H with ends _ ?x _ => assert (EQ' : x = Err e) by exact EQ; rewrite EQ' in H end. cbn [ends] in H.
  destruct H as [H|[H|[(H & K)|H]]]; unfold sparse_only; auto. right; right; left. split; auto. now apply not_pos.
Qed.
Theorem C151_scores nIter ds m st : 0 < nIter -> some_links g -> Forall unit_draw ds -> run g nIter ds = Ok (m, st) ->
  exists rounds s1 ss, 5 <= rounds /\ sweeps (20 * rounds) (alone n, skipn n ds) s1 /\ RecSpec.visits (gsweep ex E) s1 ss (abs (mpart st), mds st) /\ length ss = nIter /\
    (forall s, In s ss -> assigned n (fst s)) /\ table_exact g (abs (mpart st)) (mG2G st) /\ mH st = E (abs (mpart st)) /\
    mat n n m (fun i j => if i =? j then 0%Qc else (Qsum (fun M => sparse_score (prior_a g) prior_b g M i j) (map fst ss) / Qc_of_nat nIter)%Qc).
Proof.
  intros Hn HL HD EQ. pose proof (Sparse_any ex sq ex_pos lngamma lnfact lgsize lfsize g U nIter ds HL HD) as H.
  match type of H with ends _ ?x _ => assert (EQ' : x = Ok (m, st)) by exact EQ; rewrite EQ' in H end. cbn [ends] in H.
  destruct H as (warm & s1 & ss & H0 & H1 & H2 & H3 & H4 & H5 & H6 & H7 & H8). exists warm, s1, ss. splits; auto.
  eapply mat_ext; [exact (H8 Hn)|]. intros i j _ _. unfold sparse_average. now rewrite map_length, H3.
Qed.
Theorem C151_bounds nIter ds m st : 0 < nIter -> some_links g -> Forall unit_draw ds -> run g nIter ds = Ok (m, st) ->
  exists f, mat n n m f /\ (forall i j, i < n -> j < n -> f i j = f j i) /\ (forall i j, i < n -> j < n -> i <> j -> (0 < f i j)%Qc /\ (f i j < 1)%Qc).
Proof.
  intros Hn HL HD EQ. pose proof (Sparse_any ex sq ex_pos lngamma lnfact lgsize lfsize g U nIter ds HL HD) as H.
  match type of H with ends _ ?x _ => assert (EQ' : x = Ok (m, st)) by exact EQ; rewrite EQ' in H end. cbn [ends] in H.
  destruct H as (warm & s1 & ss & H0 & H1 & H2 & H3 & H4 & H5 & H6 & H7 & H8). destruct (prior_pos g HL) as [PA PB].
  assert (HM : forall M, In M (map fst ss) -> assigned (length g) M) by (intros M K; apply in_map_iff in K as (s & <- & K); now apply H4).
  exists (sparse_average (prior_a g) prior_b g (map fst ss)). splits; [exact (H8 Hn)|intros; apply sp_average_sym; auto|intros; apply sp_average_between; auto]. destruct ss; [cbn in H3; lia|discriminate].
Qed.

Theorem C152_prior : some_links g -> (exists g', sp_prior g = Ok (prior_a g, prior_b, g')) /\ (0 < prior_a g)%Qc /\ (0 < prior_b)%Qc /\
  (prior_a g / (prior_a g + prior_b) = Qc_of_nat (2 * length (edges g)) / Qc_of_nat (n * (n - 1)))%Qc.
Proof.
  intros HL. splits; [|apply (prior_pos g HL)|apply (prior_pos g HL)|apply (prior_mean g HL)]. destruct (prior_ok ex sq g U HL) as (g' & E & _). eauto.
Qed.
(** Exactly the networks without links and the complete ones end the program. *)
Theorem C152_when_it_fails nIter ds : 0 < lgsize -> Forall unit_draw ds -> run g nIter ds = Err DivZero <-> length (edges g) = 0 \/ 2 * length (edges g) = n * (n - 1).
Proof.
  intros Hs HD. split.
  - intros EQ. destruct (Nat.eq_dec (length (edges g)) 0) as [|H1]; auto. destruct (Nat.eq_dec (2 * length (edges g)) (n * (n - 1))) as [|H2]; auto. exfalso.
    pose proof (LinkMain.edges_bound g U) as HB. fold n in HB. assert (HL : some_links g) by (split; fold n; lia).
    destruct (C150_score_errors nIter ds DivZero HL HD EQ) as [K|[K|[[K _]|[K _]]]]; discriminate.
  - intros H. apply (Sparse_fails ex sq lngamma lnfact lgsize lfsize g U nIter ds Hs). intros [H1 H2]. fold n in H2. lia.
Qed.
End Exact.

(** ** Examples and refutations *)
#[local] Instance ops27' : NumOps Qc := Qc_ops ex1 sq0.
Definition lg27 (x : Qc) : Qc := (Q2Qc (1 # 10) * x * x)%Qc.
Definition lf27 (c : Z) (k : nat) : Qc := (Q2Qc (inject_Z c) * Qc_of_nat k)%Qc.
Definition run27 (c : Z) := SparseGibbsLinkScore lg27 (lf27 c) 10 10.
(** Three friends with a tail have four links among six pairs: the mean of the prior is 2/3. *)
Example net27 : some_links net23 /\ prior_a net23 = 1%Qc.
Proof. split; [split; vm_compute; lia|apply Qc_is_canon; vm_compute; reflexivity]. Qed.
Example ends27 : shown24 (run27 (-3) net23 2 draws25) =
  inl ([[0; 4 # 5; 29 # 35; 12 # 35]; [4 # 5; 0; 29 # 35; 12 # 35]; [29 # 35; 29 # 35; 0; 4 # 5]; [12 # 35; 12 # 35; 4 # 5; 0]]%Q, [[2]; []; [0; 1]; [3]], (24 # 5)%Q, 8).
Proof. vm_compute. reflexivity. Qed.
(** Two sweeps leave three groups, with the table of the links between them. *)
Example sweep27 : match sp_reached ex1 sq0 lg27 (lf27 (-3)) 10 10 1%Qc (Q2Qc (1 # 2)) net23 draws25 2 with
  | Ok st => Some (map snd (abs (mpart st)), mG2G st, length (mds st)) | Err e => None end =
  Some ([[]; [3]; [1; 2]; [0]], [[0; 0; 0; 0]; [0; 0; 1; 0]; [0; 1; 1; 2]; [0; 0; 2; 0]]%Z, 488).
Proof. vm_compute. reflexivity. Qed.

(** C153: "every step reads only variables that it has set" is false: once all nodes are in one group. *)
Theorem C153_initialised_refuted : exists ds, Forall unit_draw ds /\ Forall (fun u => (0 < u)%Qc) ds /\ run27 1 net23 2 ds = Err UB_uninit.
Proof. exists draws25. split; [exact draws25_unit|]. split; [exact draws25_pos|]. apply shown_err. vm_compute. reflexivity. Qed.
(** C154: "a random number 0 does no harm" is false: it is the number for the first node of the first step. *)
Theorem C154_zero_refuted : exists ds, Forall unit_draw ds /\ run27 (-3) net23 2 ds = Err UB_oob.
Proof.
  exists (firstn 4 draws25 ++ [0%Qc]). split.
  - apply Forall_app. split; [apply Forall_forall; intros u Hu; apply (proj1 (Forall_forall _ _) draws25_unit); rewrite <- (firstn_skipn 4 draws25); apply in_or_app; now left|]. constructor; [|constructor]. split; [discriminate|reflexivity].
  - apply shown_err. vm_compute. reflexivity.
Qed.
(** C155: "the scores can be computed for every network" is false: without links, or with all of them, nothing is. *)
Theorem C155_any_network_refuted nIter ds : exists g1 g2, undirected g1 /\ undirected g2 /\ length g1 = 4 /\ length g2 = 3 /\
  length (edges g1) = 0 /\ length (edges g2) = 3 /\ run27 (-3) g1 nIter ds = Err DivZero /\ run27 (-3) g2 nIter ds = Err DivZero.
Proof.
  assert (U1 : undirected (wired names4 [])) by (apply wired_ok; vm_compute; reflexivity). assert (U2 : undirected (wired (firstn 3 names4) [(0, 1); (0, 2); (1, 2)])) by (apply wired_ok; vm_compute; reflexivity).
  exists (wired names4 []), (wired (firstn 3 names4) [(0, 1); (0, 2); (1, 2)]). splits; auto; apply Sparse_fails; auto; try lia; intros [K1 K2]; vm_compute in K1, K2; lia.
Qed.

Print Assumptions C148_running_energy.
Print Assumptions C149_heat_bath.
Print Assumptions C149_rule.
Print Assumptions C150_errors.
Print Assumptions C150_score_errors.
Print Assumptions C151_scores.
Print Assumptions C151_bounds.
Print Assumptions C152_prior.
Print Assumptions C152_when_it_fails.
Print Assumptions C150_when_uninitialised.
Print Assumptions C153_initialised_refuted.
Print Assumptions C154_zero_refuted.
Print Assumptions C155_any_network_refuted.
