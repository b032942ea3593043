(** Properties25.v -- the Gibbs samplers of src/missing.c, src/multiblock.c and src/only_deg.c (C140-C146). *)
From Coq Require Import List Arith ZArith Bool QArith Qcanon Lia.
From Verif Require Import Base Num ListLib NatSum QcSum GraphModel GraphSpec GroupModel GroupSpec MatLib ToolsModel ModulesModel SAProof Refute
  MissModel MissSpec MissStep MbModel MbSpec MbRun MbExact MbScore GibbsModel GibbsSpec GibbsStep GibbsRun GibbsExact GibbsScore Properties12 Properties20 Properties21 Properties23 Properties24.
From Verif Require RecSpec.
Import ListNotations.
Local Open Scope nat_scope.

Section Exact.
Variables ex sq : Qc -> Qc.
Hypothesis ex_pos : forall x, (0 < ex x)%Qc.
#[local] Instance ops25 : NumOps Qc := Qc_ops ex sq.
(** The logarithms of the program: any functions with ln 1 = 0 and ln (0 choose 0) = 0.  [deg] and [kd] choose the program: without
    [deg] it is GibbsLinkScore of src/missing.c (and [kd] is OD); with [deg], AND is GibbsLinkScoreMB, OR is ORGibbsLinkScoreMB and OD
    is GibbsLinkScoreMB_OD. *)
Variable ln : Qc -> Qc.
Variable lnchoose : nat -> nat -> Qc.
Variable lnfact : nat -> Qc.
Variables lcsize lfsize : nat.
Variable linC : Qc.
Variable kd : kind.
Variable deg : bool.
Hypothesis plain : deg = false -> kd = OD.
Hypothesis ln1 : ln 1%Qc = 0%Qc.
Hypothesis choose00 : lnchoose 0 0 = 0%Qc.
Variable g : net Qc.
Hypothesis U : undirected g.
Let n := length g.
Notation E kd := (heat_energy ln lnchoose lnfact linC kd deg g).
Notation reached hl ds := (gb_reached ex sq ln lnchoose lnfact lcsize lfsize linC kd deg g hl ds).
Notation sweeps := (RecSpec.power (gsweep ex (E kd))).
(** What the energy of GibbsLinkScoreMB_OD starts with: the energy of the other sampler. *)
Definition od_gap : Qc := if deg then match kd with OD => (E AND (alone n) - E OD (alone n))%Qc | _ => 0%Qc end else 0%Qc.
(** The errors that are left. *)
Definition gibbs_only (hsize : nat) (rest : list Qc) (e : err) : Prop :=
  e = RngOut \/ e = Diverge \/
  (e = UB_oob /\ ((exists u, In u rest /\ (u <= 0)%Qc) \/ (deg = true /\ hsize < choose2 n + 3))) \/
  (e = UB_uninit /\ 0 < n /\ exists k t, sweeps k (alone n, rest) t /\ filled (fst t) = 1).

Lemma gap_offset : offset ln lnchoose lnfact linC kd deg g = od_gap.
Proof. unfold offset, od_gap, start_kind, heat_energy. fold n. destruct deg; [|ring]. clear plain. destruct kd; ring. Qed.
Lemma not_pos l : ~ Forall (fun u => (0 < u)%Qc) l -> exists u, In u l /\ (u <= 0)%Qc.
Proof.
  induction l as [|x l IH]; intros H; [destruct H; constructor|]. destruct (Qclt_le_dec 0 x) as [Hx|Hx]; [|exists x; simpl; auto].
  destruct IH as (u & Hu & K); [intros K; apply H; now constructor|]. exists u. simpl. auto.
Qed.
Lemma err_only hsize rest e : gs_err ex ln lnchoose lnfact linC kd deg g hsize rest e -> gibbs_only hsize rest e.
Proof.
  intros [H|[H|[(H & [K|K])|H]]]; unfold gibbs_only; auto.
  - right; right; left. split; auto. left. now apply not_pos.
  - right; right; left. split; auto.
Qed.

Theorem C140_running_energy hl ds k st : harmonics hl -> Forall unit_draw ds -> reached hl ds k = Ok st ->
  assigned n (abs (mpart st)) /\ mH st = (E kd (abs (mpart st)) + od_gap)%Qc /\ table_exact g (abs (mpart st)) (mG2G st) /\
  (deg = true -> forall H, PartitionHMB ln lnchoose lnfact linC kd hl (mnet st) (mpart st) = Ok H -> mH st = (H + od_gap)%Qc) /\
  (deg = false -> PartitionH (fun n => ln (Qc_of_nat n)) lnchoose lnfact linC (mnet st) (mpart st) = Ok (mH st)).
Proof. intros Hhl HD EQ. rewrite <- gap_offset. exact (gb_reached_energy ex sq ex_pos ln lnchoose lnfact lcsize lfsize linC kd deg plain ln1 choose00 g U hl Hhl ds k st HD EQ). Qed.

Theorem C141_heat_bath hl ds k st : harmonics hl -> Forall unit_draw ds -> reached hl ds k = Ok st ->
  sweeps k (alone n, skipn n ds) (abs (mpart st), mds st) /\ forall t, sweeps k (alone n, skipn n ds) t -> t = (abs (mpart st), mds st).
Proof. exact (fun Hhl => gb_reached_sweeps ex sq ex_pos ln lnchoose lnfact lcsize lfsize linC kd deg plain ln1 choose00 g U hl Hhl ds k st). Qed.
(** What the rule says of one node: all weights are above 0, and with [u] from (0, 1] it always names exactly one group. *)
Theorem C141_rule M v ks u : 0 < length M -> (forall k, In k (occupied M) -> In k ks) -> (forall k, In k ks -> k < length M) -> (0 < u)%Qc -> (u <= 1)%Qc ->
  exists w, w < length M /\ gheats ex (E kd) M v ks u w /\ forall w', gheats ex (E kd) M v ks u w' -> w' = w.
Proof. exact (gheats_total ex ex_pos (E kd) M v ks u). Qed.

Theorem C142_errors hl ds k e : harmonics hl -> Forall unit_draw ds -> reached hl ds k = Err e -> gibbs_only (length hl) (skipn n ds) e.
Proof.
  intros Hhl HD EQ. pose proof (gb_reached_errors ex sq ex_pos ln lnchoose lnfact lcsize lfsize linC kd deg plain ln1 choose00 g U hl Hhl ds k e HD EQ) as H. now apply err_only.
Qed.
Theorem C142_score_errors hsize nIter ds e : 0 < hsize -> Forall unit_draw ds ->
  GibbsLinkScore_on ln lnchoose lnfact lcsize lfsize linC kd deg hsize g nIter ds = Err e -> gibbs_only hsize (skipn n ds) e.
Proof.
  intros Hs HD EQ. pose proof (GibbsLinkScore_any ex sq ex_pos ln lnchoose lnfact lcsize lfsize linC kd deg plain ln1 choose00 g U hsize nIter ds Hs HD) as H.
  match type of H with ends _ ?a _ => assert (EQ' : a = Err e) by exact EQ; rewrite EQ' in H end. cbn [ends] in H. now apply err_only.
Qed.
Theorem C143_when_uninitialised hl ds k : harmonics hl -> Forall unit_draw ds ->
  reached hl ds k = Err UB_uninit <-> 0 < n /\ exists j st, j < k /\ reached hl ds j = Ok st /\ filled (abs (mpart st)) = 1.
Proof. exact (fun Hhl => gb_reached_uninit ex sq ex_pos ln lnchoose lnfact lcsize lfsize linC kd deg plain ln1 choose00 g U hl Hhl ds k). Qed.

Theorem C145_scores hsize nIter ds m st : 0 < hsize -> 0 < nIter -> Forall unit_draw ds ->
  GibbsLinkScore_on ln lnchoose lnfact lcsize lfsize linC kd deg hsize g nIter ds = Ok (m, st) ->
  exists rounds s1 ss, 5 <= rounds /\ sweeps (20 * rounds) (alone n, skipn n ds) s1 /\ RecSpec.visits (gsweep ex (E kd)) s1 ss (abs (mpart st), mds st) /\ length ss = nIter /\
    (forall s, In s ss -> assigned n (fst s)) /\ table_exact g (abs (mpart st)) (mG2G st) /\ mH st = (E kd (abs (mpart st)) + od_gap)%Qc /\
    mat n n m (fun i j =>
      if i =? j then match kd with OR => 1%Qc | _ => 0%Qc end
      else let mean := (Qsum (fun M => mb_score kd g M i j) (map fst ss) / Qc_of_nat nIter)%Qc in match kd with OR => (1 - mean)%Qc | _ => mean end).
Proof.
  intros Hs Hn HD EQ. pose proof (GibbsLinkScore_any ex sq ex_pos ln lnchoose lnfact lcsize lfsize linC kd deg plain ln1 choose00 g U hsize nIter ds Hs HD) as H. rewrite gap_offset in H.
  match type of H with ends _ ?a _ => assert (EQ' : a = Ok (m, st)) by exact EQ; rewrite EQ' in H end. cbn [ends] in H.
  destruct H as (warm & s1 & ss & H0 & H1 & H2 & H3 & H4 & H5 & H6 & H7 & H8).
  exists warm, s1, ss. splits; auto. eapply mat_ext; [exact (H8 Hn)|]. intros i j _ _. unfold mb_average. rewrite map_length, H3. clear. destruct kd, (i =? j); reflexivity.
Qed.
Theorem C145_bounds hsize nIter ds m st : 0 < hsize -> 0 < nIter -> Forall unit_draw ds ->
  GibbsLinkScore_on ln lnchoose lnfact lcsize lfsize linC kd deg hsize g nIter ds = Ok (m, st) ->
  exists f, mat n n m f /\ (forall i j, i < n -> j < n -> f i j = f j i) /\ (forall i j, i < n -> j < n -> i <> j -> (0 < f i j)%Qc /\ (f i j < 1)%Qc).
Proof.
  intros Hs Hn HD EQ. pose proof (GibbsLinkScore_any ex sq ex_pos ln lnchoose lnfact lcsize lfsize linC kd deg plain ln1 choose00 g U hsize nIter ds Hs HD) as H.
  match type of H with ends _ ?a _ => assert (EQ' : a = Ok (m, st)) by exact EQ; rewrite EQ' in H end. cbn [ends] in H.
  destruct H as (warm & s1 & ss & H0 & H1 & H2 & H3 & H4 & H5 & H6 & H7 & H8).
  assert (HM : forall M, In M (map fst ss) -> assigned (length g) M) by (intros M K; apply in_map_iff in K as (s & <- & K); now apply H4).
  exists (mb_average kd g (map fst ss)). splits; [exact (H8 Hn)|intros; now apply mb_average_sym|intros; apply mb_average_between; auto]. destruct ss; [cbn in H3; lia|discriminate].
Qed.
End Exact.

(** ** Examples and refutations *)
#[local] Instance ops25' : NumOps Qc := Qc_ops ex1 sq0.
Definition run25 (kd : kind) (deg : bool) (c : Z) (hsize : nat) := GibbsLinkScore_on ln24 lc24 ft1 10 10 (Q2Qc (inject_Z c)) kd deg hsize.
Lemma shown_err r e : shown24 r = inr e -> r = Err e.
Proof. destruct r as [[m st]|e']; cbn; congruence. Qed.
Lemma lcg_unit k s : Forall (fun u => unit_draw u /\ (0 < u)%Qc) (lcg k s).
Proof.
  revert s. induction k as [|k IH]; intros s; cbn [lcg]; [constructor|]. constructor; [|apply IH].
  set (t := ((s * 1103515245 + 12345) mod 2147483648)%N). assert (H : (t / 134217728 < 16)%N).
  { apply N.div_lt_upper_bound; [discriminate|]. unfold t. pose proof (N.mod_upper_bound (s * 1103515245 + 12345) 2147483648 ltac:(discriminate)). lia. }
  revert H. generalize (t / 134217728)%N. intros v H. assert (B : (0 <= Z.of_N v < 16)%Z) by lia. generalize dependent (Z.of_N v). intros z B.
  assert (X : (0 < Q2Qc (z * 2 + 1 # 32))%Qc) by (unfold Qclt, Q2Qc; cbn [this]; rewrite !Qred_correct; unfold Qlt; cbn; lia).
  split; auto. split; [now apply Qclt_le_weak|]. unfold Qclt, Q2Qc. cbn [this]. rewrite !Qred_correct. unfold Qlt. cbn. lia.
Qed.
Definition draws25 : list Qc := Eval vm_compute in lcg 500 5.
Lemma draws25_unit : Forall unit_draw draws25.
Proof. replace draws25 with (lcg 500 5) by (vm_compute; reflexivity). eapply Forall_impl; [|apply lcg_unit]. now intros u []. Qed.
Lemma draws25_pos : Forall (fun u => (0 < u)%Qc) draws25.
Proof. replace draws25 with (lcg 500 5) by (vm_compute; reflexivity). eapply Forall_impl; [|apply lcg_unit]. now intros u []. Qed.
(** C143: "every step reads only variables that it has set" is false: a triangle with a tail, once all nodes are in one group. *)
Theorem C143_initialised_refuted : exists ds, Forall unit_draw ds /\ Forall (fun u => (0 < u)%Qc) ds /\ run25 OD false 1 9 net23 2 ds = Err UB_uninit.
Proof. exists draws25. split; [exact draws25_unit|]. split; [exact draws25_pos|]. apply shown_err. vm_compute. reflexivity. Qed.
(** C144: "a random number 0 does no harm" is false: it is the number for the first node of the first step. *)
Theorem C144_zero_refuted : exists ds, Forall unit_draw ds /\ run25 OD false (-3) 9 net23 2 ds = Err UB_oob.
Proof.
  exists (firstn 4 draws25 ++ [0%Qc]). split.
  - apply Forall_app. split; [apply Forall_forall; intros u Hu; apply (proj1 (Forall_forall _ _) draws25_unit); rewrite <- (firstn_skipn 4 draws25); apply in_or_app; now left|]. constructor; [|constructor]. split; [discriminate|reflexivity].
  - apply shown_err. vm_compute. reflexivity.
Qed.
(** C146: "the energy that GibbsLinkScoreMB_OD updates is the energy of PartitionHMB_OD" is false from the start, and by C140 for ever. *)
Lemma two_energies (r : res (mc Qc)) (f : mc Qc -> res Qc) :
  match r with Ok st => match f st with Ok H => negb (Qc_eq_bool (mH st) H) | Err _ => false end | Err _ => false end = true ->
  exists st H, r = Ok st /\ f st = Ok H /\ mH st <> H.
Proof.
  destruct r as [st|]; [|discriminate]. destruct (f st) as [H|] eqn:E; [|discriminate]. intros K. exists st, H. splits; auto. intros X.
  unfold Qc_eq_bool in K. destruct (Qc_eq_dec (mH st) H); [discriminate|congruence].
Qed.
Definition hl25 : list Qc := Eval vm_compute in match InitializeHarmonicList 9 with Ok hl => hl | Err _ => [] end.
Theorem C146_od_energy_refuted k : In k [0; 1] -> exists st H,
  gb_reached ex1 sq0 ln24 lc24 ft1 10 10 (Q2Qc (-3)) OD true net23 hl25 draws25 k = Ok st /\ PartitionHMB ln24 lc24 ft1 (Q2Qc (-3)) OD hl25 (mnet st) (mpart st) = Ok H /\ mH st <> H.
Proof. intros [<-|[<-|[]]]; apply two_energies; vm_compute; reflexivity. Qed.

(** Runs that end: the hypotheses of C145 can be met. *)
Example plain25 : shown24 (run25 OD false (-3) 9 net23 2 draws25) =
  inl ([[0; 2 # 3; 17 # 24; 7 # 24]; [2 # 3; 0; 17 # 24; 7 # 24]; [17 # 24; 17 # 24; 0; 2 # 3]; [7 # 24; 7 # 24; 2 # 3; 0]]%Q, [[2]; []; [0; 1]; [3]], (-4)%Q, 8).
Proof. vm_compute. reflexivity. Qed.
Example or25 : shown24 (run25 OR true (-3) 9 net23 1 draws25) =
  inl ([[1; 22 # 27; 75 # 88; 7 # 16]; [22 # 27; 1; 75 # 88; 7 # 16]; [75 # 88; 75 # 88; 1; 22 # 27]; [7 # 16; 7 # 16; 22 # 27; 1]]%Q,
    [[3]; [0; 1]; []; [2]], -236241506033 # 30000000000, 12).
Proof. vm_compute. reflexivity. Qed.
(** One sweep of GibbsLinkScoreMB. *)
Example sweep25 : match gb_reached ex1 sq0 ln24 lc24 ft1 10 10 (Q2Qc (-3)) AND true net23 hl25 draws25 1 with
  | Ok st => Some (map snd (abs (mpart st)), mG2G st, length (mds st)) | Err e => None end =
  Some ([[0]; [2]; [1]; [3]], [[0; 1; 1; 0]; [1; 0; 1; 1]; [1; 1; 0; 0]; [0; 1; 0; 0]]%Z, 492).
Proof. vm_compute. reflexivity. Qed.

Print Assumptions C140_running_energy.
Print Assumptions C141_heat_bath.
Print Assumptions C141_rule.
Print Assumptions C142_errors.
Print Assumptions C142_score_errors.
Print Assumptions C143_when_uninitialised.
Print Assumptions C143_initialised_refuted.
Print Assumptions C144_zero_refuted.
Print Assumptions C145_scores.
Print Assumptions C145_bounds.
Print Assumptions C146_od_energy_refuted.
