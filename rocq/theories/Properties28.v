(** Properties28.v -- the K-state sampler of src/missing.c (C156-C160). *)
From Coq Require Import List Arith ZArith Bool QArith Qcanon Lia.
From Coq Require Import Strings.Ascii.
From Verif Require Import Base Num ListLib NatSum QcSum IoModel IoSpec GraphModel GraphSpec GraphProof GraphRand GroupModel GroupSpec GroupProof MatLib ToolsModel ModulesModel SAProof Refute
  MissModel MissSpec MissStep RecModel RecSpec RecStep RecRun KsModel KsSpec KsStep KsRun KsMain GraphSeq Properties4 Properties20 Properties21 Properties23.
Import ListNotations.
Local Open Scope nat_scope.

Section Exact.
Variables ex sq : Qc -> Qc.
#[local] Instance ops28 : NumOps Qc := Qc_ops ex sq.
(** The logarithms of factorials, the mutual information and the fit of the decay: any functions. *)
Variable lnfact : nat -> Qc.
Variable mutual : gpart Qc -> gpart Qc -> Qc.
Variable decay_of : nat -> nat -> Qc -> nat -> Qc -> Qc.
Variable lfsize : nat.
Variable K : nat.
Hypothesis HK : 0 < K.
Variable g : net Qc.
Hypothesis U : undirected g.
Hypothesis HV : values_in K g.
Hypothesis Hn : 0 < length g.
Notation score := (LSMultiLinkScoreKState lnfact mutual decay_of lfsize K).

(** C156: after the set-up and any steps, groups, tables and energy are those of the colouring that the Metropolis algorithm has reached. *)
Theorem C156_energy ds factors : Forall good_draw ds ->
  match ks_reached ex sq lnfact lfsize K g ds factors with Ok st => ks_follows ex sq lnfact K g ds factors st | Err e => rng_err e end.
Proof. exact (ks_energy ex sq lnfact lfsize K HK g U HV Hn ds factors). Qed.
(** C157: the scores are means over the samples of the Metropolis algorithm, one row for every pair of nodes. *)
Theorem C157_scores debug nIter decor ds : Forall good_draw ds ->
  match score debug g nIter decor ds with
  | Ok (out, st) => same_but_group g (rnet st) /\ exists l, ks_sampled ex sq lnfact K g nIter decor ds l /\ out = map (fun ij => (ij, kmean (valued g) K l ij)) (all_pairs (length g))
  | Err e => rng_err e
  end.
Proof. exact (ks_scores ex sq lnfact mutual decay_of lfsize K HK g U HV Hn debug nIter decor ds). Qed.
Theorem C157_pairs m : NoDup (all_pairs m) /\ forall i j, In (i, j) (all_pairs m) <-> i < j < m.
Proof. split; [apply all_pairs_nodup|]. intros i j. apply (all_pairs_in m (i, j)). Qed.
(** C158: they are probabilities. *)
Theorem C158_probabilities debug nIter decor ds out st : 1 < K -> Forall good_draw ds -> 0 < nIter -> score debug g nIter decor ds = Ok (out, st) ->
  map fst out = all_pairs (length g) /\ Forall (fun r => length (snd r) = K /\ Forall (fun x => (0 < x)%Qc /\ (x < 1)%Qc) (snd r) /\ Qsum (fun x => x) (snd r) = 1%Qc) out.
Proof.
  intros H1 HD HI E. pose proof (C157_scores debug nIter decor ds HD) as H. rewrite E in H. destruct H as (_ & l & (M & d & sB & sE & _ & _ & _ & _ & HL) & ->).
  split; [rewrite map_map; cbn; apply map_id|]. apply Forall_forall. intros r Hr. apply in_map_iff in Hr as (ij & <- & _). cbn [snd]. assert (l <> []) by (intros ->; cbn in HL; lia).
  split; [apply kmean_length|]. split; [now apply kmean_bounds|apply kmean_sum; auto].
Qed.
(** C159: with one node the program never comes back. *)
Theorem C159_single debug nIter decor ds : length g = 1 -> Forall good_draw ds -> decor <> Some 0 -> exists e, score debug g nIter decor ds = Err e /\ rng_err e.
Proof. intros H1 HD H0. exact (ks_single ex sq lnfact mutual decay_of lfsize K HK g U HV Hn H1 debug nIter decor ds HD H0). Qed.
End Exact.

(** * Examples *)
#[local] Instance ops28e : NumOps Qc := Qc_ops ex0 sq0.
Definition wiredw (names : list label) (links : list (nat * nat * Qc)) : net Qc :=
  match (do g <- foldM (fun g l => do (_, g) <- CreateNodeGraph g l; Ok g) [] names; foldM run_gop g (map (fun '(i, j, w) => LinkOp i j false w 1) links)) with Ok g => g | Err _ => [] end.
Lemma wiredw_ok names links : forallb (fun l => length l <? 100) names = true -> forallb (fun '(i, j, _) => (i <? length names) && (j <? length names)) links = true -> undirected (wiredw names links).
Proof.
  intros HL HI. unfold wiredw. destruct (C25_create_nodes (A := Qc) names) as (g0 & -> & U0 & L0 & N0); [apply Forall_forall; rewrite forallb_forall in HL; intros l Hl; now apply Nat.ltb_lt, HL|]. cbn [bind].
  assert (Ln : length g0 = length names) by (rewrite <- (map_length glabel), L0; reflexivity).
  destruct (C25_sequences (map (fun '(i, j, w) => LinkOp i j false w 1) links) g0 U0) as (g & -> & U & _ & _); auto.
  generalize (weight g0). clear - HI Ln. induction links as [|[[i j] w] links IH]; intros r; cbn [map rel_ok]; auto. cbn [forallb] in HI. apply andb_prop in HI as [H1 H2]. apply andb_prop in H1 as [H0 H1].
  apply Nat.ltb_lt in H0. apply Nat.ltb_lt in H1. rewrite Ln. split; [auto|]. rewrite <- Ln. apply IH; auto.
Qed.
Lemma values_check K (g : net Qc) : forallb (fun n => forallb (fun l => existsb (fun k => Qc_eq_bool (lweight l) (Qc_of_nat k)) (seq 0 K)) (gadj n)) g = true -> values_in K g.
Proof.
  intros H i j w Hw. unfold weight in Hw. destruct (nth_error g i) as [n|] eqn:En; [|discriminate]. rewrite forallb_forall in H. specialize (H n (nth_error_In _ _ En)). rewrite forallb_forall in H.
  unfold weight_in in Hw. destruct (find _ (gadj n)) as [l|] eqn:El; [|discriminate]. injection Hw as <-. apply find_some in El as [Hl _]. specialize (H l Hl). apply existsb_exists in H as (k & Hk & E). apply in_seq in Hk. exists k. split; [lia|]. now apply Qc_eq_bool_correct.
Qed.
(** Four nodes, links with values 0 and 1. *)
Definition net28 := wiredw names4 [(0, 1, qq 1); (0, 2, qq 0); (1, 2, qq 1); (2, 3, qq 0)].
Example net28_fine : undirected net28 /\ values_in 2 net28 /\ length net28 = 4 /\ weight net28 0 2 = Some (Qc_of_nat 0) /\ valued net28 1 2 1 = true.
Proof. split; [apply wiredw_ok; vm_compute; reflexivity|]. split; [apply values_check; vm_compute; reflexivity|]. split; [vm_compute; reflexivity|]. split; [|vm_compute; reflexivity]. vm_compute. do 2 f_equal. Qed.
Definition seen28 (r : res (list (nat * nat * list Qc) * rec Qc)) : list (nat * nat * list Q) + err :=
  match r with Ok (out, _) => inl (map (fun '(ij, s) => (ij, map this s)) out) | Err e => inr e end.
Definition draws28 : list Qc := Eval vm_compute in lcg 2000 3.
Example draws28_good : Forall good_draw draws28.
Proof. apply mid_draws. vm_compute. reflexivity. Qed.
(** Three passes: two nodes share a group. *)
Example energy28 : match ks_reached ex0 sq0 lnf 8 2 net28 (firstn 60 draws28) [1; 2] with Ok st => Some (length (rds st), map (group_of (rnet st)) (seq 0 4), this (rH st)) | Err e => None end =
  Some (28, [Some 3; Some 2; Some 2; Some 1], 19%Q).
Proof. vm_compute. reflexivity. Qed.
Example scores28 : seen28 (LSMultiLinkScoreKState lnf mut0 dec0 8 2 true net28 2 (Some 1) draws28) =
  inl [(0, 1, [7 # 24; 17 # 24]%Q); (0, 2, [17 # 24; 7 # 24]%Q); (0, 3, [7 # 12; 5 # 12]%Q); (1, 2, [7 # 24; 17 # 24]%Q); (1, 3, [5 # 12; 7 # 12]%Q); (2, 3, [17 # 24; 7 # 24]%Q)].
Proof. vm_compute. reflexivity. Qed.
Definition lone28 := wiredw (firstn 1 names4) [].
Example lone28_fine : undirected lone28 /\ values_in 1 lone28 /\ length lone28 = 1.
Proof. split; [apply wiredw_ok; vm_compute; reflexivity|]. split; [apply values_check; vm_compute; reflexivity|]. vm_compute. reflexivity. Qed.

(** C160: "the running energy is the energy for any values" is false: links with another value count in one and not in the other. *)
Definition C160_statement : Prop := forall (lnfact : nat -> Qc) K (g : net Qc) ds factors st, 0 < K -> undirected g -> 0 < length g -> Forall good_draw ds ->
  ks_reached ex0 sq0 lnfact 8 K g ds factors = Ok st -> LSHKState lnfact K (rnet st) (sP (r1 st)) = Ok (rH st).
Definition net28b := wiredw (firstn 3 names4) [(0, 1, qq 5); (0, 2, qq 5)].
Definition draws28b : list Qc := Eval vm_compute in skipn 1 (firstn 40 draws28).
Theorem C160_values_refuted : ~ C160_statement.
Proof.
  intros H. destruct (ks_reached ex0 sq0 lnf 8 2 net28b draws28b [1]) as [st|e] eqn:E; [|vm_compute in E; discriminate E].
  assert (HD : Forall good_draw draws28b) by (apply mid_draws; vm_compute; reflexivity). assert (U : undirected net28b) by (apply wiredw_ok; vm_compute; reflexivity).
  specialize (H lnf 2 net28b draws28b [1] st ltac:(lia) U ltac:(apply Nat.ltb_lt; vm_compute; reflexivity) HD E).
  assert (X : match ks_reached ex0 sq0 lnf 8 2 net28b draws28b [1] with Ok st => match LSHKState lnf 2 (rnet st) (sP (r1 st)) with Ok x => Qeq_bool x (rH st) | Err _ => true end | Err _ => true end = false) by (vm_compute; reflexivity).
  rewrite E in X. rewrite H in X. rewrite (proj2 (Qeq_bool_iff _ _)) in X; [discriminate X|reflexivity].
Qed.

Print Assumptions C156_energy.
Print Assumptions C157_scores.
Print Assumptions C157_pairs.
Print Assumptions C158_probabilities.
Print Assumptions C159_single.
Print Assumptions C160_values_refuted.
