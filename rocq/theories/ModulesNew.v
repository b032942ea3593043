(** ModulesNew.v -- the modularity of modules.c is the one of partition.c (C30). *)
From Coq Require Import List Arith ZArith Bool QArith Qcanon Lia Field.
From Verif Require Import Base Num ListLib NatSum QcSum PartModel FillModel PartSpec AdjSpec ModSpec EdgeListProof EdgeListExact CoreExact GraphModel GraphSpec GraphProof GroupModel GroupSpec PairSum GroupProof GroupExact ModulesModel ModulesSpec ModulesMod.
Import ListNotations.
Local Open Scope nat_scope.

Section Exact.
Variables ex sq : Qc -> Qc.
#[local] Instance opsX : NumOps Qc := Qc_ops ex sq.
Implicit Types (es : list (nat * nat * Qc)).

Lemma node_weight_pairs N es i : no_loops es -> in_range N es -> node_weight es i = Qsum (pair_weight es i) (seq 0 N).
Proof.
  intros NL IR. unfold node_weight, pair_weight. rewrite Qsum_swap. apply Qsum_ext. intros [[a b] w] Hin.
  unfold no_loops, in_range in *. rewrite Forall_forall in NL, IR. specialize (NL _ Hin). destruct (IR _ Hin) as [Ha Hb]. cbn in NL.
  rewrite (Qsum_ext _ (fun j => if a =? i then (if j =? b then w else 0) else if b =? i then (if j =? a then w else 0) else 0)%Qc).
  - destruct (a =? i) eqn:Ei; cbn [orb]; [|destruct (b =? i) eqn:Eb].
    + rewrite (Qsum_single (fun _ => w)); auto; [apply seq_NoDup|apply in_seq; lia].
    + rewrite (Qsum_single (fun _ => w)); auto; [apply seq_NoDup|apply in_seq; lia].
    + symmetry. apply Qsum_0. auto.
  - intros j _. rewrite (Nat.eqb_sym j a), (Nat.eqb_sym j b). destruct (Nat.eqb_spec a i) as [->|Hai]; cbn [andb orb].
    + destruct (Nat.eqb_spec b j); cbn [orb]; auto. destruct (Nat.eqb_spec i j) as [->|]; cbn [andb]; auto. destruct (Nat.eqb_spec b j); auto. contradiction.
    + destruct (Nat.eqb_spec b i); auto; [rewrite andb_true_r|rewrite andb_false_r]; auto.
Qed.

(** The functional of the new code on the converted edge list. *)
Theorem new_modularity es N M p0 adj p q f same : no_loops es -> no_duplicates es -> in_range N es -> total_weight es <> 0%Qc ->
  (forall i j, i < N -> j < N -> f i j = pair_weight es i j) ->
  CreatePartition N M = Ok p0 -> EdgeListToAdjaArray es (CreateAdjaArray N (length es)) p0 true = Ok (adj, p) ->
  valid q -> pN q = N -> (forall i, strength q i = strength p i) -> (forall i j, i < N -> j < N -> together q i j = same i j) ->
  PartitionModularity q adj true = Ok (pair_modularity N f same).
Proof.
  intros NL ND IR HT Hf E0 E1 V HN HS HG.
  destruct (EdgeList_exact ex sq es p0 N M true NL IR E0 (fun _ => HT)) as (adj' & p' & E1' & A1 & A2 & A3 & A4 & A5 & F & PN & PM & Aw & _ & Kk & _).
  pose proof (eq_trans (eq_sym E1) E1') as E2. injection E2 as <- <-. change (@divisor Qc (opsL ex sq) es true) with (@divisor Qc opsX es true) in Aw, Kk. transitivity (Ok (modularity_diag q adj)); [apply (modularity_computed ex sq q adj true); rewrite ?HN; auto|]. f_equal.
  assert (En : forall i, i < N -> node_sum N f i = node_weight es i).
  { intros i Li. rewrite (node_weight_pairs N es i NL IR). apply Qsum_ext. intros j Hj. apply in_seq in Hj. apply Hf; lia. }
  assert (ET : all_sum N f = divisor es true).
  { unfold all_sum. rewrite (Qsum_ext _ (node_weight es)) by (intros i Hi; apply in_seq in Hi; apply En; lia). rewrite (handshake N es NL IR). 
    unfold divisor. rewrite (weight_all_sum ex sq). cbn [nmul nofnat opsX Qc_ops]. rewrite Qc_of_nat_2. ring. }
  assert (Ek : forall i, i < N -> kk q i = (node_sum N f i / all_sum N f)%Qc).
  { intros i Li. rewrite ET, (En i Li), <- (Kk i Li). unfold kk. now rewrite HS. }
  assert (Ew : forall i j, i < N -> j < N -> aw adj i j = (f i j / all_sum N f)%Qc).
  { intros i j Li Lj. rewrite ET, (Aw i j Li), (Hf i j Li Lj). reflexivity. }
  assert (Hd : forall i, i < N -> together q i i = true).
  { intros i Li. unfold together, group. destruct (nth_error (PartModel.pnodes q) i) eqn:E; simpl; [apply Nat.eqb_refl|]. apply nth_error_None in E. rewrite (valid_N q V) in E. lia. }
  unfold modularity_diag, modularity, pair_modularity. rewrite HN, <- Qsum_sub. apply Qsum_ext. intros i Hi. apply in_seq in Hi.
  rewrite <- (Qsum_single (fun j => kk q i * kk q j)%Qc (seq 0 N) i) by (try apply seq_NoDup; apply in_seq; lia).
  rewrite <- Qsum_sub. apply Qsum_ext. intros j Hj. apply in_seq in Hj. rewrite <- HG by lia.
  assert (HTT : all_sum N f <> 0%Qc).
  { rewrite ET. intros K. apply HT. unfold divisor in K. rewrite (weight_all_sum ex sq) in K. cbn [nmul nofnat opsX Qc_ops] in K. apply Qcmult_integral in K as [K|K]; [exact K|discriminate]. }
  destruct (Nat.eqb_spec j i) as [->|Nj].
  - rewrite Nat.eqb_refl, Hd by lia. cbn [negb andb]. rewrite (Ek i) by lia. rewrite Hf by lia.
    assert (E0' : pair_weight es i i = 0%Qc).
    { unfold pair_weight. apply Qsum_0. intros [[a b] w] Hin. unfold no_loops in NL. rewrite Forall_forall in NL. specialize (NL _ Hin). cbn in NL.
      destruct (Nat.eqb_spec a i), (Nat.eqb_spec b i); simpl; auto. congruence. }
    rewrite E0'. field. auto.
  - rewrite (proj2 (Nat.eqb_neq i j)) by congruence. cbn [negb andb]. destruct (together q i j); [|ring]. rewrite Ew, !Ek by lia. field. auto.
Qed.
(** Both codes give the same number for the same grouping of the same network. *)
Theorem legacy_is_new es M p0 adj p q g P : undirected g -> mapped g P -> (forall G, In G P -> weights_right g G) -> covering (length g) (abs P) ->
  no_loops es -> no_duplicates es -> in_range (length g) es -> total_weight es <> 0%Qc ->
  (forall i j, i < length g -> j < length g -> wt g i j = pair_weight es i j) ->
  CreatePartition (length g) M = Ok p0 -> EdgeListToAdjaArray es (CreateAdjaArray (length g) (length es)) p0 true = Ok (adj, p) ->
  valid q -> pN q = length g -> (forall i, strength q i = strength p i) ->
  (forall i j, i < length g -> j < length g -> together q i j = same_home (abs P) i j) ->
  PartitionModularity q adj true = Ok (ModularityWeight P).
Proof.
  intros U Mp Hw C NL ND IR HT Hf E0 E1 V HN HS HG. pose proof (ModularityWeight_pairs ex sq g P U Mp Hw C) as EM. change (@ModularityWeight Qc opsX P = pair_modularity (length g) (wt g) (same_home (abs P))) in EM. rewrite EM. eapply new_modularity; eauto.
Qed.
Theorem legacy_is_new_links es M p0 adj p q g P : undirected g -> mapped g P -> covering (length g) (abs P) ->
  no_loops es -> no_duplicates es -> in_range (length g) es -> total_weight es <> 0%Qc ->
  (forall i j, i < length g -> j < length g -> unit_weight g i j = pair_weight es i j) ->
  CreatePartition (length g) M = Ok p0 -> EdgeListToAdjaArray es (CreateAdjaArray (length g) (length es)) p0 true = Ok (adj, p) ->
  valid q -> pN q = length g -> (forall i, strength q i = strength p i) ->
  (forall i j, i < length g -> j < length g -> together q i j = same_home (abs P) i j) ->
  PartitionModularity q adj true = Ok (Modularity P).
Proof.
  intros U Mp C NL ND IR HT Hf E0 E1 V HN HS HG. pose proof (Modularity_pairs ex sq g P U Mp C) as EM. change (@Modularity Qc opsX P = pair_modularity (length g) (unit_weight g) (same_home (abs P))) in EM. rewrite EM. eapply new_modularity; eauto.
Qed.
End Exact.
