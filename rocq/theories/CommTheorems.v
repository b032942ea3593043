(** CommTheorems.v -- more on SACommunityIdent of src/modules.c: how the run ends, and the calls for which it does not. *)
From Coq Require Import List Arith ZArith Bool QArith Qcanon Qround Lia.
From Verif Require Import Base Num ListLib NatSum QcSum IoModel IoSpec GraphModel GraphSpec GraphProof GroupModel GroupSpec GroupProof NetModel NetSpec NetCopy
  ModulesModel ModulesSpec SAProof Refute MissModel MissSpec MissStep MissRun RecSpec RecSetup MissExact CommModel CommSpec CommSums CommStep CommFlip CommSplit CommCopy CommRun CommMain.
Import ListNotations.
Local Open Scope nat_scope.

(** * The end of the run *)
Section Ends.
Variable ex : Qc -> Qc.
Variable g : net Qc.
Lemma tiny_more (x : Qc) : (x <= x + tiny)%Qc.
Proof. replace x with (x + 0)%Qc at 1 by ring. apply Qcplus_le_compat; [apply Qcle_refl|discriminate]. Qed.
(** A run that ends because nothing changed any more has not ended below the best colouring at the end of a temperature. *)
Lemma cools_settled K Ti Tf Ts coll n1 n2 T last count b s s' count' b' : cools ex g K Ti Tf Ts coll n1 n2 T last count b s s' count' b' -> 25 <= count' ->
  (25 <= count /\ s' = s /\ b' = b) \/ (best_quality g b' <= quality g (fst s') + tiny)%Qc.
Proof.
  intros H. induction H as [|T last count best s c1 ds1 c2 count2 best2 s' count' best' H1 H2 H3 H4 H5 H6 IH]; intros HC; [left; auto|]. right.
  destruct (IH HC) as [(X & -> & ->)|X]; auto. cbn [fst]. inversion H4 as [S1 S2|b S1 S2 S3 S4|S1]; subst; try lia.
  assert (E : count + 1 = 25) by lia. inversion H5 as [Y|Y]; subst; [apply tiny_more|]. apply Qcnot_lt_le. intros Z. apply S2. auto.
Qed.
(** The best colouring is as good as any at the end of a temperature: the one returned, too. *)
Lemma cools_highest K Ti Tf Ts coll n1 n2 T last count b s s' count' b' : cools ex g K Ti Tf Ts coll n1 n2 T last count b s s' count' b' ->
  (count' = count /\ s' = s) \/ (quality g (fst s') <= best_quality g b')%Qc.
Proof.
  assert (Mono : forall T last count b s s' count' b', cools ex g K Ti Tf Ts coll n1 n2 T last count b s s' count' b' -> (best_quality g b <= best_quality g b')%Qc).
  { clear. intros T last count b s s' count' b' H. induction H as [|T last count best s c1 ds1 c2 count2 best2 s' count' best' H1 H2 H3 H4 H5 H6 IH]; [apply Qcle_refl|].
    eapply Qcle_trans; [|exact IH]. inversion H5; subst; [apply Qclt_le_weak; auto|apply Qcle_refl]. }
  intros H. induction H as [|T last count best s c1 ds1 c2 count2 best2 s' count' best' H1 H2 H3 H4 H5 H6 IH]; auto. right. destruct IH as [[_ ->]|IH]; auto. cbn [fst].
  eapply Qcle_trans; [|apply (Mono _ _ _ _ _ _ _ _ H6)]. inversion H5; subst; [apply Qcle_refl|auto].
Qed.
Theorem settled_best Ti Tf Ts fac ngroup own coll ds c rest count best : anneals ex g Ti Tf Ts fac ngroup own coll ds c rest count best -> 25 <= count ->
  (quality g c <= best_quality g best /\ best_quality g best <= quality g c + tiny)%Qc.
Proof.
  intros H E. inversion H as [ds' K c0 ds0 c' rest' count' best' HS HC]; subst. split.
  - destruct (cools_highest _ _ _ _ _ _ _ _ _ _ _ _ _ _ _ HC) as [(X & _)|X]; [lia|exact X].
  - destruct (cools_settled _ _ _ _ _ _ _ _ _ _ _ _ _ _ _ HC) as [(X & _)|X]; [lia|lia|exact X].
Qed.
End Ends.

(** * Runs that do not end, or end badly *)
Section Exact.
Variables ex sq : Qc -> Qc.
#[local] Instance opsT : NumOps Qc := Qc_ops ex sq.
Variable g0 : net Qc.
Hypothesis U0 : undirected g0.
Hypothesis ND : NoDup (map glabel g0).
Hypothesis Fit : forall n, In n g0 -> length (glabel n) < 100.
Let N := length g0.
Hypothesis HN : 0 < N.

(** The modularity of the partition that is returned. *)
Lemma depicts_modularity g P c : depicts g0 g P c -> Modularity P = quality g0 c.
Proof.
  intros D. assert (LG : length g = N) by (apply (sbg_length g0 g), D).
  transitivity (pair_modularity (length g) (unit_weight g) (same_home (abs P))).
  { apply (ModulesMod.Modularity_pairs ex sq g P); [apply D|apply D|]. intros i Hi. rewrite LG in Hi. rewrite (de_home _ _ _ _ D i Hi). discriminate. }
  rewrite LG. unfold quality, pair_modularity. fold N.
  assert (EW : forall i j, unit_weight g i j = unit_weight g0 i j) by (intros; unfold unit_weight; unfold linked; now rewrite (sbg_weight g0 g _ _ (de_same _ _ _ _ D))).
  assert (EN : forall i, node_sum N (unit_weight g) i = node_sum N (unit_weight g0) i) by (intros; apply Qsum_ext; intros; apply EW).
  assert (ET : all_sum N (unit_weight g) = all_sum N (unit_weight g0)) by (apply Qsum_ext; intros; apply EN). rewrite ET.
  apply Qsum_ext. intros i Hi. apply Qsum_ext. intros j Hj. apply in_seq in Hi. apply in_seq in Hj. unfold same_home, among. rewrite (de_home _ _ _ _ D i) by (fold N; lia). rewrite (de_home _ _ _ _ D j) by (fold N; lia). now rewrite EW, !EN.
Qed.
Lemma move_alone s c T i : at_state g0 1 s c -> sa_move N 1 (nodes g0) (Z.of_nat (total g0)) T s i = Err RngOut.
Proof.
  intros I. pose proof (sa_move_ok ex sq g0 U0 HN 1 Nat.lt_0_1 T s i c I) as X. fold N in X.
  destruct (sa_move N 1 (nodes g0) (Z.of_nat (total g0)) T s i) as [s'|e]; [|cbn [ends] in X; now rewrite X]. destruct X as (c' & H & _). exfalso.
  inversion H as [c1 u ds w ds1 b ds2 v HP HC]; subst.
  pose proof (as_inner _ _ _ _ I) as HD. cbn [snd] in HD.
  assert (Hv : v < N) by (apply (selects_lt ex sq); auto; inversion HD; auto). pose proof (ch_lt _ _ _ _ _ (sw_col _ _ _ _ _ (as_shows _ _ _ _ I)) Hv) as E. cbn [fst] in E.
  assert (Hds : Forall inner ds) by (inversion HD; auto). clear - ex sq HP E Hds. remember (colour c1 v) as o eqn:Eo. clear Eo.
  induction HP as [u0 ds0 Hu|u0 ds0 w0 ds0' Hu HP IH]; inversion Hds; subst; auto. pose proof (selects_lt ex sq 1 u0 ltac:(auto) ltac:(lia)). lia.
Qed.
(** One colour: there is no other colour for a node, but the search for one does not end. *)
Theorem one_colour Ti Tf Ts fac own coll ds : (Tf < Ti)%Qc -> Forall inner ds -> (own = true -> N = 1) ->
  SACommunityIdent g0 Ti Tf Ts fac 1 own coll ds = Err RngOut.
Proof.
  intros Hlt HD Ho. unfold SACommunityIdent, CountNodes. fold N. pose proof (sa_start_ok ex sq g0 U0 HN own 1 ds HD (fun _ => Nat.lt_0_1)) as X.
  change (ends only_rng (sa_start g0 own 1 ds) (fun '(g, P, gl, nl, K, tot, rest) => exists c0, sets_out N 1 own ds K c0 rest /\ tot = total g0 /\ nl = nodes g0 /\ gl = map Some (seq 0 K) /\
    shows g0 K g P c0 /\ 0 < K /\ Forall inner rest)) in X.
  destruct (sa_start g0 own 1 ds) as [[[[[[[g P] gl] nl] K] tot] rest]|e]; [|cbn [ends] in X; rewrite X; reflexivity]. cbn [bind].
  destruct X as (c0 & HS & -> & -> & -> & I & HK & HDr). assert (K = 1) by (inversion HS; subst; auto). subst K.
  assert (I0 : at_state g0 1 (mkSA g P (map Some (seq 0 1)) (Modularity P) rest) (c0, rest)) by (split; cbn [snet spart CommModel.sgl sE sds fst snd]; auto; eapply start_quality; eauto).
  rewrite Nat.add_1_r. cbn [sa_loop]. replace (nltb Tf Ti) with true by (symmetry; now apply Qc_ltb_true). cbn [andb Nat.ltb Nat.leb].
  unfold sa_round. destruct (cycles fac (N * N) 10) as [|k] eqn:EC; [pose proof (cycles_times ex sq g0 HN fac (N * N) 10) as EC'; unfold opsM in EC'; unfold opsT in EC; rewrite EC in EC'; unfold times in EC'; lia|]. cbn [seq foldM].
  match goal with |- context [sa_move ?a ?b ?c ?d ?e ?f ?i] => replace (sa_move a b c d e f i) with (@Err (sa Qc) RngOut) by (symmetry; exact (move_alone f (c0, rest) e i I0)) end. reflexivity.
Qed.
(** No temperature at all: the best partition, which is then removed, has not been made. *)
Theorem no_temperature Ti Tf Ts fac ngroup own coll ds : (Ti <= Tf)%Qc -> Forall inner ds -> (own = false -> 0 < ngroup) ->
  SACommunityIdent g0 Ti Tf Ts fac ngroup own coll ds = Err UB_null \/ (own = false /\ SACommunityIdent g0 Ti Tf Ts fac ngroup own coll ds = Err RngOut).
Proof.
  intros Hle HD Ho. unfold SACommunityIdent, CountNodes. fold N. pose proof (sa_start_ok ex sq g0 U0 HN own ngroup ds HD Ho) as X.
  change (ends only_rng (sa_start g0 own ngroup ds) (fun '(g, P, gl, nl, K, tot, rest) => exists c0, sets_out N ngroup own ds K c0 rest /\ tot = total g0 /\ nl = nodes g0 /\ gl = map Some (seq 0 K) /\
    shows g0 K g P c0 /\ 0 < K /\ Forall inner rest)) in X.
  destruct (sa_start g0 own ngroup ds) as [[[[[[[g P] gl] nl] K] tot] rest]|e] eqn:ES; cbn [bind].
  - left. rewrite Nat.add_1_r. cbn [sa_loop]. replace (nltb Tf Ti) with false by (symmetry; now apply Qc_ltb_false). reflexivity.
  - right. cbn [ends] in X. rewrite X in *. destruct own; [exfalso|split; auto].
    assert (Y : ends (fun _ => False) (foldM start_own (ResetNetGroup g0, [], repeat None N, repeat None N, 0) (seq 0 (length (ResetNetGroup g0)))) (fun _ => True)).
    { destruct (reset_start g0 U0) as (U & S & M). rewrite (sbg_length _ _ S). eapply ends_impl; [apply (sim_seq (fun _ => False) (own_at g0) start_own N (start_own_ok ex sq g0 HN (fun _ => False))) with (c := tt)|auto].
      split; auto. split; auto. split; auto. split; [|unfold filled_to; rewrite Nat.sub_0_r; auto]. apply ch_nil; [reflexivity|]. intros [|k]; reflexivity. }
    unfold sa_start, CountNodes in ES. fold N in ES. destruct (foldM start_own _ _) as [[[[[a b] c] d] t]|e']; [discriminate ES|destruct Y].
Qed.
Theorem no_temperature_own Ti Tf Ts fac ngroup coll ds : (Ti <= Tf)%Qc -> Forall inner ds -> SACommunityIdent g0 Ti Tf Ts fac ngroup true coll ds = Err UB_null.
Proof. intros H HD. destruct (no_temperature Ti Tf Ts fac ngroup true coll ds H HD) as [X|[X _]]; auto; discriminate. Qed.
Theorem no_temperature_random Ti Tf Ts fac ngroup coll ds : (Ti <= Tf)%Qc -> Forall inner ds -> 0 < ngroup -> N <= length ds -> SACommunityIdent g0 Ti Tf Ts fac ngroup false coll ds = Err UB_null.
Proof.
  intros Hle HD Ho Hn. destruct (no_temperature Ti Tf Ts fac ngroup false coll ds Hle HD (fun _ => Ho)) as [X|[_ X]]; auto. exfalso.
  assert (Y : ends (fun _ => False) (sa_start g0 false ngroup ds) (fun _ => True)); [|].
  2: { unfold SACommunityIdent in X. destruct (sa_start g0 false ngroup ds) as [[[[[[[g P] gl] nl] K] tot] rest]|e]; [|destruct Y]. cbn [bind] in X. rewrite Nat.add_1_r in X. cbn [sa_loop] in X.
       replace (nltb Tf Ti) with false in X by (symmetry; now apply Qc_ltb_false). discriminate X. }
  unfold sa_start, CountNodes. destruct (reset_start g0 U0) as (U & S & M). set (g := ResetNetGroup g0) in *. rewrite (sbg_length _ _ S). fold N.
  destruct (set_groups_ok ex sq g0 U0 HN ngroup) as (P & ES & MP & CP). unfold set_groups in ES.
  match goal with |- ends _ (bind ?m _) _ => replace m with (Ok (map Some (seq 0 ngroup), P)) by (symmetry; exact ES) end. cbn [bind].
  eapply ends_bind; [|intros [[[[[g1 P1] gl] nl] tot] rest] _; exact I].
  eapply ends_impl; [apply (sim_seq (fun _ => False) (random_at g0 ngroup ds) (start_random ngroup) N (fun i s us Hi => start_random_ok ex sq g0 HN (fun _ => False) ngroup ds i s us Ho (or_introl (Nat.lt_le_trans _ _ _ Hi Hn)) Hi)) with (c := [])|intros; exact I].
  split; auto. split; auto. split; auto. split; auto. split; auto. split; auto. split; auto. unfold filled_to. rewrite Nat.sub_0_r. auto.
Qed.
Theorem halves_at cells ms Ti Tf Ts ds : NoDup ms -> Forall2 (cell_at g0) cells ms -> 0 < length ms -> Forall inner ds ->
  match SAGroupSplit g0 cells Ti Tf Ts true ds with
  | Ok (split, rest) => exists h, halved ex g0 ms Ti Tf Ts ds h rest /\ half_of g0 ms h split
  | Err e => e = RngOut
  end.
Proof.
  intros Hm HF Hl HD. assert (Hr : forall i, In i ms -> i < length g0) by (clear - HF; intros i Hi; induction HF as [|p j l1 l2 (_ & H & _) HF IH]; [destruct Hi|]; destruct Hi as [<-|Hi]; auto).
  pose proof (SAGroupSplit_ok ex sq g0 U0 ND Fit ms Hm Hr cells Ti Tf Ts ds HF Hl HD) as X.
  change (ends only_rng (SAGroupSplit g0 cells Ti Tf Ts true ds) (fun '(split, rest) => exists h, halved ex g0 ms Ti Tf Ts ds h rest /\ half_of g0 ms h split /\ Forall inner rest)) in X.
  destruct (SAGroupSplit g0 cells Ti Tf Ts true ds) as [[split rest]|e]; [|exact X]. destruct X as (h & H1 & H2 & _). exists h. split; auto.
Qed.
End Exact.
