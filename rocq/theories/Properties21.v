(** Properties21.v -- communities by simulated annealing (src/modules.c, SAGroupSplit and SACommunityIdent): C109 to C116; the
    decorrelation step of the samplers: C117. *)
From Coq Require Import List Arith ZArith Lia Bool Permutation QArith Qround Qcanon.
From Coq Require Import Strings.Ascii.
From Verif Require Import Base Num ListLib NatSum QcSum SAProof IoModel IoSpec GraphModel GraphSpec GraphProof GraphSeq GroupModel GroupSpec GroupProof NetModel NetSpec BfsModel ModulesModel ModulesSpec Refute
  MissModel MissSpec MissStep ToolsModel RecModel RecSpec RecMain CommModel CommSpec CommSplit CommRun CommMain CommTheorems RecDecor Properties4 Properties10 Properties12 Properties20.
Import ListNotations.
Local Open Scope nat_scope.

Section Exact.
Variables ex sq : Qc -> Qc.
#[local] Instance ops21 : NumOps Qc := Qc_ops ex sq.
Variable g : net Qc.
Hypothesis U : undirected g.
Hypothesis Named : NoDup (map glabel g).
Hypothesis Short : forall n, In n g -> length (glabel n) < 100.
Hypothesis Some_node : 0 < length g.

(** C109: SACommunityIdent is simulated annealing of the modularity, with single moves, merges and splits. *)
Theorem C109_anneals Ti Tf Ts fac ngroup own coll ds : 0 < total g -> (Tf < Ti)%Qc -> Forall inner ds -> (own = false -> 0 < ngroup) ->
  match SACommunityIdent g Ti Tf Ts fac ngroup own coll ds with
  | Ok (g', P, rest) => exists c count best, anneals ex g Ti Tf Ts fac ngroup own coll ds c rest count best /\ depicts g g' P c
  | Err e => e = RngOut
  end.
Proof. exact (SACommunityIdent_ok ex sq g U Named Short Some_node Ti Tf Ts fac ngroup own coll ds). Qed.
Theorem C109_modularity g' P c : depicts g g' P c -> Modularity P = quality g c.
Proof. exact (depicts_modularity ex sq g Some_node g' P c). Qed.

(** C110: SAGroupSplit divides a group in two. *)
Theorem C110_halves cells ms Ti Tf Ts ds : NoDup ms -> Forall2 (cell_at g) cells ms -> 0 < length ms -> Forall inner ds ->
  match SAGroupSplit g cells Ti Tf Ts true ds with
  | Ok (split, rest) => exists h, halved ex g ms Ti Tf Ts ds h rest /\ half_of g ms h split
  | Err e => e = RngOut
  end.
Proof. exact (halves_at ex sq g U Named Short cells ms Ti Tf Ts ds). Qed.

(** C111: a run that ends since nothing changed has not ended below the best temperature; the best is the best. *)
Theorem C111_settled Ti Tf Ts fac ngroup own coll ds c rest count best : anneals ex g Ti Tf Ts fac ngroup own coll ds c rest count best -> 25 <= count ->
  (quality g c <= best_quality g best <= quality g c + tiny)%Qc.
Proof. exact (settled_best ex g Ti Tf Ts fac ngroup own coll ds c rest count best). Qed.

(** C115: with one colour there is no end. *)
Theorem C115_one_colour Ti Tf Ts fac own coll ds : (Tf < Ti)%Qc -> Forall inner ds -> (own = true -> length g = 1) -> SACommunityIdent g Ti Tf Ts fac 1 own coll ds = Err RngOut.
Proof. exact (one_colour ex sq g U Some_node Ti Tf Ts fac own coll ds). Qed.

(** C116: no temperature, no partition: the null pointer is followed. *)
Theorem C116_no_temperature_refuted Ti Tf Ts fac ngroup coll ds : (Ti <= Tf)%Qc -> Forall inner ds -> SACommunityIdent g Ti Tf Ts fac ngroup true coll ds = Err UB_null.
Proof. exact (no_temperature_own ex sq g U Some_node Ti Tf Ts fac ngroup coll ds). Qed.
Theorem C116_no_temperature_random_refuted Ti Tf Ts fac ngroup coll ds : (Ti <= Tf)%Qc -> Forall inner ds -> 0 < ngroup -> length g <= length ds ->
  SACommunityIdent g Ti Tf Ts fac ngroup false coll ds = Err UB_null.
Proof. exact (no_temperature_random ex sq g U Some_node Ti Tf Ts fac ngroup coll ds). Qed.
End Exact.

(** * Networks of named nodes, for the examples *)
#[local] Instance ops21e : NumOps Qc := Qc_ops ex0 sq0.
Definition wired (names : list label) (links : list (nat * nat)) : net Qc :=
  match (do g <- foldM (fun g l => do (_, g) <- CreateNodeGraph g l; Ok g) [] names; foldM run_gop g (map (fun '(i, j) => LinkOp i j false n1 1) links)) with Ok g => g | Err _ => [] end.
Lemma wired_ok names links : forallb (fun l => length l <? 100) names = true -> forallb (fun '(i, j) => (i <? length names) && (j <? length names)) links = true ->
  undirected (wired names links) /\ map glabel (wired names links) = names.
Proof.
  intros HL HI. unfold wired. destruct (C25_create_nodes (A := Qc) names) as (g0 & -> & U0 & L0 & N0); [apply Forall_forall; rewrite forallb_forall in HL; intros l Hl; now apply Nat.ltb_lt, HL|]. cbn [bind].
  assert (Ln : length g0 = length names) by (rewrite <- (map_length glabel), L0; reflexivity).
  destruct (C25_sequences (map (fun '(i, j) => LinkOp i j false n1 1) links) g0 U0) as (g & -> & U & Sn & _).
  - generalize (weight g0). clear - HI Ln. induction links as [|[i j] links IH]; intros r; cbn [map rel_ok]; auto. cbn [forallb] in HI. apply andb_prop in HI as [H1 H2]. apply andb_prop in H1 as [H0 H1].
    apply Nat.ltb_lt in H0. apply Nat.ltb_lt in H1. rewrite Ln. split; [auto|]. rewrite <- Ln. apply IH; auto.
  - split; auto. rewrite <- L0. clear - Sn. induction Sn as [|n m l l' (H & _) Sn IH]; cbn [map]; congruence.
Qed.
Definition names3 : list label := [["a"%char]; ["b"%char]; ["c"%char]].
Lemma names3_nodup k : NoDup (firstn k names3).
Proof. do 4 (destruct k as [|k]; [repeat constructor; cbn; intuition discriminate|]). cbn [firstn names3]. repeat constructor; cbn; intuition discriminate. Qed.
(** A link; a path of three nodes; three nodes without links; one node. *)
Definition pair21 := wired (firstn 2 names3) [(0, 1)].
Definition path21 := wired names3 [(0, 1); (1, 2)].
Definition bare21 := wired names3 [].
Definition lone21 := wired (firstn 1 names3) [].
Lemma fine k links : forallb (fun '(i, j) => (i <? length (firstn k names3)) && (j <? length (firstn k names3))) links = true -> 0 < k ->
  let g := wired (firstn k names3) links in undirected g /\ NoDup (map glabel g) /\ (forall n, In n g -> length (glabel n) < 100) /\ 0 < length g.
Proof.
  intros H Hk g. assert (HL : forallb (fun l : label => length l <? 100) (firstn k names3) = true) by (do 4 (destruct k as [|k]; [reflexivity|]); reflexivity).
  destruct (wired_ok (firstn k names3) links HL H) as [U E]. fold g in U, E. split; auto. split; [rewrite E; apply names3_nodup|]. split.
  - intros n Hn. apply (in_map glabel) in Hn. rewrite E in Hn. rewrite forallb_forall in HL. now apply Nat.ltb_lt, HL.
  - rewrite <- (map_length glabel), E. destruct k; [lia|]. cbn. lia.
Qed.
Lemma inner_all l : forallb (fun u => Qc_ltb 0 u && Qc_ltb u 1) l = true -> Forall inner l.
Proof. intros H. apply Forall_forall. rewrite forallb_forall in H. intros u Hu. specialize (H u Hu). apply andb_prop in H as [H1 H2]. split; now apply Qc_ltb_true. Qed.

(** ** A run on two nodes: the first move unites them; the others are refused, but in the second temperature the last one is not. *)
Definition no21 : list Qc := [qq (1 # 4); qq (1 # 4); qq (3 # 4)].
Definition yes21 : list Qc := [qq (1 # 4); qq (1 # 4); qq (1 # 4)].
Definition draws21 : list Qc := [qq (1 # 4); qq (3 # 4)] ++ concat (repeat no21 9) ++ concat (repeat no21 9) ++ yes21.
Definition seen21 (r : res (net Qc * gpart Qc * list Qc)) := match r with Ok (_, P, rest) => inl (map snd (abs P), this (Modularity P), length rest) | Err e => inr e end.
Example pair21_fine : undirected pair21 /\ NoDup (map glabel pair21) /\ (forall n, In n pair21 -> length (glabel n) < 100) /\ 0 < length pair21.
Proof. exact (fine 2 [(0, 1)] eq_refl Nat.lt_0_2). Qed.
Example pair21_total : total pair21 = 2.
Proof. vm_compute. reflexivity. Qed.
Example draws21_inner : Forall inner draws21.
Proof. apply inner_all. vm_compute. reflexivity. Qed.
Example pair21_runs :
  seen21 (SACommunityIdent pair21 (qq 1) (qq (1 # 2)) (qq (1 # 2)) (qq 1) 1 true false draws21) = inl ([[1; 0]], 0%Q, 30) /\
  seen21 (SACommunityIdent pair21 (qq 1) (qq (1 # 3)) (qq (1 # 2)) (qq 1) 1 true false draws21) = inl ([[0]; [1]], (-1 # 2)%Q, 0).
Proof. vm_compute. split; reflexivity. Qed.

(** C112: "cooling further does no harm" is false: the partition returned is that of the last temperature, not the best one. *)
Lemma seen21_ok r ms q n : seen21 r = inl (ms, q, n) -> exists g P rest, r = Ok (g, P, rest) /\ this (Modularity P) = q.
Proof. destruct r as [[[g P] rest]|e]; intros E; [|discriminate E]. injection E as _ E _. exists g, P, rest. auto. Qed.
Theorem C112_further_refuted : ~ (forall g Ti Tf Tf' Ts fac ngroup own coll ds g1 P1 r1 g2 P2 r2,
  undirected g -> NoDup (map glabel g) -> (forall n, In n g -> length (glabel n) < 100) -> 0 < total g -> Forall inner ds -> (Tf' < Tf)%Qc -> (Tf < Ti)%Qc ->
  SACommunityIdent g Ti Tf Ts fac ngroup own coll ds = Ok (g1, P1, r1) -> SACommunityIdent g Ti Tf' Ts fac ngroup own coll ds = Ok (g2, P2, r2) ->
  (Modularity P1 <= Modularity P2)%Qc).
Proof.
  intros H. destruct pair21_fine as (U & N & S & _). destruct pair21_runs as [E1 E2].
  destruct (seen21_ok _ _ _ _ E1) as (g1 & P1 & r1 & F1 & M1). destruct (seen21_ok _ _ _ _ E2) as (g2 & P2 & r2 & F2 & M2).
  assert (T : 0 < total pair21) by (rewrite pair21_total; apply Nat.lt_0_2).
  specialize (H pair21 _ _ _ _ _ _ _ _ _ _ _ _ _ _ _ U N S T draws21_inner (eq_refl : (qq (1 # 3) < qq (1 # 2))%Qc) (eq_refl : (qq (1 # 2) < qq 1)%Qc) F1 F2).
  unfold Qcle in H. rewrite M1, M2 in H. apply H. reflexivity.
Qed.

(** C113: "SAGroupSplit does not make the modularity of the group's own network smaller if it refuses all losses" is false: the
    number of links stands where twice that number should. *)
Definition group_quality (g : net Qc) (ms h : list nat) : Qc := pair_value (length ms) (half_weight g ms) (Qc_of_nat (2 * links_in g ms)) h.
Definition cells21 (is : list nat) : list (link Qc) := map (fun i => mkLink i (nth i names3 []) 1 (Some i) 0%Qc 1%Qc) is.
Definition split21 : list Qc := map qq [5 # 6; 1 # 6; 3 # 4; 1 # 6; 3 # 4].
Definition halves21 (r : res (gpart Qc * list Qc)) := match r with Ok (split, rest) => inl (map (fun H => map llabel (pnodes H)) split, length rest) | Err e => inr e end.
Example path21_fine : undirected path21 /\ NoDup (map glabel path21) /\ (forall n, In n path21 -> length (glabel n) < 100) /\ 0 < length path21.
Proof. exact (fine 3 [(0, 1); (1, 2)] eq_refl (Nat.lt_0_succ 2)). Qed.
Example path21_cells : Forall2 (cell_at path21) (cells21 [0; 1; 2]) [0; 1; 2] /\ NoDup [0; 1; 2] /\ Forall inner (repeat (qq (1 # 4)) 3 ++ split21).
Proof.
  split; [|split].
  - repeat (apply Forall2_cons; [vm_compute; split; [reflexivity|split; [repeat constructor|reflexivity]]|]). constructor.
  - repeat constructor; cbn; lia.
  - apply inner_all. vm_compute. reflexivity.
Qed.
Example path21_halves : halves21 (SAGroupSplit (ops := Qc_ops (fun _ => 0%Qc) sq0) path21 (cells21 [0; 1; 2]) (qq 1) (qq (1 # 2)) (qq (1 # 2)) true (repeat (qq (1 # 4)) 3 ++ split21)) =
  inl ([[["a"%char]; ["b"%char]]; [["c"%char]]], 0).
Proof. vm_compute. reflexivity. Qed.
Lemma halves21_ok r ls n : halves21 r = inl (ls, n) -> exists split rest, r = Ok (split, rest) /\ map (fun H => map llabel (pnodes H)) split = ls.
Proof. destruct r as [[split rest]|e]; intros E; [|discriminate E]. injection E as E _. exists split, rest. auto. Qed.
Theorem C113_greedy_refuted : ~ (forall sq g cells ms Ti Tf Ts us ds split rest h,
  undirected g -> NoDup (map glabel g) -> (forall n, In n g -> length (glabel n) < 100) -> NoDup ms -> Forall2 (cell_at g) cells ms -> ~ apart g ms -> Forall inner (us ++ ds) -> length us = length ms ->
  SAGroupSplit (ops := Qc_ops (fun _ => 0%Qc) sq) g cells Ti Tf Ts true (us ++ ds) = Ok (split, rest) -> half_of g ms h split ->
  (group_quality g ms (map (selects 2) us) <= group_quality g ms h)%Qc).
Proof.
  intros H. destruct path21_fine as (U & N & S & _). destruct path21_cells as (F & D & I). pose proof path21_halves as E.
  destruct (halves21_ok _ _ _ E) as (split & rest & ES & EL). clear E. rename EL into E.
  assert (A : ~ apart path21 [0; 1; 2]).
  { intros (p & (x & Hx & Px) & (y & Hy & Py) & HL). assert (E01 : p 0 = p 1) by (apply HL; cbn; auto). assert (E12 : p 1 = p 2) by (apply HL; cbn; auto).
    cbn in Hx, Hy. destruct Hx as [<-|[<-|[<-|[]]]], Hy as [<-|[<-|[<-|[]]]]; congruence. }
  specialize (H sq0 path21 _ _ _ _ _ _ _ split rest [0; 0; 1] U N S D F A I eq_refl ES).
  assert (X : half_of path21 [0; 1; 2] [0; 0; 1] split).
  { destruct split as [|G R]; [discriminate E|]. injection E as E1 _. exists G, R, [0; 1]. split; auto. split; [rewrite E1; vm_compute; reflexivity|]. split; [repeat constructor; cbn; lia|].
    intros x. cbn [length]. split; [intros [<-|[<-|[]]]; cbn; auto with arith|]. intros [Hx Hc]. destruct x as [|[|[|x]]]; [left; reflexivity|right; left; reflexivity|discriminate Hc|lia]. }
  specialize (H X). revert H. vm_compute. intros H. apply H. reflexivity.
Qed.

(** C114: "a draw may be 0" is false: ceil then gives the number of the header of the partition. *)
Theorem C114_zero_refuted : ~ (forall g cells ms Ti Tf Ts ds e, undirected g -> NoDup (map glabel g) -> (forall n, In n g -> length (glabel n) < 100) -> NoDup ms -> Forall2 (cell_at g) cells ms -> 0 < length ms ->
  Forall (fun u => 0 <= u /\ u < 1)%Qc ds -> SAGroupSplit g cells Ti Tf Ts true ds = Err e -> e = RngOut).
Proof.
  intros H. destruct (fine 3 [] eq_refl (Nat.lt_0_succ 2)) as (U & N & S & _).
  assert (F : Forall2 (cell_at bare21) (cells21 [0; 1; 2]) [0; 1; 2]) by (repeat (apply Forall2_cons; [vm_compute; split; [reflexivity|split; [repeat constructor|reflexivity]]|]); constructor).
  assert (D : NoDup [0; 1; 2]) by (repeat constructor; cbn; lia).
  specialize (H bare21 _ _ (qq 1) (qq (1 # 2)) (qq (1 # 2)) [qq 0; qq 0; qq (1 # 2)] UB_null U N S D F (Nat.lt_0_succ 2)).
  assert (X : UB_null = RngOut); [|discriminate X]. apply H.
  - repeat (apply Forall_cons; [split; [vm_compute; discriminate|reflexivity]|]). constructor.
  - vm_compute. reflexivity.
Qed.
(** The same nodes with draws that are not 0: the second part and the third one become one. *)
Example bare21_halves : halves21 (SAGroupSplit bare21 (cells21 [0; 1; 2]) (qq 1) (qq (1 # 2)) (qq (1 # 2)) true [qq (1 # 4); qq (1 # 4); qq (3 # 4)]) = inl ([[["b"%char]]; [["c"%char]; ["a"%char]]], 0).
Proof. vm_compute. reflexivity. Qed.

(** ** A run with merges and splits on the path, and one that settles *)
Definition mixed21 : list Qc := Eval vm_compute in lcg 900 11.
Example mixed21_inner : Forall inner mixed21.
Proof. apply inner_all. vm_compute. reflexivity. Qed.
Example path21_run : 0 < total path21 /\ seen21 (SACommunityIdent path21 (qq 1) (qq (1 # 2)) (qq (3 # 4)) (qq 1) 1 true true mixed21) = inl ([[0]; [2; 1]], (-1 # 8)%Q, 533).
Proof. vm_compute. split; [repeat constructor|reflexivity]. Qed.
Example path21_random : seen21 (SACommunityIdent path21 (qq 1) (qq (1 # 2)) (qq (3 # 4)) (qq 1) 2 false true mixed21) = inl ([[1; 2]; [0]], (-1 # 8)%Q, 505).
Proof. vm_compute. reflexivity. Qed.
(** The temperature stays the same: the run can only end by settling. *)
Lemma steady ex g K Ti Tf coll n1 n2 T last count b s s' count' b' : cools ex g K Ti Tf 1%Qc coll n1 n2 T last count b s s' count' b' -> (Tf < T)%Qc -> 25 <= count'.
Proof.
  intros H HT. remember 1%Qc as one. induction H as [T last count b s [X|X]|T last count b s c1 ds1 c2 count2 best2 s' count' best' H1 H2 H3 H4 H5 H6 IH]; [exfalso; apply (Qclt_not_le _ _ HT X)|exact X|].
  apply IH. subst one. now rewrite Qcmult_1_r.
Qed.
Definition calm21 : list Qc := [qq (1 # 4); qq (3 # 4)] ++ concat (repeat no21 249).
Example pair21_settles : exists c rest count best, anneals ex0 pair21 (qq 1) (qq (1 # 2)) 1%Qc (qq 1) 1 true false calm21 c rest count best /\ 25 <= count /\ this (quality pair21 c) = 0%Q.
Proof.
  destruct pair21_fine as (U & N & S & Z). assert (D : Forall inner calm21) by (apply inner_all; vm_compute; reflexivity).
  assert (T : 0 < total pair21) by (rewrite pair21_total; apply Nat.lt_0_2).
  pose proof (C109_anneals ex0 sq0 pair21 U N S Z (qq 1) (qq (1 # 2)) 1%Qc (qq 1) 1 true false calm21 T eq_refl D ltac:(discriminate)) as H.
  assert (E : seen21 (SACommunityIdent (ops := Qc_ops ex0 sq0) pair21 (qq 1) (qq (1 # 2)) 1%Qc (qq 1) 1 true false calm21) = inl ([[1; 0]], 0%Q, 0)) by (vm_compute; reflexivity).
  unfold ops21 in H. revert H E. generalize (SACommunityIdent (ops := Qc_ops ex0 sq0) pair21 (qq 1) (qq (1 # 2)) 1%Qc (qq 1) 1 true false calm21). intros r H E.
  destruct (seen21_ok _ _ _ _ E) as (g & P & rest & -> & M). destruct H as (c & count & best & HA & HD). exists c, rest, count, best. split; auto. split.
  - inversion HA as [ds K c0 ds0 c' rest' count' best' HS HC]; subst. eapply steady; [exact HC|reflexivity].
  - rewrite <- M. f_equal. symmetry. exact (C109_modularity ex0 sq0 pair21 Z g P c HD).
Qed.

(** ** One colour; no temperature *)
Example lone21_fine : undirected lone21 /\ 0 < length lone21 /\ length lone21 = 1.
Proof. destruct (fine 1 [] eq_refl Nat.lt_0_1) as (U & _ & _ & Z). split; [exact U|]. split; [exact Z|reflexivity]. Qed.
Example one_colour21 : seen21 (SACommunityIdent pair21 (qq 1) (qq (1 # 2)) (qq (1 # 2)) (qq 1) 1 false true mixed21) = inr RngOut /\
  seen21 (SACommunityIdent pair21 (qq 1) (qq (1 # 2)) (qq (1 # 2)) (qq 1) 2 false true mixed21) = inl ([[1; 0]], 0%Q, 850) /\
  seen21 (SACommunityIdent lone21 (qq 1) (qq (1 # 2)) (qq (1 # 2)) (qq 1) 1 true true mixed21) = inr RngOut.
Proof. vm_compute. split; [reflexivity|split; reflexivity]. Qed.
Example cold21 : seen21 (SACommunityIdent pair21 (qq (1 # 2)) (qq (1 # 2)) (qq (1 # 2)) (qq 1) 1 true true mixed21) = inr UB_null /\
  seen21 (SACommunityIdent pair21 (qq (1 # 3)) (qq (1 # 2)) (qq (1 # 2)) (qq 1) 2 false true mixed21) = inr UB_null.
Proof. vm_compute. split; reflexivity. Qed.

(** * C117: the decorrelation step *)
Section Decorrelation.
Variables ex sq : Qc -> Qc.
#[local] Instance ops21d : NumOps Qc := Qc_ops ex sq.
Variable logf : nat -> Qc.
Variable lnchoose : nat -> nat -> Qc.
Variable lnfact : nat -> Qc.
Variable mutual : gpart Qc -> gpart Qc -> Qc.
Variable decay_of : nat -> nat -> Qc -> nat -> Qc -> Qc.
Variables lcsize lfsize : nat.
Variable linC : Qc.
(** The mean of the usual ones of ten decay times that are not negative, rounded down. *)
Theorem C117_missing nnod nlist glist tabf st n st' : GetDecorrelationStep logf lnchoose lnfact mutual decay_of lcsize lfsize linC nnod nlist glist tabf st = Ok (n, st') ->
  exists l, measured (MissModel.decor_one logf lnchoose lnfact mutual decay_of lcsize lfsize linC nnod nlist glist tabf) negative 10 st l st' /\ n = whole (mean_of (usual sq l)).
Proof. exact (miss_step ex sq logf lnchoose lnfact mutual decay_of lcsize lfsize linC nnod nlist glist tabf st n st'). Qed.
(** The slower of two series decides; rounded to the nearest integer. *)
Theorem C117_recommend K tabf charge st n st' : GetDecorrelationStep2 lnfact mutual decay_of lfsize K tabf charge st = Ok (n, st') ->
  exists l, measured (decor_one2 lnfact mutual decay_of lfsize K tabf charge) unusable 10 st l st' /\ n = whole (mean_of (usual sq (slower (map fst l) (map snd l))) + Q2Qc (1 # 2))%Qc.
Proof. exact (rec_step ex sq lnfact mutual decay_of lfsize K tabf charge st n st'). Qed.
End Decorrelation.

(** The number of groups in use stands for the decay time. *)
Definition used21 (_ P : gpart Qc) : Qc := Qc_of_nat (length (filter (fun G => (0 <? psize G)%Z) P)).
Definition last21 (_ _ : nat) (_ : Qc) (_ : nat) (y2 : Qc) : Qc := y2.
Example missing21 : match (do (nlist, glist, st) <- mc_setup (ops := Qc_ops ex1 sq0) lf1 lc1 ft1 10 1%Qc kiteQ (repeat None 5) ds12;
    GetDecorrelationStep (ops := Qc_ops ex1 sq0) lf1 lc1 ft1 used21 last21 10 10 1%Qc 5 nlist glist (InitializeTable ft1 10) st) with Ok (n, _) => Some n | Err _ => None end = Some 6.
Proof. vm_compute. reflexivity. Qed.
Example recommend21 : match (do st <- reachedK ex0 sq0 lnf 8 8 2 film20 ds20 [];
    GetDecorrelationStep2 lnf used21 last21 8 2 (InitializeTable lnf 8) (chargeK lnf 8 2 (InitializeTable lnf 8)) st) with Ok (n, _) => Some n | Err _ => None end = Some 3.
Proof. vm_compute. reflexivity. Qed.
(** Nine values of 1 and one of 100: the mean of the usual ones is 1. *)
Example trimmed21 : whole (mean_of (usual (fun _ => qq 30) (repeat (qq 1) 9 ++ [qq 100]))) = 1 /\ whole (mean_of (repeat (qq 1) 9 ++ [qq 100])) = 10.
Proof. vm_compute. split; reflexivity. Qed.

Print Assumptions C109_anneals.
Print Assumptions C109_modularity.
Print Assumptions C110_halves.
Print Assumptions C111_settled.
Print Assumptions C115_one_colour.
Print Assumptions C116_no_temperature_refuted.
Print Assumptions C116_no_temperature_random_refuted.
Print Assumptions C112_further_refuted.
Print Assumptions C113_greedy_refuted.
Print Assumptions C114_zero_refuted.
Print Assumptions C117_missing.
Print Assumptions C117_recommend.
