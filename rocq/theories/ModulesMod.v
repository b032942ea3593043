(** ModulesMod.v -- the modularity of a partition of a network (C30). *)
From Coq Require Import List Arith ZArith Bool QArith Qcanon Lia Permutation Field.
From Verif Require Import Base Num ListLib NatSum QcSum PartModel PartSpec AdjSpec ModSpec CoreExact IoModel GraphModel GraphSpec GraphProof GroupModel GroupSpec PairSum GroupProof GroupExact ModulesModel ModulesSpec.
Import ListNotations.
Local Open Scope nat_scope.

Section Sums.
Variable N : nat.
Variable f : nat -> nat -> Qc.
Hypothesis fsym : forall i j, f i j = f j i.
Hypothesis floop : forall i, f i i = 0%Qc.

(** Twice a sum over unordered pairs. *)
Lemma pair_twice (h : nat -> nat -> Qc) : (forall i j, h i j = h j i) -> (forall i, h i i = 0%Qc) ->
  Qsum (fun i => Qsum (h i) (seq 0 N)) (seq 0 N) = (pair_sum N h + pair_sum N h)%Qc.
Proof.
  intros Hs Hl. assert (E : pair_sum N h = Qsum (fun i => Qsum (fun j => if j <? i then h j i else 0%Qc) (seq 0 N)) (seq 0 N)) by (unfold pair_sum; apply Qsum_swap).
  rewrite E at 2. unfold pair_sum. rewrite <- Qsum_add. apply Qsum_ext. intros i _. rewrite <- Qsum_add. apply Qsum_ext. intros j _.
  destruct (Nat.lt_trichotomy i j) as [H|[->|H]].
  - rewrite (proj2 (Nat.ltb_lt _ _) H). rewrite (proj2 (Nat.ltb_ge j i)) by lia. ring.
  - rewrite Nat.ltb_irrefl, Hl. ring.
  - rewrite (proj2 (Nat.ltb_lt _ _) H). rewrite (proj2 (Nat.ltb_ge i j)) by lia. rewrite (Hs i j). ring.
Qed.
Lemma s_in_twice S : (s_in N f S + s_in N f S)%Qc = Qsum (fun i => Qsum (fun j => if mem i S && mem j S then f i j else 0%Qc) (seq 0 N)) (seq 0 N).
Proof. symmetry. apply pair_twice; intros i; [intros j; rewrite andb_comm; destruct (mem j S && mem i S); auto|]. rewrite floop. destruct (_ && _); auto. Qed.
Lemma Qsum_prod (a b : nat -> Qc) l l' : (Qsum a l * Qsum b l')%Qc = Qsum (fun i => Qsum (fun j => a i * b j)%Qc l') l.
Proof. rewrite <- Qsum_scal_r. apply Qsum_ext. intros i _. now rewrite Qsum_scal. Qed.

Variable M : groups.
Hypothesis GM : good M.

Lemma mem_home lab l i : In (lab, l) M -> mem i l = match home M i with Some x => x =? lab | None => false end.
Proof.
  intros H. pose proof (home_iff M i lab GM) as Hi. destruct (mem_spec i l) as [K|K].
  - rewrite (proj2 Hi) by eauto. now rewrite Nat.eqb_refl.
  - destruct (home M i) as [x|] eqn:E; auto. destruct (Nat.eqb_spec x lab) as [->|]; auto. exfalso. apply K. destruct (proj1 Hi eq_refl) as (l' & H1 & H2).
    now rewrite (lab_unique _ _ _ _ (gd_lab _ GM) H H1).
Qed.
(** Summing over the groups. *)
Lemma over_groups2 i j x : Qsum (fun G => if mem i (snd G) && mem j (snd G) then x else 0%Qc) M = if same_home M i j then x else 0%Qc.
Proof.
  set (h := fun lab => if match home M i with Some a => a =? lab | None => false end && match home M j with Some a => a =? lab | None => false end then x else 0%Qc).
  rewrite (Qsum_ext _ (fun G => h (fst G))).
  2: { intros [lab l] H. unfold h. cbn [fst snd]. now rewrite !(mem_home lab l) by auto. }
  rewrite <- (Qsum_map fst h). unfold same_home, h. destruct (home M i) as [a|] eqn:Ei.
  - destruct (home M j) as [b|] eqn:Ej.
    + destruct (Nat.eqb_spec a b) as [<-|Nab].
      * rewrite (Qsum_ext _ (fun lab => if lab =? a then x else 0%Qc)) by (intros lab _; rewrite (Nat.eqb_sym a lab); destruct (lab =? a); auto).
        rewrite (Qsum_single (fun _ => x)); auto; [apply GM|]. apply home_iff in Ei as (l & H & _); auto. apply in_map_iff. exists (a, l). auto.
      * apply Qsum_0. intros lab _. destruct (Nat.eqb_spec a lab) as [<-|]; auto. destruct (Nat.eqb_spec b a); auto. congruence.
    + apply Qsum_0. intros lab _. now rewrite andb_false_r.
  - apply Qsum_0. reflexivity.
Qed.
Lemma over_groups1 i x : home M i <> None -> Qsum (fun G => if mem i (snd G) then x else 0%Qc) M = x.
Proof.
  intros H. pose proof (over_groups2 i i x) as E. rewrite (Qsum_ext _ (fun G => if mem i (snd G) then x else 0%Qc)) in E by (intros G _; now rewrite andb_diag).
  rewrite E. unfold same_home. destruct (home M i); [|congruence]. now rewrite Nat.eqb_refl.
Qed.
Hypothesis HC : covering N M.

Lemma groups_total : Qsum (fun G => s_tot N f (snd G) + s_in N f (snd G))%Qc M = all_sum N f.
Proof.
  rewrite (Qsum_ext _ (fun G => Qsum (fun i => if mem i (snd G) then s_deg N f i else 0%Qc) (seq 0 N))) by (intros G _; apply s_degrees; auto).
  rewrite Qsum_swap. unfold all_sum. apply Qsum_ext. intros i Hi. apply in_seq in Hi. apply over_groups1. apply HC. lia.
Qed.
Theorem groups_modularity T : T = all_sum N f ->
  Qsum (fun G => (s_in N f (snd G) + s_in N f (snd G)) / T - (s_in N f (snd G) + s_tot N f (snd G)) * (s_in N f (snd G) + s_tot N f (snd G)) / (T * T))%Qc M
  = pair_modularity N f (same_home M).
Proof.
  intros ->. unfold pair_modularity. set (T := all_sum N f).
  rewrite (Qsum_ext _ (fun G => Qsum (fun i => Qsum (fun j => if mem i (snd G) && mem j (snd G) then f i j / T - node_sum N f i * node_sum N f j / (T * T) else 0)%Qc (seq 0 N)) (seq 0 N))).
  - rewrite Qsum_swap. apply Qsum_ext. intros i _. rewrite Qsum_swap. apply Qsum_ext. intros j _. apply over_groups2.
  - intros G _. rewrite s_in_twice, (Qcplus_comm (s_in N f (snd G))), s_degrees by auto. unfold Qcdiv. rewrite Qsum_prod.
    rewrite <- !Qsum_scal_r. rewrite <- Qsum_sub. apply Qsum_ext. intros i _. rewrite <- !Qsum_scal_r. rewrite <- Qsum_sub. apply Qsum_ext. intros j _.
    unfold s_deg, node_sum. destruct (mem i (snd G)), (mem j (snd G)); cbn [andb]; ring.
Qed.
End Sums.

Section Exact.
Variables ex sq : Qc -> Qc.
#[local] Instance opsX : NumOps Qc := Qc_ops ex sq.

Lemma zA_nat k : zA (Z.of_nat k) = Qc_of_nat k.
Proof. reflexivity. Qed.
Lemma fold_Z (h : grp Qc -> nat) P a : (forall G, In G P -> (ptot G + pin G)%Z = Z.of_nat (h G)) ->
  fold_left (fun s G => (s + (ptot G + pin G))%Z) P (Z.of_nat a) = Z.of_nat (a + lsum h P).
Proof.
  revert a. induction P as [|G P IH]; intros a H; cbn [fold_left lsum]; [now rewrite Nat.add_0_r|].
  rewrite H by (simpl; auto). rewrite <- Nat2Z.inj_add, IH by (intros; apply H; simpl; auto). f_equal. lia.
Qed.
Lemma Qc_lsum {X} (h : X -> nat) l : Qc_of_nat (lsum h l) = Qsum (fun x => Qc_of_nat (h x)) l.
Proof. induction l as [|x l IH]; [reflexivity|]. cbn [lsum Qsum]. now rewrite Qc_of_nat_add, IH. Qed.
Lemma good_mapped (g : net Qc) P : mapped g P -> good (abs P).
Proof. intros [H1 H2 H3 _ _ _]. apply good_map. auto. Qed.
Lemma Qsum_abs (h : nat * list nat -> Qc) (P : gpart Qc) : Qsum (fun G => h (plabel G, members G)) P = Qsum h (abs P).
Proof. unfold abs. now rewrite Qsum_map. Qed.

(** Links counted. *)
Theorem Modularity_pairs g P : undirected g -> mapped g P -> covering (length g) (abs P) ->
  Modularity P = pair_modularity (length g) (unit_weight g) (same_home (abs P)).
Proof.
  intros U M C. rewrite <- (groups_modularity (length g) (unit_weight g) (unit_sym g U) (unit_loop g U) (abs P) (good_mapped g P M) _ eq_refl).
  set (h := fun G : grp Qc => links_tot g (members G) + links_in g (members G)).
  assert (Hh : forall G, In G P -> (ptot G + pin G)%Z = Z.of_nat (h G)).
  { intros G HG. destruct (mp_counts _ _ M G HG) as (_ & -> & -> & _). unfold h. lia. }
  pose proof (fold_Z h P 0 Hh) as EZ. change (Z.of_nat 0) with 0%Z in EZ. unfold Modularity. rewrite EZ. cbn [Nat.add]. rewrite !zA_nat.
  assert (ET : Qc_of_nat (lsum h P) = all_sum (length g) (unit_weight g)).
  { rewrite Qc_lsum, <- (groups_total (length g) (unit_weight g) (unit_sym g U) (unit_loop g U) (abs P) (good_mapped g P M) C), <- Qsum_abs.
    apply Qsum_ext. intros G _. unfold h. rewrite Qc_of_nat_add, links_tot_Qc, links_in_Qc. reflexivity. }
  rewrite ET. set (T := all_sum _ _).
  cbn [nadd nsub nmul ndiv n0 opsX Qc_ops]. rewrite Qsum_fold, Qcplus_0_l, <- Qsum_abs. apply Qsum_ext. intros G HG.
  destruct (mp_counts _ _ M G HG) as (_ & E1 & E2 & _). rewrite E1, E2. cbn [snd].
  replace (2 * Z.of_nat (links_in g (members G)))%Z with (Z.of_nat (links_in g (members G) + links_in g (members G))) by lia.
  rewrite <- Nat2Z.inj_add, !zA_nat, !Qc_of_nat_add, links_tot_Qc, links_in_Qc. reflexivity.
Qed.
(** Weights. *)
Theorem ModularityWeight_pairs g P : undirected g -> mapped g P -> (forall G, In G P -> weights_right g G) -> covering (length g) (abs P) ->
  ModularityWeight P = pair_modularity (length g) (wt g) (same_home (abs P)).
Proof.
  intros U M Hw C. rewrite <- (groups_modularity (length g) (wt g) (wt_sym g U) (wt_loop g U) (abs P) (good_mapped g P M) _ eq_refl).
  unfold ModularityWeight. cbn [nadd nsub nmul ndiv n0 nofQ opsX Qc_ops].
  assert (ET : Qsum (fun G => ptotW G + pinW G)%Qc P = all_sum (length g) (wt g)).
  { rewrite <- (groups_total (length g) (wt g) (wt_sym g U) (wt_loop g U) (abs P) (good_mapped g P M) C), <- Qsum_abs.
    apply Qsum_ext. intros G HG. destruct (Hw G HG) as (E1 & E2 & _). rewrite E1, E2. reflexivity. }
  rewrite (Qsum_fold (fun G => ptotW G + pinW G)%Qc P 0%Qc), Qcplus_0_l, ET. set (T := all_sum _ _). rewrite Qsum_fold, Qcplus_0_l, <- Qsum_abs. apply Qsum_ext. intros G HG. destruct (Hw G HG) as (E1 & E2 & _). rewrite E1, E2. cbn [snd].
  unfold weight_in_set, weight_tot. fold (s_in (length g) (wt g) (members G)). fold (s_tot (length g) (wt g) (members G)).
  replace (Q2Qc 2) with (1 + 1)%Qc by (apply Qc_is_canon; reflexivity). unfold Qcdiv. ring.
Qed.
End Exact.
