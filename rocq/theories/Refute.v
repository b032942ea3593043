(** Refute.v -- witnesses showing that some plausible claims about the partition code are false of the model. *)
From Coq Require Import List Arith Lia Bool QArith Qcanon ZArith Qround.
From Verif Require Import Base Num ListLib QcSum PartModel MoveModel FillModel SAModel PartSpec AdjSpec ModSpec PartInv MergeProof FillProof
  EnergyForm ExactProof SAProof EdgeListProof EdgeListExact RolesProof RolesBounds.
Import ListNotations.
Local Open Scope nat_scope.

(** Numbers in [0,1) are good draws. *)
Lemma good_draw_Qc ex sq (u : Qc) : (0 <= u)%Qc -> (u < 1)%Qc -> @good_draw Qc (Qc_ops ex sq) u.
Proof.
  intros H0 H1 n Hn. cbn [nfloor nmul nofnat Qc_ops].
  assert (Hlt : (u * Qc_of_nat n < Qc_of_nat n)%Qc).
  { replace (Qc_of_nat n) with (1 * Qc_of_nat n)%Qc at 2 by ring. apply Qcmult_lt_compat_r; auto. apply Qc_of_nat_pos; auto. }
  assert (Hge : (0 <= u * Qc_of_nat n)%Qc) by (apply Qcmult_le_0_compat; auto; apply Qc_of_nat_nonneg).
  set (x := (u * Qc_of_nat n)%Qc) in *. clearbody x.
  pose proof (Qfloor_le x) as Hf. unfold Qclt, Qc_of_nat in Hlt. cbn [this Q2Qc] in Hlt. rewrite Qred_correct in Hlt.
  assert ((inject_Z (Qfloor x) < inject_Z (Z.of_nat n))%Q) by (eapply Qle_lt_trans; eauto).
  rewrite <- Zlt_Qlt in H. lia.
Qed.

(** exp is replaced by 1/(1-x), positive for x <= 0 like exp.  Every Metropolis test of the runs below that is meant to
    accept draws u = 0, which any positive function accepts. *)
Definition ex0 (x : Qc) : Qc := (1 / (1 - x))%Qc.
Definition sq0 (x : Qc) : Qc := x.
#[local] Instance ops0 : NumOps Qc := Qc_ops ex0 sq0.
Definition qq (x : Q) : Qc := Q2Qc x.

(** ** The path 0 - 1 - 2 *)
Definition path3 : list (nat * nat * Qc) := [(0, 1, qq 1); (1, 2, qq 1)].
Definition dflt : partition Qc := mkPart 0 0 0 [] [].
Definition dadj : adja Qc := mkAdja 0 0 [] [] [].
Definition setup (N M : nat) (es : list (nat * nat * Qc)) (ds : list nat) : partition Qc * adja Qc :=
  match CreatePartition N M with
  | Ok p => match EdgeListToAdjaArray es (CreateAdjaArray N (length es)) p true with
            | Ok (adj, p) => match AssignNodesToModules p ds with Ok (p, _) => (p, adj) | Err _ => (dflt, dadj) end
            | Err _ => (dflt, dadj) end
  | Err _ => (dflt, dadj)
  end.

(** Every setup is a legitimate input: obtained by the library's own functions. *)
Lemma setup_ok N M es ds p adj : no_loops es -> in_range N es -> total_weight es <> 0%Qc -> M <= N -> N <> M ->
  Forall (fun j => j < M) ds -> N <= length ds -> setup N M es ds = (p, adj) ->
  valid p /\ strengths_ok p /\ adj_ok adj (pN p) /\ sym_adj adj /\ sym_w adj /\ loop_free adj /\ pN p = N /\ pM p = M /\
  (no_duplicates es -> simple_rows adj) /\ (forall i, i < N -> group p i = nth_error ds i).
Proof.
  intros NL IR HW HMN Hne Hds Hlen H. unfold setup in H.
  destruct (CreatePartition_fresh N M HMN) as (p0 & E0 & F0 & N0 & M0 & G0). rewrite E0 in H.
  destruct (EdgeList_exact ex0 sq0 es p0 N M true NL IR E0 (fun _ => HW)) as
    (adj1 & p1 & E1 & OK & SA & SW & LF & SR & F1 & N1 & M1 & _). change (opsL ex0 sq0) with ops0 in *. rewrite E1 in H.
  assert (Hds' : Forall (fun j => j < pM p1) ds) by (rewrite M1; auto).
  assert (Hlen' : pN p1 <= length ds) by lia. assert (Hne' : pN p1 <> pM p1) by lia.
  destruct (AssignNodes_random (fun _ _ => True) p1 ds F1 Hne' Hds' Hlen' I) as (p2 & ls & E2 & W & _ & N2 & M2 & G & S2); auto.
  pose proof (strengths_assign_random ex0 sq0 p1 ds p2 _ F1 Hne' Hds' Hlen' E2) as ST.
  change (opsL ex0 sq0) with ops0 in *. rewrite E2 in H. injection H as <- <-. rewrite N2, N1. splits; auto; try congruence.
  - eapply WF_valid; eauto.
  - intros i Hi. apply G. lia.
Qed.

Definition p14 : partition Qc := Eval vm_compute in fst (setup 3 2 path3 [0; 0; 0]).
Definition adj14 : adja Qc := Eval vm_compute in snd (setup 3 2 path3 [0; 0; 0]).
Definition dn (i : nat) : Qc := qq (Z.of_nat (2 * i + 1) # 6).
Definition dm (j : nat) : Qc := qq (Z.of_nat (2 * j + 1) # 4).
Definition lo : Qc := qq 0.
Definition hi : Qc := qq (9 # 10).
(** Random numbers of a run of two temperature steps of ten individual and two collective movements each. *)
Definition ds14 : list Qc :=
  [dn 2; dm 1; lo; dn 0; dm 1; lo] ++ concat (repeat [dn 2; dm 0; dn 2; dm 1; lo] 4)
  ++ [dn 1; dn 0; dn 0; hi; lo; hi; hi; lo] ++ [dn 1; dn 0; dn 0; hi; lo; hi; hi; lo]
  ++ concat (repeat [dn 2; dm 0; dn 2; dm 1; lo] 5)
  ++ [dn 1; dn 0; dn 0; hi; hi; lo; hi; dn 2; hi; lo]
  ++ [dn 2; dn 0; dn 0; hi; hi; hi; lo; dn 0; hi; lo].

Lemma path3_ok : no_loops path3 /\ in_range 3 path3 /\ total_weight path3 <> 0%Qc /\ no_duplicates path3.
Proof.
  splits.
  - repeat constructor; discriminate.
  - repeat constructor; lia.
  - intros H. apply (f_equal this) in H. vm_compute in H. discriminate.
  - intros l1 a b w l2 a' b' w' E Hin.
    destruct l1 as [|x [|y l1]]; cbn in E; injection E; intros; subst.
    + destruct Hin as [Hin|[]]. injection Hin as <- <- <-. lia.
    + destruct Hin.
    + destruct l1; discriminate.
Qed.

(** C14: the annealing can hand back a partition that is worse than the one it was given. *)
Theorem GeneralSA_may_get_worse : exists (p : partition Qc) adj ds b e,
  valid p /\ strengths_ok p /\ adj_ok adj (pN p) /\ sym_adj adj /\ sym_w adj /\ loop_free adj /\
  Forall good_draw ds /\
  GeneralSA p adj (qq (1 # 10)) (qq 1) (qq (985 # 1000)) (qq (99 # 100)) (qq 0) 5 ds = Ok (Some b, Some e, []) /\
  (modularity b adj < modularity p adj)%Qc.
Proof.
  destruct path3_ok as (P1 & P2 & P3 & P4).
  destruct (setup_ok 3 2 path3 [0; 0; 0] p14 adj14 P1 P2 P3) as (V & S & A1 & A2 & A3 & A4 & _).
  - lia.
  - lia.
  - repeat constructor.
  - simpl; lia.
  - vm_compute. reflexivity.
  - assert (R : match GeneralSA p14 adj14 (qq (1 # 10)) (qq 1) (qq (985 # 1000)) (qq (99 # 100)) (qq 0) 5 ds14 with
                | Ok (Some b, Some e, []) => Qc_ltb (modularity b adj14) (modularity p14 adj14) = true
                | _ => False end) by (vm_compute; reflexivity).
    destruct (GeneralSA p14 adj14 (qq (1 # 10)) (qq 1) (qq (985 # 1000)) (qq (99 # 100)) (qq 0) 5 ds14) as [[[[b|] [e|]] [|]]|] eqn:E;
      try tauto.
    exists p14, adj14, ds14, b, e. splits; auto.
    + repeat (constructor; [apply good_draw_Qc; vm_compute; congruence|]). constructor.
    + apply Qc_ltb_spec. exact R.
Qed.

(** ** C16: the count is about the whole network, not about the module's own subgraph *)
(** Reachable along listed links through nodes satisfying [S] only. *)
Inductive connected_within (adj : adja Qc) (S : nat -> Prop) : nat -> nat -> Prop :=
| cw_refl i : S i -> connected_within adj S i i
| cw_step i j k : connected_within adj S i j -> adjacent adj j k -> S k -> connected_within adj S i k.

Definition path4 : list (nat * nat * Qc) := [(0, 1, qq 1); (1, 2, qq 1); (2, 3, qq 1)].
Definition p16 : partition Qc := Eval vm_compute in fst (setup 4 3 path4 [0; 1; 0; 1]).
Definition adj16 : adja Qc := Eval vm_compute in snd (setup 4 3 path4 [0; 1; 0; 1]).

Lemma path4_ok : no_loops path4 /\ in_range 4 path4 /\ total_weight path4 <> 0%Qc.
Proof.
  splits.
  - repeat constructor; discriminate.
  - repeat constructor; lia.
  - intros H. apply (f_equal this) in H. vm_compute in H. discriminate.
Qed.

Theorem SplitModuleByComponent_counts_outside : exists (p : partition Qc) adj target empty p' ds',
  valid p /\ adj_ok adj (pN p) /\ sym_adj adj /\
  target < pM p /\ empty < pM p /\ (forall i, group p i <> Some empty) /\
  SplitModuleByComponent target empty p adj [] = Ok (1, p', ds') /\
  exists x y, group p x = Some target /\ group p y = Some target /\
    ~ connected_within adj (fun i => group p i = Some target) x y.
Proof.
  destruct path4_ok as (P1 & P2 & P3).
  destruct (setup_ok 4 3 path4 [0; 1; 0; 1] p16 adj16 P1 P2 P3) as (V & S & A1 & A2 & A3 & A4 & N16 & M16 & _ & G).
  - lia.
  - lia.
  - repeat constructor.
  - simpl; lia.
  - vm_compute. reflexivity.
  - exists p16, adj16, 0, 2, p16, []. splits; try assumption.
    + rewrite M16; lia.
    + rewrite M16; lia.
    + intros i. destruct (lt_dec i 4) as [Hi|Hi].
      * rewrite G by auto. destruct i as [|[|[|[|i]]]]; cbn; try discriminate. lia.
      * unfold group. rewrite (proj2 (nth_error_None _ _)); [discriminate|]. rewrite (valid_N _ V), N16. lia.
    + vm_compute. reflexivity.
    + exists 0, 2. splits; auto.
      assert (K : forall i j, connected_within adj16 (fun i => group p16 i = Some 0) i j -> i = 0 -> j = 0).
      { intros i j H. induction H as [i Hi|i j k H IH Ha Hk]; auto. intros Ei. specialize (IH Ei). subst j.
        vm_compute in Ha. destruct Ha as [<-|[]]. vm_compute in Hk. discriminate. }
      intros H. apply K in H; auto. discriminate.
Qed.

(** ** C10: a self loop leaves a phantom neighbour and an incomplete row *)
Theorem self_loop_phantom : exists es N p adj p',
  in_range N es /\ CreatePartition N 1 = Ok p /\
  EdgeListToAdjaArray es (CreateAdjaArray N (length es)) p true = Ok (adj, p') /\
  exists i j, j < N /\ In j (map fst (row adj i)) /\
    (forall a b w, In (a, b, w) es -> a <> j /\ b <> j) /\
    Qsum snd (row adj i) <> kk p' i.
Proof.
  assert (R : exists p adj p', CreatePartition 2 1 = Ok p /\
     EdgeListToAdjaArray [(1, 1, qq 1)] (CreateAdjaArray 2 1) p true = Ok (adj, p') /\
     map fst (row adj 1) = [1; 0] /\ this (Qsum snd (row adj 1)) = (1 # 2)%Q /\ this (kk p' 1) = 1%Q).
  { eexists _, _, _. split; [vm_compute; reflexivity|]. split; [vm_compute; reflexivity|].
    split; [vm_compute; reflexivity|]. split; vm_compute; reflexivity. }
  destruct R as (p & adj & p' & R1 & R2 & R3 & R4 & R5).
  exists [(1, 1, qq 1)], 2, p, adj, p'. splits; auto.
  - repeat constructor; lia.
  - exists 1, 0. splits; auto.
    + rewrite R3. simpl; auto.
    + intros a b w [H|[]]. injection H as <- <- _. lia.
    + intros H. rewrite H in R4. rewrite R4 in R5. discriminate.
Qed.

(** ** Merging a module with itself destroys it *)
Theorem MergeModules_same_corrupts : exists (p : partition Qc) p' a,
  valid p /\ a < pM p /\ MergeModules a a p = Ok p' /\ ~ valid p'.
Proof.
  destruct path3_ok as (P1 & P2 & P3 & P4).
  destruct (setup_ok 3 2 path3 [0; 0; 0] p14 adj14 P1 P2 P3) as (V & _ & _ & _ & _ & _ & _ & M & _).
  - lia.
  - lia.
  - repeat constructor.
  - simpl; lia.
  - vm_compute. reflexivity.
  - assert (R : exists p', MergeModules 0 0 p14 = Ok p' /\ group p' 0 = Some 0 /\
                  option_map mfirst (nth_error (pmods p') 0) = Some None).
    { eexists. split; [vm_compute; reflexivity|]. split; vm_compute; reflexivity. }
    destruct R as (p' & R1 & R2 & R3). exists p14, p', 0. splits; try assumption.
    + rewrite M; lia.
    + intros V'. destruct (nth_error (pmods p') 0) as [md|] eqn:Em; [|discriminate]. cbn in R3. injection R3 as R3.
      destruct (valid_lists _ V' 0 md Em) as (l & Hl & _ & _ & _ & Hm). rewrite R3 in Hl. inversion Hl; subst l.
      apply (Hm 0) in R2. destruct R2.
Qed.

(** ** Participation depends on what the caller left in the output array *)
Theorem participation_not_reset : exists (p : partition Qc) adj init conn part x,
  valid p /\ adj_ok adj (pN p) /\ length init = pN p /\ (forall i, positive_row adj i) /\
  PartitionRolesMetrics p adj init = Ok (conn, part) /\ nth_error part 0 = Some x /\ (x < 0)%Qc.
Proof.
  destruct path3_ok as (P1 & P2 & P3 & P4).
  destruct (setup_ok 3 2 path3 [0; 0; 0] p14 adj14 P1 P2 P3) as (V & _ & A & _ & _ & _ & N & M & _).
  - lia.
  - lia.
  - repeat constructor.
  - simpl; lia.
  - vm_compute. reflexivity.
  - assert (R : match PartitionRolesMetrics p14 adj14 [qq 1; qq 1; qq 1] with
               | Ok (_, x :: _) => Qc_ltb x 0%Qc = true | _ => False end) by (vm_compute; reflexivity).
    destruct (PartitionRolesMetrics p14 adj14 [qq 1; qq 1; qq 1]) as [[conn [|x part]]|] eqn:E; try tauto.
    exists p14, adj14, [qq 1; qq 1; qq 1], conn, (x :: part), x. splits; auto.
    + intros i j w H. destruct (row_lt _ _ _ _ _ A H) as [_ Hi]. rewrite N in Hi.
      destruct i as [|[|[|i]]]; [| | |lia]; vm_compute in H; repeat (destruct H as [H|H]; [injection H as <- <-; vm_compute; reflexivity|]); destruct H.
    + apply Qc_ltb_spec. exact R.
Qed.

(** ** One module: the choice of a different module never ends *)
Theorem GeneralSA_one_module_never_returns (p : partition Qc) ls adj fac Ti Tf Ts proba limit ds :
  WF p ls -> 0 < pN p -> pM p = 1 -> nltb Tf Ti = true -> Forall good_draw ds ->
  GeneralSA p adj fac Ti Tf Ts proba limit ds = Err RngOut.
Proof.
  intros W HN HM HT Hd.
  assert (PN : forall l, Forall good_draw l -> pick_newg 1 0 l = Err RngOut).
  { induction l as [|u l IH]; intros H; [reflexivity|]. apply Forall_cons_iff in H as [Hu Hl]. cbn [pick_newg].
    unfold rng_index. specialize (Hu 1 Nat.lt_0_1).
    replace (nfloor (nmul u (nofnat 1))) with 0 by lia. cbn [Nat.eqb]. auto. }
  assert (IM : forall E l, Forall good_draw l -> individual_move adj Ti (p, E) l = Err RngOut).
  { intros E l H. unfold individual_move. destruct l as [|u l]; [reflexivity|]. cbn [draw bind].
    apply Forall_cons_iff in H as [Hu Hl]. unfold rng_index.
    destruct (wf_node _ _ _ W (Hu _ HN)) as (nd & En & _). rewrite (get_ok _ _ _ En). cbn [bind].
    assert (nmod nd = 0) as ->. { pose proof (wf_range _ _ W _ _ En). lia. }
    rewrite HM, PN by auto. reflexivity. }
  unfold GeneralSA. cbn [sa_loop]. rewrite HT.
  destruct (individual_movements fac (pN p)) as [|n] eqn:Eni.
  { unfold individual_movements in Eni. cbv zeta in Eni.
    match type of Eni with (if nltb ?x ?y then _ else _) = _ => destruct (nltb x y) eqn:El; [discriminate|] end.
    cbn [nltb ops0 Qc_ops] in El. apply Qc_ltb_false in El. cbn [nfloor ops0 Qc_ops] in Eni.
    set (x := nmul fac (nofnat (pN p * pN p))) in *. exfalso.
    assert (H : (10 <= Qfloor x)%Z).
    { rewrite <- (Qfloor_Z 10). apply Qfloor_resp_le. unfold Qcle in El.
      eapply Qle_trans; [|exact El]. vm_compute. discriminate. }
    lia. }
  cbn [repeatM spart sE]. rewrite IM by auto. reflexivity.
Qed.
