(** StatProof.v -- clustering coefficients and square clustering. *)
From Coq Require Import List Arith Lia ZArith Bool QArith Qcanon Permutation.
From Verif Require Import Base Num ListLib NatSum QcSum IoModel GraphModel GraphSpec GraphProof BfsModel BfsProof RolesBounds GraphSim BtwCount BtwSearch StatModel StatSpec.
Import ListNotations.
Local Open Scope nat_scope.

Section Lists.
Lemma filter_swap (l m : list nat) : NoDup l -> NoDup m -> length (filter (fun x => mem x m) l) = length (filter (fun x => mem x l) m).
Proof.
  intros H1 H2. apply Permutation_length. apply NoDup_Permutation; [now apply NoDup_filter|now apply NoDup_filter|].
  intros x. rewrite !filter_In, !mem_In. tauto.
Qed.
Lemma prod_count (f : nat -> nat -> bool) l m : length (filter (fun '(u, w) => f u w) (list_prod l m)) = lsum (fun u => length (filter (f u) m)) l.
Proof.
  induction l as [|u l IH]; cbn [list_prod lsum]; auto. rewrite filter_app, app_length, IH. f_equal. clear. induction m as [|w m IH]; cbn; auto. destruct (f u w); cbn; now rewrite IH.
Qed.
Lemma filter_positions {X} (c : X -> bool) (l : list X) : forall a, length (filter (fun p => match nth_error l (p - a) with Some e => c e | None => false end) (seq a (length l))) = length (filter c l).
Proof.
  induction l as [|x l IH]; intros a; cbn [length seq filter]; auto. rewrite Nat.sub_diag. cbn [nth_error].
  specialize (IH (S a)). rewrite (filter_ext_in _ (fun p => match nth_error l (p - S a) with Some e => c e | None => false end)).
  - destruct (c x); cbn [length]; now rewrite IH.
  - intros p Hp. apply in_seq in Hp. replace (p - a) with (S (p - S a)) by lia. reflexivity.
Qed.
End Lists.

Section Neig.
Context {A : Type} {ops : NumOps A}.
Variable g : net A.
Hypothesis U : undirected g.
Let W := un_wf g U.
Notation N := (length g).

Lemma nbrs_range i j : In j (nbrs g i) -> i < N /\ j < N.
Proof. intros H. split; [|eapply nbrs_lt; eauto]. unfold nbrs in H. destruct (nth_error g i) eqn:E; [eapply nth_lt; eauto|destruct H]. Qed.
Lemma nbrs_sym i j : In j (nbrs g i) <-> In i (nbrs g j).
Proof. rewrite !nbrs_weight. now rewrite (un_sym g U i j). Qed.

(** The list after the first round: the node and its neighbours. *)
Lemma first_round i g1 : i < N -> same_but_state g g1 -> exists g' q, Enqueue (ResetNodesState g1, CreateHeaderList) i None 0 = Ok (g', q) /\ bsize q = 1 /\
  exists g2 q2 e l, RenewQueue (length g1 + 1) (g', q) 0 0 = Ok ((g2, q2), 1) /\ bq q2 = e :: l /\ bref e = i /\ OI g i 1 1 g2 q2 /\ Permutation (refs l) (nbrs g i).
Proof.
  intros Hi S1. destruct (start g i Hi g1 S1) as (g' & q & E & O). exists g', q. split; auto.
  assert (Lq : length (bq q) = 1).
  { destruct (oi_first _ _ _ _ _ _ O) as (e & He & Re & _). destruct (bq q) as [|e0 [|e1 l]] eqn:Q; [discriminate|reflexivity|exfalso].
    assert (P1 : bref e1 = i). { assert (H : In e1 (bq q)) by (rewrite Q; right; left; auto). pose proof (oi_path _ _ _ _ _ _ O e1 H) as P. rewrite (oi_todo _ _ _ _ _ _ O 1 e1) in P; [inversion P; auto| |lia]. rewrite Q. reflexivity. }
    pose proof (oi_nodup _ _ _ _ _ _ O) as ND. rewrite Q in ND. cbn in ND, He. injection He as ->. inversion ND as [|? ? H _]; subst. apply H. left. auto. }
  split; [rewrite (oi_size _ _ _ _ _ _ O); exact Lq|].
  destruct (round g W i 0 0 g' q (length g1 + 1) O) as (g2 & q2 & new & E2 & Q2 & O2 & BN); [rewrite (sbs_length _ _ S1); lia|].
  rewrite Lq in *. destruct (bq q) as [|e [|? ?]] eqn:Q; try discriminate. destruct (oi_first _ _ _ _ _ _ O2) as (e' & He & Re & De). rewrite Q2 in He. cbn in He. injection He as <-.
  exists g2, q2, e, new. splits; auto. pose proof (oi_nodup _ _ _ _ _ _ O2) as ND. rewrite Q2 in ND. cbn in ND. inversion ND as [|? ? H1 H2]; subst.
  apply NoDup_Permutation; auto; [apply (wf_nodup g W)|]. intros w. split.
  - intros Hw. apply in_map_iff in Hw as (f & <- & Hf). assert (Hin : In f (bq q2)) by (rewrite Q2; right; auto). pose proof (oi_path _ _ _ _ _ _ O2 f Hin) as P.
    rewrite (BN f Hf) in P. inversion P as [|? ? u ? P0 H]; subst. inversion P0; subst. auto.
  - intros Hw. destruct (oi_closed _ _ _ _ _ _ O2 0 e w) as (f & Hf & <- & _); [rewrite Q2; reflexivity|lia|auto|].
    rewrite Q2 in Hf. destruct Hf as [<-|Hf]; [exfalso; apply (un_loop g U (bref e)); auto|now apply in_map].
Qed.
Lemma neig_list_spec i g1 : i < N -> same_but_state g g1 -> exists g2 q, neig_list (g1, CreateHeaderList) i = Ok (g2, q) /\ same_but_state g g2 /\
  bsize q = degree g i /\ bsize q = length (bq q) /\ Permutation (refs (bq q)) (nbrs g i) /\ marked g2 (i :: refs (bq q)).
Proof.
  intros Hi S1. destruct (first_round i g1 Hi S1) as (g' & q & E & _ & g2 & q2 & e & l & E2 & Q2 & Re & O & P).
  unfold neig_list. rewrite E. cbn [bind]. rewrite E2. cbn [bind snd fst]. unfold Dequeue. rewrite Q2. pose proof (oi_size _ _ _ _ _ _ O) as Sz. rewrite Q2 in Sz. cbn in Sz. rewrite Sz. cbn [dec bind].
  exists g2, (mkQ l (length l)). splits; auto; [apply O| |].
  - cbn. unfold degree. rewrite <- (Permutation_length P). unfold refs. now rewrite map_length.
  - cbn. pose proof (oi_mark _ _ _ _ _ _ O) as M. rewrite Q2 in M. cbn in M. now rewrite Re in M.
Qed.
Lemma sum_common g3 l u : same_but_state g g3 -> marked g3 l -> u < N -> SumCommonLinks g3 u = Ok (length (filter (fun w => mem w l) (nbrs g u))).
Proof.
  intros S M Hu. unfold SumCommonLinks. assert (Hu3 : u < length g3) by now rewrite (sbs_length _ _ S). destruct (nth_ex g3 u Hu3) as [n En]. rewrite (get_ok _ _ _ En). cbn [bind].
  assert (E : nbrs g u = targets (gadj n)). { rewrite <- (sbs_nbrs _ _ u S). unfold nbrs. now rewrite En. } rewrite E.
  assert (W3 : wf_net g3) by (eapply sbs_wf; eauto).
  assert (LK : forall l0, In l0 (gadj n) -> exists j m, lref l0 = Some j /\ nth_error g3 j = Some m). { intros l0 H. destruct (wf_link g3 W3 _ _ _ En H) as (j & m & H1 & H2 & _). eauto. }
  clear E. assert (G : forall (ls : list (link A)) c, (forall l0, In l0 ls -> exists j m, lref l0 = Some j /\ nth_error g3 j = Some m) ->
    foldM (fun sum l0 => do j <- deref (lref l0); do m <- get g3 j; Ok (if gstate m =? 1 then sum + 1 else sum)) c ls = Ok (c + length (filter (fun w => mem w l) (targets ls)))).
  { induction ls as [|x ls IH]; intros c H; cbn [foldM]; [f_equal; cbn; lia|]. destruct (H x) as (j & m & Ex & Em); [left; auto|]. rewrite Ex. cbn [deref bind]. rewrite (get_ok _ _ _ Em). cbn [bind].
    rewrite IH by (intros; apply H; right; auto). f_equal. cbn [targets flat_map]. rewrite Ex. cbn [app filter]. rewrite (M _ _ Em). fold (targets ls). destruct (mem j l); cbn [length Nat.eqb]; lia. }
  rewrite G; auto.
Qed.
Lemma links_between g3 q i : same_but_state g g3 -> marked g3 (refs (bq q)) -> Permutation (refs (bq q)) (nbrs g i) ->
  CalculateLinksBetweenNeig q g3 = Ok (closed_pairs g i).
Proof.
  intros S M P. unfold CalculateLinksBetweenNeig.
  assert (R : forall e, In e (bq q) -> bref e < N). { intros e He. eapply nbrs_range. apply (Permutation_in _ P). now apply in_map. }
  assert (G : forall l c, (forall e, In e l -> bref e < N) -> foldM (fun sum e => do k <- SumCommonLinks g3 (bref e); Ok (sum + k)) c l = Ok (c + lsum (fun u => length (filter (fun w => mem w (refs (bq q))) (nbrs g u))) (refs l))).
  { induction l as [|e l IH]; intros c H; cbn [foldM refs map lsum]; [f_equal; lia|]. rewrite (sum_common g3 (refs (bq q))) by (auto; apply H; left; auto). cbn [bind]. rewrite IH by (intros; apply H; right; auto). f_equal. unfold refs. lia. }
  rewrite G by auto. f_equal. cbn [Nat.add]. unfold closed_pairs. rewrite prod_count, (lsum_perm _ _ _ P). apply lsum_ext. intros u _.
  rewrite (filter_swap (nbrs g i) (nbrs g u)) by apply (wf_nodup g W). f_equal. apply filter_ext. intros w. destruct (mem_spec w (refs (bq q))) as [H|H], (mem_spec w (nbrs g i)) as [H'|H']; auto; exfalso.
  - apply H'. apply (Permutation_in _ P H).
  - apply H. apply (Permutation_in _ (Permutation_sym P) H').
Qed.
Lemma unmark g2 i l : same_but_state g g2 -> i < N -> marked g2 (i :: l) -> ~ In i l -> exists g3, upd_node g2 i (set_gstate 0) = Ok g3 /\ same_but_state g g3 /\ marked g3 l.
Proof.
  intros S Hi M Hl. assert (Hi2 : i < length g2) by now rewrite (sbs_length _ _ S). destruct (nth_ex g2 i Hi2) as [n En]. unfold upd_node. rewrite (get_ok _ _ _ En). cbn [bind]. rewrite set_ok by auto.
  eexists. splits; [reflexivity|eapply sbs_trans; [exact S|now apply sbs_upd]|]. intros v m. rewrite nth_upd. destruct (Nat.eqb_spec v i) as [->|Hne]; cbn [andb].
  - rewrite (proj2 (Nat.ltb_lt _ _) Hi2). intros [= <-]. cbn. destruct (mem_spec i l); tauto.
  - intros H. rewrite (M _ _ H). cbn [mem existsb]. destruct (Nat.eqb_spec v i); [congruence|reflexivity].
Qed.
(** One node, as the three functions do it. *)
Lemma node_step i g1 : i < N -> same_but_state g g1 -> exists g2 q, neig_list (g1, CreateHeaderList) i = Ok (g2, q) /\ bsize q = degree g i /\ ClearList q = Ok CreateHeaderList /\
  same_but_state g g2 /\ exists g3, upd_node g2 i (set_gstate 0) = Ok g3 /\ same_but_state g g3 /\ CalculateLinksBetweenNeig q g3 = Ok (closed_pairs g i).
Proof.
  intros Hi S1. destruct (neig_list_spec i g1 Hi S1) as (g2 & q & E & S2 & K & L & P & M). exists g2, q. splits; auto; [now apply ClearList_ok|].
  destruct (unmark g2 i (refs (bq q)) S2 Hi M) as (g3 & E3 & S3 & M3).
  - intros H. apply (un_loop g U i). apply (Permutation_in _ P H).
  - exists g3. splits; auto. now apply links_between.
Qed.
Lemma closed_le v : closed_pairs g v <= open_pairs g v.
Proof.
  unfold closed_pairs, open_pairs. rewrite prod_count. transitivity (lsum (fun _ => degree g v - 1) (nbrs g v)); [|rewrite lsum_const; unfold degree; lia].
  apply lsum_le. intros u Hu. apply in_split in Hu as (a & b & E). unfold degree. rewrite E, filter_app, !app_length. cbn [filter length].
  assert (M : mem u (nbrs g u) = false) by (destruct (mem_spec u (nbrs g u)) as [H|]; auto; exfalso; eapply un_loop; eauto). rewrite M.
  pose proof (count_le (fun w => mem w (nbrs g u)) a). pose proof (count_le (fun w => mem w (nbrs g u)) b). unfold count in *. lia.
Qed.
Lemma open_pos v : 2 <= degree g v <-> 0 < open_pairs g v.
Proof. unfold open_pairs. destruct (degree g v) as [|[|k]]; simpl; lia. Qed.
(** ** Squares *)
Lemma In_refs l w : In w (refs l) -> exists e, In e l /\ bref e = w.
Proof. intros H. apply in_map_iff in H as (e & <- & He). eauto. Qed.
Lemma second_In v w : In w (second g v) <-> w < N /\ w <> v /\ ~ In w (nbrs g v) /\ exists u, In u (nbrs g v) /\ In w (nbrs g u).
Proof.
  unfold second, common. rewrite filter_In, in_seq, !andb_true_iff, !negb_true_iff, Nat.eqb_neq, Nat.ltb_lt. destruct (mem_spec w (nbrs g v)) as [H|H]; split.
  - intros (_ & (_ & Hm) & _). discriminate.
  - intros (_ & _ & H' & _). tauto.
  - intros (H1 & (H2 & _) & H3). splits; auto; [lia|]. destruct (filter _ (nbrs g v)) as [|u l] eqn:E; [cbn in H3; lia|]. assert (Hu : In u (filter (fun u => mem w (nbrs g u)) (nbrs g v))) by (rewrite E; left; auto).
    apply filter_In in Hu as [Hu Hw]. apply mem_In in Hw. eauto.
  - intros (H1 & H2 & _ & u & Hu & Hw). splits; auto; [lia|]. assert (Hf : In u (filter (fun u => mem w (nbrs g u)) (nbrs g v))) by (apply filter_In; split; auto; now apply mem_In).
    destruct (filter _ (nbrs g v)); [destruct Hf|cbn; lia].
Qed.
Lemma second_round i g1 g2 q2 e l : same_but_state g g1 -> bq q2 = e :: l -> OI g i 1 1 g2 q2 -> Permutation (refs l) (nbrs g i) ->
  exists g3 q3 m, RenewQueue (length g1 + 1) (g2, q2) 1 1 = Ok ((g3, q3), length (bq q2)) /\ bq q3 = e :: l ++ m /\ same_but_state g g3 /\ bsize q3 = length (bq q3) /\
    Permutation (refs m) (second g i) /\ (forall x, In x m -> CountPredecessors x = common g i (bref x)) /\ (forall x, In x l -> bd x = 1) /\ (forall x, In x m -> bd x = 2).
Proof.
  intros S1 Q O P.
  assert (Hlen : length (bq q2) <= N).
  { assert (NoDup (refs (bq q2))) by apply O. assert (incl (refs (bq q2)) (seq 0 N)). { intros w Hw. destruct (In_refs _ _ Hw) as (f & Hf & <-). apply in_seq. pose proof (oi_lt _ _ _ _ _ _ O f Hf). lia. }
    pose proof (NoDup_incl_length H H0) as L. unfold refs in L. rewrite map_length, seq_length in L. exact L. }
  destruct (round g W i 1 1 g2 q2 (length g1 + 1) O) as (g3 & q3 & m & E3 & Q3 & O3 & B3); [rewrite (sbs_length _ _ S1); lia|].
  exists g3, q3, m. rewrite Q in Q3. cbn [app] in Q3. rewrite Q in O3. cbn [length Nat.add] in O3, B3.
  assert (De : bd e = 0 /\ bref e = i). { destruct (oi_first _ _ _ _ _ _ O) as (e' & He & Re & De). rewrite Q in He. injection He as <-. auto. } destruct De as [De Re].
  assert (Bl : forall x, In x l -> bd x = 1). { intros x Hx. apply In_nth_error in Hx as [p Hp]. apply (oi_todo _ _ _ _ _ _ O (Datatypes.S p)); [rewrite Q; exact Hp|lia]. }
  pose proof (oi_nodup _ _ _ _ _ _ O3) as ND. rewrite Q3 in ND. cbn [refs map] in ND. unfold refs in ND. rewrite map_app in ND. fold (refs l) (refs m) in ND.
  splits; auto; [apply O3|apply O3| |].
  - apply NoDup_Permutation; [|apply NoDup_filter, seq_NoDup|].
    + inversion ND as [|? ? _ ND2]; subst. apply NoDup_rev in ND2. rewrite rev_app_distr in ND2. apply BtwSearch.NoDup_app_l in ND2. apply NoDup_rev in ND2. now rewrite rev_involutive in ND2.
    + intros w. rewrite second_In. split.
      * intros Hw. destruct (In_refs _ _ Hw) as (f & Hf & <-). assert (Hin : In f (bq q3)) by (rewrite Q3; right; apply in_or_app; auto).
        pose proof (oi_distance _ _ _ _ _ _ _ O3 Hin) as D. rewrite (B3 f Hf) in D. splits; [apply (oi_lt _ _ _ _ _ _ O3 f Hin)| | |].
        -- intros E. destruct D as [DP DM]. rewrite E in DM. assert (2 <= 0); [|lia]. apply DM. constructor. destruct (path_lt _ W _ _ _ DP). lia.
        -- intros E. destruct D as [DP DM]. assert (2 <= 1); [|lia]. apply DM. econstructor; [constructor|exact E]. apply (path_lt _ W _ _ _ DP).
        -- destruct D as [DP _]. inversion DP as [|? ? u ? P1 H1]; subst. inversion P1 as [|? ? u' ? P0 H0]; subst. inversion P0; subst. eauto.
      * intros (Hw & Hne & Hn & u & Hu & Hwu). apply (Permutation_in _ (Permutation_sym P)) in Hu. destruct (In_refs _ _ Hu) as (f & Hf & <-). apply In_nth_error in Hf as [p Hp].
        destruct (oi_closed _ _ _ _ _ _ O3 (Datatypes.S p) f w) as (f' & Hf' & <- & _); auto.
        -- rewrite Q3. cbn. rewrite nth_error_app1 by (eapply nth_lt; eauto). auto.
        -- apply nth_lt in Hp. lia.
        -- rewrite Q3 in Hf'. destruct Hf' as [<-|Hf']; [congruence|]. apply in_app_or in Hf' as [Hf'|Hf']; [|now apply in_map].
           exfalso. apply Hn. apply (Permutation_in _ P). now apply in_map.
  - intros x Hx. assert (Hin : In x (bq q3)) by (rewrite Q3; right; apply in_or_app; auto). pose proof (oi_pred _ _ _ _ _ _ O3 x Hin) as Px. unfold preds_of in Px. rewrite (B3 x Hx) in Px. cbn [Nat.add] in Px.
    assert (C : CountPredecessors x = length (bpred x)). { unfold CountPredecessors. rewrite Px. destruct (filter _ _); reflexivity. }
    rewrite C, Px, map_length. rewrite (filter_ext _ (fun p => match nth_error (bq q3) (p - 0) with Some e' => (bd e' =? 1) && mem (bref x) (nbrs g (bref e')) | None => false end)) by (intros p; now rewrite Nat.sub_0_r).
    rewrite (filter_positions (fun e' => (bd e' =? 1) && mem (bref x) (nbrs g (bref e'))) (bq q3) 0), Q3. cbn [filter]. rewrite De. cbn [Nat.eqb andb]. rewrite filter_app, app_length.
    rewrite (filter_none _ m). 2:{ intros y Hy. rewrite (B3 y Hy). reflexivity. } cbn [length]. rewrite Nat.add_0_r.
    unfold common. change (length (filter (fun u => mem (bref x) (nbrs g u)) (nbrs g i))) with (count (fun u => mem (bref x) (nbrs g u)) (nbrs g i)). rewrite !count_lsum, <- (lsum_perm _ _ _ P), <- count_lsum.
    unfold count, refs. clear - Bl. induction l as [|y l IH]; auto. cbn [filter map]. rewrite (Bl y) by (left; auto). cbn [Nat.eqb andb]. destruct (mem (bref x) (nbrs g (bref y))); cbn [length]; rewrite IH; auto; intros z Hz; apply Bl; right; auto.
Qed.
Lemma first_neighbors_ok l m : (forall x, In x l -> bd x = 1) -> (forall x, In x m -> bd x = 2) -> forall k, first_neighbors (l ++ m) k = if length m =? 0 then Err UB_null else Ok (m, k + length l).
Proof.
  intros Hl Hm. induction l as [|x l IH]; intros k; cbn [app first_neighbors length].
  - destruct m as [|y m]; cbn; auto. rewrite (Hm y) by (left; auto). cbn. now rewrite Nat.add_0_r.
  - rewrite (Hl x) by (left; auto). cbn [Nat.ltb Nat.leb]. rewrite IH by (intros; apply Hl; right; auto). destruct (length m =? 0); auto. do 2 f_equal. lia.
Qed.
Definition square_sum v : nat := lsum (fun w => common g v w * (common g v w - 1)) (second g v).
Lemma square_counts_ok i q e l m : bq q = e :: l ++ m -> Permutation (refs l) (nbrs g i) -> Permutation (refs m) (second g i) ->
  (forall x, In x m -> CountPredecessors x = common g i (bref x)) -> (forall x, In x l -> bd x = 1) -> (forall x, In x m -> bd x = 2) ->
  square_counts q = if length (second g i) =? 0 then Err UB_null else Ok (degree g i, length (second g i), square_sum i).
Proof.
  intros Q P1 P2 C Hl Hm. unfold square_counts. rewrite Q, first_neighbors_ok by auto.
  assert (L1 : length l = degree g i) by (unfold degree; rewrite <- (Permutation_length P1); unfold refs; now rewrite map_length).
  assert (L2 : length m = length (second g i)) by (rewrite <- (Permutation_length P2); unfold refs; now rewrite map_length).
  rewrite <- L2. destruct (length m =? 0); auto. cbn [bind Nat.add].
  assert (G : forall ls a b, (forall x, In x ls -> CountPredecessors x = common g i (bref x)) -> fold_left (fun '(k2, cv) e => let npre := CountPredecessors e in (k2 + 1, cv + npre * (npre - 1))) ls (a, b) = (a + length ls, b + lsum (fun w => common g i w * (common g i w - 1)) (refs ls))).
  { induction ls as [|x ls IH]; intros a b H; cbn [fold_left length refs map lsum]; [f_equal; lia|]. cbv zeta. rewrite IH by (intros; apply H; right; auto). rewrite (H x) by (left; auto). unfold refs. f_equal; lia. }
  rewrite G by auto. unfold square_sum. rewrite <- (lsum_perm _ _ _ P2). cbn [Nat.add]. now rewrite L1.
Qed.
Lemma square_le v : square_sum v <= length (second g v) * degree g v * (degree g v - 1).
Proof.
  unfold square_sum. transitivity (lsum (fun _ => degree g v * (degree g v - 1)) (second g v)); [|rewrite lsum_const; lia].
  apply lsum_le. intros w _. assert (common g v w <= degree g v) by apply count_le. apply Nat.mul_le_mono; lia.
Qed.
End Neig.

Section Exact.
Variables ex sq : Qc -> Qc.
#[local] Instance opsS : NumOps Qc := Qc_ops ex sq.
Variable g : net Qc.
Hypothesis U : undirected g.
Notation N := (length g).


Lemma mean_bounds {X} (f : X -> Qc) l : l <> [] -> (forall x, In x l -> 0 <= f x /\ f x <= 1)%Qc -> (0 <= Qsum f l / Qc_of_nat (length l) /\ Qsum f l / Qc_of_nat (length l) <= 1)%Qc.
Proof.
  intros Hl H. assert (P : (0 < Qc_of_nat (length l))%Qc) by (apply Qc_of_nat_pos; destruct l; [congruence|simpl; lia]).
  assert (H0 : (0 <= Qsum f l)%Qc) by (apply Qsum_nonneg; intros x Hx; apply (H x Hx)).
  assert (H1 : (Qsum f l <= Qc_of_nat (length l))%Qc). { replace (Qc_of_nat (length l)) with (Qsum (fun _ => 1%Qc) l) by (rewrite Qsum_const; ring). apply Qsum_le. intros x Hx. apply (H x Hx). }
  split; [|now apply Qc_div_le_1]. apply (Qcmult_lt_0_le_reg_r _ _ (Qc_of_nat (length l))); auto. unfold Qcdiv. rewrite <- Qcmult_assoc, Qcmult_inv_l by (now apply Qc_neq_pos). now rewrite Qcmult_1_r, Qcmult_0_l.
Qed.
Lemma local_bounds v : 2 <= degree g v -> (0 <= local_clustering g v /\ local_clustering g v <= 1)%Qc.
Proof. intros H. apply Qc_ratio; [now apply closed_le|now apply open_pos]. Qed.

Theorem clustering_spec : branching g <> [] ->
  exists g', ClusteringCoefficient g = Ok (mean_clustering g, g') /\ same_but_state g g' /\ (0 <= mean_clustering g /\ mean_clustering g <= 1)%Qc.
Proof.
  intros HB. unfold ClusteringCoefficient, CountNodes.
  set (I := fun k (st : Qc * nat * net Qc * bfs) => let '(c, nodes, g1, q) := st in same_but_state g g1 /\ q = CreateHeaderList /\
     c = Qsum (local_clustering g) (filter (fun v => 2 <=? degree g v) (seq 0 k)) /\ nodes + k = N + length (filter (fun v => 2 <=? degree g v) (seq 0 k))).
  match goal with |- context [foldM ?f ?s ?l] => destruct (foldM_seq I f N s) as ((((c & nodes) & g1) & q) & E & S1 & -> & -> & EN) end.
  - unfold I. split; [reflexivity|]. split; [reflexivity|]. split; [reflexivity|cbn; lia].
  - intros i (((c & nodes) & g1) & q) Hi (S1 & -> & -> & EN). destruct (node_step g U i g1 Hi S1) as (g2 & q & E1 & K & CL & S2 & g3 & E3 & S3 & C). 
    rewrite E1. cbn [bind]. rewrite K.
    assert (FS : filter (fun v => 2 <=? degree g v) (seq 0 (i + 1)) = filter (fun v => 2 <=? degree g v) (seq 0 i) ++ (if 2 <=? degree g i then [i] else [])).
    { rewrite seq_app, filter_app. cbn. now destruct (degree g i) as [|[|k]]. }
    destruct (Nat.ltb_spec 1 (degree g i)) as [H|H]; rewrite ?E3; cbn [bind]; rewrite ?C; cbn [bind]; rewrite CL; cbn [bind]; (eexists; split; [reflexivity|]); unfold I; rewrite FS.
    + rewrite (proj2 (Nat.leb_le 2 (degree g i)) H), Qsum_app, app_length. splits; auto; [|cbn [length]; lia]. cbn [Qsum fold_right]. unfold local_clustering at 3. cbn. unfold open_pairs. ring.
    + rewrite (proj2 (Nat.leb_gt 2 (degree g i))) by lia. rewrite app_nil_r. splits; auto.
      pose proof (count_le (fun v => 2 <=? degree g v) (seq 0 i)) as CL2. unfold count in CL2. rewrite seq_length in CL2. lia.
  - rewrite E. cbn [bind]. exists g1. fold (branching g) in *. assert (EN' : nodes = length (branching g)) by (unfold branching in *; lia). rewrite EN'. splits; auto; apply mean_bounds; auto; intros x Hx; apply filter_In in Hx as [_ Hx]; apply Nat.leb_le in Hx; now apply local_bounds.
Qed.
Lemma Qsum_nats {X} (f : X -> nat) l : Qsum (fun x => Qc_of_nat (f x)) l = Qc_of_nat (lsum f l).
Proof. induction l as [|x l IH]; cbn [lsum Qsum fold_right]; [reflexivity|]. rewrite Qc_of_nat_add, <- IH. reflexivity. Qed.
Theorem transitivity_spec : branching g <> [] ->
  exists g', ClusteringCoefficient2 g = Ok (transitivity g, g') /\ same_but_state g g' /\ (0 <= transitivity g /\ transitivity g <= 1)%Qc.
Proof.
  intros HB. unfold ClusteringCoefficient2, CountNodes.
  set (I := fun k (st : nat * nat * net Qc * bfs) => let '(a, b, g1, q) := st in same_but_state g g1 /\ q = CreateHeaderList /\
     a = lsum (closed_pairs g) (seq 0 k) /\ b = lsum (open_pairs g) (seq 0 k)).
  match goal with |- context [foldM ?f ?s ?l] => destruct (foldM_seq I f N s) as ((((a & b) & g1) & q) & E & S1 & -> & -> & ->) end.
  - unfold I. split; [reflexivity|]. split; [reflexivity|]. split; reflexivity.
  - intros i (((a & b) & g1) & q) Hi (S1 & -> & -> & ->). destruct (node_step g U i g1 Hi S1) as (g2 & q & E1 & K & CL & S2 & g3 & E3 & S3 & C). 
    rewrite E1. cbn [bind]. rewrite K.
    destruct (Nat.ltb_spec 1 (degree g i)) as [H|H]; rewrite ?E3; cbn [bind]; rewrite ?C; cbn [bind]; rewrite CL; cbn [bind]; (eexists; split; [reflexivity|]); unfold I; rewrite seq_app, !lsum_app; cbn [seq lsum Nat.add].
    + unfold open_pairs at 2. splits; auto; lia.
    + assert (O0 : open_pairs g i = 0) by (destruct (Nat.eq_dec (open_pairs g i) 0); auto; exfalso; assert (2 <= degree g i) by (apply open_pos; lia); lia).
      pose proof (closed_le g U i). splits; auto; lia.
  - rewrite E. cbn [bind]. exists g1. unfold transitivity. rewrite !Qsum_nats. splits; auto.
    + apply Qc_ratio; [apply lsum_le; intros; now apply closed_le|].
      destruct (branching g) as [|v l] eqn:EB; [congruence|]. assert (Hv : In v (branching g)) by (rewrite EB; left; auto). apply filter_In in Hv as [Hv H2]. apply Nat.leb_le, open_pos in H2.
      apply in_split in Hv as (x & y & ->). rewrite lsum_app. cbn [lsum]. lia.
    + apply Qc_ratio; [apply lsum_le; intros; now apply closed_le|].
      destruct (branching g) as [|v l] eqn:EB; [congruence|]. assert (Hv : In v (branching g)) by (rewrite EB; left; auto). apply filter_In in Hv as [Hv H2]. apply Nat.leb_le, open_pos in H2.
      apply in_split in Hv as (x & y & ->). rewrite lsum_app. cbn [lsum]. lia.
Qed.
Theorem node_clustering_spec i : i < N ->
  exists g', OneNodeClusteringCoefficient g i = Ok (if 2 <=? degree g i then local_clustering g i else (- (1))%Qc, g') /\ same_but_state g g'.
Proof.
  intros Hi. unfold OneNodeClusteringCoefficient. destruct (node_step g U i g Hi eq_refl) as (g2 & q & E1 & K & CL & S2 & g3 & E3 & S3 & C).
  rewrite E1. cbn [bind]. rewrite K. destruct (Nat.ltb_spec 1 (degree g i)) as [H|H].
  - rewrite E3. cbn [bind]. rewrite C. cbn [bind]. rewrite (proj2 (Nat.leb_le 2 (degree g i)) H). exists g3. split; auto. f_equal. f_equal. unfold local_clustering, open_pairs. rewrite Qc_of_nat_mul. reflexivity.
  - rewrite (proj2 (Nat.leb_gt 2 (degree g i))) by lia. exists g2. split; auto.
Qed.

Lemma squares_at_eq v : squares_at g v = (Qc_of_nat (square_sum g v) / Qc_of_nat (length (second g v) * degree g v * (degree g v - 1)))%Qc.
Proof. unfold squares_at, square_sum. now rewrite Qsum_nats. Qed.
Lemma squares_bounds v : 2 <= degree g v -> second g v <> [] -> (0 <= squares_at g v /\ squares_at g v <= 1)%Qc.
Proof.
  intros H H2. rewrite squares_at_eq. apply Qc_ratio; [apply square_le|]. destruct (second g v) as [|w l]; [congruence|]. cbn [length]. destruct (degree g v) as [|[|k]]; lia.
Qed.

Theorem square_clustering_spec : 2 <= N ->
  match SquareClustering g with
  | Ok (x, g') => same_but_state g g' /\ (forall v, v < N -> degree g v + 1 < N -> second g v <> []) /\ (square_nodes g <> [] -> x = mean_squares g /\ (0 <= x /\ x <= 1)%Qc)
  | Err e => e = UB_null /\ exists v, v < N /\ degree g v + 1 < N /\ second g v = []
  end.
Proof.
  intros HN. unfold SquareClustering, CountNodes.
  set (sn := fun v => (2 <=? degree g v) && (degree g v + 1 <? N)).
  set (I := fun k (st : option Qc * Qc * nat * net Qc * bfs) => let '(r, c, nodes, g1, q) := st in r = None /\ same_but_state g g1 /\ q = CreateHeaderList /\
     c = Qsum (squares_at g) (filter sn (seq 0 k)) /\ nodes + k = N + length (filter sn (seq 0 k)) /\ (forall v, v < k -> degree g v + 1 < N -> second g v <> [])).
  match goal with |- context [foldM ?f ?s ?l] => assert (F := foldM_seq_safe I (fun e => e = UB_null /\ exists v, v < N /\ degree g v + 1 < N /\ second g v = []) f N s) end.
  match type of F with ?P -> ?Q -> _ => assert (F1 : P); [|assert (F2 : Q); [|specialize (F F1 F2)]] end.
  - unfold I. repeat (split; [reflexivity|]). intros; lia.
  - intros i ((((r & c) & nodes) & g1) & q) Hi (-> & S1 & -> & -> & EN & SN).
    destruct (first_round g U i g1 Hi S1) as (g' & q & E & K & g2 & q2 & e & l & E2 & Q2 & Re & O & P).
    rewrite E. cbn [bind snd]. rewrite K. rewrite (proj2 (Nat.ltb_lt 1 N)) by lia. rewrite E2. cbn [bind snd fst].
    pose proof (oi_size _ _ _ _ _ _ O) as Sz. assert (Sz' := Sz). rewrite Q2 in Sz'. cbn [length] in Sz'. assert (Ll : length l = degree g i) by (unfold degree; rewrite <- (Permutation_length P); unfold refs; now rewrite map_length).
    rewrite Ll in Sz'.
    assert (FS : filter sn (seq 0 (i + 1)) = filter sn (seq 0 i) ++ (if sn i then [i] else [])).
    { rewrite seq_app, filter_app. cbn. now destruct (sn i). }
    assert (SI : sn i = (2 <=? degree g i) && (degree g i + 1 <? N)) by reflexivity. rewrite SI in FS.
    rewrite Sz'. destruct (Nat.ltb_spec (S (degree g i)) N) as [H|H].
    + destruct (second_round g U i g1 g2 q2 e l S1 Q2 O P) as (g3 & q3 & m & E3 & Q3 & S3 & Z3 & P3 & C3 & B1 & B2).
      rewrite E3. cbn [bind snd]. rewrite (square_counts_ok g i q3 e l m Q3 P P3 C3 B1 B2). destruct (Nat.eqb_spec (length (second g i)) 0) as [H0|H0]; cbn [bind].
      * split; auto. exists i. splits; auto; [lia|]. now apply length_zero_iff_nil.
      * assert (SN' : forall v, v < i + 1 -> degree g v + 1 < N -> second g v <> []). { intros v Hv Hd. destruct (Nat.eq_dec v i) as [->|]; [intros E0; rewrite E0 in H0; cbn in H0; lia|]. apply SN; auto. lia. }
        destruct (Nat.ltb_spec 1 (degree g i)) as [H1|H1]; cbn [bind snd fst]; rewrite (ClearList_ok _ Z3); cbn [bind]; unfold I; rewrite FS.
        -- rewrite (proj2 (Nat.leb_le 2 (degree g i)) H1), (proj2 (Nat.ltb_lt (degree g i + 1) N)) by lia. cbn [andb]. rewrite Qsum_app, app_length. splits; auto; [|cbn [length]; lia]. cbn [Qsum fold_right]. rewrite (squares_at_eq i). cbn. ring.
        -- rewrite (proj2 (Nat.leb_gt 2 (degree g i))) by lia. cbn [andb]. rewrite app_nil_r. splits; auto. lia.
    + cbn [bind snd fst]. rewrite (ClearList_ok _ Sz). cbn [bind]. unfold I. rewrite FS. rewrite (proj2 (Nat.ltb_ge (degree g i + 1) N)) by lia. rewrite andb_false_r, app_nil_r. splits; auto; [apply O|lia|].
      intros v Hv Hd. destruct (Nat.eq_dec v i) as [->|]; [lia|]. apply SN; auto. lia.
  - match goal with |- context [foldM ?f ?s ?l] => destruct (foldM f s l) as [((((r & c) & nodes) & g1) & q)|e] end; [|exact F]. cbn [bind].
    destruct F as (-> & S1 & -> & -> & EN & SN). fold (square_nodes g) in *. assert (EN' : nodes = length (square_nodes g)) by (unfold square_nodes, sn in *; lia). rewrite EN'. splits; auto.
    intros H0. split; [reflexivity|]. apply mean_bounds; auto. intros v Hv. apply filter_In in Hv as [Hv Hv']. unfold sn in Hv'. apply andb_true_iff in Hv' as [H1 H2]. apply Nat.leb_le in H1. apply Nat.ltb_lt in H2. apply in_seq in Hv. apply squares_bounds; auto. apply SN; auto. lia.
Qed.

(** In a connected network every node has a node two steps away or is linked to all. *)
Lemma connected_second : (forall i j, i < N -> j < N -> reachable g i j) -> forall v, v < N -> degree g v + 1 < N -> second g v <> [].
Proof.
  intros C v Hv Hd E. pose proof (un_wf g U) as W.
  assert (X : exists t, t < N /\ t <> v /\ ~ In t (nbrs g v)).
  { destruct (existsb (fun t => negb (mem t (v :: nbrs g v))) (seq 0 N)) eqn:B.
    - apply existsb_exists in B as (t & Ht & B). apply in_seq in Ht. rewrite negb_true_iff in B. exists t. destruct (mem_spec t (v :: nbrs g v)) as [|Hm]; [discriminate|]. cbn in Hm. splits; [lia|intros ->; tauto|tauto].
    - exfalso. assert (incl (seq 0 N) (v :: nbrs g v)). { intros t Ht. destruct (mem_spec t (v :: nbrs g v)) as [|Hm]; auto. exfalso. assert (existsb (fun t => negb (mem t (v :: nbrs g v))) (seq 0 N) = true); [|congruence]. apply existsb_exists. exists t. split; auto. rewrite negb_true_iff. destruct (mem_spec t (v :: nbrs g v)); tauto. }
      pose proof (NoDup_incl_length (seq_NoDup N 0) H) as L. rewrite seq_length in L. cbn in L. unfold degree in Hd. lia. }
  destruct X as (t & Ht & Hne & Hnn). destruct (C v t Hv Ht) as [d P]. destruct (exists_distance g W _ _ _ P) as [n D].
  assert (G : forall n t, distance g v t (S (S n)) -> exists u, distance g v u 2).
  { clear - W. induction n as [|n IH]; intros t D; eauto. apply (distance_pred) in D as (u & D & _); eauto. }
  destruct n as [|[|n]].
  - destruct D as [D _]. inversion D; subst. congruence.
  - destruct D as [D _]. inversion D as [|? ? u ? P0 H0]; subst. inversion P0; subst. auto.
  - destruct (G n t D) as [w Dw]. assert (In w (second g v)); [|rewrite E in *; auto]. apply second_In. destruct Dw as [P2 M2]. splits.
    + apply (path_lt g W _ _ _ P2).
    + intros ->. assert (2 <= 0); [|lia]. apply M2. now constructor.
    + intros H. assert (2 <= 1); [|lia]. apply M2. econstructor; [now constructor|auto].
    + inversion P2 as [|? ? u ? P1 H1]; subst. inversion P1 as [|? ? u' ? P0 H0]; subst. inversion P0; subst. eauto.
Qed.
Theorem square_clustering_connected : 2 <= N -> (forall i j, i < N -> j < N -> reachable g i j) -> exists x g', SquareClustering g = Ok (x, g').
Proof.
  intros HN C. pose proof (square_clustering_spec HN) as H. destruct (SquareClustering g) as [(x & g')|e]; [eauto|]. destruct H as (_ & v & H1 & H2 & H3). exfalso. revert H3. now apply connected_second.
Qed.
End Exact.

Section Exact2.
Variables ex sq : Qc -> Qc.
#[local] Instance opsT : NumOps Qc := Qc_ops ex sq.

Lemma same_links_second (g g' : net Qc) v : same_links g g' -> length g' = length g -> second g' v = second g v /\ squares_at g' v = squares_at g v.
Proof.
  intros (_ & _ & Nb & _) L. assert (C : forall w, common g' v w = common g v w) by (intros w; unfold common; rewrite Nb; f_equal; apply filter_ext; intros u; now rewrite Nb).
  assert (E2 : second g' v = second g v) by (unfold second; rewrite L; apply filter_ext; intros w; now rewrite Nb, C).
  split; auto. unfold squares_at, degree. rewrite E2, Nb. f_equal. apply Qsum_ext. intros w _. now rewrite C.
Qed.
Theorem node_squares_spec (g : net Qc) i : undirected g -> i < length g ->
  exists x g', OneNodeSquareClustering g i = Ok (x, g') /\ length g' = length g /\ (forall a, nbrs g' a = nbrs g a) /\
    x = if degree g i =? 0 then (- (1))%Qc else if length (second g i) =? 0 then (- Qc_of_nat 3)%Qc else if degree g i =? 1 then (- Qc_of_nat 2)%Qc else squares_at g i.
Proof.
  intros U Hi. unfold OneNodeSquareClustering. destruct (NodeDegree_spec g i (un_wf g U) Hi) as (g0 & E0 & SL). fold (same_links g g0) in SL. rewrite E0. cbn [bind].
  assert (L0 : length g0 = length g) by (symmetry; apply same_nodes_length; apply SL). assert (Nb : forall a, nbrs g0 a = nbrs g a) by apply SL.
  assert (U0 : undirected g0) by (eapply same_links_undirected; eauto). destruct (same_links_second g g0 i SL L0) as [E2 ES]. assert (D0 : degree g0 i = degree g i) by now apply same_links_degree.
  destruct (degree g i =? 0) eqn:D; [do 2 eexists; splits; [reflexivity|auto|auto|apply Qc_is_canon; reflexivity]|]. apply Nat.eqb_neq in D.
  assert (Hi0 : i < length g0) by lia.
  destruct (first_round g0 U0 i g0 Hi0 eq_refl) as (g' & q & E & K & g2 & q2 & e & l & E3 & Q2 & Re & O & P). rewrite E. cbn [bind]. rewrite E3. cbn [bind snd fst].
  destruct (second_round g0 U0 i g0 g2 q2 e l eq_refl Q2 O P) as (g3 & q3 & m & E4 & Q3 & S3 & Z3 & P3 & C3 & B1 & B2). rewrite E4. cbn [bind snd fst].
  assert (L3 : length g3 = length g) by (rewrite (sbs_length _ _ S3); auto). assert (Nb3 : forall a, nbrs g3 a = nbrs g a) by (intros a; rewrite (sbs_nbrs _ _ a S3); auto).
  assert (Lm : length m = length (second g i)) by (rewrite <- E2, <- (Permutation_length P3); unfold refs; now rewrite map_length).
  rewrite (oi_size _ _ _ _ _ _ O), Z3, Q2, Q3. cbn [length]. rewrite app_length, Lm.
  destruct (Nat.eqb_spec (length (second g i)) 0) as [H|H].
  - rewrite (proj2 (Nat.eqb_eq _ _)) by lia. do 2 eexists. splits; [reflexivity|auto|auto|apply Qc_is_canon; reflexivity].
  - rewrite (proj2 (Nat.eqb_neq _ _)) by lia. rewrite (square_counts_ok g0 i q3 e l m Q3 P P3 C3 B1 B2), E2, D0, (proj2 (Nat.eqb_neq _ _) H). cbn [bind].
    destruct (Nat.leb_spec (degree g i) 1) as [H1|H1].
    + rewrite (proj2 (Nat.eqb_eq (degree g i) 1)) by lia. do 2 eexists. splits; [reflexivity|auto|auto|apply Qc_is_canon; reflexivity].
    + rewrite (proj2 (Nat.eqb_neq (degree g i) 1)) by lia. do 2 eexists. splits; [reflexivity|auto|auto|]. rewrite <- ES, squares_at_eq, E2, D0, !Qc_of_nat_mul. reflexivity.
Qed.
End Exact2.
