(** GibbsSets.v -- a node put into any group, its own included: the partition, its energy and the table of links. *)
From Coq Require Import List Arith ZArith Bool QArith Qcanon Lia.
From Verif Require Import Base Num ListLib NatSum QcSum GraphModel GraphSpec GraphProof GroupModel GroupSpec PairSum GroupProof GroupExact MatLib
  ToolsModel ToolsProof ModulesModel SAProof MissModel MissSpec MissSets MissStep MissRun MissExact GibbsSpec.
From Verif Require RecSpec RecGibbs.
Import ListNotations.
Local Open Scope nat_scope.

Section Put.
Variable N : nat.
Implicit Types M : groups.
Lemma put_labels M v w : map fst (put M v w) = map fst M.
Proof. unfold put. rewrite map_map. reflexivity. Qed.
Lemma put_length M v w : length (put M v w) = length M.
Proof. unfold put. apply map_length. Qed.
Lemma nth_put M v w k : assigned N M -> w < N -> nth_members (put M v w) k = if k =? w then remove1 v (nth_members M k) ++ [v] else remove1 v (nth_members M k).
Proof.
  intros HA Hw. destruct (Nat.lt_ge_cases k N) as [Hk|Hk].
  - pose proof (as_nth N M k HA Hk) as E. assert (E' : nth_error (put M v w) k = Some (k, if k =? w then remove1 v (nth_members M k) ++ [v] else remove1 v (nth_members M k))).
    { unfold put. rewrite nth_error_map, E. reflexivity. }
    now rewrite (nth_members_eq _ _ _ _ E').
  - pose proof (as_length N M HA) as L. rewrite !nth_members_out by (rewrite ?put_length; lia). destruct (Nat.eqb_spec k w); [lia|reflexivity].
Qed.
Lemma remove1_absent v S : ~ In v S -> remove1 v S = S.
Proof. intros H. unfold remove1. induction S as [|y S IH]; auto. cbn [filter]. simpl in H. destruct (Nat.eqb_spec y v); [tauto|]. cbn [negb]. f_equal. tauto. Qed.
Lemma put_In M v w k i : assigned N M -> w < N -> In i (nth_members (put M v w) k) <-> (i = v /\ k = w) \/ (i <> v /\ In i (nth_members M k)).
Proof.
  intros HA Hw. rewrite nth_put by auto. destruct (Nat.eqb_spec k w) as [->|H].
  - rewrite in_app_iff, remove1_In. simpl. split; [intros [[? ?]|[<-|[]]]; auto|intros [[-> _]|[? ?]]; auto].
  - rewrite remove1_In. split; [tauto|]. intros [[_ ?]|?]; [congruence|tauto].
Qed.
Lemma put_assigned M v w : assigned N M -> v < N -> w < N -> assigned N (put M v w).
Proof.
  intros HA Hv Hw. pose proof (fun k i => put_In M v w k i HA Hw) as Hi. split.
  - rewrite put_labels. apply HA.
  - intros k. rewrite nth_put by auto. pose proof (remove1_nodup v _ (as_once _ _ HA k)) as ND. destruct (k =? w); auto.
    rewrite <- (rev_involutive (_ ++ [v])), rev_unit. apply NoDup_rev. constructor; [rewrite <- in_rev, remove1_In; tauto|now apply NoDup_rev].
  - intros k l i H1 H2. apply Hi in H1. apply Hi in H2. destruct H1 as [[-> ->]|[N1 H1]], H2 as [[? ->]|[N2 H2]]; auto; try congruence. eapply as_apart; eauto.
  - intros k i H. apply Hi in H as [[-> ->]|[_ H]]; auto. eapply as_range; eauto.
  - intros i Li. destruct (Nat.eq_dec i v) as [->|Nv]; [exists w; apply Hi; auto|]. destruct (as_cover _ _ HA i Li) as [k Hk]. exists k. apply Hi; auto.
Qed.
Lemma groups_ext M M' : map fst M = map fst M' -> (forall k, nth_members M k = nth_members M' k) -> M = M'.
Proof.
  intros EL EM. apply nth_ext. intros k. specialize (EM k). unfold nth_members in EM. assert (EF : nth_error (map fst M) k = nth_error (map fst M') k) by now rewrite EL.
  rewrite !nth_error_map in EF. destruct (nth_error M k) as [[a l]|], (nth_error M' k) as [[a' l']|]; cbn in *; congruence.
Qed.
Lemma moved_put M v o w : assigned N M -> o < N -> w < N -> In v (nth_members M o) -> moved M v o w = put M v w.
Proof.
  intros HA Ho Hw Hv. apply groups_ext.
  - rewrite put_labels. unfold moved. cbn [grop_do]. rewrite (proj2 (mem_In v _) Hv). cbv zeta. now rewrite !labels_set_members.
  - intros k. rewrite nth_put by auto. unfold moved. cbn [grop_do]. rewrite (proj2 (mem_In v _) Hv). cbv zeta. pose proof (as_length N M HA) as L.
    rewrite nth_set_members by (rewrite length_set_members; lia). rewrite !nth_set_members by lia.
    assert (HR : forall k, k <> o -> remove1 v (nth_members M k) = nth_members M k) by (intros j Hj; apply remove1_absent; intros K; apply Hj; eapply as_apart; eauto).
    destruct (Nat.eqb_spec k w) as [->|Hkw]; destruct (Nat.eqb_spec w o) as [->|Hwo]; auto; try (now rewrite HR).
    + destruct (Nat.eqb_spec k o) as [->|Hko]; auto. now rewrite HR.
    + destruct (Nat.eqb_spec k o) as [->|Hko]; auto. now rewrite HR.
Qed.
Lemma occupied_listed (A : Type) (g : net A) M : length g = N -> assigned N M -> listed g M (occupied M).
Proof.
  intros <- HA. unfold occupied. pose proof (as_length _ M HA) as L. rewrite L. split.
  - apply NoDup_filter, seq_NoDup.
  - intros k Hk. apply filter_In in Hk as [Hk _]. apply in_seq in Hk. lia.
  - intros k Hk NE. apply filter_In. split; auto. apply in_seq. lia.
Qed.
Lemma occupied_filled M : assigned N M -> length (occupied M) = filled M.
Proof. intros HA. rewrite (filled_count N M HA). unfold occupied. now rewrite (as_length N M HA). Qed.

Lemma alone_nth k : k < N -> nth_error (alone N) k = Some (k, [k]).
Proof. intros Hk. unfold alone. rewrite nth_error_map, nth_error_seq by auto. reflexivity. Qed.
Lemma alone_members k : nth_members (alone N) k = if k <? N then [k] else [].
Proof.
  destruct (Nat.ltb_spec k N) as [H|H]; [now rewrite (nth_members_eq _ _ _ _ (alone_nth k H))|]. apply nth_members_out. unfold alone. now rewrite map_length, seq_length.
Qed.
Lemma alone_assigned : assigned N (alone N).
Proof.
  split.
  - unfold alone. rewrite map_map. cbn [fst]. apply map_id.
  - intros k. rewrite alone_members. destruct (k <? N); repeat constructor; simpl; tauto.
  - intros k l i. rewrite !alone_members. destruct (k <? N), (l <? N); simpl; intuition congruence.
  - intros k i. rewrite alone_members. destruct (Nat.ltb_spec k N); simpl; intuition congruence.
  - intros i Hi. exists i. rewrite alone_members, (proj2 (Nat.ltb_lt _ _) Hi). simpl; auto.
Qed.
End Put.

(** * A node goes last in its own group *)
Section Same.
Context {A : Type} {ops : NumOps A}.
Variable g : net A.
Hypothesis U : undirected g.
Let N := length g.
Section One.
Variables (M : groups) (v o : nat).
Hypothesis HA : assigned N M.
Hypothesis Ho : o < N.
Hypothesis Hv : In v (nth_members M o).
Let F := nth_members M.
Let F' := nth_members (put M v o).
Lemma own_else k : k <> o -> F' k = F k.
Proof.
  intros H. unfold F', F. rewrite (nth_put N) by auto. rewrite (proj2 (Nat.eqb_neq k o) H). apply remove1_absent. intros K. apply H. eapply as_apart; eauto.
Qed.
Lemma own_here : F' o = remove1 v (F o) ++ [v].
Proof. unfold F', F. rewrite (nth_put N) by auto. now rewrite Nat.eqb_refl. Qed.
Lemma own_len k : length (F' k) = length (F k).
Proof.
  destruct (Nat.eq_dec k o) as [->|H]; [|now rewrite own_else]. rewrite own_here, app_length. cbn [length]. unfold F. rewrite (length_remove1 v (nth_members M o)); auto. apply HA.
Qed.
Lemma own_links k : links_in g (F' k) = links_in g (F k).
Proof.
  destruct (Nat.eq_dec k o) as [->|H]; [|now rewrite own_else]. rewrite own_here. apply (links_ext g). intros i. rewrite in_app_iff, remove1_In. simpl. unfold F.
  destruct (Nat.eq_dec i v) as [->|Hn]; [tauto|]. split; [intros [[? ?]|[?|[]]]; auto; congruence|tauto].
Qed.
Lemma own_across_l k T : across g (F' k) T = across g (F k) T.
Proof.
  destruct (Nat.eq_dec k o) as [->|H]; [|now rewrite own_else]. rewrite own_here, across_snoc. unfold F. rewrite (across_remove g (nth_members M o) T v); auto. apply HA.
Qed.
Lemma own_across k l : across g (F' k) (F' l) = across g (F k) (F l).
Proof. rewrite own_across_l. rewrite (across_sym g _ _ U), own_across_l. apply across_sym; auto. Qed.
Lemma own_nonempty k : nonempty (F' k) = nonempty (F k).
Proof. pose proof (own_len k) as H. destruct (F' k), (F k); cbn in *; auto; lia. Qed.
Lemma own_filled : filled (put M v o) = filled M.
Proof.
  assert (Hvn : v < N) by (eapply as_range; eauto). rewrite (filled_count N M HA), (filled_count N _ (put_assigned N M v o HA Hvn Ho)). apply count_ext. intros k _. apply own_nonempty.
Qed.
Lemma own_table tab : table_exact g M tab -> table_exact g (put M v o) tab.
Proof. intros H. eapply mat_ext; [exact H|]. intros a b _ _. fold (F' a) (F' b) (F a) (F b). now rewrite own_links, own_across. Qed.
End One.
End Same.

(** * The energy *)
Section Own.
Variables ex sq : Qc -> Qc.
Local Instance rops : NumOps Qc := Qc_ops ex sq.
Variable logf : nat -> Qc.
Variable lnchoose : nat -> nat -> Qc.
Variable lnfact : nat -> Qc.
Variable linC : Qc.
Hypothesis log1 : logf 1 = 0%Qc.
Hypothesis choose00 : lnchoose 0 0 = 0%Qc.
Variable g : net Qc.
Hypothesis U : undirected g.
Let N := length g.
Notation energy := (energy logf lnchoose lnfact linC).

Lemma own_energy M v o : assigned N M -> o < N -> In v (nth_members M o) -> energy g (put M v o) = energy g M.
Proof.
  intros HA Ho Hv. assert (Hvn : v < N) by (eapply as_range; eauto). unfold MissSpec.energy. rewrite (own_filled g M v o HA Ho Hv), put_length. do 2 f_equal; [f_equal|].
  - apply Qsum_ext. intros k _. now rewrite (own_nonempty g M v o HA Ho Hv), (own_len g M v o HA Ho Hv), (own_links g M v o HA Ho Hv).
  - apply pair_sum_ext. intros k l _ _. now rewrite !(own_nonempty g M v o HA Ho Hv), !(own_len g M v o HA Ho Hv), (own_across g U M v o HA Ho Hv).
Qed.

(** The change of energy, for any group. *)
Definition change (M : groups) (slg : list nat) (v o w : nat) : Qc := if w =? o then 0%Qc else dH_of logf lnchoose lnfact linC g M slg v o w.
Lemma put_energy M slg v o w : assigned N M -> listed g M slg -> o < N -> w < N -> In v (nth_members M o) ->
  energy g (put M v w) = (energy g M + change M slg v o w)%Qc.
Proof.
  intros HA HL Ho Hw Hv. unfold change. destruct (Nat.eqb_spec w o) as [->|Hne]; [rewrite own_energy by auto; ring|].
  rewrite <- (moved_put N M v o w HA Ho Hw Hv). exact (move_energy ex sq logf lnchoose lnfact linC log1 choose00 g U M slg v o w HA HL Ho Hw (fun e => Hne (eq_sym e)) Hv).
Qed.
(** All empty groups are alike; group [N], which does not exist, stands for them. *)
Lemma dterms_empty M v o w lab : nth_members M w = [] -> lab < N -> length M = N -> dterms g M v o w lab = dterms g M v o N lab.
Proof.
  intros E0 Hl HL. unfold dterms. rewrite E0, (nth_members_out M N) by lia. destruct (nonempty (nth_members M lab)) eqn:NE; auto. destruct (lab =? o); auto.
  destruct (Nat.eqb_spec lab w) as [->|]; [rewrite E0 in NE; discriminate|]. destruct (Nat.eqb_spec lab N); [lia|auto].
Qed.
Lemma dH_empty M slg v o w : nth_members M w = [] -> (forall k, In k slg -> k < N) -> length M = N -> dH_of logf lnchoose lnfact linC g M slg v o w = dH_of logf lnchoose lnfact linC g M slg v o N.
Proof.
  intros E0 Hs HL. unfold dH_of. cbv zeta. rewrite E0, (nth_members_out M N) by lia. cbn [length]. f_equal. f_equal.
  induction slg as [|k slg IH]; auto. cbn [flat_map]. rewrite IH by (intros; apply Hs; simpl; auto). f_equal. apply dterms_empty; auto. apply Hs. simpl; auto.
Qed.
End Own.

(** * The table of links, updated along the shortlist *)
Section Table.
Context {A : Type} {ops : NumOps A}.
Variable g : net A.
Hypothesis U : undirected g.
Let N := length g.
Definition part_of (F : nat -> nat -> Z) (n : nat -> Z) (o w : nat) (D : nat -> bool) (a b : nat) : Z :=
  let z (c : bool) (x : Z) := if c then x else 0%Z in
  if a =? b then (F a b - z ((a =? o) && D a)%nat (n a) + z ((a =? w) && D a)%nat (n a))%Z
  else (F a b - z ((b =? o) && D a)%nat (n a) - z ((a =? o) && D b)%nat (n b) + z ((b =? w) && D a)%nat (n a) + z ((a =? w) && D b)%nat (n b))%Z.
Lemma step_other n2g F n o w D i m : (forall a b, F a b = F b a) -> o < N -> w < N -> o <> w -> i < N -> D i = false -> nth_error n2g i = Some (Some (n i)) ->
  mat N N m (part_of F n o w D) -> exists m', g2g_step n2g o w m i = Ok m' /\ mat N N m' (part_of F n o w (fun x => (x =? i) || D x)).
Proof.
  intros HF Ho Hw Hne Hi HD En Hm. unfold g2g_step. rewrite (get_ok _ _ _ En). cbn [bind written].
  set (f := part_of F n o w D) in *. rewrite (mat_get _ _ _ _ i o Hm) by auto. cbn [bind].
  destruct (mat_set _ _ _ _ i o (f i o - n i)%Z Hm Hi Ho) as (m1 & -> & Hm1). cbn [bind]. rewrite (mat_get _ _ _ _ i o Hm1) by auto. cbn [bind].
  replace (fupd2 f i o (f i o - n i)%Z i o) with (f i o - n i)%Z by (unfold fupd2; now rewrite !Nat.eqb_refl).
  destruct (mat_set _ _ _ _ o i (f i o - n i)%Z Hm1 Ho Hi) as (m2 & -> & Hm2). cbn [bind]. rewrite (mat_get _ _ _ _ i w Hm2) by auto. cbn [bind].
  assert (Ex : fupd2 (fupd2 f i o (f i o - n i)%Z) o i (f i o - n i)%Z i w = f i w).
  { unfold fupd2. destruct (Nat.eqb_spec i o), (Nat.eqb_spec w i), (Nat.eqb_spec i i), (Nat.eqb_spec w o); cbn [andb]; auto; lia. }
  rewrite Ex. destruct (mat_set _ _ _ _ i w (f i w + n i)%Z Hm2 Hi Hw) as (m3 & -> & Hm3). cbn [bind]. rewrite (mat_get _ _ _ _ i w Hm3) by auto. cbn [bind].
  match goal with |- context [set2 m3 w i ?x] => replace x with (f i w + n i)%Z by (unfold fupd2; now rewrite !Nat.eqb_refl) end.
  destruct (mat_set _ _ _ _ w i (f i w + n i)%Z Hm3 Hw Hi) as (m4 & -> & Hm4). exists m4. split; auto. eapply mat_ext; [exact Hm4|].
  intros a b Ha Hb. unfold fupd2. clear - HF Hne HD. unfold f, part_of.
  destruct (Nat.eqb_spec a w), (Nat.eqb_spec b i); cbn [andb];
  destruct (Nat.eqb_spec a i), (Nat.eqb_spec b w); cbn [andb];
  destruct (Nat.eqb_spec a o), (Nat.eqb_spec b o); cbn [andb]; subst; try lia;
  repeat match goal with |- context [?x =? ?y] => destruct (Nat.eqb_spec x y); try lia end; cbn [andb orb]; subst; rewrite ?HD; try lia;
  repeat match goal with |- context [D ?x] => destruct (D x); try lia end;
  try match goal with |- context [F ?x ?y] => rewrite (HF x y) end; try lia.
Qed.
Lemma step_own n2g F n o i m : (forall a b, F a b = F b a) -> o < N -> i < N -> nth_error n2g i = Some (Some (n i)) ->
  mat N N m F -> exists m', g2g_step n2g o o m i = Ok m' /\ mat N N m' F.
Proof.
  intros HF Ho Hi En Hm. unfold g2g_step. rewrite (get_ok _ _ _ En). cbn [bind written]. rewrite (mat_get _ _ _ _ i o Hm) by auto. cbn [bind].
  destruct (mat_set _ _ _ _ i o (F i o - n i)%Z Hm Hi Ho) as (m1 & -> & Hm1). cbn [bind]. rewrite (mat_get _ _ _ _ i o Hm1) by auto. cbn [bind].
  replace (fupd2 F i o (F i o - n i)%Z i o) with (F i o - n i)%Z by (unfold fupd2; now rewrite !Nat.eqb_refl).
  destruct (mat_set _ _ _ _ o i (F i o - n i)%Z Hm1 Ho Hi) as (m2 & -> & Hm2). cbn [bind]. rewrite (mat_get _ _ _ _ i o Hm2) by auto. cbn [bind].
  assert (Ex : fupd2 (fupd2 F i o (F i o - n i)%Z) o i (F i o - n i)%Z i o = (F i o - n i)%Z).
  { unfold fupd2. rewrite !Nat.eqb_refl. cbn [andb]. now destruct (_ && _). }
  rewrite Ex. destruct (mat_set _ _ _ _ i o (F i o - n i + n i)%Z Hm2 Hi Ho) as (m3 & -> & Hm3). cbn [bind]. rewrite (mat_get _ _ _ _ i o Hm3) by auto. cbn [bind].
  match goal with |- context [set2 m3 o i ?x] => replace x with (F i o - n i + n i)%Z by (unfold fupd2; now rewrite !Nat.eqb_refl) end.
  destruct (mat_set _ _ _ _ o i (F i o - n i + n i)%Z Hm3 Ho Hi) as (m4 & -> & Hm4). exists m4. split; auto. eapply mat_ext; [exact Hm4|].
  intros a b Ha Hb. unfold fupd2. clear - HF.
  destruct (Nat.eqb_spec a i), (Nat.eqb_spec b o), (Nat.eqb_spec a o), (Nat.eqb_spec b i); cbn [andb]; subst; try rewrite (HF o i); try lia; pose proof (HF i o); pose proof (HF o i); lia.
Qed.
Lemma table_sym M a b : tabf g M a b = tabf g M b a.
Proof. unfold tabf. rewrite (Nat.eqb_sym b a). destruct (Nat.eqb_spec a b) as [->|]; auto. now rewrite across_sym. Qed.
Lemma g2g_list n2g M slg v o w m : assigned N M -> listed g M slg -> o < N -> w < N -> In v (nth_members M o) ->
  (forall k, In k slg -> nth_error n2g k = Some (Some (Z.of_nat (to_set g v (nth_members M k))))) -> table_exact g M m ->
  exists m', foldM (g2g_step n2g o w) m slg = Ok m' /\ table_exact g (put M v w) m'.
Proof.
  intros HA HL Ho Hw Hv Hn Hm. set (n := fun k => Z.of_nat (to_set g v (nth_members M k))).
  change (mat N N m (tabf g M)) in Hm. change (table_exact g (put M v w)) with (fun m' => mat N N m' (tabf g (put M v w))).
  destruct (Nat.eq_dec o w) as [<-|Hne].
  - assert (H : forall l m, (forall k, In k l -> In k slg) -> mat N N m (tabf g M) -> exists m', foldM (g2g_step n2g o o) m l = Ok m' /\ mat N N m' (tabf g M)).
    { induction l as [|k l IH]; intros m0 Hl Hm0; [exists m0; auto|]. cbn [foldM]. assert (Hk : In k slg) by (apply Hl; simpl; auto).
      destruct (step_own n2g (tabf g M) n o k m0 (table_sym M) Ho (li_lt _ _ _ HL k Hk) (Hn k Hk) Hm0) as (m1 & -> & Hm1). cbn [bind]. apply IH; auto. intros; apply Hl; simpl; auto. }
    destruct (H slg m (fun _ K => K) Hm) as (m' & E & Hm'). exists m'. split; auto. exact (own_table g U M v o HA Ho Hv m' Hm').
  - assert (H : forall l D m, NoDup l -> (forall k, In k l -> In k slg) -> (forall k, In k l -> D k = false) -> mat N N m (part_of (tabf g M) n o w D) ->
      exists m', foldM (g2g_step n2g o w) m l = Ok m' /\ mat N N m' (part_of (tabf g M) n o w (fun x => mem x l || D x))).
    { induction l as [|k l IH]; intros D m0 ND Hl HD Hm0; [exists m0; auto|]. cbn [foldM]. assert (Hk : In k slg) by (apply Hl; simpl; auto). inversion ND; subst.
      destruct (step_other n2g (tabf g M) n o w D k m0 (table_sym M) Ho Hw Hne (li_lt _ _ _ HL k Hk) (HD k (or_introl eq_refl)) (Hn k Hk) Hm0) as (m1 & -> & Hm1). cbn [bind].
      destruct (IH (fun x => (x =? k) || D x) m1) as (m2 & E & Hm2); auto.
      - intros; apply Hl; simpl; auto.
      - intros x Hx. destruct (Nat.eqb_spec x k) as [->|]; [contradiction|]. apply HD. simpl; auto.
      - exists m2. split; auto. eapply mat_ext; [exact Hm2|]. intros a b _ _. unfold part_of, mem. cbn [existsb]. 
        assert (ED : forall x, existsb (Nat.eqb x) l || ((x =? k) || D x) = (x =? k) || existsb (Nat.eqb x) l || D x) by (intros x; destruct (existsb _ l), (x =? k); reflexivity). now rewrite !ED. }
    destruct (H slg (fun _ => false) m) as (m' & E & Hm'); auto.
    + apply HL.
    + eapply mat_ext; [exact Hm|]. intros a b _ _. unfold part_of. rewrite !andb_false_r. destruct (a =? b); lia.
    + exists m'. split; auto. eapply mat_ext; [exact Hm'|]. intros a b Ha Hb.
      assert (Hz : forall k, k < N -> mem k slg = false -> n k = 0%Z).
      { intros k Hk Hf. unfold n. destruct (nonempty (nth_members M k)) eqn:NE.
        - exfalso. pose proof (li_all _ _ _ HL k Hk NE) as K. apply (proj2 (mem_In _ _)) in K. congruence.
        - destruct (nth_members M k); [reflexivity|discriminate]. }
      rewrite <- (moved_put N M v o w HA Ho Hw Hv), <- (part_way_end g U M v o w a b HA Ho Hw Hne Hv Ha Hb). fold N. unfold part_of, part_way. fold (n a) (n b).
      rewrite (proj2 (Nat.ltb_lt a N) Ha), (proj2 (Nat.ltb_lt b N) Hb), !andb_true_r, !orb_false_r.
      pose proof (Hz a Ha). pose proof (Hz b Hb).
      destruct (mem a slg) eqn:Ea, (mem b slg) eqn:Eb; rewrite ?andb_true_r, ?andb_false_r; auto; repeat match goal with K : ?x = ?x -> _ |- _ => specialize (K eq_refl) end;
        destruct (a =? b), (a =? o), (b =? o), (a =? w), (b =? w); lia.
Qed.
End Table.
