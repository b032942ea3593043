(** RecSetup.v -- the state in which the samplers of src/recommend.c start: one group per node, with exact tables. *)
From Coq Require Import List Arith ZArith Bool QArith Lia.
From Verif Require Import Base Num ListLib NatSum MatLib GraphModel GraphSpec GraphProof GroupModel GroupSpec GroupProof NetModel NetCopy ToolsModel ToolsProof ModulesModel SAProof
  BipartModel BipartSpec MissModel MissSpec MissStep RecModel RecSpec RecSets RecMem RecLinks RecStep.
Import ListNotations.
Local Open Scope nat_scope.

Lemma colour_seq n i : i < n -> colour (seq 0 n) i = i.
Proof. intros H. unfold colour. now rewrite seq_nth. Qed.
Lemma coloured_seq n : coloured (seq 0 n).
Proof. unfold coloured. rewrite seq_length. apply Forall_forall. intros x Hx. apply in_seq in Hx. lia. Qed.
Lemma csize_ident n k : k < n -> csize (seq 0 n) k = 1.
Proof.
  intros Hk. rewrite csize_seq, seq_length, count_lsum. rewrite (lsum_ext _ (fun i => if i =? k then 1 else 0)).
  - rewrite (lsum_single (fun _ => 1)); auto using seq_NoDup. apply in_seq; lia.
  - intros i Hi. apply in_seq in Hi. rewrite colour_seq by lia. reflexivity.
Qed.

Ltac cj := repeat match goal with |- _ /\ _ => split end.
Lemma F2_length {X Y} (R : X -> Y -> Prop) l l' : Forall2 R l l' -> length l = length l'.
Proof. induction 1; simpl; auto. Qed.
Lemma F2_at {X Y} (R : X -> Y -> Prop) l l' : Forall2 R l l' -> forall i x y, nth_error l i = Some x -> nth_error l' i = Some y -> R x y.
Proof. induction 1; intros [|i] a b E1 E2; try discriminate; cbn in *; [congruence|eauto]. Qed.
Lemma firstn_snoc {X} (l : list X) : forall i p, nth_error l i = Some p -> firstn (i + 1) l = firstn i l ++ [p].
Proof. induction l as [|x l IH]; intros [|i] p E; try discriminate; cbn in *; [congruence|]. f_equal. auto. Qed.

Section Setup.
Context {A : Type} {ops : NumOps A}.
Implicit Types (g : net A) (P : gpart A).

Lemma nonempty_used g s P c : groups_of g s P c -> NNonEmptyGroups P = used c.
Proof.
  intros I. unfold NNonEmptyGroups, used. change (length (filter (fun G : grp A => (0 <? psize G)%Z) P)) with (count (fun G : grp A => (0 <? psize G)%Z) P). rewrite (go_len _ _ _ _ I), <- (go_lab _ _ _ _ I).
  assert (H : forall G, In G P -> psize G = Z.of_nat (csize c (plabel G))).
  { intros G HG. apply In_nth_error in HG as [k EG]. rewrite (go_size _ _ _ _ I k G EG). destruct (go_nth _ _ _ _ k I) as (G' & EG' & <-); [rewrite <- (go_length _ _ _ _ I); eapply nth_lt; eauto|]. congruence. }
  clear I. induction P as [|G Q IH]; auto. cbn [map]. rewrite !count_cons, IH by (intros; apply H; simpl; auto). rewrite (H G) by (simpl; auto).
  destruct (Z.ltb_spec 0 (Z.of_nat (csize c (plabel G)))), (Nat.ltb_spec 0 (csize c (plabel G))); auto; lia.
Qed.

(** One group per node, before any node is placed. *)
Definition empty_group (k : nat) : grp A := mkGroup k 0 0 0 0 n0 n0 n0 [].
Lemma repeat_upd {X} (v : X) n i l : length l = i -> i < n -> upd (map Some l ++ repeat None (n - i)) i (Some v) = map Some (l ++ [v]) ++ repeat None (n - (i + 1)).
Proof.
  intros L Hi. replace (n - i) with (S (n - (i + 1))) by lia. cbn [repeat]. rewrite map_app, <- app_assoc. cbn [map app]. clear Hi. generalize (n - (i + 1)) as r. revert i L. induction l as [|x l IH]; intros [|i] L r; try discriminate; cbn; auto. f_equal. apply IH. auto.
Qed.
Lemma map_side_ok g sA sB : half g sA sB -> map_side g sA = Ok (map Some sA, map Some (seq 0 (length sA)), map empty_group (seq 0 (length sA))).
Proof.
  intros H. unfold map_side. set (n := length sA).
  assert (E : forall l i, sA = firstn i sA ++ l -> i <= n -> length (firstn i sA) = i ->
    foldM (fun '(nl, gl, P) p => do x <- get g p; do nl <- set nl (gnum x) (Some p); let '(k, P) := CreateGroup P (gnum x) in do gl <- set gl (gnum x) (Some k); Ok (nl, gl, P))
      (map Some (firstn i sA) ++ repeat None (n - i), map Some (seq 0 i) ++ repeat None (n - i), map empty_group (seq 0 i)) l =
    Ok (map Some sA, map Some (seq 0 n), map empty_group (seq 0 n))).
  { induction l as [|p l IH]; intros i E Hi Li.
    - rewrite app_nil_r in E. assert (Ei : i = n) by (unfold n; rewrite E at 1; auto). subst i. cbn [foldM]. rewrite Nat.sub_diag. cbn [repeat]. rewrite !app_nil_r. now rewrite <- E.
    - assert (Ep : nth_error sA i = Some p) by (rewrite E, nth_error_app2 by lia; rewrite Li, Nat.sub_diag; reflexivity). assert (Hi' : i < n) by (eapply nth_lt; eauto).
      destruct (hf_num _ _ _ H i p Ep) as (x & Ex & Hx). cbn [foldM]. rewrite (get_ok _ _ _ Ex). cbn [bind]. rewrite Hx.
      rewrite set_ok by (rewrite app_length, map_length, repeat_length; lia). cbn [bind CreateGroup]. rewrite set_ok by (rewrite app_length, map_length, repeat_length, seq_length; lia). cbn [bind].
      rewrite (repeat_upd p n i (firstn i sA)) by auto. rewrite (repeat_upd _ n i (seq 0 i)) by (auto using seq_length).
      assert (Ef : firstn i sA ++ [p] = firstn (i + 1) sA).
      { symmetry. now apply firstn_snoc. }
      rewrite Ef. rewrite map_length, seq_length. replace (seq 0 i ++ [i]) with (seq 0 (i + 1)) by (now rewrite seq_app).
      replace (map empty_group (seq 0 i) ++ [mkGroup i 0 0 0 0 n0 n0 n0 []]) with (map empty_group (seq 0 (i + 1))) by (now rewrite seq_app, map_app).
      apply IH; [|lia|].
      + rewrite <- Ef, <- app_assoc. exact E.
      + rewrite <- Ef, app_length, Li. reflexivity. }
  specialize (E sA 0 eq_refl (Nat.le_0_l _) eq_refl). cbn [firstn map seq app] in E. rewrite Nat.sub_0_r in E. exact E.
Qed.
Lemma reset_side_ok s : forall g, (forall p, In p s -> p < length g) -> exists g', reset_side g s = Ok g' /\ same_but_group g g' /\ (forall j, ~ In j s -> group_of g' j = group_of g j).
Proof.
  unfold reset_side. induction s as [|p s IH]; intros g H; [exists g; splits; auto using sbg_refl|]. cbn [foldM]. destruct (nth_ex g p) as [n En]; [apply H; simpl; auto|].
  assert (E : upd_node g p (set_ggroup None) = Ok (upd g p (set_ggroup None n))) by (unfold upd_node; rewrite (get_ok _ _ _ En); cbn [bind]; rewrite set_ok by (eapply nth_lt; eauto); reflexivity).
  rewrite E. cbn [bind].
  destruct (IH (upd g p (set_ggroup None n))) as (g' & -> & S & G); [intros; rewrite length_upd; apply H; simpl; auto|]. exists g'. splits; auto.
  - eapply sbg_trans; [|exact S]. now apply sbg_group_upd.
  - intros j Hj. rewrite G by (simpl in Hj; tauto). rewrite (group_of_upd g p n None j En). destruct (Nat.eqb_spec j p) as [->|]; auto. exfalso. apply Hj. simpl; auto.
Qed.
(** Each node in its own group. *)
Definition alone (p : nat) (k : nat) (G : grp A) : Prop := plabel G = k /\ psize G = 1%Z /\ exists l, pnodes G = [l] /\ lref l = Some p.
Lemma place_side_ok g sA sB : crossed g sA sB -> exists g' P', place_side (map Some (seq 0 (length sA))) ((g : net A), (map empty_group (seq 0 (length sA)) : gpart A)) sA = Ok (g', P') /\
  groups_of g' sA P' (seq 0 (length sA)) /\ same_but_group g g' /\ (forall j, ~ In j sA -> group_of g' j = group_of g j).
Proof.
  intros C. set (n := length sA). unfold place_side.
  set (Inv := fun i (st : net A * gpart A) => same_but_group g (fst st) /\ length (snd st) = n /\ (forall k p, k < i -> nth_error sA k = Some p -> exists G, nth_error (snd st) k = Some G /\ alone p k G) /\
    (forall k, i <= k -> k < n -> nth_error (snd st) k = Some (empty_group k)) /\ (forall k p, k < i -> nth_error sA k = Some p -> group_of (fst st) p = Some k) /\
    forall j, ~ In j sA -> group_of (fst st) j = group_of g j).
  assert (E : forall l i st, sA = firstn i sA ++ l -> length (firstn i sA) = i -> Inv i st -> exists st',
     foldM (fun '(g, P) p => do n <- get g p; do k <- get (map Some (seq 0 (length sA))) (gnum n); do k <- deref k; AddNodeToGroup (g, P) k p) st l = Ok st' /\ Inv n st').
  { induction l as [|p l IH]; intros i [h P] E Li (S & L & H1 & H2 & H3 & H4); cbn [fst snd] in *.
    - rewrite app_nil_r in E. assert (Ei : i = n) by (unfold n; rewrite E at 1; auto). subst i. cbn [foldM]. eexists. split; [reflexivity|]. unfold Inv; cbn [fst snd]. auto 10.
    - assert (Ep : nth_error sA i = Some p) by (rewrite E, nth_error_app2 by lia; rewrite Li, Nat.sub_diag; reflexivity). assert (Hi : i < n) by (eapply nth_lt; eauto).
      assert (Ch : crossed h sA sB) by (eapply crossed_sbg; eauto). destruct (hf_num _ _ _ (cr_l _ _ _ Ch) i p Ep) as (x & Ex & Hx). cbn [foldM]. rewrite (get_ok _ _ _ Ex). cbn [bind]. rewrite Hx.
      rewrite (get_some (seq 0 (length sA)) i i) by (now rewrite nth_error_seq). cbn [deref bind].
      destruct (Add_light h P i p x (empty_group i) Ex (H2 i (le_n _) Hi) (half_linksok h sA sB p x Ch (nth_error_In _ _ Ep) Ex)) as (h' & G' & EA & L1 & L2 & (lk & L3 & L4) & S' & GO).
      match goal with |- exists st', bind ?m ?f = _ /\ _ => change (exists st', bind (AddNodeToGroup ((h : net A), P) i p) f = Ok st' /\ Inv n st') end. rewrite EA. cbn [bind].
      apply (IH (i + 1)).
      + rewrite E at 1. rewrite (firstn_snoc sA i p Ep), <- app_assoc. reflexivity.
      + rewrite firstn_length. fold n. lia.
      + unfold Inv. cbn [fst snd]. cj; [eapply sbg_trans; eauto|now rewrite length_upd| | | |].
        * intros k q Hk Eq. rewrite nth_upd, L. rewrite (proj2 (Nat.ltb_lt i n) Hi), andb_true_r. destruct (Nat.eqb_spec k i) as [->|]; [|apply H1; auto; lia]. assert (q = p) by congruence. subst q. exists G'. split; auto.
          unfold alone. split; [exact L1|]. split; [rewrite L2; reflexivity|]. exists lk. split; auto.
        * intros k Hk Hkn. rewrite nth_upd. rewrite (proj2 (Nat.eqb_neq k i)) by lia. cbn [andb]. apply H2; lia.
        * intros k q Hk Eq. rewrite GO. destruct (Nat.eqb_spec q p) as [->|Nq]; [f_equal; cbn; apply (nd_pos sA i k p); auto; apply (cr_l _ _ _ C)|]. apply H3; auto. assert (k <> i) by congruence. lia.
        * intros j Hj. rewrite GO. destruct (Nat.eqb_spec j p) as [->|]; [exfalso; apply Hj; eapply nth_error_In; eauto|auto]. }
  destruct (E sA 0 (g, map empty_group (seq 0 n))) as ([g' P'] & E' & S & L & H1 & H2 & H3 & H4); auto.
  { unfold Inv. cbn [fst snd]. cj; auto using sbg_refl; [now rewrite map_length, seq_length|intros; lia| |intros; lia]. intros k _ Hk. rewrite nth_error_map, nth_error_seq by auto. reflexivity. }
  cbn [fst snd] in *. exists g', P'. cj; auto.
  assert (N : forall k G, nth_error P' k = Some G -> k < n /\ exists p, nth_error sA k = Some p /\ alone p k G).
  { intros k G EG. assert (Hk : k < n) by (rewrite <- L; eapply nth_lt; eauto). split; auto. destruct (nth_ex sA k Hk) as [p Ep]. destruct (H1 k p Hk Ep) as (G' & EG' & HG). exists p. split; auto. congruence. }
  split.
  - apply seq_length.
  - apply coloured_seq.
  - apply nth_ext. intros k. rewrite nth_error_map. destruct (Nat.lt_ge_cases k n) as [Hk|Hk].
    + rewrite nth_error_seq by auto. destruct (nth_ex P' k) as [G EG]; [lia|]. rewrite EG. cbn. destruct (N k G EG) as (_ & p & _ & HL & _). now rewrite HL.
    + rewrite (proj2 (nth_error_None P' k)) by lia. symmetry. apply nth_error_None. rewrite seq_length. auto.
  - intros k G EG. destruct (N k G EG) as (Hk & p & Ep & _ & _ & l & El & Er). unfold members. rewrite El. unfold targets. simpl. rewrite Er. repeat constructor. simpl. tauto.
  - intros k G x EG. destruct (N k G EG) as (Hk & p & Ep & _ & _ & l & El & Er). unfold members. rewrite El. unfold targets. simpl. rewrite Er. simpl. split.
    + intros [<-|[]]. exists k. split; auto. now apply colour_seq.
    + intros (i & Ei & Ci). rewrite colour_seq in Ci by (eapply nth_lt; eauto). subst i. left. congruence.
  - intros G l HG Hl. apply In_nth_error in HG as [k EG]. destruct (N k G EG) as (Hk & p & Ep & _ & _ & l' & El & Er). rewrite El in Hl. destruct Hl as [<-|[]]. congruence.
  - intros k G EG. destruct (N k G EG) as (Hk & p & Ep & _ & Hs & _). rewrite Hs. now rewrite csize_ident.
  - intros i p Ep. rewrite colour_seq by (eapply nth_lt; eauto). apply H3; auto. eapply nth_lt; eauto.
Qed.

(** * The tables *)
Lemma fill_tables_ok K n m (f : nat -> nat -> nat -> res nat) F : (forall k i j, k < K -> i < n -> j < m -> f k i j = Ok (F k i j)) -> exists T, fill_tables K n m f = Ok T /\ tab3 K n m T (fun k i j => Z.of_nat (F k i j)).
Proof.
  intros H. unfold fill_tables.
  set (body := fun k => foldM (fun M i => foldM (fun M j => do x <- f k i j; set2 M i j (Z.of_nat x)) M (seq 0 m)) (repeat (repeat 0%Z m) n) (seq 0 n)).
  assert (Hk : forall k, k < K -> exists M, body k = Ok M /\ mat n m M (fun i j => Z.of_nat (F k i j))).
  { intros k Hk. unfold body. apply (mat_fill n m _ _ (fun i j => Z.of_nat (F k i j)) (fun M i j => do x <- f k i j; set2 M i j (Z.of_nat x)) (mat_repeat n m 0%Z)).
    intros i j M f' Hi Hj HM _. rewrite H by auto. cbn [bind]. apply mat_set; auto. }
  assert (E : forall l, (forall k, In k l -> k < K) -> exists T, mapM body l = Ok T /\ Forall2 (fun k M => mat n m M (fun i j => Z.of_nat (F k i j))) l T).
  { induction l as [|k l IH]; intros Hl; [exists []; split; [reflexivity|constructor]|]. destruct (Hk k) as (M & EM & HM); [simpl in Hl; auto|]. destruct IH as (T & ET & HT); [simpl in Hl; auto|].
    exists (M :: T). split; [|constructor; auto]. cbn [mapM]. rewrite EM. cbn [bind]. rewrite ET. reflexivity. }
  destruct (E (seq 0 K)) as (T & ET & HT); [intros k Hin; apply in_seq in Hin; lia|]. exists T. split; [exact ET|]. split; [rewrite <- (F2_length _ _ _ HT); apply seq_length|].
  intros k Hk'. destruct (nth_ex T k) as [M EM]; [rewrite <- (F2_length _ _ _ HT), seq_length; auto|]. exists M. split; auto.
  assert (Ek : nth_error (seq 0 K) k = Some k) by (now rewrite nth_error_seq). exact (F2_at _ _ _ HT k k M Ek EM).
Qed.
Lemma ptr_group_ok g s P c i G : groups_of g s P c -> nth_error P i = Some G -> ptr_group (map Some (seq 0 (length s))) P i = Ok G.
Proof.
  intros I E. unfold ptr_group. rewrite (get_some (seq 0 (length s)) i i) by (rewrite nth_error_seq; auto; rewrite <- (go_length _ _ _ _ I); eapply nth_lt; eauto). cbn [deref bind]. now apply get_ok.
Qed.
Theorem rec_setup_ok K energy tab b ds : bipartite b -> let s1 := bset1 b in let s2 := bset2 b in exists g a1 a2,
  rec_setup K energy tab b ds = (do H <- energy g (sP a1) (sP a2); Ok (mkRec g a1 a2 H tab ds)) /\ same_but_group (bmem b) g /\
  pair_ok K g s1 s2 (ratings (bmem b) s1 s2) (seq 0 (length s1)) (seq 0 (length s2)) a1 a2.
Proof.
  intros B s1 s2. pose proof (bipartite_crossed b B) as C. fold s1 s2 in C. unfold rec_setup. fold s1 s2.
  rewrite (map_side_ok (bmem b) s1 s2 (cr_l _ _ _ C)). cbn [bind]. rewrite (map_side_ok (bmem b) s2 s1 (cr_r _ _ _ C)). cbn [bind].
  assert (HL : forall g sA sB, half g sA sB -> forall p, In p sA -> p < length g) by (intros g sA sB Hh p Hp; apply In_nth_error in Hp as [i Ei]; destruct (hf_num _ _ _ Hh i p Ei) as (x & Ex & _); eapply nth_lt; eauto).
  destruct (reset_side_ok s1 (bmem b) (HL _ _ _ (cr_l _ _ _ C))) as (g1 & -> & S1 & _). cbn [bind]. assert (C1 : crossed g1 s1 s2) by (eapply crossed_sbg; eauto).
  match goal with |- context [place_side _ ?x s1] => change x with ((g1 : net A), (map empty_group (seq 0 (length s1)) : gpart A)) end.
  destruct (place_side_ok g1 s1 s2 C1) as (g2 & P1 & -> & I1 & S2 & _). cbn [bind]. assert (C2 : crossed g2 s1 s2) by (eapply crossed_sbg; eauto).
  destruct (reset_side_ok s2 g2 (HL _ _ _ (cr_r _ _ _ C2))) as (g3 & -> & S3 & G3). cbn [bind]. assert (C3 : crossed g3 s1 s2) by (eapply crossed_sbg; eauto).
  match goal with |- context [place_side _ ?x s2] => change x with ((g3 : net A), (map empty_group (seq 0 (length s2)) : gpart A)) end.
  destruct (place_side_ok g3 s2 s1 (crossed_sym _ _ _ C3)) as (g4 & P2 & -> & I2 & S4 & G4). cbn [bind]. assert (C4 : crossed g4 s1 s2) by (eapply crossed_sbg; eauto).
  assert (I1' : groups_of g4 s1 P1 (seq 0 (length s1))).
  { eapply groups_of_other; [exact I1|]. intros p Hp. rewrite G4, G3; auto; intros Hq; eapply (cr_disj _ _ _ C); eauto. }
  assert (S : same_but_group (bmem b) g4) by (eapply sbg_trans; [exact S1|]; eapply sbg_trans; [exact S2|]; eapply sbg_trans; [exact S3|exact S4]).
  set (R := ratings (bmem b) s1 s2). assert (HR : forall k i j, R k i j = ratings g4 s1 s2 k i j) by (intros; symmetry; apply ratings_sbg; exact S).
  assert (HR' : forall k i j, flip R k i j = ratings g4 s2 s1 k i j).
  { intros k i j. unfold flip. rewrite HR. unfold ratings. destruct (nth_error s1 j), (nth_error s2 i); auto. now rewrite (cr_sym _ _ _ C4). }
  set (c1 := seq 0 (length s1)) in *. set (c2 := seq 0 (length s2)) in *.
  assert (GG : forall k i j, k < K -> i < length s1 -> j < length s2 -> (do G1 <- ptr_group (map Some c1) P1 i; do G2 <- ptr_group (map Some c2) P2 j; NWeightG2GLinks g4 G1 G2 (nofnat k)) = Ok (tally R c1 c2 k i j)).
  { intros k i j _ Hi Hj. destruct (go_nth _ _ _ _ i I1' Hi) as (Gi & EGi & _). destruct (go_nth _ _ _ _ j I2 Hj) as (Gj & EGj & _).
    unfold c1 at 1. rewrite (ptr_group_ok _ _ _ _ _ _ I1' EGi). cbn [bind]. unfold c2 at 1. rewrite (ptr_group_ok _ _ _ _ _ _ I2 EGj). cbn [bind].
    rewrite (NWeightG2G_ok g4 s1 s2 P1 c1 P2 c2 i j Gi Gj k C4 I1' I2 EGi EGj). f_equal. apply tally_ext. intros; symmetry; apply HR. }
  destruct (fill_tables_ok K (length s1) (length s2) _ (tally R c1 c2) GG) as (T12 & -> & HT12). cbn [bind].
  destruct (fill_tables_ok K (length s2) (length s1) _ (fun k j i => tally R c1 c2 k i j) (fun k j i Hk Hj Hi => GG k i j Hk Hi Hj)) as (T21 & -> & HT21). cbn [bind].
  destruct (fill_tables_ok K (length s1) (length s2) (fun k i j => do p <- ptr_node (map Some s1) i; do G <- ptr_group (map Some c2) P2 j; NWeightLinksToGroup g4 p (plabel G) (nofnat k)) (fun k i j => given R c2 k i j)) as (N12 & -> & HN12).
  { intros k i j _ Hi Hj. destruct (nth_ex s1 i Hi) as [p Ep]. unfold ptr_node. rewrite (get_some _ _ _ Ep). cbn [deref bind]. destruct (go_nth _ _ _ _ j I2 Hj) as (Gj & EGj & Lj).
    unfold c2 at 1. rewrite (ptr_group_ok _ _ _ _ _ _ I2 EGj). cbn [bind]. rewrite Lj, (NWeight_ok g4 s1 s2 P2 c2 j i p k C4 I2 Ep). f_equal. apply given_ext. intros; symmetry; apply HR. }
  cbn [bind].
  destruct (fill_tables_ok K (length s2) (length s1) (fun k j i => do p <- ptr_node (map Some s2) j; do G <- ptr_group (map Some c1) P1 i; NWeightLinksToGroup g4 p (plabel G) (nofnat k)) (fun k j i => given (flip R) c1 k j i)) as (N21 & -> & HN21).
  { intros k j i _ Hj Hi. destruct (nth_ex s2 j Hj) as [p Ep]. unfold ptr_node. rewrite (get_some _ _ _ Ep). cbn [deref bind]. destruct (go_nth _ _ _ _ i I1' Hi) as (Gi & EGi & Li).
    unfold c1 at 1. rewrite (ptr_group_ok _ _ _ _ _ _ I1' EGi). cbn [bind]. rewrite Li, (NWeight_ok g4 s2 s1 P1 c1 i j p k (crossed_sym _ _ _ C4) I1' Ep). f_equal. apply given_ext. intros; symmetry; apply HR'. }
  cbn [bind].
  exists g4, (mkSide (length s1) (map Some s1) (map Some c1) P1 (Z.of_nat (NNonEmptyGroups P1)) N12 T12), (mkSide (length s2) (map Some s2) (map Some c2) P2 (Z.of_nat (NNonEmptyGroups P2)) N21 T21).
  cbn [sP]. split; [reflexivity|]. split; [exact S|]. split; auto.
  - split; cbn [sn snl sgl sP sng sN sG]; auto. now rewrite (nonempty_used _ _ _ _ I1').
  - split; cbn [sn snl sgl sP sng sN sG]; auto; [now rewrite (nonempty_used _ _ _ _ I2)|]. eapply tab3_ext; [exact HT21|]. intros k j i _ _ _. cbv beta. now rewrite (tally_flip R).
Qed.
End Setup.
