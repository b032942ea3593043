(** GraphProof.v -- the elementary operations of src/graph.c on networks. *)
From Coq Require Import List Arith Lia Bool Permutation QArith.
From Verif Require Import Base ListLib IoModel GraphModel GraphSpec.
Import ListNotations.
Local Open Scope nat_scope.

Section Graph.
Context {A : Type} {ops : NumOps A}.
Implicit Types g : net A.
Implicit Types ls : list (link A).

(** ** Lists of links *)
Definition linked_ok ls : Prop := Forall (fun l => exists j, lref l = Some j) ls.

Lemma targets_app ls ls' : targets (ls ++ ls') = targets ls ++ targets ls'.
Proof. apply flat_map_app. Qed.
Lemma targets_length ls : linked_ok ls -> length (targets ls) = length ls.
Proof. induction 1 as [|l ls [j E] H IH]; simpl; auto. rewrite E. simpl. auto. Qed.
Lemma targets_In ls j : In j (targets ls) <-> exists l, In l ls /\ lref l = Some j.
Proof.
  unfold targets. rewrite in_flat_map. split; intros (l & H & E); exists l; split; auto.
  - destruct (lref l); simpl in E; [|tauto]. destruct E as [->|[]]; auto.
  - rewrite E. simpl; auto.
Qed.
Lemma eq_ref_true o j : eq_ref o j = true <-> o = Some j.
Proof. destruct o as [k|]; simpl; [|split; discriminate]. rewrite Nat.eqb_eq. split; congruence. Qed.
Lemma weight_in_cons l ls j : weight_in (l :: ls) j = if eq_ref (lref l) j then Some (lweight l) else weight_in ls j.
Proof. unfold weight_in. simpl. unfold eq_ref. destruct (lref l); auto. destruct (_ =? _); auto. Qed.
Lemma weight_in_None ls j : weight_in ls j = None <-> ~ In j (targets ls).
Proof.
  induction ls as [|l ls IH]; [simpl; tauto|]. rewrite weight_in_cons. destruct (eq_ref (lref l) j) eqn:E.
  - apply eq_ref_true in E. simpl. rewrite E. simpl. split; [discriminate|intros H; exfalso; apply H; auto].
  - rewrite IH. simpl. rewrite in_app_iff. destruct (lref l) as [k|] eqn:El; simpl in *; [|tauto].
    apply Nat.eqb_neq in E. intuition congruence.
Qed.
Lemma weight_in_Some ls j : In j (targets ls) <-> exists w, weight_in ls j = Some w.
Proof.
  destruct (weight_in ls j) as [w|] eqn:E.
  - split; eauto. intros _. destruct (in_dec Nat.eq_dec j (targets ls)); auto. apply weight_in_None in n. congruence.
  - apply weight_in_None in E. split; [tauto|intros [w H]; discriminate].
Qed.
Lemma existsb_ref ls j : existsb (fun l => eq_ref (lref l) j) ls = true <-> In j (targets ls).
Proof. rewrite existsb_exists, targets_In. split; intros (l & H & E); exists l; split; auto; apply eq_ref_true; auto. Qed.

Lemma add_link_spec aw w new j ls : lref new = Some j -> lweight new = w ->
  let '(ls', r) := add_link aw w new j ls in
  (forall x, weight_in ls' x = if x =? j then match weight_in ls j with Some w0 => Some (if aw then nadd w0 w else w0) | None => Some w end
                               else weight_in ls x) /\
  targets ls' = (if in_dec Nat.eq_dec j (targets ls) then targets ls else targets ls ++ [j]) /\
  r = (if in_dec Nat.eq_dec j (targets ls) then aw else true) /\
  (forall l, In l ls' -> l = new \/ exists l0, In l0 ls /\ lref l = lref l0 /\ lnode l = lnode l0 /\ llabel l = llabel l0) /\
  (linked_ok ls -> linked_ok ls').
Proof.
  intros En Ew. induction ls as [|l ls IH]; cbn [add_link].
  - splits; auto.
    + intros x. rewrite weight_in_cons, En. simpl. rewrite (Nat.eqb_sym j x). rewrite Ew. auto.
    + simpl. rewrite En. auto.
    + intros l [<-|[]]; auto.
    + intros _. constructor; eauto.
  - destruct (eq_ref (lref l) j) eqn:E.
    + assert (Hin : In j (targets (l :: ls))). { apply eq_ref_true in E. simpl. rewrite E. simpl; auto. }
      destruct (in_dec Nat.eq_dec j (targets (l :: ls))) as [_|]; [|tauto]. destruct aw.
      * splits; auto.
        -- intros x. rewrite !weight_in_cons. cbn [lref lweight]. rewrite E. apply eq_ref_true in E. rewrite E. simpl.
           rewrite (Nat.eqb_sym j x). destruct (x =? j); auto.
        -- intros l0 [<-|H0]; right; [exists l|exists l0]; simpl; auto.
        -- intros H. inversion H; subst. constructor; auto.
      * splits; auto.
        -- intros x. rewrite !weight_in_cons, E. destruct (Nat.eqb_spec x j) as [->|]; [now rewrite E|auto].
        -- intros l0 H0. right. exists l0. auto.
    + destruct (add_link aw w new j ls) as [ls' r]. destruct IH as (I1 & I2 & I3 & I4 & I5).
      assert (Hin : In j (targets (l :: ls)) <-> In j (targets ls)).
      { simpl. rewrite in_app_iff. destruct (lref l) as [k|]; simpl in *; [|tauto]. apply Nat.eqb_neq in E. intuition congruence. }
      splits.
      * intros x. rewrite !weight_in_cons. rewrite I1, E. destruct (Nat.eqb_spec x j) as [->|]; auto. now rewrite E.
      * simpl. simpl in Hin. rewrite I2. destruct (in_dec Nat.eq_dec j (targets ls)), (in_dec Nat.eq_dec j _); try tauto; auto. now rewrite app_assoc.
      * rewrite I3. destruct (in_dec Nat.eq_dec j (targets ls)), (in_dec Nat.eq_dec j _); tauto.
      * intros l0 [<-|H]; [right; exists l; simpl; auto|]. destruct (I4 l0 H) as [|(l1 & H1 & H2)]; auto. right. exists l1. simpl; auto.
      * intros H. inversion H; subst. constructor; auto. apply I5; auto.
Qed.

Lemma del_link_spec j ls : In j (targets ls) -> NoDup (targets ls) -> exists ls', del_link j ls = Ok ls' /\
  (forall x, weight_in ls' x = if x =? j then None else weight_in ls x) /\
  Permutation (targets ls) (j :: targets ls') /\ (forall l, In l ls' -> In l ls) /\ S (length ls') = length ls.
Proof.
  induction ls as [|l ls IH]; intros Hin ND; [destruct Hin|]. cbn [del_link]. destruct (eq_ref (lref l) j) eqn:E.
  - apply eq_ref_true in E. simpl in ND. rewrite E in ND. simpl in ND. inversion ND; subst.
    exists ls. splits; auto.
    + intros x. rewrite weight_in_cons, E. simpl. rewrite (Nat.eqb_sym j x). destruct (Nat.eqb_spec x j) as [->|]; auto. now apply weight_in_None.
    + simpl. rewrite E. simpl. auto.
    + intros; simpl; auto.
  - destruct IH as (ls' & E' & H1 & H2 & H3 & H4).
    + simpl in Hin. rewrite in_app_iff in Hin. destruct Hin as [Hin|]; auto. destruct (lref l) as [k|]; simpl in *; [|tauto].
      apply Nat.eqb_neq in E. destruct Hin as [->|[]]. congruence.
    + simpl in ND. apply NoDup_app_iff in ND. tauto.
    + rewrite E'. cbn [bind]. exists (l :: ls'). splits; auto.
      * intros x. rewrite !weight_in_cons, H1. destruct (Nat.eqb_spec x j) as [->|]; auto. now rewrite E.
      * simpl. destruct (lref l) as [k|]; simpl; auto. rewrite perm_swap. constructor. auto.
      * intros l0 [<-|H]; simpl; auto.
      * simpl. auto.
Qed.
Lemma del_link_missing j ls : ~ In j (targets ls) -> del_link j ls = Err UB_null.
Proof.
  induction ls as [|l ls IH]; intros H; auto. cbn [del_link]. destruct (eq_ref (lref l) j) eqn:E.
  - apply eq_ref_true in E. exfalso. apply H. simpl. rewrite E. simpl; auto.
  - rewrite IH; auto. intros Hi. apply H. simpl. apply in_app_iff. auto.
Qed.

(** ** Networks *)
Lemma wf_linked g i n : wf_net g -> nth_error g i = Some n -> linked_ok (gadj n).
Proof. intros W E. apply Forall_forall. intros l Hl. destruct (wf_link g W i n l E Hl) as (j & m & H & _). eauto. Qed.
Lemma nbrs_eq g i n : nth_error g i = Some n -> nbrs g i = targets (gadj n).
Proof. unfold nbrs. now intros ->. Qed.
Lemma weight_eq g i n j : nth_error g i = Some n -> weight g i j = weight_in (gadj n) j.
Proof. unfold weight. now intros ->. Qed.
Lemma nbrs_lt g i j : wf_net g -> In j (nbrs g i) -> i < length g /\ j < length g.
Proof.
  intros W H. unfold nbrs in H. destruct (nth_error g i) as [n|] eqn:E; [|destruct H]. split; [eapply nth_lt; eauto|].
  apply targets_In in H as (l & Hl & El). destruct (wf_link g W i n l E Hl) as (j' & m & E1 & E2 & _).
  rewrite El in E1. injection E1 as <-. eapply nth_lt; eauto.
Qed.
Lemma nbrs_weight g i j : In j (nbrs g i) <-> weight g i j <> None.
Proof.
  unfold nbrs, weight. destruct (nth_error g i) as [n|]; [|simpl; intuition congruence].
  rewrite weight_in_Some. destruct (weight_in (gadj n) j); split; try congruence; eauto. intros [w E]; discriminate.
Qed.
Lemma degree_adj g i n : wf_net g -> nth_error g i = Some n -> degree g i = length (gadj n).
Proof. intros W E. unfold degree. rewrite (nbrs_eq g i n E). apply targets_length. eapply wf_linked; eauto. Qed.

Lemma undirected_sym g i j : undirected g -> In j (nbrs g i) -> In i (nbrs g j).
Proof. intros U. rewrite !nbrs_weight. rewrite (un_sym g U i j). auto. Qed.

Lemma same_nodes_refl g : same_nodes g g.
Proof. unfold same_nodes. induction g; constructor; auto 10. Qed.
Lemma same_nodes_trans g1 g2 g3 : same_nodes g1 g2 -> same_nodes g2 g3 -> same_nodes g1 g3.
Proof.
  unfold same_nodes. intros H. revert g3. induction H; intros g3 H3; inversion H3; subst; constructor; auto.
  destruct H as (? & ? & ? & ? & ?), H4 as (? & ? & ? & ? & ?). splits; congruence.
Qed.
Lemma same_nodes_length g g' : same_nodes g g' -> length g = length g'.
Proof. unfold same_nodes. induction 1; simpl; auto. Qed.
Lemma same_nodes_upd g i n m : nth_error g i = Some n ->
  glabel n = glabel m -> gnum n = gnum m -> gstate n = gstate m -> ggroup n = ggroup m -> gdvar n = gdvar m -> same_nodes g (upd g i m).
Proof.
  unfold same_nodes. revert i. induction g as [|a g IH]; intros [|i] E H1 H2 H3 H4 H5; simpl in *; try discriminate.
  - injection E as ->. constructor; auto 10. apply same_nodes_refl.
  - constructor; eauto 10.
Qed.
Lemma same_nodes_nth g g' i n : same_nodes g g' -> nth_error g i = Some n -> exists m, nth_error g' i = Some m /\
  glabel n = glabel m /\ gnum n = gnum m /\ gstate n = gstate m /\ ggroup n = ggroup m /\ gdvar n = gdvar m.
Proof.
  unfold same_nodes. intros H. revert i. induction H; intros [|i] E; simpl in *; try discriminate.
  - injection E as <-. eauto.
  - eauto.
Qed.

(** Changing the links and caches of one node. *)
Lemma wf_upd g i n m : wf_net g -> nth_error g i = Some n ->
  glabel m = glabel n -> gnum m = gnum n -> NoDup (targets (gadj m)) -> (gdeg m = 0 \/ gdeg m = length (gadj m)) ->
  (forall l, In l (gadj m) -> exists j k, lref l = Some j /\ nth_error g j = Some k /\ lnode l = j /\ llabel l = glabel k) ->
  wf_net (upd g i m).
Proof.
  intros W E H1 H2 H3 H4 H5. assert (Li : i < length g) by (eapply nth_lt; eauto).
  assert (Lab : forall j k, nth_error g j = Some k -> exists k', nth_error (upd g i m) j = Some k' /\ glabel k' = glabel k).
  { intros j k Ek. rewrite nth_upd. destruct (Nat.eqb_spec j i) as [->|]; simpl; [|eauto].
    rewrite (proj2 (Nat.ltb_lt _ _) Li). exists m. split; auto. congruence. }
  split.
  - intros k x. rewrite nth_upd. destruct (Nat.eqb_spec k i) as [->|]; simpl; [|apply wf_num; auto].
    rewrite (proj2 (Nat.ltb_lt _ _) Li). intros [= <-]. rewrite H2. eapply wf_num; eauto.
  - intros k x l. rewrite nth_upd. destruct (Nat.eqb_spec k i) as [->|]; simpl.
    + rewrite (proj2 (Nat.ltb_lt _ _) Li). intros [= <-] Hl. destruct (H5 l Hl) as (j & y & E1 & E2 & E3 & E4).
      destruct (Lab j y E2) as (y' & E5 & E6). exists j, y'. splits; auto. congruence.
    + intros Ex Hl. destruct (wf_link g W k x l Ex Hl) as (j & y & E1 & E2 & E3 & E4).
      destruct (Lab j y E2) as (y' & E5 & E6). exists j, y'. splits; auto. congruence.
  - intros k. unfold nbrs. rewrite nth_upd. destruct (Nat.eqb_spec k i) as [->|]; simpl; [|apply (wf_nodup g W k)].
    rewrite (proj2 (Nat.ltb_lt _ _) Li). auto.
  - intros k x. rewrite nth_upd. destruct (Nat.eqb_spec k i) as [->|]; simpl; [|apply wf_deg; auto].
    rewrite (proj2 (Nat.ltb_lt _ _) Li). intros [= <-]. auto.
Qed.
Lemma nbrs_upd g i n m k : nth_error g i = Some n -> nbrs (upd g i m) k = if k =? i then targets (gadj m) else nbrs g k.
Proof.
  intros E. unfold nbrs. rewrite nth_upd. destruct (Nat.eqb_spec k i) as [->|]; simpl; auto.
  now rewrite (proj2 (Nat.ltb_lt _ _) (nth_lt _ _ _ E)).
Qed.
Lemma weight_upd g i n m k x : nth_error g i = Some n -> weight (upd g i m) k x = if k =? i then weight_in (gadj m) x else weight g k x.
Proof.
  intros E. unfold weight. rewrite nth_upd. destruct (Nat.eqb_spec k i) as [->|]; simpl; auto.
  now rewrite (proj2 (Nat.ltb_lt _ _) (nth_lt _ _ _ E)).
Qed.

(** Resetting the caches of a node. *)
Lemma reset_spec g i : wf_net g -> i < length g -> exists g', upd_node g i reset_cache = Ok g' /\ wf_net g' /\ same_nodes g g' /\
  (forall k, nbrs g' k = nbrs g k) /\ (forall k x, weight g' k x = weight g k x) /\
  (exists n, nth_error g i = Some n /\ g' = upd g i (reset_cache n)).
Proof.
  intros W Li. destruct (nth_ex g i Li) as [n E]. unfold upd_node. rewrite (get_ok _ _ _ E). cbn [bind]. rewrite set_ok by auto.
  exists (upd g i (reset_cache n)). splits; auto.
  - eapply wf_upd; eauto; simpl; auto.
    + rewrite <- (nbrs_eq g i n E). apply (wf_nodup g W).
    + intros l Hl. exact (wf_link g W i n l E Hl).
  - eapply same_nodes_upd; eauto.
  - intros k. rewrite (nbrs_upd _ _ _ _ _ E). destruct (Nat.eqb_spec k i) as [->|]; auto. now rewrite (nbrs_eq g i n E).
  - intros k x. rewrite (weight_upd _ _ _ _ _ _ E). destruct (Nat.eqb_spec k i) as [->|]; auto. now rewrite (weight_eq g i n x E).
  - eauto.
Qed.

Theorem AddAdjacency_spec g i j auto_link add_weight w st : wf_net g -> i < length g -> j < length g ->
  exists r g', AddAdjacency g i j auto_link add_weight w st = Ok (r, g') /\ wf_net g' /\ same_nodes g g' /\
    (if (i =? j) && negb auto_link then g' = g /\ r = false
     else (forall a b, weight g' a b = if (a =? i) && (b =? j)
             then match weight g i j with Some w0 => Some (if add_weight then nadd w0 w else w0) | None => Some w end
             else weight g a b) /\
          (forall a, nbrs g' a = if (a =? i) && (if in_dec Nat.eq_dec j (nbrs g i) then false else true) then nbrs g i ++ [j] else nbrs g a) /\
          r = (if in_dec Nat.eq_dec j (nbrs g i) then add_weight else true)).
Proof.
  intros W Li Lj. unfold AddAdjacency. destruct ((i =? j) && negb auto_link) eqn:Eij.
  { exists false, g. splits; auto using same_nodes_refl. }
  destruct (reset_spec g i W Li) as (g1 & -> & W1 & S1 & N1 & Wt1 & n1' & E1' & Eg1). cbn [bind].
  destruct (reset_spec g1 j W1) as (g2 & -> & W2 & S2 & N2 & Wt2 & n2' & E2' & Eg2). { rewrite <- (same_nodes_length _ _ S1). auto. } cbn [bind].
  assert (S12 : same_nodes g g2) by (eapply same_nodes_trans; eauto). pose proof (same_nodes_length _ _ S12) as L12.
  destruct (nth_ex g2 i) as [n En]; [lia|]. destruct (nth_ex g2 j) as [m Em]; [lia|].
  rewrite (get_ok _ _ _ En), (get_ok _ _ _ Em). cbn [bind].
  set (new := mkLink (gnum m) (glabel m) st (Some j) n0 w).
  assert (Nd : NoDup (targets (gadj n))) by (rewrite <- (nbrs_eq g2 i n En); apply (wf_nodup g2 W2)).
  assert (Ei : nbrs g i = targets (gadj n)) by (rewrite <- N1, <- N2; now apply nbrs_eq).
  assert (Ew : weight g i j = weight_in (gadj n) j) by (rewrite <- Wt1, <- Wt2; now apply weight_eq).
  pose proof (add_link_spec add_weight w new j (gadj n) eq_refl eq_refl) as HL.
  destruct (add_link add_weight w new j (gadj n)) as [ls r]. destruct HL as (H1 & H2 & H3 & H4 & H5).
  rewrite set_ok by lia. cbn [bind]. exists r, (upd g2 i (set_gadj ls n)). splits; auto.
  - eapply wf_upd; eauto; cbn [set_gadj gadj gdeg].
    + rewrite H2. destruct (in_dec _ _ _); auto. apply NoDup_app_iff. splits; auto; [constructor; auto; constructor|].
      intros x Hx [<-|[]]; auto.
    + left. (* caches were reset *)
      subst g2. rewrite nth_upd in En. destruct (Nat.eqb_spec i j) as [->|Hij]; simpl in En.
      * rewrite (proj2 (Nat.ltb_lt _ _) (nth_lt _ _ _ E2')) in En. injection En as <-. reflexivity.
      * subst g1. rewrite nth_upd_eq in En by auto. injection En as <-. reflexivity.
    + intros l Hl. destruct (H4 l Hl) as [->|(l0 & Hl0 & R1 & R2 & R3)].
      * exists j, m. splits; auto. simpl. eapply wf_num; eauto.
      * rewrite R1, R2, R3. exact (wf_link g2 W2 i n l0 En Hl0).
  - eapply same_nodes_trans; [exact S12|]. eapply same_nodes_upd; eauto.
  - intros a b. rewrite (weight_upd _ _ _ _ _ _ En). cbn [set_gadj gadj]. destruct (Nat.eqb_spec a i) as [->|]; simpl.
    + rewrite H1, Ew. destruct (b =? j) eqn:Eb; auto. rewrite <- Wt1, <- Wt2. symmetry. now apply weight_eq.
    + now rewrite Wt2, Wt1.
  - intros a. rewrite (nbrs_upd _ _ _ _ _ En). cbn [set_gadj gadj]. rewrite H2, Ei. destruct (Nat.eqb_spec a i) as [->|]; simpl.
    + destruct (in_dec _ _ _); auto.
    + now rewrite N2, N1.
  - now rewrite Ei.
Qed.

(** Links removed one way. *)
Lemma del_one g i j n : wf_net g -> nth_error g i = Some n -> gdeg n = 0 -> In j (nbrs g i) ->
  exists ls g', del_link j (gadj n) = Ok ls /\ set g i (set_gadj ls n) = Ok g' /\ wf_net g' /\ same_nodes g g' /\
    (forall a b, weight g' a b = if (a =? i) && (b =? j) then None else weight g a b) /\
    (forall a, a <> i -> nbrs g' a = nbrs g a) /\ Permutation (nbrs g i) (j :: nbrs g' i) /\
    (forall k m, nth_error g k = Some m -> exists m', nth_error g' k = Some m' /\ gdeg m' = gdeg m).
Proof.
  intros W E Ed Hj. pose proof (nbrs_eq g i n E) as En. pose proof (wf_nodup g W i) as ND. rewrite En in Hj, ND.
  assert (Li : i < length g) by (eapply nth_lt; eauto).
  destruct (del_link_spec j (gadj n) Hj ND) as (ls & Els & H1 & H2 & H3 & H4).
  exists ls, (upd g i (set_gadj ls n)). rewrite set_ok by auto. splits; auto.
  - eapply wf_upd; eauto; cbn [set_gadj gadj gdeg]; auto.
    + apply (Permutation_NoDup H2) in ND. inversion ND; auto.
    + intros l Hl. exact (wf_link g W i n l E (H3 l Hl)).
  - eapply same_nodes_upd; eauto.
  - intros a b. rewrite (weight_upd _ _ _ _ _ _ E). cbn [set_gadj gadj]. destruct (Nat.eqb_spec a i) as [->|]; simpl; auto.
    rewrite H1, (weight_eq g i n b E). destruct (b =? j); auto.
  - intros a Ha. rewrite (nbrs_upd _ _ _ _ _ E). apply Nat.eqb_neq in Ha. now rewrite Ha.
  - rewrite (nbrs_upd _ _ _ _ _ E), Nat.eqb_refl, En. auto.
  - intros k m Em. rewrite nth_upd. destruct (Nat.eqb_spec k i) as [->|]; simpl; [|eauto].
    rewrite (proj2 (Nat.ltb_lt _ _) Li). rewrite E in Em. injection Em as <-. eexists; split; [reflexivity|]. reflexivity.
Qed.

Theorem RemoveLink_spec g i j sym : wf_net g -> In j (nbrs g i) -> (sym = true -> i <> j -> In i (nbrs g j)) ->
  exists g', RemoveLink g i j sym = Ok g' /\ wf_net g' /\ same_nodes g g' /\
    (forall a b, weight g' a b = if ((a =? i) && (b =? j)) || (sym && (a =? j) && (b =? i)) then None else weight g a b) /\
    (forall a, a <> i -> (sym = false \/ a <> j) -> nbrs g' a = nbrs g a) /\
    Permutation (nbrs g i) (j :: nbrs g' i) /\
    (sym = true -> i <> j -> Permutation (nbrs g j) (i :: nbrs g' j)).
Proof.
  intros W Hj Hs. destruct (nbrs_lt g i j W Hj) as [Li Lj]. unfold RemoveLink.
  destruct (reset_spec g i W Li) as (g1 & -> & W1 & S1 & N1 & Wt1 & n1' & E1' & Eg1). cbn [bind].
  destruct (reset_spec g1 j W1) as (g2 & -> & W2 & S2 & N2 & Wt2 & n2' & E2' & Eg2). { rewrite <- (same_nodes_length _ _ S1). auto. } cbn [bind].
  assert (S12 : same_nodes g g2) by (eapply same_nodes_trans; eauto). pose proof (same_nodes_length _ _ S12) as L12.
  assert (D : forall k m, k = i \/ k = j -> nth_error g2 k = Some m -> gdeg m = 0).
  { intros k m Hk Em. subst g2. rewrite nth_upd in Em. destruct (Nat.eqb_spec k j) as [->|Hkj]; simpl in Em.
    - rewrite (proj2 (Nat.ltb_lt _ _) (nth_lt _ _ _ E2')) in Em. injection Em as <-. reflexivity.
    - destruct Hk as [->|]; [|congruence]. subst g1. rewrite nth_upd_eq in Em by auto. injection Em as <-. reflexivity. }
  destruct (nth_ex g2 i) as [n En]; [lia|]. rewrite (get_ok _ _ _ En). cbn [bind].
  destruct (del_one g2 i j n W2 En (D i n (or_introl eq_refl) En)) as (ls & g3 & -> & E3 & W3 & S3 & Wt3 & N3 & P3 & D3).
  { rewrite N2, N1. auto. } cbn [bind]. rewrite E3. cbn [bind].
  assert (S13 : same_nodes g g3) by (eapply same_nodes_trans; eauto). pose proof (same_nodes_length _ _ S13) as L13.
  destruct sym; simpl.
  - destruct (Nat.eqb_spec i j) as [<-|Hij]; simpl.
    + exists g3. splits; auto.
      * intros a b. rewrite Wt3, Wt2, Wt1. destruct (a =? i), (b =? i); auto.
      * intros a Ha _. rewrite N3, N2, N1; auto.
      * rewrite <- N1, <- N2. auto.
      * congruence.
    + destruct (nth_ex g3 j) as [m Em]; [lia|]. rewrite (get_ok _ _ _ Em). cbn [bind].
      destruct (nth_ex g2 j) as [m2 Em2]; [lia|]. destruct (D3 j m2 Em2) as (m' & Em' & Dm). rewrite Em in Em'. injection Em' as <-.
      destruct (del_one g3 j i m W3 Em) as (ls2 & g4 & -> & E4 & W4 & S4 & Wt4 & N4 & P4 & D4).
      { rewrite Dm. eapply D; eauto. }
      { rewrite N3, N2, N1; auto. }
      cbn [bind]. rewrite E4. exists g4. splits; auto.
      * eapply same_nodes_trans; eauto.
      * intros a b. rewrite Wt4, Wt3, Wt2, Wt1. destruct (a =? i), (b =? i), (a =? j), (b =? j); auto.
      * intros a Ha [|Hb]; [discriminate|]. rewrite N4, N3, N2, N1; auto.
      * rewrite N4 by auto. rewrite <- N1, <- N2. auto.
      * intros _ _. rewrite <- N1, <- N2, <- (N3 j) by auto. auto.
  - exists g3. splits; auto; try congruence.
    + intros a b. rewrite Wt3, Wt2, Wt1. now rewrite orb_false_r.
    + intros a Ha _. rewrite N3, N2, N1; auto.
Qed.

(** A missing link: the walk runs off the list. *)
Theorem RemoveLink_missing g i j sym : wf_net g -> i < length g -> j < length g -> ~ In j (nbrs g i) ->
  RemoveLink g i j sym = Err UB_null.
Proof.
  intros W Li Lj Hj. unfold RemoveLink.
  destruct (reset_spec g i W Li) as (g1 & -> & W1 & S1 & N1 & Wt1 & _). cbn [bind].
  destruct (reset_spec g1 j W1) as (g2 & -> & W2 & S2 & N2 & Wt2 & _). { rewrite <- (same_nodes_length _ _ S1). auto. } cbn [bind].
  destruct (nth_ex g2 i) as [n En]. { rewrite <- (same_nodes_length _ _ S2), <- (same_nodes_length _ _ S1). auto. }
  rewrite (get_ok _ _ _ En). cbn [bind]. rewrite del_link_missing; auto. rewrite <- (nbrs_eq _ _ _ En), N2, N1. auto.
Qed.

(** ** Looking at a network *)
Lemma IsThereLink_spec g i j : i < length g -> IsThereLink g i j = Ok (if in_dec Nat.eq_dec j (nbrs g i) then true else false).
Proof.
  intros Li. destruct (nth_ex g i Li) as [n E]. unfold IsThereLink. rewrite (get_ok _ _ _ E). cbn [bind]. f_equal.
  rewrite (nbrs_eq g i n E). destruct (in_dec _ _ _) as [H|H].
  - now apply existsb_ref.
  - apply not_true_is_false. rewrite existsb_ref. auto.
Qed.
Lemma lnode_ref g i n l j : wf_net g -> nth_error g i = Some n -> In l (gadj n) -> (lnode l =? j) = eq_ref (lref l) j.
Proof. intros W E Hl. destruct (wf_link g W i n l E Hl) as (k & m & -> & _ & -> & _). reflexivity. Qed.
Lemma existsb_ext_in {B} (f f' : B -> bool) l : (forall x, In x l -> f x = f' x) -> existsb f l = existsb f' l.
Proof. induction l as [|a l IH]; simpl; intros H; auto. rewrite H, IH; auto. Qed.
Lemma IsThereLinkSoft_spec g i j : wf_net g -> i < length g -> IsThereLinkSoft g i j = Ok (if in_dec Nat.eq_dec j (nbrs g i) then true else false).
Proof.
  intros W Li. rewrite <- (IsThereLink_spec g i j Li). unfold IsThereLinkSoft, IsThereLink. destruct (nth_ex g i Li) as [n E].
  rewrite (get_ok _ _ _ E). cbn [bind]. f_equal. apply existsb_ext_in. intros l Hl. eapply lnode_ref; eauto.
Qed.
Lemma GetLink_spec g i j : wf_net g -> In j (nbrs g i) ->
  exists l, GetLink g i j = Ok l /\ lref l = Some j /\ lnode l = j /\ weight g i j = Some (lweight l).
Proof.
  intros W Hj. destruct (nbrs_lt g i j W Hj) as [Li _]. destruct (nth_ex g i Li) as [n E]. unfold GetLink. rewrite (get_ok _ _ _ E). cbn [bind].
  rewrite (nbrs_eq g i n E) in Hj. rewrite (weight_eq g i n j E).
  assert (H : forall l, In l (gadj n) -> (lnode l =? j) = eq_ref (lref l) j) by (intros l Hl; eapply lnode_ref; eauto).
  revert Hj H. generalize (gadj n). intros ls. induction ls as [|l ls IH]; intros Hj H; [destruct Hj|]. cbn [find_link].
  pose proof (H l (or_introl eq_refl)) as Hl. rewrite weight_in_cons. rewrite <- Hl. destruct (lnode l =? j) eqn:El.
  - exists l. symmetry in Hl. apply eq_ref_true in Hl. apply Nat.eqb_eq in El. splits; auto.
  - apply IH; [|intros l0 H0; apply H; simpl; auto]. simpl in Hj. apply in_app_iff in Hj as [Hj|]; auto.
    destruct (lref l) as [k|]; simpl in *; [|tauto]. destruct Hj as [->|[]]. rewrite Nat.eqb_refl in Hl. discriminate.
Qed.
Lemma GetNode_spec g i : wf_net g -> i < length g -> GetNode i g = Ok i.
Proof.
  intros W Li. unfold GetNode.
  assert (H : forall g' k, (forall x n, nth_error g' x = Some n -> gnum n = k + x) -> k <= i -> i < k + length g' -> find_num i k g' = Ok i).
  { induction g' as [|n g' IH]; intros k H1 H2 H3; simpl in H3; [lia|]. cbn [find_num]. pose proof (H1 0 n eq_refl) as E. rewrite Nat.add_0_r in E.
    rewrite E. destruct (Nat.eqb_spec k i) as [->|Hk]; auto. apply IH; try lia. intros x m Ex. rewrite (H1 (S x) m Ex). lia. }
  apply H; try lia. intros x n Ex. simpl. eapply wf_num; eauto.
Qed.
Lemma NodeDegree_spec g i : wf_net g -> i < length g ->
  exists g', NodeDegree g i = Ok (degree g i, g') /\ wf_net g' /\ same_nodes g g' /\
    (forall a, nbrs g' a = nbrs g a) /\ (forall a b, weight g' a b = weight g a b).
Proof.
  intros W Li. destruct (nth_ex g i Li) as [n E]. unfold NodeDegree. rewrite (get_ok _ _ _ E). cbn [bind].
  rewrite (degree_adj g i n W E). pose proof (wf_deg g W i n E) as Hd. destruct (gdeg n =? 0) eqn:E0; simpl.
  - apply Nat.eqb_eq in E0. destruct (length (gadj n) =? 0) eqn:E1; simpl.
    + apply Nat.eqb_eq in E1. rewrite E0, E1. exists g. splits; auto using same_nodes_refl.
    + rewrite set_ok by auto. cbn [bind]. rewrite E0. simpl. eexists. split; [reflexivity|]. splits.
      * eapply wf_upd; eauto; cbn [set_gdeg gadj gdeg]; auto.
        -- rewrite <- (nbrs_eq g i n E). apply (wf_nodup g W).
        -- intros l Hl. exact (wf_link g W i n l E Hl).
      * eapply same_nodes_upd; eauto.
      * intros k. rewrite (nbrs_upd _ _ _ _ _ E). destruct (Nat.eqb_spec k i) as [->|]; auto. now rewrite (nbrs_eq g i n E).
      * intros k x. rewrite (weight_upd _ _ _ _ _ _ E). destruct (Nat.eqb_spec k i) as [->|]; auto. now rewrite (weight_eq g i n x E).
  - apply Nat.eqb_neq in E0. destruct Hd as [|Hd]; [congruence|]. rewrite Hd. exists g. splits; auto using same_nodes_refl.
Qed.

(** Only caches may differ. *)
Definition same_links g g' : Prop :=
  wf_net g' /\ same_nodes g g' /\ (forall a, nbrs g' a = nbrs g a) /\ (forall a b, weight g' a b = weight g a b).
Lemma same_links_refl g : wf_net g -> same_links g g.
Proof. intros W. unfold same_links. auto using same_nodes_refl. Qed.
Lemma same_links_trans g1 g2 g3 : same_links g1 g2 -> same_links g2 g3 -> same_links g1 g3.
Proof.
  intros (W1 & S1 & N1 & H1) (W2 & S2 & N2 & H2). unfold same_links. splits; auto; [eapply same_nodes_trans; eauto| |].
  - intros a. now rewrite N2. 
  - intros a b. now rewrite H2.
Qed.
Lemma same_links_undirected g g' : undirected g -> same_links g g' -> undirected g'.
Proof.
  intros [W L S] (W' & S' & N & H). split; auto.
  - intros i. rewrite N. auto.
  - intros i j. rewrite !H. auto.
Qed.
Lemma same_links_degree g g' i : same_links g g' -> degree g' i = degree g i.
Proof. intros (_ & _ & N & _). unfold degree. now rewrite N. Qed.

Definition sum_deg g : nat := fold_left (fun s i => s + degree g i) (seq 0 (length g)) 0.
Lemma TotalNLinks_spec g sym : wf_net g ->
  exists g', TotalNLinks g sym = Ok (if sym then Nat.div (sum_deg g) 2 else sum_deg g, g') /\ same_links g g'.
Proof.
  intros W. unfold TotalNLinks, sum_deg.
  assert (H : forall l t g0, same_links g g0 -> (forall i, In i l -> i < length g) ->
    exists g', foldM (fun '(t, g) i => do (k, g) <- NodeDegree g i; Ok (t + k, g)) (t, g0) l =
      Ok (fold_left (fun s i => s + degree g i) l t, g') /\ same_links g g').
  { induction l as [|i l IH]; intros t g0 Hs Hl; simpl.
    - eauto.
    - pose proof Hs as (W0 & S0 & N0 & _). destruct (NodeDegree_spec g0 i W0) as (g1 & E1 & Hs1).
      { rewrite <- (same_nodes_length _ _ S0). apply Hl; simpl; auto. }
      rewrite E1. cbn [bind]. rewrite (same_links_degree g g0 i Hs). apply IH.
      + eapply same_links_trans; eauto.
      + intros x Hx. apply Hl; simpl; auto. }
  destruct (H (seq 0 (length g)) 0 g (same_links_refl g W)) as (g' & E & Hs). { intros i Hi. apply in_seq in Hi. lia. }
  rewrite E. cbn [bind]. exists g'. split; auto.
Qed.

(** ** Symmetric operations *)
Lemma add_both g i j aw w st1 st2 : undirected g -> i < length g -> j < length g -> i <> j ->
  exists r1 r2 g1 g2, AddAdjacency g i j false aw w st1 = Ok (r1, g1) /\ AddAdjacency g1 j i false aw w st2 = Ok (r2, g2) /\
    undirected g2 /\ same_nodes g g2 /\
    (forall a b, weight g2 a b = if ((a =? i) && (b =? j)) || ((a =? j) && (b =? i))
        then match weight g i j with Some w0 => Some (if aw then nadd w0 w else w0) | None => Some w end else weight g a b) /\
    (forall a, degree g2 a = degree g a + (if in_dec Nat.eq_dec j (nbrs g i) then 0 else (if a =? i then 1 else 0) + (if a =? j then 1 else 0))).
Proof.
  intros [W Lp Sy] Li Lj Hij. destruct (AddAdjacency_spec g i j false aw w st1 W Li Lj) as (r1 & g1 & E1 & W1 & S1 & H1).
  rewrite (proj2 (Nat.eqb_neq _ _) Hij) in H1. simpl in H1. destruct H1 as (Wt1 & N1 & _).
  pose proof (same_nodes_length _ _ S1) as L1.
  destruct (AddAdjacency_spec g1 j i false aw w st2 W1) as (r2 & g2 & E2 & W2 & S2 & H2); try lia.
  rewrite (proj2 (Nat.eqb_neq _ _) (not_eq_sym Hij)) in H2. simpl in H2. destruct H2 as (Wt2 & N2 & _).
  assert (Eji : weight g1 j i = weight g i j).
  { rewrite Wt1. rewrite (proj2 (Nat.eqb_neq j i)) by auto. simpl. symmetry; auto. }
  assert (WW : forall a b, weight g2 a b = if ((a =? i) && (b =? j)) || ((a =? j) && (b =? i))
        then match weight g i j with Some w0 => Some (if aw then nadd w0 w else w0) | None => Some w end else weight g a b).
  { intros a b. rewrite Wt2, Eji, Wt1. destruct (Nat.eqb_spec a i), (Nat.eqb_spec b j), (Nat.eqb_spec a j), (Nat.eqb_spec b i); simpl; auto; congruence. }
  exists r1, r2, g1, g2. splits; auto.
  - split; auto.
    + intros a Ha. apply nbrs_weight in Ha. rewrite WW in Ha. destruct (Nat.eqb_spec a i), (Nat.eqb_spec a j); simpl in Ha; try congruence;
        apply (Lp a); apply nbrs_weight; auto.
    + intros a b. rewrite !WW. rewrite (Sy a b). destruct (a =? i), (b =? j), (a =? j), (b =? i); simpl; auto.
  - eapply same_nodes_trans; eauto.
  - intros a. unfold degree. rewrite N2, !N1.
    assert (Hji : In i (nbrs g j) <-> In j (nbrs g i)). { rewrite !nbrs_weight, (Sy j i). tauto. }
    rewrite (proj2 (Nat.eqb_neq j i)) by auto. simpl.
    destruct (in_dec Nat.eq_dec j (nbrs g i)) as [Hi|Hi]; destruct (in_dec Nat.eq_dec i (nbrs g j)) as [Hj|Hj]; try tauto.
    + rewrite !andb_false_r. lia.
    + rewrite !andb_true_r. destruct (Nat.eqb_spec a i) as [Ha|Ha], (Nat.eqb_spec a j) as [Hb|Hb]; try congruence; subst; rewrite ?app_length; simpl; lia.
Qed.

Lemma remove_both g i j : undirected g -> In j (nbrs g i) ->
  exists g', RemoveLink g i j true = Ok g' /\ undirected g' /\ same_nodes g g' /\
    (forall a b, weight g' a b = if ((a =? i) && (b =? j)) || ((a =? j) && (b =? i)) then None else weight g a b) /\
    (forall a, degree g a = degree g' a + ((if a =? i then 1 else 0) + (if a =? j then 1 else 0))).
Proof.
  intros U Hj. pose proof U as [W Lp Sy]. assert (Hij : i <> j) by (intros ->; apply (Lp j); auto).
  destruct (RemoveLink_spec g i j true W Hj) as (g' & E & W' & S' & Wt & N & P1 & P2).
  { intros _ _. eapply undirected_sym; eauto. }
  simpl in Wt. exists g'. splits; auto.
  - split; auto.
    + intros a Ha. apply nbrs_weight in Ha. rewrite Wt in Ha. destruct (((a =? i) && (a =? j)) || ((a =? j) && (a =? i))); [congruence|].
      apply (Lp a). apply nbrs_weight; auto.
    + intros a b. rewrite !Wt, (Sy a b). destruct (a =? i), (b =? j), (a =? j), (b =? i); simpl; auto.
  - intros a. unfold degree. destruct (Nat.eqb_spec a i) as [->|Ha].
    + rewrite (proj2 (Nat.eqb_neq _ _) Hij). rewrite (Permutation_length P1). simpl. lia.
    + destruct (Nat.eqb_spec a j) as [->|Hb].
      * rewrite (Permutation_length (P2 eq_refl Hij)). simpl. lia.
      * rewrite N by auto. lia.
Qed.

(** ** C25 *)
Inductive gop := LinkOp (i j : nat) (add_weight : bool) (w : A) (status : nat) | UnlinkOp (i j : nat) | DegreeOp (i : nat).
Definition gop_ok g (o : gop) : Prop :=
  match o with
  | LinkOp i j _ _ _ => i < length g /\ j < length g
  | UnlinkOp i j => In j (nbrs g i)
  | DegreeOp i => i < length g
  end.
Definition run_gop g (o : gop) : res (net A) :=
  match o with
  | LinkOp i j aw w st => do (_, g) <- AddAdjacency g i j false aw w st; do (_, g) <- AddAdjacency g j i false aw w st; Ok g
  | UnlinkOp i j => RemoveLink g i j true
  | DegreeOp i => do (_, g) <- NodeDegree g i; Ok g
  end.
(** The link relation after an operation. *)
Definition gop_weight g (o : gop) (a b : nat) : option A :=
  match o with
  | LinkOp i j aw w _ =>
      if negb (i =? j) && (((a =? i) && (b =? j)) || ((a =? j) && (b =? i)))
      then match weight g i j with Some w0 => Some (if aw then nadd w0 w else w0) | None => Some w end
      else weight g a b
  | UnlinkOp i j => if ((a =? i) && (b =? j)) || ((a =? j) && (b =? i)) then None else weight g a b
  | DegreeOp _ => weight g a b
  end.

Theorem gop_keeps g o : undirected g -> gop_ok g o ->
  exists g', run_gop g o = Ok g' /\ undirected g' /\ same_nodes g g' /\ forall a b, weight g' a b = gop_weight g o a b.
Proof.
  intros U. pose proof U as [W Lp Sy]. destruct o as [i j aw w st|i j|i]; simpl.
  - intros [Li Lj]. destruct (Nat.eqb_spec i j) as [<-|Hij]; simpl.
    + unfold AddAdjacency. rewrite !Nat.eqb_refl. simpl. exists g. splits; auto using same_nodes_refl.
    + destruct (add_both g i j aw w st st U Li Lj Hij) as (r1 & r2 & g1 & g2 & -> & E2 & U2 & S2 & W2 & _).
      cbn [bind]. rewrite E2. cbn [bind]. eauto 10.
  - intros Hj. destruct (remove_both g i j U Hj) as (g' & E & U' & S' & W' & _). eauto 10.
  - intros Li. destruct (NodeDegree_spec g i W Li) as (g' & -> & Hs). cbn [bind]. exists g'. splits; auto.
    + eapply same_links_undirected; eauto.
    + apply Hs.
    + apply Hs.
Qed.
End Graph.
