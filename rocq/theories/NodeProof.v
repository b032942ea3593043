(** NodeProof.v -- removing a node from a bipartite network. *)
From Coq Require Import List Arith ZArith Bool QArith Lia Permutation.
From Verif Require Import Base Num ListLib NatSum IoModel IoSpec IoProof GraphModel GraphSpec GraphProof GroupModel GroupProof NetModel NetBuild BipartModel BipartSpec BipartRen BipartMem BipartRand BipartCopy BipartFile RecModel RecSpec RecSets RecSetup RecClean RecAux NodeModel NodeSpec.
Import ListNotations.
Local Open Scope nat_scope.

Lemma down_up p i : down p (up p i) = i.
Proof. unfold down, up. destruct (Nat.ltb_spec i p); [rewrite (proj2 (Nat.ltb_lt i p)); lia|]. destruct (Nat.ltb_spec (i + 1) p); lia. Qed.
Lemma up_down p i : i <> p -> up p (down p i) = i.
Proof. intros H. unfold down, up. destruct (Nat.ltb_spec i p); [rewrite (proj2 (Nat.ltb_lt i p)); lia|]. destruct (Nat.ltb_spec (i - 1) p); lia. Qed.
Lemma up_neq p i : up p i <> p.
Proof. unfold up. destruct (Nat.ltb_spec i p); lia. Qed.
Lemma up_inj p i j : up p i = up p j -> i = j.
Proof. intros H. rewrite <- (down_up p i), H. apply down_up. Qed.
Lemma nth_drop {B} (l : list B) : forall k i, nth_error (drop k l) i = nth_error l (up k i).
Proof.
  induction l as [|x l IH]; intros k i; unfold drop in *; [rewrite firstn_nil, skipn_nil; cbn; destruct i; destruct (up k _); reflexivity|].
  destruct k as [|k]; [cbn; unfold up; cbn; now rewrite Nat.add_1_r|]. destruct i as [|i]; [reflexivity|]. cbn [firstn app skipn Nat.add nth_error]. rewrite IH.
  replace (up (S k) (S i)) with (S (up k i)); auto. unfold up. destruct (Nat.ltb_spec i k), (Nat.ltb_spec (S i) (S k)); lia.
Qed.
Lemma drop_length {B} (l : list B) k : k < length l -> length (drop k l) = length l - 1.
Proof. intros H. unfold drop. rewrite app_length, firstn_length, skipn_length. lia. Qed.
Lemma drop_split {B} (l : list B) k x : nth_error l k = Some x -> exists l1 l2, l = l1 ++ x :: l2 /\ length l1 = k /\ drop k l = l1 ++ l2.
Proof.
  intros E. destruct (nth_error_split _ _ E) as (l1 & l2 & -> & L). exists l1, l2. splits; auto. unfold drop. subst k. rewrite firstn_app, Nat.sub_diag, firstn_all. cbn [firstn]. rewrite app_nil_r. f_equal.
  replace (length l1 + 1) with (S (length l1)) by lia. rewrite skipn_app, (skipn_all2 l1) by lia. replace (S (length l1) - length l1) with 1 by lia. reflexivity.
Qed.

Section Node.
Context {A : Type} {ops : NumOps A}.
Implicit Types (g : net A) (b : binet A).

(** * The label *)
Lemma find_label_ok g lab s : (forall i, In i s -> i < length g) -> forall k,
  match find_label g lab s k with
  | Ok r => exists d, r = k + d /\ d < length s /\ (exists p, nth_error s d = Some p /\ label_of g p = lab) /\ forall d' q, d' < d -> nth_error s d' = Some q -> label_of g q <> lab
  | Err e => e = UB_null /\ forall q, In q s -> label_of g q <> lab
  end.
Proof.
  induction s as [|i s IH]; intros H k; cbn [find_label]; [split; auto; intros q []|]. destruct (nth_ex g i) as [n En]; [apply H; simpl; auto|]. rewrite (get_ok _ _ _ En). cbn [bind].
  assert (EL : label_of g i = glabel n) by (unfold label_of; now rewrite En). rewrite label_eqb_eqb. destruct (eqb_label (glabel n) lab) eqn:E.
  - apply eqb_label_eq in E. exists 0. splits; [lia|cbn; lia| |intros; lia]. exists i. split; auto. congruence.
  - assert (NE : label_of g i <> lab) by (intros X; rewrite EL in X; apply eqb_label_eq in X; congruence). specialize (IH ltac:(intros; apply H; simpl; auto) (k + 1)). destruct (find_label g lab s (k + 1)) as [r|e].
    + destruct IH as (d & -> & Hd & (p & Ep & Lp) & Hf). exists (S d). splits; [lia|cbn; lia|eauto|]. intros [|d'] q Hd' Eq; [injection Eq as <-; auto|]. apply (Hf d'); auto. lia.
    + destruct IH as [-> Hq]. split; auto. intros q [<-|Hi]; auto.
Qed.

(** * The links *)
Lemma unlink_ok p : forall fuel b n, bipartite b -> nth_error (bmem b) p = Some n -> length (gadj n) < fuel ->
  exists g', unlink_all fuel p (bmem b) = Ok g' /\ bipartite (mkBi g' (bset1 b) (bset2 b)) /\ same_nodes (bmem b) g' /\ (forall i j, weight g' i j = if (i =? p) || (j =? p) then None else weight (bmem b) i j).
Proof.
  induction fuel as [|fuel IH]; intros b n B En Hf; [lia|]. cbn [unlink_all]. rewrite (get_ok _ _ _ En). cbn [bind]. destruct (gadj n) as [|l rest] eqn:Ea.
  - exists (bmem b). splits; auto using same_nodes_refl; [now destruct b|]. assert (Hp : forall j, weight (bmem b) p j = None) by (intros j; unfold weight; now rewrite En, Ea).
    intros i j. destruct (Nat.eqb_spec i p) as [->|_]; [apply Hp|]. destruct (Nat.eqb_spec j p) as [->|_]; auto. cbn. rewrite (bi_sym b B). apply Hp.
  - assert (Hl : In l (gadj n)) by (rewrite Ea; simpl; auto). destruct (bi_link b B p n l En Hl) as (j & m & Ej & _). rewrite Ej. cbn [deref bind].
    assert (Hj : In j (nbrs (bmem b) p)) by (unfold nbrs; rewrite En; unfold targets; apply in_flat_map; exists l; rewrite Ej; simpl; auto).
    assert (Hpj : p <> j) by (intros <-; destruct (bi_cross b B p p Hj) as [[H1 H2]|[H1 H2]]; eapply bi_disjoint; eauto).
    destruct (bi_remove b p j B Hj) as (g1 & E1 & B1 & S1 & W1). rewrite E1. cbn [bind]. destruct (RemoveLink_adj _ _ _ _ _ E1 Hpj En) as (n1 & En1 & Ed).
    rewrite Ea in Ed. cbn [del_link] in Ed. rewrite Ej in Ed. cbn [eq_ref] in Ed. rewrite Nat.eqb_refl in Ed. injection Ed as Ed.
    destruct (IH (mkBi g1 (bset1 b) (bset2 b)) n1 B1 En1) as (g' & E' & B' & S' & W'); [rewrite <- Ed; cbn [length] in Hf; lia|]. cbn [bmem bset1 bset2] in *.
    exists g'. splits; auto; [eapply same_nodes_trans; eauto|]. intros x y. rewrite W', W1. destruct (Nat.eqb_spec x p) as [->|X]; auto. destruct (Nat.eqb_spec y p) as [->|Y]; auto. cbn. now rewrite andb_false_r.
Qed.

(** * The numbers *)
Lemma renumber_ok g s : NoDup s -> (forall i, In i s -> i < length g) -> exists g', renumber g s = Ok g' /\ length g' = length g /\
  (forall k i n, nth_error s k = Some i -> nth_error g i = Some n -> nth_error g' i = Some (set_gnum k n)) /\ (forall i, ~ In i s -> nth_error g' i = nth_error g i).
Proof.
  intros ND HL. unfold renumber.
  assert (G : forall s c g, NoDup s -> (forall i, In i s -> i < length g) -> exists g' c', foldM (fun '(g, c) i => do g <- upd_node g i (set_gnum c); Ok (g, c + 1)) (g, c) s = Ok (g', c') /\ length g' = length g /\
    (forall k i n, nth_error s k = Some i -> nth_error g i = Some n -> nth_error g' i = Some (set_gnum (c + k) n)) /\ (forall i, ~ In i s -> nth_error g' i = nth_error g i)).
  { clear. induction s as [|i s IH]; intros c g ND HL; cbn [foldM]; [exists g, c; splits; auto; intros [|k]; discriminate|]. inversion ND; subst. destruct (nth_ex g i) as [n En]; [apply HL; simpl; auto|].
    assert (EU : upd_node g i (set_gnum c) = Ok (upd g i (set_gnum c n))) by (unfold upd_node; rewrite (get_ok _ _ _ En); cbn [bind]; apply set_ok; eapply nth_lt; eauto). rewrite EU. cbn [bind]. destruct (IH (c + 1) (upd g i (set_gnum c n)) H2) as (g' & c' & E & L & P1 & P2); [intros j Hj; rewrite length_upd; apply HL; simpl; auto|].
    rewrite E. exists g', c'. splits; auto; [now rewrite L, length_upd| |].
    - intros [|k] j m Ej Em; cbn [nth_error] in Ej.
      + injection Ej as <-. rewrite P2 by auto. rewrite nth_upd_eq by (eapply nth_lt; eauto). rewrite En in Em. injection Em as <-. now rewrite Nat.add_0_r.
      + rewrite (P1 k j m Ej); [do 2 f_equal; lia|]. rewrite nth_upd_neq; auto. intros ->. apply H1. eapply nth_error_In; eauto.
    - intros j Hj. rewrite P2 by (intros X; apply Hj; simpl; auto). apply nth_upd_neq. intros ->. apply Hj. simpl; auto. }
  destruct (G s 0 g ND HL) as (g' & c' & -> & L & P1 & P2). cbn [bind]. exists g'. splits; auto.
Qed.
Definition num_at g (r : option nat) : nat := match r with Some j => match nth_error g j with Some m => gnum m | None => 0 end | None => 0 end.
Definition fresh g (l : link A) : link A := mkLink (num_at g (lref l)) (llabel l) (lstatus l) (lref l) (lbtw l) (lweight l).
Lemma relink_ok g s : NoDup s -> (forall i, In i s -> i < length g) -> (forall i n l, In i s -> nth_error g i = Some n -> In l (gadj n) -> exists j, lref l = Some j /\ j < length g) ->
  exists g', relink g s = Ok g' /\ length g' = length g /\ (forall i n, In i s -> nth_error g i = Some n -> nth_error g' i = Some (set_gadj (map (fresh g) (gadj n)) n)) /\ (forall i, ~ In i s -> nth_error g' i = nth_error g i).
Proof.
  revert g. induction s as [|i s IH]; intros g ND HL HR; unfold relink; cbn [foldM]; [exists g; splits; auto; intros i n []|]. inversion ND; subst. destruct (nth_ex g i) as [n En]; [apply HL; simpl; auto|]. rewrite (get_ok _ _ _ En). cbn [bind].
  assert (EM : forall ls, (forall l, In l ls -> exists j, lref l = Some j /\ j < length g) -> mapM (relink1 g) ls = Ok (map (fresh g) ls)).
  { clear. induction ls as [|l ls IH]; intros H; auto. cbn [mapM map]. destruct (H l) as (j & Ej & Lj); [simpl; auto|]. destruct (nth_ex g j Lj) as [m Em]. unfold relink1 at 1. rewrite Ej. cbn [deref bind]. rewrite (get_ok _ _ _ Em). cbn [bind]. rewrite IH by (intros; apply H; simpl; auto). cbn [bind].
    unfold fresh at 2, num_at. now rewrite Ej, Em. }
  rewrite EM by (intros l Hl; eapply HR; eauto; simpl; auto). cbn [bind]. rewrite set_ok by (eapply nth_lt; eauto). cbn [bind]. set (g1 := upd g i _).
  assert (EF : forall l, fresh g1 l = fresh g l). { intros l. unfold fresh, num_at. destruct (lref l) as [j|]; auto. f_equal. unfold g1. destruct (Nat.eq_dec j i) as [->|N]; [rewrite nth_upd_eq by (eapply nth_lt; eauto); now rewrite En|rewrite nth_upd_neq; auto]. }
  destruct (IH g1 H2) as (g' & E & L & P1 & P2).
  - intros j Hj. unfold g1. rewrite length_upd. apply HL. simpl; auto.
  - intros j m l Hj Em Hl. unfold g1 in *. rewrite length_upd. rewrite nth_upd_neq in Em by (intros ->; auto). eapply HR; eauto. simpl; auto.
  - unfold relink in E. rewrite E. exists g'. splits; auto; [unfold g1 in L; now rewrite L, length_upd| |].
    + intros j m [<-|Hj] Em.
      * rewrite P2 by auto. unfold g1. rewrite nth_upd_eq by (eapply nth_lt; eauto). congruence.
      * rewrite (P1 j m Hj); [do 2 f_equal; apply map_ext; intros; apply EF|]. unfold g1. rewrite nth_upd_neq; auto. intros ->; auto.
    + intros j Hj. rewrite P2 by (intros X; apply Hj; simpl; auto). unfold g1. apply nth_upd_neq. intros ->. apply Hj. simpl; auto.
Qed.

(** * The whole *)
Lemma filter_drop (s : list nat) k p : NoDup s -> nth_error s k = Some p -> drop k s = filter (fun i => negb (i =? p)) s.
Proof.
  intros ND E. destruct (drop_split s k p E) as (l1 & l2 & -> & _ & ->). apply NoDup_remove in ND as [ND Hp]. rewrite filter_app. cbn [filter]. rewrite Nat.eqb_refl. cbn [negb].
  assert (X : forall l, ~ In p l -> filter (fun i => negb (i =? p)) l = l). { induction l as [|x l IH]; intros H; auto. cbn. destruct (Nat.eqb_spec x p) as [->|]; [exfalso; apply H; simpl; auto|]. cbn. rewrite IH; auto. intros Y; apply H; simpl; auto. }
  rewrite !X; auto; intros Y; apply Hp, in_app_iff; auto.
Qed.
Lemma map_up_down p s : ~ In p s -> map (up p) (map (down p) s) = s.
Proof. intros H. rewrite map_map. induction s as [|x s IH]; auto. cbn. rewrite up_down by (intros ->; apply H; simpl; auto). f_equal. apply IH. intros X; apply H; simpl; auto. Qed.
Definition moved p (n : gnode A) : gnode A := set_gadj (map (fun l => set_lref (option_map (down p) (lref l)) l) (gadj n)) n.
Lemma free_nth p g i : nth_error (free_node p g) i = option_map (moved p) (nth_error g (up p i)).
Proof. unfold free_node. rewrite nth_error_map, nth_drop. reflexivity. Qed.
Lemma targets_moved p (ls : list (link A)) : targets (map (fun l => set_lref (option_map (down p) (lref l)) l) ls) = map (down p) (targets ls).
Proof. unfold targets. induction ls as [|l ls IH]; auto. cbn [map flat_map]. rewrite IH, map_app. f_equal. cbn. destruct (lref l); reflexivity. Qed.
Lemma targets_fresh g (ls : list (link A)) : targets (map (fresh g) ls) = targets ls.
Proof. unfold targets. induction ls as [|l ls IH]; auto. cbn [map flat_map]. now rewrite IH. Qed.
Lemma weight_in_fresh g (ls : list (link A)) j : weight_in (map (fresh g) ls) j = weight_in ls j.
Proof. induction ls as [|l ls IH]; auto. cbn [map]. rewrite !weight_in_cons, IH. reflexivity. Qed.
Lemma weight_in_moved p (ls : list (link A)) j : ~ In p (targets ls) -> weight_in (map (fun l => set_lref (option_map (down p) (lref l)) l) ls) j = weight_in ls (up p j).
Proof.
  induction ls as [|l ls IH]; intros H; auto. cbn [map]. rewrite !weight_in_cons. cbn [lref lweight set_lref]. cbn [targets flat_map] in H. fold (targets ls) in H. rewrite IH by (intros X; apply H, in_app_iff; auto).
  replace (eq_ref (option_map (down p) (lref l)) j) with (eq_ref (lref l) (up p j)); auto. destruct (lref l) as [r|]; auto. cbn. assert (r <> p) by (intros ->; apply H; simpl; auto).
  destruct (Nat.eqb_spec r (up p j)) as [->|N]; [now rewrite down_up, Nat.eqb_refl|]. symmetry. apply Nat.eqb_neq. intros X. apply N. rewrite <- X. now rewrite up_down.
Qed.

Theorem remove_side_ok b lab : bipartite b ->
  match remove_side (bmem b) lab (bset1 b) (bset2 b) with
  | Ok (g, s, o) => exists k p, nth_error (bset1 b) k = Some p /\ label_of (bmem b) p = lab /\ (forall k' q, k' < k -> nth_error (bset1 b) k' = Some q -> label_of (bmem b) q <> lab) /\ removed b p (mkBi g s o)
  | Err e => e = UB_null /\ forall q, In q (bset1 b) -> label_of (bmem b) q <> lab
  end.
Proof.
  intros B. unfold remove_side. destruct (bi_nodup b B) as [N1 N2]. assert (L1 : forall i, In i (bset1 b) -> i < length (bmem b)) by (intros; eapply bi_lt; eauto; apply in_app_iff; auto). assert (L2 : forall i, In i (bset2 b) -> i < length (bmem b)) by (intros; eapply bi_lt; eauto; apply in_app_iff; auto).
  pose proof (find_label_ok (bmem b) lab (bset1 b) L1 0) as X. destruct (find_label _ _ _ _) as [k|e]; [|exact X]. destruct X as (d & -> & Hd & (p & Ep & Lp) & Hf). cbn [Nat.add bind]. rewrite (get_ok _ _ _ Ep). cbn [bind].
  assert (Hp1 : In p (bset1 b)) by (eapply nth_error_In; eauto). assert (Hp2 : ~ In p (bset2 b)) by (intros H; eapply bi_disjoint; eauto). destruct (nth_ex (bmem b) p (L1 p Hp1)) as [np Enp]. rewrite (get_ok _ _ _ Enp). cbn [bind].
  destruct (unlink_ok p (length (gadj np) + 1) b np B Enp ltac:(lia)) as (g1 & -> & B1 & S1 & W1). cbn [bind]. assert (LS : length (bmem b) = length g1) by (unfold same_nodes in S1; now apply Forall2_length in S1 || (clear - S1; induction S1; cbn; congruence)). set (s := drop d (bset1 b)).
  assert (Es : s = filter (fun i => negb (i =? p)) (bset1 b)) by (now apply filter_drop). assert (Ns : NoDup s) by (rewrite Es; now apply NoDup_filter). assert (Hs : forall i, In i s <-> In i (bset1 b) /\ i <> p) by (intros i; rewrite Es, filter_In; destruct (Nat.eqb_spec i p); cbn; intuition congruence).
  destruct (renumber_ok g1 s Ns) as (g2 & -> & LG2 & P1 & P2); [intros i Hi; rewrite <- LS; apply L1; now apply Hs|]. cbn [bind].
  assert (A2 : forall i n2, nth_error g2 i = Some n2 -> exists n1, nth_error g1 i = Some n1 /\ gadj n2 = gadj n1 /\ glabel n2 = glabel n1 /\ gdeg n2 = gdeg n1 /\ gstate n2 = gstate n1 /\ ggroup n2 = ggroup n1 /\ gdvar n2 = gdvar n1 /\ (forall k, nth_error s k = Some i -> gnum n2 = k) /\ (~ In i s -> gnum n2 = gnum n1)).
  { intros i n2 E2. destruct (in_dec Nat.eq_dec i s) as [Hi|Hi].
    - apply In_nth_error in Hi as [k Ek]. destruct (nth_ex g1 i) as [n1 En1]; [rewrite <- LG2; eapply nth_lt; eauto|]. rewrite (P1 k i n1 Ek En1) in E2. injection E2 as <-. exists n1. splits; auto.
      + intros k' Ek'. change (k = k'). apply (proj1 (NoDup_nth_error s) Ns); [eapply nth_lt; eauto|rewrite Ek, Ek'; reflexivity].
      + intros X. exfalso. apply X. eapply nth_error_In; eauto.
    - rewrite P2 in E2 by auto. exists n2. splits; auto. intros k Ek. exfalso. apply Hi. eapply nth_error_In; eauto. }
  assert (R1 : forall i n l, nth_error g1 i = Some n -> In l (gadj n) -> exists j m, lref l = Some j /\ nth_error g1 j = Some m /\ lnode l = gnum m /\ llabel l = glabel m /\ j <> p /\ i <> p /\ (In i (bset1 b) /\ In j (bset2 b) \/ In i (bset2 b) /\ In j (bset1 b))).
  { intros i n l En Hl. destruct (bi_link _ B1 i n l En Hl) as (j & m & Ej & Em & Q1 & Q2). cbn [bmem] in *. exists j, m.
    assert (Hn : In j (nbrs g1 i)) by (unfold nbrs; rewrite En; unfold targets; apply in_flat_map; exists l; rewrite Ej; simpl; auto).
    pose proof Hn as Hw. apply nbrs_weight in Hw. rewrite W1 in Hw. destruct (Nat.eqb_spec i p); [exfalso; now apply Hw|]. destruct (Nat.eqb_spec j p); [exfalso; now apply Hw|]. splits; auto. exact (bi_cross _ B1 i j Hn). }
  destruct (relink_ok g2 (bset2 b) N2) as (g3 & -> & LG3 & Q1 & Q2).
  { intros i Hi. rewrite LG2, <- LS. auto. }
  { intros i n l Hi En Hl. destruct (A2 i n En) as (n1 & En1 & Ea & _). rewrite Ea in Hl. destruct (R1 i n1 l En1 Hl) as (j & m & Ej & Em & _). exists j. split; auto. rewrite LG2. eapply nth_lt; eauto. }
  cbn [bind]. exists d, p. splits; auto.
  (* what a node of the result looks like *)
  assert (A3 : forall i n3, nth_error g3 i = Some n3 -> exists n1, nth_error g1 i = Some n1 /\ gadj n3 = (if in_dec Nat.eq_dec i (bset2 b) then map (fresh g2) (gadj n1) else gadj n1) /\ glabel n3 = glabel n1 /\ gdeg n3 = gdeg n1 /\ gstate n3 = gstate n1 /\ ggroup n3 = ggroup n1 /\ gdvar n3 = gdvar n1 /\
      (forall k, nth_error s k = Some i -> gnum n3 = k) /\ (~ In i s -> gnum n3 = gnum n1)).
  { intros i n3 E3. destruct (nth_ex g2 i) as [n2 E2]; [rewrite <- LG3; eapply nth_lt; eauto|]. destruct (A2 i n2 E2) as (n1 & En1 & Ea & Z). exists n1. destruct (in_dec Nat.eq_dec i (bset2 b)) as [Hi|Hi].
    - rewrite (Q1 i n2 Hi E2) in E3. injection E3 as <-. cbn. rewrite Ea. destruct Z as (Z1 & Z2 & Z3 & Z4 & Z5 & Z6 & Z7). splits; auto.
    - rewrite Q2 in E3 by auto. assert (n3 = n2) by congruence. subst n3. destruct Z as (Z1 & Z2 & Z3 & Z4 & Z5 & Z6 & Z7). splits; auto. }
  assert (NA : forall i n1, nth_error g1 i = Some n1 -> ~ In p (targets (gadj n1))).
  { intros i n1 En1 H. assert (Hn : In p (nbrs g1 i)) by (unfold nbrs; now rewrite En1). apply nbrs_weight in Hn. rewrite W1, Nat.eqb_refl, orb_true_r in Hn. congruence. }
  assert (TA : forall i n3 n1, gadj n3 = (if in_dec Nat.eq_dec i (bset2 b) then map (fresh g2) (gadj n1) else gadj n1) -> targets (gadj n3) = targets (gadj n1)) by (intros i n3 n1 ->; destruct (in_dec _ _ _); auto using targets_fresh).
  set (b' := mkBi (free_node p g3) (map (down p) s) (map (down p) (bset2 b))).
  assert (WT : forall i j, weight (bmem b') i j = weight g1 (up p i) (up p j)).
  { intros i j. unfold weight, b'. cbn [bmem]. rewrite free_nth. destruct (nth_error g3 (up p i)) as [n3|] eqn:E3.
    - destruct (A3 _ _ E3) as (n1 & En1 & Ea & _). rewrite En1. cbn [option_map moved gadj set_gadj]. rewrite weight_in_moved by (rewrite (TA _ _ _ Ea); eapply NA; eauto). rewrite Ea. destruct (in_dec _ _ _); auto using weight_in_fresh.
    - cbn. apply nth_error_None in E3. rewrite (proj2 (nth_error_None g1 (up p i))); auto. lia. }
  assert (Lb : length (bmem b') = length (bmem b) - 1) by (unfold b', free_node; cbn [bmem]; rewrite map_length, drop_length, LG3, LG2; [now rewrite LS|rewrite LG3, LG2, <- LS; auto]).
  assert (NB : forall i j, In j (nbrs (bmem b') i) -> In (up p j) (nbrs g1 (up p i))) by (intros i j H; apply nbrs_weight in H; apply nbrs_weight; now rewrite <- WT).
  assert (SB : forall i, i < length (bmem b) -> In i (bset1 b) \/ In i (bset2 b)) by (intros; now apply bi_side).
  split; cbn [bset1 bset2]; auto.
  - split.
    + change (Permutation (map (down p) s ++ map (down p) (bset2 b)) (seq 0 (length (bmem b')))). rewrite Lb, <- map_app. apply NoDup_Permutation; [|apply seq_NoDup|].
      * assert (NDa : NoDup (s ++ bset2 b)). { apply NoDup_app_iff. splits; auto. intros x Hx Hy. apply Hs in Hx as [Hx _]. eapply bi_disjoint; eauto. }
        assert (Hpa : ~ In p (s ++ bset2 b)) by (intros H; apply in_app_iff in H as [H|H]; auto; apply Hs in H as [_ H]; congruence).
        apply (NoDup_map_inv (up p)). rewrite map_up_down; auto.
      * intros i. rewrite in_seq, in_map_iff. split.
        -- intros (x & <- & Hx). assert (x <> p /\ x < length (bmem b)) as [H1 H2] by (apply in_app_iff in Hx as [Hx|Hx]; [apply Hs in Hx as [Hx H]; split; auto|split; auto; intros ->; auto]). pose proof (L1 p Hp1). unfold down. destruct (Nat.ltb_spec x p); lia.
        -- intros Hi. exists (up p i). split; [apply down_up|]. pose proof (up_neq p i) as Hne. assert (up p i < length (bmem b)) by (unfold up in *; pose proof (L1 p Hp1); destruct (Nat.ltb_spec i p); lia). apply in_app_iff. destruct (SB _ H); auto. left. apply Hs. auto.
    + intros k i n Ek En. unfold b' in Ek. cbn [bset1 bset2] in Ek. rewrite nth_error_map in Ek. destruct (nth_error s k) as [x|] eqn:Ex; [|discriminate]. injection Ek as <-. unfold b' in En. cbn [bmem] in En. rewrite free_nth in En. assert (x <> p) by (apply (proj1 (Hs x)); eapply nth_error_In; eauto). rewrite up_down in En by auto.
      destruct (nth_error g3 x) as [n3|] eqn:E3; [|discriminate]. injection En as <-. destruct (A3 _ _ E3) as (n1 & _ & _ & _ & _ & _ & _ & _ & Z & _). cbn. auto.
    + intros k i n Ek En. unfold b' in Ek. cbn [bset1 bset2] in Ek. rewrite nth_error_map in Ek. destruct (nth_error (bset2 b) k) as [x|] eqn:Ex; [|discriminate]. injection Ek as <-. unfold b' in En. cbn [bmem] in En. rewrite free_nth in En. assert (Hx : In x (bset2 b)) by (eapply nth_error_In; eauto). assert (x <> p) by (intros ->; auto). rewrite up_down in En by auto.
      destruct (nth_error g3 x) as [n3|] eqn:E3; [|discriminate]. injection En as <-. destruct (A3 _ _ E3) as (n1 & En1 & _ & _ & _ & _ & _ & _ & _ & Z). cbn. rewrite Z by (intros H1; apply Hs in H1 as [H1 _]; eapply bi_disjoint; eauto). exact (bi_num2 _ B1 k x n1 Ex En1).
    + intros i n l En Hl. unfold b' in *. cbn [bmem] in *. rewrite free_nth in En. destruct (nth_error g3 (up p i)) as [n3|] eqn:E3; [|discriminate]. injection En as <-. cbn [moved gadj set_gadj] in Hl. apply in_map_iff in Hl as (l3 & <- & Hl3).
      destruct (A3 _ _ E3) as (n1 & En1 & Ea & _).
      assert (HL : exists l1 j, In l1 (gadj n1) /\ lref l1 = Some j /\ lref l3 = Some j /\ llabel l3 = llabel l1 /\ (In (up p i) (bset2 b) -> lnode l3 = num_at g2 (Some j)) /\ (~ In (up p i) (bset2 b) -> lnode l3 = lnode l1)).
      { rewrite Ea in Hl3. destruct (in_dec Nat.eq_dec (up p i) (bset2 b)) as [Hi|Hi].
        - apply in_map_iff in Hl3 as (l1 & <- & Hl1). destruct (R1 _ _ _ En1 Hl1) as (j & m & Ej & _). exists l1, j. cbn. rewrite Ej. splits; auto. intros; contradiction.
        - destruct (R1 _ _ _ En1 Hl3) as (j & m & Ej & _). exists l3, j. splits; auto. intros; contradiction. }
      destruct HL as (l1 & j & Hl1 & Ej1 & Ej3 & Lb3 & F1 & F2). destruct (R1 _ _ _ En1 Hl1) as (j' & m & Ej' & Em & Q3 & Q4 & Hjp & _ & HC). assert (j' = j) by congruence. subst j'.
      destruct (nth_ex g3 j) as [m3 Em3]; [rewrite LG3, LG2; eapply nth_lt; eauto|]. exists (down p j), (moved p m3). cbn [set_lref lref lnode llabel]. rewrite Ej3. splits; auto.
      * rewrite free_nth, up_down by auto. now rewrite Em3.
      * cbn. destruct (A3 _ _ Em3) as (m1 & Em1 & _ & _ & _ & _ & _ & _ & Z1 & Z2). assert (m1 = m) by congruence. subst m1. destruct HC as [[C1 C2]|[C1 C2]].
        -- rewrite F2 by (intros H; eapply bi_disjoint; eauto). rewrite Z2; auto. intros H1. apply Hs in H1 as [H1 _]. eapply bi_disjoint; eauto.
        -- rewrite F1 by auto. cbn. destruct (nth_ex g2 j) as [m2 Em2]; [rewrite LG2; eapply nth_lt; eauto|]. rewrite Em2. destruct (A2 _ _ Em2) as (m1 & _ & _ & _ & _ & _ & _ & _ & Z3 & _). assert (Hjs : In j s) by (apply Hs; auto). apply In_nth_error in Hjs as [k Ek]. rewrite (Z3 k Ek), (Z1 k Ek). reflexivity.
      * cbn. destruct (A3 _ _ Em3) as (m1 & Em1 & _ & Lm & _). assert (m1 = m) by congruence. subst m1. rewrite Lb3, Q4, Lm. reflexivity.
    + intros i j Hij. apply NB in Hij. pose proof (bi_cross _ B1 _ _ Hij) as HC. cbn [bset1 bset2] in HC. pose proof (up_neq p i). pose proof (up_neq p j).
      assert (M1 : forall x, In (up p x) (bset1 b) -> In x (map (down p) s)) by (intros x Hx; apply in_map_iff; exists (up p x); split; [apply down_up|apply Hs; split; auto; apply up_neq]).
      assert (M2 : forall x, In (up p x) (bset2 b) -> In x (map (down p) (bset2 b))) by (intros x Hx; apply in_map_iff; exists (up p x); split; [apply down_up|auto]). unfold b'. cbn [bset1 bset2]. destruct HC as [[? ?]|[? ?]]; auto.
    + intros i. unfold nbrs, b'. cbn [bmem]. rewrite free_nth. destruct (nth_error g3 (up p i)) as [n3|] eqn:E3; [|constructor]. cbn [option_map moved gadj set_gadj]. destruct (A3 _ _ E3) as (n1 & En1 & Ea & _). rewrite targets_moved, (TA _ _ _ Ea).
      apply (NoDup_map_inv (up p)). rewrite map_up_down by (eapply NA; eauto). pose proof (bi_once _ B1 (up p i)) as H. unfold nbrs in H. cbn [bmem] in H. now rewrite En1 in H.
    + intros i j. rewrite !WT. exact (bi_sym _ B1 _ _).
    + intros i n En. unfold b' in En. cbn [bmem] in En. rewrite free_nth in En. destruct (nth_error g3 (up p i)) as [n3|] eqn:E3; [|discriminate]. injection En as <-. destruct (A3 _ _ E3) as (n1 & En1 & Ea & _ & Dg & _). cbn. rewrite map_length, Dg.
      assert (length (gadj n3) = length (gadj n1)) as -> by (rewrite Ea; destruct (in_dec _ _ _); auto; now rewrite map_length). exact (bi_deg _ B1 _ _ En1).
  - unfold b'. cbn [bset1 bset2]. rewrite map_up_down by (intros H; apply Hs in H as [_ H]; congruence). exact Es.
  - unfold b'. cbn [bset1 bset2]. rewrite map_up_down by auto. symmetry. clear - Hp2. induction (bset2 b) as [|x l IH]; auto. cbn. destruct (Nat.eqb_spec x p) as [->|]; [exfalso; apply Hp2; simpl; auto|]. cbn. f_equal. apply IH. intros X; apply Hp2; simpl; auto.
  - intros i j. rewrite WT, W1. rewrite (proj2 (Nat.eqb_neq _ _) (up_neq p i)), (proj2 (Nat.eqb_neq _ _) (up_neq p j)). reflexivity.
  - intros i n' En. unfold b' in En. cbn [bmem] in En. rewrite free_nth in En. destruct (nth_error g3 (up p i)) as [n3|] eqn:E3; [|discriminate]. injection En as <-. destruct (A3 _ _ E3) as (n1 & En1 & _ & Z1 & _ & Z2 & Z3 & Z4 & _). cbn.
    destruct (nth_ex (bmem b) (up p i)) as [n En]; [rewrite LS; eapply nth_lt; eauto|]. exists n. destruct (F2_nth _ _ _ _ _ S1 En) as (m & Em & X1 & _ & X2 & X3 & X4). assert (m = n1) by congruence. subst m. splits; congruence.
  - rewrite Lb. pose proof (L1 p Hp1). lia.
Qed.

(** * Either list *)
Lemma swapped b p g s o : removed (mkBi (bmem b) (bset2 b) (bset1 b)) p (mkBi g s o) -> removed b p (mkBi g o s).
Proof. intros [H1 H2 H3 H4 H5 H6]. split; auto. exact (bi_swap _ H1). Qed.
Theorem RemoveNodeBipart_spec b lab first : bipartite b ->
  match RemoveNodeBipart b lab first with
  | Ok b' => exists k p, nth_error (side_of b first) k = Some p /\ label_of (bmem b) p = lab /\ (forall k' q, k' < k -> nth_error (side_of b first) k' = Some q -> label_of (bmem b) q <> lab) /\ removed b p b'
  | Err e => e = UB_null /\ forall q, In q (side_of b first) -> label_of (bmem b) q <> lab
  end.
Proof.
  intros B. unfold RemoveNodeBipart. destruct first; cbn [side_of].
  - pose proof (remove_side_ok b lab B) as H. destruct (remove_side _ _ _ _) as [[[g s] o]|e]; exact H.
  - pose proof (remove_side_ok _ lab (bi_swap b B)) as H. cbn [bmem bset1 bset2] in H. destruct (remove_side _ _ _ _) as [[[g s] o]|e]; [|exact H]. cbn [bind]. destruct H as (k & p & H1 & H2 & H3 & H4). exists k, p. splits; auto. now apply swapped.
Qed.
(** The labels of the list lose the first one that matches; those of the other list stay. *)
Lemma map_labels b p b' : removed b p b' -> forall l', incl l' (seq 0 (length (bmem b'))) -> map (label_of (bmem b')) l' = map (label_of (bmem b)) (map (up p) l').
Proof.
  intros R l' H. rewrite map_map. apply map_ext_in. intros i Hi. apply H, in_seq in Hi. destruct (nth_ex (bmem b') i) as [n' E]; [lia|]. destruct (rm_node b p b' R i n' E) as (n & En & El & _). unfold label_of. now rewrite E, En.
Qed.
Theorem RemoveNodeBipart_labels b lab first b' : bipartite b -> RemoveNodeBipart b lab first = Ok b' ->
  named b' first = without_first lab (named b first) /\ named b' (negb first) = named b (negb first).
Proof.
  intros B E. pose proof (RemoveNodeBipart_spec b lab first B) as H. rewrite E in H. destruct H as (k & p & Ek & El & Hf & R). unfold named.
  assert (IN : forall f, incl (side_of b' f) (seq 0 (length (bmem b')))). { intros f x Hx. apply in_seq. split; [lia|]. apply (bi_lt b' x (rm_bi _ _ _ R)), in_app_iff. destruct f; auto. }
  rewrite !(map_labels b p b' R) by auto. assert (EU : forall f, map (up p) (side_of b' f) = filter (fun i => negb (i =? p)) (side_of b f)) by (intros []; cbn [side_of]; apply R). rewrite !EU. destruct (bi_nodup b B) as [N1 N2]. split.
  - assert (ND : NoDup (side_of b first)) by (destruct first; auto). rewrite <- (filter_drop _ _ _ ND Ek). destruct (drop_split _ _ _ Ek) as (l1 & l2 & E1 & L1 & ->). rewrite E1, !map_app. cbn [map].
    assert (H1 : forall q, In q l1 -> label_of (bmem b) q <> lab). { intros q Hq. apply In_nth_error in Hq as [k' Hk']. pose proof (nth_lt _ _ _ Hk'). apply (Hf k'); [lia|]. rewrite E1, nth_error_app1; auto. }
    clear - H1 El. induction l1 as [|x l1 IH]; cbn.
    + assert (eqb_label (label_of (bmem b) p) lab = true) as -> by now apply eqb_label_eq. reflexivity.
    + destruct (eqb_label (label_of (bmem b) x) lab) eqn:X; [apply eqb_label_eq in X; exfalso; apply (H1 x); simpl; auto|]. f_equal. apply IH. intros; apply H1; simpl; auto.
  - f_equal. assert (Hp : ~ In p (side_of b (negb first))). { apply nth_error_In in Ek. intros H. destruct first; cbn in *; eapply bi_disjoint; eauto. }
    clear - Hp. induction (side_of b (negb first)) as [|x l IH]; auto. cbn. destruct (Nat.eqb_spec x p) as [->|]; [exfalso; apply Hp; simpl; auto|]. cbn. f_equal. apply IH. intros X; apply Hp; simpl; auto.
Qed.
End Node.
