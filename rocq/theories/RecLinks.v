(** RecLinks.v -- the links of a node and of a group to the groups of the other side, and changes of the tables that hold them. *)
From Coq Require Import List Arith ZArith Bool QArith Permutation Lia.
From Verif Require Import Base Num ListLib NatSum MatLib GraphModel GraphSpec GraphProof GroupModel GroupSpec GroupProof ModulesModel BipartModel BipartSpec
  MissModel MissSpec RecModel RecSpec RecSets RecMem.
Import ListNotations.
Local Open Scope nat_scope.

(** * Sums of integers *)
Definition Zsum {X} (f : X -> Z) (l : list X) : Z := fold_right (fun x s => (f x + s)%Z) 0%Z l.
Lemma Zsum_ext {X} (f h : X -> Z) l : (forall x, In x l -> f x = h x) -> Zsum f l = Zsum h l.
Proof. induction l as [|x l IH]; intros H; simpl; auto. rewrite H by (simpl; auto). f_equal. apply IH. intros; apply H; simpl; auto. Qed.
Lemma Zsum_0 {X} (f : X -> Z) l : (forall x, In x l -> f x = 0%Z) -> Zsum f l = 0%Z.
Proof. induction l as [|x l IH]; intros H; simpl; auto. rewrite H by (simpl; auto). rewrite IH; auto. intros; apply H; simpl; auto. Qed.
Lemma Zsum_single (f : nat -> Z) n y : Zsum (fun x => if x =? y then f x else 0%Z) (seq 0 n) = if y <? n then f y else 0%Z.
Proof.
  assert (H : forall a, Zsum (fun x => if x =? y then f x else 0%Z) (seq a n) = if (a <=? y) && (y <? a + n) then f y else 0%Z).
  { induction n as [|n IH]; intros a; cbn [seq Zsum fold_right].
    - destruct (Nat.leb_spec a y), (Nat.ltb_spec y (a + 0)); cbn [andb]; auto; lia.
    - fold (Zsum (fun x => if x =? y then f x else 0%Z) (seq (S a) n)). rewrite IH. destruct (Nat.eqb_spec a y) as [->|].
      + rewrite Nat.leb_refl. rewrite (proj2 (Nat.ltb_lt y (y + S n))) by lia. rewrite (proj2 (Nat.leb_gt (S y) y)) by lia. cbn [andb]. lia.
      + destruct (Nat.leb_spec a y), (Nat.leb_spec (S a) y), (Nat.ltb_spec y (S a + n)), (Nat.ltb_spec y (a + S n)); cbn [andb]; lia. }
  specialize (H 0). simpl in H. exact H.
Qed.
Lemma Zsum_count {X} (p : X -> bool) (z : Z) l : Zsum (fun x => if p x then z else 0%Z) l = (Z.of_nat (count p l) * z)%Z.
Proof. induction l as [|x l IH]; [reflexivity|]. cbn [Zsum fold_right]. fold (Zsum (fun x => if p x then z else 0%Z) l). rewrite IH, count_cons. destruct (p x); lia. Qed.

(** * Entries of the tables *)
Lemma add3_ok K n m T F k i j d : tab3 K n m T F -> k < K -> i < n -> j < m -> exists T', add3 T k i j d = Ok T' /\
  tab3 K n m T' (fun a b c => (F a b c + if Nat.eqb a k && (Nat.eqb b i && Nat.eqb c j) then d else 0)%Z).
Proof.
  intros [L HT] Hk Hi Hj. destruct (HT k Hk) as (M & EM & HM). unfold add3. rewrite (get_ok _ _ _ EM). cbn [bind]. rewrite (mat_get _ _ _ _ _ _ HM Hi Hj). cbn [bind].
  destruct (mat_set _ _ _ _ i j (F k i j + d)%Z HM Hi Hj) as (M' & -> & HM'). cbn [bind]. rewrite set_ok by lia. eexists. split; [reflexivity|]. split; [now rewrite length_upd|].
  intros a Ha. rewrite nth_upd. destruct (Nat.eqb_spec a k) as [->|]; cbn [andb].
  - rewrite (proj2 (Nat.ltb_lt _ _)) by lia. eexists. split; [reflexivity|]. eapply mat_ext; [exact HM'|]. intros b c _ _. unfold fupd2. destruct (Nat.eqb_spec b i) as [->|]; cbn [andb]; [|lia].
    destruct (Nat.eqb_spec c j) as [->|]; lia.
  - destruct (HT a Ha) as (Ma & Ea & HMa). exists Ma. split; auto. eapply mat_ext; [exact HMa|]. intros; lia.
Qed.
(** A loop whose rounds add something to every entry. *)
Lemma tab3_loop {X S} (val : S -> list (list (list Z))) K n m (f : S -> X -> res S) (D : X -> nat -> nat -> nat -> Z) l :
  forall (Inv : S -> Prop),
  (forall x s F, In x l -> Inv s -> tab3 K n m (val s) F -> exists s', f s x = Ok s' /\ Inv s' /\ tab3 K n m (val s') (fun a b c => (F a b c + D x a b c)%Z)) ->
  forall s F, Inv s -> tab3 K n m (val s) F -> exists s', foldM f s l = Ok s' /\ Inv s' /\ tab3 K n m (val s') (fun a b c => (F a b c + Zsum (fun x => D x a b c) l)%Z).
Proof.
  intros Inv. induction l as [|x l IH]; intros H s F HI HT.
  - exists s. splits; auto. eapply tab3_ext; [exact HT|]. intros; cbn. lia.
  - cbn [foldM]. destruct (H x s F) as (s1 & -> & HI1 & HT1); simpl; auto. cbn [bind]. destruct (IH (fun y s F Hy => H y s F (or_intror Hy)) s1 _ HI1 HT1) as (s2 & -> & HI2 & HT2).
    exists s2. splits; auto. eapply tab3_ext; [exact HT2|]. intros; cbn. lia.
Qed.
Lemma counts_ok K n m T (F : nat -> nat -> nat -> nat) a b : tab3 K n m T (fun k i j => Z.of_nat (F k i j)) -> a < n -> b < m ->
  counts K T a b = Ok (map Z.of_nat (map (fun k => F k a b) (seq 0 K))).
Proof.
  intros HT Ha Hb. unfold counts. enough (H : forall l cs, (forall k, In k l -> k < K) -> foldM (fun cs k => do m <- get T k; do x <- get2 m a b; Ok (cs ++ [x])) cs l =
    Ok (cs ++ map Z.of_nat (map (fun k => F k a b) l))) by (apply (H _ []); intros k Hk; apply in_seq in Hk; lia).
  induction l as [|k l IH]; intros cs Hl; cbn [foldM map]; [now rewrite app_nil_r|]. rewrite (tab3_get _ _ _ _ _ k a b _ HT) by (simpl in Hl; auto). cbn [bind]. rewrite IH by (simpl in Hl; auto). now rewrite <- app_assoc.
Qed.
(** Counts with those of one node added or taken away. *)
Lemma counts_with_ok K n m T N (F H : nat -> nat -> nat -> nat) n' a v b sg (h : nat -> nat) : tab3 K n m T (fun k i j => Z.of_nat (F k i j)) -> tab3 K n' m N (fun k i j => Z.of_nat (H k i j)) ->
  a < n -> v < n' -> b < m -> (forall k, k < K -> (Z.of_nat (F k a b) + sg * Z.of_nat (H k v b))%Z = Z.of_nat (h k)) ->
  counts_with K sg T N a v b = Ok (map Z.of_nat (map h (seq 0 K))).
Proof.
  intros HT HN Ha Hv Hb Hh. unfold counts_with. enough (G : forall l cs, (forall k, In k l -> k < K) ->
    foldM (fun cs k => do m <- get T k; do x <- get2 m a b; do m <- get N k; do y <- get2 m v b; Ok (cs ++ [(x + sg * y)%Z])) cs l =
    Ok (cs ++ map Z.of_nat (map h l))) by (apply (G _ []); intros k Hk; apply in_seq in Hk; lia).
  induction l as [|k l IH]; intros cs Hl; cbn [foldM map]; [now rewrite app_nil_r|].
  rewrite (tab3_get _ _ _ _ _ k a b _ HT) by (simpl in Hl; auto). rewrite (tab3_get _ _ _ _ _ k v b _ HN) by (simpl in Hl; auto). cbn [bind].
  rewrite Hh by (simpl in Hl; auto). rewrite IH by (simpl in Hl; auto). now rewrite <- app_assoc.
Qed.

(** The links of node [v] of one side to the groups of the other move from group [o] to group [w], or back. *)
Definition goes (o w a : nat) : Z := ((if Nat.eqb a w then 1 else 0) - (if Nat.eqb a o then 1 else 0))%Z.
Lemma shift_groups_ok K n m sg N FN v o w T Ti F Fi : tab3 K n m N FN -> tab3 K n m T F -> tab3 K m n Ti Fi -> v < n -> o < n -> w < n -> exists T' Ti',
  shift_groups K sg N v o w (T, Ti) m = Ok (T', Ti') /\ tab3 K n m T' (fun k a b => F k a b + sg * goes o w a * FN k v b)%Z /\
  tab3 K m n Ti' (fun k b a => Fi k b a + sg * goes o w a * FN k v b)%Z.
Proof.
  intros HN HT HTi Hv Ho Hw. unfold shift_groups.
  assert (Hc : forall i k T Ti F Fi, i < m -> k < K -> tab3 K n m T F -> tab3 K m n Ti Fi -> exists T' Ti', shift_cell sg N v o w i (T, Ti) k = Ok (T', Ti') /\
     tab3 K n m T' (fun k' a b => F k' a b + (if Nat.eqb k' k then if Nat.eqb b i then sg * goes o w a * FN k v i else 0 else 0))%Z /\
     tab3 K m n Ti' (fun k' b a => Fi k' b a + (if Nat.eqb k' k then if Nat.eqb b i then sg * goes o w a * FN k v i else 0 else 0))%Z).
  { clear T Ti F Fi HT HTi. intros i k T Ti F Fi Hi Hk HT HTi. unfold shift_cell. rewrite (tab3_get _ _ _ _ _ k v i _ HN) by auto. set (x := FN k v i).
    destruct (add3_ok K n m T F k o i (- (sg * x))%Z HT) as (T1 & -> & HT1); auto. cbn [bind]. destruct (add3_ok K n m T1 _ k w i (sg * x)%Z HT1) as (T2 & -> & HT2); auto. cbn [bind].
    destruct (add3_ok K m n Ti Fi k i o (- (sg * x))%Z HTi) as (Ti1 & -> & HTi1); auto. cbn [bind]. destruct (add3_ok K m n Ti1 _ k i w (sg * x)%Z HTi1) as (Ti2 & -> & HTi2); auto. cbn [bind].
    exists T2, Ti2. split; [reflexivity|]. split; (eapply tab3_ext; [first [exact HT2|exact HTi2]|]); intros k' a b _ _ _; cbv beta; unfold goes; destruct (k' =? k); cbn [andb]; try lia.
    - destruct (b =? i); rewrite ?andb_true_r, ?andb_false_r; [destruct (a =? o), (a =? w)|]; lia.
    - destruct (a =? i); cbn [andb]; [destruct (b =? o), (b =? w)|]; lia. }
  assert (Hin : forall i T Ti F Fi, i < m -> tab3 K n m T F -> tab3 K m n Ti Fi -> exists T' Ti', foldM (shift_cell sg N v o w i) (T, Ti) (seq 0 K) = Ok (T', Ti') /\
     tab3 K n m T' (fun k a b => F k a b + (if Nat.eqb b i then sg * goes o w a * FN k v i else 0))%Z /\
     tab3 K m n Ti' (fun k b a => Fi k b a + (if Nat.eqb b i then sg * goes o w a * FN k v i else 0))%Z).
  { clear T Ti F Fi HT HTi. intros i T Ti F Fi Hi HT HTi.
    destruct (foldM_seq (fun q (st : list (list (list Z)) * list (list (list Z))) => tab3 K n m (fst st) (fun k a b => F k a b + (if Nat.ltb k q then if Nat.eqb b i then sg * goes o w a * FN k v i else 0 else 0))%Z /\
      tab3 K m n (snd st) (fun k b a => Fi k b a + (if Nat.ltb k q then if Nat.eqb b i then sg * goes o w a * FN k v i else 0 else 0))%Z) (shift_cell sg N v o w i) K (T, Ti)) as ([T' Ti'] & E & H1 & H2).
    - cbn [fst snd]. split; (eapply tab3_ext; [eassumption|]); intros; cbn; lia.
    - intros k [T1 Ti1] Hk [H1 H2]. cbn [fst snd] in *. destruct (Hc i k T1 Ti1 _ _ Hi Hk H1 H2) as (T2 & Ti2 & -> & H3 & H4). eexists. split; [reflexivity|]. cbn [fst snd].
      split; (eapply tab3_ext; [eassumption|]); intros k' a b _ _ _; cbv beta; destruct (Nat.eqb_spec k' k) as [->|].
      + rewrite (proj2 (Nat.ltb_ge k k)), (proj2 (Nat.ltb_lt k (k + 1))) by lia. lia.
      + destruct (Nat.ltb_spec k' k), (Nat.ltb_spec k' (k + 1)); lia.
      + rewrite (proj2 (Nat.ltb_ge k k)), (proj2 (Nat.ltb_lt k (k + 1))) by lia. lia.
      + destruct (Nat.ltb_spec k' k), (Nat.ltb_spec k' (k + 1)); lia.
    - cbn [fst snd] in *. exists T', Ti'. split; [exact E|]. split; (eapply tab3_ext; [eassumption|]); intros k a b Hk _ _; cbv beta; now rewrite (proj2 (Nat.ltb_lt k K)). }
  destruct (foldM_seq (fun q (st : list (list (list Z)) * list (list (list Z))) => tab3 K n m (fst st) (fun k a b => F k a b + (if Nat.ltb b q then sg * goes o w a * FN k v b else 0))%Z /\
      tab3 K m n (snd st) (fun k b a => Fi k b a + (if Nat.ltb b q then sg * goes o w a * FN k v b else 0))%Z) (fun st i => foldM (shift_cell sg N v o w i) st (seq 0 K)) m (T, Ti)) as ([T' Ti'] & E & H1 & H2).
  - cbn [fst snd]. split; (eapply tab3_ext; [eassumption|]); intros; cbn; lia.
  - intros i [T1 Ti1] Hi [H1 H2]. cbn [fst snd] in *. destruct (Hin i T1 Ti1 _ _ Hi H1 H2) as (T2 & Ti2 & -> & H3 & H4). eexists. split; [reflexivity|]. cbn [fst snd].
    split; (eapply tab3_ext; [eassumption|]); intros k a b _ _ _; cbv beta.
    + destruct (Nat.eqb_spec b i) as [->|]; [rewrite (proj2 (Nat.ltb_ge i i)), (proj2 (Nat.ltb_lt i (i + 1))) by lia; lia|]. destruct (Nat.ltb_spec b i), (Nat.ltb_spec b (i + 1)); lia.
    + destruct (Nat.eqb_spec a i) as [->|]; [rewrite (proj2 (Nat.ltb_ge i i)), (proj2 (Nat.ltb_lt i (i + 1))) by lia; lia|]. destruct (Nat.ltb_spec a i), (Nat.ltb_spec a (i + 1)); lia.
  - cbn [fst snd] in *. exists T', Ti'. split; [exact E|]. split; (eapply tab3_ext; [eassumption|]); intros k a b _ Ha Hb; cbv beta.
    + now rewrite (proj2 (Nat.ltb_lt b m)).
    + now rewrite (proj2 (Nat.ltb_lt a m)).
Qed.

Section Links.
Context {A : Type} {ops : NumOps A}.
Implicit Types (g : net A) (P : gpart A).

(** Counting links, or the nodes they lead to. *)
Lemma weight_in_cons (l : link A) ls q : weight_in (l :: ls) q = if eq_ref (lref l) q then Some (lweight l) else weight_in ls q.
Proof. unfold weight_in, eq_ref. simpl. destruct (lref l) as [j|]; auto. destruct (j =? q); auto. Qed.
Lemma weight_in_none (ls : list (link A)) q : ~ In q (targets ls) -> weight_in ls q = None.
Proof.
  induction ls as [|l ls IH]; intros H; auto. rewrite weight_in_cons. unfold targets in H. simpl in H. rewrite in_app_iff in H. unfold eq_ref. destruct (lref l) as [j|]; [|apply IH; tauto].
  destruct (Nat.eqb_spec j q) as [->|]; [exfalso; apply H; left; simpl; auto|apply IH; tauto].
Qed.
Lemma count_links (F : A -> nat -> bool) (ls : list (link A)) sB : NoDup sB -> NoDup (targets ls) -> (forall l, In l ls -> exists q, lref l = Some q /\ In q sB) ->
  count (fun l => match lref l with Some q => F (lweight l) q | None => false end) ls =
  count (fun q => match weight_in ls q with Some w => F w q | None => false end) sB.
Proof.
  intros NB. induction ls as [|l ls IH]; intros ND HL.
  - cbn. symmetry. rewrite count_lsum. apply lsum_0. reflexivity.
  - destruct (HL l) as (q & Eq & Hq); [simpl; auto|]. unfold targets in ND. simpl in ND. rewrite Eq in ND. cbn [app] in ND. inversion ND as [|? ? Nq ND']; subst.
    rewrite count_cons, Eq. rewrite IH by (auto; intros; apply HL; simpl; auto). rewrite !count_lsum.
    rewrite (lsum_ext (fun x => if match weight_in (l :: ls) x with Some w => F w x | None => false end then 1 else 0)
       (fun x => (if x =? q then one (F (lweight l) x) else 0) + (if match weight_in ls x with Some w => F w x | None => false end then 1 else 0))).
    + rewrite lsum_add, (lsum_single (fun x => one (F (lweight l) x))) by auto. unfold one. destruct (F (lweight l) q); reflexivity.
    + intros x _. rewrite weight_in_cons, Eq. unfold eq_ref. rewrite (Nat.eqb_sym q x). destruct (Nat.eqb_spec x q) as [->|]; [|lia]. rewrite (weight_in_none ls q Nq). unfold one. lia.
Qed.
Lemma count_seq_of (f : nat -> bool) (s : list nat) : count f s = count (fun j => match nth_error s j with Some q => f q | None => false end) (seq 0 (length s)).
Proof.
  rewrite !count_lsum. transitivity (lsum (fun q : option nat => if match q with Some q => f q | None => false end then 1 else 0) (map (nth_error s) (seq 0 (length s)))).
  - rewrite <- (lsum_map (@Some nat) (fun q => if match q with Some q => f q | None => false end then 1 else 0)). f_equal. apply nth_ext. intros i. rewrite !nth_error_map.
    destruct (Nat.lt_ge_cases i (length s)) as [Hi|Hi]; [rewrite nth_error_seq by auto; destruct (nth_ex s i Hi) as [x Ex]; simpl; now rewrite Ex|].
    rewrite (proj2 (nth_error_None s i)) by auto. rewrite (proj2 (nth_error_None (seq 0 (length s)) i)) by (rewrite seq_length; auto). reflexivity.
  - rewrite lsum_map. reflexivity.
Qed.

(** How the links with some property lead to the members of a group. *)
Lemma links_to_group g sA sB P c b i p n (f : A -> bool) : crossed g sA sB -> groups_of g sB P c -> nth_error sA i = Some p -> nth_error g p = Some n ->
  foldM (fun x l => if f (lweight l) then do j <- deref (lref l); do m <- get g j; Ok (if GroupModel.in_group m b then x + 1 else x) else Ok x) 0 (gadj n) =
  Ok (count (fun j => (colour c j =? b) && match nth_error sB j with Some q => match weight g p q with Some w => f w | None => false end | None => false end) (seq 0 (length sB))).
Proof.
  intros C I Ep En. assert (Hp : In p sA) by (eapply nth_error_In; eauto). pose proof (hf_link _ _ _ (cr_l _ _ _ C) p n) as HL.
  assert (ND : NoDup (targets (gadj n))) by (pose proof (hf_once _ _ _ (cr_l _ _ _ C) p Hp) as N; unfold nbrs in N; now rewrite En in N).
  set (F := fun w q => f w && in_grp g b q).
  assert (E : forall ls x, (forall l, In l ls -> exists q, lref l = Some q /\ In q sB) ->
     foldM (fun x l => if f (lweight l) then do j <- deref (lref l); do m <- get g j; Ok (if GroupModel.in_group m b then x + 1 else x) else Ok x) x ls =
     Ok (x + count (fun l => match lref l with Some q => F (lweight l) q | None => false end) ls)).
  { induction ls as [|l ls IH]; intros x Hl; cbn [foldM]; [cbn; f_equal; lia|]. destruct (Hl l) as (q & Eq & Hq); [simpl; auto|]. rewrite count_cons, Eq. unfold F at 1. destruct (f (lweight l)); cbn [andb].
    - cbn [deref bind]. apply In_nth_error in Hq as [j Ej]. destruct (hf_num _ _ _ (cr_r _ _ _ C) j q Ej) as (m & Em & _). rewrite (get_ok _ _ _ Em). cbn [bind]. rewrite (in_grp_node g b q m Em).
      rewrite IH by (intros; apply Hl; simpl; auto). f_equal. destruct (in_grp g b q); lia.
    - cbn [bind]. rewrite IH by (intros; apply Hl; simpl; auto). f_equal. }
  rewrite E by (intros l Hl; eapply HL; eauto). cbn [Nat.add]. f_equal. rewrite (count_links F (gadj n) sB (hf_nd _ _ _ (cr_r _ _ _ C)) ND) by (intros l Hl; eapply HL; eauto).
  rewrite count_seq_of. apply count_ext. intros j Hj. apply in_seq in Hj. destruct (nth_error sB j) as [q|] eqn:Eq; [|now rewrite andb_false_r]. unfold weight. rewrite En.
  unfold F, in_grp. rewrite (go_group _ _ _ _ I j q Eq). destruct (weight_in (gadj n) q); [apply andb_comm|now rewrite andb_false_r].
Qed.
Lemma NWeight_ok g sA sB P c b i p k : crossed g sA sB -> groups_of g sB P c -> nth_error sA i = Some p ->
  NWeightLinksToGroup g p b (nofnat k) = Ok (given (ratings g sA sB) c k i b).
Proof.
  intros C I Ep. destruct (hf_num _ _ _ (cr_l _ _ _ C) i p Ep) as (n & En & _). unfold NWeightLinksToGroup. rewrite (get_ok _ _ _ En). cbn [bind].
  rewrite (links_to_group g sA sB P c b i p n (fun w => neqb w (nofnat k)) C I Ep En). unfold given. rewrite (go_len _ _ _ _ I). f_equal. apply count_ext. intros j _. unfold ratings. now rewrite Ep.
Qed.
(** Any link. *)
Definition rated g (sA sB : list nat) (i j : nat) : bool :=
  match nth_error sA i, nth_error sB j with Some p, Some q => match weight g p q with Some _ => true | None => false end | _, _ => false end.
Lemma NLinks_ok g sA sB P c b i p : crossed g sA sB -> groups_of g sB P c -> nth_error sA i = Some p ->
  NLinksToGroup g p b = Ok (count (fun j => (colour c j =? b) && rated g sA sB i j) (seq 0 (length sB))).
Proof.
  intros C I Ep. destruct (hf_num _ _ _ (cr_l _ _ _ C) i p Ep) as (n & En & _). unfold NLinksToGroup. rewrite (get_ok _ _ _ En). cbn [bind].
  pose proof (links_to_group g sA sB P c b i p n (fun _ => true) C I Ep En) as E. cbv beta iota in E. rewrite E. f_equal. apply count_ext. intros j _. unfold rated. now rewrite Ep.
Qed.
(** Sums over the members of a group. *)
Lemma over_group_ok g s P c a G (f : nat -> res nat) (F : nat -> nat) : groups_of g s P c -> NoDup s -> nth_error P a = Some G ->
  (forall i p, nth_error s i = Some p -> f p = Ok (F i)) -> over_group f G = Ok (lsum (fun i => if colour c i =? a then F i else 0) (seq 0 (length s))).
Proof.
  intros I ND EG Hf. unfold over_group.
  assert (E : forall ls (idx : list nat) x, Forall2 (fun (l : link A) i => exists p, lref l = Some p /\ nth_error s i = Some p) ls idx ->
     foldM (fun c l => do i <- deref (lref l); do x <- f i; Ok (c + x)) x ls = Ok (x + lsum F idx)).
  { intros ls idx x H. revert x. induction H as [|l i ls idx (p & E1 & E2) H IH]; intros x; cbn [foldM]; [cbn; f_equal; lia|]. rewrite E1. cbn [deref bind]. rewrite (Hf i p E2). cbn [bind]. rewrite IH. f_equal. simpl. lia. }
  assert (X : exists idx, Forall2 (fun (l : link A) i => exists p, lref l = Some p /\ nth_error s i = Some p) (pnodes G) idx /\ Forall2 (fun p i => nth_error s i = Some p) (members G) idx).
  { assert (Hc : forall l, In l (pnodes G) -> lref l <> None) by (intros l; apply (go_cells _ _ _ _ I); eapply nth_error_In; eauto).
    assert (Hm : forall x, In x (members G) -> exists i, nth_error s i = Some x) by (intros x Hx; apply (go_mem _ _ _ _ I a G x EG) in Hx as (i & Ei & _); eauto).
    unfold members in *. clear - Hc Hm. induction (pnodes G) as [|l ls IH]; [exists []; split; constructor|]. destruct (lref l) as [p|] eqn:Ep; [|exfalso; apply (Hc l); simpl; auto].
    destruct IH as (idx & H1 & H2); [intros; apply Hc; simpl; auto|intros x Hx; apply Hm; unfold targets; simpl; apply in_or_app; auto|].
    destruct (Hm p) as (i & Ei); [unfold targets; simpl; rewrite Ep; simpl; auto|]. exists (i :: idx). split; [constructor; eauto|]. unfold targets. simpl. rewrite Ep. cbn [app]. constructor; auto. }
  destruct X as (idx & X1 & X2). rewrite (E _ _ 0 X1). cbn [Nat.add]. f_equal. rewrite <- lsum_filter. apply lsum_perm. apply NoDup_Permutation.
  - assert (Nm : NoDup (members G)) by (eapply (go_nd _ _ _ _ I); eauto). clear - X2 Nm. induction X2 as [|p i ps is H X IH]; [constructor|]. inversion Nm; subst. constructor; auto. intros Hi.
    assert (Q : exists p', In p' ps /\ nth_error s i = Some p') by (clear - X Hi; induction X as [|a b l l' H X IH]; [destruct Hi|destruct Hi as [->|Hi]; [exists a; simpl; auto|destruct (IH Hi) as (p' & ? & ?); exists p'; simpl; auto]]).
    destruct Q as (p' & Hp' & E). congruence.
  - apply NoDup_filter. apply seq_NoDup.
  - intros i. rewrite filter_In, in_seq, Nat.eqb_eq. split.
    + intros Hi. assert (Q : exists p, In p (members G) /\ nth_error s i = Some p) by (clear - X2 Hi; induction X2 as [|a b l l' H X IH]; [destruct Hi|destruct Hi as [->|Hi]; [exists a; simpl; auto|destruct (IH Hi) as (p' & ? & ?); exists p'; simpl; auto]]).
      destruct Q as (p & Hp & Ei). apply (go_mem _ _ _ _ I a G p EG) in Hp as (i' & Ei' & Ci). assert (i = i') by (eapply nd_pos; eauto). subst i'. split; auto. apply nth_lt in Ei. lia.
    + intros [[_ Hi] Ci]. cbn in Hi. destruct (nth_ex s i Hi) as [p Ep]. assert (Hp : In p (members G)) by (apply (go_mem _ _ _ _ I a G p EG); eauto).
      assert (Q : exists i', In i' idx /\ nth_error s i' = Some p) by (clear - X2 Hp; induction X2 as [|a b l l' H X IH]; [destruct Hp|destruct Hp as [->|Hp]; [exists b; simpl; auto|destruct (IH Hp) as (p' & ? & ?); exists p'; simpl; auto]]).
      destruct Q as (i' & Hi' & Ei'). assert (i = i') by (eapply nd_pos; eauto). now subst i'.
Qed.
Lemma NWeightG2G_ok g sA sB PA cA PB cB a b Ga Gb k : crossed g sA sB -> groups_of g sA PA cA -> groups_of g sB PB cB -> nth_error PA a = Some Ga -> nth_error PB b = Some Gb ->
  NWeightG2GLinks g Ga Gb (nofnat k) = Ok (tally (ratings g sA sB) cA cB k a b).
Proof.
  intros C IA IB Ea Eb. unfold NWeightG2GLinks. destruct (go_nth g sB PB cB b IB) as (G & EG & LG); [rewrite <- (go_length _ _ _ _ IB); eapply nth_lt; eauto|]. rewrite Eb in EG. injection EG as <-. rewrite LG.
  rewrite (over_group_ok g sA PA cA a Ga _ (fun i => given (ratings g sA sB) cB k i b) IA (hf_nd _ _ _ (cr_l _ _ _ C)) Ea).
  - unfold tally. now rewrite (go_len _ _ _ _ IA).
  - intros i p Ep. eapply NWeight_ok; eauto.
Qed.
Lemma links2_ok g sA sB PA cA PB cB a b Ga Gb : crossed g sA sB -> groups_of g sA PA cA -> groups_of g sB PB cB -> nth_error PA a = Some Ga -> nth_error PB b = Some Gb ->
  links2 g Ga Gb = Ok (lsum (fun i => if colour cA i =? a then count (fun j => (colour cB j =? b) && rated g sA sB i j) (seq 0 (length sB)) else 0) (seq 0 (length sA))).
Proof.
  intros C IA IB Ea Eb. unfold links2. destruct (go_nth g sB PB cB b IB) as (G & EG & LG); [rewrite <- (go_length _ _ _ _ IB); eapply nth_lt; eauto|]. rewrite Eb in EG. injection EG as <-. rewrite LG.
  rewrite (over_group_ok g sA PA cA a Ga _ (fun i => count (fun j => (colour cB j =? b) && rated g sA sB i j) (seq 0 (length sB))) IA (hf_nd _ _ _ (cr_l _ _ _ C)) Ea); auto.
  intros i p Ep. eapply NLinks_ok; eauto.
Qed.

(** The tables node-to-group of the other side when node [v] moves. *)
Lemma shift_link_ok K g sA sB v p n sg o w Ni F : crossed g sA sB -> nth_error sA v = Some p -> nth_error g p = Some n -> o < length sA -> w < length sA ->
  tab3 K (length sB) (length sA) Ni F -> exists Ni', foldM (shift_link K sg g o w) Ni (gadj n) = Ok Ni' /\
  tab3 K (length sB) (length sA) Ni' (fun k j a => F k j a + sg * goes o w a * Z.of_nat (one (ratings g sA sB k v j)))%Z.
Proof.
  intros C Ep En Ho Hw HT. assert (Hp : In p sA) by (eapply nth_error_In; eauto). pose proof (hf_link _ _ _ (cr_l _ _ _ C) p n) as HL.
  assert (ND : NoDup (targets (gadj n))) by (pose proof (hf_once _ _ _ (cr_l _ _ _ C) p Hp) as N; unfold nbrs in N; now rewrite En in N).
  set (D := fun (l : link A) k j a => if neqb (lweight l) (nofnat k) && match lref l with Some q => match nth_error sB j with Some q' => q' =? q | None => false end | None => false end then (sg * goes o w a)%Z else 0%Z).
  destruct (tab3_loop (fun x => x) K (length sB) (length sA) (shift_link K sg g o w) D (gadj n) (fun _ => True)) with (s := Ni) (F := F) as (Ni' & E & _ & HT'); auto.
  - intros l T F0 Hl _ HT0. destruct (HL l Hp En Hl) as (q & Eq & Hq). apply In_nth_error in Hq as [j Ej]. destruct (hf_num _ _ _ (cr_r _ _ _ C) j q Ej) as (m & Em & Hm).
    assert (Hj : j < length sB) by (eapply nth_lt; eauto).
    destruct (tab3_loop (fun x => x) K (length sB) (length sA) (fun Ni k => if neqb (lweight l) (nofnat k) then do j <- deref (lref l); do m <- get g j; do Ni <- add3 Ni k (gnum m) o (- sg)%Z; add3 Ni k (gnum m) w sg else Ok Ni)
       (fun k k' j' a => if (k' =? k) && (neqb (lweight l) (nofnat k) && (j' =? j)) then (sg * goes o w a)%Z else 0%Z) (seq 0 K) (fun _ => True)) with (s := T) (F := F0) as (T' & E' & _ & HT'); auto.
    + intros k T1 F1 Hk _ HT1. apply in_seq in Hk. destruct (neqb (lweight l) (nofnat k)); cbn [andb].
      * rewrite Eq. cbn [deref bind]. rewrite (get_ok _ _ _ Em). cbn [bind]. rewrite Hm. destruct (add3_ok K _ _ T1 F1 k j o (- sg)%Z HT1) as (T2 & -> & HT2); auto; try lia. cbn [bind].
        destruct (add3_ok K _ _ T2 _ k j w sg HT2) as (T3 & -> & HT3); auto; try lia. exists T3. splits; auto. eapply tab3_ext; [exact HT3|]. intros k' j' a _ _ _. cbv beta. unfold goes.
        destruct (k' =? k); cbn [andb]; [|lia]. destruct (j' =? j); cbn [andb]; [|lia]. destruct (a =? o), (a =? w); lia.
      * exists T1. splits; auto. eapply tab3_ext; [exact HT1|]. intros k' j' a _ _ _. cbv beta. rewrite andb_false_r. lia.
    + exists T'. splits; auto. eapply tab3_ext; [exact HT'|]. intros k' j' a Hk' Hj' _. cbv beta. f_equal. unfold D. rewrite Eq.
      rewrite (Zsum_ext _ (fun k => if k =? k' then (if neqb (lweight l) (nofnat k) && (j' =? j) then (sg * goes o w a)%Z else 0%Z) else 0%Z)).
      2: { intros k _. rewrite (Nat.eqb_sym k' k). destruct (k =? k'); auto. }
      rewrite (Zsum_single (fun k => if neqb (lweight l) (nofnat k) && (j' =? j) then (sg * goes o w a)%Z else 0%Z)). rewrite (proj2 (Nat.ltb_lt k' K)) by auto.
      replace (match nth_error sB j' with Some q' => q' =? q | None => false end) with (j' =? j); auto. destruct (nth_ex sB j' Hj') as [q' Eq']. rewrite Eq'.
      destruct (Nat.eqb_spec j' j) as [->|Nj], (Nat.eqb_spec q' q) as [->|Nq]; auto; [congruence|]. exfalso. apply Nj. apply (nd_pos sB j' j q); auto. apply (hf_nd _ _ _ (cr_r _ _ _ C)).
  - exists Ni'. split; auto. eapply tab3_ext; [exact HT'|]. intros k j a Hk Hj _. cbv beta. f_equal. unfold D. rewrite Zsum_count. rewrite Z.mul_comm. f_equal. f_equal.
    destruct (nth_ex sB j Hj) as [q Eq]. rewrite Eq.
    assert (E1 : count (fun l : link A => neqb (lweight l) (nofnat k) && match lref l with Some q0 => q =? q0 | None => false end) (gadj n) =
      count (fun l : link A => match lref l with Some q0 => neqb (lweight l) (nofnat k) && (q =? q0) | None => false end) (gadj n)) by (apply count_ext; intros l _; destruct (lref l); auto; apply andb_false_r).
    rewrite E1. rewrite (count_links (fun w q0 => neqb w (nofnat k) && (q =? q0)) (gadj n) sB (hf_nd _ _ _ (cr_r _ _ _ C)) ND) by (intros l Hl; eapply HL; eauto).
    rewrite count_lsum. rewrite (lsum_ext _ (fun x => if x =? q then one (match weight_in (gadj n) x with Some w0 => neqb w0 (nofnat k) | None => false end) else 0)).
    2: { intros x _. rewrite (Nat.eqb_sym q x). destruct (weight_in (gadj n) x); destruct (x =? q); unfold one; rewrite ?andb_true_r, ?andb_false_r; auto. }
    rewrite (lsum_single (fun x => one (match weight_in (gadj n) x with Some w0 => neqb w0 (nofnat k) | None => false end))); [|apply (hf_nd _ _ _ (cr_r _ _ _ C))|eapply nth_error_In; eauto].
    unfold ratings. rewrite Ep, Eq. unfold weight. now rewrite En.
Qed.
End Links.
