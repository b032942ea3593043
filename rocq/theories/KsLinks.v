(** KsLinks.v -- numbers of pairs of nodes between groups of one network, and the tables that hold them. *)
From Coq Require Import List Arith ZArith Bool QArith Permutation Lia.
From Verif Require Import Base Num ListLib NatSum MatLib GraphModel GraphSpec GraphProof GroupModel GroupSpec GroupProof ModulesModel
  NetModel NetCopy MissModel MissSpec RecModel RecSpec RecSets RecMem RecLinks RecStep RecSetup RecRun KsModel KsSpec.
Import ListNotations.
Local Open Scope nat_scope.

Lemma count_one {X} (p : X -> bool) l : count p l = lsum (fun x => one (p x)) l.
Proof. rewrite count_lsum. apply lsum_ext. intros x _. unfold one. destruct (p x); auto. Qed.

Lemma lsum_mul_l {X} (f : X -> nat) m l : lsum (fun x => m * f x) l = m * lsum f l.
Proof. induction l as [|x l IH]; cbn [lsum]; [lia|]. rewrite IH. lia. Qed.

(** * Pairs *)
Section Pairs.
Variable R : nat -> nat -> nat -> bool.
Hypothesis R_sym : forall k i j, R k i j = R k j i.
Hypothesis R_loop : forall k i, R k i i = false.

Lemma tri (f : nat -> nat -> nat) l : (forall i, f i i = 0) ->
  lsum (fun i => lsum (f i) l) l = lsum (fun i => lsum (fun j => if i <? j then f i j + f j i else 0) l) l.
Proof.
  intros Hd. transitivity (lsum (fun i => lsum (fun j => if i <? j then f i j else 0) l) l + lsum (fun j => lsum (fun i => if j <? i then f i j else 0) l) l).
  - rewrite (lsum_swap (fun j i => if j <? i then f i j else 0)), <- lsum_add. apply lsum_ext. intros i _. rewrite <- lsum_add. apply lsum_ext. intros j _. destruct (Nat.ltb_spec i j), (Nat.ltb_spec j i); try lia. replace j with i by lia. rewrite Hd. lia.
  - rewrite <- lsum_add. apply lsum_ext. intros i _. rewrite <- lsum_add. apply lsum_ext. intros j _. destruct (i <? j); lia.
Qed.
Lemma between_sym c k a b : between R c k a b = between R c k b a.
Proof. unfold between. apply lsum_ext. intros i _. apply count_ext. intros j _. unfold joins. now rewrite orb_comm. Qed.
(** Pairs counted once or twice. *)
Lemma tally_between c k a b : tally R c c k a b = between R c k a b * (if a =? b then 2 else 1).
Proof.
  set (l := seq 0 (length c)). set (f := fun i j => one ((colour c i =? a) && (colour c j =? b) && R k i j)).
  transitivity (lsum (fun i => lsum (f i) l) l).
  - unfold tally. fold l. apply lsum_ext. intros i _. unfold given. fold l. rewrite count_one. destruct (colour c i =? a) eqn:E; unfold f; rewrite E; cbn [andb]; auto. symmetry. apply lsum_0. auto.
  - rewrite tri by (intros i; unfold f; rewrite R_loop, andb_false_r; reflexivity). unfold between. fold l. rewrite Nat.mul_comm, <- lsum_mul_l. apply lsum_ext. intros i _. rewrite count_one, <- lsum_mul_l. apply lsum_ext. intros j _.
    unfold f, joins. rewrite (R_sym k j i). destruct (i <? j); cbn [andb]; [|cbn [one]; lia].
    destruct (Nat.eqb_spec a b) as [->|N].
    + rewrite (andb_comm (colour c j =? b)). destruct ((colour c i =? b) && (colour c j =? b)); cbn [orb andb]; unfold one; destruct (R k i j); lia.
    + destruct (Nat.eqb_spec (colour c i) a), (Nat.eqb_spec (colour c j) b), (Nat.eqb_spec (colour c j) a), (Nat.eqb_spec (colour c i) b); try lia; cbn [orb andb one]; unfold one; destruct (R k i j); try lia; try congruence.
Qed.
Lemma halved c k a b : (if a =? b then Nat.div (tally R c c k a b) 2 else tally R c c k a b) = between R c k a b.
Proof. rewrite tally_between. destruct (a =? b); [apply Nat.div_mul; lia|lia]. Qed.

(** One node changes its group. *)
Lemma given_same c v w k b : v < length c -> given R (upd c v w) k v b = given R c k v b.
Proof. intros Hv. pose proof (given_upd R c v w k v b Hv) as X. rewrite R_loop in X. cbn [one] in X. destruct (colour c v =? b), (w =? b); lia. Qed.
Lemma between_upd c v w k a b : v < length c -> Z.of_nat (between R (upd c v w) k a b) =
  (Z.of_nat (between R c k a b) + if Nat.eqb a b then goes (colour c v) w a * Z.of_nat (given R c k v a) else goes (colour c v) w a * Z.of_nat (given R c k v b) + goes (colour c v) w b * Z.of_nat (given R c k v a))%Z.
Proof.
  intros Hv. pose proof (tally_upd R c (upd c v w) v w k a b Hv) as X1. rewrite given_same in X1 by auto.
  pose proof (tally_upd (flip R) c c v w k b a Hv) as X2. rewrite <- !tally_flip in X2.
  assert (G : given (flip R) c k v a = given R c k v a) by (unfold given; apply count_ext; intros j _; unfold flip; now rewrite R_sym). rewrite G in X2.
  pose proof (tally_between c k a b) as Y1. pose proof (tally_between (upd c v w) k a b) as Y2.
  unfold goes. rewrite (Nat.eqb_sym a w), (Nat.eqb_sym a (colour c v)), (Nat.eqb_sym b w), (Nat.eqb_sym b (colour c v)).
  destruct (Nat.eqb_spec a b) as [->|N]; destruct (w =? b), (colour c v =? b); try lia; destruct (w =? a), (colour c v =? a); lia.
Qed.
Lemma between_empty c k a b : csize c a = 0 -> between R c k a b = 0.
Proof. intros H. pose proof (tally_between c k a b) as X. rewrite tally_empty_l in X by auto. destruct (a =? b); lia. Qed.
End Pairs.

(** * Tables *)
Lemma Zsum_add {X} (f h : X -> Z) l : Zsum (fun x => f x + h x)%Z l = (Zsum f l + Zsum h l)%Z.
Proof. induction l as [|x l IH]; [reflexivity|]. unfold Zsum in *. cbn [fold_right]. rewrite IH. lia. Qed.
Lemma copy3_ok K n m T F k i j i' j' : tab3 K n m T F -> k < K -> i < n -> j < m -> i' < n -> j' < m -> exists T', copy3 T k i j i' j' = Ok T' /\
  tab3 K n m T' (fun a b c => if Nat.eqb a k && (Nat.eqb b i' && Nat.eqb c j') then F k i j else F a b c).
Proof.
  intros [L HT] Hk Hi Hj Hi' Hj'. destruct (HT k Hk) as (M & EM & HM). unfold copy3. rewrite (get_ok _ _ _ EM). cbn [bind]. rewrite (mat_get _ _ _ _ _ _ HM Hi Hj). cbn [bind].
  destruct (mat_set _ _ _ _ i' j' (F k i j) HM Hi' Hj') as (M' & -> & HM'). cbn [bind]. rewrite set_ok by lia. eexists. split; [reflexivity|]. split; [now rewrite length_upd|].
  intros a Ha. rewrite nth_upd. destruct (Nat.eqb_spec a k) as [->|]; cbn [andb].
  - rewrite (proj2 (Nat.ltb_lt _ _)) by lia. eexists. split; [reflexivity|]. eapply mat_ext; [exact HM'|]. intros b c _ _. unfold fupd2. destruct (Nat.eqb_spec b i') as [->|]; cbn [andb]; auto; destruct (Nat.eqb_spec c j') as [->|]; auto.
  - destruct (HT a Ha) as (Ma & Ea & HMa). exists Ma. split; auto.
Qed.
Definition sym3 (F : nat -> nat -> nat -> Z) : Prop := forall k a b, F k a b = F k b a.
Lemma sym_loop {X} K n (f : list (list (list Z)) -> X -> res (list (list (list Z)))) (D : X -> nat -> nat -> nat -> Z) l :
  (forall x, sym3 (D x)) -> (forall x T F, In x l -> sym3 F -> tab3 K n n T F -> exists T', f T x = Ok T' /\ tab3 K n n T' (fun k a b => F k a b + D x k a b)%Z) ->
  forall T F, sym3 F -> tab3 K n n T F -> exists T', foldM f T l = Ok T' /\ tab3 K n n T' (fun k a b => F k a b + Zsum (fun x => D x k a b) l)%Z.
Proof.
  intros HD. induction l as [|x l IH]; intros H T F HF HT.
  - exists T. split; auto. eapply tab3_ext; [exact HT|]. intros; cbn. lia.
  - cbn [foldM]. destruct (H x T F) as (T1 & -> & HT1); simpl; auto. cbn [bind]. destruct (IH (fun y T F Hy => H y T F (or_intror Hy)) T1 (fun k a b => F k a b + D x k a b)%Z) as (T2 & -> & HT2); auto.
    + intros k a b. cbv beta. rewrite (HF k a b), (HD x k a b). reflexivity.
    + exists T2. split; auto. eapply tab3_ext; [exact HT2|]. intros; cbn. lia.
Qed.
Definition cross (o w : nat) (x : nat -> Z) (i a b : nat) : Z :=
  if Nat.eqb a b then (if Nat.eqb i a then goes o w a * x a else 0)%Z else ((if Nat.eqb i b then goes o w a * x b else 0) + (if Nat.eqb i a then goes o w b * x a else 0))%Z.
Lemma cross_sym o w x i a b : cross o w x i a b = cross o w x i b a.
Proof. unfold cross. rewrite (Nat.eqb_sym b a). destruct (Nat.eqb_spec a b) as [->|]; lia. Qed.
Lemma ks_cell_ok K n sg N FN v o w i T F k : tab3 K n n N FN -> tab3 K n n T F -> sym3 F -> v < n -> o < n -> w < n -> o <> w -> i < n -> k < K -> exists T',
  ks_cell sg N v o w i T k = Ok T' /\ tab3 K n n T' (fun k' a b => F k' a b + (if Nat.eqb k' k then cross o w (fun b => sg * FN k v b) i a b else 0))%Z.
Proof.
  intros HN HT HF Hv Ho Hw Hne Hi Hk. unfold ks_cell. rewrite (tab3_get _ _ _ _ _ k v i _ HN) by auto. set (x := FN k v i).
  destruct (add3_ok K n n T F k o i (- (sg * x))%Z HT) as (T1 & -> & HT1); auto. cbn [bind]. destruct (add3_ok K n n T1 _ k w i (sg * x)%Z HT1) as (T2 & -> & HT2); auto. cbn [bind].
  destruct (copy3_ok K n n T2 _ k o i i o HT2) as (T3 & -> & HT3); auto. cbn [bind]. destruct (copy3_ok K n n T3 _ k w i i w HT3) as (T4 & -> & HT4); auto.
  exists T4. split; auto. eapply tab3_ext; [exact HT4|]. intros k' a b _ _ _. cbv beta. rewrite !Nat.eqb_refl. unfold cross, goes. destruct (Nat.eqb_spec k' k) as [->|]; cbn [andb]; [|lia]. unfold x. clear - HF Hne.
  pose proof (HF k w i) as F1. pose proof (HF k o i) as F2. revert F1 F2. clear HF. generalize (FN k v) as X. intros X F1 F2.
  repeat (match goal with |- context [Nat.eqb ?x ?y] => destruct (Nat.eqb_spec x y); [subst|]; cbn [andb] end); try congruence; try lia.
Qed.
Lemma ks_shift_ok K n sg N FN v o w T F : tab3 K n n N FN -> tab3 K n n T F -> sym3 F -> v < n -> o < n -> w < n -> o <> w -> exists T',
  ks_shift K sg N v o w T n = Ok T' /\ tab3 K n n T' (fun k a b => F k a b + if Nat.eqb a b then sg * goes o w a * FN k v a else sg * goes o w a * FN k v b + sg * goes o w b * FN k v a)%Z.
Proof.
  intros HN HT HF Hv Ho Hw Hne. unfold ks_shift.
  assert (Hin : forall i T F, In i (seq 0 n) -> sym3 F -> tab3 K n n T F -> exists T', foldM (ks_cell sg N v o w i) T (seq 0 K) = Ok T' /\ tab3 K n n T' (fun k a b => F k a b + cross o w (fun b => sg * FN k v b) i a b)%Z).
  { clear T F HT HF. intros i T F Hi HF HT. apply in_seq in Hi.
    destruct (sym_loop K n (ks_cell sg N v o w i) (fun k k' a b => if Nat.eqb k' k then cross o w (fun b => sg * FN k v b) i a b else 0)%Z (seq 0 K)) with (T := T) (F := F) as (T' & E & HT'); auto.
    - intros k k' a b. destruct (k' =? k); auto. apply cross_sym.
    - intros k T1 F1 Hk HF1 HT1. apply in_seq in Hk. apply (ks_cell_ok K n sg N FN v o w i T1 F1 k); auto; lia.
    - exists T'. split; auto. eapply tab3_ext; [exact HT'|]. intros k a b Hk _ _. cbv beta. f_equal.
      rewrite (Zsum_ext _ (fun k' => if Nat.eqb k' k then cross o w (fun b => sg * FN k' v b) i a b else 0)%Z) by (intros k' _; now rewrite Nat.eqb_sym). rewrite (Zsum_single (fun k' => cross o w (fun b => sg * FN k' v b)%Z i a b)). now rewrite (proj2 (Nat.ltb_lt k K)). }
  destruct (sym_loop K n (fun T i => foldM (ks_cell sg N v o w i) T (seq 0 K)) (fun i k a b => cross o w (fun b => sg * FN k v b)%Z i a b) (seq 0 n)) with (T := T) (F := F) as (T' & E & HT'); auto.
  - intros i k a b. apply cross_sym.
  - exists T'. split; auto. eapply tab3_ext; [exact HT'|]. intros k a b _ Ha Hb. cbv beta. f_equal. unfold cross. destruct (a =? b).
    + rewrite (Zsum_single (fun i => (goes o w a * (sg * FN k v a))%Z)). rewrite (proj2 (Nat.ltb_lt a n)) by auto. lia.
    + rewrite Zsum_add, (Zsum_single (fun i => (goes o w a * (sg * FN k v b))%Z)), (Zsum_single (fun i => (goes o w b * (sg * FN k v a))%Z)). rewrite (proj2 (Nat.ltb_lt a n)), (proj2 (Nat.ltb_lt b n)) by auto. lia.
Qed.


(** * Two lists of nodes that may be the same *)
Section Joined.
Context {A : Type} {ops : NumOps A}.
Implicit Types (g : net A) (P : gpart A).
Record joined g (sA sB : list nat) : Prop := { jn_l : half g sA sB; jn_r : half g sB sA }.
Lemma joined_sbg g g' sA sB : same_but_group g g' -> joined g sA sB -> joined g' sA sB.
Proof. intros S [H1 H2]. split; eauto using half_sbg. Qed.
Lemma j_half_linksok g sA sB p n : joined g sA sB -> In p sA -> nth_error g p = Some n -> linksok g (gadj n).
Proof.
  intros C Hp En l Hl. destruct (hf_link _ _ _ (jn_l _ _ _ C) p n l Hp En Hl) as (q & Eq & Hq). exists q. split; auto.
  apply In_nth_error in Hq as [j Ej]. destruct (hf_num _ _ _ (jn_r _ _ _ C) j q Ej) as (m & Em & _). eapply nth_lt; eauto.
Qed.
Lemma j_links_to_group g sA sB P c b i p n (f : A -> bool) : joined g sA sB -> groups_of g sB P c -> nth_error sA i = Some p -> nth_error g p = Some n ->
  foldM (fun x l => if f (lweight l) then do j <- deref (lref l); do m <- get g j; Ok (if GroupModel.in_group m b then x + 1 else x) else Ok x) 0 (gadj n) =
  Ok (count (fun j => (colour c j =? b) && match nth_error sB j with Some q => match weight g p q with Some w => f w | None => false end | None => false end) (seq 0 (length sB))).
Proof.
  intros C I Ep En. assert (Hp : In p sA) by (eapply nth_error_In; eauto). pose proof (hf_link _ _ _ (jn_l _ _ _ C) p n) as HL.
  assert (ND : NoDup (targets (gadj n))) by (pose proof (hf_once _ _ _ (jn_l _ _ _ C) p Hp) as N; unfold nbrs in N; now rewrite En in N).
  set (F := fun w q => f w && in_grp g b q).
  assert (E : forall ls x, (forall l, In l ls -> exists q, lref l = Some q /\ In q sB) ->
     foldM (fun x l => if f (lweight l) then do j <- deref (lref l); do m <- get g j; Ok (if GroupModel.in_group m b then x + 1 else x) else Ok x) x ls =
     Ok (x + count (fun l => match lref l with Some q => F (lweight l) q | None => false end) ls)).
  { induction ls as [|l ls IH]; intros x Hl; cbn [foldM]; [cbn; f_equal; lia|]. destruct (Hl l) as (q & Eq & Hq); [simpl; auto|]. rewrite count_cons, Eq. unfold F at 1. destruct (f (lweight l)); cbn [andb].
    - cbn [deref bind]. apply In_nth_error in Hq as [j Ej]. destruct (hf_num _ _ _ (jn_r _ _ _ C) j q Ej) as (m & Em & _). rewrite (get_ok _ _ _ Em). cbn [bind]. rewrite (in_grp_node g b q m Em).
      rewrite IH by (intros; apply Hl; simpl; auto). f_equal. destruct (in_grp g b q); lia.
    - cbn [bind]. rewrite IH by (intros; apply Hl; simpl; auto). f_equal. }
  rewrite E by (intros l Hl; eapply HL; eauto). cbn [Nat.add]. f_equal. rewrite (count_links F (gadj n) sB (hf_nd _ _ _ (jn_r _ _ _ C)) ND) by (intros l Hl; eapply HL; eauto).
  rewrite count_seq_of. apply count_ext. intros j Hj. apply in_seq in Hj. destruct (nth_error sB j) as [q|] eqn:Eq; [|now rewrite andb_false_r]. unfold weight. rewrite En.
  unfold F, in_grp. rewrite (go_group _ _ _ _ I j q Eq). destruct (weight_in (gadj n) q); [apply andb_comm|now rewrite andb_false_r].
Qed.
Lemma j_NWeight_ok g sA sB P c b i p k : joined g sA sB -> groups_of g sB P c -> nth_error sA i = Some p ->
  NWeightLinksToGroup g p b (nofnat k) = Ok (given (ratings g sA sB) c k i b).
Proof.
  intros C I Ep. destruct (hf_num _ _ _ (jn_l _ _ _ C) i p Ep) as (n & En & _). unfold NWeightLinksToGroup. rewrite (get_ok _ _ _ En). cbn [bind].
  rewrite (j_links_to_group g sA sB P c b i p n (fun w => neqb w (nofnat k)) C I Ep En). unfold given. rewrite (go_len _ _ _ _ I). f_equal. apply count_ext. intros j _. unfold ratings. now rewrite Ep.
Qed.
Lemma j_NLinks_ok g sA sB P c b i p : joined g sA sB -> groups_of g sB P c -> nth_error sA i = Some p ->
  NLinksToGroup g p b = Ok (count (fun j => (colour c j =? b) && rated g sA sB i j) (seq 0 (length sB))).
Proof.
  intros C I Ep. destruct (hf_num _ _ _ (jn_l _ _ _ C) i p Ep) as (n & En & _). unfold NLinksToGroup. rewrite (get_ok _ _ _ En). cbn [bind].
  pose proof (j_links_to_group g sA sB P c b i p n (fun _ => true) C I Ep En) as E. cbv beta iota in E. rewrite E. f_equal. apply count_ext. intros j _. unfold rated. now rewrite Ep.
Qed.
Lemma j_NWeightG2G_ok g sA sB PA cA PB cB a b Ga Gb k : joined g sA sB -> groups_of g sA PA cA -> groups_of g sB PB cB -> nth_error PA a = Some Ga -> nth_error PB b = Some Gb ->
  NWeightG2GLinks g Ga Gb (nofnat k) = Ok (tally (ratings g sA sB) cA cB k a b).
Proof.
  intros C IA IB Ea Eb. unfold NWeightG2GLinks. destruct (go_nth g sB PB cB b IB) as (G & EG & LG); [rewrite <- (go_length _ _ _ _ IB); eapply nth_lt; eauto|]. rewrite Eb in EG. injection EG as <-. rewrite LG.
  rewrite (over_group_ok g sA PA cA a Ga _ (fun i => given (ratings g sA sB) cB k i b) IA (hf_nd _ _ _ (jn_l _ _ _ C)) Ea).
  - unfold tally. now rewrite (go_len _ _ _ _ IA).
  - intros i p Ep. eapply j_NWeight_ok; eauto.
Qed.
Lemma j_links2_ok g sA sB PA cA PB cB a b Ga Gb : joined g sA sB -> groups_of g sA PA cA -> groups_of g sB PB cB -> nth_error PA a = Some Ga -> nth_error PB b = Some Gb ->
  links2 g Ga Gb = Ok (lsum (fun i => if colour cA i =? a then count (fun j => (colour cB j =? b) && rated g sA sB i j) (seq 0 (length sB)) else 0) (seq 0 (length sA))).
Proof.
  intros C IA IB Ea Eb. unfold links2. destruct (go_nth g sB PB cB b IB) as (G & EG & LG); [rewrite <- (go_length _ _ _ _ IB); eapply nth_lt; eauto|]. rewrite Eb in EG. injection EG as <-. rewrite LG.
  rewrite (over_group_ok g sA PA cA a Ga _ (fun i => count (fun j => (colour cB j =? b) && rated g sA sB i j) (seq 0 (length sB))) IA (hf_nd _ _ _ (jn_l _ _ _ C)) Ea); auto.
  intros i p Ep. eapply j_NLinks_ok; eauto.
Qed.
Lemma j_shift_link_ok K g sA sB v p n sg o w Ni F : joined g sA sB -> nth_error sA v = Some p -> nth_error g p = Some n -> o < length sA -> w < length sA ->
  tab3 K (length sB) (length sA) Ni F -> exists Ni', foldM (shift_link K sg g o w) Ni (gadj n) = Ok Ni' /\
  tab3 K (length sB) (length sA) Ni' (fun k j a => F k j a + sg * goes o w a * Z.of_nat (one (ratings g sA sB k v j)))%Z.
Proof.
  intros C Ep En Ho Hw HT. assert (Hp : In p sA) by (eapply nth_error_In; eauto). pose proof (hf_link _ _ _ (jn_l _ _ _ C) p n) as HL.
  assert (ND : NoDup (targets (gadj n))) by (pose proof (hf_once _ _ _ (jn_l _ _ _ C) p Hp) as N; unfold nbrs in N; now rewrite En in N).
  set (D := fun (l : link A) k j a => if neqb (lweight l) (nofnat k) && match lref l with Some q => match nth_error sB j with Some q' => q' =? q | None => false end | None => false end then (sg * goes o w a)%Z else 0%Z).
  destruct (tab3_loop (fun x => x) K (length sB) (length sA) (shift_link K sg g o w) D (gadj n) (fun _ => True)) with (s := Ni) (F := F) as (Ni' & E & _ & HT'); auto.
  - intros l T F0 Hl _ HT0. destruct (HL l Hp En Hl) as (q & Eq & Hq). apply In_nth_error in Hq as [j Ej]. destruct (hf_num _ _ _ (jn_r _ _ _ C) j q Ej) as (m & Em & Hm).
    assert (Hj : j < length sB) by (eapply nth_lt; eauto).
    destruct (tab3_loop (fun x => x) K (length sB) (length sA) (fun Ni k => if neqb (lweight l) (nofnat k) then do j <- deref (lref l); do m <- get g j; do Ni <- add3 Ni k (gnum m) o (- sg)%Z; add3 Ni k (gnum m) w sg else Ok Ni)
       (fun k k' j' a => if (k' =? k) && (neqb (lweight l) (nofnat k) && (j' =? j)) then (sg * goes o w a)%Z else 0%Z) (seq 0 K) (fun _ => True)) with (s := T) (F := F0) as (T' & E' & _ & HT'); auto.
    + intros k T1 F1 Hk _ HT1. apply in_seq in Hk. destruct (neqb (lweight l) (nofnat k)); cbn [andb].
      * rewrite Eq. cbn [deref bind]. rewrite (get_ok _ _ _ Em). cbn [bind]. rewrite Hm. destruct (add3_ok K _ _ T1 F1 k j o (- sg)%Z HT1) as (T2 & -> & HT2); auto; try lia. cbn [bind].
        destruct (add3_ok K _ _ T2 _ k j w sg HT2) as (T3 & -> & HT3); auto; try lia. exists T3. splits; auto. eapply tab3_ext; [exact HT3|]. intros k' j' a _ _ _. cbv beta. unfold goes.
        destruct (k' =? k); cbn [andb]; [|lia]. destruct (j' =? j); cbn [andb]; [|lia]. destruct (a =? o), (a =? w); lia.
      * exists T1. splits; auto. eapply tab3_ext; [exact HT1|]. intros k' j' a _ _ _. cbv beta. rewrite andb_false_r. lia.
    + exists T'. splits; auto. eapply tab3_ext; [exact HT'|]. intros k' j' a Hk' Hj' _. cbv beta. f_equal. unfold D. rewrite Eq.
      rewrite (Zsum_ext _ (fun k => if k =? k' then (if neqb (lweight l) (nofnat k) && (j' =? j) then (sg * goes o w a)%Z else 0%Z) else 0%Z)).
      2: { intros k _. rewrite (Nat.eqb_sym k' k). destruct (k =? k'); auto. }
      rewrite (Zsum_single (fun k => if neqb (lweight l) (nofnat k) && (j' =? j) then (sg * goes o w a)%Z else 0%Z)). rewrite (proj2 (Nat.ltb_lt k' K)) by auto.
      replace (match nth_error sB j' with Some q' => q' =? q | None => false end) with (j' =? j); auto. destruct (nth_ex sB j' Hj') as [q' Eq']. rewrite Eq'.
      destruct (Nat.eqb_spec j' j) as [->|Nj], (Nat.eqb_spec q' q) as [->|Nq]; auto; [congruence|]. exfalso. apply Nj. apply (nd_pos sB j' j q); auto. apply (hf_nd _ _ _ (jn_r _ _ _ C)).
  - exists Ni'. split; auto. eapply tab3_ext; [exact HT'|]. intros k j a Hk Hj _. cbv beta. f_equal. unfold D. rewrite Zsum_count. rewrite Z.mul_comm. f_equal. f_equal.
    destruct (nth_ex sB j Hj) as [q Eq]. rewrite Eq.
    assert (E1 : count (fun l : link A => neqb (lweight l) (nofnat k) && match lref l with Some q0 => q =? q0 | None => false end) (gadj n) =
      count (fun l : link A => match lref l with Some q0 => neqb (lweight l) (nofnat k) && (q =? q0) | None => false end) (gadj n)) by (apply count_ext; intros l _; destruct (lref l); auto; apply andb_false_r).
    rewrite E1. rewrite (count_links (fun w q0 => neqb w (nofnat k) && (q =? q0)) (gadj n) sB (hf_nd _ _ _ (jn_r _ _ _ C)) ND) by (intros l Hl; eapply HL; eauto).
    rewrite count_lsum. rewrite (lsum_ext _ (fun x => if x =? q then one (match weight_in (gadj n) x with Some w0 => neqb w0 (nofnat k) | None => false end) else 0)).
    2: { intros x _. rewrite (Nat.eqb_sym q x). destruct (weight_in (gadj n) x); destruct (x =? q); unfold one; rewrite ?andb_true_r, ?andb_false_r; auto. }
    rewrite (lsum_single (fun x => one (match weight_in (gadj n) x with Some w0 => neqb w0 (nofnat k) | None => false end))); [|apply (hf_nd _ _ _ (jn_r _ _ _ C))|eapply nth_error_In; eauto].
    unfold ratings. rewrite Ep, Eq. unfold weight. now rewrite En.
Qed.
Lemma j_CopyPartition_light g sA sB P c : joined g sA sB -> groups_of g sA P c -> exists g' Q, CopyPartition g P = Ok (g', Q) /\ same_but_group g g' /\ (forall j, group_of g' j = group_of g j).
Proof.
  intros C I. unfold CopyPartition.
  assert (Hin : forall k G cells h Q, nth_error P k = Some G -> incl cells (pnodes G) -> same_but_group g h -> (forall j, group_of h j = group_of g j) -> (exists G', nth_error Q (length Q - 1) = Some G' /\ plabel G' = k) ->
     exists h' Q', foldM (fun st l => do i <- deref (lref l); AddNodeToGroup st (length Q - 1) i) ((h : net A), (Q : gpart A)) cells = Ok (h', Q') /\ same_but_group g h' /\ (forall j, group_of h' j = group_of g j)).
  { intros k G cells. induction cells as [|l cells IH]; intros h Q EG Hc S HG (G' & EG' & LG'); [exists h, Q; auto|]. cbn [foldM].
    assert (Hl : In l (pnodes G)) by (apply Hc; simpl; auto). destruct (lref l) as [p|] eqn:El; [|exfalso; eapply (go_cells _ _ _ _ I); eauto; eapply nth_error_In; eauto]. cbn [deref bind].
    assert (Hp : In p (members G)) by (unfold members; apply targets_In; eauto). apply (go_mem _ _ _ _ I k G p EG) in Hp as (i & Ei & Ci).
    assert (Ch : joined h sA sB) by (eapply joined_sbg; eauto). destruct (hf_num _ _ _ (jn_l _ _ _ Ch) i p Ei) as (n & En & _).
    destruct (Add_light h Q (length Q - 1) p n G' En EG' (j_half_linksok h sA sB p n Ch (nth_error_In _ _ Ei) En)) as (h' & G2 & E & L2 & _ & _ & S2 & GO). rewrite E. cbn [bind].
    pose proof (IH h' (upd Q (length Q - 1) G2)) as X. rewrite !length_upd in X. apply X; auto.
    - intros x Hx. apply Hc. simpl; auto.
    - eapply sbg_trans; eauto.
    - intros j. rewrite GO. destruct (Nat.eqb_spec j p) as [->|]; auto. rewrite LG'. symmetry. rewrite <- Ci. apply (go_group _ _ _ _ I). auto.
    - exists G2. split; [|congruence]. apply nth_upd_eq. eapply nth_lt; eauto. }
  assert (E : forall Ps h Q, incl Ps P -> same_but_group g h -> (forall j, group_of h j = group_of g j) ->
     exists h' Q', foldM (fun '(g, Q) G => CopyGroup g Q G) ((h : net A), (Q : gpart A)) Ps = Ok (h', Q') /\ same_but_group g h' /\ (forall j, group_of h' j = group_of g j)).
  { induction Ps as [|G Ps IH]; intros h Q Hi S HG; [exists h, Q; auto|]. cbn [foldM]. unfold CopyGroup at 2. cbn [CreateGroup].
    assert (HGP : In G P) by (apply Hi; simpl; auto). apply In_nth_error in HGP as [k EG].
    assert (Lk : plabel G = k) by (destruct (go_nth _ _ _ _ k I) as (G' & EG' & LG'); [rewrite <- (go_length _ _ _ _ I); eapply nth_lt; eauto|]; congruence).
    destruct (Hin k G (pnodes G) h (Q ++ [mkGroup (plabel G) 0 0 0 0 n0 n0 n0 []])) as (h' & Q' & E & S' & HG'); auto using incl_refl.
    { eexists. rewrite app_length. cbn [length]. rewrite Nat.add_sub. rewrite nth_error_app2, Nat.sub_diag by lia. split; [reflexivity|exact Lk]. }
    rewrite app_length in E. cbn [length] in E. rewrite Nat.add_sub in E.
    match goal with |- exists h' Q', bind ?m ?f = _ /\ _ => replace m with (Ok (h', Q')) by (symmetry; exact E) end. cbn [bind]. apply IH; auto. intros x Hx. apply Hi. simpl; auto. }
  destruct (E P g [] (incl_refl _) (sbg_refl g)) as (g' & Q & E' & H1 & H2); auto. exists g', Q. auto.
Qed.
Lemma j_place_side_ok g sA sB : joined g sA sB -> exists g' P', place_side (map Some (seq 0 (length sA))) ((g : net A), (map empty_group (seq 0 (length sA)) : gpart A)) sA = Ok (g', P') /\
  groups_of g' sA P' (seq 0 (length sA)) /\ same_but_group g g' /\ (forall j, ~ In j sA -> group_of g' j = group_of g j).
Proof.
  intros C. set (n := length sA). unfold place_side.
  set (Inv := fun i (st : net A * gpart A) => same_but_group g (fst st) /\ length (snd st) = n /\ (forall k p, k < i -> nth_error sA k = Some p -> exists G, nth_error (snd st) k = Some G /\ alone p k G) /\
    (forall k, i <= k -> k < n -> nth_error (snd st) k = Some (empty_group k)) /\ (forall k p, k < i -> nth_error sA k = Some p -> group_of (fst st) p = Some k) /\
    forall j, ~ In j sA -> group_of (fst st) j = group_of g j).
  assert (E : forall l i st, sA = firstn i sA ++ l -> length (firstn i sA) = i -> Inv i st -> exists st',
     foldM (fun '(g, P) p => do n <- get g p; do k <- get (map Some (seq 0 (length sA))) (gnum n); do k <- deref k; AddNodeToGroup (g, P) k p) st l = Ok st' /\ Inv n st').
  { induction l as [|p l IH]; intros i [h P] E Li (S & L & H1 & H2 & H3 & H4); cbn [fst snd] in *.
    - rewrite app_nil_r in E. assert (Ei : i = n) by (unfold n; rewrite E at 1; auto). subst i. cbn [foldM]. eexists. split; [reflexivity|]. unfold Inv; cbn [fst snd]. auto 10.
    - assert (Ep : nth_error sA i = Some p) by (rewrite E, nth_error_app2 by lia; rewrite Li, Nat.sub_diag; reflexivity). assert (Hi : i < n) by (eapply nth_lt; eauto).
      assert (Ch : joined h sA sB) by (eapply joined_sbg; eauto). destruct (hf_num _ _ _ (jn_l _ _ _ Ch) i p Ep) as (x & Ex & Hx). cbn [foldM]. rewrite (get_ok _ _ _ Ex). cbn [bind]. rewrite Hx.
      rewrite (get_some (seq 0 (length sA)) i i) by (now rewrite nth_error_seq). cbn [deref bind].
      destruct (Add_light h P i p x (empty_group i) Ex (H2 i (le_n _) Hi) (j_half_linksok h sA sB p x Ch (nth_error_In _ _ Ep) Ex)) as (h' & G' & EA & L1 & L2 & (lk & L3 & L4) & S' & GO).
      match goal with |- exists st', bind ?m ?f = _ /\ _ => change (exists st', bind (AddNodeToGroup ((h : net A), P) i p) f = Ok st' /\ Inv n st') end. rewrite EA. cbn [bind].
      apply (IH (i + 1)).
      + rewrite E at 1. rewrite (firstn_snoc sA i p Ep), <- app_assoc. reflexivity.
      + rewrite firstn_length. fold n. lia.
      + unfold Inv. cbn [fst snd]. cj; [eapply sbg_trans; eauto|now rewrite length_upd| | | |].
        * intros k q Hk Eq. rewrite nth_upd, L. rewrite (proj2 (Nat.ltb_lt i n) Hi), andb_true_r. destruct (Nat.eqb_spec k i) as [->|]; [|apply H1; auto; lia]. assert (q = p) by congruence. subst q. exists G'. split; auto.
          unfold alone. split; [exact L1|]. split; [rewrite L2; reflexivity|]. exists lk. split; auto.
        * intros k Hk Hkn. rewrite nth_upd. rewrite (proj2 (Nat.eqb_neq k i)) by lia. cbn [andb]. apply H2; lia.
        * intros k q Hk Eq. rewrite GO. destruct (Nat.eqb_spec q p) as [->|Nq]; [f_equal; cbn; apply (nd_pos sA i k p); auto; apply (jn_l _ _ _ C)|]. apply H3; auto. assert (k <> i) by congruence. lia.
        * intros j Hj. rewrite GO. destruct (Nat.eqb_spec j p) as [->|]; [exfalso; apply Hj; eapply nth_error_In; eauto|auto]. }
  destruct (E sA 0 (g, map empty_group (seq 0 n))) as ([g' P'] & E' & S & L & H1 & H2 & H3 & H4); auto.
  { unfold Inv. cbn [fst snd]. cj; auto using sbg_refl; [now rewrite map_length, seq_length|intros; lia| |intros; lia]. intros k _ Hk. rewrite nth_error_map, nth_error_seq by auto. reflexivity. }
  cbn [fst snd] in *. exists g', P'. cj; auto.
  assert (N : forall k G, nth_error P' k = Some G -> k < n /\ exists p, nth_error sA k = Some p /\ alone p k G).
  { intros k G EG. assert (Hk : k < n) by (rewrite <- L; eapply nth_lt; eauto). split; auto. destruct (nth_ex sA k Hk) as [p Ep]. destruct (H1 k p Hk Ep) as (G' & EG' & HG). exists p. split; auto. congruence. }
  split.
  - apply seq_length.
  - apply coloured_seq.
  - apply nth_ext. intros k. rewrite nth_error_map. destruct (Nat.lt_ge_cases k n) as [Hk|Hk].
    + rewrite nth_error_seq by auto. destruct (nth_ex P' k) as [G EG]; [lia|]. rewrite EG. cbn. destruct (N k G EG) as (_ & p & _ & HL & _). now rewrite HL.
    + rewrite (proj2 (nth_error_None P' k)) by lia. symmetry. apply nth_error_None. rewrite seq_length. auto.
  - intros k G EG. destruct (N k G EG) as (Hk & p & Ep & _ & _ & l & El & Er). unfold members. rewrite El. unfold targets. simpl. rewrite Er. repeat constructor. simpl. tauto.
  - intros k G x EG. destruct (N k G EG) as (Hk & p & Ep & _ & _ & l & El & Er). unfold members. rewrite El. unfold targets. simpl. rewrite Er. simpl. split.
    + intros [<-|[]]. exists k. split; auto. now apply colour_seq.
    + intros (i & Ei & Ci). rewrite colour_seq in Ci by (eapply nth_lt; eauto). subst i. left. congruence.
  - intros G l HG Hl. apply In_nth_error in HG as [k EG]. destruct (N k G EG) as (Hk & p & Ep & _ & _ & l' & El & Er). rewrite El in Hl. destruct Hl as [<-|[]]. congruence.
  - intros k G EG. destruct (N k G EG) as (Hk & p & Ep & _ & Hs & _). rewrite Hs. now rewrite csize_ident.
  - intros i p Ep. rewrite colour_seq by (eapply nth_lt; eauto). apply H3; auto. eapply nth_lt; eauto.
Qed.
End Joined.
