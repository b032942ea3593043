(** RoleBlock.v -- the rows that BlockModel prints. *)
From Coq Require Import List Arith ZArith Bool QArith Qcanon Lia.
From Verif Require Import Base Num ListLib NatSum QcSum ToolsModel ToolsProof IoModel GraphModel GraphSpec GraphProof GroupModel GroupSpec PairSum GroupProof GroupExact ModulesModel ModulesSpec ModulesMod ModulesMap ModulesCopy MissSpec MissSets CommStep RoleModel RoleProof BlockSpec.
Import ListNotations.
Local Open Scope nat_scope.

Section Any.
Context {A : Type} {ops : NumOps A}.
Implicit Types (g : net A) (P : gpart A) (G : grp A).
Variables (g : net A) (P : gpart A).
Hypothesis U : undirected g.
Hypothesis MP : mapped g P.

Lemma mem_lt G i : In G P -> In i (members G) -> i < length g.
Proof. intros HG Hi. apply targets_In in Hi as (l & Hl & Er). destruct (mp_cells _ _ MP G l HG Hl) as (j & n & E1 & E2 & _). rewrite Er in E1. injection E1 as ->. eapply nth_lt; eauto. Qed.
Lemma nlinks G i : In G P -> i < length g -> NLinksToGroup g i (plabel G) = Ok (to_set g i (members G)).
Proof.
  intros HG Li. rewrite NLinksToGroup_spec by (auto; apply U). f_equal. rewrite <- to_set_nbrs by (apply U || apply (mp_once _ _ MP G HG)). apply count_ext. intros j Hj.
  apply (in_grp_home g P); auto; [exact (mapped_good g P MP)|intros; now apply mapped_group|eapply nbrs_lt; eauto; apply U].
Qed.
Lemma ng2g a b Ga Gb : nth_error P a = Some Ga -> nth_error P b = Some Gb ->
  NG2GLinks g P a b = Ok (if a =? b then links_in g (members Ga) else across g (members Ga) (members Gb)).
Proof.
  intros Ea Eb. unfold NG2GLinks. rewrite (get_ok _ _ _ Ea), (get_ok _ _ _ Eb). cbn [bind]. pose proof (nth_error_In _ _ Ea) as Ia. pose proof (nth_error_In _ _ Eb) as Ib.
  assert (H : forall ls x, (forall l, In l ls -> In l (pnodes Ga)) ->
    foldM (fun c l => do i <- deref (lref l); do x <- NLinksToGroup g i (plabel Gb); Ok (c + x)) x ls = Ok (x + across g (targets ls) (members Gb))).
  { induction ls as [|l ls IH]; intros x Hin; [cbn [foldM]; f_equal; change (targets (@nil (link A))) with (@nil nat); rewrite across_nil_l; lia|].
    cbn [foldM]. destruct (mp_cells _ _ MP Ga l Ia (Hin l (or_introl eq_refl))) as (i & n & Er & En & _). rewrite Er. cbn [deref bind].
    rewrite (nlinks Gb i Ib) by (eapply nth_lt; eauto). cbn [bind]. rewrite IH by (intros; apply Hin; simpl; auto). f_equal. unfold targets. cbn [flat_map]. rewrite Er. cbn [app].
    unfold across. cbn [lsum]. unfold to_set. lia. }
  rewrite H by auto. cbn [bind]. destruct (Nat.eqb_spec a b) as [->|]; [|reflexivity]. rewrite Ea in Eb. injection Eb as ->. fold (members Gb).
  pose proof (proj1 (links_twice g (members Gb) U (mp_once _ _ MP Gb Ib) (fun i => mem_lt Gb i Ib))) as T.
  replace (across g (members Gb) (members Gb)) with (2 * links_in g (members Gb)).
  - f_equal. cbn [Nat.add]. rewrite Nat.mul_comm. apply Nat.div_mul. lia.
  - rewrite <- T. unfold across. apply lsum_ext. intros i _. rewrite to_set_nbrs; [reflexivity|apply U|apply (mp_once _ _ MP Gb Ib)].
Qed.

(** * The count of nodes and links *)
Fixpoint sum_links (l : list (list nat)) : nat := match l with [] => 0 | T :: r => links_in g T + across g T (concat r) + sum_links r end.
Lemma across_app_r S T1 T2 : across g S (T1 ++ T2) = across g S T1 + across g S T2.
Proof. unfold across. rewrite <- lsum_add. apply lsum_ext. intros i _. apply count_app. Qed.
Lemma sum_links_in l : NoDup (concat l) -> (forall i, In i (concat l) -> i < length g) -> sum_links l = links_in g (concat l) /\
  lsum (fun S => links_in g S + links_tot g S) l = links_in g (concat l) + links_tot g (concat l).
Proof.
  induction l as [|T l IH]; intros ND R; cbn [sum_links concat lsum].
  - destruct (links_nil g) as (-> & -> & _). auto.
  - cbn [concat] in ND, R. destruct (links_union g U T (concat l) ND) as [E1 E2]; [intros; apply R, in_or_app; auto|]. rewrite E1.
    apply NoDup_app_iff in ND as (_ & ND & _). destruct (IH ND) as [-> ->]; [intros; apply R, in_or_app; auto|]. lia.
Qed.
Lemma NoDup_placed : NoDup (concat (map members P)).
Proof.
  rewrite <- flat_map_concat_map. apply NoDup_flat; [apply (NoDup_labels plabel), MP|apply MP|]. intros G H i HG HH Hi Hi'. pose proof (mp_disjoint _ _ MP G H i HG HH Hi Hi') as E.
  pose proof (mp_labels _ _ MP) as ND. clear - HG HH E ND. induction P as [|K Q IH]; [destruct HG|]. cbn [map] in ND. inversion ND; subst. destruct HG as [->|HG], HH as [->|HH]; auto.
  - destruct H2. rewrite E. now apply in_map.
  - destruct H2. rewrite <- E. now apply in_map.
Qed.
Lemma placed_lt i : In i (concat (map members P)) -> i < length g.
Proof. intros Hi. rewrite <- flat_map_concat_map in Hi. apply in_flat_map in Hi as (G & HG & Hi). now apply (mem_lt G). Qed.
Lemma skipn_nth {B} (l : list B) k x : nth_error l k = Some x -> skipn k l = x :: skipn (S k) l.
Proof. revert k. induction l as [|y l IH]; intros [|k] E; try discriminate; cbn in *; [congruence|]. rewrite (IH k E). reflexivity. Qed.
Lemma filled_size G : In G P -> (0 <? psize G)%Z = some_in (plabel G, members G).
Proof.
  intros HG. destruct (mp_counts _ _ MP G HG) as (-> & _). unfold some_in. cbn [snd]. destruct (members G); [reflexivity|]. cbn [length]. apply Z.ltb_lt. lia.
Qed.
Lemma not_filled G : In G P -> (0 <? psize G)%Z = false -> members G = [].
Proof. intros HG. rewrite (filled_size G HG). unfold some_in. cbn [snd]. destruct (members G); congruence. Qed.
Lemma count_inner k1 G1 m : nth_error P k1 = Some G1 -> forall k links, k1 < k -> k + m = length P ->
  foldM (fun links k2 => do G2 <- get P k2; if (0 <? psize G2)%Z then do x <- NG2GLinks g P k1 k2; Ok (links + Z.of_nat x)%Z else Ok links) links (seq k m)
  = Ok (links + Z.of_nat (across g (members G1) (concat (map members (skipn k P)))))%Z.
Proof.
  intros E1. induction m as [|m IH]; intros k links Lk Hm; cbn [seq foldM].
  - rewrite skipn_all2 by lia. cbn [map concat]. rewrite across_nil_r. f_equal. lia.
  - destruct (nth_ex P k) as [G2 E2]; [lia|]. rewrite (get_ok _ _ _ E2). cbn [bind]. rewrite (skipn_nth P k G2 E2). cbn [map concat]. rewrite across_app_r.
    destruct (0 <? psize G2)%Z eqn:F.
    + rewrite (ng2g k1 k G1 G2 E1 E2), (proj2 (Nat.eqb_neq k1 k)) by lia. cbn [bind]. rewrite IH by lia. f_equal. lia.
    + rewrite (not_filled G2 (nth_error_In _ _ E2) F), across_nil_r. cbn [bind]. apply IH; lia.
Qed.
Lemma count_outer m : forall k nodes links, k + m = length P -> foldM (fun '(nodes, links) k1 =>
    do G1 <- get P k1;
    if (0 <? psize G1)%Z then
      do links <- foldM (fun links k2 =>
        do G2 <- get P k2;
        if (0 <? psize G2)%Z then do x <- NG2GLinks g P k1 k2; Ok (links + Z.of_nat x)%Z else Ok links)
        (links + pin G1)%Z (seq (S k1) (length P - S k1));
      Ok ((nodes + psize G1)%Z, links)
    else Ok (nodes, links)) (nodes, links) (seq k m)
  = Ok (nodes + Z.of_nat (length (concat (map members (skipn k P)))), links + Z.of_nat (sum_links (map members (skipn k P))))%Z.
Proof.
  induction m as [|m IH]; intros k nodes links Hm; cbn [seq].
  - cbn [foldM]. rewrite skipn_all2 by lia. cbn. f_equal. f_equal; lia.
  - cbn [foldM]. destruct (nth_ex P k) as [G1 E1]; [lia|]. rewrite (get_ok _ _ _ E1). cbn [bind]. rewrite (skipn_nth P k G1 E1). cbn [map concat sum_links]. rewrite app_length.
    pose proof (nth_error_In _ _ E1) as I1. destruct (0 <? psize G1)%Z eqn:F.
    + rewrite (count_inner k G1 (length P - S k) E1 (S k)) by lia. cbn [bind]. rewrite IH by lia. destruct (mp_counts _ _ MP G1 I1) as (-> & -> & _). f_equal. f_equal; lia.
    + rewrite (not_filled G1 I1 F). cbn [bind]. rewrite IH by lia. rewrite across_nil_l. destruct (links_nil g) as (-> & _). f_equal.
Qed.
Lemma bm_count_spec : bm_count g P = Ok (Z.of_nat (length (placed (abs P))), Z.of_nat (links_in g (placed (abs P)))).
Proof.
  unfold bm_count. rewrite (count_outer (length P) 0 0%Z 0%Z eq_refl). cbn [skipn]. destruct (sum_links_in (map members P) NoDup_placed placed_lt) as [-> _]. unfold placed, abs. rewrite map_map. reflexivity.
Qed.
Lemma rows_inner {B} (val : nat -> nat -> B -> res B) (f : grp A -> grp A -> B) k1 G1 m : (forall k2 G2 b, nth_error P k2 = Some G2 -> val k1 k2 b = Ok (f G1 G2)) ->
  forall k bij (rows : list (nat * nat * B)), k + m = length P -> exists bij',
  foldM (fun '(bij, rows) k2 => do G2 <- get P k2; if (0 <? psize G2)%Z then do bij <- val k1 k2 bij; Ok (bij, rows ++ [(plabel G1 + 1, plabel G2 + 1, bij)]) else Ok (bij, rows)) (bij, rows) (seq k m)
  = Ok (bij', rows ++ map (fun G2 => (plabel G1 + 1, plabel G2 + 1, f G1 G2)) (filter (fun G => 0 <? psize G)%Z (skipn k P))).
Proof.
  intros Hv. induction m as [|m IH]; intros k bij rows Hm; cbn [seq].
  - exists bij. cbn [foldM]. rewrite skipn_all2 by lia. cbn. now rewrite app_nil_r.
  - destruct (nth_ex P k) as [G2 E2]; [lia|]. cbn [foldM]. rewrite (get_ok _ _ _ E2). cbn [bind]. rewrite (skipn_nth P k G2 E2). cbn [filter]. destruct (0 <? psize G2)%Z.
    + rewrite (Hv k G2 bij E2). cbn [bind map]. destruct (IH (S k) (f G1 G2) (rows ++ [(plabel G1 + 1, plabel G2 + 1, f G1 G2)])) as [b' E]; [lia|]. exists b'. rewrite E. now rewrite <- app_assoc.
    + cbn [bind]. apply IH. lia.
Qed.
Lemma rows_outer {B} (val : nat -> nat -> B -> res B) (f : grp A -> grp A -> B) m : (forall k1 k2 G1 G2 b, nth_error P k1 = Some G1 -> nth_error P k2 = Some G2 -> val k1 k2 b = Ok (f G1 G2)) ->
  forall k bij (rows : list (nat * nat * B)), k + m = length P -> exists bij',
  foldM (fun st k1 => do G1 <- get P k1; if (0 <? psize G1)%Z then
    foldM (fun '(bij, rows) k2 => do G2 <- get P k2; if (0 <? psize G2)%Z then do bij <- val k1 k2 bij; Ok (bij, rows ++ [(plabel G1 + 1, plabel G2 + 1, bij)]) else Ok (bij, rows)) st (seq 0 (length P))
    else Ok st) (bij, rows) (seq k m)
  = Ok (bij', rows ++ flat_map (fun G1 => map (fun G2 => (plabel G1 + 1, plabel G2 + 1, f G1 G2)) (filter (fun G => 0 <? psize G)%Z P)) (filter (fun G => 0 <? psize G)%Z (skipn k P))).
Proof.
  intros Hv. induction m as [|m IH]; intros k bij rows Hm; cbn [seq].
  - exists bij. cbn [foldM]. rewrite skipn_all2 by lia. cbn. now rewrite app_nil_r.
  - destruct (nth_ex P k) as [G1 E1]; [lia|]. cbn [foldM]. rewrite (get_ok _ _ _ E1). cbn [bind]. rewrite (skipn_nth P k G1 E1). cbn [filter]. destruct (0 <? psize G1)%Z.
    + destruct (rows_inner val f k G1 (length P) (fun k2 G2 b => Hv k k2 G1 G2 b E1) 0 bij rows eq_refl) as [b1 E]. rewrite E. cbn [bind skipn flat_map].
      destruct (IH (S k) b1 (rows ++ map (fun G2 => (plabel G1 + 1, plabel G2 + 1, f G1 G2)) (filter (fun G => (0 <? psize G)%Z) P))) as [b' E']; [lia|]. exists b'. rewrite E'. now rewrite <- app_assoc.
    + cbn [bind]. apply IH. lia.
Qed.
Lemma label_pos a b Ga Gb : nth_error P a = Some Ga -> nth_error P b = Some Gb -> (a =? b) = (plabel Ga =? plabel Gb).
Proof.
  intros Ea Eb. destruct (Nat.eqb_spec a b) as [->|N]; [rewrite Ea in Eb; injection Eb as ->; symmetry; apply Nat.eqb_refl|]. symmetry. apply Nat.eqb_neq. intros E. apply N.
  apply (proj1 (NoDup_nth_error (map plabel P)) (mp_labels _ _ MP)); [rewrite map_length; eapply nth_lt; eauto|]. rewrite !nth_error_map, Ea, Eb. cbn. congruence.
Qed.
Lemma filter_abs : map (fun G => (plabel G, members G)) (filter (fun G => 0 <? psize G)%Z P) = used_groups (abs P).
Proof.
  unfold used_groups, abs. assert (H : forall Q, (forall G, In G Q -> In G P) -> map (fun G => (plabel G, members G)) (filter (fun G => 0 <? psize G)%Z Q) = filter some_in (map (fun G => (plabel G, members G)) Q)); [|apply H; auto].
  induction Q as [|G Q IH]; intros H; [reflexivity|]. cbn [filter map]. rewrite (filled_size G) by (apply H; simpl; auto). destruct (some_in (plabel G, members G)); cbn [map]; rewrite IH by (intros; apply H; simpl; auto); reflexivity.
Qed.
End Any.

Section Exact.
Variables ex sq : Qc -> Qc.
#[local] Instance opsB : NumOps Qc := Qc_ops ex sq.
Lemma zA_mul a b : zA (a * b)%Z = (zA a * zA b)%Qc.
Proof. change (Q2Qc (inject_Z (a * b)) = Q2Qc (inject_Z a) * Q2Qc (inject_Z b))%Qc. apply Qc_is_canon. cbn [this Q2Qc Qcmult]. rewrite !Qred_correct. rewrite inject_Z_mult. reflexivity. Qed.
Lemma zA_sub1 a : zA (a - 1)%Z = (zA a - 1)%Qc.
Proof. change (Q2Qc (inject_Z (a - 1)) = Q2Qc (inject_Z a) - Q2Qc 1)%Qc. apply Qc_is_canon. unfold Qcminus. cbn [this Q2Qc Qcplus Qcopp]. rewrite !Qred_correct. unfold Qeq. cbn. lia. Qed.
Lemma zA_4 a : zA (4 * a)%Z = ((1 + 1) * ((1 + 1) * zA a))%Qc.
Proof. rewrite zA_mul. change (zA 4) with ((1 + 1) * (1 + 1))%Qc || (replace (zA 4) with ((1 + 1) * (1 + 1))%Qc by (apply Qc_is_canon; reflexivity)). ring. Qed.
Lemma Qcinv_mult (x y : Qc) : (/ (x * y) = / x * / y)%Qc.
Proof. apply Qc_is_canon. cbn [this Q2Qc Qcmult Qcinv]. rewrite !Qred_correct. apply Qinv_mult_distr. Qed.
Lemma Qsum_drop {X} (f : X -> Qc) (c : X -> bool) l : (forall x, In x l -> c x = false -> f x = 0%Qc) -> Qsum f (filter c l) = Qsum f l.
Proof.
  induction l as [|x l IH]; intros H; [reflexivity|]. cbn [filter Qsum]. rewrite <- IH by (intros; apply H; simpl; auto). destruct (c x) eqn:E; [reflexivity|]. rewrite (H x (or_introl eq_refl) E). ring.
Qed.
Lemma filter_all {X} (c : X -> bool) l : (forall x, In x l -> c x = true) -> filter c l = l.
Proof. induction l as [|x l IH]; intros H; [reflexivity|]. cbn [filter]. rewrite (H x (or_introl eq_refl)), IH by (intros; apply H; simpl; auto). reflexivity. Qed.
Lemma half_div (m x : Qc) : (m / x = m / (x / (1 + 1)) / (1 + 1))%Qc.
Proof.
  unfold Qcdiv. rewrite !Qcinv_mult. replace (/ / (1 + 1))%Qc with (1 + 1)%Qc by (apply Qc_is_canon; reflexivity). transitivity (m * / x * ((1 + 1) * / (1 + 1)))%Qc; [|ring].
  replace ((1 + 1) * / (1 + 1))%Qc with 1%Qc by (apply Qc_is_canon; reflexivity). ring.
Qed.
Variables (g : net Qc) (P : gpart Qc).
Hypothesis U : undirected g.
Hypothesis MP : mapped g P.
Lemma bm_value_spec t k1 k2 G1 G2 b : t <> BM_other -> nth_error P k1 = Some G1 -> nth_error P k2 = Some G2 ->
  bm_value g P t (Z.of_nat (links_in g (placed (abs P)))) (link_density g (abs P)) k1 k2 b = Ok (block_entry g (abs P) sq t (plabel G1, members G1) (plabel G2, members G2)).
Proof.
  intros Ht E1 E2. unfold bm_value. rewrite (get_ok _ _ _ E1), (get_ok _ _ _ E2), (ng2g g P U MP k1 k2 G1 G2 E1 E2). cbn [bind]. pose proof (label_pos g P MP k1 k2 G1 G2 E1 E2) as EL.
  destruct (mp_counts _ _ MP G1 (nth_error_In _ _ E1)) as (S1 & I1 & T1 & _). destruct (mp_counts _ _ MP G2 (nth_error_In _ _ E2)) as (S2 & I2 & T2 & _).
  set (nb := if k1 =? k2 then zA (pin G1) else nofnat _).
  assert (EB : nb = q (between g (plabel G1, members G1) (plabel G2, members G2))).
  { unfold nb, between. cbn [fst snd]. rewrite <- EL, I1. destruct (k1 =? k2); reflexivity. }
  set (pr := if k1 =? k2 then ndiv _ _ else zA _).
  assert (EP : pr = pairs (plabel G1, members G1) (plabel G2, members G2)).
  { unfold pr, pairs. cbn [fst snd]. rewrite <- EL, S1, S2. destruct (k1 =? k2); [|rewrite zA_mul; reflexivity]. rewrite zA_mul, zA_sub1. change (zA (Z.of_nat ?n)) with (q n). reflexivity. }
  destruct t; try congruence; f_equal; unfold block_entry; rewrite ?EB, ?EP; try reflexivity.
  - cbn [fst]. rewrite <- EL. unfold pairs, between. cbn [fst snd]. rewrite <- EL. destruct (k1 =? k2) eqn:Ek.
    + rewrite S1, zA_mul, zA_sub1. change (zA (Z.of_nat (length (members G1)))) with (q (length (members G1))). cbn [ndiv nofnat opsB Qc_ops]. change (Q2Qc _) with (q (links_in g (members G1))) || idtac.
      apply half_div.
    + rewrite S1, S2, zA_mul. reflexivity.
  - rewrite I1, I2, T1, T2, <- !Nat2Z.inj_add, !zA_mul. unfold all_links, ends. cbn [snd]. cbn [nsub ndiv opsB Qc_ops].
    replace (zA 4) with ((1 + 1) * (1 + 1))%Qc by (apply Qc_is_canon; reflexivity). change (zA (Z.of_nat (links_in g (placed (abs P))))) with (q (links_in g (placed (abs P)))).
    set (L := q (links_in g (placed (abs P)))). replace ((1 + 1) * (1 + 1) * L * L)%Qc with ((1 + 1) * L * ((1 + 1) * L))%Qc by ring. reflexivity.
Qed.
(** The rows. *)
Theorem BlockModel_rows t : t <> BM_other ->
  BlockModel g P t = Ok (flat_map (fun x => map (fun y => (fst x + 1, fst y + 1, block_entry g (abs P) sq t x y)) (used_groups (abs P))) (used_groups (abs P))).
Proof.
  intros Ht. unfold BlockModel. rewrite (bm_count_spec g P U MP). cbn [bind].
  set (pr := ndiv _ _). assert (EP : pr = link_density g (abs P)).
  { unfold pr, link_density, all_links. rewrite zA_mul, zA_sub1. reflexivity. }
  rewrite EP. clear pr EP.
  destruct (rows_outer P (bm_value g P t (Z.of_nat (links_in g (placed (abs P)))) (link_density g (abs P)))
    (fun G1 G2 => block_entry g (abs P) sq t (plabel G1, members G1) (plabel G2, members G2)) (length P) (fun k1 k2 G1 G2 b => bm_value_spec t k1 k2 G1 G2 b Ht) 0 n0 [] eq_refl) as [b' E].
  refine (eq_trans (f_equal (fun r => bind r _) E) _). cbn [bind app skipn]. f_equal. rewrite <- (filter_abs g P MP). rewrite flat_map_concat_map, (flat_map_concat_map _ (map _ _)), map_map. f_equal. apply map_ext. intros G1.
  rewrite map_map. reflexivity.
Qed.
(** Summed over the diagonal, the entries of type e are the modularity. *)
Theorem block_diagonal : covering (length g) (abs P) ->
  Qsum (fun x => block_entry g (abs P) sq BM_e x x) (used_groups (abs P)) = pair_modularity (length g) (unit_weight g) (same_home (abs P)).
Proof.
  intros C. rewrite <- (groups_modularity (length g) (unit_weight g) (unit_sym g U) (unit_loop g U) (abs P) (good_mapped g P MP) _ eq_refl).
  set (T := all_sum (length g) (unit_weight g)).
  pose proof (sum_links_in g U (map members P) (NoDup_placed g P MP) (placed_lt g P MP)) as [_ ES].
  assert (EC : concat (map members P) = placed (abs P)) by (unfold placed, abs; now rewrite map_map). rewrite EC in ES.
  assert (ND : NoDup (placed (abs P))) by (rewrite <- EC; exact (NoDup_placed g P MP)).
  assert (R : forall i, In i (placed (abs P)) -> i < length g) by (rewrite <- EC; exact (placed_lt g P MP)).
  destruct (links_twice g (placed (abs P)) U ND R) as [D1 D2].
  assert (ED : links_in g (placed (abs P)) + links_tot g (placed (abs P)) = 2 * links_in g (placed (abs P))).
  { rewrite <- D1. rewrite Nat.add_comm, <- D2. apply lsum_ext. intros i _. unfold degree. rewrite <- (filter_all (fun j => mem j (placed (abs P))) (nbrs g i)) at 1; [reflexivity|]. intros j Hj. apply mem_In.
    destruct (nbrs_lt g i j (un_wf g U) Hj) as [_ Lj]. specialize (C j Lj). destruct (home (abs P) j) as [lab|] eqn:EH; [|congruence]. apply (home_iff _ _ _ (good_mapped g P MP)) in EH as (l & Hl & Hj').
    unfold placed. apply in_concat. exists l. split; auto. apply in_map_iff. exists (lab, l). auto. }
  assert (ET : T = ((1 + 1) * all_links g (abs P))%Qc).
  { unfold T. rewrite <- (groups_total (length g) (unit_weight g) (unit_sym g U) (unit_loop g U) (abs P) (good_mapped g P MP) C). unfold all_links.
    rewrite (Qsum_ext _ (fun x => q (links_in g (snd x) + links_tot g (snd x)))) by (intros x _; rewrite Qc_of_nat_add, links_tot_Qc, links_in_Qc; apply Qcplus_comm).
    rewrite <- Qc_lsum. replace (lsum (fun x => links_in g (snd x) + links_tot g (snd x)) (abs P)) with (2 * links_in g (placed (abs P))).
    - replace (2 * links_in g (placed (abs P))) with (links_in g (placed (abs P)) + links_in g (placed (abs P))) by lia. rewrite Qc_of_nat_add. ring.
    - rewrite <- ED, <- ES. unfold abs. rewrite !lsum_map. reflexivity. }
  rewrite ET. unfold used_groups. set (L := all_links g (abs P)). rewrite Qsum_drop.
  - apply Qsum_ext. intros x _. unfold block_entry, between. rewrite Nat.eqb_refl. unfold ends. rewrite Qc_of_nat_add, links_tot_Qc, links_in_Qc. fold L.
    change (s_in (length g) (unit_w g)) with (s_in (length g) (unit_weight g)). change (s_tot (length g) (unit_w g)) with (s_tot (length g) (unit_weight g)).
    set (a := s_in _ _ _). set (b := s_tot _ _ _). f_equal. unfold Qcdiv. rewrite Qcinv_mult. transitivity (a * / L * ((1 + 1) * / (1 + 1)))%Qc; [|ring].
    replace ((1 + 1) * / (1 + 1))%Qc with 1%Qc by (apply Qc_is_canon; reflexivity). ring.
  - intros [lab l] _ H. unfold some_in in H. cbn [snd] in H. destruct l; [|discriminate]. unfold block_entry, between, ends. rewrite Nat.eqb_refl. cbn [snd]. destruct (links_nil g) as (-> & -> & _). change (q 0) with 0%Qc. change (q (0 + 0)) with 0%Qc. unfold Qcdiv. ring.
Qed.
End Exact.
