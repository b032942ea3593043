(** MissExact.v -- the energy that LinkScoreMCStep of src/missing.c keeps, in exact arithmetic, and the bounds of the scores. *)
From Coq Require Import List Arith ZArith Bool QArith Qcanon Lia.
From Verif Require Import Base Num ListLib NatSum QcSum IoModel GraphModel GraphSpec GraphProof GroupModel GroupSpec PairSum GroupProof GroupExact MatLib
  ToolsModel ToolsProof ModulesModel ModulesCopy SAProof RolesBounds MissModel MissSpec MissSets MissStep MissRun MissScore.
Import ListNotations.
Local Open Scope nat_scope.

Lemma Qc_div_pos a b : (0 < a -> 0 < b -> 0 < a / b)%Qc.
Proof.
  intros Ha Hb. unfold Qcdiv. apply Qcnot_le_lt. intros K. assert (Hn : b <> 0%Qc) by (intros E; rewrite E in Hb; now apply Qclt_not_eq in Hb).
  apply (Qcmult_le_compat_r _ _ b) in K; [|now apply Qclt_le_weak]. rewrite Qcmult_0_l in K. rewrite <- Qcmult_assoc, (Qcmult_comm (/ b)), Qcmult_inv_r, Qcmult_1_r in K by auto.
  now apply Qcle_not_lt in K.
Qed.
Lemma Qc_div_lt a b c : (0 < b -> a < c * b -> a / b < c)%Qc.
Proof.
  intros Hb Hab. unfold Qcdiv. apply Qcnot_le_lt. intros K. assert (Hn : b <> 0%Qc) by (intros E; rewrite E in Hb; now apply Qclt_not_eq in Hb).
  apply (Qcmult_le_compat_r _ _ b) in K; [|now apply Qclt_le_weak]. rewrite <- Qcmult_assoc, (Qcmult_comm (/ b)), Qcmult_inv_r, Qcmult_1_r in K by auto.
  now apply Qcle_not_lt in K.
Qed.

Lemma Qc_plus_lt a b c d : (a < b -> c < d -> a + c < b + d)%Qc.
Proof. intros H1 H2. unfold Qclt, Qcplus in *. cbn [this Q2Qc]. rewrite !Qred_correct. apply Qplus_lt_le_compat; auto. now apply Qlt_le_weak. Qed.

Section Exact.
Variables ex sq : Qc -> Qc.
Local Instance qops : NumOps Qc := Qc_ops ex sq.
Variable logf : nat -> Qc.
Variable lnchoose : nat -> nat -> Qc.
Variable lnfact : nat -> Qc.
Variable linC : Qc.
Hypothesis log1 : logf 1 = 0%Qc.
Hypothesis choose00 : lnchoose 0 0 = 0%Qc.
Variable g : net Qc.
Hypothesis U : undirected g.
Let N := length g.
Notation cost := (cost logf lnchoose).
Notation energy := (energy logf lnchoose lnfact linC).

Definition sgn (t : term) : Qc := let '(s, r, l) := t in if s then cost r l else (- cost r l)%Qc.
Lemma fold_terms ts : forall d, fold_left (apply1 logf lnchoose) ts d = (d + Qsum sgn ts)%Qc.
Proof.
  induction ts as [|[[s r] l] ts IH]; intros d; cbn [fold_left Qsum]; [ring|]. rewrite IH. unfold apply1, sgn, tcost, MissSpec.cost. cbn. destruct s; ring.
Qed.
Lemma cost00 : cost 0 0 = 0%Qc.
Proof. unfold MissSpec.cost. cbn [Nat.add]. rewrite log1, choose00. ring. Qed.

(** The terms of a partition, also for empty groups. *)
Definition own (S : list nat) : Qc := cost (choose2 (length S)) (links_in g S).
Definition pairc (S T : list nat) : Qc := cost (length S * length T) (across g S T).
Lemma own_nil : own [] = 0%Qc.
Proof. unfold own. destruct (links_nil g) as (-> & _). apply cost00. Qed.
Lemma own_one v : v < N -> own [v] = 0%Qc.
Proof.
  intros Hv. unfold own. cbn [length]. rewrite choose2_1. assert (H : links_in g [v] <= choose2 1).
  { apply (links_in_le g [v] U); [repeat constructor; intros []|]. intros i [<-|[]]. exact Hv. }
  rewrite choose2_1 in H. replace (links_in g [v]) with 0 by lia. apply cost00.
Qed.
Lemma pairc_nil_l T : pairc [] T = 0%Qc.
Proof. unfold pairc. cbn [length Nat.mul]. rewrite across_nil_l. apply cost00. Qed.
Lemma pairc_sym S T : pairc S T = pairc T S.
Proof. unfold pairc. now rewrite Nat.mul_comm, (across_sym g S T U). Qed.
Lemma pairc_nil_r T : pairc T [] = 0%Qc.
Proof. rewrite pairc_sym. apply pairc_nil_l. Qed.

Definition grid (F : nat -> list nat) : Qc := (Qsum (fun k => own (F k)) (seq 0 N) + pair_sum N (fun k l => pairc (F k) (F l)))%Qc.
Lemma energy_grid M : assigned N M -> energy g M = (linC * Qc_of_nat (filled M) + grid (nth_members M) - lnfact (N - filled M))%Qc.
Proof.
  intros HA. unfold MissSpec.energy, grid. rewrite (as_length N M HA). fold N.
  rewrite (Qsum_ext _ (fun k => own (nth_members M k)) (seq 0 N)).
  2: { intros k _. cbv zeta. unfold nonempty. destruct (nth_members M k) eqn:E; auto. now rewrite own_nil. }
  rewrite (pair_sum_ext N _ (fun k l => pairc (nth_members M k) (nth_members M l))); [ring|].
  intros k l _ _. cbv zeta. destruct (nth_members M k) eqn:E; [now rewrite pairc_nil_l|]. destruct (nth_members M l); cbn [nonempty andb]; [now rewrite pairc_nil_r|]. reflexivity.
Qed.

Lemma sub_seq f k : Qsum f (seq (k + 1) (N - (k + 1))) = Qsum (fun l => if k <? l then f l else 0%Qc) (seq 0 N).
Proof.
  destruct (Nat.lt_ge_cases k N) as [H|H].
  - replace N with ((k + 1) + (N - (k + 1))) at 2 by lia. rewrite seq_app, Qsum_app. rewrite (Qsum_0 _ (seq 0 (k + 1))).
    + cbn [Nat.add]. rewrite Qcplus_0_l. apply Qsum_ext. intros l Hl. apply in_seq in Hl. now rewrite (proj2 (Nat.ltb_lt k l)) by lia.
    + intros l Hl. apply in_seq in Hl. now rewrite (proj2 (Nat.ltb_ge k l)) by lia.
  - replace (N - (k + 1)) with 0 by lia. cbn [seq Qsum]. symmetry. apply Qsum_0. intros l Hl. apply in_seq in Hl. now rewrite (proj2 (Nat.ltb_ge k l)) by lia.
Qed.
Lemma pair_sum_seq (f : nat -> nat -> Qc) : pair_sum N f = Qsum (fun k => Qsum (f k) (seq (k + 1) (N - (k + 1)))) (seq 0 N).
Proof. unfold pair_sum. apply Qsum_ext. intros k _. now rewrite sub_seq. Qed.

(** PartitionH is the energy. *)
Lemma pterms2_sum M k l : Qsum sgn (pterms2 g M k l) = pairc (nth_members M k) (nth_members M l).
Proof.
  unfold pterms2. destruct (nth_members M l) as [|x T] eqn:E; cbn [nonempty Qsum]; [now rewrite pairc_nil_r|]. unfold sgn, pairc. cbn. ring.
Qed.
Lemma pterms_sum M k : Qsum sgn (pterms g M k) = (own (nth_members M k) + Qsum (fun l => pairc (nth_members M k) (nth_members M l)) (seq (k + 1) (N - (k + 1))))%Qc.
Proof.
  unfold pterms. fold N. destruct (nonempty (nth_members M k)) eqn:E.
  - cbn [Qsum]. rewrite Qsum_flat. f_equal. apply Qsum_ext. intros l _. apply pterms2_sum.
  - destruct (nth_members M k); [|discriminate]. cbn [Qsum]. rewrite own_nil, Qsum_0; [ring|]. intros l _. apply pairc_nil_l.
Qed.
Theorem H_of_energy M : assigned N M -> H_of logf lnchoose lnfact linC g M = energy g M.
Proof.
  intros HA. rewrite (energy_grid M HA). unfold H_of. fold N. rewrite fold_terms. cbn [nsub nadd nmul n0 nofnat qops Qc_ops]. unfold grid. rewrite pair_sum_seq, <- Qsum_add, Qsum_flat.
  rewrite (Qsum_ext _ (fun k => own (nth_members M k) + Qsum (fun l => pairc (nth_members M k) (nth_members M l)) (seq (k + 1) (N - (k + 1))))%Qc) by (intros; apply pterms_sum). ring.
Qed.

(** * One move *)
Section Move.
Variables (M : groups) (slg : list nat) (v o w : nat).
Hypothesis HA : assigned N M.
Hypothesis HL : listed g M slg.
Hypothesis Ho : o < N.
Hypothesis Hw : w < N.
Hypothesis How : o <> w.
Hypothesis Hv : In v (nth_members M o).
Let F := nth_members M.
Let F' := nth_members (moved M v o w).
Lemma F_o : F' o = remove1 v (F o).
Proof. unfold F', F. rewrite (nth_moved N) by auto. rewrite (proj2 (Nat.eqb_neq o w) How), Nat.eqb_refl. reflexivity. Qed.
Lemma F_w : F' w = F w ++ [v].
Proof. unfold F', F. rewrite (nth_moved N) by auto. rewrite Nat.eqb_refl. reflexivity. Qed.
Lemma F_else k : k <> o -> k <> w -> F' k = F k.
Proof. intros H1 H2. unfold F', F. rewrite (nth_moved N) by auto. rewrite (proj2 (Nat.eqb_neq k w) H2), (proj2 (Nat.eqb_neq k o) H1). reflexivity. Qed.

Let dp (k l : nat) : Qc := (pairc (F' k) (F' l) - pairc (F k) (F l))%Qc.
Lemma dp_sym k l : dp k l = dp l k.
Proof. unfold dp. now rewrite (pairc_sym (F' k)), (pairc_sym (F k)). Qed.
Definition dlab (k : nat) : Qc :=
  (if k =? o then own (F' o) - own (F o) + dp w o else if k =? w then own (F' w) - own (F w) else dp o k + dp w k)%Qc.

Lemma pairs_change : pair_sum N dp = (dp w o + Qsum (fun k => if (k =? o) || (k =? w) then 0 else dp o k + dp w k) (seq 0 N))%Qc.
Proof.
  rewrite (pair_sum_ext N dp (fun i j => (if (i =? o) || (j =? o) then dp i j else 0) + (if (i =? w) || (j =? w) then (if (i =? o) || (j =? o) then 0 else dp i j) else 0))%Qc).
  2: { intros i j Hij Hj. destruct (Nat.eqb_spec i o), (Nat.eqb_spec j o), (Nat.eqb_spec i w), (Nat.eqb_spec j w); cbn [orb]; try ring. unfold dp. rewrite !F_else by auto. ring. }
  rewrite pair_sum_add, (pair_star N dp o Ho dp_sym).
  rewrite (pair_star N (fun i j => if (i =? o) || (j =? o) then 0 else dp i j)%Qc w Hw).
  2: { intros i j. now rewrite orb_comm, dp_sym. }
  rewrite <- Qsum_add. rewrite <- (Qsum_at N (fun _ => dp w o) w Hw), <- Qsum_add. apply Qsum_ext. intros k _.
  rewrite (proj2 (Nat.eqb_neq w o)) by auto. cbn [orb]. destruct (Nat.eqb_spec k o) as [E1|E1], (Nat.eqb_spec k w) as [E2|E2]; cbn [orb]; try (subst; congruence); try ring.
  rewrite E2, (dp_sym o w). ring.
Qed.
Lemma grid_change : (grid F' - grid F)%Qc = Qsum dlab (seq 0 N).
Proof.
  assert (E1 : (Qsum (fun k => own (F' k)) (seq 0 N) - Qsum (fun k => own (F k)) (seq 0 N) = own (F' o) - own (F o) + (own (F' w) - own (F w)))%Qc).
  { rewrite <- Qsum_sub. rewrite <- (Qsum_at N (fun _ => own (F' o) - own (F o))%Qc o Ho), <- (Qsum_at N (fun _ => own (F' w) - own (F w))%Qc w Hw), <- Qsum_add. apply Qsum_ext. intros k _.
    destruct (Nat.eqb_spec k o) as [E1|E1], (Nat.eqb_spec k w) as [E2|E2]; try (subst; congruence); rewrite ?E1, ?E2; try ring. rewrite F_else by auto. ring. }
  assert (E2 : (pair_sum N (fun k l => pairc (F' k) (F' l)) - pair_sum N (fun k l => pairc (F k) (F l)) = pair_sum N dp)%Qc).
  { rewrite (pair_sum_ext N (fun k l => pairc (F' k) (F' l)) (fun k l => dp k l + pairc (F k) (F l))%Qc) by (intros; unfold dp; ring). rewrite pair_sum_add. ring. }
  assert (E3 : (Qsum dlab (seq 0 N) = own (F' o) - own (F o) + dp w o + (own (F' w) - own (F w)) + Qsum (fun k => if (k =? o) || (k =? w) then 0 else dp o k + dp w k) (seq 0 N))%Qc).
  { rewrite <- (Qsum_at N (fun _ => own (F' o) - own (F o) + dp w o)%Qc o Ho), <- (Qsum_at N (fun _ => own (F' w) - own (F w))%Qc w Hw), <- !Qsum_add. apply Qsum_ext. intros k _.
    unfold dlab. destruct (Nat.eqb_spec k o) as [K1|K1], (Nat.eqb_spec k w) as [K2|K2]; cbn [orb]; try (subst; congruence); ring. }
  unfold grid. rewrite E3. transitivity ((Qsum (fun k => own (F' k)) (seq 0 N) - Qsum (fun k => own (F k)) (seq 0 N)) + (pair_sum N (fun k l => pairc (F' k) (F' l)) - pair_sum N (fun k l => pairc (F k) (F l))))%Qc; [ring|].
  rewrite E1, E2, pairs_change. ring.
Qed.
Lemma dterms_sum k : Qsum sgn (dterms g M v o w k) = if nonempty (F k) then dlab k else 0%Qc.
Proof.
  unfold dterms, dlab. cbv zeta. fold F. rewrite <- F_o, <- F_w. destruct (nonempty (F k)); auto. unfold dp.
  destruct (Nat.eqb_spec k o) as [E1|E1]; [|destruct (Nat.eqb_spec k w) as [E|E]]; cbn [Qsum sgn]; rewrite ?(F_else k) by auto; unfold own, pairc; ring.
Qed.
Lemma dlab_empty k : nonempty (F k) = false -> dlab k = 0%Qc.
Proof.
  intros E. assert (Ek : F k = []) by (destruct (F k); [auto|discriminate]). unfold dlab. destruct (Nat.eqb_spec k o) as [->|E1]; [unfold F in Ek; rewrite Ek in Hv; destruct Hv|].
  destruct (Nat.eqb_spec k w) as [->|E2].
  - rewrite F_w, Ek. cbn [app]. rewrite own_nil, own_one by (eapply as_range; eauto). ring.
  - unfold dp. rewrite (F_else k) by auto. rewrite Ek, !pairc_nil_r. ring.
Qed.
Lemma slg_sum : Qsum sgn (flat_map (dterms g M v o w) slg) = Qsum dlab (seq 0 N).
Proof.
  rewrite Qsum_flat. rewrite (Qsum_members _ slg N) by apply HL. apply Qsum_ext. intros k Hk. apply in_seq in Hk. rewrite dterms_sum. destruct (nonempty (F k)) eqn:E.
  - now rewrite (proj2 (mem_In k slg)) by (apply HL; auto; lia).
  - rewrite dlab_empty by auto. now destruct (mem k slg).
Qed.

(** The number of groups with nodes. *)
Lemma filled_change : filled (moved M v o w) + (if length (F o) =? 1 then 1 else 0) = filled M + (if length (F w) =? 0 then 1 else 0).
Proof.
  rewrite (filled_count N M HA), (filled_count N _ (moved_assigned N M v o w HA Ho Hw How Hv)). fold F F'. rewrite !count_lsum.
  replace (if length (F o) =? 1 then 1 else 0) with (lsum (fun k => if k =? o then (if length (F o) =? 1 then 1 else 0) else 0) (seq 0 N)).
  2: { apply (lsum_single (fun _ => if length (F o) =? 1 then 1 else 0)); [apply seq_NoDup|apply in_seq; lia]. }
  replace (if length (F w) =? 0 then 1 else 0) with (lsum (fun k => if k =? w then (if length (F w) =? 0 then 1 else 0) else 0) (seq 0 N)).
  2: { apply (lsum_single (fun _ => if length (F w) =? 0 then 1 else 0)); [apply seq_NoDup|apply in_seq; lia]. }
  rewrite <- !lsum_add. apply lsum_ext. intros k _. destruct (Nat.eqb_spec k o) as [E1|E1], (Nat.eqb_spec k w) as [E2|E2]; try (subst; congruence).
  - rewrite E1, F_o. assert (L : length (remove1 v (F o)) + 1 = length (F o)) by (symmetry; apply length_remove1; auto; apply HA).
    destruct (remove1 v (F o)) as [|? ?]; cbn [length nonempty] in *; destruct (F o) as [|x [|y l']]; cbn [length nonempty Nat.eqb] in *; lia.
  - rewrite E2, F_w. destruct (F w); cbn [app nonempty length Nat.eqb]; lia.
  - now rewrite F_else.
Qed.

Theorem move_energy : energy g (moved M v o w) = (energy g M + dH_of logf lnchoose lnfact linC g M slg v o w)%Qc.
Proof.
  rewrite (energy_grid M HA), (energy_grid _ (moved_assigned N M v o w HA Ho Hw How Hv)). fold F F'. pose proof grid_change as HG. pose proof filled_change as HF.
  unfold dH_of, dlabels. fold N. rewrite (listed_filled g M slg HA HL), fold_terms, slg_sum, <- HG. fold F. set (no := length (F o)) in *. set (nw := length (F w)) in *.
  assert (Hn : 1 <= no) by (unfold no, F; destruct (nth_members M o); [destruct Hv|cbn; lia]).
  assert (Hf : 1 <= filled M).
  { rewrite (filled_count N M HA). apply count_pos with (x := o); [apply in_seq; lia|]. fold F. unfold no in Hn. destruct (F o); [cbn in Hn; lia|reflexivity]. }
  set (e := filled M) in *. set (e' := filled (moved M v o w)) in *. unfold dbase. cbn [nadd nsub nopp n0 qops Qc_ops].
  destruct (no =? 1), (nw =? 0); cbn [andb negb].
  - replace e' with e by lia. ring.
  - replace (e - 1) with e' by lia. assert (E : Qc_of_nat e = (Qc_of_nat e' + 1)%Qc) by (replace e with (Datatypes.S e') by lia; rewrite Qc_of_nat_S; ring). rewrite E. ring.
  - replace (e + 1) with e' by lia. assert (E : Qc_of_nat e' = (Qc_of_nat e + 1)%Qc) by (replace e' with (Datatypes.S e) by lia; rewrite Qc_of_nat_S; ring). rewrite E. ring.
  - replace e' with e by lia. ring.
Qed.
End Move.

(** * The sampler *)
Variable mutual : gpart Qc -> gpart Qc -> Qc.
Variable decay_of : nat -> nat -> Qc -> nat -> Qc -> Qc.
Variables lcsize lfsize : nat.
Notation attempt := (attempt ex N (energy g)).
Notation attempts := (attempts ex N (energy g)).
Notation samples := (samples ex N (energy g)).

(** * The attempts are those of the Metropolis algorithm *)
Lemma redraw_picks o ds w ds2 : redraw N o ds = Ok (w, ds2) -> picks N o ds w ds2.
Proof.
  induction ds as [|u ds IH]; cbn [redraw]; [discriminate|]. cbn [nfloor nmul nofnat qops Qc_ops]. fold (selects N u). destruct (Nat.eqb_spec (selects N u) o) as [E|E].
  - intros H. apply picks_next; auto.
  - intros H. injection H as <- <-. now apply picks_now.
Qed.
Lemma filter_out v (S : list nat) : ~ In v S -> filter (fun i => negb (i =? v)) S = S.
Proof. induction S as [|x S IH]; intros H; auto. cbn [filter]. destruct (Nat.eqb_spec x v) as [->|E]; [exfalso; apply H; now left|]. cbn [negb]. f_equal. apply IH. intros K. apply H. now right. Qed.
Lemma moved_relocated M v o w : assigned N M -> o < N -> w < N -> o <> w -> In v (nth_members M o) -> relocated M v w (moved M v o w).
Proof.
  intros HA Ho Hw How Hv. pose proof (moved_assigned N M v o w HA Ho Hw How Hv) as HA'. split.
  - now rewrite (as_labels _ _ HA), (as_labels _ _ HA').
  - rewrite (nth_moved N) by auto. now rewrite Nat.eqb_refl.
  - intros k Hk. rewrite (nth_moved N) by auto. rewrite (proj2 (Nat.eqb_neq k w) Hk). destruct (Nat.eqb_spec k o) as [->|Hko].
    + reflexivity.
    + symmetry. apply filter_out. intros K. apply Hko. exact (as_apart N M HA _ _ _ K Hv).
Qed.
Lemma Qc_leb_spec a b : Qc_leb a b = true <-> (a <= b)%Qc.
Proof.
  unfold Qc_leb, Qccompare, Qcle. rewrite Qle_alt. destruct (this a ?= this b)%Q; split; congruence.
Qed.
Lemma Qc_leb_no a b : Qc_leb a b = false -> (b < a)%Qc.
Proof. intros E. apply Qcnot_le_lt. intros K. apply Qc_leb_spec in K. congruence. Qed.
Lemma Qc_sub_neg a b : (a - b <= 0)%Qc <-> (a <= b)%Qc.
Proof.
  split; intros H; [apply (Qcplus_le_compat _ _ b b) in H|apply (Qcplus_le_compat _ _ (- b)%Qc (- b)%Qc) in H]; try apply Qcle_refl.
  - ring_simplify in H. exact H.
  - unfold Qcminus. now replace (b + - b)%Qc with 0%Qc in H by ring.
Qed.
Lemma attempt_of M slg u o w ds ds2 acc ds3 : let v := nfloor (nmul u (nofnat N)) in
  assigned N M -> listed g M slg -> o < N -> w < N -> o <> w -> In v (nth_members M o) -> redraw N o ds = Ok (w, ds2) ->
  accepts (dH_of logf lnchoose lnfact linC g M slg v o w) ds2 = Ok (acc, ds3) -> attempt M (u :: ds) (if acc : bool then moved M v o w else M) ds3.
Proof.
  intros v HA HL Ho Hw How Hv ER EC. pose proof (move_energy M slg v o w HA HL Ho Hw How Hv) as HE. set (dH := dH_of _ _ _ _ _ _ _ _ _ _) in *.
  assert (Ed : dH = (energy g (moved M v o w) - energy g M)%Qc) by (rewrite HE; ring). pose proof (moved_relocated M v o w HA Ho Hw How Hv) as HR. apply redraw_picks in ER.
  change v with (selects N u) in *. unfold accepts in EC. cbn [nleb nltb n0 nexp nopp qops Qc_ops] in EC. destruct (Qc_leb dH 0) eqn:EL.
  - injection EC as <- <-. apply Qc_leb_spec in EL. rewrite Ed in EL. apply (at_down _ _ _ M u ds o w ds2 _ Hv ER HR). now apply Qc_sub_neg.
  - apply Qc_leb_no in EL. assert (Hlt : (energy g M < energy g (moved M (selects N u) o w))%Qc).
    { apply Qcnot_le_lt. intros K. apply Qc_sub_neg in K. rewrite <- Ed in K. now apply Qcle_not_lt in K. }
    destruct ds2 as [|u' ds2]; [discriminate|]. cbn [draw bind] in EC. replace (- dH)%Qc with (energy g M - energy g (moved M (selects N u) o w))%Qc in EC by (rewrite Ed; ring).
    injection EC as Ea <-. destruct acc.
    + apply (at_up _ _ _ M u ds o w u' ds2 _ Hv ER HR Hlt). apply Qc_ltb_spec. clear - Ea. revert Ea. generalize (energy g M) (energy g (moved M (selects N u) o w)). auto.
    + refine (at_stay _ _ _ M u ds o w u' ds2 _ Hv ER HR Hlt _). apply Qcnot_lt_le. intros K. apply Qc_ltb_spec in K. congruence.
Qed.
Lemma attempts_trans n m M d M1 d1 M2 d2 : attempts n M d M1 d1 -> attempts m M1 d1 M2 d2 -> attempts (n + m) M d M2 d2.
Proof. intros H1 H2. induction H2; [now rewrite Nat.add_0_r|]. rewrite Nat.add_succ_r. econstructor; eauto. Qed.

(** The outcome of the attempts is determined by the partition and the draws. *)
Lemma assigned_ext M M' : assigned N M -> map fst M' = map fst M -> (forall k, nth_members M' k = nth_members M k) -> M' = M.
Proof.
  intros HA EL EN. assert (L : length M' = length M) by (apply (f_equal (@length nat)) in EL; now rewrite !map_length in EL).
  apply ListLib.nth_ext. intros k. destruct (Nat.lt_ge_cases k (length M)) as [Hk|Hk]; [|rewrite !(proj2 (nth_error_None _ _)) by lia; reflexivity]. destruct (nth_ex M k Hk) as [x Ex]. destruct (nth_ex M' k) as [x' Ex']; [lia|]. rewrite Ex, Ex'. f_equal. specialize (EN k). unfold nth_members in EN.
  assert (E1 : fst x' = fst x). { assert (E : nth_error (map fst M') k = nth_error (map fst M) k) by now rewrite EL. rewrite !nth_error_map, Ex, Ex' in E. now injection E. }
  destruct x, x'; cbn in *. subst. f_equal. rewrite Ex, Ex' in EN. exact EN.
Qed.
Lemma relocated_moved M v o w M' : assigned N M -> o <> w -> In v (nth_members M o) -> relocated M v w M' -> w < N /\ M' = moved M v o w.
Proof.
  intros HA How Hv [R1 R2 R3]. assert (Ho : o < N) by (eapply as_lt; eauto).
  assert (Hw : w < N).
  { destruct (Nat.lt_ge_cases w N) as [|K]; auto. exfalso. rewrite (nth_members_out M' w) in R2; [destruct (nth_members M w); discriminate|].
    apply (f_equal (@length nat)) in R1. rewrite !map_length in R1. rewrite R1, (as_length N M HA). exact K. }
  split; auto. pose proof (moved_relocated M v o w HA Ho Hw How Hv) as [S1 S2 S3]. apply assigned_ext; [now apply moved_assigned|congruence|].
  intros k. destruct (Nat.eq_dec k w) as [->|K]; [congruence|]. now rewrite R3, S3.
Qed.
Lemma picks_det o ds w d w' d' : picks N o ds w d -> picks N o ds w' d' -> w = w' /\ d = d'.
Proof. intros H. revert w' d'. induction H; intros w' d' H'; inversion H'; subst; try congruence; auto. Qed.
Lemma picks_ne o ds w d : picks N o ds w d -> w <> o.
Proof. induction 1; auto. Qed.
Lemma attempt_inv M ds M' d : assigned N M -> attempt M ds M' d ->
  exists u rest o w d1, ds = u :: rest /\ In (selects N u) (nth_members M o) /\ picks N o rest w d1 /\ w < N /\ let M1 := moved M (selects N u) o w in assigned N M1 /\
    (((energy g M1 <= energy g M)%Qc /\ M' = M1 /\ d = d1) \/
     (exists u', d1 = u' :: d /\ (energy g M < energy g M1)%Qc /\ ((u' < ex (energy g M - energy g M1))%Qc /\ M' = M1 \/ (ex (energy g M - energy g M1) <= u')%Qc /\ M' = M))).
Proof.
  intros HA H. destruct H as [u ds o w ds' M' Hv HP HR HE|u ds o w u' ds' M' Hv HP HR HE HX|u ds o w u' ds' M' Hv HP HR HE HX].
  all: pose proof (picks_ne _ _ _ _ HP) as Hne; assert (Ho : o < N) by (eapply as_lt; eauto); destruct (relocated_moved M (selects N u) o w M' HA (fun K => Hne (eq_sym K)) Hv HR) as [Hw ->];
    assert (HA1 : assigned N (moved M (selects N u) o w)) by (apply moved_assigned; auto).
  - exists u, ds, o, w, ds'. cbv zeta. splits; auto.
  - exists u, ds, o, w, (u' :: ds'). cbv zeta. splits; auto. right. exists u'. splits; auto.
  - exists u, ds, o, w, (u' :: ds'). cbv zeta. splits; auto. right. exists u'. splits; auto.
Qed.
Lemma attempt_det M ds M1 d1 M2 d2 : assigned N M -> attempt M ds M1 d1 -> attempt M ds M2 d2 -> M1 = M2 /\ d1 = d2.
Proof.
  intros HA H1 H2. destruct (attempt_inv M ds M1 d1 HA H1) as (u & rest & o & w & e1 & -> & Hv & HP & _ & _ & C1). destruct (attempt_inv M _ M2 d2 HA H2) as (u2 & rest2 & o2 & w2 & e2 & E & Hv2 & HP2 & _ & _ & C2).
  injection E as <- <-. assert (o2 = o) by (eapply as_apart; eauto). subst o2. destruct (picks_det _ _ _ _ _ _ HP HP2) as [<- <-].
  destruct C1 as [(A1 & -> & ->)|(x & -> & A1 & B1)], C2 as [(A2 & -> & ->)|(y & Ey & A2 & B2)]; auto.
  - exfalso. now apply Qcle_not_lt in A1.
  - exfalso. now apply Qcle_not_lt in A2.
  - injection Ey as <- <-. destruct B1 as [[B1 ->]|[B1 ->]], B2 as [[B2 ->]|[B2 ->]]; auto; exfalso; [now apply Qcle_not_lt in B2|now apply Qcle_not_lt in B1].
Qed.
Lemma attempts_assigned n M ds M' d : attempts n M ds M' d -> assigned N M -> assigned N M'.
Proof.
  induction 1 as [|n M ds M1 ds1 M2 ds2 _ IH HT]; auto. intros HA. specialize (IH HA). destruct (attempt_inv M1 ds1 M2 ds2 IH HT) as (u & rest & o & w & e & _ & _ & _ & _ & HA1 & [(_ & -> & _)|(x & _ & _ & [[_ ->]|[_ ->]])]); auto.
Qed.
Theorem attempts_det n M ds M1 d1 : assigned N M -> attempts n M ds M1 d1 -> forall M2 d2, attempts n M ds M2 d2 -> M1 = M2 /\ d1 = d2.
Proof.
  intros HA H. induction H as [|n M ds M1 ds1 M2 ds2 H1 IH HT]; intros M2' d2' H'; inversion H' as [|? ? ? M1' ds1' ? ? H1' HT']; subst; auto.
  destruct (IH HA _ _ H1') as [<- <-]. eapply attempt_det; [|exact HT|exact HT']. eapply attempts_assigned; eauto.
Qed.

(** The energy is right and the partition comes from a start by attempts. *)
Definition follows (ds0 : list Qc) (M : groups) (H : Qc) (ds : list Qc) : Prop :=
  H = energy g M /\ exists M0 d0 k, assigned N M0 /\ started N ds0 M0 d0 /\ attempts k M0 d0 M ds.
Lemma neg_small : nltb (nofQ (-1 # 1)) n0 = true.
Proof. reflexivity. Qed.
Lemma follows_move ds0 : attempt_ok logf lnchoose lnfact linC g (follows ds0).
Proof.
  intros M slg u o w H ds ds2 acc ds3 v HA HL Ho Hw How Hv ER EC [-> (M0 & d0 & k & HA0 & HS & HT)]. pose proof (attempt_of M slg u o w ds ds2 acc ds3 HA HL Ho Hw How Hv ER EC) as HX. fold N v in HX, Hv. unfold N in v. fold N in v. destruct acc.
  - split; [now rewrite (move_energy M slg v o w)|]. exists M0, d0, (S k). splits; auto. econstructor; eauto.
  - split; auto. exists M0, d0, (S k). splits; auto. econstructor; eauto.
Qed.
Lemma follows_init ds0 : forall M ds, assigned N M -> started N ds0 M ds -> follows ds0 M (H_of logf lnchoose lnfact linC g M) ds.
Proof. intros M ds HA HS. split; [apply H_of_energy; auto|]. exists M, ds, 0. splits; auto. constructor. Qed.

Notation minv ds0 := (minv lnchoose lcsize g (follows ds0)).
Notation tfact := (InitializeTable lnfact lfsize).
Lemma PartitionH_energy g' P' : pinv g g' P' -> PartitionH logf lnchoose lnfact linC g' P' = Ok (energy g (abs P')).
Proof. intros I. rewrite (PartitionH_ok logf lnchoose lnfact linC g U g' P' I). f_equal. apply H_of_energy. apply I. Qed.

(** The states that the program reaches: the set-up, then any number of steps of any length. *)
Definition reached (n2g : list (option Z)) (ds : list Qc) (factors : list nat) : res (mc Qc) :=
  do (nlist, glist, st) <- mc_setup logf lnchoose lnfact lcsize linC g n2g ds;
  foldM (fun st f => LinkScoreMCStep logf lnchoose lnfact lcsize lfsize linC (length g) nlist glist tfact f st) st factors.
Lemma reached_ok (zeroed : Prop) n2g (ds : list Qc) factors : length n2g = N -> (forall k x, nth_error n2g k = Some x -> x = None \/ x = Some 0%Z) -> (zeroed -> forall k, nth_error n2g k <> Some None) ->
  Forall good_draw ds -> ends (mc_err zeroed) (reached n2g ds factors) (minv ds zeroed).
Proof.
  intros L Hn Hz HD. unfold reached. eapply ends_bind.
  { apply (setup_ok logf lnchoose lnfact mutual decay_of lcsize linC g U (follows ds) zeroed n2g ds (follows_init ds) L Hn Hz HD). }
  intros [[nl gl] st] (-> & -> & I). fold N. apply ends_foldM; auto. intros s f _ Is.
  exact (step_ok logf lnchoose lnfact lcsize lfsize linC neg_small g U (follows ds) (follows_move ds) zeroed f s Is).
Qed.
Lemma fresh_array (x : option Z) : x = None \/ x = Some 0%Z -> length (repeat x N) = N /\ (forall k y, nth_error (repeat x N) k = Some y -> y = None \/ y = Some 0%Z).
Proof. intros Hx. split; [apply repeat_length|]. intros k y E. apply nth_error_In, repeat_spec in E. now subst. Qed.

(** A step makes N * factor attempts. *)
Lemma moves_attempts ds0 zeroed l : forall s sl s' sl', 0 < N -> minv ds0 zeroed s -> listed g (abs (mpart s)) sl ->
  foldM (mc_move logf lnchoose lnfact lcsize lfsize linC N (ident g) (ident g) tfact) (s, sl) l = Ok (s', sl') -> attempts (length l) (abs (mpart s)) (mds s) (abs (mpart s')) (mds s').
Proof.
  induction l as [|i l IH]; intros s sl s' sl' HN I HL E.
  - cbn [foldM] in E. injection E as -> ->. constructor.
  - cbn [foldM] in E. pose proof (mc_move_ok logf lnchoose lnfact lcsize lfsize linC neg_small g U (follows ds0) (follows_move ds0) zeroed s sl i HN I HL) as H1. fold N in H1.
    destruct (mc_move _ _ _ _ _ _ _ _ _ _ (s, sl) i) as [[s1 sl1]|e] eqn:E1; [|discriminate]. cbn [bind ends] in *. destruct H1 as [I1 HL1].
    destruct (mc_move_inv logf lnchoose lnfact lcsize lfsize linC neg_small g U (follows ds0) zeroed s sl i s1 sl1 HN I HL E1) as (u & ds & o & w & ds2 & acc & Ed & Hv & Ho & Hw & How & ER & EC & EA).
    change (length (i :: l)) with (1 + length l). eapply attempts_trans; [|eapply IH; eauto]. rewrite Ed, EA. econstructor; [constructor|].
    exact (attempt_of (abs (mpart s)) sl u o w ds ds2 acc (mds s1) (pi_as _ _ _ (mi_p _ _ _ _ _ _ I)) HL Ho Hw How Hv ER EC).
Qed.
Lemma step_attempts ds0 zeroed factor st st' : minv ds0 zeroed st ->
  LinkScoreMCStep logf lnchoose lnfact lcsize lfsize linC N (ident g) (ident g) tfact factor st = Ok st' -> attempts (N * factor) (abs (mpart st)) (mds st) (abs (mpart st')) (mds st').
Proof.
  intros I. unfold LinkScoreMCStep. pose proof (shortlist g _ _ (mi_p _ _ _ _ _ _ I)) as HL. set (slg := map plabel _) in *. destruct (check _ _); [|discriminate]. cbn [bind].
  destruct (foldM _ _ _) as [[s sl]|e] eqn:E; [|discriminate]. cbn [bind]. intros K. injection K as ->. destruct (Nat.eq_dec N 0) as [E0|HN].
  - rewrite E0 in *. cbn [Nat.mul seq foldM] in E. injection E as -> _. cbn [Nat.mul]. constructor.
  - apply moves_attempts with (ds0 := ds0) (zeroed := zeroed) in E; auto; [|lia]. now rewrite seq_length in E.
Qed.
Theorem reached_attempts x ds factors st : x = None \/ x = Some 0%Z -> Forall good_draw ds -> reached (repeat x N) ds factors = Ok st ->
  exists M0 d0, assigned N M0 /\ started N ds M0 d0 /\ attempts (N * list_sum factors) M0 d0 (abs (mpart st)) (mds st).
Proof.
  intros Hx HD E. destruct (fresh_array x Hx) as [F1 F2]. unfold reached in E.
  set (K := fun (M : groups) (H : Qc) (d : list Qc) => H = energy g M /\ assigned N M /\ started N ds M d).
  pose proof (setup_ok logf lnchoose lnfact mutual decay_of lcsize linC g U (follows ds) False (repeat x N) ds (follows_init ds) F1 F2 (fun K => False_ind _ K) HD) as HS.
  pose proof (setup_ok logf lnchoose lnfact mutual decay_of lcsize linC g U K False (repeat x N) ds (fun M d HA Hs => conj (H_of_energy M HA) (conj HA Hs)) F1 F2 (fun K => False_ind _ K) HD) as HK.
  destruct (mc_setup _ _ _ _ _ _ _ _) as [[[nl gl] s0]|e]; [|discriminate]. cbn [bind ends] in *. destruct HS as (-> & -> & I). destruct HK as (_ & _ & I').
  destruct (mi_J _ _ _ _ _ _ I') as (_ & HA & Hs). exists (abs (mpart s0)), (mds s0). splits; auto. clear K I' Hs HA. fold N in E. revert s0 I E. induction factors as [|f fs IH]; intros s0 I E.
  - cbn [foldM] in E. injection E as ->. cbn [list_sum]. rewrite Nat.mul_0_r. constructor.
  - cbn [foldM] in E. pose proof (step_ok logf lnchoose lnfact lcsize lfsize linC neg_small g U (follows ds) (follows_move ds) False f s0 I) as HS. fold N in HS.
    destruct (LinkScoreMCStep _ _ _ _ _ _ _ _ _ _ _ s0) as [s1|e] eqn:E1; [|discriminate]. cbn [bind ends] in *. change (list_sum (f :: fs)) with (f + list_sum fs). rewrite Nat.mul_add_distr_l.
    eapply attempts_trans; [eapply step_attempts; eauto|]. now apply IH.
Qed.
Lemma stepped_samples ds0 decor s0 sts st : stepped logf lnchoose lnfact lcsize lfsize linC g decor s0 sts st -> minv ds0 False s0 -> Forall (minv ds0 False) sts ->
  minv ds0 False st /\ samples (N * decor) (abs (mpart s0)) (mds s0) (map (fun s => abs (mpart s)) sts) (abs (mpart st)) (mds st).
Proof.
  induction 1 as [s|s sts s1 s2 _ IH E]; intros I HF; [split; auto; constructor|]. apply Forall_app in HF as [HF HF2]. inversion HF2 as [|? ? I2 _]; subst. destruct (IH I HF) as [I1 HS]. split; auto.
  rewrite map_app. cbn [map]. econstructor; eauto. eapply step_attempts; eauto.
Qed.

(** The energy and the table of every state reached. *)
Theorem reached_energy x ds factors st : x = None \/ x = Some 0%Z -> Forall good_draw ds -> reached (repeat x N) ds factors = Ok st ->
  assigned N (abs (mpart st)) /\ PartitionH logf lnchoose lnfact linC (mnet st) (mpart st) = Ok (mH st) /\ mH st = energy g (abs (mpart st)) /\ table_exact g (abs (mpart st)) (mG2G st).
Proof.
  intros Hx HD E. destruct (fresh_array x Hx) as [F1 F2]. pose proof (reached_ok False _ ds factors F1 F2 (fun K => False_ind _ K) HD) as I. rewrite E in I. cbn [ends] in I.
  pose proof (mi_J _ _ _ _ _ _ I) as HJ. destruct HJ as [HJ _]. splits; try apply I; auto. rewrite HJ. apply PartitionH_energy. apply I.
Qed.
(** The change predicted for every move of every state reached. *)
Theorem reached_change x ds factors st slg v o w : x = None \/ x = Some 0%Z -> Forall good_draw ds -> reached (repeat x N) ds factors = Ok st ->
  listed g (abs (mpart st)) slg -> o < N -> w < N -> o <> w -> In v (nth_members (abs (mpart st)) o) ->
  exists r g' P' after tab n2g,
    MoveNode (mnet st, mpart st) v o w = Ok (r, (g', P')) /\
    PartitionH logf lnchoose lnfact linC g' P' = Ok after /\
    mc_change logf lnchoose lnfact lcsize lfsize linC N (map Some (seq 0 N)) tfact st slg v o w = Ok ((after - mH st)%Qc, tab, n2g).
Proof.
  intros Hx HD E HL Ho Hw How Hv. destruct (fresh_array x Hx) as [F1 F2]. pose proof (reached_ok False _ ds factors F1 F2 (fun K => False_ind _ K) HD) as I. rewrite E in I. cbn [ends] in I.
  pose proof (mi_p _ _ _ _ _ _ I) as PI. destruct (pi_move g _ _ PI v o w Ho Hw How Hv) as (r & g' & P' & EM & PI' & EA).
  destruct (mc_change_ok logf lnchoose lnfact lcsize lfsize linC neg_small g U (follows ds) False st slg v o w I HL Ho Hw How Hv) as (tab & n2g & EC & _).
  exists r, g', P', (energy g (abs P')), tab, n2g. splits; auto; [now apply PartitionH_energy|]. unfold ident in EC. fold N in EC. rewrite EC. do 3 f_equal.
  rewrite EA, (move_energy (abs (mpart st)) slg v o w) by (auto; apply PI). rewrite (proj1 (mi_J _ _ _ _ _ _ I)). ring.
Qed.
(** With the array n2gList set to zero no step reads uninitialised memory. *)
Theorem reached_zeroed ds factors e : Forall good_draw ds -> reached (repeat (Some 0%Z) N) ds factors = Err e -> e = RngOut \/ e = Diverge.
Proof.
  intros HD E. destruct (fresh_array (Some 0%Z) (or_intror eq_refl)) as [F1 F2]. pose proof (reached_ok True _ ds factors F1 F2) as I. rewrite E in I. cbn [ends] in I.
  destruct I as [->|[->|[_ K]]]; auto; [|exfalso; now apply K]. intros _ k K. apply nth_error_In, repeat_spec in K. discriminate.
Qed.

(** * LinkScore *)
Lemma score_pos M i j : assigned N M -> i < N -> j < N -> i <> j -> (0 < pair_score g M i j)%Qc /\ (pair_score g M i j < 1)%Qc.
Proof.
  intros HA Hi Hj Hij. destruct (hm_spec N M i HA Hi) as (_ & Ei & _). destruct (hm_spec N M j HA Hj) as (_ & Ej & Bj). unfold pair_score. rewrite Ei, Ej.
  assert (B : forall l r, l <= r -> (0 < Qc_of_nat (l + 1) / Qc_of_nat (r + 2))%Qc /\ (Qc_of_nat (l + 1) / Qc_of_nat (r + 2) < 1)%Qc).
  { intros l r Hlr. assert (P1 : (0 < Qc_of_nat (l + 1))%Qc) by (rewrite <- Qc_of_nat_0; apply Qc_of_nat_lt; lia).
    assert (P2 : (0 < Qc_of_nat (r + 2))%Qc) by (rewrite <- Qc_of_nat_0; apply Qc_of_nat_lt; lia).
    assert (P3 : (Qc_of_nat (l + 1) < Qc_of_nat (r + 2))%Qc) by (apply Qc_of_nat_lt; lia). split; [now apply Qc_div_pos|apply Qc_div_lt; auto; now rewrite Qcmult_1_l]. }
  destruct (mem j _); apply B; [|apply across_le]. apply links_in_le; auto; [apply HA|]. intros x. apply (as_range N M HA).
Qed.
Lemma score_sym M i j : assigned N M -> i < N -> j < N -> pair_score g M i j = pair_score g M j i.
Proof.
  intros HA Hi Hj. destruct (hm_spec N M i HA Hi) as (_ & Ei & Bi). destruct (hm_spec N M j HA Hj) as (_ & Ej & Bj). unfold pair_score. rewrite Ei, Ej, Bi, Bj, (Nat.eqb_sym (hm M j)).
  destruct (Nat.eqb_spec (hm M i) (hm M j)) as [->|]; auto. now rewrite across_sym, Nat.mul_comm.
Qed.

Lemma summed_sum Ms i j : i <> j -> summed g Ms i j = Qsum (fun M => pair_score g M i j) Ms.
Proof.
  intros Hij. unfold summed. rewrite (proj2 (Nat.eqb_neq i j) Hij). cbn [n0 nadd qops Qc_ops].
  assert (G : forall a, fold_left Qcplus (map (fun M => pair_score g M i j) Ms) a = (a + Qsum (fun M => pair_score g M i j) Ms)%Qc).
  { induction Ms as [|M Ms IH]; intros a; cbn [map fold_left Qsum]; [ring|]. rewrite IH. ring. }
  rewrite G. ring.
Qed.
Lemma Qsum_between (f : groups -> Qc) Ms : Ms <> [] -> (forall M, In M Ms -> 0 < f M /\ f M < 1)%Qc -> (0 < Qsum f Ms /\ Qsum f Ms < Qc_of_nat (length Ms))%Qc.
Proof.
  induction Ms as [|M Ms IH]; intros Hne H; [congruence|]. destruct (H M (or_introl eq_refl)) as [H1 H2]. cbn [Qsum length]. rewrite Qc_of_nat_S. destruct Ms as [|M' Ms].
  - cbn [Qsum length]. rewrite Qcplus_0_r, Qc_of_nat_0. rewrite ?Qcplus_0_r, ?Qcplus_0_l. auto.
  - destruct IH as [K1 K2]; [discriminate|intros; apply H; now right|]. set (s := Qsum f (M' :: Ms)) in *. set (c := Qc_of_nat (length (M' :: Ms))) in *. split.
    + rewrite <- (Qcplus_0_l 0). now apply Qc_plus_lt.
    + now apply Qc_plus_lt.
Qed.
Theorem LinkScore_bounds x nIter ds m st : x = None \/ x = Some 0%Z -> Forall good_draw ds ->
  LinkScore_on logf lnchoose lnfact mutual decay_of lcsize lfsize linC g (repeat x N) nIter ds = Ok (m, st) ->
  PartitionH logf lnchoose lnfact linC (mnet st) (mpart st) = Ok (mH st) /\ mH st = energy g (abs (mpart st)) /\ table_exact g (abs (mpart st)) (mG2G st) /\
  (exists M0 d0 warm decor M1 d1 Ms, assigned N M0 /\ started N ds M0 d0 /\ attempts warm M0 d0 M1 d1 /\ samples (N * decor) M1 d1 Ms (abs (mpart st)) (mds st) /\ length Ms = nIter /\
     mat N N m (fun i j => if i =? j then 0%Qc else (Qsum (fun M => pair_score g M i j) Ms / Qc_of_nat nIter)%Qc)) /\
  (0 < nIter -> exists f, mat N N m f /\ (forall i j, i < N -> j < N -> f i j = f j i) /\ (forall i, i < N -> f i i = 0%Qc) /\
     (forall i j, i < N -> j < N -> i <> j -> (0 < f i j)%Qc /\ (f i j < 1)%Qc)).
Proof.
  intros Hx HD E. destruct (fresh_array x Hx) as [F1 F2].
  pose proof (LinkScore_any logf lnchoose lnfact mutual decay_of lcsize lfsize linC neg_small g U (follows ds) (follows_move ds) False (repeat x N) nIter ds (follows_init ds) F1 F2 (fun K => False_ind _ K) HD) as I.
  rewrite E in I. cbn [ends] in I. destruct I as (s0 & decor & sts & I0 & LM & HM0 & HS & I & Hm). pose proof (mi_J _ _ _ _ _ _ I) as HJ. destruct HJ as [HJ _]. destruct (mi_J _ _ _ _ _ _ I0) as [_ (M0 & d0 & k & HA0 & HS0 & HT)].
  destruct (stepped_samples ds decor s0 sts st HS I0 HM0) as [_ HSS]. set (Ms := map (fun s => abs (mpart s)) sts) in *.
  assert (HM : forall M, In M Ms -> assigned N M).
  { intros M K. unfold Ms in K. apply in_map_iff in K as (s & <- & Hs). rewrite Forall_forall in HM0. apply (mi_p _ _ _ _ _ _ (HM0 s Hs)). }
  assert (LMs : length Ms = nIter) by (unfold Ms; now rewrite map_length). clear LM. rename LMs into LM.
  assert (Hm' : mat N N m (fun i j => if i =? j then 0%Qc else (Qsum (fun M => pair_score g M i j) Ms / Qc_of_nat nIter)%Qc)).
  { eapply mat_ext; [exact Hm|]. intros i j _ _. cbn [ndiv nofnat qops Qc_ops]. destruct (Nat.eqb_spec i j) as [->|Hij]; [|now rewrite summed_sum].
    unfold summed. rewrite Nat.eqb_refl. unfold Qcdiv. apply Qcmult_0_l. }
  splits; auto; [rewrite HJ; apply PartitionH_energy, I|apply I|exists M0, d0, k, decor, (abs (mpart s0)), (mds s0), Ms; splits; auto|]. intros Hn. eexists. split; [exact Hm'|]. splits.
  - intros i j Hi Hj. rewrite (Nat.eqb_sym j i). destruct (i =? j); auto. f_equal. apply Qsum_ext. intros M K. apply score_sym; auto.
  - intros i Hi. now rewrite Nat.eqb_refl.
  - intros i j Hi Hj Hij. rewrite (proj2 (Nat.eqb_neq i j) Hij).
    assert (PN : (0 < Qc_of_nat nIter)%Qc) by (rewrite <- Qc_of_nat_0; apply Qc_of_nat_lt; auto).
    destruct (Qsum_between (fun M => pair_score g M i j) Ms) as [B1 B2].
    + intros ->. cbn in LM. lia.
    + intros M K. apply score_pos; auto.
    + split; [now apply Qc_div_pos|apply Qc_div_lt; auto]. rewrite Qcmult_1_l, <- LM. exact B2.
Qed.
Theorem LinkScore_errors x nIter ds e : x = None \/ x = Some 0%Z -> Forall good_draw ds ->
  LinkScore_on logf lnchoose lnfact mutual decay_of lcsize lfsize linC g (repeat x N) nIter ds = Err e -> e = RngOut \/ e = Diverge \/ (e = UB_uninit /\ x = None).
Proof.
  intros Hx HD E. destruct (fresh_array x Hx) as [F1 F2].
  pose proof (LinkScore_any logf lnchoose lnfact mutual decay_of lcsize lfsize linC neg_small g U (follows ds) (follows_move ds) (x = Some 0%Z) (repeat x N) nIter ds (follows_init ds) F1 F2) as I.
  rewrite E in I. cbn [ends] in I. destruct I as [->|[->|[-> K]]]; auto.
  - intros -> k K. apply nth_error_In, repeat_spec in K. discriminate.
  - destruct Hx as [Hx|Hx]; [auto|contradiction].
Qed.
End Exact.
