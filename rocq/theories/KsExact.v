(** KsExact.v -- the energy of the K-state sampler of src/missing.c and its Metropolis rule, in exact arithmetic. *)
From Coq Require Import List Arith ZArith Bool QArith Qcanon Lia.
From Verif Require Import Base Num ListLib NatSum QcSum MatLib GraphModel GraphSpec GraphProof GroupModel GroupSpec GroupProof NetModel NetCopy ToolsModel ToolsProof ModulesModel SAProof
  MissModel MissSpec MissStep MissExact MissRun RecModel RecSpec RecSets RecMem RecLinks RecStep RecSetup RecRun RecExact RecEnergy RecScore KsModel KsSpec KsLinks KsStep KsRun.
Import ListNotations.
Local Open Scope nat_scope.

(** A sum over pairs of groups that only involves two of them. *)
Lemma Qsum_pairs (h : nat -> nat -> Qc) N o w : o < N -> w < N -> o <> w -> (forall a b, h a b = h b a) -> (forall a b, a <> o -> a <> w -> b <> o -> b <> w -> h a b = 0%Qc) ->
  Qsum (fun a => Qsum (fun b => if a <=? b then h a b else 0%Qc) (seq 0 N)) (seq 0 N) = Qsum (fun b => h o b + (if Nat.eqb b o then 0 else h w b))%Qc (seq 0 N).
Proof.
  intros Ho Hw Hne HS HZ. set (l := seq 0 N).
  set (f1 := fun a b => if a <=? b then h a b else 0%Qc). set (f2 := fun b a => if a <? b then h b a else 0%Qc).
  set (f3 := fun a b => if a <=? b then (if b =? o then 0%Qc else h a b) else 0%Qc). set (f4 := fun b a => if a <? b then (if a =? o then 0%Qc else h b a) else 0%Qc).
  transitivity (Qsum (fun a => if a =? o then Qsum (f1 a) l else 0%Qc) l + Qsum (fun b => if b =? o then Qsum (f2 b) l else 0%Qc) l + (Qsum (fun a => if a =? w then Qsum (f3 a) l else 0%Qc) l + Qsum (fun b => if b =? w then Qsum (f4 b) l else 0%Qc) l))%Qc.
  - assert (X : forall (f : nat -> nat -> Qc) x, Qsum (fun a => if a =? x then Qsum (f a) l else 0%Qc) l = Qsum (fun a => Qsum (fun b => if a =? x then f a b else 0%Qc) l) l).
    { intros f x. apply Qsum_ext. intros a _. destruct (a =? x); auto. symmetry. apply Qsum_0. auto. }
    rewrite !X. rewrite (Qsum_swap (fun b a => if b =? o then f2 b a else 0%Qc)), (Qsum_swap (fun b a => if b =? w then f4 b a else 0%Qc)), <- !Qsum_add. apply Qsum_ext. intros a _. rewrite <- !Qsum_add. apply Qsum_ext. intros b _.
    unfold f1, f2, f3, f4. pose proof (HS a b) as S. pose proof (HZ a b) as Z.
    destruct (Nat.leb_spec a b), (Nat.ltb_spec a b), (Nat.eqb_spec a o), (Nat.eqb_spec b o), (Nat.eqb_spec a w), (Nat.eqb_spec b w); try (exfalso; lia); try ring; try (rewrite Z by auto; ring); try (subst; rewrite S; ring); subst; ring.
  - rewrite !Qsum_single; unfold l; auto using seq_NoDup; try (apply in_seq; lia). fold l. rewrite <- !Qsum_add. apply Qsum_ext. intros b _. unfold f1, f2, f3, f4.
    destruct (Nat.leb_spec o b), (Nat.ltb_spec b o), (Nat.leb_spec w b), (Nat.ltb_spec b w), (Nat.eqb_spec b o); try (exfalso; lia); ring.
Qed.

Section Exact.
Variables ex sq : Qc -> Qc.
Local Instance opsK : NumOps Qc := Qc_ops ex sq.
Variable lnfact : nat -> Qc.
Variable lfsize : nat.
Variable K : nat.
Hypothesis HK : 0 < K.

Lemma kchg_cost sg d cs : kchg K lnfact sg d cs = schg (costK lnfact K) sg d cs.
Proof.
  unfold kchg, schg, costK. assert (E : forall cs d, fold_left (fun d c => signed sg d (nopp (lnfact c))) cs d = (if sg then d - Qsum lnfact cs else d + Qsum lnfact cs)%Qc).
  { clear. induction cs as [|c cs IH]; intros d; cbn [fold_left Qsum]; [destruct sg; ring|]. rewrite IH. unfold signed. cbn. destruct sg; ring. }
  rewrite E. unfold signed. cbn. destruct sg; ring.
Qed.

Section Diff.
Variable R : nat -> nat -> nat -> bool.
Hypothesis R_sym : forall k i j, R k i j = R k j i.
Hypothesis R_loop : forall k i, R k i i = false.
Notation E := (kenergy lnfact K R).
Notation B := (fun c a b => costK lnfact K (betweens R c K a b)).
Lemma chargesA_sum sg c o w d : chargesA K lnfact R sg c o w d =
  (let S := Qsum (fun b => B c o b + (if Nat.eqb b o then 0 else B c w b)) (seq 0 (length c)) in if sg then d + S else d - S)%Qc.
Proof.
  unfold chargesA. cbv zeta. generalize (seq 0 (length c)) as l. intros l. revert d. induction l as [|b l IH]; intros d; cbn [fold_left Qsum]; [destruct sg; ring|]. rewrite IH. rewrite !kchg_cost. unfold schg. destruct (b =? o), sg; ring.
Qed.
Lemma kdH_exact c v w : coloured c -> v < length c -> w < length c -> colour c v <> w -> kdH K lnfact R c v w = (E (upd c v w) - E c)%Qc.
Proof.
  intros HC Hv Hw Hne. set (o := colour c v) in *. assert (Ho : o < length c) by (apply coloured_lt; auto). unfold kdH. fold o. cbv zeta. rewrite !chargesA_sum. cbv zeta.
  pose proof (used_upd c v w HC Hv Hw Hne) as HU. fold o in HU. rewrite length_upd. unfold kenergy. rewrite length_upd. set (l := seq 0 (length c)). set (c' := upd c v w) in *.
  assert (Bs : forall c a b, B c a b = B c b a) by (intros; f_equal; unfold betweens; apply map_ext; intros; apply between_sym).
  assert (ED : (Qsum (fun a => Qsum (fun b => if a <=? b then B c' a b else 0%Qc) l) l - Qsum (fun a => Qsum (fun b => if a <=? b then B c a b else 0%Qc) l) l =
    Qsum (fun b => B c' o b + (if Nat.eqb b o then 0 else B c' w b)) l - Qsum (fun b => B c o b + (if Nat.eqb b o then 0 else B c w b)) l)%Qc).
  { rewrite <- !Qsum_sub. transitivity (Qsum (fun a => Qsum (fun b => if a <=? b then B c' a b - B c a b else 0)%Qc l) l).
    - apply Qsum_ext. intros a _. rewrite <- Qsum_sub. apply Qsum_ext. intros b _. destruct (a <=? b); ring.
    - pose proof (Qsum_pairs (fun a b => B c' a b - B c a b)%Qc (length c) o w Ho Hw Hne) as X. cbv beta in X. unfold l. rewrite X.
      + apply Qsum_ext. intros b _. destruct (b =? o); ring.
      + intros a b. now rewrite (Bs c' a b), (Bs c a b).
      + intros a b H1 H2 H3 H4. assert (EB : betweens R c' K a b = betweens R c K a b).
        { unfold betweens. apply map_ext. intros k. pose proof (between_upd R R_sym R_loop c v w k a b Hv) as Y. fold o in Y. fold c' in Y. unfold goes in Y.
          destruct (Nat.eqb_spec a w), (Nat.eqb_spec a o), (Nat.eqb_spec b w), (Nat.eqb_spec b o), (Nat.eqb_spec a b); try congruence; lia. }
        rewrite EB. ring. }
  match goal with |- _ = (?x - ?u - (?y - ?z))%Qc => transitivity (x - y - u + z)%Qc; [|ring] end.
  rewrite ED. destruct ((csize c o =? 1) || (csize c w =? 0)) eqn:Eb; cbn; [ring|]. apply orb_false_iff in Eb as [E1 E2]. rewrite E1, E2 in HU. cbn [one] in HU. replace (used c') with (used c) by lia. ring.
Qed.
Lemma kJ off c H v w : coloured c -> v < length c -> w < length c -> colour c v <> w -> H = (E c + off)%Qc -> nadd H (kdH K lnfact R c v w) = (E (upd c v w) + off)%Qc.
Proof. intros HC Hv Hw Hne ->. rewrite kdH_exact by auto. cbn. ring. Qed.
Lemma kchosen_kattempt s t : kchosen K lnfact R s t -> kattempt ex E s t.
Proof.
  destruct s as [c ds], t as [c' ds']. unfold kattempt. cbn [fst snd]. intros (u & ds1 & w & ds2 & acc & H). cbv zeta in H. cbn [fst snd] in H. destruct H as (-> & E1 & E2 & Hv & Hw & Hne & HC & ->). set (v := nfloor (nmul u (nofnat (length c)))) in *.
  assert (EP : picks (length c) (colour c v) ds1 w ds2) by (now apply (redraw_picks ex sq)). assert (Ev : selects (length c) u = v) by reflexivity.
  rewrite (kdH_exact c v w HC Hv Hw Hne) in E2. unfold accepts in E2. cbn [nleb opsK Qc_ops n0] in E2.
  destruct (Qc_leb _ 0) eqn:Eb.
  - injection E2 as <- <-. apply Qc_leb_spec in Eb. apply (proj1 (Qc_sub_neg _ _)) in Eb. pose proof (ch_down ex E c u ds1 w ds2) as X. cbv zeta in X. rewrite Ev in X. auto.
  - apply Qc_leb_no in Eb. assert (Hup : (E c < E (upd c v w))%Qc) by (apply Qcnot_le_lt; intros X; apply (proj2 (Qc_sub_neg _ _)) in X; apply Qcle_not_lt in X; contradiction).
    destruct ds2 as [|u' ds2]; [discriminate|]. cbn [draw bind] in E2. injection E2 as E3 E4. subst ds2. cbn [nltb nexp nopp opsK Qc_ops] in E3. replace (- (E (upd c v w) - E c))%Qc with (E c - E (upd c v w))%Qc in E3 by ring.
    destruct acc.
    + pose proof (ch_up ex E c u ds1 w u' ds') as X. cbv zeta in X. rewrite Ev in X. apply X; auto. now apply Qc_ltb_true.
    + pose proof (ch_stay ex E c u ds1 w u' ds') as X. cbv zeta in X. rewrite Ev in X. apply X; auto. now apply Qc_ltb_false.
Qed.

(** * The energy *)
Variable g : net Qc.
Variable n : nat.
Variable c : list nat.
Variable P : gpart Qc.
Hypothesis C : joined g (seq 0 n) (seq 0 n).
Hypothesis I : groups_of g (seq 0 n) P c.
Hypothesis HR : forall k i j, R k i j = ratings g (seq 0 n) (seq 0 n) k i j.
Hypothesis HV : values_in K g.
Lemma kranged : ranged g (seq 0 n) (seq 0 n) K.
Proof. intros p q w _ _ H. eapply HV; eauto. Qed.
Lemma klinks_sum a b : a < n -> b < n -> NG2GLinks g P a b = Ok (lsum (fun x => x) (betweens R c K a b)).
Proof.
  intros Ha Hb. destruct (go_nth _ _ _ _ a I) as (Ga & Ea & _); [now rewrite seq_length|]. destruct (go_nth _ _ _ _ b I) as (Gb & Eb & _); [now rewrite seq_length|].
  unfold NG2GLinks. rewrite (get_ok _ _ _ Ea), (get_ok _ _ _ Eb). cbn [bind].
  assert (EL : links2 g Ga Gb = Ok (lsum (fun k => tally R c c k a b) (seq 0 K))).
  { rewrite (j_links2_ok g _ _ P c P c a b Ga Gb C I I Ea Eb). f_equal. unfold tally. rewrite lsum_swap, (go_len _ _ _ _ I). apply lsum_ext. intros i _.
    destruct (colour c i =? a); [|symmetry; apply lsum_0; auto]. unfold given. rewrite (lsum_ext _ (fun k => lsum (fun j => one ((colour c j =? b) && R k i j)) (seq 0 (length c)))) by (intros k _; rewrite count_lsum; apply lsum_ext; intros j _; destruct (_ && _); reflexivity).
    rewrite lsum_swap, count_lsum, (go_len _ _ _ _ I). apply lsum_ext. intros j _. destruct (colour c j =? b); cbn [andb]; [|symmetry; apply lsum_0; auto].
    rewrite (lsum_ext _ (fun k => one (ratings g (seq 0 n) (seq 0 n) k i j))) by (intros k _; now rewrite HR). transitivity (one (rated g (seq 0 n) (seq 0 n) i j)); [destruct (rated g _ _ i j); reflexivity|exact (rated_sum ex sq g _ _ K kranged i j)]. }
  unfold links2, over_group in EL. rewrite EL. cbn [bind]. f_equal. unfold betweens. rewrite lsum_map.
  rewrite (lsum_ext (fun k => tally R c c k a b) (fun k => between R c k a b * (if a =? b then 2 else 1))) by (intros k _; now apply tally_between).
  destruct (a =? b).
  - rewrite (lsum_ext _ (fun k => between R c k a b + between R c k a b)) by (intros; lia). rewrite lsum_add. set (x := lsum _ _). replace (x + x) with (x * 2) by lia. apply Nat.div_mul. lia.
  - apply lsum_ext. intros; lia.
Qed.
Lemma ls_pair_ok a b H : a < n -> b < n -> ls_pair lnfact K g P a H b = Ok (H + B c a b)%Qc.
Proof.
  intros Ha Hb. unfold ls_pair. rewrite klinks_sum by auto. cbn [bind]. set (S := lsum _ _). replace (Z.of_nat S + Z.of_nat K - 1)%Z with (Z.of_nat (S + K - 1)) by lia. rewrite nat_of_nat. cbn [bind].
  rewrite (foldM_nth _ (fun H k => H - lnfact (between R c k a b))%Qc).
  - f_equal. rewrite seq_length. unfold costK, S. rewrite fold_left_Qsub. unfold betweens. rewrite Qsum_map. cbn. ring.
  - intros k x Ek s. rewrite nth_error_seq in Ek by (apply nth_lt in Ek; now rewrite seq_length in Ek). injection Ek as <-. cbn [Nat.add]. rewrite (NWeight_halved g n P c R a b k C I HR R_sym R_loop Ha Hb). reflexivity.
Qed.
Lemma LSHKState_exact : LSHKState lnfact K g P = Ok (E c).
Proof.
  pose proof (go_length _ _ _ _ I) as LP. rewrite seq_length in LP. pose proof (go_len _ _ _ _ I) as Lc. rewrite seq_length in Lc.
  unfold LSHKState. rewrite (foldM_nth _ (fun '(x, y, z) a => (fold_left (fun x b => x + (if a <=? b then B c a b else 0))%Qc (seq 0 n) x, (y + Z.of_nat (csize c a))%Z, if 0 <? csize c a then (z + 1)%Z else z))).
  - rewrite fold3. cbn [bind]. rewrite seq_length, LP. pose proof (csize_total c (go_col _ _ _ _ I)) as CT. rewrite Lc in CT. rewrite CT. assert (CU : count (fun k => Nat.ltb 0 (csize c k)) (seq 0 n) = used c) by (unfold used; now rewrite Lc). rewrite CU, !Z.add_0_l. assert (UF : (Z.of_nat n - Z.of_nat (used c))%Z = Z.of_nat (n - used c)) by (pose proof (used_le c); lia). rewrite UF, nat_of_nat. cbn [bind]. f_equal.
    unfold kenergy. rewrite Lc. assert (EE : forall l x, fold_left (fun x a => fold_left (fun x b => x + (if a <=? b then B c a b else 0))%Qc (seq 0 n) x) l x = (x + Qsum (fun a => Qsum (fun b => if a <=? b then B c a b else 0%Qc) (seq 0 n)) l)%Qc).
    { induction l as [|a l IH]; intros x; cbn [fold_left Qsum]; [ring|]. rewrite IH, Qsum_fold. ring. } rewrite EE. cbn. ring.
  - intros k a Ek [[x y] z]. assert (Hk : k < n) by (apply nth_lt in Ek; rewrite seq_length in Ek; lia). rewrite nth_error_seq in Ek by lia. injection Ek as <-. cbn [Nat.add]. unfold ls_group. destruct (go_nth _ _ _ _ k I) as (G & EG & _); [now rewrite seq_length|]. rewrite (get_ok _ _ _ EG). cbn [bind].
    assert (EF : forall m a x, k <= a -> a + m <= n -> foldM (ls_pair lnfact K g P k) x (seq a m) = Ok (x + Qsum (fun b => B c k b) (seq a m))%Qc).
    { induction m as [|m IH]; intros a x0 H1 H2; cbn [seq foldM Qsum]; [f_equal; ring|]. rewrite ls_pair_ok by lia. cbn [bind]. rewrite IH by lia. f_equal. ring. }
    rewrite LP, EF by lia. cbn [bind]. rewrite (go_size _ _ _ _ I k G EG). f_equal. f_equal; [|destruct (Nat.ltb_spec 0 (csize c k)); [rewrite (proj2 (Z.ltb_lt _ _)) by lia|rewrite (proj2 (Z.ltb_ge _ _)) by lia]; reflexivity].
    f_equal. rewrite Qsum_fold. f_equal. replace n with (k + (n - k)) at 2 by lia. rewrite seq_app, Qsum_app. cbn [Nat.add].
    rewrite (Qsum_0 _ (seq 0 k)) by (intros b Hb; apply in_seq in Hb; destruct (Nat.leb_spec k b); auto; lia). rewrite Qcplus_0_l. apply Qsum_ext. intros b Hb. apply in_seq in Hb. destruct (Nat.leb_spec k b); auto; lia.
Qed.
End Diff.
End Exact.
