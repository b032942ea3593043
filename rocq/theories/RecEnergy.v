(** RecEnergy.v -- H2State and HKState of src/recommend.c compute the energy of the two colourings, if every rating is in range. *)
From Coq Require Import List Arith ZArith Bool QArith Qcanon Lia.
From Verif Require Import Base Num ListLib NatSum QcSum MatLib GraphModel GraphSpec GraphProof GroupModel GroupSpec GroupProof NetModel ToolsModel ToolsProof ModulesModel SAProof
  BipartModel BipartSpec MissModel MissSpec MissStep RecModel RecSpec RecSets RecMem RecLinks RecStep RecSetup RecRun RecExact.
Import ListNotations.
Local Open Scope nat_scope.

Lemma foldM_nth {S X} (f : S -> X -> res S) (h : S -> nat -> S) l : (forall k x, nth_error l k = Some x -> forall s, f s x = Ok (h s k)) ->
  forall s, foldM f s l = Ok (fold_left h (seq 0 (length l)) s).
Proof.
  assert (G : forall l a, (forall k x, nth_error l k = Some x -> forall s, f s x = Ok (h s (a + k))) -> forall s, foldM f s l = Ok (fold_left h (seq a (length l)) s)).
  { clear. induction l as [|x l IH]; intros a H s; auto. cbn [foldM length seq fold_left]. rewrite (H 0 x eq_refl), Nat.add_0_r. cbn [bind]. apply IH. intros k y E s'. rewrite (H (Datatypes.S k) y E). do 2 f_equal. lia. }
  intros H. apply G. exact H.
Qed.
Lemma csize_total c : coloured c -> lsum (csize c) (seq 0 (length c)) = length c.
Proof.
  intros H. rewrite (lsum_ext _ (fun k => lsum (fun i => if colour c i =? k then 1 else 0) (seq 0 (length c)))) by (intros k _; now rewrite csize_seq, count_lsum).
  rewrite lsum_swap. rewrite (lsum_ext _ (fun _ => 1)).
  - rewrite lsum_const, seq_length. lia.
  - intros i Hi. apply in_seq in Hi. rewrite (lsum_ext _ (fun k => if k =? colour c i then 1 else 0)) by (intros k _; now rewrite Nat.eqb_sym).
    rewrite (lsum_single (fun _ => 1)); auto using seq_NoDup. apply in_seq. pose proof (coloured_lt c i H ltac:(lia)). lia.
Qed.
Lemma fold_count (p : nat -> bool) l : forall z, fold_left (fun z k => if p k then (z + 1)%Z else z) l z = (z + Z.of_nat (count p l))%Z.
Proof. induction l as [|k l IH]; intros z; cbn [fold_left]; [rewrite <- (Z.add_0_r z) at 1; reflexivity|]. rewrite IH, count_cons. destruct (p k); lia. Qed.
Lemma fold_sum (f : nat -> nat) l : forall z, fold_left (fun z k => (z + Z.of_nat (f k))%Z) l z = (z + Z.of_nat (lsum f l))%Z.
Proof. induction l as [|k l IH]; intros z; cbn [fold_left lsum]; [simpl; lia|]. rewrite IH. lia. Qed.

Lemma fold_left_Qsub (f : nat -> Qc) l : forall x, fold_left (fun x k => x - f k)%Qc l x = (x - Qsum f l)%Qc.
Proof. induction l as [|k l IH]; intros x; cbn [fold_left Qsum]; [ring|]. rewrite IH. ring. Qed.

Section Energy.
Variables ex sq : Qc -> Qc.
Local Instance opsR : NumOps Qc := Qc_ops ex sq.
Variable logf : nat -> Qc.
Variable lnchoose : nat -> nat -> Qc.
Variable lnfact : nat -> Qc.
Variable g : net Qc.
Variables s1 s2 c1 c2 : list nat.
Variables P1 P2 : gpart Qc.
Hypothesis C : crossed g s1 s2.
Hypothesis I1 : groups_of g s1 P1 c1.
Hypothesis I2 : groups_of g s2 P2 c2.
Notation R := (ratings g s1 s2).
Variable K : nat.
Definition ranged : Prop := forall p q w, In p s1 -> In q s2 -> weight g p q = Some w -> exists k, k < K /\ w = Qc_of_nat k.
Hypothesis HR : ranged.

Lemma rated_sum i j : one (rated g s1 s2 i j) = lsum (fun k => one (R k i j)) (seq 0 K).
Proof.
  unfold rated, ratings. destruct (nth_error s1 i) as [p|] eqn:Ep; [|symmetry; apply lsum_0; auto]. destruct (nth_error s2 j) as [q|] eqn:Eq; [|symmetry; apply lsum_0; auto].
  destruct (weight g p q) as [w|] eqn:Ew; [|symmetry; apply lsum_0; auto]. destruct (HR p q w (nth_error_In _ _ Ep) (nth_error_In _ _ Eq) Ew) as (k & Hk & ->). cbn [one].
  rewrite (lsum_ext _ (fun k' => if k' =? k then 1 else 0)); [rewrite (lsum_single (fun _ => 1)); auto using seq_NoDup; apply in_seq; lia|].
  intros k' _. cbn [neqb opsR Qc_ops nofnat]. destruct (Nat.eqb_spec k' k) as [->|N].
  - unfold one, Qc_eq_bool. destruct (Qc_eq_dec (Qc_of_nat k) (Qc_of_nat k)); congruence.
  - unfold one. destruct (Qc_eq_dec (Qc_of_nat k) (Qc_of_nat k')) as [E|]; auto. apply Qc_of_nat_inj in E. congruence.
Qed.
Lemma links_sum a b Ga Gb : nth_error P1 a = Some Ga -> nth_error P2 b = Some Gb -> links2 g Ga Gb = Ok (lsum (fun x => x) (tallies R K c1 c2 a b)).
Proof.
  intros Ea Eb. rewrite (links2_ok g s1 s2 P1 c1 P2 c2 a b Ga Gb C I1 I2 Ea Eb). f_equal. unfold tallies. rewrite lsum_map. unfold tally. rewrite lsum_swap, (go_len _ _ _ _ I1). apply lsum_ext. intros i _.
  destruct (colour c1 i =? a); [|symmetry; apply lsum_0; auto]. unfold given. rewrite (lsum_ext _ (fun k => lsum (fun j => one ((colour c2 j =? b) && R k i j)) (seq 0 (length c2)))) by (intros k _; rewrite count_lsum; apply lsum_ext; intros j _; destruct (_ && _); reflexivity).
  rewrite lsum_swap, count_lsum, (go_len _ _ _ _ I2). apply lsum_ext. intros j _. destruct (colour c2 j =? b); cbn [andb]; [|symmetry; apply lsum_0; auto]. rewrite <- rated_sum. unfold one. destruct (rated g s1 s2 i j); reflexivity.
Qed.
Lemma sizes P s c : groups_of g s P c -> fold_left size_step P (0%Z, 0%Z) = (Z.of_nat (length c), Z.of_nat (used c)).
Proof.
  intros I. unfold used. rewrite <- (csize_total c (go_col _ _ _ _ I)) at 1.
  assert (E : forall (Q : gpart Qc) a x y, (forall k G, nth_error Q k = Some G -> psize G = Z.of_nat (csize c (a + k))) ->
     fold_left size_step Q (x, y) = ((x + Z.of_nat (lsum (csize c) (seq a (length Q))))%Z, (y + Z.of_nat (count (fun k => Nat.ltb 0 (csize c k)) (seq a (length Q))))%Z)).
  { clear. induction Q as [|G Q IH]; intros a x y H; cbn [fold_left length seq lsum]; [unfold count; simpl; f_equal; lia|]. rewrite count_cons.
    assert (H' : forall k G0, nth_error Q k = Some G0 -> psize G0 = Z.of_nat (csize c (S a + k))) by (intros k G' E; rewrite (H (S k) G' E); do 2 f_equal; lia).
    unfold size_step at 2. cbn [fst snd]. rewrite (H 0 G eq_refl), Nat.add_0_r. destruct (Nat.ltb_spec 0 (csize c a)) as [Hp|Hp].
    - rewrite (proj2 (Z.ltb_lt _ _)) by lia. rewrite (IH (S a)); auto. f_equal; lia.
    - rewrite (proj2 (Z.ltb_ge _ _)) by lia. rewrite (IH (S a)); auto. f_equal; lia. }
  rewrite (E P 0 0%Z 0%Z).
  - rewrite (go_length _ _ _ _ I), <- (go_len _ _ _ _ I). f_equal; lia.
  - intros k G EG. apply (go_size _ _ _ _ I); auto.
Qed.
Lemma fold3 (hq : Qc -> nat -> Qc) (f : nat -> nat) (p : nat -> bool) l : forall x y z,
  fold_left (fun '(x, y, z) k => (hq x k, (y + Z.of_nat (f k))%Z, if p k then (z + 1)%Z else z)) l (x, y, z) = (fold_left hq l x, (y + Z.of_nat (lsum f l))%Z, (z + Z.of_nat (count p l))%Z).
Proof. induction l as [|k l IH]; intros x y z; cbn [fold_left lsum]; [unfold count; simpl; f_equal; [f_equal|]; lia|]. rewrite IH, count_cons. destruct (p k); (apply f_equal2; [apply f_equal2; [reflexivity|lia]|lia]). Qed.
Lemma used_fits c : coloured c -> (Z.of_nat (length c) - Z.of_nat (used c) = Z.of_nat (length c - used c))%Z.
Proof. intros _. pose proof (used_le c). lia. Qed.

(** * K ratings *)
Hypothesis HK : 0 < K.
Lemma hk_pair_ok a b Ga Gb H : nth_error P1 a = Some Ga -> nth_error P2 b = Some Gb -> hk_pair lnfact K g Ga H Gb = Ok (H + costK lnfact K (tallies R K c1 c2 a b))%Qc.
Proof.
  intros Ea Eb. unfold hk_pair. rewrite (links_sum a b Ga Gb Ea Eb). cbn [bind]. set (S := lsum _ _). replace (Z.of_nat S + Z.of_nat K - 1)%Z with (Z.of_nat (S + K - 1)) by lia. rewrite nat_of_nat. cbn [bind].
  rewrite (foldM_nth _ (fun H k => H - lnfact (tally R c1 c2 k a b))%Qc).
  - f_equal. rewrite seq_length. unfold costK, S. rewrite fold_left_Qsub. unfold tallies. rewrite Qsum_map. cbn. ring.
  - intros k x E s. rewrite nth_error_seq in E by (apply nth_lt in E; now rewrite seq_length in E). injection E as <-. cbn [Nat.add]. rewrite (NWeightG2G_ok g s1 s2 P1 c1 P2 c2 a b Ga Gb k C I1 I2 Ea Eb). reflexivity.
Qed.
Lemma HKState_exact : HKState lnfact K g P1 P2 = Ok (renergy lnfact K (costK lnfact K) R c1 c2).
Proof.
  unfold HKState. rewrite (foldM_nth _ (fun '(x, y, z) a => (fold_left (fun x b => x + costK lnfact K (tallies R K c1 c2 a b))%Qc (seq 0 (length c2)) x, (y + Z.of_nat (csize c1 a))%Z, if 0 <? csize c1 a then (z + 1)%Z else z))).
  - rewrite fold3. cbn [bind]. rewrite (sizes P2 s2 c2 I2). rewrite (go_length _ _ _ _ I1), <- (go_len _ _ _ _ I1). rewrite (csize_total c1 (go_col _ _ _ _ I1)). fold (used c1). rewrite !Z.add_0_l, !used_fits by (apply I1 || apply I2). rewrite !nat_of_nat. cbn [bind]. f_equal.
    unfold renergy. assert (E : forall l x, fold_left (fun x a => fold_left (fun x b => x + costK lnfact K (tallies R K c1 c2 a b))%Qc (seq 0 (length c2)) x) l x = (x + Qsum (fun a => Qsum (fun b => costK lnfact K (tallies R K c1 c2 a b)) (seq 0 (length c2))) l)%Qc).
    { induction l as [|a l IH]; intros x; cbn [fold_left Qsum]; [ring|]. rewrite IH, Qsum_fold. ring. } rewrite E. cbn. ring.
  - intros a Ga Ea [[x y] z]. unfold hk_group. rewrite (foldM_nth _ (fun x b => x + costK lnfact K (tallies R K c1 c2 a b))%Qc) by (intros b Gb Eb s; now apply hk_pair_ok). cbn [bind]. rewrite (go_length _ _ _ _ I2), <- (go_len _ _ _ _ I2).
    rewrite (go_size _ _ _ _ I1 a Ga Ea). f_equal. f_equal. destruct (Nat.ltb_spec 0 (csize c1 a)); [rewrite (proj2 (Z.ltb_lt _ _)) by lia|rewrite (proj2 (Z.ltb_ge _ _)) by lia]; reflexivity.
Qed.
End Energy.

(** * Ratings 0 and 1 *)
Section Energy2.
Variables ex sq : Qc -> Qc.
Local Instance opsR2 : NumOps Qc := Qc_ops ex sq.
Variable logf : nat -> Qc.
Variable lnchoose : nat -> nat -> Qc.
Variable lnfact : nat -> Qc.
Hypothesis none : cost2 logf lnchoose [0; 0] = 0%Qc.
Variable g : net Qc.
Variables s1 s2 c1 c2 : list nat.
Variables P1 P2 : gpart Qc.
Hypothesis C : crossed g s1 s2.
Hypothesis I1 : groups_of g s1 P1 c1.
Hypothesis I2 : groups_of g s2 P2 c2.
Notation R := (ratings g s1 s2).
Hypothesis HR : ranged g s1 s2 2.
Notation T := (tallies R 2 c1 c2).
Lemma h2_pair_ok a b Ga Gb H : nth_error P1 a = Some Ga -> nth_error P2 b = Some Gb -> h2_pair logf lnchoose g Ga H Gb = Ok (H + cost2 logf lnchoose (T a b))%Qc.
Proof.
  intros Ea Eb. unfold h2_pair. rewrite (go_size _ _ _ _ I2 b Gb Eb). destruct (Z.ltb_spec 0 (Z.of_nat (csize c2 b))) as [Hp|Hp].
  - rewrite (links_sum ex sq g s1 s2 c1 c2 P1 P2 C I1 I2 2 HR a b Ga Gb Ea Eb). cbn [bind]. rewrite (NWeightG2G_ok g s1 s2 P1 c1 P2 c2 a b Ga Gb 1 C I1 I2 Ea Eb). cbn [bind]. f_equal. unfold tallies. cbn [seq map lsum cost2 nadd opsR2 Qc_ops]. rewrite !Nat.add_0_r. reflexivity.
  - unfold tallies. cbn [seq map]. rewrite !tally_empty_r by lia. rewrite none. f_equal. ring.
Qed.
Lemma H2State_exact : H2State logf lnchoose lnfact g P1 P2 = Ok (renergy lnfact 2 (cost2 logf lnchoose) R c1 c2).
Proof.
  unfold H2State. rewrite (foldM_nth _ (fun '(x, y, z) a => (fold_left (fun x b => x + cost2 logf lnchoose (T a b))%Qc (seq 0 (length c2)) x, (y + Z.of_nat (csize c1 a))%Z, if 0 <? csize c1 a then (z + 1)%Z else z))).
  - rewrite fold3. cbn [bind]. rewrite (sizes g P2 s2 c2 I2). rewrite (go_length _ _ _ _ I1), <- (go_len _ _ _ _ I1). rewrite (csize_total c1 (go_col _ _ _ _ I1)). fold (used c1). rewrite !Z.add_0_l, !used_fits by (apply I1 || apply I2). rewrite !nat_of_nat. cbn [bind]. f_equal.
    unfold renergy. assert (E : forall l x, fold_left (fun x a => fold_left (fun x b => x + cost2 logf lnchoose (T a b))%Qc (seq 0 (length c2)) x) l x = (x + Qsum (fun a => Qsum (fun b => cost2 logf lnchoose (T a b)) (seq 0 (length c2))) l)%Qc).
    { induction l as [|a l IH]; intros x; cbn [fold_left Qsum]; [ring|]. rewrite IH, Qsum_fold. ring. } rewrite E. cbn. ring.
  - intros a Ga Ea [[x y] z]. unfold h2_group. rewrite (go_size _ _ _ _ I1 a Ga Ea). rewrite (foldM_nth _ (fun x b => x + cost2 logf lnchoose (T a b))%Qc) by (intros b Gb Eb s; now apply h2_pair_ok). rewrite (go_length _ _ _ _ I2), <- (go_len _ _ _ _ I2).
    destruct (Nat.ltb_spec 0 (csize c1 a)) as [Hp|Hp]; [rewrite (proj2 (Z.ltb_lt _ _)) by lia; reflexivity|]. rewrite (proj2 (Z.ltb_ge _ _)) by lia. f_equal. f_equal. f_equal; [|lia]. rewrite Qsum_fold, Qsum_0; [ring|].
    intros b _. unfold tallies. cbn [seq map]. rewrite !tally_empty_l by lia. apply none.
Qed.
End Energy2.
