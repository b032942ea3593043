(** MissScore.v -- the scores that LinkScore of src/missing.c adds up, in any arithmetic. *)
From Coq Require Import List Arith ZArith Bool QArith Qcanon Lia.
From Verif Require Import Base Num ListLib NatSum QcSum IoModel GraphModel GraphSpec GraphProof GroupModel GroupSpec PairSum GroupProof GroupExact MatLib
  ToolsModel ToolsProof ModulesModel ModulesCopy SAProof MissModel MissSpec MissSets MissStep MissRun.
Import ListNotations.
Local Open Scope nat_scope.

Lemma mem_cons x a l : mem x (a :: l) = (x =? a) || mem x l.
Proof. unfold mem. cbn [existsb]. reflexivity. Qed.
Section Add.
Context {A : Type} {ops : NumOps A}.
Variable N : nat.
Implicit Types (f : nat -> nat -> A) (m : list (list A)).

Definition plus_on (b : nat -> nat -> bool) (c : A) f : nat -> nat -> A := fun x y => if b x y then nadd (f x y) c else f x y.
Lemma add_one c m f a b : a <> b -> a < N -> b < N -> mat N N m f ->
  exists m', add_score c m a b = Ok m' /\ mat N N m' (plus_on (fun x y => ((x =? a) && (y =? b)) || ((x =? b) && (y =? a))) c f).
Proof.
  intros Hab Ha Hb Hm. unfold add_score. rewrite (mat_get _ _ _ _ a b Hm Ha Hb). cbn [bind]. destruct (mat_set _ _ _ _ a b (nadd (f a b) c) Hm Ha Hb) as (m1 & -> & Hm1). cbn [bind].
  rewrite (mat_get _ _ _ _ b a Hm1 Hb Ha). cbn [bind]. destruct (mat_set _ _ _ _ b a (nadd (fupd2 f a b (nadd (f a b) c) b a) c) Hm1 Hb Ha) as (m2 & -> & Hm2). exists m2. split; auto.
  eapply mat_ext; [exact Hm2|]. intros x y Hx Hy. unfold plus_on, fupd2. destruct (Nat.eqb_spec b a); [congruence|]. cbn [andb].
  destruct (Nat.eqb_spec x a), (Nat.eqb_spec y b), (Nat.eqb_spec x b), (Nat.eqb_spec y a); subst; cbn [andb orb]; congruence || auto.
Qed.
Lemma add_row c a cells : forall m f, NoDup (map lnode cells) -> ~ In a (map lnode cells) -> a < N -> (forall x, In x (map lnode cells) -> x < N) -> mat N N m f ->
  exists m', foldM (fun m (p2 : link A) => add_score c m a (lnode p2)) m cells = Ok m' /\
    mat N N m' (plus_on (fun x y => ((x =? a) && mem y (map lnode cells)) || ((y =? a) && mem x (map lnode cells))) c f).
Proof.
  induction cells as [|p cells IH]; intros m f ND HN Ha HT Hm; cbn [foldM map].
  - exists m. split; auto. eapply mat_ext; [exact Hm|]. intros x y _ _. unfold plus_on. cbn [mem existsb]. now rewrite !andb_false_r.
  - cbn [map] in *. inversion ND as [|? ? H1 H2]; subst. destruct (add_one c m f a (lnode p)) as (m1 & -> & Hm1); auto; [intros ->; apply HN; now left|apply HT; now left|].
    cbn [bind]. destruct (IH m1 _ H2 (fun K => HN (or_intror K)) Ha (fun x K => HT x (or_intror K)) Hm1) as (m2 & -> & Hm2). exists m2. split; auto.
    eapply mat_ext; [exact Hm2|]. intros x y _ _. unfold plus_on. rewrite !mem_cons.
    assert (Hp : mem (lnode p) (map lnode cells) = false) by (destruct (mem_spec (lnode p) (map lnode cells)); auto; contradiction).
    assert (Hq : mem a (map lnode cells) = false) by (destruct (mem_spec a (map lnode cells)); auto; exfalso; apply HN; now right).
    assert (Hpa : lnode p <> a) by (intros K; apply HN; now left).
    destruct (Nat.eqb_spec x a), (Nat.eqb_spec y a), (Nat.eqb_spec x (lnode p)), (Nat.eqb_spec y (lnode p)); subst; rewrite ?Hp, ?Hq; cbn [andb orb]; try congruence; auto;
      rewrite ?andb_false_r, ?orb_false_r; auto.
Qed.
Lemma add_between c cells2 : forall cells1 m f, NoDup (map lnode cells1) -> NoDup (map lnode cells2) -> (forall x, In x (map lnode cells1) -> ~ In x (map lnode cells2)) ->
  (forall x, In x (map lnode cells1) -> x < N) -> (forall x, In x (map lnode cells2) -> x < N) -> mat N N m f ->
  exists m', score_between c m cells1 cells2 = Ok m' /\
    mat N N m' (plus_on (fun x y => (mem x (map lnode cells1) && mem y (map lnode cells2)) || (mem y (map lnode cells1) && mem x (map lnode cells2))) c f).
Proof.
  unfold score_between. induction cells1 as [|p cells IH]; intros m f ND ND2 HD HS HT Hm; cbn [foldM map].
  - exists m. split; auto.
  - cbn [map] in *. inversion ND as [|? ? H1 H2]; subst. destruct (add_row c (lnode p) cells2 m f ND2) as (m1 & -> & Hm1); auto. { apply HD. now left. } { apply HS. now left. }
    cbn [bind]. destruct (IH m1 _ H2 ND2 (fun x K => HD x (or_intror K)) (fun x K => HS x (or_intror K)) HT Hm1) as (m2 & -> & Hm2). exists m2. split; auto.
    eapply mat_ext; [exact Hm2|]. intros x y _ _. unfold plus_on. rewrite !mem_cons.
    assert (Hp : mem (lnode p) (map lnode cells) = false) by (destruct (mem_spec (lnode p) (map lnode cells)); auto; contradiction).
    assert (Hq : mem (lnode p) (map lnode cells2) = false) by (destruct (mem_spec (lnode p) (map lnode cells2)) as [K|]; auto; exfalso; revert K; apply HD; now left).
    assert (HX : forall z, mem z (map lnode cells) = true -> mem z (map lnode cells2) = false).
    { intros z K. apply mem_In in K. destruct (mem_spec z (map lnode cells2)) as [K2|]; auto. exfalso. revert K2. apply HD. now right. }
    pose proof (HX x) as HXx. pose proof (HX y) as HXy.
    destruct (Nat.eqb_spec x (lnode p)), (Nat.eqb_spec y (lnode p)); subst; rewrite ?Hp, ?Hq; cbn [andb orb]; auto; rewrite ?andb_false_r, ?orb_false_r; cbn [orb]; auto.
Qed.
Lemma add_in c cells : forall m f, NoDup (map lnode cells) -> (forall x, In x (map lnode cells) -> x < N) -> mat N N m f ->
  exists m', score_in c m cells = Ok m' /\ mat N N m' (plus_on (fun x y => mem x (map lnode cells) && mem y (map lnode cells) && negb (x =? y)) c f).
Proof.
  induction cells as [|p cells IH]; intros m f ND HS Hm; cbn [score_in map].
  - exists m. split; auto.
  - cbn [map] in *. inversion ND as [|? ? H1 H2]; subst. destruct (add_row c (lnode p) cells m f H2) as (m1 & -> & Hm1); auto. { apply HS. now left. } { intros x K. apply HS. now right. }
    cbn [bind]. destruct (IH m1 _ H2 (fun x K => HS x (or_intror K)) Hm1) as (m2 & -> & Hm2). exists m2. split; auto.
    eapply mat_ext; [exact Hm2|]. intros x y _ _. unfold plus_on. rewrite !mem_cons.
    assert (Hp : mem (lnode p) (map lnode cells) = false) by (destruct (mem_spec (lnode p) (map lnode cells)); auto; contradiction).
    destruct (Nat.eqb_spec x (lnode p)), (Nat.eqb_spec y (lnode p)), (Nat.eqb_spec x y); subst; try congruence; rewrite ?Hp; cbn [andb orb negb]; auto; rewrite ?andb_false_r, ?orb_false_r; cbn [orb]; auto;
      rewrite ?andb_true_r, ?orb_true_r; auto; rewrite ?Nat.eqb_refl; cbn [negb orb andb]; auto.
Qed.
End Add.

(** The label of the group of a node. *)
Definition hm (M : groups) (i : nat) : nat := match find (fun x => mem i (snd x)) M with Some x => fst x | None => 0 end.
Lemma hm_spec N M i : assigned N M -> i < N -> hm M i < N /\ mates M i = nth_members M (hm M i) /\ forall k, mem i (nth_members M k) = (hm M i =? k).
Proof.
  intros HA Hi. unfold hm, mates. destruct (find (fun x => mem i (snd x)) M) as [[k S]|] eqn:E.
  - apply find_some in E as [E1 E2]. cbn [fst snd] in *. apply In_nth_error in E1 as [j Ej]. assert (Hj : j < N) by (rewrite <- (as_length N M HA); eapply nth_lt; eauto).
    pose proof (as_nth N M j HA Hj) as En. rewrite Ej in En. injection En as -> ->. splits; auto. intros l. apply mem_In in E2. destruct (Nat.eqb_spec j l) as [->|Hne]; [now apply mem_In|].
    destruct (mem_spec i (nth_members M l)) as [K|]; auto. exfalso. apply Hne. eapply as_apart; eauto.
  - exfalso. destruct (as_cover N M HA i Hi) as [k Hk]. pose proof (as_lt N M k i HA Hk) as Lk. pose proof (as_nth N M k HA Lk) as En.
    apply nth_error_In in En. apply (find_none _ _ E) in En. cbn [snd] in En. apply mem_In in Hk. congruence.
Qed.

Section Score.
Context {A : Type} {ops : NumOps A}.
Variable logf : nat -> A.
Variable lnchoose : nat -> nat -> A.
Variable lnfact : nat -> A.
Variable mutual : gpart A -> gpart A -> A.
Variable decay_of : nat -> nat -> A -> nat -> A -> A.
Variables lcsize lfsize : nat.
Variable linC : A.
Hypothesis Hneg : nltb (nofQ (-1 # 1)) n0 = true.
Variable g0 : net A.
Hypothesis U0 : undirected g0.
Let N := length g0.
Variable J : groups -> A -> list A -> Prop.
Hypothesis J_move : attempt_ok logf lnchoose lnfact linC g0 J.
Variable zeroed : Prop.
Notation mc_err := (mc_err zeroed).
Notation minv := (minv lnchoose lcsize g0 J zeroed).
Notation pinv := (pinv g0).
Notation ident := (ident g0).
Notation tfact := (InitializeTable lnfact lfsize).

Section State.
Variable st : mc A.
Hypothesis I : minv st.
Let M := abs (mpart st).
Let HA : assigned N M := pi_as _ _ _ (mi_p _ _ _ _ _ _ I).
Lemma group_here k : k < N -> exists G, group_at ident (mpart st) k = Ok G /\ map lnode (pnodes G) = nth_members M k /\
  psize G = Z.of_nat (length (nth_members M k)) /\ pin G = Z.of_nat (links_in g0 (nth_members M k)).
Proof.
  intros Hk. pose proof (mi_p _ _ _ _ _ _ I) as HP. destruct (pi_group g0 _ _ HP k Hk) as (G & EG & _ & Em & Es & Ei). exists G. unfold group_at. rewrite (ident_get g0 k Hk). cbn [bind deref].
  rewrite (get_ok _ _ _ EG). splits; auto. unfold M. rewrite <- Em. unfold members. pose proof (pi_cells g0 _ _ HP G (nth_error_In _ _ EG)) as HC.
  clear - HC. induction (pnodes G) as [|l ls IH]; auto. cbn [map targets flat_map]. destruct (HC l (or_introl eq_refl)) as (i & -> & E & _). rewrite E. cbn [app]. f_equal. apply IH. intros l' K. apply HC. now right.
Qed.
Lemma contrib_ok l r : contrib (Z.of_nat l) (Z.of_nat r) = Ok (ndiv (nofnat (l + 1)) (nofnat (r + 2))).
Proof.
  unfold contrib. replace (Z.of_nat l + 1)%Z with (Z.of_nat (l + 1)) by lia. replace (Z.of_nat r + 2)%Z with (Z.of_nat (r + 2)) by lia. rewrite !nat_of_nat. reflexivity.
Qed.
(** The pairs done before group [i], and those of group [i] with groups before [j]. *)
Definition done_pair (i j x y : nat) : bool :=
  negb (x =? y) && ((hm M x <? i) || (hm M y <? i) || ((hm M x =? i) && (hm M y <? j)) || ((hm M y =? i) && (hm M x <? j))).
Definition with_scores (b : nat -> nat -> bool) (f : nat -> nat -> A) : nat -> nat -> A := fun x y => if b x y then nadd (f x y) (pair_score g0 M x y) else f x y.
Lemma members_lt k x : In x (nth_members M k) -> x < N.
Proof. apply (as_range N M HA). Qed.

Lemma score_other_ok i j G m f : i < j -> j < N -> group_at ident (mpart st) i = Ok G -> map lnode (pnodes G) = nth_members M i -> psize G = Z.of_nat (length (nth_members M i)) ->
  mat N N m (with_scores (done_pair i j) f) -> exists m', score_other N ident st i G m j = Ok m' /\ mat N N m' (with_scores (done_pair i (j + 1)) f).
Proof.
  intros Hij Hj EG Em Es Hm. unfold score_other. destruct (group_here j Hj) as (G2 & -> & Em2 & Es2 & _). cbn [bind]. rewrite Es2.
  destruct (Z.ltb_spec 0 (Z.of_nat (length (nth_members M j)))) as [Hp|Hp].
  - pose proof (mi_g2g _ _ _ _ _ _ I) as HT. unfold table_exact in HT. fold N M in HT. rewrite (mat_get _ _ _ _ i j HT) by lia. cbn [bind]. rewrite (proj2 (Nat.eqb_neq i j)) by lia.
    rewrite Es, <- Nat2Z.inj_mul, contrib_ok. cbn [bind]. set (c := ndiv _ _).
    destruct (add_between N c (pnodes G2) (pnodes G) m (with_scores (done_pair i j) f)) as (m' & -> & Hm'); rewrite ?Em, ?Em2.
    + apply HA.
    + apply HA.
    + intros x K1 K2. assert (i = j) by (eapply as_apart; eauto). lia.
    + apply members_lt.
    + apply members_lt.
    + exact Hm.
    + exists m'. split; auto. eapply mat_ext; [exact Hm'|]. rewrite Em, Em2. intros x y Hx Hy. unfold plus_on, with_scores, done_pair.
      destruct (hm_spec N M x HA Hx) as (Lx & Mx & Bx). destruct (hm_spec N M y HA Hy) as (Ly & My & By). rewrite !Bx, !By.
      assert (EC : forall x y, x < N -> y < N -> hm M x = i -> hm M y = j -> c = pair_score g0 M x y).
      { clear x y Hx Hy Lx Mx Bx Ly My By. intros x y Hx Hy Ex Ey. destruct (hm_spec N M x HA Hx) as (_ & Mx & _). destruct (hm_spec N M y HA Hy) as (_ & My & By).
        unfold pair_score. rewrite Mx, My, By, Ex, Ey, (proj2 (Nat.eqb_neq j i)) by lia. reflexivity. }
      assert (EC2 : forall x y, x < N -> y < N -> hm M x = j -> hm M y = i -> c = pair_score g0 M x y).
      { intros x1 y1 Hx1 Hy1 Ex1 Ey1. rewrite (EC y1 x1); auto. destruct (hm_spec N M x1 HA Hx1) as (_ & Mx1 & Bx1). destruct (hm_spec N M y1 HA Hy1) as (_ & My1 & By1).
        unfold pair_score. rewrite Mx1, My1, By1, Bx1, Ex1, Ey1, (proj2 (Nat.eqb_neq j i)), (proj2 (Nat.eqb_neq i j)) by lia.
        rewrite (across_sym g0 _ _ U0), Nat.mul_comm. reflexivity. }
      specialize (EC x y Hx Hy). specialize (EC2 x y Hx Hy).
      destruct (Nat.eqb_spec x y) as [Exy|Exy]; cbn [negb andb].
      * subst y. destruct (Nat.eqb_spec (hm M x) i), (Nat.eqb_spec (hm M x) j); cbn [andb orb]; auto; lia.
      * destruct (Nat.eqb_spec (hm M x) i) as [E1|E1], (Nat.eqb_spec (hm M y) j) as [E2|E2], (Nat.eqb_spec (hm M y) i) as [E3|E3], (Nat.eqb_spec (hm M x) j) as [E4|E4]; cbn [andb orb]; try lia;
        repeat match goal with |- context [?a <? ?b] => destruct (Nat.ltb_spec a b); try lia; cbn [andb orb] end; auto.
        -- now rewrite EC.
        -- now rewrite EC2.
  - exists m. split; auto. eapply mat_ext; [exact Hm|]. intros x y Hx Hy. unfold with_scores, done_pair. 
    assert (HE : forall x, x < N -> hm M x <> j).
    { intros z Hz E. destruct (hm_spec N M z HA Hz) as (_ & _ & B). specialize (B j). rewrite (proj2 (Nat.eqb_eq _ _) E) in B. apply mem_In in B. destruct (nth_members M j); [destruct B|cbn in Hp; lia]. }
    pose proof (HE x Hx). pose proof (HE y Hy).
    repeat match goal with |- context [?a <? ?b] => destruct (Nat.ltb_spec a b); try lia; cbn [andb orb] end; auto.
Qed.
Lemma score_group_ok i m f : i < N -> mat N N m (with_scores (done_pair i 0) f) -> exists m', score_group N ident st m i = Ok m' /\ mat N N m' (with_scores (done_pair (i + 1) 0) f).
Proof.
  intros Hi Hm. unfold score_group. destruct (group_here i Hi) as (G & EG & Em & Es & Ei). rewrite EG. cbn [bind]. rewrite Es.
  destruct (Z.ltb_spec 0 (Z.of_nat (length (nth_members M i)))) as [Hp|Hp].
  - rewrite Ei, choose2_Z, contrib_ok. cbn [bind]. set (c := ndiv _ _).
    destruct (add_in N c (pnodes G) m (with_scores (done_pair i 0) f)) as (m1 & -> & Hm1); rewrite ?Em; [apply HA|apply members_lt|exact Hm|]. cbn [bind]. rewrite Em in Hm1.
    destruct (foldM_from (fun j m => mat N N m (with_scores (done_pair i j) f)) (score_other N ident st i G) (N - (i + 1)) (i + 1) m1) as (m2 & E2 & Hm2).
    + eapply mat_ext; [exact Hm1|]. intros x y Hx Hy. unfold plus_on, with_scores, done_pair.
      destruct (hm_spec N M x HA Hx) as (Lx & Mx & Bx). destruct (hm_spec N M y HA Hy) as (Ly & My & By). rewrite !Bx, !By.
      assert (EC : hm M x = i -> hm M y = i -> c = pair_score g0 M x y).
      { intros E1 E2. unfold pair_score. rewrite Mx, My, By, E1, E2, Nat.eqb_refl. reflexivity. }
      destruct (Nat.eqb_spec x y) as [Exy|Exy]; cbn [negb andb]; rewrite ?andb_false_r; auto. rewrite andb_true_r.
      destruct (Nat.eqb_spec (hm M x) i) as [E1|E1], (Nat.eqb_spec (hm M y) i) as [E2|E2]; cbn [andb orb]; rewrite ?E1, ?E2;
        repeat match goal with |- context [?a <? ?b] => destruct (Nat.ltb_spec a b); try lia; cbn [andb orb] end; auto.
      now rewrite EC.
    + intros j mj Hj1 Hj2 Hmj. apply score_other_ok; auto; lia.
    + exists m2. split; auto. eapply mat_ext; [exact Hm2|]. intros x y Hx Hy. unfold with_scores, done_pair. replace (i + 1 + (N - (i + 1))) with N by lia.
      destruct (hm_spec N M x HA Hx) as (Lx & _). destruct (hm_spec N M y HA Hy) as (Ly & _).
      rewrite (proj2 (Nat.ltb_lt (hm M x) N) Lx), (proj2 (Nat.ltb_lt (hm M y) N) Ly).
      replace (hm M x <? i + 1) with ((hm M x <? i) || (hm M x =? i)) by (destruct (Nat.ltb_spec (hm M x) i), (Nat.eqb_spec (hm M x) i), (Nat.ltb_spec (hm M x) (i + 1)); auto; lia).
      replace (hm M y <? i + 1) with ((hm M y <? i) || (hm M y =? i)) by (destruct (Nat.ltb_spec (hm M y) i), (Nat.eqb_spec (hm M y) i), (Nat.ltb_spec (hm M y) (i + 1)); auto; lia).
      change (hm M x <? 0) with false; change (hm M y <? 0) with false. destruct (x =? y), (hm M x <? i), (hm M y <? i), (hm M x =? i), (hm M y =? i), (hm M x =? i + 1), (hm M y =? i + 1); reflexivity.
  - exists m. split; auto. eapply mat_ext; [exact Hm|]. intros x y Hx Hy. unfold with_scores, done_pair.
    assert (HE : forall x, x < N -> hm M x <> i).
    { intros z Hz E. destruct (hm_spec N M z HA Hz) as (_ & _ & B). specialize (B i). rewrite (proj2 (Nat.eqb_eq _ _) E) in B. apply mem_In in B. destruct (nth_members M i); [destruct B|cbn in Hp; lia]. }
    pose proof (HE x Hx). pose proof (HE y Hy). change (hm M x <? 0) with false; change (hm M y <? 0) with false. rewrite !andb_false_r, !orb_false_r.
    repeat match goal with |- context [?a <? ?b] => destruct (Nat.ltb_spec a b); try lia; cbn [andb orb] end; auto.
Qed.
Lemma scores_ok m f : mat N N m f -> exists m', foldM (score_group N ident st) m (seq 0 N) = Ok m' /\ mat N N m' (fun x y => if x =? y then f x y else nadd (f x y) (pair_score g0 M x y)).
Proof.
  intros Hm. destruct (foldM_seq (fun i m => mat N N m (with_scores (done_pair i 0) f)) (score_group N ident st) N m) as (m' & E & Hm').
  - eapply mat_ext; [exact Hm|]. intros x y _ _. unfold with_scores, done_pair. change (hm M x <? 0) with false; change (hm M y <? 0) with false. now rewrite !andb_false_r.
  - intros i mi Hi Hmi. now apply score_group_ok.
  - exists m'. split; auto. eapply mat_ext; [exact Hm'|]. intros x y Hx Hy. unfold with_scores, done_pair.
    destruct (hm_spec N M x HA Hx) as (Lx & _). rewrite (proj2 (Nat.ltb_lt (hm M x) N) Lx). cbn [orb]. rewrite andb_true_r. now destruct (x =? y).
Qed.
End State.

(** The scores after a list of samples, before the division. *)
Definition summed (Ms : list groups) (i j : nat) : A := if i =? j then n0 else fold_left nadd (map (fun M => pair_score g0 M i j) Ms) n0.
(** The states after each of a number of steps. *)
Inductive stepped (decor : nat) : mc A -> list (mc A) -> mc A -> Prop :=
| st_nil s : stepped decor s [] s
| st_snoc s sts s1 s2 : stepped decor s sts s1 -> LinkScoreMCStep logf lnchoose lnfact lcsize lfsize linC N ident ident tfact decor s1 = Ok s2 -> stepped decor s (sts ++ [s2]) s2.
Definition after (nIter : nat) (s0 : mc A) (decor : nat) (sm : mc A * list (list A)) : Prop :=
  exists sts, length sts = nIter /\ Forall minv sts /\ stepped decor s0 sts (fst sm) /\ minv (fst sm) /\ mat N N (snd sm) (summed (map (fun s => abs (mpart s)) sts)).
Theorem LinkScore_any n2g nIter ds : (forall M ds', assigned N M -> started N ds M ds' -> J M (H_of logf lnchoose lnfact linC g0 M) ds') ->
  length n2g = N -> (forall k x, nth_error n2g k = Some x -> x = None \/ x = Some 0%Z) -> (zeroed -> forall k, nth_error n2g k <> Some None) -> Forall good_draw ds ->
  ends mc_err (LinkScore_on logf lnchoose lnfact mutual decay_of lcsize lfsize linC g0 n2g nIter ds)
    (fun '(m, st) => exists s0 decor sts, minv s0 /\ length sts = nIter /\ Forall minv sts /\ stepped decor s0 sts st /\ minv st /\
       mat N N m (fun i j => ndiv (summed (map (fun s => abs (mpart s)) sts) i j) (nofnat nIter))).
Proof.
  intros J_init L Hn Hz HD. unfold LinkScore_on. fold N. eapply ends_bind; [eapply setup_ok; eauto|]. intros [[nl gl] st] (-> & -> & I).
  eapply ends_bind; [apply decor_ok; eauto|]. intros [decor st1] I1. eapply ends_bind; [apply therm_ok; eauto|]. intros st2 I2.
  apply (ends_bind mc_err _ _ (after nIter st2 decor)).
  - pose proof (foldM_seq_safe (fun k => after k st2 decor) mc_err
      (score_sample logf lnchoose lnfact lcsize lfsize linC N ident ident tfact decor) nIter (st2, repeat (repeat n0 N) N)) as G.
    apply G.
    + exists []. cbn [fst snd]. splits; auto; [constructor|]. eapply mat_ext; [apply mat_repeat|]. intros i j _ _. unfold summed. cbn. now destruct (i =? j).
    + intros k [s m] Hk (sts & LM & HM & HS0 & Is & Hm). cbn [fst snd] in *. unfold score_sample. cbn [fst snd]. pose proof (step_ok logf lnchoose lnfact lcsize lfsize linC Hneg g0 U0 J J_move zeroed decor s Is) as HS.
      fold N in HS. destruct (LinkScoreMCStep _ _ _ _ _ _ _ _ _ _ _ s) as [s'|e] eqn:ES; cbn [bind ends] in *; auto.
      destruct (scores_ok s' HS m _ Hm) as (m' & -> & Hm'). cbn [bind]. exists (sts ++ [s']). cbn [fst snd]. splits; auto.
      * rewrite app_length. cbn [length]. lia.
      * apply Forall_app. auto.
      * now apply (st_snoc decor st2 sts s s').
      * eapply mat_ext; [exact Hm'|]. intros i j _ _. unfold summed. rewrite !map_app, fold_left_app. cbn [map fold_left]. now destruct (i =? j).
  - intros [s m] (sts & LM & HM & HS0 & Is & Hm). cbn [ends]. exists st2, decor, sts. splits; auto. destruct Hm as [H1 H2]. cbn [snd] in *. split; [now rewrite map_length|].
    intros i Hi. destruct (H2 i Hi) as (r & Er & Lr & Hr). exists (map (fun x => ndiv x (nofnat nIter)) r). rewrite nth_error_map, Er. splits; auto; [now rewrite map_length|].
    intros j Hj. rewrite nth_error_map, (Hr j Hj). reflexivity.
Qed.
End Score.
