(** RecStep.v -- one attempt of the samplers of src/recommend.c, in any arithmetic: no access outside the arrays, the tables stay
    exact, and what is added to the energy. *)
From Coq Require Import List Arith ZArith Bool QArith Lia.
From Verif Require Import Base Num ListLib NatSum MatLib GraphModel GraphSpec GraphProof GroupModel GroupSpec GroupProof ToolsModel ToolsProof ModulesModel SAProof
  BipartModel BipartSpec MissModel MissSpec MissStep RecModel RecSpec RecSets RecMem RecLinks.
Import ListNotations.
Local Open Scope nat_scope.

Lemma given_ext (R R' : nat -> nat -> nat -> bool) c k i b : (forall k i j, R k i j = R' k i j) -> given R c k i b = given R' c k i b.
Proof. intros H. unfold given. apply count_ext. intros j _. now rewrite H. Qed.
Lemma tally_ext (R R' : nat -> nat -> nat -> bool) c c' k a b : (forall k i j, R k i j = R' k i j) -> tally R c c' k a b = tally R' c c' k a b.
Proof. intros H. unfold tally. apply lsum_ext. intros i _. destruct (_ =? _); auto. now apply given_ext. Qed.
Lemma tallies_length R K c c' a b : length (tallies R K c c' a b) = K.
Proof. unfold tallies. rewrite map_length. apply seq_length. Qed.

Section Step.
Context {A : Type} {ops : NumOps A}.
Implicit Types (g : net A) (P : gpart A).
Variable K : nat.
Variable lnfact : nat -> A.
Variable lfsize : nat.
Variable charge : bool -> A * list (list A) -> list Z -> res (A * list (list A)).
Variable chg : bool -> A -> list nat -> A.
Variable tabok : list (list A) -> Prop.
Hypothesis charge_ok : forall s d tab cs, tabok tab -> length cs = K -> exists tab', charge s (d, tab) (map Z.of_nat cs) = Ok (chg s d cs, tab') /\ tabok tab'.
Let tabf := InitializeTable lnfact lfsize.

(** * What the samplers keep *)
Record side_ok g (s : list nat) (m : nat) R (c c' : list nat) (me : side A) : Prop := {
  so_n : sn me = length s;
  so_nl : snl me = map Some s;
  so_gl : sgl me = map Some (seq 0 (length s));
  so_g : groups_of g s (sP me) c;
  so_ng : sng me = Z.of_nat (used c);
  so_N : tab3 K (length s) m (sN me) (fun k i b => Z.of_nat (given R c' k i b));
  so_G : tab3 K (length s) m (sG me) (fun k a b => Z.of_nat (tally R c c' k a b)) }.
Record pair_ok g (sA sB : list nat) R (cA cB : list nat) (me oth : side A) : Prop := {
  po_cross : crossed g sA sB;
  po_R : forall k i j, R k i j = ratings g sA sB k i j;
  po_me : side_ok g sA (length sB) R cA cB me;
  po_oth : side_ok g sB (length sA) (flip R) cB cA oth }.
Lemma pair_swap g sA sB R cA cB me oth : pair_ok g sA sB R cA cB me oth -> pair_ok g sB sA (flip R) cB cA oth me.
Proof.
  intros [H1 H2 H3 H4]. split; auto using crossed_sym. intros k i j. unfold flip. rewrite H2. unfold ratings. destruct (nth_error sA j), (nth_error sB i); auto. now rewrite (cr_sym _ _ _ H1).
Qed.
Lemma ratings_sbg g g' sA sB k i j : same_but_group g g' -> ratings g' sA sB k i j = ratings g sA sB k i j.
Proof. intros S. unfold ratings. destruct (nth_error sA i), (nth_error sB j); auto. now rewrite (sbg_weight g g' _ _ S). Qed.

(** * Energy differences *)
Definition chargeA (s : bool) R (o w : nat) (c c' : list nat) (d : A) : A :=
  fold_left (fun d b => if 0 <? csize c' b then chg s (chg s d (tallies R K c c' o b)) (tallies R K c c' w b) else d) (seq 0 (length c')) d.
Definition dH_of R (c c' : list nat) (v w : nat) : A :=
  let o := colour c v in
  let d := chargeA false R o w c c' n0 in
  let d := if (csize c o =? 1) || (csize c w =? 0) then nadd d (lnfact (length c - used c)) else d in
  let d := chargeA true R o w (upd c v w) c' d in
  if (csize c o =? 1) || (csize c w =? 0) then nsub d (lnfact (length c - used (upd c v w))) else d.

Lemma charge_all_ok g s T R c c' o w d tab P n : groups_of g s P c' -> tab3 K n (length s) T (fun k a b => Z.of_nat (tally R c c' k a b)) -> o < n -> w < n -> tabok tab -> forall sg,
  exists tab', charge_all K charge sg T o w (d, tab) P = Ok (chargeA sg R o w c c' d, tab') /\ tabok tab'.
Proof.
  intros I HT Ho Hw Htab sg. unfold charge_all, chargeA. rewrite (go_len _ _ _ _ I).
  assert (E : forall (Q : gpart A) a d tab, map plabel Q = seq a (length Q) -> a + length Q <= length s -> (forall G, In G Q -> psize G = Z.of_nat (csize c' (plabel G))) -> tabok tab -> exists tab',
    foldM (fun st G => if (0 <? psize G)%Z then do x <- counts K T o (plabel G); do st <- charge sg st x; do x <- counts K T w (plabel G); charge sg st x else Ok st) (d, tab) Q =
    Ok (fold_left (fun d b => if 0 <? csize c' b then chg sg (chg sg d (tallies R K c c' o b)) (tallies R K c c' w b) else d) (seq a (length Q)) d, tab') /\ tabok tab').
  { clear d tab Htab. induction Q as [|G Q IH]; intros a d tab HL Hle HS Htab; [cbn; eauto|]. cbn [map length seq] in HL. injection HL as Ha HL. cbn [length] in Hle.
    cbn [foldM length seq fold_left]. rewrite (HS G) by (simpl; auto). rewrite Ha.
    assert (E : (0 <? Z.of_nat (csize c' a))%Z = (0 <? csize c' a)) by (destruct (Z.ltb_spec 0 (Z.of_nat (csize c' a))), (Nat.ltb_spec 0 (csize c' a)); auto; lia). rewrite E. destruct (0 <? csize c' a).
    - rewrite (counts_ok _ _ _ _ _ o a HT) by lia. cbn [bind]. destruct (charge_ok sg d tab (tallies R K c c' o a)) as (t1 & E1 & H1); [auto|apply tallies_length|]. unfold tallies in E1 at 1. rewrite E1. cbn [bind].
      rewrite (counts_ok _ _ _ _ _ w a HT) by lia. cbn [bind]. destruct (charge_ok sg (chg sg d (tallies R K c c' o a)) t1 (tallies R K c c' w a)) as (t2 & E2 & H2); [auto|apply tallies_length|]. unfold tallies in E2 at 2. rewrite E2. cbn [bind].
      apply IH; auto; [lia|]. intros; apply HS; simpl; auto.
    - cbn [bind]. apply IH; auto; [lia|]. intros; apply HS; simpl; auto. }
  rewrite <- (go_length _ _ _ _ I). apply E; auto.
  - rewrite (go_length _ _ _ _ I). apply (go_lab _ _ _ _ I).
  - rewrite (go_length _ _ _ _ I). lia.
  - intros G HG. apply In_nth_error in HG as [k EG]. rewrite (go_size _ _ _ _ I k G EG). destruct (go_nth _ _ _ _ k I) as (G' & EG' & <-); [rewrite <- (go_length _ _ _ _ I); eapply nth_lt; eauto|]. congruence.
Qed.
Lemma label_term_ok (me : side A) n u : sn me = n -> u <= n -> label_term lnfact lfsize tabf me (Z.of_nat u) = Ok (lnfact (n - u)).
Proof. intros E Hu. unfold label_term. rewrite E. replace (Z.of_nat n - Z.of_nat u)%Z with (Z.of_nat (n - u)) by lia. rewrite nat_of_nat. cbn [bind]. apply table_value. Qed.
Lemma get_some {X} (l : list X) i x : nth_error l i = Some x -> get (map Some l) i = Ok (Some x).
Proof. intros E. apply get_ok. now rewrite nth_error_map, E. Qed.

(** * Moving a node, with all tables *)
Lemma shifted g sA sB R cA cB me oth v p n sg o w w' : pair_ok g sA sB R cA cB me oth -> nth_error sA v = Some p -> nth_error g p = Some n ->
  o < length sA -> w < length sA -> w' < length sA -> (forall a, (sg * goes o w a)%Z = goes (colour cA v) w' a) -> exists g' P' T' Ti' Ni',
  MoveNode (g, sP me) p (colour cA v) w' = Ok (true, (g', P')) /\ shift_groups K sg (sN me) (gnum n) o w (sG me, sG oth) (sn oth) = Ok (T', Ti') /\
  foldM (shift_link K sg g' o w) (sN oth) (gadj n) = Ok Ni' /\ same_but_group g g' /\ groups_of g' sA P' (upd cA v w') /\
  forall ng, ng = Z.of_nat (used (upd cA v w')) -> pair_ok g' sA sB R (upd cA v w') cB (mkSide (sn me) (snl me) (sgl me) P' ng (sN me) T') (mkSide (sn oth) (snl oth) (sgl oth) (sP oth) (sng oth) Ni' Ti').
Proof.
  intros [C HR M O] Ep En Ho Hw Hw' Hg. assert (Hp : In p sA) by (eapply nth_error_In; eauto). assert (Hv : v < length sA) by (eapply nth_lt; eauto).
  assert (Hvc : v < length cA) by (rewrite (go_len _ _ _ _ (so_g _ _ _ _ _ _ _ M)); auto).
  destruct (Move_light g sA (sP me) cA v p n w' (so_g _ _ _ _ _ _ _ M) (hf_nd _ _ _ (cr_l _ _ _ C)) Ep En (half_linksok g sA sB p n C Hp En) Hw') as (g' & P' & E1 & I' & S & GO).
  destruct (hf_num _ _ _ (cr_l _ _ _ C) v p Ep) as (n1 & En1 & Hn1). rewrite En in En1. injection En1 as <-.
  destruct (shift_groups_ok K (length sA) (length sB) sg (sN me) _ v o w (sG me) (sG oth) _ _ (so_N _ _ _ _ _ _ _ M) (so_G _ _ _ _ _ _ _ M) (so_G _ _ _ _ _ _ _ O) Hv Ho Hw) as (T' & Ti' & E2 & HT & HTi).
  destruct (F2_nth _ _ _ _ _ S En) as (n' & En' & Rn). assert (Ea : gadj n' = gadj n) by (symmetry; apply Rn).
  assert (C' : crossed g' sA sB) by (eapply crossed_sbg; eauto).
  destruct (shift_link_ok K g' sA sB v p n' sg o w (sN oth) _ C' Ep En' Ho Hw (so_N _ _ _ _ _ _ _ O)) as (Ni' & E3 & HNi). rewrite Ea in E3.
  exists g', P', T', Ti', Ni'. split; [exact E1|]. split; [rewrite Hn1, (so_n _ _ _ _ _ _ _ O); exact E2|]. split; [exact E3|]. split; [exact S|]. split; [exact I'|].
  intros ng Hng. split; auto.
  - intros k i j. rewrite (ratings_sbg g g' sA sB k i j S). apply HR.
  - split; cbn [sn snl sgl sP sng sN sG]; try apply M; auto. eapply tab3_ext; [exact HT|]. intros k a b _ _ _. cbv beta. rewrite Hg. pose proof (tally_upd R cA cB v w' k a b Hvc) as X. unfold goes.
    rewrite (Nat.eqb_sym a w'), (Nat.eqb_sym a (colour cA v)). destruct (w' =? a), (colour cA v =? a); lia.
  - split; cbn [sn snl sgl sP sng sN sG]; try apply O.
    + eapply groups_of_other; [apply (so_g _ _ _ _ _ _ _ O)|]. intros q Hq. apply GO. intros ->. eapply (cr_disj _ _ _ C); eauto.
    + eapply tab3_ext; [exact HNi|]. intros k j a _ _ _. cbv beta. rewrite Hg, (ratings_sbg g g' sA sB k v j S), <- HR. pose proof (given_upd (flip R) cA v w' k j a Hvc) as X. change (flip R k j v) with (R k v j) in X. unfold goes.
      rewrite (Nat.eqb_sym a w'), (Nat.eqb_sym a (colour cA v)). destruct (w' =? a), (colour cA v =? a); lia.
    + eapply tab3_ext; [exact HTi|]. intros k b a _ _ _. cbv beta. rewrite Hg. rewrite <- !(tally_flip R). pose proof (tally_upd R cA cB v w' k a b Hvc) as X. unfold goes.
      rewrite (Nat.eqb_sym a w'), (Nat.eqb_sym a (colour cA v)). destruct (w' =? a), (colour cA v =? a); lia.
Qed.

(** * One attempt *)
Definition rng_err (e : err) : Prop := e = RngOut \/ e = Diverge.
Lemma redraw_light n o ds : Forall good_draw ds -> 0 < n -> ends rng_err (redraw n o ds) (fun '(w, ds') => w < n /\ w <> o /\ Forall good_draw ds').
Proof.
  induction ds as [|u ds IH]; intros HD Hn; [left; reflexivity|]. cbn [redraw]. inversion HD; subst. destruct (Nat.eqb_spec (nfloor (nmul u (nofnat n))) o); [apply IH; auto|]. cbn [ends]. splits; auto.
Qed.
Lemma accepts_light d ds : Forall good_draw ds -> ends rng_err (accepts d ds) (fun '(_, ds') => Forall good_draw ds').
Proof.
  intros HD. unfold accepts. destruct (nleb d n0); [exact HD|]. destruct ds as [|u ds]; [left; reflexivity|]. cbn. now inversion HD.
Qed.
Definition attempted g sA sB R cA cB (H : A) (ds : list A) (x : net A * side A * side A * A * list (list A) * list A) : Prop :=
  let '(g', me', oth', H', tab', ds') := x in
  exists u ds1 w ds2 acc, let v := nfloor (nmul u (nofnat (length cA))) in let d := dH_of R cA cB v w in
    ds = u :: ds1 /\ redraw (length cA) (colour cA v) ds1 = Ok (w, ds2) /\ accepts d ds2 = Ok (acc, ds') /\ v < length cA /\ w < length cA /\ colour cA v <> w /\
    H' = (if acc : bool then nadd H d else H) /\ pair_ok g' sA sB R (if acc then upd cA v w else cA) cB me' oth' /\ tabok tab' /\ same_but_group g g' /\ Forall good_draw ds'.
Lemma attempt_ok g sA sB R cA cB me oth H tab ds : pair_ok g sA sB R cA cB me oth -> 0 < length sA -> tabok tab -> Forall good_draw ds ->
  ends rng_err (attempt_in lnfact lfsize K tabf charge g me oth H tab ds) (attempted g sA sB R cA cB H ds).
Proof.
  intros PO HnA Htab HD. pose proof (po_me _ _ _ _ _ _ _ _ PO) as M. pose proof (po_oth _ _ _ _ _ _ _ _ PO) as O. pose proof (so_g _ _ _ _ _ _ _ M) as I. pose proof (po_cross _ _ _ _ _ _ _ _ PO) as C.
  assert (LA : length cA = length sA) by apply I. unfold attempt_in. destruct ds as [|u ds]; [left; reflexivity|]. cbn [draw bind]. inversion HD as [|? ? Hu HD']; subst.
  rewrite (so_n _ _ _ _ _ _ _ M), (so_nl _ _ _ _ _ _ _ M), (so_gl _ _ _ _ _ _ _ M). set (nA := length sA) in *. set (v := nfloor (nmul u (nofnat nA))). assert (Hv : v < nA) by (apply Hu; auto).
  destruct (nth_ex sA v Hv) as [p Ep]. rewrite (get_some _ _ _ Ep). cbn [deref bind]. destruct (hf_num _ _ _ (cr_l _ _ _ C) v p Ep) as (n & En & Hn). rewrite (get_ok _ _ _ En). cbn [bind].
  assert (Eg : ggroup n = Some (colour cA v)) by (pose proof (go_group _ _ _ _ I v p Ep) as Q; unfold group_of in Q; now rewrite En in Q). rewrite Eg. cbn [bind]. set (o := colour cA v) in *.
  assert (Ho : o < nA) by (rewrite <- LA; apply coloured_lt; [apply I|lia]).
  pose proof (redraw_light nA o ds HD' HnA) as HR. destruct (redraw nA o ds) as [[w ds2]|e] eqn:ER; [|exact HR]. destruct HR as (Hw & Hwo & HD2). cbn [bind].
  rewrite (get_some (seq 0 nA) o o), (get_some (seq 0 nA) w w) by (now rewrite nth_error_seq). cbn [deref bind].
  destruct (charge_all_ok g sB (sG me) R cA cB o w n0 tab (sP oth) nA (so_g _ _ _ _ _ _ _ O) (so_G _ _ _ _ _ _ _ M) Ho Hw Htab false) as (tab1 & E1 & Ht1). rewrite E1. cbn [bind].
  destruct (go_nth _ _ _ _ o I Ho) as (Go & EGo & _). destruct (go_nth _ _ _ _ w I Hw) as (Gw & EGw & _). rewrite (get_ok _ _ _ EGo), (get_ok _ _ _ EGw). cbn [bind].
  rewrite (go_size _ _ _ _ I o Go EGo), (go_size _ _ _ _ I w Gw EGw). rewrite (so_ng _ _ _ _ _ _ _ M).
  assert (Zo : forall x y, (Z.of_nat x =? Z.of_nat y)%Z = (x =? y)) by (intros x y; destruct (Z.eqb_spec (Z.of_nat x) (Z.of_nat y)), (Nat.eqb_spec x y); auto; lia).
  change 1%Z with (Z.of_nat 1). change 0%Z with (Z.of_nat 0). rewrite !Zo.
  rewrite (label_term_ok me nA (used cA) (so_n _ _ _ _ _ _ _ M)) by (rewrite <- LA; apply used_le). cbn [bind].
  set (d0 := chargeA false R o w cA cB n0).
  assert (Ed1 : (if (csize cA o =? 1) || (csize cA w =? 0) then Ok (nadd d0 (lnfact (nA - used cA))) else Ok d0) =
     Ok (if (csize cA o =? 1) || (csize cA w =? 0) then nadd d0 (lnfact (nA - used cA)) else d0)) by (destruct (_ || _); auto). rewrite Ed1. clear Ed1. cbn [bind].
  set (d1 := if (csize cA o =? 1) || (csize cA w =? 0) then nadd d0 (lnfact (nA - used cA)) else d0).
  destruct (shifted g sA sB R cA cB me oth v p n 1 o w w PO Ep En Ho Hw Hw) as (g1 & P1 & T1 & Ti1 & Ni1 & F1 & F2 & F3 & S1 & I1 & K1); [intros a; fold o; lia|].
  fold o in F1. rewrite F1. cbn [bind]. change (Z.of_nat 1) with 1%Z. rewrite F2. cbn [bind]. rewrite F3. cbn [bind]. set (c1 := upd cA v w) in *.
  destruct (go_nth _ _ _ _ o I1 Ho) as (Go1 & EGo1 & _). destruct (go_nth _ _ _ _ w I1 Hw) as (Gw1 & EGw1 & _). rewrite (get_ok _ _ _ EGo1), (get_ok _ _ _ EGw1). cbn [bind].
  rewrite (go_size _ _ _ _ I1 o Go1 EGo1), (go_size _ _ _ _ I1 w Gw1 EGw1).
  change (Z.of_nat 0) with 0%Z. 
  assert (Hvc : v < length cA) by lia. destruct (csize_move cA v w Hvc) as (Q1 & Q2 & Q3 & _); [auto|]. fold o c1 in Q1, Q2, Q3.
  assert (B1 : (Z.of_nat (csize c1 o) =? 0)%Z = (csize cA o =? 1)) by (destruct (Z.eqb_spec (Z.of_nat (csize c1 o)) 0), (Nat.eqb_spec (csize cA o) 1); auto; lia).
  assert (B2 : (Z.of_nat (csize c1 w) =? 1)%Z = (csize cA w =? 0)) by (destruct (Z.eqb_spec (Z.of_nat (csize c1 w)) 1), (Nat.eqb_spec (csize cA w) 0); auto; lia).
  rewrite B1, B2. pose proof (used_upd cA v w (go_col _ _ _ _ I) Hvc ltac:(lia) ltac:(auto)) as QU. fold o c1 in QU.
  set (ng := if csize cA w =? 0 then ((if Nat.eqb (csize cA o) 1 then (Z.of_nat (used cA) - 1)%Z else Z.of_nat (used cA)) + 1)%Z else if csize cA o =? 1 then (Z.of_nat (used cA) - 1)%Z else Z.of_nat (used cA)).
  assert (Hng : ng = Z.of_nat (used c1)). { unfold ng. unfold one in QU. destruct (csize cA o =? 1), (csize cA w =? 0); lia. }
  pose proof (K1 ng Hng) as PO1. pose proof (po_me _ _ _ _ _ _ _ _ PO1) as M1. pose proof (po_oth _ _ _ _ _ _ _ _ PO1) as O1.
  destruct (charge_all_ok g sB T1 R c1 cB o w d1 tab1 (sP oth) nA (so_g _ _ _ _ _ _ _ O) (so_G _ _ _ _ _ _ _ M1) Ho Hw Ht1 true) as (tab2 & E2 & Ht2). rewrite E2. cbn [bind].
  rewrite Hng. assert (HU1 : used c1 <= nA) by (unfold c1; rewrite <- LA; etransitivity; [apply used_le|now rewrite length_upd]).
  rewrite (label_term_ok me nA (used c1) (so_n _ _ _ _ _ _ _ M) HU1). cbn [bind].
  set (d2 := chargeA true R o w c1 cB d1).
  assert (Ed2 : (if (csize cA o =? 1) || (csize cA w =? 0) then Ok (nsub d2 (lnfact (nA - used c1))) else Ok d2) = Ok (dH_of R cA cB v w)).
  { unfold dH_of. fold o d0. rewrite LA. fold d1 c1 d2. destruct (_ || _); reflexivity. } rewrite Ed2. clear Ed2. cbn [bind].
  pose proof (accepts_light (dH_of R cA cB v w) ds2 HD2) as HC. destruct (accepts (dH_of R cA cB v w) ds2) as [[acc ds3]|e] eqn:EC; [|exact HC]. cbn [ends] in HC. cbn [bind].
  destruct acc.
  - cbn [ends]. unfold attempted. exists u, ds, w, ds2, true. rewrite LA. fold v o. cbv zeta. rewrite <- Hng. split; [reflexivity|]. split; [exact ER|]. split; [exact EC|]. splits; auto.
    rewrite (so_n _ _ _ _ _ _ _ M), (so_nl _ _ _ _ _ _ _ M), (so_gl _ _ _ _ _ _ _ M) in PO1. exact PO1.
  - destruct (F2_nth _ _ _ _ _ S1 En) as (n' & En' & Rn).
    assert (Ec1 : colour c1 v = w) by (unfold c1; rewrite colour_upd by lia; now rewrite Nat.eqb_refl).
    destruct (shifted g1 sA sB R c1 cB _ _ v p n' (-1) o w o PO1 Ep En' Ho Hw Ho) as (g2 & P2 & T2 & Ti2 & Ni2 & F1' & F2' & F3' & S2 & I2 & K2); [intros a; rewrite Ec1; unfold goes; destruct (a =? w), (a =? o); lia|].
    rewrite Ec1 in F1'. cbn [sn snl sgl sP sng sN sG] in F1', F2', F3'. replace (gnum n') with (gnum n) in F2' by apply Rn. replace (gadj n') with (gadj n) in F3' by apply Rn.
    rewrite F1'. cbn [bind]. rewrite F2'. cbn [bind]. rewrite F3'. cbn [bind].
    assert (Eb : upd c1 v o = cA). { unfold c1. apply nth_ext. intros i. rewrite nth_upd, length_upd, nth_upd. destruct (Nat.eqb_spec i v) as [->|]; cbn [andb]; auto. rewrite (proj2 (Nat.ltb_lt _ _) Hvc). symmetry. apply colour_nth. auto. }
    rewrite Eb in I2, K2.
    destruct (go_nth _ _ _ _ o I2 Ho) as (Go2 & EGo2 & _). destruct (go_nth _ _ _ _ w I2 Hw) as (Gw2 & EGw2 & _). rewrite (get_ok _ _ _ EGo2), (get_ok _ _ _ EGw2). cbn [bind].
    rewrite (go_size _ _ _ _ I2 o Go2 EGo2), (go_size _ _ _ _ I2 w Gw2 EGw2). change (Z.of_nat 1) with 1%Z. change (Z.of_nat 0) with 0%Z.
    assert (B3 : (Z.of_nat (csize cA o) =? 1)%Z = (csize cA o =? 1)) by (apply (Zo _ 1)). assert (B4 : (Z.of_nat (csize cA w) =? 0)%Z = (csize cA w =? 0)) by (apply (Zo _ 0)). rewrite B3, B4.
    set (ng2 := if csize cA w =? 0 then ((if Nat.eqb (csize cA o) 1 then (Z.of_nat (used c1) + 1)%Z else Z.of_nat (used c1)) - 1)%Z else if csize cA o =? 1 then (Z.of_nat (used c1) + 1)%Z else Z.of_nat (used c1)).
    assert (Hng2 : ng2 = Z.of_nat (used cA)). { unfold ng2. unfold one in QU. destruct (csize cA o =? 1), (csize cA w =? 0); lia. }
    cbn [ends]. unfold attempted. exists u, ds, w, ds2, false. rewrite LA. fold v o. cbv zeta. split; [reflexivity|]. split; [exact ER|]. split; [exact EC|]. splits; auto; [|eapply sbg_trans; eauto].
    pose proof (K2 ng2 Hng2) as PO2. cbn [sn snl sgl sP sng sN sG] in PO2. rewrite (so_n _ _ _ _ _ _ _ M), (so_nl _ _ _ _ _ _ _ M), (so_gl _ _ _ _ _ _ _ M) in PO2. exact PO2.
Qed.

End Step.
