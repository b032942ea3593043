(** KsStep.v -- one move of the K-state sampler of src/missing.c, in any arithmetic: no access outside the arrays, the tables stay
    exact, and what is added to the energy. *)
From Coq Require Import List Arith ZArith Bool QArith Lia.
From Verif Require Import Base Num ListLib NatSum MatLib GraphModel GraphSpec GraphProof GroupModel GroupSpec GroupProof NetModel ToolsModel ToolsProof ModulesModel SAProof
  MissModel MissSpec MissStep RecModel RecSpec RecSets RecMem RecLinks RecStep RecSetup RecRun KsModel KsSpec KsLinks.
Import ListNotations.
Local Open Scope nat_scope.

Section Step.
Context {A : Type} {ops : NumOps A}.
Implicit Types (g : net A) (P : gpart A).
Variable K : nat.
Hypothesis HK : 0 < K.
Variable lnfact : nat -> A.
Variable lfsize : nat.
Let tabf := InitializeTable lnfact lfsize.
Variable R : nat -> nat -> nat -> bool.
Hypothesis R_sym : forall k i j, R k i j = R k j i.
Hypothesis R_loop : forall k i, R k i i = false.
Variable n : nat.
Notation s := (seq 0 n).

(** * Energy differences *)
Definition kchg (sg : bool) (d : A) (cs : list nat) : A :=
  signed sg (fold_left (fun d c => signed sg d (nopp (lnfact c))) cs d) (lnfact (lsum (fun x => x) cs + K - 1)).
Lemma ks_charge_ok sg d cs : ks_charge lnfact lfsize K tabf sg d (map Z.of_nat cs) = Ok (kchg sg d cs).
Proof.
  unfold ks_charge. rewrite fold_Z.
  assert (E : forall cs d, foldM (fun d c => do c <- nat_of c; do x <- FastTable lnfact c tabf lfsize; Ok (signed sg d (nopp x))) d (map Z.of_nat cs) = Ok (fold_left (fun d c => signed sg d (nopp (lnfact c))) cs d)).
  { clear. induction cs as [|c cs IH]; intros d; [reflexivity|]. cbn [map foldM fold_left]. rewrite nat_of_nat. cbn [bind]. unfold tabf at 1. rewrite (table_value lnfact lfsize c). cbn [bind]. apply IH. }
  rewrite E. cbn [bind]. replace (0 + Z.of_nat (lsum (fun x => x) cs) + Z.of_nat K - 1)%Z with (Z.of_nat (lsum (fun x => x) cs + K - 1)) by lia. rewrite nat_of_nat. cbn [bind]. unfold tabf. rewrite (table_value lnfact lfsize _). reflexivity.
Qed.
Definition chargesA (sg : bool) (c : list nat) (o w : nat) (d : A) : A :=
  fold_left (fun d b => let d := kchg sg d (betweens R c K o b) in if b =? o then d else kchg sg d (betweens R c K w b)) (seq 0 (length c)) d.
Definition kdH (c : list nat) (v w : nat) : A :=
  let o := colour c v in
  let d := chargesA false c o w n0 in
  let d := if (csize c o =? 1) || (csize c w =? 0) then nadd d (lnfact (length c - used c)) else d in
  let d := chargesA true (upd c v w) o w d in
  if (csize c o =? 1) || (csize c w =? 0) then nsub d (lnfact (length c - used (upd c v w))) else d.
Lemma ks_charges_ok g P T c o w d sg : groups_of g s P c -> tab3 K n n T (fun k a b => Z.of_nat (between R c k a b)) -> o < n -> w < n ->
  ks_charges lnfact lfsize K tabf sg T o w d P = Ok (chargesA sg c o w d).
Proof.
  intros I HT Ho Hw. unfold ks_charges, chargesA. rewrite (go_len _ _ _ _ I), seq_length.
  assert (E : forall (Q : gpart A) a d, map plabel Q = seq a (length Q) -> a + length Q <= n ->
    foldM (fun d G => do x <- counts K T o (plabel G); do d <- ks_charge lnfact lfsize K tabf sg d x; if plabel G =? o then Ok d else do x <- counts K T w (plabel G); ks_charge lnfact lfsize K tabf sg d x) d Q =
    Ok (fold_left (fun d b => let d := kchg sg d (betweens R c K o b) in if b =? o then d else kchg sg d (betweens R c K w b)) (seq a (length Q)) d)).
  { clear d. induction Q as [|G Q IH]; intros a d HL Hle; [reflexivity|]. cbn [map length seq] in HL. injection HL as Ha HL. cbn [length] in Hle. cbn [foldM length seq fold_left]. rewrite Ha.
    rewrite (counts_ok _ _ _ _ _ o a HT) by lia. cbn [bind]. fold (betweens R c K o a). rewrite ks_charge_ok. cbn [bind]. cbv zeta. destruct (a =? o).
    - cbn [bind]. apply IH; auto. lia.
    - rewrite (counts_ok _ _ _ _ _ w a HT) by lia. cbn [bind]. fold (betweens R c K w a). rewrite ks_charge_ok. cbn [bind]. apply IH; auto. lia. }
  pose proof (go_length _ _ _ _ I) as LP. rewrite seq_length in LP. pose proof (go_lab _ _ _ _ I) as HL. rewrite seq_length in HL. rewrite <- LP at 1. apply E; [congruence|lia].
Qed.

(** * What the sampler keeps *)
Record ks_ok g (c : list nat) (me : side A) : Prop := {
  ko_j : joined g s s;
  ko_R : forall k i j, R k i j = ratings g s s k i j;
  ko_n : sn me = n;
  ko_nl : snl me = map Some s;
  ko_gl : sgl me = map Some s;
  ko_g : groups_of g s (sP me) c;
  ko_ng : sng me = Z.of_nat (used c);
  ko_N : tab3 K n n (sN me) (fun k i b => Z.of_nat (given R c k i b));
  ko_G : tab3 K n n (sG me) (fun k a b => Z.of_nat (between R c k a b)) }.
Lemma ks_len g c me : ks_ok g c me -> length c = n /\ coloured c.
Proof. intros H. split; [rewrite (go_len _ _ _ _ (ko_g _ _ _ H)); apply seq_length|apply (ko_g _ _ _ H)]. Qed.

Lemma ks_shifted g c me v nd sg o w w' : ks_ok g c me -> v < n -> nth_error g v = Some nd -> o < n -> w < n -> w' < n -> o <> w -> (forall a, (sg * goes o w a)%Z = goes (colour c v) w' a) -> exists g' P' T' N',
  MoveNode (g, sP me) v (colour c v) w' = Ok (true, (g', P')) /\ ks_shift K sg (sN me) (gnum nd) o w (sG me) (sn me) = Ok T' /\
  foldM (shift_link K sg g' o w) (sN me) (gadj nd) = Ok N' /\ same_but_group g g' /\ groups_of g' s P' (upd c v w') /\
  forall ng, ng = Z.of_nat (used (upd c v w')) -> ks_ok g' (upd c v w') (mkSide (sn me) (snl me) (sgl me) P' ng N' T').
Proof.
  intros H Hv En Ho Hw Hw' Hne Hg. destruct (ks_len _ _ _ H) as [Lc Cc]. destruct H as [J HR Hn Hnl Hgl I Hng HN HG].
  assert (Ep : nth_error s v = Some v) by (now rewrite nth_error_seq). assert (Hp : In v s) by (eapply nth_error_In; eauto).
  assert (Hw2 : w' < length s) by (now rewrite seq_length).
  destruct (Move_light g s (sP me) c v v nd w' I (hf_nd _ _ _ (jn_l _ _ _ J)) Ep En (j_half_linksok g s s v nd J Hp En) Hw2) as (g' & P' & E1 & I' & S & GO).
  destruct (hf_num _ _ _ (jn_l _ _ _ J) v v Ep) as (n1 & En1 & Hn1). rewrite En in En1. injection En1 as <-.
  destruct (ks_shift_ok K n sg (sN me) _ v o w (sG me) _ HN HG) as (T' & E2 & HT); auto; [intros k a b; cbv beta; now rewrite between_sym|].
  destruct (F2_nth _ _ _ _ _ S En) as (n' & En' & Rn). assert (Ea : gadj n' = gadj nd) by (symmetry; apply Rn).
  assert (J' : joined g' s s) by (eapply joined_sbg; eauto).
  assert (HN' : tab3 K (length s) (length s) (sN me) (fun k i b => Z.of_nat (given R c k i b))) by (rewrite seq_length; exact HN).
  assert (Ho2 : o < length s) by (now rewrite seq_length). assert (Hww : w < length s) by (now rewrite seq_length).
  destruct (j_shift_link_ok K g' s s v v n' sg o w (sN me) _ J' Ep En' Ho2 Hww HN') as (N' & E3 & HNi). rewrite Ea in E3. rewrite seq_length in HNi.
  exists g', P', T', N'. split; [exact E1|]. split; [rewrite Hn1, Hn; exact E2|]. split; [exact E3|]. split; [exact S|]. split; [exact I'|].
  intros ng Hu. split; cbn [sn snl sgl sP sng sN sG]; auto.
  - intros k i j. rewrite (ratings_sbg g g' s s k i j S). apply HR.
  - eapply tab3_ext; [exact HNi|]. intros k j a _ _ _. cbv beta. rewrite Hg, (ratings_sbg g g' s s k v j S), <- HR. pose proof (given_upd R c v w' k j a ltac:(lia)) as X. rewrite (R_sym k j v) in X. unfold goes.
    rewrite (Nat.eqb_sym a w'), (Nat.eqb_sym a (colour c v)). destruct (w' =? a), (colour c v =? a); lia.
  - eapply tab3_ext; [exact HT|]. intros k a b _ _ _. cbv beta. rewrite !Hg. rewrite (between_upd R R_sym R_loop c v w' k a b ltac:(lia)). reflexivity.
Qed.

(** * One move *)
Definition kmoved g c (H : A) (ds : list A) (x : rec A) : Prop :=
  exists u ds1 w ds2 acc, let v := nfloor (nmul u (nofnat n)) in let d := kdH c v w in
    ds = u :: ds1 /\ redraw n (colour c v) ds1 = Ok (w, ds2) /\ accepts d ds2 = Ok (acc, rds x) /\ v < n /\ w < n /\ colour c v <> w /\
    rH x = (if acc : bool then nadd H d else H) /\ ks_ok (rnet x) (if acc then upd c v w else c) (r1 x) /\ same_but_group g (rnet x) /\ Forall good_draw (rds x).
Lemma ks_move_ok st c i : ks_ok (rnet st) c (r1 st) -> 0 < n -> Forall good_draw (rds st) -> ends rng_err (ks_move lnfact lfsize K tabf st i) (kmoved (rnet st) c (rH st) (rds st)).
Proof.
  intros KO Hn HD. destruct st as [g me oth H tab ds]. cbn [rnet r1 rH rds] in *. destruct (ks_len _ _ _ KO) as [LA CA]. pose proof (ko_g _ _ _ KO) as I. unfold ks_move. cbn [rnet r1 rH rds r2 rtab]. destruct ds as [|u ds]; [left; reflexivity|]. cbn [draw bind]. inversion HD as [|? ? Hu HD']; subst.
  rewrite (ko_n _ _ _ KO), (ko_nl _ _ _ KO), (ko_gl _ _ _ KO). set (v := nfloor (nmul u (nofnat n))). assert (Hv : v < n) by (apply Hu; auto).
  assert (Ep : nth_error s v = Some v) by (now rewrite nth_error_seq). rewrite (get_some _ _ _ Ep). cbn [deref bind]. destruct (hf_num _ _ _ (jn_l _ _ _ (ko_j _ _ _ KO)) v v Ep) as (nd & En & Hnd). rewrite (get_ok _ _ _ En). cbn [bind].
  assert (Eg : ggroup nd = Some (colour c v)) by (pose proof (go_group _ _ _ _ I v v Ep) as Q; unfold group_of in Q; now rewrite En in Q). rewrite Eg. cbn [bind]. set (o := colour c v) in *.
  assert (Ho : o < n) by (rewrite <- LA; apply coloured_lt; [auto|lia]).
  pose proof (redraw_light n o ds HD' Hn) as HR. destruct (redraw n o ds) as [[w ds2]|e] eqn:ER; [|exact HR]. destruct HR as (Hw & Hwo & HD2). cbn [bind].
  rewrite (get_some s o o), (get_some s w w) by (now rewrite nth_error_seq). cbn [deref bind].
  rewrite (ks_charges_ok g (sP me) (sG me) c o w n0 false I (ko_G _ _ _ KO) Ho Hw). cbn [bind].
  assert (GN : forall g P c k, groups_of g s P c -> k < n -> exists G, nth_error P k = Some G /\ plabel G = k) by (intros g' P' c' k I' Hk; eapply go_nth; eauto; now rewrite seq_length).
  destruct (GN _ _ _ o I Ho) as (Go & EGo & _). destruct (GN _ _ _ w I Hw) as (Gw & EGw & _). rewrite (get_ok _ _ _ EGo), (get_ok _ _ _ EGw). cbn [bind].
  rewrite (go_size _ _ _ _ I o Go EGo), (go_size _ _ _ _ I w Gw EGw). rewrite (ko_ng _ _ _ KO).
  assert (Zo : forall x y, (Z.of_nat x =? Z.of_nat y)%Z = (x =? y)) by (intros x y; destruct (Z.eqb_spec (Z.of_nat x) (Z.of_nat y)), (Nat.eqb_spec x y); auto; lia).
  change 1%Z with (Z.of_nat 1). change 0%Z with (Z.of_nat 0). rewrite !Zo.
  unfold tabf. rewrite (label_term_ok lnfact lfsize me n (used c) (ko_n _ _ _ KO)) by (rewrite <- LA; apply used_le). fold tabf. cbn [bind].
  set (d0 := chargesA false c o w n0).
  assert (Ed1 : (if (csize c o =? 1) || (csize c w =? 0) then Ok (nadd d0 (lnfact (n - used c))) else Ok d0) =
     Ok (if (csize c o =? 1) || (csize c w =? 0) then nadd d0 (lnfact (n - used c)) else d0)) by (destruct (_ || _); auto). rewrite Ed1. clear Ed1. cbn [bind].
  set (d1 := if (csize c o =? 1) || (csize c w =? 0) then nadd d0 (lnfact (n - used c)) else d0).
  destruct (ks_shifted g c me v nd 1 o w w KO Hv En Ho Hw Hw) as (g1 & P1 & T1 & N1 & F1 & F2 & F3 & S1 & I1 & K1); [auto|intros a; fold o; lia|].
  fold o in F1. rewrite F1. cbn [bind]. change (Z.of_nat 1) with 1%Z. rewrite (ko_n _ _ _ KO) in F2. rewrite F2. cbn [bind]. rewrite F3. cbn [bind]. set (c1 := upd c v w) in *.
  destruct (GN _ _ _ o I1 Ho) as (Go1 & EGo1 & _). destruct (GN _ _ _ w I1 Hw) as (Gw1 & EGw1 & _). rewrite (get_ok _ _ _ EGo1), (get_ok _ _ _ EGw1). cbn [bind].
  rewrite (go_size _ _ _ _ I1 o Go1 EGo1), (go_size _ _ _ _ I1 w Gw1 EGw1).
  change (Z.of_nat 0) with 0%Z.
  assert (Hvc : v < length c) by lia. destruct (csize_move c v w Hvc) as (Q1 & Q2 & Q3 & _); [auto|]. fold o c1 in Q1, Q2, Q3.
  assert (B1 : (Z.of_nat (csize c1 o) =? 0)%Z = (csize c o =? 1)) by (destruct (Z.eqb_spec (Z.of_nat (csize c1 o)) 0), (Nat.eqb_spec (csize c o) 1); auto; lia).
  assert (B2 : (Z.of_nat (csize c1 w) =? 1)%Z = (csize c w =? 0)) by (destruct (Z.eqb_spec (Z.of_nat (csize c1 w)) 1), (Nat.eqb_spec (csize c w) 0); auto; lia).
  rewrite B1, B2. pose proof (used_upd c v w CA Hvc ltac:(lia) ltac:(auto)) as QU. fold o c1 in QU.
  set (ng := if csize c w =? 0 then ((if Nat.eqb (csize c o) 1 then (Z.of_nat (used c) - 1)%Z else Z.of_nat (used c)) + 1)%Z else if csize c o =? 1 then (Z.of_nat (used c) - 1)%Z else Z.of_nat (used c)).
  assert (Hng : ng = Z.of_nat (used c1)). { unfold ng. unfold one in QU. destruct (csize c o =? 1), (csize c w =? 0); lia. }
  pose proof (K1 ng Hng) as KO1. pose proof (ko_G _ _ _ KO1) as HG1. cbn [sG] in HG1.
  rewrite (ks_charges_ok g1 P1 T1 c1 o w d1 true I1 HG1 Ho Hw). cbn [bind].
  rewrite Hng. assert (HU1 : used c1 <= n) by (unfold c1; rewrite <- LA; etransitivity; [apply used_le|now rewrite length_upd]).
  unfold tabf. rewrite (label_term_ok lnfact lfsize me n (used c1) (ko_n _ _ _ KO) HU1). fold tabf. cbn [bind].
  set (d2 := chargesA true c1 o w d1).
  assert (Ed2 : (if (csize c o =? 1) || (csize c w =? 0) then Ok (nsub d2 (lnfact (n - used c1))) else Ok d2) = Ok (kdH c v w)).
  { unfold kdH. fold o d0. rewrite LA. fold d1 c1 d2. destruct (_ || _); reflexivity. } rewrite Ed2. clear Ed2. cbn [bind].
  pose proof (accepts_light (kdH c v w) ds2 HD2) as HC. destruct (accepts (kdH c v w) ds2) as [[acc ds3]|e] eqn:EC; [|exact HC]. cbn [ends] in HC. cbn [bind].
  rewrite <- Hng. destruct acc.
  - cbn [ends]. exists u, ds, w, ds2, true. fold v o. cbv zeta. cbn [rds rH rnet r1]. splits; auto.
    rewrite (ko_n _ _ _ KO), (ko_nl _ _ _ KO), (ko_gl _ _ _ KO) in KO1. exact KO1.
  - destruct (F2_nth _ _ _ _ _ S1 En) as (n' & En' & Rn).
    assert (Ec1 : colour c1 v = w) by (unfold c1; rewrite colour_upd by lia; now rewrite Nat.eqb_refl).
    destruct (ks_shifted g1 c1 _ v n' (-1) o w o KO1 Hv En' Ho Hw Ho) as (g2 & P2 & T2 & N2 & F1' & F2' & F3' & S2 & I2 & K2); [auto|intros a; rewrite Ec1; unfold goes; destruct (a =? w), (a =? o); lia|].
    rewrite Ec1 in F1'. cbn [sn snl sgl sP sng sN sG] in F1', F2', F3'. replace (gnum n') with (gnum nd) in F2' by apply Rn. replace (gadj n') with (gadj nd) in F3' by apply Rn.
    rewrite F1'. cbn [bind]. rewrite (ko_n _ _ _ KO) in F2'. rewrite F2'. cbn [bind]. rewrite F3'. cbn [bind].
    assert (Eb : upd c1 v o = c). { unfold c1. apply nth_ext. intros j. rewrite nth_upd, length_upd, nth_upd. destruct (Nat.eqb_spec j v) as [->|]; cbn [andb]; auto. rewrite (proj2 (Nat.ltb_lt _ _) Hvc). symmetry. apply colour_nth. auto. }
    rewrite Eb in I2, K2.
    destruct (GN _ _ _ o I2 Ho) as (Go2 & EGo2 & _). destruct (GN _ _ _ w I2 Hw) as (Gw2 & EGw2 & _). rewrite (get_ok _ _ _ EGo2), (get_ok _ _ _ EGw2). cbn [bind].
    rewrite (go_size _ _ _ _ I2 o Go2 EGo2), (go_size _ _ _ _ I2 w Gw2 EGw2). change (Z.of_nat 1) with 1%Z. change (Z.of_nat 0) with 0%Z.
    assert (B3 : (Z.of_nat (csize c o) =? 1)%Z = (csize c o =? 1)) by (apply (Zo _ 1)). assert (B4 : (Z.of_nat (csize c w) =? 0)%Z = (csize c w =? 0)) by (apply (Zo _ 0)). rewrite B3, B4. rewrite Hng.
    set (ng2 := if csize c w =? 0 then ((if Nat.eqb (csize c o) 1 then (Z.of_nat (used c1) + 1)%Z else Z.of_nat (used c1)) - 1)%Z else if csize c o =? 1 then (Z.of_nat (used c1) + 1)%Z else Z.of_nat (used c1)).
    assert (Hng2 : ng2 = Z.of_nat (used c)). { unfold ng2. unfold one in QU. destruct (csize c o =? 1), (csize c w =? 0); lia. }
    cbn [ends]. exists u, ds, w, ds2, false. fold v o. cbv zeta. cbn [rds rH rnet r1]. splits; auto; [|eapply sbg_trans; eauto].
    pose proof (K2 ng2 Hng2) as KO2. cbn [sn snl sgl sP sng sN sG] in KO2. rewrite (ko_n _ _ _ KO), (ko_nl _ _ _ KO), (ko_gl _ _ _ KO) in KO2. exact KO2.
Qed.
End Step.
