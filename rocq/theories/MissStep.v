(** MissStep.v -- the Monte Carlo step of src/missing.c, in any arithmetic: no access outside the arrays, the table of links
    between groups stays exact, and what is added to the energy. *)
From Coq Require Import List Arith ZArith Bool QArith Qcanon Lia.
From Verif Require Import Base Num ListLib NatSum QcSum GraphModel GraphSpec GraphProof GroupModel GroupSpec PairSum GroupProof GroupExact MatLib
  ToolsModel ToolsProof ModulesModel SAProof MissModel MissSpec MissSets.
Import ListNotations.
Local Open Scope nat_scope.

(** A run that ends well or with one of some given errors. *)
Definition ends {X} (E : err -> Prop) (m : res X) (Q : X -> Prop) : Prop := match m with Ok x => Q x | Err e => E e end.
Lemma ends_bind {X Y} E (m : res X) (f : X -> res Y) (Q : X -> Prop) (R : Y -> Prop) : ends E m Q -> (forall x, Q x -> ends E (f x) R) -> ends E (bind m f) R.
Proof. destruct m; simpl; auto. Qed.
Lemma ends_impl {X} (E : err -> Prop) (m : res X) (Q R : X -> Prop) : ends E m Q -> (forall x, Q x -> R x) -> ends E m R.
Proof. destruct m; simpl; auto. Qed.
Lemma ends_foldM {S X} E (I : S -> Prop) (f : S -> X -> res S) l : (forall s x, In x l -> I s -> ends E (f s x) I) -> forall s, I s -> ends E (foldM f s l) I.
Proof.
  induction l as [|x l IH]; intros H s Hs; [exact Hs|]. cbn [foldM]. eapply ends_bind; [apply H; simpl; auto|]. intros s' Hs'. apply IH; auto. intros; apply H; simpl; auto.
Qed.

Lemma nat_of_nat n : nat_of (Z.of_nat n) = Ok n.
Proof. unfold nat_of. rewrite (proj2 (Z.ltb_ge _ _)) by lia. now rewrite Nat2Z.id. Qed.

Section Step.
Context {A : Type} {ops : NumOps A}.
Variable logf : nat -> A.
Variable lnchoose : nat -> nat -> A.
Variable lnfact : nat -> A.
Variables lcsize lfsize : nat.
Variable linC : A.
Hypothesis Hneg : nltb (nofQ (-1 # 1)) n0 = true.

(** * Changes of energy as sequences of signed terms *)
Definition tcost (r l : nat) : A := nadd (logf (r + 1)) (lnchoose r l).
Definition term := (bool * nat * nat)%type.
Definition apply1 (d : A) (t : term) : A := let '(s, r, l) := t in if s then nadd d (tcost r l) else nsub d (tcost r l).

Lemma lterm_ok tab r l zr zl : lc_table lnchoose lcsize tab -> zr = Z.of_nat r -> zl = Z.of_nat l -> l <= r ->
  exists tab', lterm logf lnchoose lcsize tab zr zl = Ok (tcost r l, tab') /\ lc_table lnchoose lcsize tab'.
Proof.
  intros HT -> -> Hl. unfold lterm. rewrite !nat_of_nat. cbn [bind]. destruct (lc_query lnchoose lcsize tab r l Hneg HT Hl) as (tab' & -> & HT'). cbn [bind]. eauto.
Qed.
Lemma minus_ok d tab r l zr zl : lc_table lnchoose lcsize tab -> zr = Z.of_nat r -> zl = Z.of_nat l -> l <= r ->
  exists tab', minus_t logf lnchoose lcsize (d, tab) zr zl = Ok (apply1 d (false, r, l), tab') /\ lc_table lnchoose lcsize tab'.
Proof. intros HT Hr Hl L. unfold minus_t. cbn [fst snd]. destruct (lterm_ok tab r l zr zl HT Hr Hl L) as (tab' & -> & HT'). cbn [bind]. eauto. Qed.
Lemma plus_ok d tab r l zr zl : lc_table lnchoose lcsize tab -> zr = Z.of_nat r -> zl = Z.of_nat l -> l <= r ->
  exists tab', plus_t logf lnchoose lcsize (d, tab) zr zl = Ok (apply1 d (true, r, l), tab') /\ lc_table lnchoose lcsize tab'.
Proof. intros HT Hr Hl L. unfold plus_t. cbn [fst snd]. destruct (lterm_ok tab r l zr zl HT Hr Hl L) as (tab' & -> & HT'). cbn [bind]. eauto. Qed.

Variable g0 : net A.
Hypothesis U0 : undirected g0.
Let N := length g0.

Definition dterms (M : groups) (v o w lab : nat) : list term :=
  let So := nth_members M o in
  let So' := remove1 v So in
  let Sw := nth_members M w in
  let Sw' := Sw ++ [v] in
  let S := nth_members M lab in
  if nonempty S then
    if lab =? o then
      [(false, choose2 (length So), links_in g0 So); (true, choose2 (length So'), links_in g0 So');
       (false, length Sw * length So, across g0 Sw So); (true, length Sw' * length So', across g0 Sw' So')]
    else if lab =? w then [(false, choose2 (length Sw), links_in g0 Sw); (true, choose2 (length Sw'), links_in g0 Sw')]
    else [(false, length So * length S, across g0 So S); (true, length So' * length S, across g0 So' S);
          (false, length Sw * length S, across g0 Sw S); (true, length Sw' * length S, across g0 Sw' S)]
  else [].
Definition dbase (no nw : nat) : A :=
  let d := if no =? 1 then nsub n0 linC else n0 in if nw =? 0 then nadd d linC else d.
Definition dlabels (no nw eff : nat) (d : A) : A :=
  if (no =? 1) && negb (nw =? 0) then nadd (nsub d (nopp (lnfact (N - eff)))) (nopp (lnfact (N - (eff - 1))))
  else if negb (no =? 1) && (nw =? 0) then nadd (nsub d (nopp (lnfact (N - eff)))) (nopp (lnfact (N - (eff + 1))))
  else d.
Definition dH_of (M : groups) (slg : list nat) (v o w : nat) : A :=
  let no := length (nth_members M o) in
  let nw := length (nth_members M w) in
  dlabels no nw (count (fun k => nonempty (nth_members M k)) slg) (fold_left apply1 (flat_map (dterms M v o w) slg) (dbase no nw)).

(** The shortlist: different labels, all groups with nodes among them. *)
Record listed (M : groups) (slg : list nat) : Prop := {
  li_nd : NoDup slg;
  li_lt : forall k, In k slg -> k < N;
  li_all : forall k, k < N -> nonempty (nth_members M k) = true -> In k slg
}.

(** What follows the energy and the history: a relation between the partition, the energy and the draws to come that every
    attempt preserves. *)
Definition attempt_ok (J : groups -> A -> list A -> Prop) : Prop :=
  forall M slg u o w H ds ds2 acc ds3, let v := nfloor (nmul u (nofnat N)) in
    assigned N M -> listed M slg -> o < N -> w < N -> o <> w -> In v (nth_members M o) -> redraw N o ds = Ok (w, ds2) ->
    accepts (dH_of M slg v o w) ds2 = Ok (acc, ds3) -> J M H (u :: ds) ->
    if acc : bool then J (moved M v o w) (nadd H (dH_of M slg v o w)) ds3 else J M H ds3.
Variable J : groups -> A -> list A -> Prop.
Hypothesis J_move : attempt_ok J.
(** Whether the array n2gList is known to be initialised, and the possible errors. *)
Variable zeroed : Prop.
Definition mc_err (e : err) : Prop := e = RngOut \/ e = Diverge \/ (e = UB_uninit /\ ~ zeroed).

Definition ident : list (option nat) := map Some (seq 0 N).
Lemma ident_get k : k < N -> get ident k = Ok (Some k).
Proof. intros H. unfold get, ident. rewrite nth_error_map, nth_error_seq by auto. reflexivity. Qed.

Record pinv (g : net A) (P : gpart A) : Prop := {
  pi_un : undirected g;
  pi_sbg : same_but_group g0 g;
  pi_map : mapped g P;
  pi_as : assigned N (abs P)
}.
Record minv (st : mc A) : Prop := {
  mi_p : pinv (mnet st) (mpart st);
  mi_g2g : table_exact g0 (abs (mpart st)) (mG2G st);
  mi_len : length (mn2g st) = N;
  mi_n2g : forall k x, nth_error (mn2g st) k = Some x -> nth_members (abs (mpart st)) k = [] -> x = None \/ x = Some 0%Z;
  mi_zero : zeroed -> forall k, nth_error (mn2g st) k <> Some None;
  mi_tab : lc_table lnchoose lcsize (mtab st);
  mi_ds : Forall good_draw (mds st);
  mi_J : J (abs (mpart st)) (mH st) (mds st)
}.

(** * Groups and links of a state *)
Section Facts.
Variables (g : net A) (P : gpart A).
Hypothesis I : pinv g P.
Lemma pi_len : length g = N.
Proof. apply (sbg_length g0 g), I. Qed.
Lemma pi_plen : length P = N.
Proof. pose proof (as_length N _ (pi_as _ _ I)) as H. unfold abs in H. now rewrite map_length in H. Qed.
Lemma pi_group k : k < N -> exists G, nth_error P k = Some G /\ plabel G = k /\ members G = nth_members (abs P) k /\
  psize G = Z.of_nat (length (nth_members (abs P) k)) /\ pin G = Z.of_nat (links_in g0 (nth_members (abs P) k)).
Proof.
  intros Hk. destruct (nth_ex P k) as [G E]; [now rewrite pi_plen|]. exists G. pose proof (abs_nth P k G E) as EM. pose proof (nth_members_eq _ _ _ _ EM) as En.
  destruct (mp_counts _ _ (pi_map _ _ I) G (nth_error_In _ _ E)) as (H1 & H2 & _). rewrite (as_nth N _ k (pi_as _ _ I) Hk) in EM. injection EM as E1 E2.
  destruct (sbg_links g0 g (members G) (pi_sbg _ _ I)) as (E3 & _). splits; auto.
  - rewrite H1. now rewrite En.
  - rewrite H2, E3. now rewrite En.
Qed.
Lemma pi_ginv : ginv noX noXG g P.
Proof. apply ginv_mapped. unfold noX, noXG. splits; auto; apply I. Qed.
Lemma pi_nlinks v k : v < N -> k < N -> NLinksToGroup g v k = Ok (to_set g0 v (nth_members (abs P) k)).
Proof.
  intros Hv Hk. pose proof (pi_un _ _ I) as U. rewrite NLinksToGroup_spec; [|apply U|now rewrite pi_len]. f_equal.
  destruct (pi_group k Hk) as (G & EG & El & Em & _). rewrite <- to_set_nbrs; [|apply U0|apply (pi_as _ _ I)]. rewrite (sbg_nbrs g0 g v (pi_sbg _ _ I)).
  apply count_ext. intros j Hj. rewrite <- El at 1. rewrite (in_grp_members noX noXG g P k G j pi_ginv EG).
  - now rewrite Em.
  - rewrite pi_len. now destruct (nbrs_lt g0 v j (un_wf g0 U0) Hj).
Qed.
Lemma pi_cells G : In G P -> forall l, In l (pnodes G) -> exists i, lref l = Some i /\ lnode l = i /\ i < N.
Proof.
  intros HG l Hl. destruct (mp_cells _ _ (pi_map _ _ I) G l HG Hl) as (j & n & E1 & E2 & E3 & _). exists j. splits; auto. rewrite <- pi_len. eapply nth_lt; eauto.
Qed.
Lemma pi_ng2g a b : a < N -> b < N -> a <> b -> NG2GLinks g P a b = Ok (across g0 (nth_members (abs P) a) (nth_members (abs P) b)).
Proof.
  intros Ha Hb Hab. destruct (pi_group a Ha) as (Ga & EGa & Ela & Ema & _). destruct (pi_group b Hb) as (Gb & EGb & Elb & _).
  unfold NG2GLinks. rewrite (get_ok _ _ _ EGa), (get_ok _ _ _ EGb). cbn [bind]. rewrite Elb, <- Ema. set (T := nth_members (abs P) b).
  assert (H : forall ls c, (forall l, In l ls -> In l (pnodes Ga)) ->
    foldM (fun c l => do i <- deref (lref l); do x <- NLinksToGroup g i b; Ok (c + x)) c ls = Ok (c + across g0 (targets ls) T)).
  { induction ls as [|l ls IH]; intros c Hin; [cbn [foldM]; f_equal; change (targets (@nil (link A))) with (@nil nat); rewrite across_nil_l; lia|].
    cbn [foldM]. destruct (pi_cells Ga (nth_error_In _ _ EGa) l (Hin l (or_introl eq_refl))) as (i & Er & _ & Li). rewrite Er. cbn [deref bind].
    rewrite (pi_nlinks i b Li Hb). cbn [bind]. rewrite IH by (intros; apply Hin; simpl; auto). f_equal. unfold targets. cbn [flat_map]. rewrite Er. cbn [app].
    unfold across. cbn [lsum]. unfold to_set, T. lia. }
  rewrite H by auto. cbn [bind]. rewrite (proj2 (Nat.eqb_neq a b) Hab). reflexivity.
Qed.
Lemma pi_home i : i < N -> exists n k, nth_error g i = Some n /\ ggroup n = Some k /\ k < N /\ In i (nth_members (abs P) k).
Proof.
  intros Hi. destruct (nth_ex g i) as [n En]; [now rewrite pi_len|]. destruct (as_cover _ _ (pi_as _ _ I) i Hi) as [k Hk]. pose proof (as_lt N _ k i (pi_as _ _ I) Hk) as Lk.
  exists n, k. splits; auto. rewrite (mp_group _ _ (pi_map _ _ I) i n En). apply home_iff; [apply (gi_good _ _ _ _ pi_ginv)|].
  exists (nth_members (abs P) k). split; auto. eapply nth_error_In. apply (as_nth N); auto. apply I.
Qed.
Lemma pi_move v o w : o < N -> w < N -> o <> w -> In v (nth_members (abs P) o) ->
  exists r g' P', MoveNode (g, P) v o w = Ok (r, (g', P')) /\ pinv g' P' /\ abs P' = moved (abs P) v o w.
Proof.
  intros Ho Hw Hne Hv.
  destruct (move_step noX noXG) with (g := g) (P := P) (i := v) (a := o) (b := w) as (r & g' & P' & E & I' & S & EA & _); auto using pi_ginv; try (intros; exact Logic.I); try (rewrite pi_plen; auto).
  apply ginv_mapped in I' as (U' & M' & _). exists r, g', P'. splits; auto. split; auto; [eapply sbg_trans; eauto; apply I|]. rewrite EA. apply moved_assigned; auto. apply I.
Qed.
End Facts.

Lemma nonempty_len {X} (S : list X) : (0 <? Z.of_nat (length S))%Z = nonempty S.
Proof. destruct S; reflexivity. Qed.
Lemma upd_get_same {X} (l : list X) i x : i < length l -> get (upd l i x) i = Ok x.
Proof. intros H. unfold get. rewrite nth_upd, Nat.eqb_refl, (proj2 (Nat.ltb_lt _ _) H). reflexivity. Qed.

(** * One group of the shortlist *)
Lemma mc_group_ok g P M G2G v o w Go Gw n2o n2w w2o d tab n2g eff lab : pinv g P -> M = abs P -> table_exact g0 M G2G ->
  o < N -> w < N -> o <> w -> In v (nth_members M o) -> nth_error P o = Some Go -> nth_error P w = Some Gw ->
  n2o = Z.of_nat (to_set g0 v (nth_members M o)) -> n2w = Z.of_nat (to_set g0 v (nth_members M w)) -> w2o = Z.of_nat (across g0 (nth_members M w) (nth_members M o)) ->
  lab < N -> length n2g = N -> lc_table lnchoose lcsize tab ->
  exists tab', mc_group logf lnchoose lcsize g P ident G2G v Go Gw n2o n2w w2o ((d, tab), n2g, eff) lab =
    Ok ((fold_left apply1 (dterms M v o w lab) d, tab'), upd n2g lab (Some (Z.of_nat (to_set g0 v (nth_members M lab)))),
        eff + (if nonempty (nth_members M lab) then 1 else 0)) /\ lc_table lnchoose lcsize tab'.
Proof.
  intros I EM HG Ho Hw Hne Hv EGo EGw -> -> -> Hlab Ln HT. pose proof (pi_as _ _ I) as AS. rewrite <- EM in AS.
  assert (Hvn : v < N) by (eapply as_range; eauto). assert (Hvw : ~ In v (nth_members M w)) by (intros K; apply Hne; eapply as_apart; eauto).
  destruct (pi_group g P I o Ho) as (G & E & Elo & Emo & Eso & Eio). rewrite EGo in E. injection E as <-.
  destruct (pi_group g P I w Hw) as (G & E & Elw & Emw & Esw & Eiw). rewrite EGw in E. injection E as <-.
  destruct (pi_group g P I lab Hlab) as (G & EG & El & Em & Es & Ei).
  unfold mc_group. rewrite (ident_get lab Hlab). cbn [deref bind]. rewrite (get_ok _ _ _ EG). cbn [bind]. rewrite El, Elo, Elw, Es, Eso, Esw, Eio, Eiw, nonempty_len. rewrite <- EM.
  unfold dterms. set (So := nth_members M o) in *. set (Sw := nth_members M w) in *. set (S := nth_members M lab) in *.
  assert (NDo : NoDup So) by apply AS. assert (NDw : NoDup Sw) by apply AS. assert (NDS : NoDup S) by apply AS.
  assert (RO : forall i, In i So -> i < N) by (intros i; apply (as_range _ _ AS o)). assert (RW : forall i, In i Sw -> i < N) by (intros i; apply (as_range _ _ AS w)).
  set (So' := remove1 v So). set (Sw' := Sw ++ [v]).
  assert (Lo : length So = length So' + 1) by (apply length_remove1; auto).
  assert (Lw : length Sw' = length Sw + 1) by (unfold Sw'; rewrite app_length; reflexivity).
  assert (NDo' : NoDup So') by (apply remove1_nodup; auto).
  assert (RO' : forall i, In i So' -> i < N) by (intros i Hi; apply remove1_In in Hi; apply RO; tauto).
  assert (Io : links_in g0 So = links_in g0 So' + to_set g0 v So) by (apply links_in_remove; auto).
  assert (Iw : links_in g0 Sw' = links_in g0 Sw + to_set g0 v Sw) by (apply links_in_snoc; auto).
  pose proof (links_in_le g0 So U0 NDo RO) as Bo. pose proof (links_in_le g0 So' U0 NDo' RO') as Bo'. pose proof (links_in_le g0 Sw U0 NDw RW) as Bw.
  assert (Bw' : links_in g0 Sw' <= choose2 (length Sw')).
  { apply links_in_le; auto.
    - unfold Sw'. rewrite <- (rev_involutive (Sw ++ [v])), rev_unit. apply NoDup_rev. constructor; [now rewrite <- in_rev|now apply NoDup_rev].
    - intros i Hi. apply in_app_iff in Hi as [Hi|[<-|[]]]; auto. }
  destruct (nonempty S) eqn:NE.
  2: { rewrite set_ok by lia. cbn [bind]. exists tab. split; auto. cbn [fold_left]. repeat f_equal; [|lia]. destruct S; [reflexivity|discriminate]. }
  rewrite (pi_nlinks g P I v lab Hvn Hlab). rewrite <- EM. fold S. cbn [bind]. rewrite set_ok by lia. cbn [bind].
  destruct (Nat.eqb_spec lab o) as [Elab|Nlo].
  - assert (Xwo : across g0 Sw So = across g0 Sw So' + to_set g0 v Sw).
    { rewrite (across_sym g0 Sw So U0), (across_remove g0 So Sw v NDo Hv). fold So'. rewrite (across_sym g0 Sw So' U0). reflexivity. }
    assert (Xwo' : across g0 Sw' So' = across g0 Sw So' + to_set g0 v So) by (unfold Sw'; rewrite across_snoc; unfold So'; now rewrite to_set_remove_self).
    destruct (minus_ok d tab (choose2 (length So)) (links_in g0 So) _ (Z.of_nat (links_in g0 So)) HT (choose2_Z _) eq_refl Bo) as (t1 & -> & HT1). cbn [bind].
    destruct (plus_ok (apply1 d (false, choose2 (length So), links_in g0 So)) t1 (choose2 (length So')) (links_in g0 So')
      (Z.quot ((Z.of_nat (length So) - 1) * (Z.of_nat (length So) - 2)) 2) (Z.of_nat (links_in g0 So) - Z.of_nat (to_set g0 v So)) HT1) as (t2 & -> & HT2); auto; [|lia|].
    { rewrite <- choose2_Z. do 2 f_equal; lia. }
    cbn [bind].
    match goal with |- context [minus_t logf lnchoose lcsize (?d0, t2) ?r ?l] => destruct (minus_ok d0 t2 (length Sw * length So) (across g0 Sw So) r l HT2) as (t3 & -> & HT3); [lia|lia|apply across_le|] end.
    cbn [bind].
    match goal with |- context [plus_t logf lnchoose lcsize (?d0, t3) ?r ?l] => destruct (plus_ok d0 t3 (length Sw' * length So') (across g0 Sw' So') r l HT3) as (t4 & -> & HT4); [rewrite Lw; nia|lia|apply across_le|] end.
    cbn [bind]. exists t4. split; auto.
  - destruct (Nat.eqb_spec lab w) as [Elab|Nlw].
    + destruct (minus_ok d tab (choose2 (length Sw)) (links_in g0 Sw) _ (Z.of_nat (links_in g0 Sw)) HT (choose2_Z _) eq_refl Bw) as (t1 & -> & HT1). cbn [bind].
      destruct (plus_ok (apply1 d (false, choose2 (length Sw), links_in g0 Sw)) t1 (choose2 (length Sw')) (links_in g0 Sw')
        (Z.quot ((Z.of_nat (length Sw) + 1) * Z.of_nat (length Sw)) 2) (Z.of_nat (links_in g0 Sw) + Z.of_nat (to_set g0 v Sw)) HT1) as (t2 & -> & HT2); auto; [|lia|].
      { rewrite <- choose2_Z. do 2 f_equal; lia. }
      cbn [bind]. exists t2. split; auto.
    + rewrite upd_get_same by lia. cbn [bind written].
      assert (Eo : get2 G2G o lab = Ok (Z.of_nat (across g0 So S))) by (rewrite (mat_get _ _ _ _ o lab HG) by auto; rewrite (proj2 (Nat.eqb_neq o lab)) by auto; reflexivity).
      assert (Ew : get2 G2G w lab = Ok (Z.of_nat (across g0 Sw S))) by (rewrite (mat_get _ _ _ _ w lab HG) by auto; rewrite (proj2 (Nat.eqb_neq w lab)) by auto; reflexivity).
      rewrite Eo, Ew. cbn [bind].
      pose proof (across_remove g0 So S v NDo Hv) as Xo. fold So' in Xo. assert (Xw : across g0 Sw' S = across g0 Sw S + to_set g0 v S) by (apply across_snoc).
      match goal with |- context [minus_t logf lnchoose lcsize (?d0, tab) ?r ?l] => destruct (minus_ok d0 tab (length So * length S) (across g0 So S) r l HT) as (t1 & -> & HT1); [lia|lia|apply across_le|] end.
      cbn [bind].
      match goal with |- context [plus_t logf lnchoose lcsize (?d0, t1) ?r ?l] => destruct (plus_ok d0 t1 (length So' * length S) (across g0 So' S) r l HT1) as (t2 & -> & HT2); [nia|lia|apply across_le|] end.
      cbn [bind].
      match goal with |- context [minus_t logf lnchoose lcsize (?d0, t2) ?r ?l] => destruct (minus_ok d0 t2 (length Sw * length S) (across g0 Sw S) r l HT2) as (t3 & -> & HT3); [lia|lia|apply across_le|] end.
      cbn [bind].
      match goal with |- context [plus_t logf lnchoose lcsize (?d0, t3) ?r ?l] => destruct (plus_ok d0 t3 (length Sw' * length S) (across g0 Sw' S) r l HT3) as (t4 & -> & HT4); [rewrite Lw; nia|lia|apply across_le|] end.
      cbn [bind]. exists t4. split; auto.
Qed.

(** * The whole shortlist *)
Lemma mc_groups_ok g P M G2G v o w Go Gw n2o n2w w2o : pinv g P -> M = abs P -> table_exact g0 M G2G ->
  o < N -> w < N -> o <> w -> In v (nth_members M o) -> nth_error P o = Some Go -> nth_error P w = Some Gw ->
  n2o = Z.of_nat (to_set g0 v (nth_members M o)) -> n2w = Z.of_nat (to_set g0 v (nth_members M w)) -> w2o = Z.of_nat (across g0 (nth_members M w) (nth_members M o)) ->
  forall slg d tab n2g eff, (forall k, In k slg -> k < N) -> length n2g = N -> lc_table lnchoose lcsize tab ->
  exists tab' n2g', foldM (mc_group logf lnchoose lcsize g P ident G2G v Go Gw n2o n2w w2o) ((d, tab), n2g, eff) slg =
    Ok ((fold_left apply1 (flat_map (dterms M v o w) slg) d, tab'), n2g', eff + count (fun k => nonempty (nth_members M k)) slg) /\
    lc_table lnchoose lcsize tab' /\ length n2g' = N /\
    forall k, nth_error n2g' k = if mem k slg then Some (Some (Z.of_nat (to_set g0 v (nth_members M k)))) else nth_error n2g k.
Proof.
  intros I EM HG Ho Hw Hne Hv EGo EGw E1 E2 E3. induction slg as [|lab slg IH]; intros d tab n2g eff Hs Ln HT.
  - exists tab, n2g. cbn [foldM flat_map fold_left]. splits; auto. do 2 f_equal. change (count (fun k => nonempty (nth_members M k)) []) with 0. lia.
  - cbn [foldM]. destruct (mc_group_ok g P M G2G v o w Go Gw n2o n2w w2o d tab n2g eff lab) as (t1 & -> & HT1); auto; [apply Hs; simpl; auto|]. cbn [bind].
    destruct (IH (fold_left apply1 (dterms M v o w lab) d) t1 (upd n2g lab (Some (Z.of_nat (to_set g0 v (nth_members M lab))))) (eff + (if nonempty (nth_members M lab) then 1 else 0)))
      as (t2 & n2g' & -> & HT2 & L2 & Hn); auto; [intros; apply Hs; simpl; auto|now rewrite length_upd|].
    exists t2, n2g'. splits; auto.
    + cbn [flat_map]. rewrite fold_left_app, count_cons. do 2 f_equal. lia.
    + intros k. rewrite Hn, nth_upd. unfold mem. cbn [existsb]. change (existsb (Nat.eqb k) slg) with (mem k slg). destruct (mem k slg); [now rewrite orb_true_r|]. rewrite orb_false_r.
      destruct (Nat.eqb_spec k lab) as [->|]; simpl; auto. rewrite (proj2 (Nat.ltb_lt _ _)); auto. rewrite Ln. apply Hs. simpl; auto.
Qed.

Lemma table_ok r : FastTable lnfact r (InitializeTable lnfact lfsize) lfsize = Ok (lnfact r).
Proof. apply table_value. Qed.
Lemma mc_labels_ok no nw eff d : eff <= N -> 1 <= eff -> (no <> 1 -> nw = 0 -> eff < N) ->
  mc_labels lnfact lfsize N (InitializeTable lnfact lfsize) (Z.of_nat no) (Z.of_nat nw) eff d = Ok (dlabels no nw eff d).
Proof.
  intros H1 H2 H3. unfold mc_labels, dlabels.
  replace (Z.of_nat no =? 1)%Z with (no =? 1) by (destruct (Nat.eqb_spec no 1), (Z.eqb_spec (Z.of_nat no) 1); auto; lia).
  replace (Z.of_nat nw =? 0)%Z with (nw =? 0) by (destruct (Nat.eqb_spec nw 0), (Z.eqb_spec (Z.of_nat nw) 0); auto; lia).
  destruct (Nat.eqb_spec no 1) as [->|Hno], (Nat.eqb_spec nw 0) as [->|Hnw]; cbn [andb negb]; auto.
  - replace (Z.of_nat N - Z.of_nat eff)%Z with (Z.of_nat (N - eff)) by lia. replace (Z.of_nat N - (Z.of_nat eff - 1))%Z with (Z.of_nat (N - (eff - 1))) by lia.
    rewrite !nat_of_nat. cbn [bind]. rewrite !table_ok. reflexivity.
  - specialize (H3 Hno eq_refl).
    replace (Z.of_nat N - Z.of_nat eff)%Z with (Z.of_nat (N - eff)) by lia. replace (Z.of_nat N - (Z.of_nat eff + 1))%Z with (Z.of_nat (N - (eff + 1))) by lia.
    rewrite !nat_of_nat. cbn [bind]. rewrite !table_ok. reflexivity.
Qed.

(** The groups of the shortlist that have nodes are all the groups that have nodes. *)
Lemma listed_filled M slg : assigned N M -> listed M slg -> count (fun k => nonempty (nth_members M k)) slg = filled M.
Proof.
  intros AS [H1 H2 H3]. rewrite (filled_count N M AS). rewrite (count_ext _ (fun k => mem k slg && nonempty (nth_members M k)) (seq 0 N)).
  - rewrite !count_lsum. rewrite (lsum_members _ slg N H1 H2). apply lsum_ext. intros k _. destruct (mem k slg); auto.
  - intros k Hk. apply in_seq in Hk. destruct (mem_spec k slg); auto. simpl. destruct (nonempty (nth_members M k)) eqn:E; auto. exfalso. apply n, H3; auto. lia.
Qed.
Lemma listed_len M slg : listed M slg -> length slg <= N.
Proof.
  intros [H1 H2 _]. rewrite <- (seq_length N 0). apply NoDup_incl_length; auto. intros k Hk. apply in_seq. specialize (H2 k Hk). lia.
Qed.
Lemma listed_more M slg w : listed M slg -> w < N -> ~ In w slg -> length slg < N.
Proof.
  intros [H1 H2 _] Hw Hn. assert (L : length (w :: slg) <= length (seq 0 N)) by (apply NoDup_incl_length; [constructor; auto|]; intros k [<-|Hk]; apply in_seq; [|specialize (H2 k Hk)]; lia).
  rewrite seq_length in L. simpl in L. lia.
Qed.
(** A group with two nodes leaves a group without. *)
Lemma filled_lt M o : assigned N M -> 2 <= length (nth_members M o) -> filled M < N.
Proof.
  intros AS Ho. rewrite (filled_count N M AS). pose proof (sizes_sum N M AS) as HS.
  assert (Lo : o < N). { destruct (nth_members M o) as [|x l] eqn:E; [simpl in Ho; lia|]. apply (as_lt N M o x AS). rewrite E. simpl; auto. }
  rewrite count_lsum. assert (E : lsum (fun k => (if nonempty (nth_members M k) then 1 else 0) + (if k =? o then 1 else 0)) (seq 0 N) <= N).
  { rewrite <- HS at 2. apply lsum_le. intros k _. destruct (Nat.eqb_spec k o) as [->|]; [destruct (nonempty (nth_members M o)); lia|]. destruct (nth_members M k); simpl; lia. }
  rewrite lsum_add in E. rewrite (lsum_single (fun _ => 1)) in E; [lia|apply seq_NoDup|apply in_seq; lia].
Qed.

Lemma mc_change_ok st slg v o w : minv st -> listed (abs (mpart st)) slg -> o < N -> w < N -> o <> w -> In v (nth_members (abs (mpart st)) o) ->
  exists tab' n2g', mc_change logf lnchoose lnfact lcsize lfsize linC N ident (InitializeTable lnfact lfsize) st slg v o w =
    Ok (dH_of (abs (mpart st)) slg v o w, tab', n2g') /\ lc_table lnchoose lcsize tab' /\ length n2g' = N /\
    forall k, nth_error n2g' k = if mem k slg then Some (Some (Z.of_nat (to_set g0 v (nth_members (abs (mpart st)) k)))) else nth_error (mn2g st) k.
Proof.
  intros I HL Ho Hw Hne Hv. pose proof (mi_p _ I) as PI. set (M := abs (mpart st)) in *. pose proof (pi_as _ _ PI) as AS. fold M in AS.
  destruct (pi_group _ _ PI o Ho) as (Go & EGo & Elo & _ & Eso & _). destruct (pi_group _ _ PI w Hw) as (Gw & EGw & Elw & _ & Esw & _). fold M in Eso, Esw.
  assert (Hvn : v < N) by (eapply as_range; eauto).
  unfold mc_change. rewrite (get_ok _ _ _ EGo), (get_ok _ _ _ EGw). cbn [bind]. rewrite Elo, Elw.
  rewrite (pi_nlinks _ _ PI v o Hvn Ho), (pi_nlinks _ _ PI v w Hvn Hw). cbn [bind]. rewrite (pi_ng2g _ _ PI w o Hw Ho) by auto. cbn [bind]. fold M.
  rewrite Eso, Esw.
  match goal with |- context [foldM _ ((?d, _), _, _) slg] => set (d0 := d) end.
  assert (Ed : d0 = dbase (length (nth_members M o)) (length (nth_members M w))).
  { unfold d0, dbase. generalize (length (nth_members M o)) as no, (length (nth_members M w)) as nw. intros no nw.
    replace (Z.of_nat no =? 1)%Z with (no =? 1) by (destruct (Nat.eqb_spec no 1), (Z.eqb_spec (Z.of_nat no) 1); auto; lia).
    replace (Z.of_nat nw =? 0)%Z with (nw =? 0) by (destruct (Nat.eqb_spec nw 0), (Z.eqb_spec (Z.of_nat nw) 0); auto; lia). reflexivity. }
  destruct (mc_groups_ok (mnet st) (mpart st) M (mG2G st) v o w Go Gw (Z.of_nat (to_set g0 v (nth_members M o))) (Z.of_nat (to_set g0 v (nth_members M w)))
     (Z.of_nat (across g0 (nth_members M w) (nth_members M o))) PI eq_refl (mi_g2g _ I) Ho Hw Hne Hv EGo EGw eq_refl eq_refl eq_refl slg d0 (mtab st) (mn2g st) 0
     (li_lt _ _ HL) (mi_len _ I) (mi_tab _ I)) as (tab' & n2g' & -> & HT' & L' & Hn).
  cbn [bind fst snd]. rewrite Nat.add_0_l.
  assert (Hv1 : 1 <= length (nth_members M o)) by (destruct (nth_members M o); [destruct Hv|simpl; lia]).
  rewrite mc_labels_ok.
  - cbn [bind]. exists tab', n2g'. splits; auto. unfold dH_of. now rewrite Ed.
  - rewrite (listed_filled M slg AS HL). apply (filled_le N M AS).
  - apply (count_pos (fun k => nonempty (nth_members M k)) slg o).
    + apply (li_all _ _ HL); auto. destruct (nth_members M o); [destruct Hv|auto].
    + destruct (nth_members M o); [destruct Hv|auto].
  - intros H1 _. rewrite (listed_filled M slg AS HL). apply (filled_lt M o AS). lia.
Qed.

(** * The table of links *)
Definition tabf (M : groups) (a b : nat) : Z := Z.of_nat (if a =? b then links_in g0 (nth_members M a) else across g0 (nth_members M a) (nth_members M b)).
Definition part_way (F : nat -> nat -> Z) (n : nat -> Z) (o w i a b : nat) : Z :=
  let z (c : bool) (x : Z) := if c then x else 0%Z in
  if a =? b then (F a b - z ((a =? o) && (a <? i))%nat (n a) + z ((a =? w) && (a <? i))%nat (n a))%Z
  else (F a b - z ((b =? o) && (a <? i))%nat (n a) - z ((a =? o) && (b <? i))%nat (n b) + z ((b =? w) && (a <? i))%nat (n a) + z ((a =? w) && (b <? i))%nat (n b))%Z.
Lemma part_way_sym F n o w i : (forall a b, F a b = F b a) -> forall a b, part_way F n o w i a b = part_way F n o w i b a.
Proof.
  intros HF a b. unfold part_way. rewrite (Nat.eqb_sym b a). destruct (Nat.eqb_spec a b) as [->|]; auto. rewrite (HF b a). lia.
Qed.
Lemma g2g_step_ok n2g F n o w i m : (forall a b, F a b = F b a) -> o < N -> w < N -> o <> w -> i < N -> nth_error n2g i = Some (Some (n i)) ->
  mat N N m (part_way F n o w i) -> exists m', g2g_step n2g o w m i = Ok m' /\ mat N N m' (part_way F n o w (i + 1)).
Proof.
  intros HF Ho Hw Hne Hi En Hm. unfold g2g_step. rewrite (get_ok _ _ _ En). cbn [bind written].
  set (f := part_way F n o w i) in *. rewrite (mat_get _ _ _ _ i o Hm) by auto. cbn [bind].
  destruct (mat_set _ _ _ _ i o (f i o - n i)%Z Hm Hi Ho) as (m1 & -> & Hm1). cbn [bind]. rewrite (mat_get _ _ _ _ i o Hm1) by auto. cbn [bind].
  replace (fupd2 f i o (f i o - n i)%Z i o) with (f i o - n i)%Z by (unfold fupd2; now rewrite !Nat.eqb_refl).
  destruct (mat_set _ _ _ _ o i (f i o - n i)%Z Hm1 Ho Hi) as (m2 & -> & Hm2). cbn [bind]. rewrite (mat_get _ _ _ _ i w Hm2) by auto. cbn [bind].
  assert (Ex : fupd2 (fupd2 f i o (f i o - n i)%Z) o i (f i o - n i)%Z i w = f i w).
  { unfold fupd2. destruct (Nat.eqb_spec i o), (Nat.eqb_spec w i), (Nat.eqb_spec i i), (Nat.eqb_spec w o); cbn [andb]; auto; lia. }
  rewrite Ex. destruct (mat_set _ _ _ _ i w (f i w + n i)%Z Hm2 Hi Hw) as (m3 & -> & Hm3). cbn [bind]. rewrite (mat_get _ _ _ _ i w Hm3) by auto. cbn [bind].
  match goal with |- context [set2 m3 w i ?x] => replace x with (f i w + n i)%Z by (unfold fupd2; now rewrite !Nat.eqb_refl) end.
  destruct (mat_set _ _ _ _ w i (f i w + n i)%Z Hm3 Hw Hi) as (m4 & -> & Hm4). exists m4. split; auto. eapply mat_ext; [exact Hm4|].
  intros a b Ha Hb. unfold fupd2. clear - HF Hne. unfold f, part_way.
  destruct (Nat.eqb_spec a w), (Nat.eqb_spec b i); cbn [andb];
  destruct (Nat.eqb_spec a i), (Nat.eqb_spec b w); cbn [andb];
  destruct (Nat.eqb_spec a o), (Nat.eqb_spec b o); cbn [andb]; subst; try lia;
  repeat match goal with |- context [?x =? ?y] => destruct (Nat.eqb_spec x y); try lia end; cbn [andb]; subst; try lia;
  repeat match goal with |- context [?x <? ?y] => destruct (Nat.ltb_spec x y); try lia end;
  try match goal with |- context [F ?x ?y] => rewrite (HF x y) end; try lia.
Qed.

Lemma part_way_end M v o w a b : assigned N M -> o < N -> w < N -> o <> w -> In v (nth_members M o) -> a < N -> b < N ->
  part_way (tabf M) (fun k => Z.of_nat (to_set g0 v (nth_members M k))) o w N a b = tabf (moved M v o w) a b.
Proof.
  intros AS Ho Hw Hne Hv Ha Hb. assert (Hvn : v < N) by (eapply as_range; eauto). assert (Hvw : ~ In v (nth_members M w)) by (intros K; apply Hne; eapply as_apart; eauto).
  unfold part_way, tabf. rewrite (proj2 (Nat.ltb_lt a N) Ha), (proj2 (Nat.ltb_lt b N) Hb), !andb_true_r.
  rewrite !(nth_moved N M v o w _ AS Ho Hw Hne Hv). pose proof (as_once _ _ AS) as ND.
  assert (Io : links_in g0 (nth_members M o) = links_in g0 (remove1 v (nth_members M o)) + to_set g0 v (nth_members M o)) by (apply links_in_remove; auto).
  assert (Iw : links_in g0 (nth_members M w ++ [v]) = links_in g0 (nth_members M w) + to_set g0 v (nth_members M w)) by (apply links_in_snoc; auto).
  assert (X : forall T, across g0 (nth_members M o) T = across g0 (remove1 v (nth_members M o)) T + to_set g0 v T) by (intros T; apply across_remove; auto).
  assert (X' : forall T, across g0 T (nth_members M o) = across g0 T (remove1 v (nth_members M o)) + to_set g0 v T) by (intros T; rewrite !(across_sym g0 T) by auto; auto).
  assert (Y : forall T, across g0 (nth_members M w ++ [v]) T = across g0 (nth_members M w) T + to_set g0 v T) by (intros T; apply across_snoc).
  assert (Y' : forall T, across g0 T (nth_members M w ++ [v]) = across g0 T (nth_members M w) + to_set g0 v T) by (intros T; rewrite !(across_sym g0 T) by auto; auto).
  assert (R : to_set g0 v (remove1 v (nth_members M o)) = to_set g0 v (nth_members M o)) by (apply to_set_remove_self; auto).
  destruct (Nat.eqb_spec a b) as [->|Hab].
  - destruct (Nat.eqb_spec b o), (Nat.eqb_spec b w); subst; try lia.
  - destruct (Nat.eqb_spec a o) as [Hao|Hao], (Nat.eqb_spec b w) as [Hbw|Hbw], (Nat.eqb_spec a w) as [Haw|Haw], (Nat.eqb_spec b o) as [Hbo|Hbo]; subst; try lia;
    repeat match goal with |- context [?x =? ?y] => destruct (Nat.eqb_spec x y); try lia end.
    all: rewrite ?Y, ?Y', ?X, ?X', ?R; try lia.
    all: pose proof (X (nth_members M w)); pose proof (X' (nth_members M w)); try lia.
Qed.

(** * One attempt *)
Lemma g2g_loop n2g M v o w m : assigned N M -> o < N -> w < N -> o <> w -> In v (nth_members M o) ->
  (forall k, k < N -> nth_error n2g k = Some None \/ nth_error n2g k = Some (Some (Z.of_nat (to_set g0 v (nth_members M k))))) ->
  (zeroed -> forall k, nth_error n2g k <> Some None) -> mat N N m (tabf M) ->
  ends mc_err (foldM (g2g_step n2g o w) m (seq 0 N)) (fun m' => mat N N m' (tabf (moved M v o w)) /\ forall k, k < N -> nth_error n2g k <> Some None).
Proof.
  intros AS Ho Hw Hne Hv Hn Hz Hm. set (n := fun k => Z.of_nat (to_set g0 v (nth_members M k))).
  assert (HF : forall a b, tabf M a b = tabf M b a).
  { intros a b. unfold tabf. rewrite (Nat.eqb_sym b a). destruct (Nat.eqb_spec a b) as [->|]; auto. now rewrite across_sym. }
  pose proof (foldM_seq_safe (fun i m => mat N N m (part_way (tabf M) n o w i) /\ forall k, k < i -> nth_error n2g k <> Some None) mc_err (g2g_step n2g o w) N m) as G.
  unfold ends. destruct (foldM (g2g_step n2g o w) m (seq 0 N)) as [m'|e].
  - destruct G as [G1 G2].
    + split; [|intros; lia]. eapply mat_ext; [exact Hm|]. intros a b _ _. unfold part_way. rewrite (proj2 (Nat.ltb_ge a 0)), (proj2 (Nat.ltb_ge b 0)) by lia. rewrite !andb_false_r. destruct (a =? b); lia.
    + intros i mi Hi [Hmi Hk]. destruct (Hn i Hi) as [E|E].
      * unfold g2g_step. rewrite (get_ok _ _ _ E). cbn [bind written]. right; right. split; auto. intros Z. eapply Hz; eauto.
      * destruct (g2g_step_ok n2g (tabf M) n o w i mi HF Ho Hw Hne Hi E Hmi) as (m2 & -> & Hm2). split; auto. intros k Lk. destruct (Nat.eq_dec k i) as [->|]; [congruence|]. apply Hk. lia.
    + split; auto. eapply mat_ext; [exact G1|]. intros a b Ha Hb. now apply part_way_end.
  - apply G.
    + split; [|intros; lia]. eapply mat_ext; [exact Hm|]. intros a b _ _. unfold part_way. rewrite (proj2 (Nat.ltb_ge a 0)), (proj2 (Nat.ltb_ge b 0)) by lia. rewrite !andb_false_r. destruct (a =? b); lia.
    + intros i mi Hi [Hmi Hk]. destruct (Hn i Hi) as [E|E].
      * unfold g2g_step. rewrite (get_ok _ _ _ E). cbn [bind written]. right; right. split; auto. intros Z. eapply Hz; eauto.
      * destruct (g2g_step_ok n2g (tabf M) n o w i mi HF Ho Hw Hne Hi E Hmi) as (m2 & -> & Hm2). split; auto. intros k Lk. destruct (Nat.eq_dec k i) as [->|]; [congruence|]. apply Hk. lia.
Qed.

Lemma redraw_ok o ds : 0 < N -> Forall good_draw ds -> ends mc_err (redraw N o ds) (fun '(w, ds') => w < N /\ w <> o /\ Forall good_draw ds').
Proof.
  intros HN. induction ds as [|u ds IH]; intros H; [now left|]. inversion H; subst. cbn [redraw]. destruct (Nat.eqb_spec (nfloor (nmul u (nofnat N))) o); [auto|]. cbn [ends]. match goal with K : good_draw u |- _ => specialize (K N HN) end. splits; auto.
Qed.
Lemma accepts_ok dH ds : Forall good_draw ds -> ends mc_err (accepts dH ds) (fun '(_, ds') => Forall good_draw ds').
Proof.
  intros H. unfold accepts. destruct (nleb dH n0); [exact H|]. destruct ds as [|u ds]; [now left|]. inversion H; subst. cbn [draw bind]. exact H3.
Qed.

Lemma mc_move_ok st slg i : 0 < N -> minv st -> listed (abs (mpart st)) slg ->
  ends mc_err (mc_move logf lnchoose lnfact lcsize lfsize linC N ident ident (InitializeTable lnfact lfsize) (st, slg) i)
    (fun '(st', slg') => minv st' /\ listed (abs (mpart st')) slg').
Proof.
  intros HN I HL. pose proof (mi_p _ I) as PI. set (M := abs (mpart st)) in *. pose proof (pi_as _ _ PI) as AS. fold M in AS. unfold mc_move.
  pose proof (mi_ds _ I) as HD. destruct (mds st) as [|u ds] eqn:Eds; [now left|]. inversion HD as [|? ? Hu HD']; subst. cbn [draw bind].
  rewrite (ident_get _ (Hu N HN)). cbn [bind deref]. set (v := nfloor (nmul u (nofnat N))). assert (Hv : v < N) by (apply Hu; auto).
  destruct (pi_home _ _ PI v Hv) as (n & o & En & Eg & Ho & Hvo). fold M in Hvo. rewrite (get_ok _ _ _ En). cbn [bind]. rewrite Eg. cbn [bind].
  pose proof (redraw_ok o ds HN HD') as HR. destruct (redraw N o ds) as [[w ds2]|e] eqn:ER; [|exact HR]. destruct HR as (Hw & Hwo & HD2). cbn [bind]. rewrite !ident_get by auto. cbn [bind deref].
  assert (Hne : o <> w) by auto.
  destruct (mc_change_ok st slg v o w I HL Ho Hw Hne Hvo) as (tab' & n2g' & -> & HT' & L' & Hn). cbn [bind]. fold M in Hn. fold M.
  pose proof (accepts_ok (dH_of M slg v o w) ds2 HD2) as HC. destruct (accepts (dH_of M slg v o w) ds2) as [[acc ds3]|e] eqn:EC; [|exact HC]. cbn [ends] in HC. rename HC into HD3. cbn [bind].
  assert (HJ : if acc : bool then J (moved M v o w) (nadd (mH st) (dH_of M slg v o w)) ds3 else J M (mH st) ds3).
  { refine (J_move M slg u o w (mH st) ds ds2 acc ds3 AS HL Ho Hw Hne Hvo ER EC _). rewrite <- Eds. apply (mi_J _ I). }
  assert (Hn1 : forall k, k < N -> nth_error n2g' k = Some None \/ nth_error n2g' k = Some (Some (Z.of_nat (to_set g0 v (nth_members M k))))).
  { intros k Lk. rewrite Hn. destruct (mem_spec k slg) as [Hk|Hk]; auto. destruct (nth_ex (mn2g st) k) as [x Ex]; [now rewrite (mi_len _ I)|]. rewrite Ex.
    destruct (nonempty (nth_members M k)) eqn:NE; [exfalso; apply Hk, (li_all _ _ HL); auto|]. assert (E0 : nth_members M k = []) by (destruct (nth_members M k); [auto|discriminate]).
    destruct (mi_n2g _ I k x Ex E0) as [->| ->]; auto. right. rewrite E0. reflexivity. }
  assert (Hz : zeroed -> forall k, nth_error n2g' k <> Some None).
  { intros Z k. rewrite Hn. destruct (mem k slg); [discriminate|]. now apply (mi_zero _ I). }
  destruct acc.
  - destruct (pi_move _ _ PI v o w Ho Hw Hne Hvo) as (r & g' & P' & -> & PI' & EA). fold M in EA. cbn [bind fst snd].
    eapply ends_bind; [apply (g2g_loop n2g' M v o w (mG2G st)); auto; apply (mi_g2g _ I)|]. intros m' [Hm' Hall]. cbn [bind].
    assert (NM : forall k, nth_members (abs P') k = if k =? w then nth_members M w ++ [v] else if k =? o then remove1 v (nth_members M o) else nth_members M k) by (intros k; rewrite EA; now apply (nth_moved N)).
    assert (IV : minv (mkMC g' P' (nadd (mH st) (dH_of M slg v o w)) m' n2g' tab' ds3)).
    { split; cbn [mnet mpart mH mG2G mn2g mtab mds]; auto.
      - rewrite EA. exact Hm'.
      - intros k x Ex E0. rewrite NM in E0. pose proof (nth_lt _ _ _ Ex) as Lk; rewrite L' in Lk. destruct (Nat.eqb_spec k w); [destruct (nth_members M w); discriminate|].
        destruct (Hn1 k Lk) as [E|E]; rewrite E in Ex; injection Ex as <-; auto. right. f_equal. destruct (Nat.eqb_spec k o) as [Eko|Nko].
        + rewrite Eko. rewrite <- (to_set_remove_self g0 v (nth_members M o) U0); [|apply AS]. now rewrite E0.
        + now rewrite E0.
      - rewrite EA. exact HJ. }
    assert (LM : forall slg', NoDup slg' -> (forall k, In k slg' -> k < N) -> (forall k, In k slg \/ k = w -> In k slg') -> listed (abs P') slg').
    { intros slg' H1 H2 H3. split; auto. intros k Lk NE. apply H3. rewrite NM in NE. destruct (Nat.eqb_spec k w); auto. left. apply (li_all _ _ HL); auto.
      destruct (Nat.eqb_spec k o) as [->|]; auto. fold M. destruct (nth_members M o); [destruct Hvo|auto]. }
    destruct (existsb (Nat.eqb w) slg) eqn:EX; cbn [bind].
    + split; auto. apply LM; [apply HL|apply HL|]. intros k [H| ->]; auto. apply existsb_exists in EX as (x & Hx & Ex). apply Nat.eqb_eq in Ex. now subst.
    + assert (Hnw : ~ In w slg) by (intros K; apply (mem_In w slg) in K; unfold mem in K; congruence).
      rewrite (proj2 (Nat.ltb_lt _ _) (listed_more _ _ w HL Hw Hnw)). cbn [check bind]. split; auto. apply LM.
      * rewrite <- (rev_involutive (slg ++ [w])), rev_unit. apply NoDup_rev. constructor; [now rewrite <- in_rev|apply NoDup_rev, HL].
      * intros k Hk. apply in_app_iff in Hk as [Hk|[<-|[]]]; auto. now apply (li_lt _ _ HL).
      * intros k Hk. rewrite in_app_iff. simpl. destruct Hk; auto.
  - split; [|exact HL]. split; cbn [mnet mpart mH mG2G mn2g mtab mds]; auto; try apply I.
    intros k x Ex E0. pose proof (nth_lt _ _ _ Ex) as Lk; rewrite L' in Lk. destruct (Hn1 k Lk) as [E|E]; rewrite E in Ex; injection Ex as <-; auto. right. fold M in E0. now rewrite E0.
Qed.

(** What an attempt does to the partition and to the draws. *)
Lemma mc_move_inv st slg i st' slg' : 0 < N -> minv st -> listed (abs (mpart st)) slg ->
  mc_move logf lnchoose lnfact lcsize lfsize linC N ident ident (InitializeTable lnfact lfsize) (st, slg) i = Ok (st', slg') ->
  let M := abs (mpart st) in
  exists u ds o w ds2 acc, let v := nfloor (nmul u (nofnat N)) in
    mds st = u :: ds /\ In v (nth_members M o) /\ o < N /\ w < N /\ o <> w /\ redraw N o ds = Ok (w, ds2) /\ accepts (dH_of M slg v o w) ds2 = Ok (acc, mds st') /\
    abs (mpart st') = if acc : bool then moved M v o w else M.
Proof.
  intros HN I HL. pose proof (mi_p _ I) as PI. unfold mc_move.
  pose proof (mi_ds _ I) as HD. destruct (mds st) as [|u ds] eqn:Eds; [discriminate|]. inversion HD as [|? ? Hu HD']; subst. cbn [draw bind].
  rewrite (ident_get _ (Hu N HN)). cbn [bind deref]. set (v := nfloor (nmul u (nofnat N))). assert (Hv : v < N) by (apply Hu; auto).
  destruct (pi_home _ _ PI v Hv) as (n & o & En & Eg & Ho & Hvo). rewrite (get_ok _ _ _ En). cbn [bind]. rewrite Eg. cbn [bind].
  pose proof (redraw_ok o ds HN HD') as HR. destruct (redraw N o ds) as [[w ds2]|e] eqn:ER; [|discriminate]. destruct HR as (Hw & Hwo & HD2). cbn [bind]. rewrite !ident_get by auto. cbn [bind deref].
  assert (Hne : o <> w) by auto.
  destruct (mc_change_ok st slg v o w I HL Ho Hw Hne Hvo) as (tab' & n2g' & -> & _). cbn [bind].
  destruct (accepts _ ds2) as [[acc ds3]|e] eqn:EC; [|discriminate]. cbn [bind]. intros E. exists u, ds, o, w, ds2, acc. cbv zeta. fold v. splits; auto.
  - rewrite EC. destruct acc; [|now injection E as <- _]. destruct (MoveNode _ _ _ _) as [[r gp]|e]; [|discriminate]. cbn [bind] in E. destruct (foldM _ _ _) as [m'|e]; [|discriminate]. cbn [bind] in E.
    destruct (existsb _ slg); cbn [bind] in E; [now injection E as <- _|]. destruct (check _ _); [|discriminate]. cbn [bind] in E. now injection E as <- _.
  - destruct acc; [|now injection E as <- _]. destruct (pi_move _ _ PI v o w Ho Hw Hne Hvo) as (r & g' & P' & EM & PI' & EA). rewrite EM in E. cbn [bind fst snd] in E. destruct (foldM _ _ _) as [m'|e]; [|discriminate]. cbn [bind] in E.
    destruct (existsb _ slg); cbn [bind] in E; [now injection E as <- _|]. destruct (check _ _); [|discriminate]. cbn [bind] in E. now injection E as <- _.
Qed.

(** * The step *)
Lemma shortlist g P : pinv g P -> listed (abs P) (map plabel (filter (fun G => (0 <? psize G)%Z) P)).
Proof.
  intros I. assert (EL : map plabel P = seq 0 N) by (rewrite <- (as_labels _ _ (pi_as _ _ I)); unfold abs; rewrite map_map; reflexivity).
  split.
  - assert (H : NoDup (map plabel P)) by (rewrite EL; apply seq_NoDup). clear - H. induction P as [|G P IH]; auto. simpl in *. inversion H; subst. destruct (0 <? psize G)%Z; auto. simpl. constructor; auto.
    intros K. apply H2. apply in_map_iff in K as (x & Ex & Hx). apply filter_In in Hx as [Hx _]. apply in_map_iff. eauto.
  - intros k Hk. apply in_map_iff in Hk as (G & <- & HG). apply filter_In in HG as [HG _]. assert (K : In (plabel G) (seq 0 N)) by (rewrite <- EL; now apply in_map). apply in_seq in K. lia.
  - intros k Lk NE. destruct (pi_group g P I k Lk) as (G & EG & El & _ & Es & _). apply in_map_iff. exists G. split; auto. apply filter_In. split; [eapply nth_error_In; eauto|]. now rewrite Es, nonempty_len.
Qed.
Theorem step_ok factor st : minv st ->
  ends mc_err (LinkScoreMCStep logf lnchoose lnfact lcsize lfsize linC N ident ident (InitializeTable lnfact lfsize) factor st) minv.
Proof.
  intros I. unfold LinkScoreMCStep. pose proof (shortlist _ _ (mi_p _ I)) as HL. set (slg := map plabel _) in *.
  rewrite (proj2 (Nat.leb_le _ _) (listed_len _ _ HL)). cbn [check bind].
  destruct (Nat.eq_dec N 0) as [E0|HN]; [rewrite E0; exact I|].
  eapply ends_bind.
  - apply (ends_foldM mc_err (fun '(st, slg) => minv st /\ listed (abs (mpart st)) slg)); [|split; eauto].
    intros [s sl] x _ [H1 H2]. apply mc_move_ok; auto. lia.
  - intros [s sl] [H _]. exact H.
Qed.
End Step.
