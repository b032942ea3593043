(** CommRun.v -- SACommunityIdent of src/modules.c: single moves, merges and splits. *)
From Coq Require Import List Arith ZArith Bool QArith Qcanon Qround Lia.
From Verif Require Import Base Num ListLib NatSum QcSum IoModel IoSpec GraphModel GraphSpec GraphProof BipartSpec GroupModel GroupSpec PairSum GroupProof GroupExact NetModel NetSpec NetCopy
  ModulesModel ModulesSpec ModulesMod ModulesMap ModulesCopy ModulesClusters SAProof Refute MissModel MissSpec MissSets MissStep MissRun RecSpec RecSetup RecExact CommModel CommSpec CommSums CommStep CommFlip CommSplit
  CommCopy.
Import ListNotations.
Local Open Scope nat_scope.

(** * Another network with the same links *)
Section Relink.
Variable ex : Qc -> Qc.
Variables g g' : net Qc.
Hypothesis E : forall i j, linked g' i j = linked g i j.
Hypothesis EI : forall S, links_in g' S = links_in g S.
Variable ms : list nat.
Lemma half_value_same h : half_value g' ms h = half_value g ms h.
Proof.
  unfold half_value. rewrite EI. unfold pair_value. apply Qsum_ext. intros i _. apply Qsum_ext. intros j _.
  assert (X : forall x y, half_weight g' ms x y = half_weight g ms x y) by (intros; unfold half_weight, unit_weight; now rewrite E).
  assert (Y : forall x, node_sum (length ms) (half_weight g' ms) x = node_sum (length ms) (half_weight g ms) x) by (intros x; apply Qsum_ext; intros; apply X).
  now rewrite X, !Y.
Qed.
Lemma flip_same T s t : flip_one ex g' ms T s t -> flip_one ex g ms T s t.
Proof. intros H. inversion H as [h u ds b ds' v h' HC]; subst. rewrite !half_value_same in HC. apply (fl ex g ms T h u ds b ds' HC). Qed.
Lemma power_same {X} (R R' : X -> X -> Prop) n s t : (forall a b, R a b -> R' a b) -> power R n s t -> power R' n s t.
Proof. intros H HP. induction HP; econstructor; eauto. Qed.
Lemma chills_same Tf Ts T s t : chills ex g' ms Tf Ts T s t -> chills ex g ms Tf Ts T s t.
Proof. intros H. induction H as [|T s s1 s2 HT HP _ IH]; [now constructor|]. econstructor; [exact HT| |exact IH]. eapply power_same; [|exact HP]. apply flip_same. Qed.
Lemma anneals2_same Ti Tf Ts ds h rest : anneals2 ex g' ms Ti Tf Ts ds h rest -> anneals2 ex g ms Ti Tf Ts ds h rest.
Proof. intros H. inversion H; subst; [apply a2_links|apply a2_none]; auto; rewrite EI in *; auto. now apply chills_same. Qed.
Lemma apart_same : apart g' ms <-> apart g ms.
Proof. split; intros (p & H1 & H2 & H3); exists p; (split; [auto|split; [auto|]]); intros x y Hx Hy Hl; apply H3; auto; [now rewrite E|now rewrite E in Hl]. Qed.
Lemma halved_same Ti Tf Ts ds h rest : halved ex g' ms Ti Tf Ts ds h rest -> halved ex g ms Ti Tf Ts ds h rest.
Proof.
  intros H. inversion H; subst.
  - apply hv_whole; [rewrite <- apart_same; auto|now apply anneals2_same].
  - apply hv_anyway; [rewrite <- apart_same; auto|auto|now apply anneals2_same].
  - apply hv_parts; auto; [rewrite <- apart_same; auto|]. intros x y Hx Hy Hl. match goal with K : forall x y, _ -> _ -> linked g' _ _ = true -> _ |- _ => apply K; auto; now rewrite E end.
Qed.
End Relink.

(** * Draws used *)
Section Length.
Variable ex : Qc -> Qc.
Variables (g : net Qc) (K : nat).
Lemma picks_len o ds w ds' : picks K o ds w ds' -> length ds' < length ds.
Proof. intros H. induction H; simpl; lia. Qed.
Lemma meets_len c a ds b ds' : meets g c a ds b ds' -> length ds' < length ds.
Proof. intros H. induction H; simpl; lia. Qed.
Lemma one_len T s t : one ex g K T s t -> length (snd t) < length (snd s).
Proof. intros H. inversion H as [c u ds w ds1 b ds2 v HP HC]; subst. apply picks_len in HP. apply climb_len in HC. cbn [snd length]. lia. Qed.
Lemma unite_len T s t : unite ex g T s t -> length (snd t) <= length (snd s).
Proof. intros H. inversion H as [|c u ds b ds1 acc ds2 a HP HC]; subst; cbn [snd length]; [lia|]. apply meets_len in HP. apply climb_len in HC. lia. Qed.
Lemma half_len ms T s t : flip_one ex g ms T s t -> length (snd t) < length (snd s).
Proof. intros H. inversion H as [h u ds b ds' v h' HC]; subst. apply climb_len in HC. cbn [snd length]. lia. Qed.
Lemma chills_len ms Tf Ts T s t : chills ex g ms Tf Ts T s t -> length (snd t) <= length (snd s).
Proof. intros H. induction H as [|T s s1 s2 HT HP _ IH]; [lia|]. apply (power_len _ (half_len ms T)) in HP. lia. Qed.
Lemma anneals2_len ms Ti Tf Ts ds h rest : anneals2 ex g ms Ti Tf Ts ds h rest -> length rest <= length ds.
Proof. intros H. inversion H; subst; rewrite app_length; [|lia]. match goal with X : chills _ _ _ _ _ _ _ _ |- _ => apply chills_len in X; cbn [snd] in X; lia end. Qed.
Lemma halved_len ms Ti Tf Ts ds h rest : halved ex g ms Ti Tf Ts ds h rest -> length rest <= length ds.
Proof. intros H. inversion H; subst; cbn [length]; rewrite ?app_length; try lia; match goal with X : anneals2 _ _ _ _ _ _ _ _ _ |- _ => apply anneals2_len in X; lia end. Qed.
Lemma divide_len Ti T s t : divide ex g K Ti T s t -> length (snd t) <= length (snd s).
Proof. intros H. inversion H; subst; cbn [snd length]; try lia; match goal with X : halved _ _ _ _ _ _ _ _ _ |- _ => apply halved_len in X; cbn [length] in X; lia end. Qed.
Lemma powers_len {X} (R : X * list Qc -> X * list Qc -> Prop) : (forall s t, R s t -> length (snd t) <= length (snd s)) -> forall n s t, power R n s t -> length (snd t) <= length (snd s).
Proof. intros H n s t HP. induction HP as [s|n s t u HP IH HR]; [lia|]. apply H in HR. lia. Qed.
Lemma turn_len Ti coll n1 n2 T s t : 0 < n1 -> turn ex g K Ti coll n1 n2 T s t -> length (snd t) < length (snd s).
Proof.
  intros Hn H. inversion H as [s1 s2 s3 H1 H2]; subst. apply (power_len _ (one_len T)) in H1. destruct coll; [|subst; lia].
  apply powers_len in H2; [lia|]. intros a b HB. inversion HB; subst. match goal with X : unite _ _ _ _ _ |- _ => apply unite_len in X end. match goal with X : divide _ _ _ _ _ _ _ |- _ => apply divide_len in X end. lia.
Qed.
End Length.

Section Exact.
Variables ex sq : Qc -> Qc.
#[local] Instance opsR : NumOps Qc := Qc_ops ex sq.
Notation q := Qc_of_nat.
Variable g0 : net Qc.
Hypothesis U0 : undirected g0.
Hypothesis ND : NoDup (map glabel g0).
Hypothesis Fit : forall n, In n g0 -> length (glabel n) < 100.
Let N := length g0.
Hypothesis HN : 0 < N.
Variable K : nat.
Hypothesis HK : 0 < K.
Definition total : nat := lsum (degree g0) (seq 0 N).
Notation L := (Z.of_nat total).

Lemma floor_sel n u : nfloor (nmul u (nofnat n)) = selects n u.
Proof. reflexivity. Qed.
Lemma total_Qc : q total = all_sum N (unit_weight g0).
Proof. unfold total, all_sum. rewrite Qc_lsum. apply Qsum_ext. intros i _. rewrite degree_Qc by apply U0. reflexivity. Qed.
Lemma value_quality c : pair_value N (unit_weight g0) (q total) c = quality g0 c.
Proof. rewrite total_Qc. reflexivity. Qed.
Lemma quality_same c c' : (forall i j, i < N -> j < N -> among c i j = among c' i j) -> quality g0 c = quality g0 c'.
Proof. intros H. unfold quality, pair_modularity. apply Qsum_ext. intros i Hi. apply Qsum_ext. intros j Hj. apply in_seq in Hi. apply in_seq in Hj. rewrite H by (unfold N; lia). reflexivity. Qed.

Definition nodes : list (option nat) := map Some (seq 0 N).
Record at_state (s : sa Qc) (c : cstate) : Prop := {
  as_shows : shows g0 K (snet s) (spart s) (fst c);
  as_gl : CommModel.sgl s = map Some (seq 0 K);
  as_E : sE s = quality g0 (fst c);
  as_ds : sds s = snd c;
  as_inner : Forall inner (snd c)
}.
Lemma node_at s c v : at_state s c -> v < N -> label_of_node s nodes v = Ok (v, colour (fst c) v).
Proof.
  intros I Hv. unfold label_of_node. rewrite (get_ok nodes v (Some v)) by (unfold nodes; rewrite nth_error_map, nth_error_seq by auto; reflexivity). cbn [bind deref].
  destruct (sw_node g0 K _ _ _ (as_shows _ _ I) v Hv) as (m & Em & Eg). rewrite (get_ok _ _ _ Em). cbn [bind]. rewrite Eg. reflexivity.
Qed.
Lemma group_at_ok s c k : at_state s c -> k < K -> group_at s k = Ok k.
Proof. intros I Hk. unfold group_at. rewrite (as_gl _ _ I). rewrite (get_ok _ k (Some k)) by (rewrite nth_error_map, nth_error_seq by auto; reflexivity). reflexivity. Qed.
Lemma colour_lt s c v : at_state s c -> v < N -> colour (fst c) v < K.
Proof. intros I. apply (ch_lt _ _ _ _ v (sw_col _ _ _ _ _ (as_shows _ _ I))). Qed.

(** * One node *)
Lemma redraw_inner o ds : Forall inner ds -> ends only_rng (redraw K o ds) (fun '(w, ds') => picks K o ds w ds' /\ w < K /\ w <> o /\ Forall inner ds').
Proof.
  induction ds as [|u ds IH]; intros HD; [reflexivity|]. inversion HD as [|? ? Hu HD']; subst. cbn [redraw]. rewrite floor_sel. destruct (Nat.eqb_spec (selects K u) o) as [E|E].
  - eapply ends_impl; [apply IH; auto|]. intros [w ds'] (H1 & H2 & H3 & H4). split; [|auto]. now apply picks_next.
  - cbn [ends]. split; [now apply picks_now|]. split; auto. now apply selects_lt.
Qed.
Lemma sa_move_ok T s x c : at_state s c -> ends only_rng (sa_move N K nodes L T s x) (fun s' => exists c', one ex g0 K T c c' /\ at_state s' c').
Proof.
  intros I. destruct c as [c ds]. unfold sa_move. pose proof (as_ds _ _ I) as Ed. pose proof (as_inner _ _ I) as HD. cbn [fst snd] in *. rewrite Ed. destruct ds as [|u ds]; [reflexivity|]. cbn [draw bind]. rewrite floor_sel.
  inversion HD as [|? ? Hu HD']; subst. set (v := selects N u). assert (Hv : v < N) by (now apply selects_lt). rewrite (node_at s _ v I Hv). cbn [bind fst].
  eapply ends_bind; [apply (redraw_inner (colour c v) ds HD')|]. intros [w ds1] (HPk & Hw & Hne & HD1).
  pose proof (colour_lt s _ v I Hv) as Hc. cbn [fst] in Hc. rewrite (group_at_ok s _ _ I Hc). cbn [bind]. rewrite (group_at_ok s _ _ I Hw). cbn [bind].
  pose proof (as_shows _ _ I) as SH. cbn [fst] in SH. destruct (sw_group g0 K _ _ _ SH (colour c v) Hc) as (Go & EGo & _). destruct (sw_group g0 K _ _ _ SH w Hw) as (Gw & EGw & _). rewrite (get_ok _ _ _ EGo), (get_ok _ _ _ EGw). cbn [bind].
  destruct (move_gain_ok ex sq g0 K _ _ c SH v w total Go Gw Hv Hw (fun X => Hne (eq_sym X)) EGo EGw) as (g1 & EM & I1). fold N in EM. rewrite !value_quality in EM.
  match goal with |- ends _ (bind ?m _) _ => replace m with (Ok ((quality g0 (upd c v w) - quality g0 c)%Qc, g1)) by (symmetry; exact EM) end.
  cbn [bind]. eapply ends_bind; [apply climbs_ok; exact HD1|]. intros [b ds'] [HC HD2]. destruct b.
  - destruct (move_ok ex sq g0 K g1 _ c I1 v w Hv Hw (fun X => Hne (eq_sym X))) as (r & g3 & P3 & EV & I3).
    match goal with |- ends _ (bind ?m _) _ => replace m with (Ok (r, (g3, P3))) by (symmetry; exact EV) end. cbn [bind ends fst snd]. exists (upd c v w, ds'). split.
    + apply (on ex g0 K T c u ds w ds1 true ds' HPk HC).
    + split; cbn [snet spart CommModel.sgl sE sds fst snd]; auto; [apply I|]. rewrite (as_E _ _ I). cbn [nadd opsR Qc_ops fst]. ring.
  - cbn [ends]. exists (c, ds'). split.
    + apply (on ex g0 K T c u ds w ds1 false ds' HPk HC).
    + split; cbn [snet spart CommModel.sgl sE sds fst snd]; auto; apply I.
Qed.

(** * Two groups united *)
Lemma full_group c (P : gpart Qc) k : cshows N K (abs P) c -> N <= length (nth_members (abs P) k) -> forall i, i < N -> colour c i = k.
Proof.
  intros C HL i Hi. apply (ch_in _ _ _ _ C i k). assert (HI : incl (seq 0 N) (nth_members (abs P) k)); [|apply HI, in_seq; lia].
  apply NoDup_length_incl; [apply C|now rewrite seq_length|]. intros j Hj. apply in_seq. apply (ch_in _ _ _ _ C j k) in Hj. lia.
Qed.
Lemma other_ok s c a : at_state s c -> forall ds, Forall inner ds -> ends only_rng (other_group N nodes s a ds) (fun '(b, ds') => meets g0 (fst c) a ds b ds' /\ b < K /\ b <> a /\ Forall inner ds').
Proof.
  intros I. induction ds as [|u ds IH]; intros HD; [reflexivity|]. cbn [other_group]. inversion HD as [|? ? Hu HD']; subst. rewrite floor_sel. set (v := selects N u). assert (Hv : v < N) by (now apply selects_lt).
  rewrite (node_at s c v I Hv). cbn [bind]. destruct (Nat.eqb_spec a (colour (fst c) v)) as [Ea|Na].
  - eapply ends_impl; [apply IH; auto|]. intros [b ds'] (H1 & H2 & H3 & H4). split; [|auto]. apply me_next; auto.
  - cbn [ends]. split; [apply me_now; auto|]. split; [eapply colour_lt; eauto|auto].
Qed.
Lemma sa_merge_ok T s c : at_state s c -> ends only_rng (sa_merge N nodes L T s) (fun s' => exists c', unite ex g0 T c c' /\ at_state s' c').
Proof.
  intros I. destruct c as [c ds]. unfold sa_merge. pose proof (as_ds _ _ I) as Ed. pose proof (as_inner _ _ I) as HD. cbn [fst snd] in *. rewrite Ed. destruct ds as [|u ds]; [reflexivity|]. cbn [draw bind]. rewrite floor_sel.
  inversion HD as [|? ? Hu HD']; subst. set (v := selects N u). assert (Hv : v < N) by (now apply selects_lt). rewrite (node_at s _ v I Hv). cbn [bind fst].
  pose proof (colour_lt s _ v I Hv) as Hc. cbn [fst] in Hc. rewrite (group_at_ok s _ _ I Hc). cbn [bind].
  pose proof (as_shows _ _ I) as SH. cbn [fst] in SH. destruct (sw_group g0 K _ _ _ SH (colour c v) Hc) as (Ga & EGa & _ & EM & (ES & _)). rewrite (get_ok _ _ _ EGa). cbn [bind]. rewrite ES, EM.
  destruct (Z.ltb_spec (Z.of_nat (length (nth_members (abs (spart s)) (colour c v)))) (Z.of_nat N)) as [HL|HL].
  - eapply ends_bind; [apply (other_ok s _ _ I ds HD')|]. intros [b ds1] (HM & Hb & Hne & HD1). cbn [fst] in HM. rewrite (group_at_ok s _ _ I Hb). cbn [bind].
    pose proof (merge_gain_ok ex sq g0 K _ _ c SH (colour c v) b total Hc Hb (fun X => Hne (eq_sym X))) as EG. fold N in EG. rewrite !value_quality in EG.
    match goal with |- ends _ (bind ?m _) _ => replace m with (Ok (quality g0 (repaint (colour c v) b c) - quality g0 c)%Qc) by (symmetry; exact EG) end.
    cbn [bind]. eapply ends_bind; [apply climbs_ok; exact HD1|]. intros [acc ds'] [HC HD2]. destruct acc.
    + destruct (merge_ok ex sq g0 K _ _ c SH (colour c v) b Hc Hb (fun X => Hne (eq_sym X))) as (g3 & P3 & EV & I3).
      match goal with |- ends _ (bind ?m _) _ => replace m with (Ok (g3, P3)) by (symmetry; exact EV) end. cbn [bind ends fst snd]. exists (repaint (colour c v) b c, ds'). split.
      * apply (un_two ex g0 T c u ds b ds1 true ds' HM HC).
      * split; cbn [snet spart CommModel.sgl sE sds fst snd]; auto; [apply I|]. rewrite (as_E _ _ I). cbn [nadd opsR Qc_ops fst]. ring.
    + cbn [ends]. exists (c, ds'). split.
      * apply (un_two ex g0 T c u ds b ds1 false ds' HM HC).
      * split; cbn [snet spart CommModel.sgl sE sds fst snd]; auto; apply I.
  - cbn [ends]. exists (c, ds). split.
    + apply un_all. apply (full_group c (spart s) (colour c v)); [apply SH|lia].
    + split; cbn [snet spart CommModel.sgl sE sds fst snd]; auto; apply I.
Qed.

(** * A group divided *)
Lemma NoDup_image {X Y} (f : X -> Y) l : NoDup l -> (forall x y, In x l -> In y l -> f x = f y -> x = y) -> NoDup (map f l).
Proof.
  induction 1 as [|x l Hx Hl IH]; intros Hf; [constructor|]. cbn [map]. constructor; [|apply IH; intros; apply Hf; simpl; auto].
  intros Hi. apply in_map_iff in Hi as (y & Ey & Hy). apply Hx. rewrite <- (Hf y x); simpl; auto.
Qed.
Definition recolour (e : nat) (vs c : list nat) : list nat := fold_left (fun c v => upd c v e) vs c.
Lemma recolour_len e vs : forall c, length (recolour e vs c) = length c.
Proof. induction vs as [|v vs IH]; intros c; auto. unfold recolour in *. cbn [fold_left]. rewrite IH. apply length_upd. Qed.
Lemma recolour_at e vs : forall c i, (forall v, In v vs -> v < length c) -> colour (recolour e vs c) i = if mem i vs then e else colour c i.
Proof.
  induction vs as [|v vs IH]; intros c i Hv; auto. unfold recolour in *. cbn [fold_left]. rewrite IH by (intros x Hx; rewrite length_upd; apply Hv; simpl; auto). rewrite colour_upd by (apply Hv; simpl; auto).
  unfold mem. cbn [existsb]. destruct (Nat.eqb_spec i v) as [->|]; cbn [orb]; auto. destruct (existsb _ _); auto.
Qed.
Lemma moves_ok a e : a < K -> e < K -> a <> e -> forall vs (ls : list (link Qc)) g P c, shows g0 K g P c -> map llabel ls = map (BipartSpec.label_of g0) vs -> NoDup vs ->
  (forall v, In v vs -> v < N /\ colour c v = a) -> exists g1 P1, foldM (move_cell a e) (g, P) ls = Ok (g1, P1) /\ shows g0 K g1 P1 (recolour e vs c).
Proof.
  intros Ha He Hne. induction vs as [|v vs IH]; intros ls g P c I EL NDv Hv.
  - destruct ls; [|discriminate]. exists g, P. split; auto.
  - destruct ls as [|l ls]; [discriminate|]. cbn [map] in EL. injection EL as El EL. inversion NDv as [|? ? Nv NDv']; subst. destruct (Hv v (or_introl eq_refl)) as [Lv Cv]. cbn [foldM]. unfold move_cell at 1. cbn [fst].
    destruct (nth_ex g v) as [n En]; [rewrite (sw_len g0 K g P c I); auto|].
    assert (Eg : llabel l = glabel n). { rewrite El. unfold BipartSpec.label_of. destruct (nth_error g0 v) as [n'|] eqn:E'; [|apply nth_error_None in E'; unfold N in Lv; lia]. destruct (F2_nth _ _ _ _ _ (sw_same _ _ _ _ _ I) E') as (m & Em & Hm). replace n with m by congruence. apply Hm. }
    assert (NDg : NoDup (map glabel g)) by (rewrite (sbg_labels g0 g (sw_same _ _ _ _ _ I)); exact ND).
    rewrite Eg, (GetNodeDict_found g v n NDg En). cbn [deref bind].
    destruct (move_ok ex sq g0 K g P c I v e Lv He) as (r & g1 & P1 & EM & I1); [congruence|]. rewrite Cv in EM. match goal with |- exists _ _, bind (bind ?m _) _ = _ /\ _ => replace m with (Ok (r, (g1, P1))) by (symmetry; exact EM) end. cbn [bind].
    destruct (IH ls g1 P1 (upd c v e) I1 EL NDv') as (g2 & P2 & E2 & I2).
    { intros x Hx. destruct (Hv x (or_intror Hx)) as [Lx Cx]. split; auto. rewrite colour_upd by (rewrite (ch_len _ _ _ _ (sw_col _ _ _ _ _ I)); exact Lv). destruct (Nat.eqb_spec x v); [congruence|auto]. }
    exists g2, P2. split; auto.
Qed.
Lemma empty_ok (P : gpart Qc) : forall pos, match find_empty pos P with Some k => exists j G, k = pos + j /\ nth_error P j = Some G /\ psize G = 0%Z /\ forall j' G', j' < j -> nth_error P j' = Some G' -> psize G' <> 0%Z
  | None => forall j G, nth_error P j = Some G -> psize G <> 0%Z end.
Proof.
  induction P as [|G P IH]; intros pos; cbn [find_empty]; [intros [|j] G E; discriminate|]. destruct (Z.eqb_spec (psize G) 0) as [E|E].
  - exists 0, G. split; [lia|]. split; auto. split; auto. intros; lia.
  - specialize (IH (pos + 1)). destruct (find_empty (pos + 1) P) as [k|].
    + destruct IH as (j & H & -> & E1 & E2 & E3). exists (S j), H. split; [lia|]. split; auto. split; auto. intros [|j'] G' Hj E'; [cbn in E'; congruence|]. apply (E3 j' G'); auto. lia.
    + intros [|j] H E'; [cbn in E'; congruence|]. apply (IH j H E').
Qed.
Lemma shown_in g P c k G : shows g0 K g P c -> nth_error P k = Some G -> (psize G <> 0%Z <-> In k c).
Proof.
  intros I E. assert (Hk : k < K) by (rewrite <- (sw_plen g0 K g P c I); eapply nth_lt; eauto). destruct (sw_group g0 K g P c I k Hk) as (G' & E' & _ & EM & (ES & _)). replace G' with G in * by congruence. rewrite ES, EM.
  pose proof (sw_col _ _ _ _ _ I) as C. split.
  - intros H. destruct (nth_members (abs P) k) as [|i S] eqn:EN; [simpl in H; congruence|]. assert (X : In i (nth_members (abs P) k)) by (rewrite EN; simpl; auto). apply (ch_in _ _ _ _ C) in X as [Li <-]. apply colour_In. rewrite (ch_len _ _ _ _ C). exact Li.
  - intros H. apply In_colour in H as (i & Li & Ei). rewrite (ch_len _ _ _ _ C) in Li. assert (X : In i (nth_members (abs P) k)) by (apply (ch_in _ _ _ _ C); auto). destruct (nth_members (abs P) k); [destruct X|simpl; lia].
Qed.
Lemma repaint_same a e c : length c = N -> ~ In e c -> quality g0 (repaint a e c) = quality g0 c.
Proof.
  intros HL He. apply quality_same. intros i j Hi Hj. unfold among. rewrite !colour_repaint by lia. pose proof (colour_In c i ltac:(lia)) as X. pose proof (colour_In c j ltac:(lia)) as Y.
  destruct (Nat.eqb_spec (colour c i) a), (Nat.eqb_spec (colour c j) a); try reflexivity.
  - transitivity true; [apply Nat.eqb_refl|]. symmetry. apply Nat.eqb_eq. congruence.
  - transitivity false; [|symmetry]; apply Nat.eqb_neq; congruence.
  - transitivity false; [|symmetry]; apply Nat.eqb_neq; congruence.
Qed.
Lemma sa_split_ok Ti T s c : at_state s c -> ends only_rng (sa_split N nodes L Ti T s) (fun s' => exists c', divide ex g0 K Ti T c c' /\ at_state s' c').
Proof.
  intros I. destruct c as [c ds]. unfold sa_split. pose proof (as_ds _ _ I) as Ed. pose proof (as_inner _ _ I) as HD. cbn [fst snd] in *. rewrite Ed. destruct ds as [|u ds]; [reflexivity|]. cbn [draw bind]. rewrite floor_sel.
  inversion HD as [|? ? Hu HD']; subst. set (v := selects N u). assert (Hv : v < N) by (now apply selects_lt). rewrite (node_at s _ v I Hv). cbn [bind fst]. pose proof (colour_lt s _ v I Hv) as Ha. cbn [fst] in Ha.
  pose proof (as_shows _ _ I) as SH. cbn [fst] in SH. pose proof (sw_col _ _ _ _ _ SH) as C. pose proof (ch_len _ _ _ _ C) as LC.
  pose proof (empty_ok (spart s) 0) as HE. unfold GetEmptyGroup. destruct (find_empty 0 (spart s)) as [k|].
  2: { cbn [ends]. exists (c, ds). split; [|split; cbn [snet spart CommModel.sgl sE sds fst snd]; auto; apply I]. apply di_full. intros k Hk.
       destruct (sw_group g0 K _ _ _ SH k Hk) as (G & EG & _). apply (shown_in _ _ _ k G SH EG). eapply HE; eauto. }
  destruct HE as (e & Ge & -> & EGe & ESe & Hfirst). cbn [Nat.add]. assert (He : e < K) by (rewrite <- (sw_plen g0 K _ _ _ SH); eapply nth_lt; eauto).
  assert (Ne : ~ In e c) by (rewrite <- (shown_in _ _ _ e Ge SH EGe); congruence).
  assert (Hbe : forall k, k < e -> In k c). { intros k Hk. destruct (sw_group g0 K _ _ _ SH k ltac:(lia)) as (G & EG & _). apply (shown_in _ _ _ k G SH EG). eapply Hfirst; eauto. }
  rewrite (get_ok _ _ _ EGe). cbn [bind]. rewrite (group_at_ok s _ _ I Ha). cbn [bind].
  destruct (sw_group g0 K _ _ _ SH e He) as (Ge' & EGe' & Le & _). replace Ge' with Ge in * by congruence. rewrite Le, (group_at_ok s _ _ I He). cbn [bind].
  set (a := colour c v) in *. assert (Hae : a <> e) by (intros X; apply Ne; rewrite <- X; apply colour_In; lia).
  destruct (sw_group g0 K _ _ _ SH a Ha) as (Ga & EGa & La & EMa & _). rewrite (get_ok _ _ _ EGa). cbn [bind]. set (ms := nth_members (abs (spart s)) a) in *.
  assert (NDm : NoDup ms) by apply C. assert (Hms : forall i, In i ms <-> i < N /\ colour c i = a) by (intros i; apply (ch_in _ _ _ _ C)).
  pose proof (sw_same _ _ _ _ _ SH) as SB. pose proof (sbg_labels g0 (snet s) SB) as ELab.
  assert (Lab : forall i, BipartSpec.label_of (snet s) i = BipartSpec.label_of g0 i).
  { intros i. unfold BipartSpec.label_of. apply (f_equal (fun l => nth_error l i)) in ELab. rewrite !nth_error_map in ELab. destruct (nth_error (snet s) i), (nth_error g0 i); cbn in ELab; try congruence. }
  assert (HF : Forall2 (cell_at (snet s)) (pnodes Ga) ms).
  { rewrite <- EMa. unfold members. assert (HC : forall l, In l (pnodes Ga) -> exists i n, lref l = Some i /\ nth_error (snet s) i = Some n /\ llabel l = glabel n).
    { intros l Hl. destruct (mp_cells _ _ (sw_map _ _ _ _ _ SH) Ga l (nth_error_In _ _ EGa) Hl) as (i & n & Q1 & Q2 & _ & Q4). eauto. }
    clear - HC. induction (pnodes Ga) as [|l ls IH]; [constructor|]. destruct (HC l (or_introl eq_refl)) as (i & n & Q1 & Q2 & Q3). unfold targets in *. cbn [flat_map]. rewrite Q1. cbn [app]. constructor; [|apply IH; intros; apply HC; simpl; auto].
    split; auto. split; [eapply nth_lt; eauto|]. unfold BipartSpec.label_of. now rewrite Q2. }
  assert (Lms : 0 < length ms) by (assert (X : In v ms) by (apply Hms; auto); destruct ms; [destruct X|simpl; lia]).
  assert (NDs : NoDup (map glabel (snet s))) by (rewrite ELab; exact ND).
  assert (Fits : forall n, In n (snet s) -> length (glabel n) < 100).
  { intros n Hn. apply (in_map glabel) in Hn. rewrite ELab in Hn. apply in_map_iff in Hn as (n' & <- & Hn'). now apply Fit. }
  assert (Rms : forall i, In i ms -> i < length (snet s)) by (intros i Hi; rewrite (sw_len g0 K _ _ _ SH); apply Hms; auto).
  eapply ends_bind; [apply (SAGroupSplit_ok ex sq (snet s) (sw_un _ _ _ _ _ SH) NDs Fits ms NDm Rms (pnodes Ga) Ti T (Q2Qc (95 # 100)) ds HF Lms HD')|].
  intros [split rest] (h & Hh & (H & R & zs & -> & EL & NDz & Hz) & HDr). cbn [bind].
  apply (halved_same ex g0) in Hh; [|intros; apply (sw_linked g0 K _ _ _ SH)|intros S; apply (sbg_links g0 (snet s) S SB)].
  set (vs := map (fun x => nth x ms 0) zs).
  assert (NDv : NoDup vs). { unfold vs. apply NoDup_image; auto. intros x y Hx Hy Exy. apply Hz in Hx as [Lx _]. apply Hz in Hy as [Ly _]. apply (proj1 (NoDup_nth ms 0) NDm); auto. }
  assert (Hvs : forall x, In x vs -> x < N /\ colour c x = a). { unfold vs. intros x Hx. apply in_map_iff in Hx as (y & <- & Hy). apply Hms. apply nth_In. now apply Hz. }
  assert (EL' : map llabel (pnodes H) = map (BipartSpec.label_of g0) vs) by (rewrite EL; unfold vs; rewrite map_map; apply map_ext; intros; apply Lab).
  destruct (moves_ok a e Ha He Hae vs (pnodes H) (snet s) (spart s) c SH EL' NDv Hvs) as (g1 & P1 & EF & I1).
  match goal with |- ends _ (bind ?m _) _ => replace m with (Ok (g1, P1)) by (symmetry; exact EF) end. cbn [bind fst snd].
  set (c1 := recolour e vs c) in *. assert (Lc1 : length c1 = N) by (unfold c1; rewrite recolour_len; exact LC).
  assert (Hc1 : forall i, colour c1 i = if mem i vs then e else colour c i) by (intros i; apply recolour_at; intros x Hx; rewrite LC; apply Hvs; auto).
  assert (DV : divided g0 c a e ms h c1).
  { split; [auto|exact Hms|rewrite Lc1, LC; reflexivity| |].
    - intros x Hx. rewrite Hc1. assert (EV : mem (nth x ms 0) vs = (colour h x =? 0)).
      { destruct (Nat.eqb_spec (colour h x) 0) as [E0|E0]; [apply mem_In; unfold vs; apply (in_map (fun x => nth x ms 0)); now apply Hz|]. destruct (mem_spec (nth x ms 0) vs) as [X|X]; auto. exfalso. unfold vs in X. apply in_map_iff in X as (y & Ey & Hy).
        apply Hz in Hy as [Ly Cy]. assert (x = y) by (apply (proj1 (NoDup_nth ms 0) NDm); auto). congruence. }
      rewrite EV. destruct (colour h x =? 0); auto. apply Hms. apply nth_In. auto.
    - intros i Hi Nc. rewrite Hc1. destruct (mem_spec i vs) as [X|X]; auto. apply Hvs in X. tauto. }
  assert (ER : repaint a e c1 = repaint a e c).
  { apply colour_ext; [unfold repaint; rewrite !map_length, Lc1, LC; reflexivity|]. intros i Hi. unfold repaint in Hi. rewrite map_length in Hi. rewrite !colour_repaint by lia. rewrite Hc1. destruct (mem_spec i vs) as [X|X]; auto.
    destruct (Hvs i X) as [_ ->]. rewrite Nat.eqb_refl. destruct (e =? a); auto. }
  pose proof (merge_gain_ok ex sq g0 K g1 P1 c1 I1 a e total Ha He Hae) as EG. fold N in EG. rewrite !value_quality, ER, repaint_same in EG by auto.
  match goal with |- ends _ (bind ?m _) _ => replace m with (Ok (quality g0 c - quality g0 c1)%Qc) by (symmetry; exact EG) end. cbn [bind]. cbn [nltb n0 opsR Qc_ops].
  destruct (Qc_ltb 0 (quality g0 c - quality g0 c1)%Qc) eqn:Ed1.
  - apply Qc_ltb_true in Ed1. assert (Hlt : (quality g0 c1 < quality g0 c)%Qc) by (apply Qclt_minus_iff; exact Ed1). destruct rest as [|u' rest]; [reflexivity|]. cbn [draw bind]. pose proof (Forall_inv_tail HDr) as HDr'.
    assert (EX : nexp (ndiv (nopp (quality g0 c - quality g0 c1)%Qc) T) = ex ((quality g0 c1 - quality g0 c) / T)%Qc) by (cbn [nexp ndiv nopp opsR Qc_ops]; f_equal; f_equal; ring).
    match goal with |- context [Qc_ltb ?m u'] => replace m with (ex ((quality g0 c1 - quality g0 c) / T)%Qc) by (symmetry; exact EX) end. destruct (Qc_ltb (ex ((quality g0 c1 - quality g0 c) / T)%Qc) u') eqn:Eb.
    + apply Qc_ltb_true in Eb. destruct (merge_ok ex sq g0 K g1 P1 c1 I1 a e Ha He Hae) as (g3 & P3 & EV & I3). rewrite ER in I3.
      match goal with |- ends _ (bind ?m _) _ => replace m with (Ok (g3, P3)) by (symmetry; exact EV) end. cbn [bind ends fst snd]. exists (repaint a e c, rest). split.
      * apply (di_back ex g0 K Ti T c u ds e ms h c1 u' rest); auto.
      * split; cbn [snet spart CommModel.sgl sE sds fst snd]; auto; [apply I|]. rewrite (as_E _ _ I). cbn [fst]. now rewrite repaint_same.
    + apply Qc_ltb_false in Eb. cbn [ends]. exists (c1, rest). split.
      * apply (di_worse ex g0 K Ti T c u ds e ms h c1 u' rest); auto.
      * split; cbn [snet spart CommModel.sgl sE sds fst snd]; auto; [apply I|]. rewrite (as_E _ _ I). cbn [fst nsub opsR Qc_ops]. ring.
  - apply Qc_ltb_false in Ed1. cbn [bind ends]. exists (c1, rest). split.
    + apply (di_better ex g0 K Ti T c u ds e ms h c1 rest); auto. apply Qcle_minus_iff. apply Qcle_minus_iff in Ed1. replace (quality g0 c1 + - quality g0 c)%Qc with (0 + - (quality g0 c - quality g0 c1))%Qc by ring. exact Ed1.
    + split; cbn [snet spart CommModel.sgl sE sds fst snd]; auto; [apply I|]. rewrite (as_E _ _ I). cbn [fst nsub opsR Qc_ops]. ring.
Qed.

(** * A temperature *)
Lemma sa_round_ok Ti T coll n1 n2 s c : at_state s c -> ends only_rng (sa_round N K nodes L Ti T coll n1 n2 s) (fun s' => exists c', turn ex g0 K Ti coll n1 n2 T c c' /\ at_state s' c').
Proof.
  intros I. unfold sa_round. eapply ends_bind; [apply (sim_foldM only_rng at_state (one ex g0 K T)) with (c := c); [intros; now apply sa_move_ok|exact I]|].
  intros s1 (c1 & HP & I1). rewrite seq_length in HP. destruct coll.
  - eapply ends_impl; [apply (sim_foldM only_rng at_state (both ex g0 K Ti T)) with (c := c1); [|exact I1]|].
    + intros s2 x c2 I2. eapply ends_bind; [apply (sa_merge_ok T s2 c2 I2)|]. intros s3 (c3 & H3 & I3). eapply ends_impl; [apply (sa_split_ok Ti T s3 c3 I3)|]. intros s4 (c4 & H4 & I4). exists c4. split; auto. econstructor; eauto.
    + intros s2 (c2 & HP2 & I2). rewrite seq_length in HP2. exists c2. split; auto. econstructor; eauto.
  - cbn [ends]. exists c1. split; auto. econstructor; eauto.
Qed.
End Exact.
