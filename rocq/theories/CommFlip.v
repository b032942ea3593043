(** CommFlip.v -- SAGroupSplit of src/modules.c: nodes put in two groups and moved between them. *)
From Coq Require Import List Arith ZArith Bool QArith Qcanon Lia.
From Verif Require Import Base Num ListLib NatSum QcSum IoModel GraphModel GraphSpec GraphProof GroupModel GroupSpec PairSum GroupProof GroupExact ModulesModel ModulesSpec ModulesMod ModulesMap
  SAProof Refute MissModel MissSpec MissSets MissStep MissRun RecSpec CommModel CommSpec CommSums CommStep.
Import ListNotations.
Local Open Scope nat_scope.

Definition only_rng (e : err) : Prop := e = RngOut.

(** * Runs as powers of a relation *)
Lemma sim_foldM {S X C} (E : err -> Prop) (I : S -> C -> Prop) (R : C -> C -> Prop) (f : S -> X -> res S) :
  (forall s x c, I s c -> ends E (f s x) (fun s' => exists c', R c c' /\ I s' c')) ->
  forall l s c, I s c -> ends E (foldM f s l) (fun s' => exists c', power R (length l) c c' /\ I s' c').
Proof.
  intros H. induction l as [|x l IH] using rev_ind; intros s c Hs.
  - exists c. split; auto. constructor.
  - rewrite foldM_app. eapply ends_bind; [apply (IH s c Hs)|]. intros s' (c' & Hp & Hs'). cbn [foldM].
    eapply ends_bind; [apply (H s' x c' Hs')|]. intros s'' (c'' & HR & Hs''). cbn [ends]. exists c''. split; auto.
    rewrite app_length. cbn [length]. rewrite Nat.add_1_r. econstructor; eauto.
Qed.
Lemma sim_seq {S C} (E : err -> Prop) (I : nat -> S -> C -> Prop) (f : S -> nat -> res S) n :
  (forall i s c, i < n -> I i s c -> ends E (f s i) (fun s' => exists c', I (i + 1) s' c')) -> forall s c, I 0 s c -> ends E (foldM f s (seq 0 n)) (fun s' => exists c', I n s' c').
Proof.
  intros H s c H0. assert (X : forall m, m <= n -> ends E (foldM f s (seq 0 m)) (fun s' => exists c', I m s' c')).
  { induction m as [|m IH]; intros Hm; [exists c; auto|]. rewrite seq_S, foldM_app. eapply ends_bind; [apply IH; lia|]. intros s' (c' & Hs'). cbn [foldM]. cbn [Nat.add].
    eapply ends_bind; [apply (H m s' c'); auto|]. intros s'' (c'' & Hs''). exists c''. now rewrite <- Nat.add_1_r. }
  now apply X.
Qed.
Lemma power_len {X} (R : X * list Qc -> X * list Qc -> Prop) : (forall s t, R s t -> length (snd t) < length (snd s)) -> forall n s t, power R n s t -> length (snd t) + n <= length (snd s).
Proof. intros H n s t HP. induction HP as [s|n s t u HP IH HR]; [lia|]. apply H in HR. lia. Qed.

(** * Colourings that grow *)
Lemma ch_add N K M c k : cshows N K M c -> k < K -> cshows (N + 1) K (grop_do M (GAdd k N)) (c ++ [k]).
Proof.
  intros H Hk. pose proof (ch_size _ _ _ _ H) as HM. cbn [grop_do].
  assert (E : forall j, nth_members (set_members M k (nth_members M k ++ [N])) j = if j =? k then nth_members M k ++ [N] else nth_members M j)
    by (intros j; apply nth_set_members; rewrite HM; auto).
  assert (Hn : forall j, ~ In N (nth_members M j)) by (intros j X; apply (ch_in _ _ _ _ H) in X; lia).
  assert (EC : forall i, colour (c ++ [k]) i = if i =? N then k else colour c i).
  { intros i. unfold colour. rewrite <- (ch_len _ _ _ _ H). destruct (Nat.lt_trichotomy i (length c)) as [L|[->|L]].
    - rewrite app_nth1 by auto. destruct (Nat.eqb_spec i (length c)); auto; lia.
    - rewrite app_nth2, Nat.sub_diag, Nat.eqb_refl by lia. reflexivity.
    - rewrite !nth_overflow by (rewrite ?app_length; simpl; lia). destruct (Nat.eqb_spec i (length c)); auto; lia. }
  split.
  - rewrite labels_set_members. apply H.
  - intros j. rewrite E. destruct (Nat.eqb_spec j k) as [->|]; [|apply H]. apply NoDup_app_iff. splits; [apply H|repeat constructor; auto|intros x Hx [<-|[]]; eapply Hn; eauto].
  - rewrite app_length, (ch_len _ _ _ _ H). reflexivity.
  - intros i j. rewrite E, EC. destruct (Nat.eqb_spec j k) as [->|Nj].
    + rewrite in_app_iff, (ch_in _ _ _ _ H). simpl. destruct (Nat.eqb_spec i N) as [->|]; [split; [intros _; split; auto; lia|auto]|]. split; [intros [X|[X|[]]]; [split; [lia|tauto]|congruence]|intros [X Y]; left; split; auto; lia].
    + rewrite (ch_in _ _ _ _ H). destruct (Nat.eqb_spec i N) as [->|]; split; intros [X Y]; try lia; split; auto; lia.
Qed.
Lemma ch_new N K M c : cshows N K M c -> cshows N (K + 1) (grop_do M (GNew K)) c.
Proof.
  intros H. pose proof (ch_size _ _ _ _ H) as HM. cbn [grop_do].
  assert (E : forall j, nth_members (M ++ [(K, [])]) j = nth_members M j).
  { intros j. unfold nth_members. destruct (Nat.lt_ge_cases j (length M)) as [L|L]; [now rewrite nth_error_app1|]. rewrite nth_error_app2 by auto. rewrite (proj2 (nth_error_None M j) L).
    destruct (j - length M) as [|x]; [reflexivity|]. cbn [nth_error]. destruct x; reflexivity. }
  split.
  - rewrite map_app, (ch_labels _ _ _ _ H). cbn [map fst]. now rewrite Nat.add_1_r, seq_S.
  - intros k. rewrite E. apply H.
  - apply H.
  - intros i k. rewrite E. apply H.
Qed.
Lemma ch_nil K M : map fst M = seq 0 K -> (forall k, nth_members M k = []) -> cshows 0 K M [].
Proof. intros HL H. split; auto; intros; rewrite ?H; [constructor|]. split; [intros []|lia]. Qed.

Section Exact.
Variables ex sq : Qc -> Qc.
#[local] Instance opsF : NumOps Qc := Qc_ops ex sq.
Notation q := Qc_of_nat.

Lemma inner_good u : inner u -> good_draw u.
Proof. intros [H1 H2]. apply good_draw_Qc; auto. now apply Qclt_le_weak. Qed.
Lemma selects_lt n u : inner u -> 0 < n -> selects n u < n.
Proof. intros H Hn. apply (inner_good u H n Hn). Qed.
Lemma floor_selects n u : nfloor (nmul u (nofnat n)) = selects n u.
Proof. reflexivity. Qed.
Lemma climbs_ok d T ds : Forall inner ds -> ends only_rng (climbs d T ds) (fun '(b, ds') => climb ex T d ds b ds' /\ Forall inner ds').
Proof.
  intros HD. unfold climbs. cbn [nleb n0 nltb nexp ndiv opsF Qc_ops]. destruct (Qc_leb 0 d) eqn:E.
  - apply Qc_leb_true in E. cbn [ends]. split; auto. now constructor.
  - apply Qc_leb_false in E. destruct ds as [|u ds]; [reflexivity|]. cbn [draw bind ends]. inversion HD; subst. split; auto. destruct (Qc_ltb u (ex (d / T))) eqn:E2.
    + apply Qc_ltb_true in E2. now constructor.
    + apply Qc_ltb_false in E2. now constructor.
Qed.
Lemma climb_len T d ds b ds' : climb ex T d ds b ds' -> length ds' <= length ds.
Proof. intros H. inversion H; subst; simpl; lia. Qed.

(** * Two groups *)
Section Two.
Variable g : net Qc.
Variable ms : list nat.
Variable g2 : net Qc.
Hypothesis U2 : undirected g2.
Hypothesis None2 : forall n, In n g2 -> ggroup n = None.
Let n := length ms.
Hypothesis Len : length g2 = n.
Hypothesis Hlink : forall x y, x < n -> y < n -> linked g2 x y = linked g (nth x ms 0) (nth y ms 0).
Hypothesis Hdeg : lsum (degree g2) (seq 0 n) = 2 * links_in g ms.
Notation L := (links_in g ms).

Lemma two_value h : pair_value n (unit_weight g2) (q L) h = half_value g ms h.
Proof.
  assert (E : forall x y, x < n -> y < n -> unit_weight g2 x y = half_weight g ms x y) by (intros; unfold half_weight, unit_weight; now rewrite Hlink).
  assert (EN : forall x, x < n -> node_sum n (unit_weight g2) x = node_sum n (half_weight g ms) x) by (intros x Hx; apply Qsum_ext; intros y Hy; apply in_seq in Hy; apply E; auto; lia).
  unfold half_value, pair_value. fold n. apply Qsum_ext. intros i Hi. apply Qsum_ext. intros j Hj. apply in_seq in Hi. apply in_seq in Hj. rewrite E, !EN by lia. reflexivity.
Qed.
Definition shows2 := shows g2 2.
Definition at2 (s : net Qc * gpart Qc * list Qc) (c : list nat * list Qc) : Prop := let '(g', P, ds) := s in shows2 g' P (fst c) /\ snd c = ds /\ Forall inner ds.
Lemma flip_ok T s i c : 0 < n -> at2 s c -> ends only_rng (split_move n T (Z.of_nat L) s i) (fun s' => exists c', flip_one ex g ms T c c' /\ at2 s' c').
Proof.
  intros Hn. destruct s as [[g' P] ds], c as [h ds0]. intros (I & E & HD). cbn [fst snd] in *. subst ds0. unfold split_move.
  destruct ds as [|u ds]; [reflexivity|]. cbn [draw bind]. rewrite floor_selects. inversion HD as [|? ? Hu HD']; subst. set (v := selects n u). assert (Hv : v < length g2) by (rewrite Len; now apply selects_lt).
  destruct (sw_node g2 2 g' P h I v Hv) as (m & Em & Eg). rewrite (get_ok _ _ _ Em). cbn [bind]. rewrite Eg. cbn [bind]. pose proof (ch_lt _ _ _ _ v (sw_col _ _ _ _ _ I) Hv) as Hc.
  set (w := if colour h v =? 0 then 1 else 0). assert (Hw : w < 2 /\ colour h v <> w /\ w = 1 - colour h v) by (unfold w; destruct (Nat.eqb_spec (colour h v) 0); lia). destruct Hw as (Hw & Hne & Ew).
  destruct (sw_group g2 2 g' P h I (colour h v) Hc) as (Go & EGo & _). destruct (sw_group g2 2 g' P h I w Hw) as (Gw & EGw & _). rewrite (get_ok _ _ _ EGo), (get_ok _ _ _ EGw). cbn [bind].
  destruct (move_gain_ok ex sq g2 2 g' P h I v w L Go Gw Hv Hw Hne EGo EGw) as (g1 & EM & I1). fold opsF in EM.
  match goal with |- ends _ (bind ?m _) _ => replace m with (Ok ((pair_value (length g2) (unit_weight g2) (q L) (upd h v w) - pair_value (length g2) (unit_weight g2) (q L) h)%Qc, g1)) by (symmetry; exact EM) end.
  cbn [bind]. rewrite Len, !two_value, Ew. eapply ends_bind; [apply climbs_ok; exact HD'|]. intros [b ds'] [HC HD2]. destruct b.
  - destruct (move_ok ex sq g2 2 g1 P h I1 v w Hv Hw Hne) as (r & g3 & P3 & EV & I3). rewrite <- Ew. fold opsF in EV.
    match goal with |- ends _ (bind ?m _) _ => replace m with (Ok (r, (g3, P3))) by (symmetry; exact EV) end. cbn [bind ends]. exists (upd h v w, ds'). split; [|unfold at2; cbn [fst snd]; auto].
    rewrite Ew. apply (fl ex g ms T h u ds true ds' HC).
  - cbn [ends]. exists (h, ds'). split; [|unfold at2; cbn [fst snd]; auto]. apply (fl ex g ms T h u ds false ds' HC).
Qed.
Lemma flip_len T s t : flip_one ex g ms T s t -> length (snd t) < length (snd s).
Proof. intros H. inversion H; subst. match goal with K : climb _ _ _ _ _ _ |- _ => apply climb_len in K end. simpl. lia. Qed.
Lemma cool_ok Tf Ts : 0 < n -> forall fuel T s c, at2 s c -> length (snd c) < fuel ->
  ends only_rng (split_cool fuel n Tf Ts T (Z.of_nat L) s) (fun s' => exists c', chills ex g ms Tf Ts T c c' /\ at2 s' c').
Proof.
  intros Hn. induction fuel as [|f IH]; intros T s c Hs Hf; [lia|]. cbn [split_cool]. cbn [nltb opsF Qc_ops]. destruct (Qc_ltb Tf T) eqn:E.
  - apply Qc_ltb_true in E. eapply ends_bind.
    + apply (sim_foldM only_rng at2 (flip_one ex g ms T)); [|exact Hs]. intros; now apply flip_ok.
    + intros s' (c' & HP & Hs'). rewrite seq_length in HP. pose proof (power_len _ (flip_len T) _ _ _ HP) as HL.
      eapply ends_impl; [apply (IH (nmul T Ts) s' c' Hs'); lia|]. intros s'' (c'' & HC & Hs''). exists c''. split; auto. eapply cs_go; eauto.
  - apply Qc_ltb_false in E. cbn [ends]. exists c. split; auto. now constructor.
Qed.
(** The start. *)
Definition put2 (ds : list Qc) (i : nat) (s : net Qc * gpart Qc * nat * list Qc) (us : list Qc) : Prop :=
  let '(g', P, total, ds') := s in ds = us ++ ds' /\ length us = i /\ undirected g' /\ same_but_group g2 g' /\ mapped g' P /\ cshows i 2 (abs P) (map (selects 2) us) /\
    total = lsum (degree g2) (seq 0 i) /\ Forall inner ds'.
Lemma place_ok ds i s us : i < n -> put2 ds i s us -> ends only_rng (place_half s i) (fun s' => exists us', put2 ds (i + 1) s' us').
Proof.
  intros Hi. destruct s as [[[g' P] total] ds']. intros (E & Eu & U & S & M & C & Et & HD). unfold place_half. pose proof (sbg_length _ _ S) as Lg.
  destruct (NodeDegree_cache g' i U) as (g1 & -> & S1 & U1 & _); [lia|]. cbn [bind]. destruct ds' as [|u ds']; [reflexivity|]. cbn [draw bind]. rewrite floor_selects. inversion HD as [|? ? Hu HD']; subst.
  assert (Hk : selects 2 u < 2) by (apply selects_lt; auto).
  destruct (groups_run g1 P [GAdd (selects 2 u) (length us)] U1 (mapped_cache g' g1 P U1 S1 M)) as (g3 & P3 & E3 & U3 & M3 & S3 & EA).
  { cbn. unfold abs. rewrite map_length. pose proof (ch_size _ _ _ _ C) as HP. unfold abs in HP. rewrite map_length in HP. split; [|exact Logic.I]. split; [lia|]. split; [rewrite (sbg_length _ _ (sc_sbg _ _ S1)); lia|].
    intros m X. apply (ch_in _ _ _ _ C) in X. lia. }
  cbn [foldM run_grop] in E3. match type of E3 with bind ?m _ = _ => destruct m as [st|] eqn:EX; [|discriminate E3] end. cbn [bind] in E3. injection E3 as ->.
  cbn [bind ends]. exists (us ++ [u]). unfold put2.
  split; [now rewrite <- app_assoc|]. split; [now rewrite app_length|]. split; auto. split; [eapply sbg_trans; [exact S|]; eapply sbg_trans; [apply sc_sbg; exact S1|exact S3]|]. split; auto.
  split; [rewrite EA, map_app; cbn [fold_left map]; apply ch_add; auto|]. split; auto. rewrite Nat.add_1_r, seq_S, lsum_app. cbn [lsum Nat.add].
  replace (degree g' (length us)) with (degree g2 (length us)) by (unfold degree; now rewrite (sbg_nbrs g2 g' _ S)). lia.
Qed.
Definition start2 : gpart Qc := snd (CreateGroup (snd (CreateGroup [] 0)) 1).
Lemma annealed_ok Ti Tf Ts ds : 0 < n -> Forall inner ds ->
  ends only_rng (do (c, split, total, ds) <- foldM place_half (g2, start2, 0, ds) (seq 0 (length g2));
                 let L := Nat.div total 2 in
                 if 0 <? L then do (_, split, ds) <- split_cool (length ds + 1) (length c) Tf Ts Ti (Z.of_nat L) (c, split, ds); Ok (split, ds) else Ok (split, ds))
    (fun '(split, rest) => exists h g', anneals2 ex g ms Ti Tf Ts ds h rest /\ shows2 g' split h /\ Forall inner rest).
Proof.
  intros Hn HD. rewrite Len. eapply ends_bind.
  - apply (sim_seq only_rng (put2 ds) place_half n (place_ok ds)) with (c := []). unfold put2, start2. cbn [CreateGroup snd app]. split; auto. split; auto. split; auto. split; [apply sbg_refl|].
    assert (Mp : mapped g2 ([] : gpart Qc)). { split; try (intros; contradiction); [constructor|]. intros i m E. rewrite (None2 m); [reflexivity|eapply nth_error_In; eauto]. }
    destruct (groups_run g2 [] [GNew 0; GNew 1] U2 Mp) as (g3 & P3 & E3 & _ & M3 & _ & EA); [cbn; intuition discriminate|]. cbn in E3. injection E3 as <- <-. split; [exact M3|]. split; [|auto].
    apply ch_nil; [reflexivity|]. intros [|[|[|k]]]; reflexivity.
  - intros [[[g' P] total] ds'] (us & E & Eu & U & S & M & C & Et & HD'). rewrite Hdeg in Et.
    assert (ET : Nat.div total 2 = L) by (rewrite Et, Nat.mul_comm; apply Nat.div_mul; lia). cbv zeta. rewrite ET. rewrite (sbg_length _ _ S), Len.
    assert (I : shows2 g' P (map (selects 2) us)) by (split; auto; now rewrite Len). subst ds. destruct (Nat.ltb_spec 0 L) as [HL|HL].
    + eapply ends_bind; [apply (cool_ok Tf Ts Hn (length ds' + 1) Ti (g', P, ds') (map (selects 2) us, ds')); [unfold at2; cbn [fst snd]; auto|cbn [snd]; lia]|].
      intros [[g3 P3] ds3] ([h ds4] & HC & I3 & Ed & HD3). cbn [fst snd] in *. subst ds4. cbn [ends]. exists h, g3. splits; auto. apply a2_links; auto.
    + cbn [ends]. exists (map (selects 2) us), g'. splits; auto. apply a2_none; auto. lia.
Qed.
End Two.
End Exact.
