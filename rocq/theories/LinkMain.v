(** LinkMain.v -- RemoveRandomLinks and AddRandomLinks as a whole. *)
From Coq Require Import List Arith Lia Bool Permutation.
From Verif Require Import Base Num ListLib NatSum IoModel GraphModel GraphSpec GraphProof GraphRand FillProof SearchProof NetNeig LinkModel LinkSpec LinkProof.
Import ListNotations.
Local Open Scope nat_scope.

Section Link.
Context {A : Type} {ops : NumOps A}.
Implicit Types g : net A.

Lemma without_nil sym g : mode sym g -> without sym g [] g.
Proof.
  intros M. constructor; auto; [apply same_nodes_refl| | |cbn; lia].
  - intros a. symmetry. apply filter_all. intros x _. unfold gone. cbn. now rewrite andb_false_r.
  - intros a b. unfold gone. cbn. now rewrite andb_false_r.
Qed.
Lemma upto_le sym g p q : p <= q -> length (upto sym g p) <= length (upto sym g q).
Proof. intros H. replace q with (p + (q - p)) by lia. unfold upto. rewrite seq_app, flat_map_app, app_length. lia. Qed.
Lemma remove_all sym tl g : mode sym g -> length (links_of sym g) = length tl ->
  exists g', foldM (fun '(cnt, g) p => do n <- get g p; remove_marked (length (gadj n)) tl sym p 0 cnt g) (0, g) (seq 0 (length g)) = Ok (length tl, g') /\
    without sym g (picked tl 0 (links_of sym g)) g'.
Proof.
  intros M LT.
  destruct (foldM_seq (fun p '(cnt, g1) => cnt = length (upto sym g p) /\ without sym g (picked tl 0 (upto sym g p)) g1 /\
      forall a b, In (a, b) (picked tl 0 (upto sym g p)) -> (sym = true -> a < b) /\ a < p)
    (fun '(cnt, g) p => do n <- get g p; remove_marked (length (gadj n)) tl sym p 0 cnt g) (length g) (0, g)) as ([cnt g'] & E & EC & HW & _).
  - split; auto. split; [cbn; now apply without_nil|]. intros a b [].
  - intros p [cnt g1] Lp (-> & HW & HD). pose proof (wo_nodes _ _ _ _ HW) as S1. pose proof (same_nodes_length _ _ S1) as L1. destruct (nth_ex g1 p) as [n En]; [lia|]. rewrite (get_ok _ _ _ En). cbn [bind].
    assert (Wf1 : wf_net g1) by (eapply mode_wf; eapply wo_mode; eauto).
    destruct (remove_marked_ok sym tl g p M Lp (nbrs g p) [] (picked tl 0 (upto sym g p)) g1 (length (upto sym g p)) (length (gadj n))) as (g2 & E2 & W2 & H2); auto.
    + rewrite <- (wo_nbrs _ _ _ _ HW). change (length (nbrs g1 p)) with (degree g1 p). now rewrite (degree_adj g1 p n Wf1 En).
    + rewrite <- LT, links_upto, <- app_length, <- upto_S. apply upto_le. lia.
    + intros a b H. apply HD in H as [H1 H3]. auto.
    + cbn [filter length] in E2. rewrite E2. eexists. split; [reflexivity|]. rewrite upto_S, app_length, picked_app, Nat.add_0_l. split; auto. split; auto. intros a b H. apply H2 in H as [H3 H4]. split; auto. lia.
  - exists g'. split; [|exact HW]. rewrite <- LT, links_upto, <- EC. exact E.
Qed.

Lemma NoDup_picked {X} tl (l : list X) : forall c, NoDup l -> NoDup (picked tl c l).
Proof.
  induction l as [|x l IH]; intros c H; cbn [picked]; [constructor|]. inversion H; subst. destruct (nth c tl false); cbn [app]; auto. constructor; auto. intros Q. apply picked_In in Q as (k & E & _). apply nth_error_In in E. contradiction.
Qed.
Theorem remove_random_links (sym : bool) g nLinks ds : (if sym then undirected g else wf_net g) -> Forall (fun d => d < length (links_of sym g)) ds ->
  match RemoveRandomLinks g nLinks sym ds with
  | Ok (g', ds') => exists used R, ds = used ++ ds' /\ distinct used = nLinks /\ needed used /\ drawn sym g used R /\ length R = nLinks /\
      (if sym then undirected g' else wf_net g') /\ same_nodes g g' /\
      (forall a b, among sym R a b -> weight g' a b = None) /\ (forall a b, ~ among sym R a b -> weight g' a b = weight g a b) /\
      length (links_of sym g') + nLinks = length (links_of sym g)
  | Err e => e = RngOut /\ distinct ds < nLinks
  end.
Proof.
  intros M F. change (mode sym g) in M. pose proof (mode_wf _ _ M) as W. unfold RemoveRandomLinks. destruct (TotalNLinks_spec g sym W) as (g1 & E1 & SL). rewrite E1. cbn [bind].
  assert (ET : (if sym then Nat.div (sum_deg g) 2 else sum_deg g) = length (links_of sym g)).
  { pose proof (length_links sym g M) as X. destruct sym; rewrite X; [|lia]. rewrite Nat.mul_comm. now apply Nat.div_mul. }
  rewrite ET. pose proof (mark_all (length (links_of sym g)) nLinks ds F) as MA.
  destruct (foldM _ (repeat false _, ds) _) as [[tl ds']|e]; cbn [bind]; [|exact MA]. destruct MA as (used & -> & LT & HI & HC & HN).
  pose proof SL as (W1 & S1 & N1 & Wt1). assert (M1 : mode sym g1) by (destruct sym; cbn in *; auto; eapply same_links_undirected; eauto).
  assert (EL : links_of sym g1 = links_of sym g). { unfold links_of. rewrite <- (same_nodes_length _ _ S1). apply flat_map_ext. intros i. now rewrite N1. }
  destruct (remove_all sym tl g1 M1) as (g2 & E2 & HW); [congruence|]. rewrite E2. cbn [bind]. rewrite EL in HW. set (R := picked tl 0 (links_of sym g)) in *.
  assert (LR : length R = nLinks). { unfold R. rewrite picked_length. rewrite <- HC, <- (marks_distinct tl used HI). unfold marks. now rewrite LT. }
  exists used, R. cj; auto.
  - split; [apply NoDup_picked, NoDup_links, W|]. intros e0. unfold R. rewrite picked_In. split; intros (k & H1 & H2); exists k; [|split; auto; now apply HI]. split; auto. now apply HI.
  - exact (wo_mode _ _ _ _ HW).
  - eapply same_nodes_trans; [exact S1|]. exact (wo_nodes _ _ _ _ HW).
  - intros a b H. rewrite (wo_weight _ _ _ _ HW). apply gone_among in H. now rewrite H.
  - intros a b H. rewrite (wo_weight _ _ _ _ HW). rewrite <- gone_among in H. apply not_true_is_false in H. rewrite H. apply Wt1.
  - pose proof (wo_count _ _ _ _ HW) as X. rewrite (length_links sym g2 (wo_mode _ _ _ _ HW)), (length_links sym g1 M1), EL, LR in X. destruct sym; lia.
Qed.
(** More links than there are: no sequence of draws is long enough. *)
Theorem remove_too_many (sym : bool) g nLinks ds : (if sym then undirected g else wf_net g) -> Forall (fun d => d < length (links_of sym g)) ds -> length (links_of sym g) < nLinks -> RemoveRandomLinks g nLinks sym ds = Err RngOut.
Proof.
  intros M F L. pose proof (remove_random_links sym g nLinks ds M F) as H. destruct (RemoveRandomLinks g nLinks sym ds) as [[g' ds']|e].
  - destruct H as (used & R & _ & _ & _ & _ & _ & _ & _ & _ & _ & H). lia.
  - destruct H as [-> _]. auto.
Qed.

Theorem links_list (sym : bool) g : (if sym then undirected g else wf_net g) ->
  NoDup (links_of sym g) /\ (forall a b, In (a, b) (links_of sym g) <-> In b (nbrs g a) /\ (sym = true -> a <= b)) /\
  sum_deg g = (if sym then 2 else 1) * length (links_of sym g).
Proof. intros M. change (mode sym g) in M. pose proof (mode_wf _ _ M) as W. split; [now apply NoDup_links|]. split; [intros a b; now apply In_links|now apply length_links]. Qed.

(** ** AddRandomLinks *)
Lemma accepted_ext ps : forall (L L' : nat -> nat -> Prop) R, (forall a b, L a b <-> L' a b) -> accepted L ps R -> accepted L' ps R.
Proof.
  induction ps as [|[a b] ps IH]; intros L L' R H; cbn [accepted]; auto. intros [[H1 H2]|(H1 & H2 & R' & -> & H3)].
  - left. split; [rewrite <- H; auto|]. eapply IH; eauto.
  - right. split; auto. split; [now rewrite <- H|]. exists R'. split; auto. eapply IH; [|eauto]. intros x y. cbn. now rewrite H.
Qed.
Lemma accepted_app ps : forall ps' (L : nat -> nat -> Prop) R R', accepted L ps R -> accepted (fun x y => L x y \/ among true R x y) ps' R' -> accepted L (ps ++ ps') (R ++ R').
Proof.
  induction ps as [|[a b] ps IH]; intros ps' L R R'; cbn [accepted app].
  - intros -> H. cbn. eapply accepted_ext; [|exact H]. intros x y. unfold among. cbn. tauto.
  - intros [[H1 H2]|(H1 & H2 & R1 & -> & H3)] H.
    + left. split; auto.
    + right. split; auto. split; auto. exists (R1 ++ R'). split; auto. apply IH; auto. eapply accepted_ext; [|exact H]. intros x y. unfold among. cbn. split.
      * intros [Q|[[Q|Q]|(_ & [Q|Q])]]; auto; try (injection Q as <- <-); intuition auto.
      * intros [[Q|[[-> ->]|[-> ->]]]|[Q|[_ Q]]]; intuition auto.
Qed.
Lemma accepted_new ps : forall (L : nat -> nat -> Prop) R, accepted L ps R -> (forall a b, L a b -> L b a) ->
  NoDup R /\ (forall a b, In (a, b) R -> a <> b /\ ~ L a b /\ ~ In (b, a) R /\ In (a, b) ps).
Proof.
  induction ps as [|[a b] ps IH]; intros L R; cbn [accepted].
  - intros -> _. split; [constructor|intros a b []].
  - intros [[H1 H2]|(H1 & H2 & R1 & -> & H3)] S.
    + destruct (IH L R H2 S) as [D H]. split; auto. intros x y Q. apply H in Q. cbn. tauto.
    + destruct (IH _ R1 H3) as [D H].
      { intros x y [Q|[[-> ->]|[-> ->]]]; auto. }
      split.
      * constructor; auto. intros Q. apply H in Q as (_ & Q & _). apply Q. auto.
      * intros x y [Q|Q].
        -- injection Q as <- <-. split; auto. split; auto. split; [|left; auto]. intros [Q|Q]; [injection Q; intros; congruence|]. apply H in Q as (_ & Q & _). apply Q. auto.
        -- pose proof Q as Q0. apply H in Q as (Q1 & Q2 & Q3 & Q4). split; auto. split; [intros X; apply Q2; auto|]. split; [|right; auto]. intros [X|X]; [injection X as -> ->; apply Q2; auto|contradiction].
Qed.

(** [g] with the links [R], of weight one. *)
Record grown g (R : list (nat * nat)) (g1 : net A) : Prop := {
  gr_un : undirected g1;
  gr_nodes : same_nodes g g1;
  gr_new : forall a b, among true R a b -> weight g1 a b = Some n1;
  gr_old : forall a b, ~ among true R a b -> weight g1 a b = weight g a b;
  gr_count : length (edges g1) = length (edges g) + length R
}.
Lemma linked_weight g a b : (exists w, weight g a b = Some w) <-> In b (nbrs g a).
Proof. split; [intros (w & E); apply nbrs_weight; congruence|]. intros H. apply nbrs_weight in H. destruct (weight g a b); [eauto|congruence]. Qed.
Lemma grown_linked g R g1 a b : grown g R g1 -> In b (nbrs g1 a) <-> In b (nbrs g a) \/ among true R a b.
Proof.
  intros [U S H1 H2 C]. rewrite <- !linked_weight. assert (D : among true R a b \/ ~ among true R a b) by (rewrite <- gone_among; destruct (gone true R a b); [left|right]; auto).
  destruct D as [D|D]; [rewrite (H1 a b D)|rewrite (H2 a b D)]; split; auto; try tauto. intros _. eauto.
Qed.
Lemma grown_add g R g1 i j : undirected g -> grown g R g1 -> i < length g -> j < length g -> i <> j -> ~ In j (nbrs g1 i) ->
  exists r1 r2 g2 g3, AddAdjacency g1 i j false false n1 0 = Ok (r1, g2) /\ AddAdjacency g2 j i false false n1 0 = Ok (r2, g3) /\ grown g (R ++ [(i, j)]) g3.
Proof.
  intros U0 [U S H1 H2 C] Li Lj Hij HN. pose proof (same_nodes_length _ _ S) as L1. destruct (add_both g1 i j false n1 0 0 U) as (r1 & r2 & g2 & g3 & E1 & E2 & U3 & S3 & W3 & D3); try lia; auto.
  exists r1, r2, g2, g3. split; auto. split; auto. destruct (in_dec Nat.eq_dec j (nbrs g1 i)) as [|_]; [contradiction|].
  assert (E0 : weight g1 i j = None). { destruct (weight g1 i j) eqn:E; auto. exfalso. apply HN, linked_weight. eauto. }
  rewrite E0 in W3. assert (AM : forall a b, among true (R ++ [(i, j)]) a b <-> among true R a b \/ (a = i /\ b = j) \/ (a = j /\ b = i)).
  { intros a b. unfold among. rewrite !in_app_iff. cbn [In]. split.
    - intros [[Q|[Q|[]]]|[_ [Q|[Q|[]]]]]; try (injection Q as -> ->); auto; intuition auto.
    - intros [[Q|[_ Q]]|[[-> ->]|[-> ->]]]; intuition auto. }
  constructor; auto.
  - eapply same_nodes_trans; eauto.
  - intros a b H. rewrite W3. apply AM in H. destruct (((a =? i) && (b =? j)) || ((a =? j) && (b =? i))) eqn:Eb; auto. apply H1. destruct H as [H|[[-> ->]|[-> ->]]]; auto; rewrite !Nat.eqb_refl in Eb; cbn in Eb; [discriminate|]. rewrite orb_true_r in Eb. discriminate.
  - intros a b H. rewrite AM in H. rewrite W3. destruct (((a =? i) && (b =? j)) || ((a =? j) && (b =? i))) eqn:Eb; [|apply H2; tauto]. exfalso. apply H. rewrite orb_true_iff, !andb_true_iff, !Nat.eqb_eq in Eb. tauto.
  - rewrite app_length. cbn [length]. pose proof (handshake g1 U) as X1. pose proof (handshake g3 U3) as X3. pose proof (sum_deg_drop g3 g1 i j (fun _ => 1)) as X. rewrite <- (same_nodes_length _ _ S3) in X. specialize (X eq_refl ltac:(lia) ltac:(lia) D3). cbv beta in X. lia.
Qed.
Lemma add_one_spec g R : undirected g -> forall k ds g1, length ds <= k -> Forall (fun d => d < length g) ds -> grown g R g1 ->
  match add_one (map Some (seq 0 (length g))) g1 ds with
  | Ok (g2, ds') => exists ps e, ds = flat (ps ++ [e]) ++ ds' /\ accepted (fun a b => In b (nbrs g1 a)) (ps ++ [e]) [e] /\ grown g (R ++ [e]) g2
  | Err e => e = RngOut
  end.
Proof.
  intros U0. induction k as [|k IH]; intros ds g1 Lk F HG.
  - destruct ds; [reflexivity|cbn in Lk; lia].
  - destruct ds as [|a [|b ds]]; try reflexivity. cbn [add_one]. inversion F as [|? ? Ha F1]; subst. inversion F1 as [|? ? Hb F2]; subst.
    rewrite (get_ok _ a (Some a)) by (rewrite nth_map_seq; now rewrite (proj2 (Nat.ltb_lt a (length g)))). cbn [bind].
    rewrite (get_ok _ b (Some b)) by (rewrite nth_map_seq; now rewrite (proj2 (Nat.ltb_lt b (length g)))). cbn [bind deref].
    pose proof (same_nodes_length _ _ (gr_nodes _ _ _ HG)) as L1.
    assert (EX : (if a =? b then Ok true else IsThereLink g1 a b) = Ok ((a =? b) || if in_dec Nat.eq_dec b (nbrs g1 a) then true else false)).
    { destruct (a =? b); auto. cbn [orb]. apply IsThereLink_spec. lia. }
    rewrite EX. cbn [bind]. destruct ((a =? b) || _) eqn:Eb.
    + assert (HR : a = b \/ In b (nbrs g1 a)). { destruct (Nat.eqb_spec a b) as [|_]; auto. cbn in Eb. destruct (in_dec Nat.eq_dec b (nbrs g1 a)); [auto|discriminate]. }
      assert (Lk' : length ds <= k) by (cbn [length] in Lk; lia).
      specialize (IH ds g1 Lk' F2 HG). destruct (add_one _ g1 ds) as [[g2 ds']|e]; auto. destruct IH as (ps & e & -> & H1 & H2). exists ((a, b) :: ps), e. split; auto. split; auto. cbn [app accepted]. left. auto.
    + apply orb_false_iff in Eb as [Eb1 Eb2]. apply Nat.eqb_neq in Eb1. destruct (in_dec Nat.eq_dec b (nbrs g1 a)) as [|HN]; [discriminate|].
      destruct (grown_add g R g1 a b U0 HG Ha Hb Eb1 HN) as (r1 & r2 & g2 & g3 & E1 & E2 & G3). rewrite E1. cbn [bind]. rewrite E2. cbn [bind]. exists [], (a, b). split; auto. split; auto. cbn [app accepted]. right. split; auto. split; auto. exists []. auto.
Qed.
Theorem add_random_links g nLinks sym ds : undirected g -> Forall (fun d => d < length g) ds ->
  match AddRandomLinks g nLinks sym ds with
  | Ok (g', ds') => exists ps R, ds = flat ps ++ ds' /\ accepted (fun a b => In b (nbrs g a)) ps R /\ needed_pair ps R /\ length R = nLinks /\
      NoDup R /\ (forall a b, In (a, b) R -> a <> b /\ ~ In b (nbrs g a) /\ ~ In (b, a) R) /\
      undirected g' /\ same_nodes g g' /\ (forall a b, among true R a b -> weight g' a b = Some n1) /\ (forall a b, ~ among true R a b -> weight g' a b = weight g a b) /\
      length (edges g') = length (edges g) + nLinks
  | Err e => e = RngOut
  end.
Proof.
  intros U F. unfold AddRandomLinks, CountNodes. rewrite nlist_ok by (intros i n E; exact (wf_num g (un_wf g U) i n E)). cbn [bind].
  pose proof (foldM_seq_safe (fun k '(g1, ds') => exists ps R, ds = flat ps ++ ds' /\ accepted (fun a b => In b (nbrs g a)) ps R /\ needed_pair ps R /\ length R = k /\ grown g R g1)
    (fun e => e = RngOut) (fun '(g1, ds) (_ : nat) => add_one (map Some (seq 0 (length g))) g1 ds) nLinks (g, ds)) as G.
  match type of G with ?X -> ?Y -> _ => assert (G1 : X); [|assert (G2 : Y); [|specialize (G G1 G2)]] end.
  - exists [], []. cj; auto; [reflexivity|left; auto|]. constructor; auto; try apply same_nodes_refl; try (cbn; lia); intros a b [[]|[_ []]].
  - intros k [g1 ds1] Hk (ps & R & -> & HA & HN & HL & HG). apply Forall_app in F as [F1 F2]. pose proof (add_one_spec g R U (length ds1) ds1 g1 (le_n _) F2 HG) as S. destruct (add_one _ g1 ds1) as [[g2 ds2]|e]; auto.
    destruct S as (ps1 & e & -> & H1 & H2). exists (ps ++ ps1 ++ [e]), (R ++ [e]). cj.
    + unfold flat. rewrite !flat_map_app, <- !app_assoc. auto.
    + apply accepted_app; auto. eapply accepted_ext; [|exact H1]. intros a b. apply (grown_linked g R g1 a b HG).
    + right. exists (ps ++ ps1), R, e. rewrite <- app_assoc. auto.
    + rewrite app_length, HL. auto.
    + auto.
  - destruct (foldM _ _ _) as [[g' ds']|e]; auto. destruct G as (ps & R & -> & HA & HN & HL & [G3 G4 G5 G6 G7]). exists ps, R. destruct (accepted_new ps _ R HA) as [D H]; [intros a b; apply undirected_sym; auto|].
    cj; auto; [|lia]. intros a b Q. apply H in Q. tauto.
Qed.
Lemma edges_bound g : undirected g -> 2 * length (edges g) <= length g * (length g - 1).
Proof.
  intros U. rewrite <- handshake, sum_deg_lsum by auto. transitivity (lsum (fun _ => length g - 1) (seq 0 (length g))); [|rewrite lsum_const, seq_length; auto].
  apply lsum_le. intros i Hi. apply in_seq in Hi. unfold degree. transitivity (length (filter (fun x => negb (x =? i)) (seq 0 (length g)))).
  - apply NoDup_incl_length; [apply (wf_nodup g (un_wf g U))|]. intros x Hx. apply filter_In. destruct (nbrs_lt g i x (un_wf g U) Hx). split; [apply in_seq; lia|]. apply negb_true_iff, Nat.eqb_neq. intros ->. now apply (un_loop g U i).
  - assert (X : length (i :: filter (fun x => negb (x =? i)) (seq 0 (length g))) <= length (seq 0 (length g))); [|rewrite seq_length in X; cbn [length] in X; lia].
    apply NoDup_incl_length.
    + constructor; [|apply NoDup_filter, seq_NoDup]. intros Q. apply filter_In in Q as [_ Q]. now rewrite Nat.eqb_refl in Q.
    + intros x [<-|Q]; [apply in_seq; lia|]. now apply filter_In in Q as [Q _].
Qed.
(** More links than there are free pairs of nodes: no sequence of draws is long enough. *)
Theorem add_too_many g nLinks sym ds : undirected g -> Forall (fun d => d < length g) ds -> length g * (length g - 1) < 2 * (length (edges g) + nLinks) -> AddRandomLinks g nLinks sym ds = Err RngOut.
Proof.
  intros U F L. pose proof (add_random_links g nLinks sym ds U F) as H. destruct (AddRandomLinks g nLinks sym ds) as [[g' ds']|e]; [|now subst e].
  destruct H as (ps & R & _ & _ & _ & _ & _ & _ & U' & S & _ & _ & HC). pose proof (edges_bound g' U') as B. rewrite <- (same_nodes_length _ _ S) in B. lia.
Qed.
End Link.
