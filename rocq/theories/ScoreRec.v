(** ScoreRec.v -- the reconstruction of a network (NetReconstruct of src/missing.c). *)
From Coq Require Import List Arith ZArith Bool QArith Qcanon Lia.
From Verif Require Import Base Num ListLib NatSum QcSum IoModel GraphModel GraphSpec GraphProof GraphRand NetModel NetSpec NetCopy GenModel GenSpec GroupModel GroupSpec PairSum GroupProof GroupExact MatLib
  ToolsModel ToolsProof ModulesModel ModulesSpec ModulesMap ModulesCopy CommCopy SAProof RolesBounds MissModel MissSpec MissSets MissStep MissRun MissScore MissExact ScoreModel ScoreSpec ScoreProof ScoreNet.
Import ListNotations.
Local Open Scope nat_scope.

(** ** Networks with the same links *)
Lemma like_refl {A} (g : net A) : like g g.
Proof. split; auto. Qed.
Lemma like_trans {A} (g h k : net A) : like g h -> like h k -> like g k.
Proof. intros [H1 H2] [K1 K2]. split; [congruence|]. intros. now rewrite K2. Qed.
Lemma labels_length {A} (g h : net A) : map glabel h = map glabel g -> length h = length g.
Proof. intros E. rewrite <- (map_length glabel h), E. apply map_length. Qed.
Lemma like_sbg (g h : net Qc) : same_but_group g h -> like g h.
Proof. intros S. split; [now apply sbg_labels|]. intros. now apply sbg_linked. Qed.
Lemma like_links (g h : net Qc) S : like g h -> links_in h S = links_in g S.
Proof. intros [E L]. unfold links_in, pair_count. rewrite (labels_length g h E). apply lsum_ext. intros i _. apply count_ext. intros j _. now rewrite L. Qed.
Lemma like_across (g h : net Qc) S T : like g h -> across h S T = across g S T.
Proof. intros [E L]. unfold across. apply lsum_ext. intros i _. apply count_ext. intros j _. now rewrite L. Qed.
Lemma count_flip {X} (p p' : X -> bool) x l : NoDup l -> In x l -> p x = false -> p' x = true -> (forall y, In y l -> y <> x -> p' y = p y) -> count p' l = S (count p l).
Proof.
  induction l as [|a l IH]; intros ND Hx H1 H2 H3; [destruct Hx|]. inversion ND as [|? ? Na Nl]; subst. rewrite !count_lsum. cbn [lsum]. rewrite <- !count_lsum. destruct Hx as [->|Hx].
  - rewrite H1, H2. rewrite (count_ext p' p); [lia|]. intros y Hy. apply H3; simpl; auto. intros ->. auto.
  - rewrite IH by (auto; intros; apply H3; simpl; auto). rewrite (H3 a) by (simpl; auto; intros ->; auto). lia.
Qed.
Lemma NoDup_upper n : NoDup (upper n).
Proof.
  unfold upper. assert (G : forall l, NoDup l -> NoDup (flat_map (fun i => map (pair i) (seq (i + 1) (n - (i + 1)))) l)).
  { induction l as [|a l IH]; intros H; cbn [flat_map]; [constructor|]. inversion H as [|? ? Na Nl]; subst. apply NoDup_app_iff. splits; auto.
    - apply FinFun.Injective_map_NoDup; [|apply seq_NoDup]. intros u v E. congruence.
    - intros [u v] H1 H2. apply in_map_iff in H1 as (y & E & _). apply in_flat_map in H2 as (z & Hz & H2). apply in_map_iff in H2 as (y' & E' & _). congruence. }
  apply G, seq_NoDup.
Qed.
Lemma count_Qsum {X} (p : X -> bool) l : Qc_of_nat (count p l) = Qsum (fun y => if p y then 1 else 0)%Qc l.
Proof. induction l as [|a l IH]; [reflexivity|]. rewrite count_lsum. cbn [lsum Qsum]. rewrite <- count_lsum, Qc_of_nat_add, IH. destruct (p a); reflexivity. Qed.
Lemma n_links_upper (g : net Qc) : n_links g = count (fun ij => linked g (fst ij) (snd ij)) (upper (length g)).
Proof. apply Qc_of_nat_inj. unfold n_links. rewrite pair_count_Qc, count_Qsum, <- pair_sum_upper. reflexivity. Qed.
Lemma like_n_links (g h : net Qc) : like g h -> n_links h = n_links g.
Proof. intros [E L]. rewrite !n_links_upper, (labels_length g h E). apply count_ext. intros [i j] _. apply L. Qed.
Lemma exchanged_n_links (g h : net Qc) a b c d : a < b -> b < length g -> linked g a b = false -> c < d -> d < length g -> linked g c d = true -> exchanged g (a, b) (c, d) h -> n_links h = n_links g.
Proof.
  intros Hab Hb Lab Hcd Hd Lcd [E L]. cbn [fst snd] in L. rewrite !n_links_upper, (labels_length g h E). set (l := upper (length g)).
  set (mid := fun ij : nat * nat => if (fst ij =? c) && (snd ij =? d) then false else linked g (fst ij) (snd ij)).
  assert (N1 : (a, b) <> (c, d)) by congruence.
  assert (K : forall i j x y, (i =? x) && (j =? y) = true <-> (i, j) = (x, y)).
  { intros i j x y. rewrite andb_true_iff, !Nat.eqb_eq. split; [intros [-> ->]; auto|]. intros Q. injection Q as -> ->. auto. }
  assert (K0 : forall i j x y, (i, j) <> (x, y) -> (i =? x) && (j =? y) = false).
  { intros i j x y H. destruct ((i =? x) && (j =? y)) eqn:Q; auto. apply K in Q. contradiction. }
  rewrite (count_flip mid (fun ij => linked h (fst ij) (snd ij)) (a, b) l), (count_flip mid (fun ij => linked g (fst ij) (snd ij)) (c, d) l); unfold l; auto using NoDup_upper.
  - apply upper_In. auto.
  - unfold mid. cbn [fst snd]. now rewrite !Nat.eqb_refl.
  - intros [i j] _ H. unfold mid. cbn [fst snd]. now rewrite K0.
  - apply upper_In. auto.
  - unfold mid. cbn [fst snd]. now rewrite K0.
  - cbn [fst snd]. rewrite L by auto. now rewrite !Nat.eqb_refl.
  - intros [i j] Hij H. apply upper_In in Hij as [? ?]. cbn [fst snd]. rewrite L by auto. rewrite K0 by auto. reflexivity.
Qed.
Lemma sampled_ext ex sq N E E' thin k ds Ms rest : (forall M, E' M = E M) -> sampled ex sq N E thin k ds Ms rest -> sampled ex sq N E' thin k ds Ms rest.
Proof.
  intros H. assert (H1 : forall M d M' d', attempt ex N E M d M' d' -> attempt ex N E' M d M' d').
  { intros M d M' d' A. inversion A; subst; [eapply at_down|eapply at_up|eapply at_stay]; eauto; now rewrite !H. }
  assert (H2 : forall n M d M' d', attempts ex N E n M d M' d' -> attempts ex N E' n M d M' d') by (induction 1; econstructor; eauto).
  assert (H3 : forall n M d L M' d', samples ex N E n M d L M' d' -> samples ex N E' n M d L M' d') by (induction 1; econstructor; eauto).
  intros (M0 & d0 & w & M1 & d1 & dec & Me & A1 & A2 & A3 & A4 & A5). exists M0, d0, w, M1, d1, dec, Me. splits; auto; apply A5.
Qed.

Section Exact.
Variables ex sq : Qc -> Qc.
Local Instance rops : NumOps Qc := Qc_ops ex sq.
Variable logf : nat -> Qc.
Variable lnchoose : nat -> nat -> Qc.
Variable lnfact : nat -> Qc.
Variable mutual : gpart Qc -> gpart Qc -> Qc.
Variable decay_of : nat -> nat -> Qc -> nat -> Qc -> Qc.
Variables lcsize lfsize : nat.
Hypothesis log1 : logf 1 = 0%Qc.
Hypothesis choose00 : lnchoose 0 0 = 0%Qc.
Variable x : option Z.
Hypothesis Hx : x = None \/ x = Some 0%Z.
Implicit Types g h o : net Qc.
Notation energy := (energy logf lnchoose lnfact).
Notation serr := (serr x).
Notation contribution := (contribution logf lnchoose).
Notation network_score := (network_score ex logf lnchoose).

Lemma contribution_like o o' h h' M : like o o' -> like h h' -> contribution o' h' M = contribution o h M.
Proof.
  intros L L'. unfold ScoreSpec.contribution. f_equal.
  - apply Qsum_ext. intros k _. cbv zeta. now rewrite (like_links o o'), (like_links h h').
  - apply pair_sum_ext. intros k l _ _. cbv zeta. now rewrite (like_across o o'), (like_across h h').
Qed.
Lemma score_like o o' h h' Ms : like o o' -> like h h' -> network_score o' h' Ms = network_score o h Ms.
Proof.
  intros L L'. unfold ScoreSpec.network_score. assert (B : base_of logf lnchoose o' Ms = base_of logf lnchoose o Ms) by (unfold base_of; destruct Ms; auto; now apply contribution_like).
  rewrite B. f_equal; apply Qsum_ext; intros M _; do 2 f_equal; now apply contribution_like.
Qed.
Lemma energy_like o o' c M : like o o' -> energy c o' M = energy c o M.
Proof.
  intros L. unfold MissSpec.energy. rewrite (labels_length o o' (proj1 L)). apply (f_equal2 Qcminus); auto. apply (f_equal2 Qcplus); [apply (f_equal2 Qcplus); auto|].
  - apply Qsum_ext. intros k _. cbv zeta. now rewrite (like_links o o').
  - apply pair_sum_ext. intros k l _ _. cbv zeta. now rewrite (like_across o o').
Qed.
(** The observed network has score one, for any exponential that is positive. *)
Lemma score_self o Ms : (forall y, 0 < ex y)%Qc -> Ms <> [] -> network_score o o Ms = 1%Qc.
Proof.
  intros He Hn. unfold ScoreSpec.network_score. apply Qcmult_inv_r. intros E. assert (K : (0 < Qsum (fun M => ex (contribution o o M - base_of logf lnchoose o Ms)) Ms)%Qc).
  { generalize (base_of logf lnchoose o Ms). intros b. destruct Ms as [|M Ms]; [congruence|]. clear Hn E. revert M. induction Ms as [|M' Ms IH]; intros M; cbn [Qsum].
    - rewrite Qcplus_0_r. apply He.
    - specialize (IH M'). cbn [Qsum] in IH. rewrite <- (Qcplus_0_l 0%Qc). apply Qc_plus_lt; [apply He|exact IH]. }
  rewrite E in K. discriminate K.
Qed.
Notation climbed few some obs := (climbed ex sq logf lnchoose lnfact few some obs).
Notation drawn_for := (drawn_for ex sq logf lnchoose lnfact).
Lemma climbed_keeps few some obs h s : climbed few some obs h s -> map glabel h = map glabel obs /\ n_links h = n_links obs.
Proof.
  induction 1 as [h Ms L _|h s h' _ IH L|h0 s0 Ls h s a b c d h' Ms _ _ _ _ _ IH (B1 & B2 & B3 & _) (W1 & W2 & W3 & _) EX _ _].
  - split; [apply L|now apply like_n_links].
  - destruct IH as [E1 E2]. split; [rewrite <- E1; apply L|rewrite <- E2; now apply like_n_links].
  - destruct IH as [E1 E2]. split; [rewrite <- E1; apply EX|rewrite <- E2]. eapply exchanged_n_links; [| | | | | |exact EX]; auto.
Qed.
Lemma climbed_score few some obs h s : (forall y, 0 < ex y)%Qc -> 0 < few -> climbed few some obs h s -> (s = 1 /\ like obs h \/ 1 < s)%Qc.
Proof.
  intros He Hf. induction 1 as [h Ms L (d & r & HS)|h s h' _ IH L|h0 s0 Ls h s a b c d h' Ms _ _ _ _ _ IH _ _ _ _ LT].
  - left. split; auto. apply score_self; auto. destruct HS as (? & ? & ? & ? & ? & ? & ? & _ & _ & _ & _ & HL & _). intros ->. cbn in HL. lia.
  - destruct IH as [[-> L']|]; auto. left. split; auto. eapply like_trans; eauto.
  - right. destruct IH as [[-> _]|IH]; auto. eapply Qclt_trans; eauto.
Qed.

(** ** Exchanging a link *)
Lemma linked_weight h i j : linked h i j = match weight h i j with Some _ => true | None => false end.
Proof. reflexivity. Qed.
Lemma linked_In h i j : linked h i j = true <-> In j (nbrs h i).
Proof. rewrite linked_nbrs. apply mem_In. Qed.
Lemma exchange_ok h a b c d st : undirected h -> a < b -> b < length h -> linked h a b = false -> c < d -> d < length h -> linked h c d = true ->
  exists h', exchange h (a, b) (c, d) st = Ok h' /\ undirected h' /\ exchanged h (a, b) (c, d) h'.
Proof.
  intros U Hab Hb Lab Hcd Hd Lcd. unfold exchange. cbn [fst snd].
  destruct (add_both h a b false (nofQ (1 # 1)) st st U) as (r1 & r2 & h1 & h2 & -> & E2 & U2 & S2 & W2 & _); try lia. cbn [bind]. rewrite E2. cbn [bind].
  assert (Ne : (a, b) <> (c, d)) by congruence.
  assert (L2 : linked h2 c d = true). { rewrite linked_weight, W2. destruct (Nat.eqb_spec c a), (Nat.eqb_spec d b), (Nat.eqb_spec c b), (Nat.eqb_spec d a); subst; cbn [andb orb]; try congruence; try lia; exact Lcd. }
  destruct (remove_both h2 c d U2) as (h3 & -> & U3 & S3 & W3 & _); [now apply linked_In|].
  exists h3. splits; auto. split; [rewrite (same_nodes_labels h2 h3 S3); now apply same_nodes_labels|]. intros i j Hij Hj. cbn [fst snd]. rewrite (linked_weight h3), W3, W2. cbn [fst snd].
  assert (Wab : weight h a b = None) by (unfold linked in Lab; destruct (weight h a b); congruence). rewrite Wab.
  replace ((i =? d) && (j =? c)) with false by (symmetry; apply andb_false_iff; rewrite !Nat.eqb_neq; lia). replace ((i =? b) && (j =? a)) with false by (symmetry; apply andb_false_iff; rewrite !Nat.eqb_neq; lia). rewrite !orb_false_r.
  destruct (Nat.eqb_spec i a), (Nat.eqb_spec j b), (Nat.eqb_spec i c), (Nat.eqb_spec j d); subst; cbn [andb]; try reflexivity. congruence.
Qed.
Lemma linked_sym h i j : undirected h -> linked h i j = linked h j i.
Proof. intros U. unfold linked. now rewrite (un_sym h U). Qed.
Lemma linked_loop h i : undirected h -> linked h i i = false.
Proof. intros U. destruct (linked h i i) eqn:E; auto. apply linked_In in E. now apply (un_loop h U) in E. Qed.
Lemma linked_out h i j : undirected h -> length h <= j -> linked h i j = false.
Proof. intros U H. destruct (linked h i j) eqn:E; auto. apply linked_In in E. apply (nbrs_lt h i j) in E; [lia|apply U]. Qed.
(** It is enough to compare the pairs i < j. *)
Lemma like_upper h h' : undirected h -> undirected h' -> map glabel h' = map glabel h -> (forall i j, i < j -> j < length h -> linked h' i j = linked h i j) -> like h h'.
Proof.
  intros U U' E H. split; auto. pose proof (labels_length h h' E) as EL. assert (G : forall i j, i < j -> linked h' i j = linked h i j).
  { intros i j Hij. destruct (Nat.lt_ge_cases j (length h)); auto. rewrite !linked_out; auto. lia. }
  intros i j. destruct (Nat.lt_trichotomy i j) as [K|[->|K]]; auto; [now rewrite !linked_loop|]. rewrite (linked_sym h'), (linked_sym h) by auto. auto.
Qed.
Lemma exchange_back h a b c d h' : undirected h -> a < b -> b < length h -> linked h a b = false -> c < d -> d < length h -> linked h c d = true ->
  undirected h' -> exchanged h (a, b) (c, d) h' -> forall st, exists h'', exchange h' (c, d) (a, b) st = Ok h'' /\ undirected h'' /\ like h h''.
Proof.
  intros U Hab Hb Lab Hcd Hd Lcd U' [E L] st. cbn [fst snd] in L. pose proof (labels_length h h' E) as EL. assert (Ne : (a, b) <> (c, d)) by congruence.
  assert (Lcd' : linked h' c d = false). { rewrite L by auto. destruct (Nat.eqb_spec c a), (Nat.eqb_spec d b); subst; cbn [andb]; try congruence; rewrite !Nat.eqb_refl; reflexivity. }
  assert (Lab' : linked h' a b = true) by (rewrite L by auto; now rewrite !Nat.eqb_refl).
  destruct (exchange_ok h' c d a b st U') as (h'' & EX & U'' & E'' & L''); try lia; auto. exists h''. splits; auto. apply like_upper; auto; [congruence|]. intros i j Hij Hj. rewrite L'' by lia. cbn [fst snd]. rewrite L by auto.
  destruct (Nat.eqb_spec i a), (Nat.eqb_spec j b), (Nat.eqb_spec i c), (Nat.eqb_spec j d); subst; cbn [andb]; auto; congruence.
Qed.

(** ** Choosing the pairs *)
Section Pick.
Variables (h : net Qc) (p : nat -> nat -> Qc) (m : list (list Qc)).
Hypothesis U : undirected h.
Let N := length h.
Hypothesis Hm : forall i j, i < j -> j < N -> get2 m i j = Ok (p i j).
Hypothesis Hp : forall i j, i < j -> j < N -> (0 < p i j /\ p i j < 1)%Qc.
Definition top (done : list (nat * nat)) (a0 : option (nat * nat)) (s : Qc * option (nat * nat)) : Prop :=
  (s = (0%Qc, a0) /\ forall i j, In (i, j) done -> linked h i j = true) \/
  (exists a b, s = (p a b, Some (a, b)) /\ In (a, b) done /\ linked h a b = false /\ forall i j, In (i, j) done -> linked h i j = false -> (p i j <= p a b)%Qc).
Definition bottom (done : list (nat * nat)) (a0 : option (nat * nat)) (s : Qc * option (nat * nat)) : Prop :=
  (s = (1%Qc, a0) /\ forall i j, In (i, j) done -> linked h i j = false) \/
  (exists a b, s = (p a b, Some (a, b)) /\ In (a, b) done /\ linked h a b = true /\ forall i j, In (i, j) done -> linked h i j = true -> (p a b <= p i j)%Qc).
Lemma nltb_spec (a b : Qc) : nltb a b = true <-> (a < b)%Qc.
Proof. apply Qc_ltb_true. Qed.
Lemma nltb_le (a b : Qc) : nltb a b = false <-> (b <= a)%Qc.
Proof. rewrite <- not_true_iff_false, nltb_spec. split; [apply Qcnot_lt_le|apply Qcle_not_lt]. Qed.
Lemma In_snoc {X} (y : X) l z : In y (l ++ [z]) <-> In y l \/ y = z.
Proof. rewrite in_app_iff. simpl. firstorder. Qed.
Lemma pick_ok a0 r0 : exists up down, over_pairs N (pick_pair h (map Some (seq 0 N)) m) ((n0, a0), (n1, r0)) = Ok (up, down) /\ top (upper N) a0 up /\ bottom (upper N) r0 down.
Proof.
  rewrite over_pairs_upper.
  destruct (foldM_inv (fun done s => top done a0 (fst s) /\ bottom done r0 (snd s)) (fun s ij => pick_pair h (map Some (seq 0 N)) m s (fst ij) (snd ij)) (upper N) ((n0, a0), (n1, r0))) as ([up down] & E & T).
  - split; left; split; auto; intros i j [].
  - intros done [i j] rest [[mx add] [mn rem]] Hl [HT HB]. cbn [fst snd] in *. assert (Hij : In (i, j) (upper N)) by (rewrite Hl; apply in_app_iff; simpl; auto). apply upper_In in Hij as [Hij Hj].
    unfold pick_pair. rewrite !node_at_ok by lia. cbn [bind]. rewrite Hm by auto. cbn [bind]. rewrite link_there by (fold N; lia). cbn [bind]. eexists. split; [reflexivity|]. cbn [fst snd]. destruct (Hp i j Hij Hj) as [P0 P1]. split.
    + destruct (linked h i j) eqn:L; cbn [negb].
      * rewrite andb_false_r. destruct HT as [[HT H1]|(a & b & HT & H1 & H2 & H3)]; [left; split; auto; intros u v K; apply In_snoc in K as [K|K]; [auto|congruence]|].
        right. exists a, b. splits; auto; [apply In_snoc; auto|]. intros u v K Lu. apply In_snoc in K as [K|K]; [auto|congruence].
      * rewrite andb_true_r. destruct HT as [[HT H1]|(a & b & HT & H1 & H2 & H3)]; injection HT as -> ->.
        -- rewrite (proj2 (nltb_spec 0%Qc (p i j)) P0). right. exists i, j. splits; auto; [apply In_snoc; auto|]. intros u v K Lu. apply In_snoc in K as [K|K]; [rewrite (H1 u v K) in Lu; discriminate|]. injection K as -> ->. apply Qcle_refl.
        -- right. destruct (nltb (p a b) (p i j)) eqn:C.
           ++ apply nltb_spec in C. exists i, j. splits; auto; [apply In_snoc; auto|]. intros u v K Lu. apply In_snoc in K as [K|K]; [eapply Qcle_trans; [apply (H3 u v K Lu)|now apply Qclt_le_weak]|]. injection K as -> ->. apply Qcle_refl.
           ++ apply nltb_le in C. exists a, b. splits; auto; [apply In_snoc; auto|]. intros u v K Lu. apply In_snoc in K as [K|K]; auto. injection K as -> ->. auto.
    + destruct (linked h i j) eqn:L.
      * rewrite andb_true_r. destruct HB as [[HQ H1]|(a & b & HQ & H1 & H2 & H3)]; injection HQ as -> ->.
        -- rewrite (proj2 (nltb_spec (p i j) 1%Qc) P1). right. exists i, j. splits; auto; [apply In_snoc; auto|]. intros u v K Lu. apply In_snoc in K as [K|K]; [rewrite (H1 u v K) in Lu; discriminate|]. injection K as -> ->. apply Qcle_refl.
        -- right. destruct (nltb (p i j) (p a b)) eqn:C.
           ++ apply nltb_spec in C. exists i, j. splits; auto; [apply In_snoc; auto|]. intros u v K Lu. apply In_snoc in K as [K|K]; [eapply Qcle_trans; [apply Qclt_le_weak; exact C|apply (H3 u v K Lu)]|]. injection K as -> ->. apply Qcle_refl.
           ++ apply nltb_le in C. exists a, b. splits; auto; [apply In_snoc; auto|]. intros u v K Lu. apply In_snoc in K as [K|K]; auto. injection K as -> ->. auto.
      * rewrite andb_false_r. destruct HB as [[HQ H1]|(a & b & HQ & H1 & H2 & H3)]; [left; split; auto; intros u v K; apply In_snoc in K as [K|K]; [auto|congruence]|].
        right. exists a, b. splits; auto; [apply In_snoc; auto|]. intros u v K Lu. apply In_snoc in K as [K|K]; [auto|congruence].
  - exists up, down. auto.
Qed.
End Pick.
Lemma some_link h : 0 < n_links h -> exists i j, i < j /\ j < length h /\ linked h i j = true.
Proof.
  rewrite n_links_upper. intros H. assert (G : forall l, 0 < count (fun ij => linked h (fst ij) (snd ij)) l -> exists ij, In ij l /\ linked h (fst ij) (snd ij) = true).
  { induction l as [|a l IH]; rewrite count_lsum; cbn [lsum]; [lia|]. rewrite <- count_lsum. destruct (linked h (fst a) (snd a)) eqn:L; intros K; [exists a; simpl; auto|]. destruct IH as (y & Hy & L'); [lia|]. exists y. simpl. auto. }
  destruct (G _ H) as ([i j] & Hin & L). apply upper_In in Hin as [? ?]. exists i, j. auto.
Qed.
Lemma some_gap h : n_links h < length (upper (length h)) -> exists i j, i < j /\ j < length h /\ linked h i j = false.
Proof.
  rewrite n_links_upper. intros H. assert (G : forall l, count (fun ij => linked h (fst ij) (snd ij)) l < length l -> exists ij, In ij l /\ linked h (fst ij) (snd ij) = false).
  { induction l as [|a l IH]; rewrite count_lsum; cbn [lsum length]; [lia|]. rewrite <- count_lsum. destruct (linked h (fst a) (snd a)) eqn:L; intros K; [|exists a; simpl; auto]. destruct IH as (y & Hy & L'); [lia|]. exists y. simpl. auto. }
  destruct (G _ H) as ([i j] & Hin & L). apply upper_In in Hin as [? ?]. exists i, j. auto.
Qed.
Lemma gap_count h i j : i < j -> j < length h -> linked h i j = false -> n_links h < length (upper (length h)).
Proof.
  intros Hij Hj L. rewrite n_links_upper. assert (K : In (i, j) (upper (length h))) by (apply upper_In; auto). revert K. generalize (upper (length h)). induction l as [|a l IH]; intros K; [destruct K|]. rewrite count_lsum. cbn [lsum length]. rewrite <- count_lsum.
  assert (B : forall l, count (fun ij => linked h (fst ij) (snd ij)) l <= length l).
  { intros l'. induction l' as [|b l' IH']; rewrite count_lsum; cbn [lsum length]; [lia|]. rewrite <- count_lsum. destruct (linked h (fst b) (snd b)); lia. }
  destruct K as [->|K]; [cbn [fst snd]; rewrite L; specialize (B l); lia|]. specialize (IH K). destruct (linked h (fst a) (snd a)); lia.
Qed.
Lemma link_count h i j : i < j -> j < length h -> linked h i j = true -> 0 < n_links h.
Proof.
  intros Hij Hj L. rewrite n_links_upper. assert (K : In (i, j) (upper (length h))) by (apply upper_In; auto). revert K. generalize (upper (length h)). induction l as [|a l IH]; intros K; [destruct K|]. rewrite count_lsum. cbn [lsum]. rewrite <- count_lsum.
  destruct K as [->|K]; [cbn [fst snd]; rewrite L; lia|]. specialize (IH K). lia.
Qed.

(** ** The search *)
Section Search.
Variables few some : nat.
Hypothesis Hf : 0 < few.
Hypothesis Hs : 0 < some.
Variable obs : net Qc.
Hypothesis UO : undirected obs.
Hypothesis ND : NoDup (map glabel obs).
Let N := length obs.
Notation NScore := (NetworkScore logf lnchoose lnfact mutual decay_of lcsize lfsize x 0%Qc).
Notation inner := (rec_inner logf lnchoose lnfact mutual decay_of lcsize lfsize x).
Notation outer := (rec_outer logf lnchoose lnfact mutual decay_of lcsize lfsize x).
Lemma scored h o d : undirected h -> map glabel h = map glabel obs -> net_after obs o -> Forall good_draw d ->
  ends serr (NScore h o few d) (fun '(s, h', o', d') => undirected h' /\ like h h' /\ net_after obs o' /\ Forall good_draw d' /\ exists Ms, drawn_for obs few Ms /\ s = network_score obs h Ms).
Proof.
  intros Uh EL [Uo So] HD. pose proof (sbg_labels obs o So) as ELo.
  eapply ends_impl; [apply (NetworkScore_ok ex sq logf lnchoose lnfact mutual decay_of lcsize lfsize log1 choose00 x Hx o h Uo Uh); auto; [now rewrite ELo|now rewrite ELo]|].
  intros [[[s h'] o'] d'] ([Uh' Sh'] & [Uo' So'] & HD' & Ms & HS & ->). pose proof (like_sbg obs o So) as Lo. splits; auto.
  - now apply like_sbg.
  - split; auto. eapply sbg_trans; eauto.
  - exists Ms. split; [|now apply score_like; auto using like_refl]. exists d, d'. rewrite <- (labels_length obs o ELo). eapply sampled_ext; [|exact HS]. intros M. symmetry. now apply energy_like.
Qed.

(** The matrix of the scores of an earlier network. *)
Definition scores_at (h0 : net Qc) (Ls : list groups) (m : list (list Qc)) : Prop :=
  undirected h0 /\ map glabel h0 = map glabel obs /\ drawn_for h0 some Ls /\ mat N N m (fun i j => if i =? j then 0%Qc else mean_score ex sq h0 Ls i j).
Lemma scores_get h0 Ls m i j : scores_at h0 Ls m -> i < j -> j < N -> get2 m i j = Ok (mean_score ex sq h0 Ls i j).
Proof. intros (_ & _ & _ & Hm) Hij Hj. rewrite (mat_get _ _ m _ i j Hm) by lia. now rewrite (proj2 (Nat.eqb_neq i j)) by lia. Qed.
Lemma scores_in h0 Ls m i j : scores_at h0 Ls m -> i < j -> j < N -> (0 < mean_score ex sq h0 Ls i j /\ mean_score ex sq h0 Ls i j < 1)%Qc.
Proof.
  intros (U0 & E0 & (d & r & HS) & Hm) Hij Hj. pose proof (labels_length obs h0 E0) as L0. fold N in L0. destruct HS as (? & ? & ? & ? & ? & ? & ? & _ & _ & _ & _ & HL & HA).
  apply mean_score_bounds; auto; try lia. intros ->. cbn in HL. lia.
Qed.

Section Both.
Hypothesis HL : 0 < n_links obs.
Hypothesis HG : n_links obs < length (upper N).
Lemma inner_ok h0 s0 Ls m : scores_at h0 Ls m -> climbed few some obs h0 s0 -> forall fuel old ch rj add rem h o d, undirected h -> climbed few some obs h old -> net_after obs o -> Forall good_draw d ->
  ends serr (inner fuel few N (map Some (seq 0 N)) m old ch rj add rem h o d) (fun '(s, _, _, _, h', o', d') => undirected h' /\ climbed few some obs h' s /\ net_after obs o' /\ Forall good_draw d').
Proof.
  intros SA C0. induction fuel as [|fuel IH]; intros old ch rj add rem h o d Uh Ch NO HD; cbn [rec_inner]; [cbn [ends]; right; auto|].
  destruct (climbed_keeps few some obs h old Ch) as [EL EN]. pose proof (labels_length obs h EL) as LL. fold N in LL.
  assert (Q1 : forall i j, i < j -> j < length h -> get2 m i j = Ok (mean_score ex sq h0 Ls i j)) by (rewrite LL; intros i j; now apply scores_get).
  assert (Q2 : forall i j, i < j -> j < length h -> (0 < mean_score ex sq h0 Ls i j /\ mean_score ex sq h0 Ls i j < 1)%Qc) by (rewrite LL; intros i j; now apply (scores_in h0 Ls m)).
  destruct (pick_ok h (mean_score ex sq h0 Ls) m Uh Q1 Q2 add rem) as (up & down & EP & HT & HB).
  rewrite LL in EP, HT, HB. rewrite EP. cbn [bind].
  destruct HT as [[_ HT]|(a & b & -> & Iab & Lab & Bab)].
  { destruct (some_gap h) as (i & j & Hij & Hj & L); [rewrite LL, EN; auto|]. rewrite (HT i j) in L; [discriminate|]. apply upper_In. lia. }
  destruct HB as [[_ HB]|(u & v & -> & Iuv & Luv & Buv)].
  { destruct (some_link h) as (i & j & Hij & Hj & L); [rewrite EN; auto|]. rewrite (HB i j) in L; [discriminate|]. apply upper_In. lia. }
  cbn [snd chosen bind]. apply upper_In in Iab as [Hab Hb]. apply upper_In in Iuv as [Huv Hv].
  destruct (exchange_ok h a b u v 2 Uh) as (h1 & -> & U1 & X1); try lia; auto. cbn [bind]. change (@n0 Qc rops) with 0%Qc.
  assert (E1 : map glabel h1 = map glabel obs) by (rewrite <- EL; apply X1).
  pose proof (scored h1 o d U1 E1 NO HD) as HSc. destruct (NScore h1 o few d) as [[[[new h2] o2] d2]|e]; cbn [bind ends] in *; auto. destruct HSc as (U2 & L2 & NO2 & HD2 & Ms & HM & EN2).
  destruct (nltb old new) eqn:C.
  - apply IH; auto. apply nltb_spec in C. apply cl_same with (h := h1); auto. rewrite EN2 in *. destruct SA as (U0 & _ & DF & _).
    eapply (cl_swap ex sq logf lnchoose lnfact few some obs h0 s0 Ls h old a b u v h1 Ms); auto.
    + split; [auto|split; [lia|split; [auto|]]]. intros i j Hij Hj. apply Bab. apply upper_In. lia.
    + split; [auto|split; [lia|split; [auto|]]]. intros i j Hij Hj. apply Buv. apply upper_In. lia.
  - assert (X2 : exchanged h (a, b) (u, v) h2). { destruct X1 as [Y1 Y2], L2 as [Z1 Z2]. split; [congruence|]. intros i j Hij Hj. rewrite Z2. auto. }
    destruct (exchange_back h a b u v h2 Uh Hab ltac:(lia) Lab Huv ltac:(lia) Luv U2 X2 3) as (h3 & -> & U3 & L3). cbn [bind].
    assert (C3 : climbed few some obs h3 old) by (apply cl_same with (h := h); auto).
    destruct (rj + 1 <? 5); [apply IH; auto|]. cbn [ends]. auto.
Qed.
Lemma outer_ok : forall fuel old add rem h o d, undirected h -> climbed few some obs h old -> net_after obs o -> Forall good_draw d ->
  ends serr (outer fuel few some (map Some (seq 0 N)) old add rem h o d) (fun '(h', o', d') => undirected h' /\ net_after obs o' /\ Forall good_draw d' /\ exists s, climbed few some obs h' s).
Proof.
  induction fuel as [|fuel IH]; intros old add rem h o d Uh Ch NO HD; cbn [rec_outer]; [cbn [ends]; right; auto|].
  pose proof (scores_of_ok ex sq logf lnchoose lnfact mutual decay_of lcsize lfsize log1 choose00 x Hx h some d Uh HD) as HSc. destruct (climbed_keeps few some obs h old Ch) as [EL EN]. pose proof (labels_length obs h EL) as LL. fold N in LL.
  destruct (scores_of _ _ _ _ _ _ _ _ h some d) as [[[m h1] d1]|e]; cbn [bind ends] in *; auto. destruct HSc as ([U1 S1] & HD1 & Ls & HS & Hm).
  assert (SA : scores_at h Ls m). { split; [auto|split; [auto|split]]; [exists d, d1; auto|]. rewrite <- LL. auto. }
  assert (C1 : climbed few some obs h1 old) by (apply cl_same with (h := h); auto; now apply like_sbg).
  pose proof (sbg_length obs o (na_sbg _ _ NO)) as LO. fold N in LO. rewrite LO.
  pose proof (inner_ok h old Ls m SA Ch (length d1 + 6) old false 0 add rem h1 o d1 U1 C1 NO HD1) as HI.
  destruct (inner _ _ _ _ _ _ _ _ _ _ h1 o d1) as [[[[[[[old2 ch] add2] rem2] h2] o2] d2]|e]; cbn [bind ends] in *; auto. destruct HI as (U2 & C2 & NO2 & HD2).
  destruct ch; [apply IH; auto|]. cbn [ends]. splits; auto. exists old2. auto.
Qed.
Theorem NetReconstruct_ok d : (forall n, In n obs -> length (glabel n) < 100) -> Forall good_draw d ->
  ends serr (NetReconstruct logf lnchoose lnfact mutual decay_of lcsize lfsize x few some obs d)
    (fun '(h, o, d') => undirected h /\ net_after obs o /\ Forall good_draw d' /\ exists s, climbed few some obs h s).
Proof.
  intros H100 HD. unfold NetReconstruct. rewrite (CopyNetwork_copy obs (un_wf obs UO) ND H100). cbn [bind].
  assert (UC : undirected (net_copy obs)) by exact (copy_un ex sq obs UO). assert (LC : like obs (net_copy obs)) by (split; [apply net_copy_labels|]; intros i j; unfold linked; now rewrite net_copy_weight).
  rewrite (node_list_ok (net_copy obs) (un_wf _ UC)), (labels_length obs (net_copy obs) (proj1 LC)). cbn [bind].
  assert (NA : net_after obs obs) by (split; auto; apply sbg_refl).
  pose proof (scored (net_copy obs) obs d UC (proj1 LC) NA HD) as HSc. change (@n0 Qc rops) with 0%Qc. destruct (NScore (net_copy obs) obs few d) as [[[[s h1] o1] d1]|e]; cbn [bind ends] in *; auto. destruct HSc as (U1 & L1 & NO1 & HD1 & Ms & HM & ->).
  apply outer_ok; auto. apply cl_same with (h := net_copy obs); auto. rewrite (score_like obs obs obs (net_copy obs)) by auto using like_refl. constructor; auto.
Qed.
End Both.

(** A network without links, or with all of them: the pointers to the nodes are read before they are set. *)
Theorem NetReconstruct_blind d r : n_links obs = 0 \/ n_links obs = length (upper N) -> (forall n, In n obs -> length (glabel n) < 100) -> Forall good_draw d ->
  NetReconstruct logf lnchoose lnfact mutual decay_of lcsize lfsize x few some obs d <> Ok r.
Proof.
  intros HN H100 HD. unfold NetReconstruct. rewrite (CopyNetwork_copy obs (un_wf obs UO) ND H100). cbn [bind].
  assert (UC : undirected (net_copy obs)) by exact (copy_un ex sq obs UO). assert (LC : like obs (net_copy obs)) by (split; [apply net_copy_labels|]; intros i j; unfold linked; now rewrite net_copy_weight).
  rewrite (node_list_ok (net_copy obs) (un_wf _ UC)), (labels_length obs (net_copy obs) (proj1 LC)). cbn [bind]. fold N.
  assert (NA : net_after obs obs) by (split; auto; apply sbg_refl).
  pose proof (scored (net_copy obs) obs d UC (proj1 LC) NA HD) as HSc. change (@n0 Qc rops) with 0%Qc. destruct (NScore (net_copy obs) obs few d) as [[[[s h1] o1] d1]|e]; cbn [bind ends] in *; [|discriminate]. destruct HSc as (U1 & L1 & NO1 & HD1 & _).
  rewrite Nat.add_1_r. cbn [rec_outer]. pose proof (like_trans obs _ h1 LC L1) as L01. pose proof (labels_length obs h1 (proj1 L01)) as LL. fold N in LL.
  pose proof (scores_of_ok ex sq logf lnchoose lnfact mutual decay_of lcsize lfsize log1 choose00 x Hx h1 some d1 U1 HD1) as HSc.
  destruct (scores_of _ _ _ _ _ _ _ _ h1 some d1) as [[[m h2] d2]|e]; cbn [bind ends] in *; [|discriminate]. destruct HSc as ([U2 S2] & HD2 & Ls & HS & Hm).
  assert (SA : scores_at h1 Ls m). { split; [auto|split; [apply L01|split]]; [exists d1, d2; auto|]. rewrite <- LL. auto. }
  pose proof (sbg_length obs o1 (na_sbg _ _ NO1)) as LO. fold N in LO. rewrite LO. pose proof (sbg_length h1 h2 S2) as L2.
  rewrite Nat.add_comm. change (6 + length d2) with (S (5 + length d2)). cbn [rec_inner].
  assert (Q1 : forall i j, i < j -> j < length h2 -> get2 m i j = Ok (mean_score ex sq h1 Ls i j)) by (rewrite L2, LL; intros i j; now apply scores_get).
  assert (Q2 : forall i j, i < j -> j < length h2 -> (0 < mean_score ex sq h1 Ls i j /\ mean_score ex sq h1 Ls i j < 1)%Qc) by (rewrite L2, LL; intros i j; now apply (scores_in h1 Ls m)).
  destruct (pick_ok h2 (mean_score ex sq h1 Ls) m U2 Q1 Q2 None None) as (up & down & EP & HT & HB).
  rewrite L2, LL in EP, HT, HB. rewrite EP. cbn [bind]. pose proof (like_n_links obs h2 (like_trans _ _ _ L01 (like_sbg h1 h2 S2))) as EN.
  destruct HN as [HN|HN]; rewrite HN in EN.
  - destruct HB as [[-> _]|(u & v & _ & Iuv & Luv & _)].
    + destruct (chosen (snd up)) as [p|e]; cbn [bind snd chosen]; discriminate.
    + apply upper_In in Iuv as [? ?]. pose proof (link_count h2 u v) as K. lia || (specialize (K ltac:(auto) ltac:(lia) Luv); lia).
  - destruct HT as [[-> _]|(u & v & _ & Iuv & Luv & _)]; [cbn [snd chosen bind]; discriminate|].
    apply upper_In in Iuv as [? ?]. pose proof (gap_count h2 u v ltac:(auto) ltac:(lia) Luv) as K. rewrite L2, LL in K. lia.
Qed.
End Search.
End Exact.
