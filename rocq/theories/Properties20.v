(** Properties20.v -- recommendations (src/recommend.c): C99 to C108. *)
From Coq Require Import List Arith ZArith Lia Bool Permutation QArith Qround Qcanon.
From Coq Require Import Strings.Ascii.
From Verif Require Import Base Num ListLib NatSum QcSum SAProof IoModel IoSpec GraphModel GraphSpec GroupModel GroupProof BipartModel BipartSpec BipartRand MissModel MissSpec MissStep
  RecModel RecSpec RecStep RecScore RecMain RecGibbs RecHeat RecAux RecSingle Refute.
Import ListNotations.
Local Open Scope nat_scope.

Section Exact.
Variables ex sq : Qc -> Qc.
#[local] Instance opsR20 : NumOps Qc := Qc_ops ex sq.
Variable logf : nat -> Qc.
Variable lnchoose : nat -> nat -> Qc.
Variable lnfact : nat -> Qc.
Variable mutual : gpart Qc -> gpart Qc -> Qc.
Variable decay_of : nat -> nat -> Qc -> nat -> Qc -> Qc.
Variables llsize lcsize lfsize : nat.
Implicit Types b : binet Qc.

(** C99: the scores of the queries are means over samples of the Metropolis algorithm, which does not see the ratings asked for. *)
Theorem C99_scores K b qs pos nIter decor ds : 0 < K -> rating_net K b -> Forall2 (located (bset1 b) (bset2 b)) qs pos -> Forall good_draw ds ->
  match MultiLinkScoreKState logf lnfact mutual decay_of llsize lcsize lfsize K b qs nIter decor ds with
  | Ok scores => exists l, sampled ex sq lnfact K (costK lnfact K) b pos nIter decor ds l /\ scores = map (means (hide pos (ratings (bmem b) (bset1 b) (bset2 b))) K l) pos
  | Err e => rng_err e
  end.
Proof. intros HK HN HQ HD. exact (scoresK ex sq logf lnfact mutual decay_of llsize lcsize lfsize K b qs pos nIter decor ds HK HN HQ HD). Qed.
(** C99: they are probabilities: between 0 and 1, with sum 1. *)
Theorem C99_probabilities K b qs pos nIter decor ds scores : 1 < K -> rating_net K b -> Forall2 (located (bset1 b) (bset2 b)) qs pos -> Forall good_draw ds -> 0 < nIter ->
  MultiLinkScoreKState logf lnfact mutual decay_of llsize lcsize lfsize K b qs nIter decor ds = Ok scores ->
  length scores = length qs /\ Forall (fun s => length s = K /\ Forall (fun x => (0 < x)%Qc /\ (x < 1)%Qc) s /\ Qsum (fun x => x) s = 1%Qc) scores.
Proof.
  intros HK HN HQ HD Hn E. pose proof (C99_scores K b qs pos nIter decor ds ltac:(lia) HN HQ HD) as H. rewrite E in H. destruct H as (l & (HL & _) & ->).
  split; [rewrite map_length; symmetry; eapply RecSetup.F2_length; eauto|]. apply Forall_forall. intros s Hs. apply in_map_iff in Hs as (ij & <- & _).
  assert (l <> []) by (intros ->; cbn in HL; lia). split; [apply means_length|]. split; [now apply means_bounds|apply means_sum; auto; lia].
Qed.
(** C99: the same for ratings 0 and 1; the score is the probability of rating 1. *)
Theorem C99_two debug b qs pos nIter decor ds : cost2 logf lnchoose [0; 0] = 0%Qc -> rating_net 2 b -> Forall2 (located (bset1 b) (bset2 b)) qs pos -> Forall good_draw ds ->
  match MultiLinkScore2State logf lnchoose lnfact mutual decay_of llsize lcsize lfsize debug b qs nIter decor ds with
  | Ok scores => exists l, sampled ex sq lnfact 2 (cost2 logf lnchoose) b pos nIter decor ds l /\
      scores = map (fun ij => nth 1 (means (hide pos (ratings (bmem b) (bset1 b) (bset2 b))) 2 l ij) 0%Qc) pos
  | Err e => rng_err e
  end.
Proof. intros H0 HN HQ HD. exact (scores2 ex sq logf lnchoose lnfact mutual decay_of llsize lcsize lfsize H0 debug b qs pos nIter decor ds HN HQ HD). Qed.

(** C100: the running energy of the Metropolis samplers is the energy of the partitions they have reached. *)
Theorem C100_energy K b ds factors : 0 < K -> bipartite b -> in_range K b -> 0 < length (bset1 b) -> 0 < length (bset2 b) -> Forall good_draw ds ->
  match reachedK ex sq lnfact lcsize lfsize K b ds factors with
  | Ok st => followsK ex sq lnfact K (costK lnfact K) (HKState lnfact K) b ds factors st
  | Err e => rng_err e
  end.
Proof. intros HK B HI N1 N2 HD. exact (energy_trackedK ex sq logf lnfact llsize lcsize lfsize K b ds factors HK B HI N1 N2 HD). Qed.
Theorem C100_energy_two b ds factors : cost2 logf lnchoose [0; 0] = 0%Qc -> bipartite b -> in_range 2 b -> 0 < length (bset1 b) -> 0 < length (bset2 b) -> Forall good_draw ds ->
  match reached2 ex sq logf lnchoose lnfact llsize lcsize lfsize b ds factors with
  | Ok st => followsK ex sq lnfact 2 (cost2 logf lnchoose) (H2State logf lnchoose lnfact) b ds factors st
  | Err e => rng_err e
  end.
Proof. intros H0 B HI N1 N2 HD. exact (energy_tracked2 ex sq logf lnchoose lnfact llsize lcsize lfsize H0 b ds factors B HI N1 N2 HD). Qed.

(** C101: one person and one item: the sampler never comes back. *)
Theorem C101_single K b qs pos nIter d ds : 0 < K -> rating_net K b -> length (bset1 b) = 1 -> length (bset2 b) = 1 -> Forall2 (located (bset1 b) (bset2 b)) qs pos -> Forall good_draw ds ->
  0 < nIter -> 0 < d -> exists e, MultiLinkScoreKState logf lnfact mutual decay_of llsize lcsize lfsize K b qs nIter (Some d) ds = Err e /\ rng_err e.
Proof. exact (single_never ex sq logf lnfact mutual decay_of llsize lcsize lfsize K b qs pos nIter d ds). Qed.

(** C102: the Gibbs sampler: the scores are means over sweeps of the heat-bath algorithm. *)
Theorem C102_scores K b qs pos nIter ds : (forall x, 0 < ex x)%Qc -> lnfact 0 = 0%Qc -> 0 < K -> rating_net K b -> Forall2 (located (bset1 b) (bset2 b)) qs pos -> Forall mid ds ->
  match GibbsMultiLinkScoreKState lnfact lfsize K b qs nIter ds with
  | Ok scores => exists l, gsampled ex sq lnfact K b pos nIter ds l /\ scores = map (means (hide pos (ratings (bmem b) (bset1 b) (bset2 b))) K l) pos
  | Err e => rng_err e
  end.
Proof. intros HE H0 HK HN HQ HD. exact (gibbs_scores ex sq HE lnfact H0 lfsize K HK b qs pos nIter ds HN HQ HD). Qed.
Theorem C102_probabilities K b qs pos nIter ds scores : (forall x, 0 < ex x)%Qc -> lnfact 0 = 0%Qc -> 1 < K -> rating_net K b -> Forall2 (located (bset1 b) (bset2 b)) qs pos -> Forall mid ds -> 0 < nIter ->
  GibbsMultiLinkScoreKState lnfact lfsize K b qs nIter ds = Ok scores ->
  length scores = length qs /\ Forall (fun s => length s = K /\ Forall (fun x => (0 < x)%Qc /\ (x < 1)%Qc) s /\ Qsum (fun x => x) s = 1%Qc) scores.
Proof.
  intros HE H0 HK HN HQ HD Hn E. pose proof (C102_scores K b qs pos nIter ds HE H0 ltac:(lia) HN HQ HD) as H. rewrite E in H. destruct H as (l & (HL & _) & ->).
  split; [rewrite map_length; symmetry; eapply RecSetup.F2_length; eauto|]. apply Forall_forall. intros s Hs. apply in_map_iff in Hs as (ij & <- & _).
  assert (l <> []) by (intros ->; cbn in HL; lia). split; [apply means_length|]. split; [now apply means_bounds|apply means_sum; auto; lia].
Qed.

(** C103: the running energy of the Gibbs sampler. *)
Theorem C103_energy K b ds times : (forall x, 0 < ex x)%Qc -> lnfact 0 = 0%Qc -> 0 < K -> bipartite b -> in_range K b -> 0 < length (bset1 b) -> 0 < length (bset2 b) -> Forall mid ds ->
  let E := renergy lnfact K (costK lnfact K) (ratings (bmem b) (bset1 b) (bset2 b)) in
  match greached ex sq lnfact lfsize K b ds times with
  | Ok st => HKState lnfact K (rnet st) (sP (r1 st)) (sP (r2 st)) = Ok (rH st) /\ exists c1 c2,
      (forall i p, nth_error (bset1 b) i = Some p -> group_of (rnet st) p = Some (colour c1 i)) /\ (forall j p, nth_error (bset2 b) j = Some p -> group_of (rnet st) p = Some (colour c2 j)) /\
      rH st = E c1 c2 /\ power (sweep ex E) times (seq 0 (length (bset1 b)), seq 0 (length (bset2 b)), ds) (c1, c2, rds st)
  | Err e => rng_err e
  end.
Proof. intros HE H0 HK B HI N1 N2 HD E. exact (gibbs_energy ex sq HE lnfact H0 lfsize K HK b ds times B HI N1 N2 HD). Qed.
End Exact.

Section Generic.
Context {A : Type} {ops : NumOps A}.
Implicit Types b : binet A.

(** C106: the pairs without a rating are counted and listed, and the array is never overrun. *)
Theorem C106_unobserved b : bipartite b -> exists b', BuildUnobservedSet b = Ok (unrated b, b') /\ bipartite b' /\ same_bi b b' /\ CountUnobserved b = Ok (Z.of_nat (length (unrated b)), b').
Proof. exact (BuildUnobservedSet_spec b). Qed.

(** C107: exactly the ratings [r] are removed. *)
Theorem C107_remove b r : bipartite b -> exists b', RemoveRatings b r = Ok b' /\ bipartite b' /\ bset1 b' = bset1 b /\ bset2 b' = bset2 b /\ same_nodes (bmem b) (bmem b') /\
  forall i j, weight (bmem b') i j = without (fun x => neqb x (nofQ (r # 1))) (weight (bmem b) i j).
Proof. exact (RemoveRatings_spec b r). Qed.

(** C108: the queries point to the nodes with the labels asked for; missing nodes are appended in order, without links. *)
Theorem C108_queries b text qs : bipartite b -> NoDup (labs1 b) -> NoDup (labs2 b) -> asks text qs -> (forall a c, In (a, c) qs -> length a < 100 /\ length c < 100) ->
  exists ps b', ReadQueries text (length qs) b = Ok (ps, b') /\ Forall2 (answers b') ps qs /\ bipartite b' /\ grown b b' /\
    labs1 b' = numbered (labs1 b ++ map fst qs) /\ labs2 b' = numbered (labs2 b ++ map snd qs).
Proof. exact (ReadQueries_spec b text qs). Qed.
End Generic.

(** * The hypotheses are met. *)
#[local] Instance ops20 : NumOps Qc := Qc_ops ex0 sq0.
(** Persons a and b have rated the item t. *)
Definition pair20 (w1 w2 : Qc) : binet Qc :=
  let l k lab i w := mkLink k lab 0 (Some i) n0 w in
  mkBi [mkNode ["a"%char] 0 0 [l 0 ["t"%char] 2 w1] None n0 0 n0; mkNode ["b"%char] 1 0 [l 0 ["t"%char] 2 w2] None n0 0 n0;
        mkNode ["t"%char] 0 0 [l 0 ["a"%char] 0 w1; l 1 ["b"%char] 1 w2] None n0 0 n0] [0; 1] [2].
Lemma pair20_bi w1 w2 : bipartite (pair20 w1 w2).
Proof.
  split.
  - apply Permutation_refl.
  - intros [|[|k]] i n E H; cbn in E; try (destruct k; discriminate); injection E as <-; injection H as <-; reflexivity.
  - intros [|k] i n E H; cbn in E; try (destruct k; discriminate); injection E as <-; injection H as <-; reflexivity.
  - intros [|[|[|i]]] n l E Hl; cbn in E; try (destruct i; discriminate); injection E as <-; cbn in Hl; repeat (destruct Hl as [<-|Hl]; [do 2 eexists; splits; reflexivity|]); destruct Hl.
  - intros [|[|[|i]]] j H; cbn in H; try (destruct i; destruct H); repeat (destruct H as [<-|H]; [cbn; auto 10|]); destruct H.
  - intros [|[|[|i]]]; cbn; try (destruct i; constructor); repeat constructor; cbn; intuition discriminate.
  - intros [|[|[|i]]] [|[|[|j]]]; cbn; try reflexivity; try (destruct i; reflexivity); try (destruct j; reflexivity); destruct i, j; reflexivity.
  - intros [|[|[|i]]] n E; cbn in E; try (destruct i; discriminate); injection E as <-; auto.
Qed.
Lemma pair20_weight w1 w2 i j w : weight (bmem (pair20 w1 w2)) i j = Some w -> w = w1 \/ w = w2.
Proof. destruct i as [|[|[|i]]], j as [|[|[|j]]]; cbn; try discriminate; try (destruct i; discriminate); try (destruct j; discriminate); intros [= <-]; auto. Qed.
Definition film20 : binet Qc := pair20 (qq 1) (qq 0).
Example film20_net : rating_net 2 film20 /\ Forall2 (located (bset1 film20) (bset2 film20)) [(0, 2)] [(0, 0)].
Proof.
  split; [split|repeat constructor].
  - apply pair20_bi.
  - cbv. repeat constructor; cbn; intuition discriminate.
  - cbv. repeat constructor; cbn; intuition discriminate.
  - intros n Hn. cbn in Hn. repeat (destruct Hn as [<-|Hn]; [cbn; lia|]). destruct Hn.
  - intros i j w H. apply pair20_weight in H as [-> | ->]; [exists 1|exists 0]; split; auto; apply Qc_is_canon; reflexivity.
  - cbn. lia.
  - cbn. lia.
Qed.
(** Pseudo-random numbers strictly between 0 and 1. *)
Fixpoint lcg (n : nat) (s : N) : list Qc :=
  match n with O => [] | S n => let s' := ((s * 1103515245 + 12345) mod 2147483648)%N in Q2Qc (Z.of_N (s' / 134217728)%N * 2 + 1 # 32) :: lcg n s' end.
Definition lt_q (x y : Q) : bool := (Qnum x * Z.pos (Qden y) <? Qnum y * Z.pos (Qden x))%Z.
Lemma mid_draws ds : forallb (fun u : Qc => lt_q 0 u && lt_q u 1) ds = true -> Forall mid ds /\ Forall good_draw ds.
Proof.
  intros H. rewrite forallb_forall in H. rewrite !Forall_forall. split; intros u Hu; specialize (H u Hu); apply andb_true_iff in H as [H1 H2]; apply Z.ltb_lt in H1, H2.
  - split; [exact H1|exact H2].
  - apply (good_draw_Qc ex0 sq0); [apply Qclt_le_weak; exact H1|exact H2].
Qed.
Lemma good_draws ds : forallb (fun u : Qc => negb (lt_q u 0) && lt_q u 1) ds = true -> Forall good_draw ds.
Proof.
  intros H. rewrite forallb_forall in H. rewrite Forall_forall. intros u Hu. specialize (H u Hu). apply andb_true_iff in H as [H1 H2]. apply negb_true_iff, Z.ltb_ge in H1. apply Z.ltb_lt in H2.
  apply (good_draw_Qc ex0 sq0); [exact H1|exact H2].
Qed.
Definition ds20 : list Qc := Eval vm_compute in lcg 3000 1.
Definition dsG20 : list Qc := Eval vm_compute in lcg 4000 7.
Example draws20 : Forall mid dsG20 /\ Forall good_draw ds20.
Proof. split; apply mid_draws; vm_compute; reflexivity. Qed.
Definition lnf (n : nat) : Qc := Qc_of_nat (n * n).
Definition lnc (r l : nat) : Qc := Qc_of_nat (r * l).
Definition lg (r : nat) : Qc := Qc_of_nat (r - 1).
Definition mut0 (_ _ : gpart Qc) : Qc := n0.
Definition dec0 (_ _ : nat) (_ : Qc) (_ : nat) (_ : Qc) : Qc := n0.
Example cost20 : cost2 lg lnc [0; 0] = 0%Qc /\ lnf 0 = 0%Qc.
Proof. split; apply Qc_is_canon; reflexivity. Qed.
Definition shown (r : res (list (list Qc))) : option (list (list Q)) := match r with Ok s => Some (map (map this) s) | Err _ => None end.
Example scores20 : shown (MultiLinkScoreKState lg lnf mut0 dec0 8 8 8 2 film20 [(0, 2)] 2 (Some 1) ds20) = Some [[7 # 12; 5 # 12]].
Proof. vm_compute. reflexivity. Qed.
Example scores20_two : match MultiLinkScore2State lg lnc lnf mut0 dec0 8 8 8 false film20 [(0, 2)] 2 (Some 1) ds20 with Ok s => map this s = [5 # 12] | Err _ => False end.
Proof. vm_compute. reflexivity. Qed.
Example energy20 : match reachedK ex0 sq0 lnf 8 8 2 film20 ds20 [1; 2] with Ok _ => True | Err _ => False end /\ match reached2 ex0 sq0 lg lnc lnf 8 8 8 film20 ds20 [1; 2] with Ok _ => True | Err _ => False end.
Proof. vm_compute. auto. Qed.
(** A positive function in place of exp. *)
Definition ex1 (x : Qc) : Qc := if Qclt_le_dec x 0 then (1 / (1 - x))%Qc else (1 + x)%Qc.
Lemma ex1_pos x : (0 < ex1 x)%Qc.
Proof.
  unfold ex1. destruct (Qclt_le_dec x 0) as [H|H].
  - apply MissExact.Qc_div_pos; [reflexivity|]. apply Qclt_minus_iff in H. replace (1 - x)%Qc with ((0 + - x) + 1)%Qc by ring. apply (Qclt_le_trans _ (0 + - x)%Qc); auto. apply Qcle_minus_iff. replace (0 + - x + 1 + - (0 + - x))%Qc with 1%Qc by ring. discriminate.
  - apply (Qclt_le_trans _ 1%Qc); [reflexivity|]. apply Qcle_minus_iff. replace (1 + x + - (1))%Qc with x by ring. exact H.
Qed.
Example scores20_gibbs : shown (GibbsMultiLinkScoreKState (ops := Qc_ops ex1 sq0) lnf 8 2 film20 [(0, 2)] 2 dsG20) = Some [[7 # 12; 5 # 12]].
Proof. vm_compute. reflexivity. Qed.
Example energy20_gibbs : match greached ex1 sq0 lnf 8 2 film20 dsG20 2 with Ok _ => True | Err _ => False end.
Proof. vm_compute. auto. Qed.
(** A single person who has rated a single item. *)
Definition lone20 : binet Qc :=
  let l k lab i w := mkLink k lab 0 (Some i) n0 w in
  mkBi [mkNode ["a"%char] 0 0 [l 0 ["t"%char] 1 (qq 1)] None n0 0 n0; mkNode ["t"%char] 0 0 [l 0 ["a"%char] 0 (qq 1)] None n0 0 n0] [0] [1].
Example lone20_net : rating_net 2 lone20 /\ length (bset1 lone20) = 1 /\ length (bset2 lone20) = 1 /\ Forall2 (located (bset1 lone20) (bset2 lone20)) [(0, 1)] [(0, 0)].
Proof.
  split; [split|split; [reflexivity|split; [reflexivity|repeat constructor]]].
  - split.
    + apply Permutation_refl.
    + intros [|k] i n E H; cbn in E; try (destruct k; discriminate); injection E as <-; injection H as <-; reflexivity.
    + intros [|k] i n E H; cbn in E; try (destruct k; discriminate); injection E as <-; injection H as <-; reflexivity.
    + intros [|[|i]] n l E Hl; cbn in E; try (destruct i; discriminate); injection E as <-; cbn in Hl; repeat (destruct Hl as [<-|Hl]; [do 2 eexists; splits; reflexivity|]); destruct Hl.
    + intros [|[|i]] j H; cbn in H; try (destruct i; destruct H); repeat (destruct H as [<-|H]; [cbn; auto 10|]); destruct H.
    + intros [|[|i]]; cbn; try (destruct i; constructor); repeat constructor; cbn; intuition discriminate.
    + intros [|[|i]] [|[|j]]; cbn; try reflexivity; try (destruct i; reflexivity); try (destruct j; reflexivity); destruct i, j; reflexivity.
    + intros [|[|i]] n E; cbn in E; try (destruct i; discriminate); injection E as <-; auto.
  - cbv. repeat constructor; cbn; intuition discriminate.
  - cbv. repeat constructor; cbn; intuition discriminate.
  - intros n Hn. cbn in Hn. repeat (destruct Hn as [<-|Hn]; [cbn; lia|]). destruct Hn.
  - intros i j w H. exists 1. split; auto. destruct i as [|[|i]], j as [|[|j]]; cbn in H; try discriminate H; try (destruct i; discriminate H); try (destruct j; discriminate H); injection H as <-; apply Qc_is_canon; reflexivity.
  - cbn. lia.
  - cbn. lia.
Qed.
(** Without the rating 1, the pair (a, t) is unobserved; queries about it and about a new person. *)
Definition text20 : list ascii := ["a"; " "; "t"; "010"; "c"; " "; "t"; "010"]%char.
Example queries20 : exists b, RemoveRatings film20 1 = Ok b /\ unrated film20 = [] /\ unrated b = [(0, 2)] /\ weight (bmem b) 1 2 = Some (qq 0) /\
  asks text20 [(["a"], ["t"]); (["c"], ["t"])]%char /\ match ReadQueries text20 2 b with Ok (ps, b') => ps = [(0, 2); (3, 2)] /\ bset1 b' = [0; 1; 3] | Err _ => False end.
Proof.
  eexists. split; [vm_compute; reflexivity|]. split; [reflexivity|]. split; [reflexivity|]. split; [reflexivity|]. split; [|vm_compute; auto].
  assert (W : forall x, In x [["a"]; ["t"]; ["c"]]%char -> word x) by (intros x Hx; cbn in Hx; repeat (destruct Hx as [<-|Hx]; [split; [discriminate|intros c [<-|[]] Hc; cbn in Hc; intuition discriminate]|]); destruct Hx).
  assert (B1 : blank " "%char) by (cbn; auto). assert (B2 : blank "010"%char) by (cbn; auto).
  apply (asks_pair [] ["a"] [" "] ["t"] ["010"; "c"; " "; "t"; "010"])%char.
  - intros x [<-|[]]. exact B1.
  - discriminate.
  - apply W. cbn; auto.
  - apply W. cbn; auto.
  - intros x t [= <- _]. exact B2.
  - apply (asks_pair ["010"] ["c"] [" "] ["t"] ["010"])%char.
    + intros x [<-|[<-|[]]]; assumption.
    + discriminate.
    + apply W. cbn; auto.
    + apply W. cbn; auto.
    + intros x t [= <- _]. exact B2.
    + constructor.
Qed.

(** C104 is false: a random number 0 makes the Gibbs sampler read before the start of its list of groups. *)
Definition C104_statement : Prop := forall ex (lnfact : nat -> Qc) lfsize K (b : binet Qc) ds times, (forall x, 0 < ex x)%Qc -> lnfact 0 = 0%Qc -> 0 < K -> bipartite b -> in_range K b ->
  0 < length (bset1 b) -> 0 < length (bset2 b) -> Forall (fun u => 0 <= u /\ u < 1)%Qc ds -> greached ex sq0 lnfact lfsize K b ds times <> Err UB_oob.
Theorem C104_zero_refuted : ~ C104_statement.
Proof.
  intros H. destruct film20_net as [[B _ _ _ HI N1 N2] _]. refine (H ex1 lnf 8 2 film20 [0%Qc; 0%Qc; 0%Qc] 1 ex1_pos (proj2 cost20) _ B HI N1 N2 _ _); [lia| |vm_compute; reflexivity].
  repeat constructor; discriminate.
Qed.

(** C105 is false: with ratings other than 0, ..., K-1 the running energy drifts away from the energy. *)
Definition C105_statement : Prop := forall (lnfact : nat -> Qc) K (b : binet Qc) ds factors st, 0 < K -> bipartite b -> 0 < length (bset1 b) -> 0 < length (bset2 b) -> Forall good_draw ds ->
  reachedK ex0 sq0 lnfact 8 8 K b ds factors = Ok st -> HKState lnfact K (rnet st) (sP (r1 st)) (sP (r2 st)) = Ok (rH st).
Definition dsR20 : list Qc := map qq [0; 0; 1 # 2; 0; 0; 1 # 2; 0; 0; 0; 1 # 2; 0; 0; 0]%Q.
Theorem C105_range_refuted : ~ C105_statement.
Proof.
  intros H. destruct (reachedK ex0 sq0 lnf 8 8 2 (pair20 (qq 5) (qq 5)) dsR20 [1]) as [st|e] eqn:E; [|vm_compute in E; discriminate E].
  assert (HD : Forall good_draw dsR20) by (apply good_draws; vm_compute; reflexivity).
  specialize (H lnf 2 (pair20 (qq 5) (qq 5)) dsR20 [1] st ltac:(lia) (pair20_bi _ _) ltac:(cbn; lia) ltac:(cbn; lia) HD E).
  assert (X : match reachedK ex0 sq0 lnf 8 8 2 (pair20 (qq 5) (qq 5)) dsR20 [1] with Ok st => match HKState lnf 2 (rnet st) (sP (r1 st)) (sP (r2 st)) with Ok x => Qeq_bool x (rH st) | Err _ => true end | Err _ => true end = false) by (vm_compute; reflexivity).
  rewrite E in X. change (Qc_ops ex0 sq0) with ops20 in *. rewrite H in X. rewrite (proj2 (Qeq_bool_iff _ _)) in X; [discriminate X|reflexivity].
Qed.

Print Assumptions C99_scores.
Print Assumptions C99_probabilities.
Print Assumptions C99_two.
Print Assumptions C100_energy.
Print Assumptions C100_energy_two.
Print Assumptions C101_single.
Print Assumptions C102_scores.
Print Assumptions C102_probabilities.
Print Assumptions C103_energy.
Print Assumptions C104_zero_refuted.
Print Assumptions C105_range_refuted.
Print Assumptions C106_unobserved.
Print Assumptions C107_remove.
Print Assumptions C108_queries.
