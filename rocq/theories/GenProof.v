(** GenProof.v -- the random generators of src/models.c: names, links and pairs. *)
From Coq Require Import List Arith Lia Bool Ascii.
From Verif Require Import Base ListLib IoModel GraphModel GraphSpec GraphProof BipartModel BipartMem NetModel NetSpec NetBuild GenModel GenSpec.
Import ListNotations.
Local Open Scope nat_scope.

(** ** Decimal numerals *)
Lemma digit_nat k : k < 10 -> nat_of_ascii (digit k) = 48 + k.
Proof. intros H. unfold digit. rewrite nat_ascii_embedding; lia. Qed.

Lemma value_snoc l c : value (l ++ [c]) = 10 * value l + (nat_of_ascii c - 48).
Proof. unfold value. rewrite fold_left_app. reflexivity. Qed.

Lemma digits_numeral fuel : forall n, n < fuel -> numeral (digits fuel n) n /\ (forall c l', digits fuel n = c :: l' -> 1 <= n -> nat_of_ascii c <> 48).
Proof.
  induction fuel as [|fuel IH]; intros n Hn; [lia|]. cbn [digits]. destruct (Nat.ltb_spec n 10) as [H|H].
  - unfold numeral, is_digit. splits.
    + constructor; auto. rewrite digit_nat; lia.
    + intros c l' E. inversion E; subst. intros F; congruence.
    + discriminate.
    + change [digit n] with ([] ++ [digit n]). rewrite value_snoc, digit_nat by auto. change (value []) with 0. lia.
    + intros c l' E. inversion E; subst. rewrite digit_nat; lia.
  - assert (D : n / 10 < fuel) by (assert (n / 10 < n) by (apply Nat.div_lt; lia); lia).
    assert (P : 1 <= n / 10) by (apply Nat.div_le_lower_bound; lia). pose proof (Nat.mod_upper_bound n 10 ltac:(lia)) as M.
    destruct (IH (n / 10) D) as [(F & Z & NE & V) Z'].
    assert (HD : forall c l', digits fuel (n / 10) ++ [digit (n mod 10)] = c :: l' -> nat_of_ascii c <> 48).
    { intros c l' E. destruct (digits fuel (n / 10)) as [|x r] eqn:Ed; [congruence|]. inversion E; subst. eapply Z'; eauto. }
    unfold numeral. splits.
    + apply Forall_app. split; auto. constructor; auto. unfold is_digit. rewrite digit_nat; lia.
    + intros c l' E _. eapply HD; eauto.
    + intros E. apply app_eq_nil in E as [_ E]. discriminate.
    + rewrite value_snoc, V, digit_nat by auto. pose proof (Nat.div_mod n 10 ltac:(lia)). lia.
    + intros c l' E _. eapply HD; eauto.
Qed.

Lemma sprintf_numeral n : numeral (sprintf_d n) n.
Proof. apply digits_numeral. lia. Qed.

Lemma digits_length k : forall fuel n, n < 10 ^ k -> 0 < k -> length (digits fuel n) <= k.
Proof.
  induction k as [|k IH]; intros fuel n H Hk; [lia|]. destruct fuel as [|fuel]; cbn [digits]; [simpl; lia|].
  destruct (Nat.ltb_spec n 10) as [L|L]; [simpl; lia|]. rewrite app_length. cbn [length].
  destruct k as [|k]; [rewrite Nat.pow_1_r in H; lia|]. specialize (IH fuel (n / 10)).
  assert (n / 10 < 10 ^ S k) by (apply Nat.div_lt_upper_bound; [lia|]; rewrite <- Nat.pow_succ_r'; auto). lia.
Qed.

Lemma sprintf_short N i : writable N -> i < N -> length (sprintf_d (i + 1)) < 100.
Proof.
  intros (k & Hk & H) Hi. unfold sprintf_d. assert (Hk0 : 0 < k) by (destruct k; [simpl in H; lia|lia]).
  pose proof (digits_length k (S (i + 1)) (i + 1) ltac:(lia) Hk0). lia.
Qed.

(** ** Pairs *)
Lemma upper_In n i j : In (i, j) (upper n) <-> i < j < n.
Proof.
  unfold upper. rewrite in_flat_map. split.
  - intros (x & Hx & H). apply in_map_iff in H as (y & E & Hy). inversion E; subst. apply in_seq in Hx, Hy. lia.
  - intros H. exists i. split; [apply in_seq; lia|]. apply in_map_iff. exists j. split; auto. apply in_seq. lia.
Qed.

Lemma NoDup_pairs (h : nat -> list nat) (l : list nat) : NoDup l -> (forall i, NoDup (h i)) -> NoDup (flat_map (fun i => map (pair i) (h i)) l).
Proof.
  intros H Hh. induction H as [|x l Hx H IH]; simpl; [constructor|]. apply NoDup_app_iff. splits; auto.
  - apply FinFun.Injective_map_NoDup; auto. intros a b E. congruence.
  - intros [a b] H1 H2. apply in_map_iff in H1 as (y & E & _). inversion E; subst. apply in_flat_map in H2 as (z & Hz & H2). apply in_map_iff in H2 as (y' & E' & _). inversion E'; subst. auto.
Qed.

Lemma upper_NoDup n : NoDup (upper n).
Proof. apply NoDup_pairs; intros; apply seq_NoDup. Qed.

Lemma upper_length n : 2 * length (upper n) = n * (n - 1).
Proof.
  assert (H : forall k, k <= n -> 2 * length (flat_map (fun i => map (pair i) (seq (i + 1) (n - (i + 1)))) (seq 0 k)) + k * (k + 1) = 2 * k * n).
  { induction k as [|k IH]; intros Hk; [reflexivity|]. rewrite seq_S, flat_map_app, app_length. cbn [flat_map]. rewrite app_nil_r, map_length, seq_length. simpl Nat.add. specialize (IH ltac:(lia)). nia. }
  specialize (H n ltac:(lia)). unfold upper. destruct n; nia.
Qed.

Lemma foldM_pairs {S} (f : S -> nat -> nat -> res S) (h : nat -> list nat) l : forall s,
  foldM (fun s i => foldM (fun s j => f s i j) s (h i)) s l = foldM (fun s ij => f s (fst ij) (snd ij)) s (flat_map (fun i => map (pair i) (h i)) l).
Proof.
  induction l as [|x l IH]; intros s; [reflexivity|]. cbn [foldM flat_map]. rewrite foldM_app.
  assert (E : forall r s, foldM (fun s j => f s x j) s r = foldM (fun s ij => f s (fst ij) (snd ij)) s (map (pair x) r)).
  { induction r as [|y r IHr]; intros s'; [reflexivity|]. cbn [map foldM fst snd]. destruct (f s' x y); cbn [bind]; auto. }
  rewrite E. destruct (foldM _ s (map (pair x) (h x))); cbn [bind]; auto.
Qed.

Section Gen.
Context {A : Type} {ops : NumOps A}.
Implicit Types g : net A.

(** ** Nodes *)
Definition has_nodes (nl : list (option nat)) (k : nat) : Prop := forall i, i < k -> nth_error nl i = Some (Some i).

Lemma new_node_ok g nl i : wf_net g -> length g = i -> i < length nl -> length (sprintf_d (i + 1)) < 100 ->
  new_node (g, nl) i = Ok (g ++ [bare (sprintf_d (i + 1)) i], upd nl i (Some i)).
Proof.
  intros W L Hi Hl. unfold new_node. rewrite (Create_ok g _ W Hl). cbn [bind]. rewrite (set_ok nl i (Some (length g)) Hi). cbn [bind]. rewrite L. reflexivity.
Qed.

Lemma has_nodes_snoc nl k : k < length nl -> has_nodes nl k -> has_nodes (upd nl k (Some k)) (k + 1).
Proof. intros L H i Hi. destruct (Nat.eq_dec i k) as [->|Nk]; [apply nth_upd_eq; auto|]. rewrite nth_upd_neq by auto. apply H. lia. Qed.

Lemma undirected_snoc g lab : undirected g -> undirected (g ++ [bare lab (length g)]).
Proof.
  intros [W Lp Sy]. split; [apply wf_snoc; auto| |].
  - intros i. rewrite nbrs_snoc; auto.
  - intros i j. rewrite !weight_snoc; auto.
Qed.

(** ** Links *)
Lemma link_both_ok g nl i j k : undirected g -> weightless g -> has_nodes nl k -> i < k -> j < k -> k <= length g ->
  exists g', link_both g nl i j = Ok g' /\ undirected g' /\ same_nodes g g' /\ weightless g' /\
    (forall a b, In b (nbrs g' a) <-> In b (nbrs g a) \/ (i <> j /\ (a = i /\ b = j \/ a = j /\ b = i))).
Proof.
  intros U Z H Hi Hj Hk. unfold link_both. rewrite (get_ok nl i _ (H i Hi)). cbn [bind deref]. rewrite (get_ok nl j _ (H j Hj)). cbn [bind deref].
  destruct (Nat.eq_dec i j) as [<-|Nij].
  - unfold AddAdjacency. rewrite Nat.eqb_refl. cbn [andb negb bind]. exists g. splits; auto using same_nodes_refl. intros a b. tauto.
  - destruct (add_both g i j false n0 0 0 U) as (r1 & r2 & g1 & g2 & E1 & E2 & U2 & S2 & W2 & _); try lia.
    rewrite E1. cbn [bind]. rewrite E2. cbn [bind]. exists g2. splits; auto.
    + intros a b w. rewrite W2. destruct ((a =? i) && (b =? j) || (a =? j) && (b =? i)); [|apply Z].
      destruct (weight g i j) eqn:E; intros F; inversion F; subst; auto. eapply Z; eauto.
    + intros a b. rewrite !nbrs_weight, W2. destruct ((a =? i) && (b =? j) || (a =? j) && (b =? i)) eqn:Eb.
      * split; [|destruct (weight g i j); discriminate]. intros _. right. split; auto. apply orb_true_iff in Eb as [Eb|Eb]; apply andb_true_iff in Eb as [Ea Eb]; apply Nat.eqb_eq in Ea, Eb; auto.
      * split; auto. intros [F|(_ & [[-> ->]|[-> ->]])]; auto; rewrite !Nat.eqb_refl in Eb; simpl in Eb; try discriminate. rewrite orb_true_r in Eb. discriminate.
Qed.

(** ** Trying every pair once *)
Definition tried (f : net A * list A -> nat * nat -> res (net A * list A)) (nl : list (option nat)) (g0 : net A) (prob : nat * nat -> A) (ps : list (nat * nat)) : Prop :=
  forall g ds i j, same_nodes g0 g -> In (i, j) ps ->
    f (g, ds) (i, j) = do (u, ds) <- draw ds; if nltb u (prob (i, j)) then do g <- link_both g nl i j; Ok (g, ds) else Ok (g, ds).

Lemma pairs_run f nl g0 prob k ps0 : tried f nl g0 prob ps0 -> has_nodes nl k -> k <= length g0 ->
  forall ps g ds, incl ps ps0 -> (forall i j, In (i, j) ps -> i < k /\ j < k) -> same_nodes g0 g -> undirected g -> weightless g ->
  if length ds <? length ps then foldM f (g, ds) ps = Err RngOut else
  exists g', foldM f (g, ds) ps = Ok (g', skipn (length ps) ds) /\ undirected g' /\ same_nodes g0 g' /\ weightless g' /\
    (forall a b, In b (nbrs g' a) <-> In b (nbrs g a) \/
       exists r i j u, nth_error ps r = Some (i, j) /\ nth_error ds r = Some u /\ nltb u (prob (i, j)) = true /\ i <> j /\ (a = i /\ b = j \/ a = j /\ b = i)).
Proof.
  intros T H Hk. induction ps as [|[i j] ps IH]; intros g ds I B S U Z.
  - destruct (Nat.ltb_spec (length ds) (length (@nil (nat * nat)))) as [L|_]; [simpl in L; lia|]. exists g. splits; auto. intros a b. split; auto. intros [F|(r & x & y & u & E & _)]; auto. destruct r; discriminate.
  - cbn [foldM]. rewrite (T g ds i j S) by (apply I; simpl; auto). destruct ds as [|u ds]; [reflexivity|]. cbn [draw bind length skipn].
    change (Datatypes.S (length ds) <? Datatypes.S (length ps)) with (length ds <? length ps).
    assert (Bij : i < k /\ j < k) by (apply B; simpl; auto). pose proof (same_nodes_length _ _ S) as Lg.
    assert (ST : exists g1, (if nltb u (prob (i, j)) then do g <- link_both g nl i j; Ok (g, ds) else Ok (g, ds)) = Ok (g1, ds) /\ undirected g1 /\ same_nodes g0 g1 /\ weightless g1 /\
      forall a b, In b (nbrs g1 a) <-> In b (nbrs g a) \/ (nltb u (prob (i, j)) = true /\ i <> j /\ (a = i /\ b = j \/ a = j /\ b = i))).
    { destruct (nltb u (prob (i, j))).
      - destruct (link_both_ok g nl i j k U Z H) as (g1 & -> & U1 & S1 & Z1 & N1); try lia. cbn [bind]. exists g1. splits; auto. { eapply same_nodes_trans; eauto. } intros a b. rewrite N1. tauto.
      - exists g. splits; auto. intros a b. split; auto. intros [F|[F _]]; auto. discriminate. }
    destruct ST as (g1 & -> & U1 & S1 & Z1 & N1). cbn [bind].
    specialize (IH g1 ds). destruct (length ds <? length ps).
    + apply IH; auto. { intros x Hx. apply I. simpl; auto. } intros x y Hx. apply B. simpl; auto.
    + destruct IH as (g' & E & U' & S' & Z' & N'); auto. { intros x Hx. apply I. simpl; auto. } { intros x y Hx. apply B. simpl; auto. }
      exists g'. splits; auto. intros a b. rewrite N', N1. split.
      * intros [[F|F]|(r & x & y & v & F1 & F2 & F)]; auto.
        -- right. exists 0, i, j, u. cbn [nth_error]. splits; tauto.
        -- right. exists (Datatypes.S r), x, y, v. cbn [nth_error]. splits; tauto.
      * intros [F|(r & x & y & v & F1 & F2 & F)]; auto. destruct r as [|r]; cbn [nth_error] in F1, F2.
        -- inversion F1; inversion F2; subst. auto.
        -- right. exists r, x, y, v. splits; tauto.
Qed.

(** Each pair of [upper n] has its own draw. *)
Lemma pairs_upper g n prob ds : (forall a, nbrs g a = []) -> forall g',
  (forall a b, In b (nbrs g' a) <-> In b (nbrs g a) \/
       exists r i j u, nth_error (upper n) r = Some (i, j) /\ nth_error ds r = Some u /\ nltb u (prob (i, j)) = true /\ i <> j /\ (a = i /\ b = j \/ a = j /\ b = i)) ->
  forall r i j u, nth_error (upper n) r = Some (i, j) -> nth_error ds r = Some u -> (In j (nbrs g' i) <-> nltb u (prob (i, j)) = true).
Proof.
  intros N0 g' N' r i j u E Eu. rewrite N', N0. assert (Hij : i < j < n) by (apply upper_In; eapply nth_error_In; eauto). split.
  - intros [F|(r' & x & y & v & F1 & F2 & F3 & F4 & [[-> ->]|[-> ->]])]; [destruct F| |].
    + assert (r' = r). { apply (proj1 (NoDup_nth_error (upper n)) (upper_NoDup n)); [eapply nth_lt; eauto|congruence]. } subst. congruence.
    + apply nth_error_In in F1. apply upper_In in F1. lia.
  - intros F. right. exists r, i, j, u. splits; auto. lia.
Qed.

(** ** Nodes without links *)
Definition blank (n : nat) : net A := map (fun i => bare (sprintf_d (i + 1)) i) (seq 0 n).
Lemma blank_S n : blank (S n) = blank n ++ [bare (sprintf_d (n + 1)) (length (blank n))].
Proof. unfold blank. rewrite seq_S, map_app, map_length, seq_length. reflexivity. Qed.
Lemma blank_length n : length (blank n) = n.
Proof. unfold blank. rewrite map_length, seq_length. reflexivity. Qed.
Lemma blank_undirected n : undirected (blank n).
Proof.
  induction n as [|n IH]; [|rewrite blank_S; apply undirected_snoc; auto]. split; [apply wf_nil| |].
  - intros [|i] [].
  - intros [|i] [|j]; reflexivity.
Qed.
Lemma blank_nbrs n a : nbrs (blank n) a = [].
Proof. induction n as [|n IH]; [destruct a; reflexivity|]. rewrite blank_S, nbrs_snoc; auto. Qed.
Lemma blank_weightless n : weightless (blank n).
Proof. intros a b w E. assert (H : In b (nbrs (blank n) a)) by (apply nbrs_weight; congruence). rewrite blank_nbrs in H. destruct H. Qed.

Lemma named_same g g' n : named g n -> same_nodes g g' -> named g' n.
Proof.
  intros [L H] S. split; [rewrite <- (same_nodes_length _ _ S); auto|]. intros i nd E.
  destruct (nth_ex g i) as [m Em]. { rewrite (same_nodes_length _ _ S). eapply nth_lt; eauto. }
  destruct (same_nodes_nth _ _ _ _ S Em) as (m' & Em' & El & _). assert (m' = nd) by congruence. subst. rewrite <- El. auto.
Qed.
Lemma named_snoc g n : named g n -> named (g ++ [bare (sprintf_d (n + 1)) n]) (n + 1).
Proof.
  intros [L H]. split; [rewrite app_length, L; reflexivity|]. intros i nd E. apply nth_snoc in E as [E|[-> ->]]; auto. rewrite L. apply sprintf_numeral.
Qed.
Lemma named_nil : named (@nil (gnode A)) 0.
Proof. split; auto. intros [|i] nd E; discriminate. Qed.
Lemma blank_named n : named (blank n) n.
Proof. induction n as [|n IH]; [apply named_nil|]. rewrite blank_S, blank_length. replace (S n) with (n + 1) by lia. apply named_snoc; auto. Qed.

Lemma make_nodes N : writable N -> forall k, k <= N ->
  exists nl, foldM (@new_node A _) ([], repeat None N) (seq 0 k) = Ok (blank k, nl) /\ length nl = N /\ has_nodes nl k.
Proof.
  intros HN. induction k as [|k IH]; intros Hk.
  - exists (repeat None N). splits; auto. { apply repeat_length. } intros i Hi; lia.
  - destruct IH as (nl & E & Ln & Hn); [lia|]. rewrite seq_S, foldM_app, E. cbn [bind foldM]. rewrite Nat.add_0_l.
    rewrite new_node_ok; try lia. 2:{ apply un_wf, blank_undirected. } 2:{ apply blank_length. } 2:{ eapply sprintf_short; eauto; lia. }
    cbn [bind]. exists (upd nl k (Some k)). rewrite blank_S, blank_length. splits; auto. { rewrite length_upd; auto. }
    replace (S k) with (k + 1) by lia. apply has_nodes_snoc; auto; lia.
Qed.

Theorem EmptyGraph_spec N : writable N ->
  exists g : net A, EmptyGraph N = Ok g /\ undirected g /\ named g N /\ (forall i, nbrs g i = []).
Proof.
  intros HN. exists (blank N). splits; auto using blank_undirected, blank_named, blank_nbrs. unfold EmptyGraph.
  assert (H : forall k, k <= N -> foldM (fun g node1 => do (_, g) <- CreateNodeGraph g (sprintf_d (node1 + 1)); Ok g) (@nil (gnode A)) (seq 0 k) = Ok (blank k)).
  { induction k as [|k IH]; intros Hk; [reflexivity|]. rewrite seq_S, foldM_app, IH by lia. cbn [bind foldM]. rewrite Nat.add_0_l, Create_ok.
    - cbn [bind]. rewrite blank_S. reflexivity.
    - apply un_wf, blank_undirected.
    - eapply sprintf_short; eauto; lia. }
  apply H. auto.
Qed.

(** ** ERGraph *)
Theorem ERGraph_spec N (p : A) ds : writable N ->
  if length ds <? length (upper N) then ERGraph N p ds = Err RngOut else
  exists g, ERGraph N p ds = Ok (g, skipn (length (upper N)) ds) /\ undirected g /\ named g N /\ weightless g /\
    (forall r i j u, nth_error (upper N) r = Some (i, j) -> nth_error ds r = Some u -> (In j (nbrs g i) <-> nltb u p = true)).
Proof.
  intros HN. unfold ERGraph. destruct (make_nodes N HN N (le_n _)) as (nl & E & Ln & Hn). rewrite E. cbn [bind].
  rewrite (foldM_pairs (fun st i j => er_pair nl p st i j)). fold (upper N).
  pose proof (pairs_run (fun st ij => er_pair nl p st (fst ij) (snd ij)) nl (blank N) (fun _ => p) N (upper N)) as H.
  specialize (H ltac:(intros g ds' i j _ _; reflexivity) Hn ltac:(rewrite blank_length; auto) (upper N) (blank N) ds (incl_refl _)).
  specialize (H ltac:(intros i j Hi; apply upper_In in Hi; lia) (same_nodes_refl _) (blank_undirected N) (blank_weightless N)).
  destruct (length ds <? length (upper N)); auto.
  destruct H as (g & Eg & U & S & Z & Nb). exists g. splits; auto. { eapply named_same; eauto using blank_named. }
  exact (pairs_upper (blank N) N (fun _ => p) ds (blank_nbrs N) g Nb).
Qed.

(** Draws that never fall below [p], or always do. *)
Corollary ERGraph_none N (p : A) ds g ds' : writable N -> Forall (fun u => nltb u p = false) ds -> ERGraph N p ds = Ok (g, ds') -> forall i, nbrs g i = [].
Proof.
  intros HN F E. pose proof (ERGraph_spec N p ds HN) as H. destruct (Nat.ltb_spec (length ds) (length (upper N))) as [L|L]; [congruence|].
  destruct H as (g' & E' & U & [Lg _] & _ & Hl). assert (g' = g) by congruence. subst g'.
  assert (X : forall i j, i < j -> ~ In j (nbrs g i)).
  { intros i j Hij Hin. destruct (nbrs_lt g i j (un_wf _ U) Hin) as [_ Lj].
    destruct (In_nth_error (upper N) (i, j)) as [r Er]; [apply upper_In; lia|]. destruct (nth_ex ds r) as [u Eu]; [apply nth_lt in Er; lia|].
    apply (Hl r i j u Er Eu) in Hin. rewrite Forall_forall in F. rewrite (F u) in Hin; [discriminate|]. eapply nth_error_In; eauto. }
  intros i. destruct (nbrs g i) as [|j l] eqn:En; auto. exfalso. assert (Hin : In j (nbrs g i)) by (rewrite En; simpl; auto).
  destruct (lt_eq_lt_dec i j) as [[Hij| ->]|Hij].
  - apply (X i j); auto.
  - apply (un_loop _ U j); auto.
  - apply (X j i); auto. apply undirected_sym; auto.
Qed.
Corollary ERGraph_all N (p : A) ds g ds' : writable N -> Forall (fun u => nltb u p = true) ds -> ERGraph N p ds = Ok (g, ds') ->
  forall i j, i < N -> j < N -> i <> j -> In j (nbrs g i).
Proof.
  intros HN F E. pose proof (ERGraph_spec N p ds HN) as H. destruct (Nat.ltb_spec (length ds) (length (upper N))) as [L|L]; [congruence|].
  destruct H as (g' & E' & U & [Lg _] & _ & Hl). assert (g' = g) by congruence. subst g'.
  assert (X : forall i j, i < j < N -> In j (nbrs g i)).
  { intros i j Hij. destruct (In_nth_error (upper N) (i, j)) as [r Er]; [apply upper_In; lia|]. destruct (nth_ex ds r) as [u Eu]; [apply nth_lt in Er; lia|].
    apply (Hl r i j u Er Eu). rewrite Forall_forall in F. apply F. eapply nth_error_In; eauto. }
  intros i j Hi Hj Nij. destruct (Nat.lt_ge_cases i j); [apply X; lia|]. apply undirected_sym; auto. apply X. lia.
Qed.
End Gen.
