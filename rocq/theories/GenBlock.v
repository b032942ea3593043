(** GenBlock.v -- UndirectedBlockGraph and GirvanNewmanGraph of src/models.c. *)
From Coq Require Import List Arith Lia Bool Ascii.
From Verif Require Import Base ListLib MatLib IoModel GraphModel GraphSpec GraphProof BipartModel BipartMem NetModel NetSpec NetBuild GenModel GenSpec GenProof.
Import ListNotations.
Local Open Scope nat_scope.

Section Block.
Context {A : Type} {ops : NumOps A}.
Implicit Types g : net A.

(** Nodes [0 .. k) without links, in the groups [gs]. *)
Record seated g (gs : list nat) : Prop := {
  se_un : undirected g; se_na : named g (length gs); se_nb : forall a, nbrs g a = [];
  se_gr : map ggroup g = map Some gs
}.

Lemma node_ok N g nl gs i : writable N -> length nl = N -> length gs < N -> has_nodes nl (length gs) -> seated g gs ->
  exists g' nl', block_node i (g, nl) (length gs) = Ok (g', nl') /\ length nl' = N /\ has_nodes nl' (length gs + 1) /\ seated g' (gs ++ [i]).
Proof.
  intros HN Ln Hk Ha [U Na Nb Gr]. unfold block_node. pose proof (proj1 Na) as Lg.
  rewrite new_node_ok; auto using un_wf; try lia. 2:{ eapply sprintf_short; eauto. } cbn [bind].
  rewrite (get_ok (upd nl _ _) _ (Some (length gs))) by (apply nth_upd_eq; lia). cbn [bind deref].
  set (g1 := g ++ [bare (sprintf_d (length gs + 1)) (length gs)]).
  assert (E1 : nth_error g1 (length gs) = Some (bare (sprintf_d (length gs + 1)) (length gs))). { unfold g1. rewrite nth_error_app2, Lg, Nat.sub_diag by lia. reflexivity. }
  assert (U1 : undirected g1). { unfold g1. rewrite <- Lg at 2. apply undirected_snoc; auto. }
  assert (N1 : forall a, nbrs g1 a = []). { intros a. unfold g1. rewrite nbrs_snoc; auto. }
  unfold upd_node. rewrite (get_ok _ _ _ E1). cbn [bind]. rewrite set_ok by (eapply nth_lt; eauto). cbn [bind].
  set (b := set_ggroup (Some i) (bare (sprintf_d (length gs + 1)) (length gs))).
  assert (Eg : upd g1 (length gs) b = g ++ [b]). { unfold g1. rewrite <- Lg. apply upd_app_mid. }
  rewrite Eg. exists (g ++ [b]), (upd nl (length gs) (Some (length gs))). splits; auto.
  - rewrite length_upd. auto.
  - apply has_nodes_snoc; auto; lia.
  - assert (Nb' : forall a, nbrs (g ++ [b]) a = []) by (intros a; rewrite nbrs_snoc; auto).
    split; auto.
    + split.
      * rewrite <- Eg. eapply wf_upd; eauto using un_wf; simpl; auto using NoDup_nil. intros l [].
      * intros a. rewrite Nb'. auto.
      * intros a c. destruct (weight (g ++ [b]) a c) eqn:E.
        { exfalso. assert (In c (nbrs (g ++ [b]) a)) by (apply nbrs_weight; congruence). rewrite Nb' in H. destruct H. }
        destruct (weight (g ++ [b]) c a) eqn:E'; auto. exfalso. assert (In a (nbrs (g ++ [b]) c)) by (apply nbrs_weight; congruence). rewrite Nb' in H. destruct H.
    + split; [rewrite !app_length, Lg; reflexivity|]. intros k nd E. apply nth_snoc in E as [E|[-> ->]]; [apply Na; auto|]. rewrite Lg. apply sprintf_numeral.
    + rewrite !map_app, Gr. reflexivity.
Qed.

Lemma group_ok N i nl0 g0 gs : writable N -> length nl0 = N -> has_nodes nl0 (length gs) -> seated g0 gs -> forall k, length gs + k <= N ->
  exists g' nl', foldM (block_node i) (g0, nl0) (seq (length gs) k) = Ok (g', nl') /\ length nl' = N /\ has_nodes nl' (length gs + k) /\ seated g' (gs ++ repeat i k).
Proof.
  intros HN Ln Ha Se. induction k as [|k IH]; intros Hk; [exists g0, nl0; rewrite Nat.add_0_r, app_nil_r; splits; auto|].
  destruct IH as (g1 & nl1 & E1 & L1 & H1 & S1); [lia|]. rewrite seq_S, foldM_app, E1. cbn [bind foldM].
  assert (Ll : length (gs ++ repeat i k) = length gs + k) by (rewrite app_length, repeat_length; auto).
  destruct (node_ok N g1 nl1 (gs ++ repeat i k) i) as (g2 & nl2 & E2 & L2 & H2 & S2); auto; try lia. { rewrite Ll. auto. }
  rewrite Ll in E2. rewrite E2. cbn [bind]. exists g2, nl2. splits; auto.
  - rewrite Ll in H2. replace (length gs + S k) with (length gs + k + 1) by lia. auto.
  - rewrite <- app_assoc in S2. replace (repeat i (S k)) with (repeat i k ++ [i]); auto. symmetry. apply repeat_cons.
Qed.

Lemma blocks_S n (gsize : list nat) : blocks (S n) gsize = blocks n gsize ++ repeat n (nth n gsize 0).
Proof. unfold blocks. rewrite seq_S, flat_map_app. cbn [flat_map]. rewrite app_nil_r. reflexivity. Qed.

Lemma blocks_mono n m gsize : n <= m -> length (blocks n gsize) <= length (blocks m gsize).
Proof. induction 1; auto. rewrite blocks_S, app_length. lia. Qed.

Lemma seated_nil : seated (@nil (gnode A)) [].
Proof. split; [exact (blank_undirected 0)|exact named_nil| |reflexivity]. intros [|a]; reflexivity. Qed.

Lemma groups_ok ngroup gsize : ngroup <= length gsize -> writable (length (blocks ngroup gsize)) -> forall n, n <= ngroup ->
  exists g nl, foldM (@block_group A _ gsize) ([], repeat None (length (blocks ngroup gsize)), 0) (seq 0 n) = Ok (g, nl, length (blocks n gsize)) /\
    length nl = length (blocks ngroup gsize) /\ has_nodes nl (length (blocks n gsize)) /\ seated g (blocks n gsize).
Proof.
  intros Hg HN. induction n as [|n IH]; intros Hn.
  - exists [], (repeat None (length (blocks ngroup gsize))). splits; auto using repeat_length, seated_nil. intros i Hi. simpl in Hi. lia.
  - destruct IH as (g & nl & E & Ln & Ha & Se); [lia|]. rewrite seq_S, foldM_app, E. cbn [bind foldM]. rewrite Nat.add_0_l. unfold block_group at 1.
    rewrite (get_ok gsize n (nth n gsize 0)) by (apply nth_error_nth'; lia). cbn [bind].
    destruct (group_ok (length (blocks ngroup gsize)) n nl g (blocks n gsize) HN Ln Ha Se (nth n gsize 0)) as (g' & nl' & E' & Ln' & Ha' & Se').
    { pose proof (blocks_mono (S n) ngroup gsize Hn) as M. rewrite blocks_S, app_length, repeat_length in M. lia. }
    rewrite E'. cbn [bind]. rewrite blocks_S, app_length, repeat_length. exists g', nl'. splits; auto.
Qed.

Lemma size_ok ngroup gsize : ngroup <= length gsize -> foldM (fun N i => do k <- get gsize i; Ok (N + k)) 0 (seq 0 ngroup) = Ok (length (blocks ngroup gsize)).
Proof.
  intros Hg. assert (H : forall n, n <= ngroup -> foldM (fun N i => do k <- get gsize i; Ok (N + k)) 0 (seq 0 n) = Ok (length (blocks n gsize))).
  { induction n as [|n IH]; intros Hn; [reflexivity|]. rewrite seq_S, foldM_app, IH by lia. cbn [bind foldM]. rewrite Nat.add_0_l, (get_ok gsize n (nth n gsize 0)) by (apply nth_error_nth'; lia).
    cbn [bind]. rewrite blocks_S, app_length, repeat_length. reflexivity. }
  apply H. auto.
Qed.

Lemma same_groups g g' : same_nodes g g' -> map ggroup g = map ggroup g'.
Proof. unfold same_nodes. induction 1 as [|n m g g' H F IH]; cbn [map]; auto. rewrite IH. f_equal. tauto. Qed.

(** The matrix is defined for every pair of groups that occurs. *)
Definition covers (q : list (list A)) (gs : list nat) : Prop :=
  forall i j a b, i < j -> nth_error gs i = Some a -> nth_error gs j = Some b -> entry q a b <> None.

Definition chance (q : list (list A)) (gs : list nat) (ij : nat * nat) : A :=
  match nth_error gs (fst ij), nth_error gs (snd ij) with
  | Some a, Some b => match entry q a b with Some x => x | None => n0 end
  | _, _ => n0
  end.

Theorem Block_spec ngroup gsize q ds : let gs := blocks ngroup gsize in let N := length gs in
  ngroup <= length gsize -> writable N -> covers q gs ->
  if length ds <? length (upper N) then UndirectedBlockGraph ngroup gsize q ds = Err RngOut else
  exists g, UndirectedBlockGraph ngroup gsize q ds = Ok (g, skipn (length (upper N)) ds) /\ undirected g /\ named g N /\ weightless g /\
    map ggroup g = map Some gs /\
    (forall r i j u a b, nth_error (upper N) r = Some (i, j) -> nth_error ds r = Some u -> nth_error gs i = Some a -> nth_error gs j = Some b ->
       exists x, entry q a b = Some x /\ (In j (nbrs g i) <-> nltb u x = true)).
Proof.
  intros gs N Hg HN HC. unfold UndirectedBlockGraph. rewrite (size_ok _ _ Hg). cbn [bind].
  destruct (groups_ok ngroup gsize Hg HN ngroup (le_n _)) as (g0 & nl & E & Ln & Ha & [U0 Na0 Nb0 Gr0]). rewrite E. cbn [bind]. fold gs in E, Ln, Ha, Na0, Gr0 |- *. fold N in Ln, Ha, Na0 |- *.
  rewrite (foldM_pairs (fun st i j => block_pair nl q st i j)). fold (upper N).
  assert (W0 : weightless g0). { intros a b w Ew. assert (H : In b (nbrs g0 a)) by (apply nbrs_weight; congruence). rewrite Nb0 in H. destruct H. }
  assert (T : tried (fun st ij => block_pair nl q st (fst ij) (snd ij)) nl g0 (chance q gs) (upper N)).
  { intros g ds' i j Sg Hij. apply upper_In in Hij. cbn [fst snd]. unfold block_pair. destruct ds' as [|u ds']; [reflexivity|]. cbn [draw bind].
    rewrite (get_ok nl i _ (Ha i ltac:(lia))). cbn [bind deref]. pose proof (same_groups _ _ Sg) as Gg. rewrite Gr0 in Gg.
    destruct (nth_ex gs i) as [a Ea]; [unfold N in *; lia|]. destruct (nth_ex gs j) as [b Eb]; [unfold N in *; lia|].
    assert (X : forall k c, nth_error gs k = Some c -> exists n, nth_error g k = Some n /\ ggroup n = Some c).
    { intros k c Ec. assert (F : nth_error (map ggroup g) k = Some (Some c)) by (rewrite <- Gg; apply map_nth_error; auto). rewrite nth_error_map in F. destruct (nth_error g k) as [n|]; [|discriminate]. exists n. split; auto. simpl in F. congruence. }
    destruct (X i a Ea) as (n & En & Gn). destruct (X j b Eb) as (n' & En' & Gn').
    rewrite (get_ok g i _ En). cbn [bind]. rewrite (get_ok nl j _ (Ha j ltac:(lia))). cbn [bind deref]. rewrite (get_ok g j _ En'). cbn [bind]. rewrite Gn, Gn'. cbn [index_of bind].
    pose proof (HC i j a b ltac:(lia) Ea Eb) as NE. unfold chance. cbn [fst snd]. rewrite Ea, Eb. unfold entry in *.
    destruct (nth_error q a) as [row|] eqn:Er; [|congruence]. rewrite (get_ok q a _ Er). cbn [bind]. destruct (nth_error row b) as [x|] eqn:Ex; [|congruence]. rewrite (get_ok row b _ Ex). reflexivity. }
  pose proof (pairs_run _ nl g0 (chance q gs) N (upper N) T Ha) as H.
  specialize (H ltac:(rewrite (proj1 Na0); auto) (upper N) g0 ds (incl_refl _)).
  specialize (H ltac:(intros i j Hi; apply upper_In in Hi; lia) (same_nodes_refl _) U0 W0).
  destruct (length ds <? length (upper N)); auto.
  destruct H as (g & Eg & U & Sg & Z & Nb). exists g. splits; auto. { eapply named_same; eauto. } { rewrite <- (same_groups _ _ Sg). auto. }
  intros r i j u a b Er Eu Ea Eb. assert (Hij : i < j < N) by (apply upper_In; eapply nth_error_In; eauto).
  pose proof (pairs_upper g0 N (chance q gs) ds Nb0 g Nb r i j u Er Eu) as L. unfold chance in L. cbn [fst snd] in L. rewrite Ea, Eb in L.
  pose proof (HC i j a b ltac:(lia) Ea Eb) as NE. destruct (entry q a b) as [x|]; [|congruence]. exists x. split; auto.
Qed.

(** ** GirvanNewmanGraph *)
Lemma row_fill (v : A) n : forall k row, length row = k + n ->
  exists row', foldM (fun (row : list A) (h : nat) => set row h v) row (seq k n) = Ok row' /\ length row' = k + n /\ (forall x, x < k -> nth_error row' x = nth_error row x) /\ (forall x, k <= x < k + n -> nth_error row' x = Some v).
Proof.
  induction n as [|n IH]; intros k row L; [exists row; splits; auto; intros; lia|]. cbn [seq foldM]. rewrite set_ok by lia. cbn [bind].
  destruct (IH (S k) (upd row k v)) as (row' & E & L' & H1 & H2); [rewrite length_upd; lia|]. exists row'. splits; auto; try lia.
  - intros x Hx. rewrite H1 by lia. apply nth_upd_neq. lia.
  - intros x Hx. destruct (Nat.eq_dec x k) as [->|]; [|apply H2; lia]. rewrite H1 by lia. apply nth_upd_eq. lia.
Qed.

Lemma gn_ok ngroup gsize (kin kout : A) : forall n, n <= ngroup ->
  exists q, foldM (gn_row ngroup gsize kin kout) (repeat (repeat n0 ngroup) ngroup, repeat 0 ngroup) (seq 0 n) = Ok (q, repeat gsize n ++ repeat 0 (ngroup - n)) /\
    length q = ngroup /\ (forall g : nat, n <= g < ngroup -> nth_error q g = Some (repeat n0 ngroup)) /\
    (forall g h : nat, g < n -> g <= h < ngroup -> entry q g h = Some (if g =? h then ndiv kin (nsub (nofnat gsize) n1) else ndiv kout (nofnat (gsize * (ngroup - 1))))).
Proof.
  induction n as [|n IH]; intros Hn.
  - exists (repeat (repeat n0 ngroup) ngroup). cbn [seq foldM repeat app]. rewrite Nat.sub_0_r. splits; auto using repeat_length. { intros g Hg. apply nth_repeat_lt. lia. } intros; lia.
  - destruct IH as (q & E & Lq & Hz & Hs); [lia|]. rewrite seq_S, foldM_app, E. cbn [bind foldM]. rewrite Nat.add_0_l. unfold gn_row at 1.
    rewrite set_ok by (rewrite app_length, !repeat_length; lia). cbn [bind]. rewrite (get_ok q n _ (Hz n ltac:(lia))). cbn [bind]. rewrite set_ok by (rewrite repeat_length; lia). cbn [bind].
    destruct (row_fill (ndiv kout (nofnat (gsize * (ngroup - 1)))) (ngroup - (n + 1)) (n + 1) (upd (repeat n0 ngroup) n (ndiv kin (nsub (nofnat gsize) n1)))) as (row & Er & Lr & H1 & H2). { rewrite length_upd, repeat_length. lia. }
    rewrite Er. cbn [bind]. rewrite set_ok by lia. cbn [bind]. exists (upd q n row). splits.
    + do 2 f_equal. replace (ngroup - n) with (S (ngroup - S n)) by lia. cbn [repeat]. pose proof (upd_app_mid (repeat gsize n) (repeat 0 (ngroup - S n)) 0 gsize) as M. rewrite repeat_length in M. rewrite M.
      rewrite repeat_cons, <- app_assoc. reflexivity.
    + rewrite length_upd. auto.
    + intros g Hg. rewrite nth_upd_neq by lia. apply Hz. lia.
    + intros g h Hg Hh. unfold entry. destruct (Nat.eq_dec g n) as [->|Ng].
      * rewrite nth_upd_eq by lia. destruct (Nat.eqb_spec n h) as [<-|Nh]; [rewrite H1 by lia; apply nth_upd_eq; rewrite repeat_length; lia|]. apply H2. lia.
      * rewrite nth_upd_neq by auto. apply Hs; lia.
Qed.

Lemma blocks_equal ngroup gsize m : ngroup <= m -> length (blocks ngroup (repeat gsize m)) = ngroup * gsize /\
  forall i, i < ngroup * gsize -> nth_error (blocks ngroup (repeat gsize m)) i = Some (i / gsize).
Proof.
  induction ngroup as [|n IH]; intros Hm; [split; [reflexivity|intros; lia]|]. destruct IH as [L H]; [lia|]. rewrite blocks_S, app_length, repeat_length, L.
  assert (En : nth n (repeat gsize m) 0 = gsize) by (apply nth_error_nth; apply nth_repeat_lt; lia).
  rewrite En. split; [lia|]. intros i Hi. destruct (Nat.lt_ge_cases i (n * gsize)) as [Hl|Hl]; [rewrite nth_error_app1 by lia; auto|].
  rewrite nth_error_app2, L by lia. rewrite nth_repeat_lt by lia. f_equal. apply (Nat.div_unique i gsize n (i - n * gsize)); lia.
Qed.

Theorem GN_spec ngroup gsize (kin kout : A) ds : let N := ngroup * gsize in writable N ->
  if length ds <? length (upper N) then GirvanNewmanGraph ngroup gsize kin kout ds = Err RngOut else
  exists g, GirvanNewmanGraph ngroup gsize kin kout ds = Ok (g, skipn (length (upper N)) ds) /\ undirected g /\ named g N /\ weightless g /\
    (forall i nd, nth_error g i = Some nd -> ggroup nd = Some (i / gsize)) /\
    (forall r i j u, nth_error (upper N) r = Some (i, j) -> nth_error ds r = Some u ->
       (In j (nbrs g i) <-> nltb u (if i / gsize =? j / gsize then ndiv kin (nsub (nofnat gsize) n1) else ndiv kout (nofnat (gsize * (ngroup - 1)))) = true)).
Proof.
  intros N HN. unfold GirvanNewmanGraph. destruct (gn_ok ngroup gsize kin kout ngroup (le_n _)) as (q & E & Lq & _ & Hq). rewrite E. cbn [bind]. rewrite Nat.sub_diag. cbn [repeat]. rewrite app_nil_r.
  destruct (blocks_equal ngroup gsize ngroup (le_n _)) as [Lb Hb]. fold N in Lb, Hb.
  assert (Q : forall i j a b, i < j -> j < N -> nth_error (blocks ngroup (repeat gsize ngroup)) i = Some a -> nth_error (blocks ngroup (repeat gsize ngroup)) j = Some b ->
    entry q a b = Some (if i / gsize =? j / gsize then ndiv kin (nsub (nofnat gsize) n1) else ndiv kout (nofnat (gsize * (ngroup - 1))))).
  { intros i j a b Hij Hj Ea Eb. rewrite Hb in Ea, Eb by lia. inversion Ea; inversion Eb; subst. assert (gsize <> 0) by (intros ->; unfold N in *; lia). apply Hq.
    - apply Nat.div_lt_upper_bound; auto. unfold N in *. nia.
    - split; [apply Nat.div_le_mono; lia|]. apply Nat.div_lt_upper_bound; auto. unfold N in *. nia. }
  pose proof (Block_spec ngroup (repeat gsize ngroup) q ds) as H. cbv zeta in H. rewrite Lb in H.
  specialize (H ltac:(rewrite repeat_length; auto) HN).
  assert (C : covers q (blocks ngroup (repeat gsize ngroup))). { intros i j a b Hij Ea Eb. rewrite (Q i j a b Hij); auto; [discriminate|]. rewrite <- Lb. eapply nth_lt; eauto. }
  specialize (H C). destruct (length ds <? length (upper N)); auto. destruct H as (g & Eg & U & Na & Z & Gr & L). exists g. splits; auto.
  - intros i nd En. assert (Hi : i < N). { rewrite <- (proj1 Na). eapply nth_lt; eauto. }
    assert (F : nth_error (map ggroup g) i = Some (Some (i / gsize))) by (rewrite Gr; apply map_nth_error; auto). rewrite (map_nth_error _ _ _ En) in F. congruence.
  - intros r i j u Er Eu. assert (Hij : i < j < N) by (apply upper_In; eapply nth_error_In; eauto).
    destruct (L r i j u (i / gsize) (j / gsize) Er Eu) as (x & Ex & Hx); [apply Hb; lia|apply Hb; lia|]. rewrite (Q i j) in Ex; [|lia|lia|apply Hb; lia|apply Hb; lia]. inversion Ex. subst x. auto.
Qed.
End Block.
