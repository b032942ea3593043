(** ConnSearch.v -- the search of ConnModel.v finds exactly the nodes that belong to the set of its first node. *)
From Coq Require Import List Arith Lia Bool Permutation.
From Verif Require Import Base ListLib NatSum IoModel GraphModel GraphSpec GraphProof GraphSim BfsModel BfsProof SearchProof NetModel ConnModel ConnSpec ConnProof.
Import ListNotations.
Local Open Scope nat_scope.

Lemma nth_upd_true (l : list bool) w v : w < length l -> nth v (upd l w true) false = true <-> nth v l false = true \/ v = w.
Proof.
  intros L. destruct (Nat.eq_dec v w) as [->|H].
  - rewrite (nth_error_nth _ w false (nth_upd_eq l w true L)). tauto.
  - assert (E : nth v (upd l w true) false = nth v l false) by (rewrite <- !nth_default_eq; unfold nth_default; rewrite nth_upd_neq; auto). rewrite E. tauto.
Qed.

Section Search.
Context {A : Type} {ops : NumOps A}.
Implicit Types g c : net A.

(** ** Reachability *)
Lemma path_app g d1 d2 a b x : path g d1 a b -> path g d2 b x -> path g (d1 + d2) a x.
Proof. intros P1 P2. induction P2; [rewrite Nat.add_0_r; auto|]. rewrite Nat.add_succ_r. econstructor; eauto. Qed.
Lemma reach_trans g a b x : reachable g a b -> reachable g b x -> reachable g a x.
Proof. intros [d1 P1] [d2 P2]. exists (d1 + d2). eapply path_app; eauto. Qed.
Lemma reach_refl g a : a < length g -> reachable g a a.
Proof. exists 0. constructor; auto. Qed.
Lemma reach_step g a b x : reachable g a b -> In x (nbrs g b) -> reachable g a x.
Proof. intros [d P] H. exists (S d). econstructor; eauto. Qed.
Lemma reach_lt_l g a b : reachable g a b -> a < length g.
Proof. intros [d P]. induction P; auto. Qed.
Lemma reach_lt g a b : wf_net g -> reachable g a b -> b < length g.
Proof. intros W [d P]. inversion P; subst; auto. eapply nbrs_lt; eauto. Qed.
Lemma reach_sim g c : length c = length g -> (forall i, nbrs c i = nbrs g i) -> forall a b, reachable c a b -> reachable g a b.
Proof. intros L N a b [d P]. exists d. induction P; [constructor; lia|]. econstructor; eauto. rewrite <- N. auto. Qed.

(** ** The list, with nodes marked that are not in it *)
Variables (g : net A) (W : wf_net g).
Definition keys (q : bfs) : list (nat * nat) := map (fun e => (bref e, bd e)) (bq q).
Record QS (M : list nat) (g' : net A) (q : bfs) : Prop := { qs_sbs : same_but_state g g'; qs_size : bsize q = length (bq q); qs_mark : marked g' M }.
Lemma upd_keys q x e p : nth_error (bq q) x = Some e -> map (fun e => (bref e, bd e)) (upd (bq q) x (mkB (bd e) (bref e) p)) = keys q.
Proof. intros E. unfold keys. apply ListLib.nth_ext. intros i. rewrite !nth_error_map. destruct (Nat.eq_dec i x) as [->|H]; [rewrite nth_upd_eq by (eapply nth_lt; eauto); rewrite E; auto|rewrite nth_upd_neq; auto]. Qed.
Lemma Enqueue_q M g' q w pr d : QS M g' q -> w < length g -> exists g1 q1 nw, Enqueue (g', q) w pr d = Ok (g1, q1) /\ QS (M ++ nw) g1 q1 /\
  keys q1 = keys q ++ map (fun v => (v, d)) nw /\ nw = (if mem w M then [] else [w]).
Proof.
  intros [S Z K] Lw. unfold Enqueue. destruct (nth_ex g' w) as [n En]; [rewrite (sbs_length _ _ S); auto|]. rewrite (get_ok _ _ _ En). cbn [bind]. rewrite (K _ _ En). destruct (mem w M) eqn:Em; cbn [Nat.eqb].
  - assert (Same : exists g1 q1 nw, Ok (g', q) = Ok (g1, q1) /\ QS (M ++ nw) g1 q1 /\ keys q1 = keys q ++ map (fun v => (v, d)) nw /\ nw = []).
    { exists g', q, []. rewrite !app_nil_r. split; auto. split; [constructor; auto|auto]. }
    destruct (GetBFS w _ _) as [x|] eqn:Eb; auto. apply GetBFS_Some in Eb as (y & e & -> & Ee & _). rewrite nth_skipn in Ee. rewrite (get_ok _ _ _ Ee). cbn [bind]. destruct (bd e =? d); auto.
    unfold AddPredecessor. rewrite (get_ok _ _ _ Ee). cbn [bind]. rewrite set_ok by (eapply nth_lt; eauto). cbn [bind]. eexists _, _, []. split; [reflexivity|]. rewrite !app_nil_r. split; [constructor; auto; cbn [bq bsize]; rewrite length_upd; auto|]. split; auto. unfold keys at 1. cbn [bq]. apply upd_keys; auto.
  - rewrite set_ok by (eapply nth_lt; eauto). cbn [bind]. eexists _, _, [w]. split; [reflexivity|]. split; [|split; auto; unfold keys; cbn [bq]; rewrite map_app; auto]. constructor.
    + eapply sbs_trans; [exact S|]. apply sbs_upd; auto.
    + cbn. rewrite app_length, Z. auto.
    + intros v m Ev. assert (Lv : v < length g') by (apply nth_lt in Ev; rewrite length_upd in Ev; auto). destruct (Nat.eq_dec v w) as [->|H].
      * rewrite nth_upd_eq in Ev by auto. injection Ev as <-. cbn. rewrite (proj2 (mem_In w (M ++ [w]))); auto. apply in_or_app. right. left. auto.
      * rewrite nth_upd_neq in Ev by auto. rewrite (K _ _ Ev). replace (mem v (M ++ [w])) with (mem v M); auto. apply eq_true_iff_eq. rewrite !mem_In, in_app_iff. cbn. intuition congruence.
Qed.
Definition fresh_of (M nw : list nat) : Prop := NoDup nw /\ forall v, In v nw -> ~ In v M.
Lemma fresh_app M a b : fresh_of M a -> fresh_of (M ++ a) b -> fresh_of M (a ++ b).
Proof.
  intros [D1 H1] [D2 H2]. split.
  - apply NoDup_app_iff. split; auto. split; auto. intros v Ha Hb. apply (H2 v Hb). apply in_or_app. auto.
  - intros v Hv Hm. apply in_app_or in Hv as [Hv|Hv]; [exact (H1 v Hv Hm)|]. apply (H2 v Hv). apply in_or_app. auto.
Qed.
Lemma Adja_q M g' q lp d v0 : QS M g' q -> nth_error (keys q) lp = Some (v0, d) -> v0 < length g -> exists g1 q1 nw, EnqueueAdjaList (g', q) lp (d + 1) = Ok (g1, q1) /\ QS (M ++ nw) g1 q1 /\
  keys q1 = keys q ++ map (fun v => (v, d + 1)) nw /\ fresh_of M nw /\ (forall v, In v nw -> In v (nbrs g v0)) /\ (forall v, In v (nbrs g v0) -> In v (M ++ nw)).
Proof.
  intros Q Ek Lv. unfold EnqueueAdjaList. unfold keys in Ek. rewrite nth_error_map in Ek. destruct (nth_error (bq q) lp) as [e|] eqn:Ee; [|discriminate]. injection Ek as E0 _. rewrite (get_ok _ _ _ Ee). cbn [bind]. rewrite E0.
  destruct (nth_ex g' v0) as [n En]; [rewrite (sbs_length _ _ (qs_sbs _ _ _ Q)); auto|]. rewrite (get_ok _ _ _ En). cbn [bind].
  pose proof (sbs_wf g g' (qs_sbs _ _ _ Q) W) as W'. pose proof (sbs_nbrs g g' v0 (qs_sbs _ _ _ Q)) as Nb. unfold nbrs at 1 in Nb. rewrite En in Nb. rewrite <- Nb.
  assert (HL : forall l, In l (gadj n) -> exists j, lref l = Some j /\ j < length g).
  { intros l Hl. destruct (wf_link g' W' v0 n l En Hl) as (j & m & E1 & E2 & _). exists j. split; auto. apply nth_lt in E2. rewrite (sbs_length _ _ (qs_sbs _ _ _ Q)) in E2. auto. }
  clear Nb W' En Ee E0. revert g' q M Q HL. induction (gadj n) as [|l ls IH]; intros g' q M Q HL; cbn [foldM targets flat_map].
  - exists g', q, []. rewrite !app_nil_r. split; auto. split; auto. split; auto. split; [split; [constructor|intros v []]|split; intros v []].
  - destruct (HL l) as (j & Ej & Lj); [left; auto|]. rewrite Ej. cbn [deref bind]. destruct (Enqueue_q M g' q j (Some lp) (d + 1) Q Lj) as (g1 & q1 & n1 & E1 & Q1 & K1 & Hn). rewrite E1. cbn [bind].
    destruct (IH g1 q1 (M ++ n1) Q1) as (g2 & q2 & n2 & E2 & Q2 & K2 & F2 & S2 & C2); [intros l' Hl'; apply HL; right; auto|].
    exists g2, q2, (n1 ++ n2). rewrite app_assoc. split; auto. split; auto. split; [rewrite K2, K1, map_app, app_assoc; auto|]. split; [apply fresh_app; auto|split].
    + rewrite Hn. destruct (mem j M) eqn:Em; [split; [constructor|intros v []]|]. split; [constructor; [intros []|constructor]|]. intros v [<-|[]] H. apply mem_In in H. congruence.
    + intros v Hv. apply in_or_app. apply in_app_or in Hv as [Hv|Hv]; [left|right; auto]. rewrite Hn in Hv. destruct (mem j M); [destruct Hv|exact Hv].
    + intros v Hv. apply in_app_or in Hv as [[<-|[]]|Hv]; [|apply C2; auto]. apply in_or_app. left. rewrite Hn. apply in_or_app. destruct (mem j M) eqn:Em; [left; apply mem_In; auto|right; left; auto].
Qed.
Lemma Renew_q d K : (forall v x, In (v, x) K -> v < length g) -> forall fuel M nw g' q j, QS (M ++ nw) g' q -> keys q = K ++ map (fun v => (v, d + 1)) nw -> fresh_of M nw -> length K - j < fuel -> j <= length K ->
  (forall p v x, nth_error K p = Some (v, x) -> j <= p -> x = d) ->
  exists g1 q1 n2, RenewQueue fuel (g', q) j d = Ok (g1, q1, length K) /\ QS (M ++ nw ++ n2) g1 q1 /\ keys q1 = K ++ map (fun v => (v, d + 1)) (nw ++ n2) /\ fresh_of M (nw ++ n2) /\
    (forall v, In v n2 -> exists p u x, nth_error K p = Some (u, x) /\ In v (nbrs g u)) /\
    (forall p u x, nth_error K p = Some (u, x) -> j <= p -> forall v, In v (nbrs g u) -> In v (M ++ nw ++ n2)).
Proof.
  intros HK. induction fuel as [|f IH]; intros M nw g' q j Q Kq F Hf Hj HD; [lia|]. cbn [RenewQueue snd].
  assert (Enth : forall p, nth_error (keys q) p = option_map (fun e => (bref e, bd e)) (nth_error (bq q) p)) by (intros p; unfold keys; apply nth_error_map).
  destruct (lt_dec j (length K)) as [Lj|Lj].
  - destruct (nth_ex K j Lj) as [[u x] Eu]. assert (x = d) by eauto. subst x. assert (Ek : nth_error (keys q) j = Some (u, d)) by (rewrite Kq, nth_error_app1; auto).
    pose proof Ek as Ek'. rewrite Enth in Ek'. destruct (nth_error (bq q) j) as [e|] eqn:Ee; [|discriminate]. injection Ek' as Eu' Ed'. rewrite Ed', Nat.eqb_refl.
    destruct (Adja_q (M ++ nw) g' q j d u Q Ek) as (g1 & q1 & n1 & E1 & Q1 & K1 & F1 & S1 & C1); [eapply HK; eapply nth_error_In; eauto|]. rewrite E1. cbn [bind].
    destruct (IH M (nw ++ n1) g1 q1 (j + 1)) as (g2 & q2 & n2 & E2 & Q2 & K2 & F2 & S2 & C2); try lia.
    { rewrite app_assoc. auto. } { rewrite K1, Kq, map_app, app_assoc. auto. } { apply fresh_app; auto. } { intros p v x Ep Hp. eapply HD; eauto. lia. }
    rewrite <- app_assoc in Q2, K2, F2. exists g2, q2, (n1 ++ n2). split; auto. split; auto. split; auto. split; auto. split.
    + intros v Hv. apply in_app_or in Hv as [Hv|Hv]; [exists j, u, d; auto|auto].
    + intros p u' x Ep Hp v Hv. destruct (Nat.eq_dec p j) as [->|Hn].
      * rewrite Eu in Ep. injection Ep as <- <-. specialize (C1 v Hv). rewrite !in_app_iff in *. tauto.
      * specialize (C2 p u' x Ep ltac:(lia) v Hv). rewrite !in_app_iff in *. tauto.
  - assert (j = length K) by lia. subst j. exists g', q, []. rewrite app_nil_r.
    assert (Er : match nth_error (bq q) (length K) with None => Ok (g', q, length K) | Some e => if bd e =? d then (do st <- EnqueueAdjaList (g', q) (length K) (d + 1); RenewQueue f st (length K + 1) d) else Ok (g', q, length K) end = Ok (g', q, length K)).
    { specialize (Enth (length K)). rewrite Kq, nth_error_app2, Nat.sub_diag in Enth by lia. destruct nw as [|w nw]; cbn in Enth; destruct (nth_error (bq q) (length K)) as [e|]; try discriminate; auto.
      cbn in Enth. injection Enth as _ Ed. rewrite (proj2 (Nat.eqb_neq _ _)) by lia. auto. }
    rewrite Er. split; auto. split; auto. split; auto. split; auto. split; [intros v []|]. intros p u x Ep Hp. apply nth_lt in Ep. lia.
Qed.

(** ** A set of nodes grows *)
Variables (c0 : net A) (Wc : wf_net c0) (Lc : length c0 = length g) (Nc : forall i, nbrs c0 i = nbrs g i).
Context {T : Type}.
Variables (act : net A -> T -> nat -> res T) (TI : list nat -> T -> Prop).
Hypothesis Hact : forall Q s g' v, TI Q s -> same_but_state g g' -> v < length g -> ~ In v Q -> (forall n, nth_error g' v = Some n -> gstate n = 1) -> exists s', act g' s v = Ok s' /\ TI (Q ++ [v]) s'.
Variables (S0 : nat -> Prop) (a0 : nat).

Record SS (Q : list nat) (x : scan T) : Prop := {
  ss_c : same_but_state c0 (sc _ x);
  ss_ltn : length g <= length (this_net _ x);
  ss_tn : forall v, nth v (this_net _ x) false = true <-> In v Q;
  ss_lse : length g <= length (selected _ x);
  ss_se : forall v, nth v (selected _ x) false = true <-> S0 v \/ In v Q;
  ss_an : anod _ x = a0 + length Q;
  ss_ti : TI Q (set_of _ x)
}.
Lemma join_ok Q M x v : SS Q x -> QS M (sg _ x) (sq _ x) -> In v M -> v < length g -> ~ In v Q -> exists x', join act x v = Ok x' /\ SS (Q ++ [v]) x' /\ sg _ x' = sg _ x /\ sq _ x' = sq _ x /\ sc _ x' = sc _ x.
Proof.
  intros [C L1 N1 L2 N2 An Ti] QQ Hm Lv Hn. unfold join. destruct (nth_ex (sg _ x) v) as [n En]; [rewrite (sbs_length _ _ (qs_sbs _ _ _ QQ)); auto|]. rewrite (get_ok _ _ _ En). cbn [bind].
  destruct (Hact Q (set_of _ x) (sg _ x) v Ti (qs_sbs _ _ _ QQ) Lv Hn) as (s' & Es & Ts); [intros m Em; rewrite (qs_mark _ _ _ QQ _ _ Em), (proj2 (mem_In v M) Hm); auto|]. rewrite Es. cbn [bind].
  rewrite (wf_num _ (sbs_wf _ _ (qs_sbs _ _ _ QQ) W) _ _ En), set_ok by lia. cbn [bind]. rewrite set_ok by lia. cbn [bind]. eexists. split; [reflexivity|]. cbn [sg sq sc]. split; auto. constructor; cbn [sc this_net selected anod set_of]; auto.
  - rewrite length_upd. auto.
  - intros u. rewrite nth_upd_true by lia. rewrite N1, in_app_iff. cbn. intuition.
  - rewrite length_upd. auto.
  - intros u. rewrite nth_upd_true by lia. rewrite N2, in_app_iff. cbn. intuition.
  - rewrite app_length, An. cbn. lia.
Qed.
Variables (p : nat) (Lp : p < length g).
Lemma sift_ok d M : forall rest fuel K x, SS (map fst K) x -> QS M (sg _ x) (sq _ x) -> keys (sq _ x) = K ++ map (fun v => (v, d)) rest -> NoDup rest ->
  (forall v, In v rest -> In v M /\ v < length g /\ ~ In v (map fst K) /\ reachable g p v) -> length rest <= fuel -> In p (map fst K) -> (forall v, In v (map fst K) -> mutual g p v) ->
  exists x' kept, sift act fuel (length K) x = Ok x' /\ SS (map fst K ++ kept) x' /\ QS M (sg _ x') (sq _ x') /\ keys (sq _ x') = K ++ map (fun v => (v, d)) kept /\ NoDup kept /\ (forall v, In v kept <-> In v rest /\ mutual g p v).
Proof.
  induction rest as [|w rest IH]; intros fuel K x SX QQ EK ND HR Hf Hp HG.
  - exists x, []. rewrite !app_nil_r in *. assert (E : nth_error (bq (sq _ x)) (length K) = None) by (apply nth_error_None; rewrite <- EK; unfold keys; rewrite map_length; lia).
    split; [destruct fuel; cbn [sift]; rewrite E; auto|]. split; auto. split; auto. split; auto. split; [constructor|]. intros v. cbn. tauto.
  - destruct fuel as [|f]; [cbn in Hf; lia|]. cbn [length] in Hf. cbn [sift].
    assert (Ek : nth_error (keys (sq _ x)) (length K) = Some (w, d)) by (rewrite EK, nth_error_app2, Nat.sub_diag by lia; reflexivity).
    unfold keys in Ek. rewrite nth_error_map in Ek. destruct (nth_error (bq (sq _ x)) (length K)) as [e|] eqn:Ee; [|discriminate]. injection Ek as Ew Ed. rewrite Ew.
    destruct (HR w (or_introl eq_refl)) as (Hm & Lw & Hnk & Rw). subst w. apply NoDup_cons_iff in ND as [Hnw ND'].
    destruct (nth_ex (sg _ x) (bref e)) as [n En]; [rewrite (sbs_length _ _ (qs_sbs _ _ _ QQ)); auto|]. rewrite (get_ok _ _ _ En). cbn [bind]. rewrite (wf_num _ (sbs_wf _ _ (qs_sbs _ _ _ QQ) W) _ _ En).
    pose proof (ss_c _ _ SX) as Cx. rewrite GetNode_spec; [|eapply sbs_wf; eauto|rewrite (sbs_length _ _ Cx); lia]. cbn [bind].
    destruct (are_connected_list c0 (sc _ x) (bref e) (this_net _ x) Wc Cx) as (b & c1 & Eb & Cs & Hb); [lia|pose proof (ss_ltn _ _ SX); lia|]. rewrite Eb. cbn [bind sg sc sq this_net selected anod set_of].
    assert (Hmut : b = true <-> mutual g p (bref e)).
    { rewrite Hb. split.
      - intros (u & _ & Ru & Hu). apply (ss_tn _ _ SX) in Hu. split; auto. apply reach_trans with u; [eapply reach_sim; eauto|apply (HG u Hu)].
      - intros [_ R]. exists p. split; [intros Ep; apply Hnk; rewrite <- Ep; auto|]. split; [apply (reach_sim c0 g); auto|apply (ss_tn _ _ SX); auto]. }
    assert (SX1 : SS (map fst K) (mkScan T (sg _ x) c1 (sq _ x) (this_net _ x) (selected _ x) (anod _ x) (set_of _ x))) by (destruct SX; constructor; auto).
    destruct b.
    + destruct (join_ok _ M _ (bref e) SX1 QQ Hm Lw Hnk) as (x1 & E1 & SX2 & G1 & Q1 & _). cbn [sg sq] in G1, Q1. rewrite E1. cbn [bind]. replace (length K + 1) with (length (K ++ [(bref e, d)])) by (rewrite app_length; auto).
      assert (Em : map fst (K ++ [(bref e, d)]) = map fst K ++ [bref e]) by (rewrite map_app; auto).
      destruct (IH f (K ++ [(bref e, d)]) x1) as (x' & kept & E' & SX' & QQ' & EK' & ND2 & H2); auto; try lia.
      { rewrite Em; auto. } { rewrite G1, Q1. auto. } { rewrite Q1, EK, <- app_assoc. auto. }
      { intros v Hv. destruct (HR v (or_intror Hv)) as (V1 & V2 & V3 & V4). split; auto. split; auto. split; auto. rewrite Em, in_app_iff. intros [V|[V|[]]]; [auto|]. apply Hnw. rewrite V. auto. }
      { rewrite Em. apply in_or_app. auto. } { rewrite Em. intros v Hv. apply in_app_or in Hv as [Hv|[<-|[]]]; auto. apply Hmut. auto. }
      exists x', (bref e :: kept). rewrite Em, <- app_assoc in SX'. rewrite <- app_assoc in EK'. split; auto. split; auto. split; auto. split; auto. split.
      * constructor; auto. intros Hk. apply H2 in Hk. tauto.
      * intros v. cbn [In]. rewrite H2. split; [intros [<-|[V1 V2]]; split; auto; apply Hmut; auto|]. intros [[->|V1] V2]; auto.
    + assert (Ez : bsize (sq _ x) = length (bq (sq _ x))) by (apply (qs_size _ _ _ QQ)). pose proof (nth_lt _ _ _ Ee) as Le.
      unfold DequeueOne. rewrite (get_ok _ _ _ Ee). cbn [bind]. rewrite Ez. destruct (length (bq (sq _ x))) as [|k] eqn:El; [lia|]. cbn [dec bind].
      assert (Lk : length (bq (sq _ x)) = length K + 1 + length rest).
      { rewrite <- (map_length (fun e => (bref e, bd e))). change (map (fun e => (bref e, bd e)) (bq (sq _ x))) with (keys (sq _ x)). rewrite EK, app_length, map_length. cbn. lia. }
      destruct (IH f K (mkScan T (sg _ x) c1 (mkQ (firstn (length K) (bq (sq _ x)) ++ skipn (length K + 1) (bq (sq _ x))) k) (this_net _ x) (selected _ x) (anod _ x) (set_of _ x))) as (x' & kept & E' & SX' & QQ' & EK' & ND2 & H2); auto; try lia.
      { destruct SX1; constructor; auto. }
      { destruct QQ as [U1 U2 U3]. constructor; auto. cbn [sq bq bsize]. rewrite app_length, firstn_length, skipn_length. lia. }
      { unfold keys. cbn [sq bq]. rewrite map_app, <- firstn_map, <- skipn_map. change (map (fun e => (bref e, bd e)) (bq (sq _ x))) with (keys (sq _ x)). rewrite EK, firstn_app, firstn_all, Nat.sub_diag. cbn [firstn]. rewrite app_nil_r. f_equal.
        rewrite skipn_app. rewrite skipn_all2 by lia. replace (length K + 1 - length K) with 1 by lia. reflexivity. }
      { intros v Hv. apply HR. right. auto. }
      exists x', kept. split; auto. split; auto. split; auto. split; auto. split; auto. intros v. rewrite H2. cbn [In]. split; [tauto|]. intros [[<-|V1] V2]; auto. apply Hmut in V2. discriminate.
Qed.
Lemma keep_ok d M rest K x : SS (map fst K) x -> QS M (sg _ x) (sq _ x) -> keys (sq _ x) = K ++ map (fun v => (v, d)) rest -> NoDup rest ->
  (forall v, In v rest -> In v M /\ v < length g /\ ~ In v (map fst K)) ->
  exists x', keep act (length K) x = Ok x' /\ SS (map fst K ++ rest) x' /\ sg _ x' = sg _ x /\ sq _ x' = sq _ x /\ sc _ x' = sc _ x.
Proof.
  intros SX QQ EK ND HR. unfold keep.
  assert (Er : map bref (skipn (length K) (bq (sq _ x))) = rest).
  { rewrite <- skipn_map. assert (E : map bref (bq (sq _ x)) = map fst (keys (sq _ x))) by (unfold keys; rewrite map_map; apply map_ext; auto).
    rewrite E, EK, map_app, skipn_app, skipn_all2 by (rewrite map_length; lia). rewrite map_length, Nat.sub_diag, map_map. cbn [skipn app]. rewrite <- (map_id rest) at 2. apply map_ext. auto. }
  assert (H : forall l x1 Q, SS Q x1 -> sg _ x1 = sg _ x -> sq _ x1 = sq _ x -> sc _ x1 = sc _ x -> NoDup (map bref l) -> (forall v, In v (map bref l) -> In v M /\ v < length g /\ ~ In v Q) ->
    exists x', foldM (fun x e => join act x (bref e)) x1 l = Ok x' /\ SS (Q ++ map bref l) x' /\ sg _ x' = sg _ x /\ sq _ x' = sq _ x /\ sc _ x' = sc _ x).
  { clear Er. induction l as [|e l IH]; intros x1 Q S1 G1 Q1 C1 N1 H1; cbn [foldM map].
    - exists x1. rewrite app_nil_r. auto.
    - destruct (H1 (bref e)) as (V1 & V2 & V3); [left; auto|]. destruct (join_ok Q M x1 (bref e) S1) as (x2 & E2 & S2 & G2 & Q2 & C2); auto; [rewrite G1, Q1; auto|]. rewrite E2. cbn [bind]. inversion N1; subst.
      destruct (IH x2 (Q ++ [bref e])) as (x' & E' & S' & R'); auto; try congruence.
      + intros v Hv. destruct (H1 v (or_intror Hv)) as (U1 & U2 & U3). split; auto. split; auto. rewrite in_app_iff. intros [U|[U|[]]]; [auto|]. subst v. auto.
      + exists x'. rewrite <- app_assoc in S'. auto. }
  destruct (H (skipn (length K) (bq (sq _ x))) x (map fst K) SX eq_refl eq_refl eq_refl) as (x' & E' & S' & R'); [rewrite Er; auto|rewrite Er; auto|]. exists x'. rewrite Er in S'. auto.
Qed.

(** What belongs to the set of [p]. *)
Definition belongs (strong : bool) (v : nat) : Prop := if strong then mutual g p v else reachable g p v.
Lemma belongs_reach strong v : belongs strong v -> reachable g p v.
Proof. destruct strong; [intros [H _]|]; auto. Qed.
Lemma belongs_dec_path strong u v : reachable g p u -> reachable g u v -> belongs strong v -> belongs strong u.
Proof. destruct strong; cbn; auto. intros H1 H2 [_ H3]. split; auto. eapply reach_trans; eauto. Qed.
Record GI (strong : bool) (d k : nat) (M : list nat) (K : list (nat * nat)) (x : scan T) : Prop := {
  gi_s : SS (map fst K) x;
  gi_q : QS M (sg _ x) (sq _ x);
  gi_k : keys (sq _ x) = K;
  gi_nd : NoDup (map fst K);
  gi_p : In p (map fst K);
  gi_in : forall v, In v (map fst K) -> belongs strong v /\ In v M;
  gi_m : forall v, In v M -> In v (map fst K) \/ ~ belongs strong v;
  gi_le : k <= length K;
  gi_d : forall i v y, nth_error K i = Some (v, y) -> k <= i -> y = d;
  gi_cl : forall i v y, nth_error K i = Some (v, y) -> i < k -> forall u, In u (nbrs g v) -> In u M
}.
Lemma gi_lt strong d k M K x v : GI strong d k M K x -> In v (map fst K) -> v < length g.
Proof. intros I H. apply (gi_in _ _ _ _ _ _ I) in H as [H _]. eapply reach_lt; eauto. eapply belongs_reach; eauto. Qed.
Lemma gi_len strong d k M K x : GI strong d k M K x -> length K <= length g.
Proof. intros I. rewrite <- (map_length fst). apply refs_bound; [apply (gi_nd _ _ _ _ _ _ I)|]. intros v Hv. eapply gi_lt; eauto. Qed.
Lemma gi_end strong d k M K x : GI strong d k M K x -> k = length K -> forall v, In v (map fst K) <-> belongs strong v.
Proof.
  intros I Hk v. split; [intros H; apply (gi_in _ _ _ _ _ _ I v H)|]. intros H. pose proof (belongs_reach _ _ H) as [n P].
  enough (Hp : forall n u, path g n p u -> reachable g u v -> In u (map fst K)) by (apply (Hp n v P); apply reach_refl; eapply reach_lt; eauto; exists n; eauto).
  clear n P. intros n u P. remember p as s eqn:Es. induction P as [i Hi|n i j u P IH Hu]; intros Ru; subst i; [apply (gi_p _ _ _ _ _ _ I)|].
  assert (Rj : reachable g j u) by (eapply reach_step; [apply reach_refl; eapply reach_lt; eauto; exists n; eauto|auto]).
  assert (Hj : In j (map fst K)) by (apply IH; auto; eapply reach_trans; eauto). apply in_map_iff in Hj as ([j' y] & Ej & Hj). cbn in Ej. subst j'. apply In_nth_error in Hj as [i Ei].
  pose proof (nth_lt _ _ _ Ei) as Li. pose proof (gi_cl _ _ _ _ _ _ I i j y Ei ltac:(lia) u Hu) as Hm. destruct (gi_m _ _ _ _ _ _ I u Hm) as [|Hb]; auto. exfalso. apply Hb. eapply belongs_dec_path; eauto. eapply reach_trans; [exists n; eauto|eauto].
Qed.
Lemma grow_ok strong : forall fuel d k M K x, GI strong d k M K x -> length g - length K < fuel ->
  exists x' lp d' M' K', grow act strong fuel x k d = Ok (x', lp, d') /\ GI strong d' lp M' K' x' /\ lp = length K'.
Proof.
  induction fuel as [|f IH]; intros d k M K x I Hf; [lia|]. cbn [grow]. pose proof (gi_len _ _ _ _ _ _ I) as LK. pose proof (sbs_length _ _ (qs_sbs _ _ _ (gi_q _ _ _ _ _ _ I))) as Lx.
  assert (EM : M ++ [] = M) by apply app_nil_r.
  destruct (Renew_q d K) with (fuel := length (sg _ x) + 1) (M := M) (nw := @nil nat) (g' := sg _ x) (q := sq _ x) (j := k) as (g1 & q1 & nw & E1 & Q1 & K1 & F1 & R1 & C1).
  { intros v y Hv. eapply gi_lt; eauto. apply in_map_iff. exists (v, y). auto. } { rewrite EM. apply (gi_q _ _ _ _ _ _ I). } { cbn. rewrite app_nil_r. apply (gi_k _ _ _ _ _ _ I). } { split; [constructor|intros v []]. } { lia. } { apply (gi_le _ _ _ _ _ _ I). } { apply (gi_d _ _ _ _ _ _ I). }
  cbn [app] in Q1, K1, F1, C1. rewrite E1. cbn [bind fst snd sq].
  set (x1 := mkScan T g1 (sc _ x) q1 (this_net _ x) (selected _ x) (anod _ x) (set_of _ x)).
  assert (S1 : SS (map fst K) x1) by (destruct (gi_s _ _ _ _ _ _ I); constructor; auto).
  assert (HR : forall v, In v nw -> In v (M ++ nw) /\ v < length g /\ ~ In v (map fst K) /\ reachable g p v).
  { intros v Hv. destruct (R1 v Hv) as (i & u & y & Ei & Hu). assert (Hk : In u (map fst K)) by (apply in_map_iff; exists (u, y); split; auto; eapply nth_error_In; eauto).
    split; [apply in_or_app; auto|]. split; [eapply nbrs_lt; eauto|]. split; [intros Hc; apply (proj2 F1 v Hv); apply (gi_in _ _ _ _ _ _ I v Hc)|].
    eapply reach_step; [|eauto]. eapply belongs_reach. apply (gi_in _ _ _ _ _ _ I u Hk). }
  assert (Hstep : exists x2 kept, (if strong then sift act (length (bq q1)) (length K) x1 else keep act (length K) x1) = Ok x2 /\ SS (map fst K ++ kept) x2 /\ QS (M ++ nw) (sg _ x2) (sq _ x2) /\ keys (sq _ x2) = K ++ map (fun v => (v, d + 1)) kept /\ NoDup kept /\ (forall v, In v kept <-> In v nw /\ belongs strong v)).
  { destruct strong.
    - destruct (sift_ok (d + 1) (M ++ nw) nw (length (bq q1)) K x1 S1) as (x2 & kept & H); auto; [apply (proj1 F1)| | | |exists x2, kept; exact H].
      + rewrite <- (map_length (fun e => (bref e, bd e))). change (map (fun e => (bref e, bd e)) (bq q1)) with (keys q1). rewrite K1, app_length, map_length. lia.
      + apply (gi_p _ _ _ _ _ _ I).
      + intros v Hv. apply (gi_in _ _ _ _ _ _ I v Hv).
    - destruct (keep_ok (d + 1) (M ++ nw) nw K x1 S1) as (x2 & E2 & S2 & G2 & Q2 & _); auto; [apply (proj1 F1)|intros v Hv; destruct (HR v Hv) as (V1 & V2 & V3 & _); auto|].
      exists x2, nw. split; auto. split; auto. rewrite G2, Q2. cbn [x1 sg sq]. split; auto. split; auto. split; [apply (proj1 F1)|]. intros v. cbn [belongs]. split; [intros H; split; auto; apply (HR v H)|tauto]. }
  destruct Hstep as (x2 & kept & E2 & S2 & Q2 & K2 & ND2 & H2). rewrite E2. cbn [bind].
  assert (EMK : map fst (K ++ map (fun v => (v, d + 1)) kept) = map fst K ++ kept) by (rewrite map_app, map_map; cbn [fst]; rewrite map_id; auto).
  assert (I2 : GI strong (d + 1) (length K) (M ++ nw) (K ++ map (fun v => (v, d + 1)) kept) x2).
  { constructor; rewrite ?EMK; auto.
    - apply NoDup_app_iff. split; [apply (gi_nd _ _ _ _ _ _ I)|]. split; auto. intros v V1 V2. apply H2 in V2 as [V2 _]. apply (HR v V2). auto.
    - apply in_or_app. left. apply (gi_p _ _ _ _ _ _ I).
    - intros v Hv. apply in_app_or in Hv as [Hv|Hv]; [destruct (gi_in _ _ _ _ _ _ I v Hv); split; auto; apply in_or_app; auto|]. apply H2 in Hv as [V1 V2]. split; auto. apply (HR v V1).
    - intros v Hv. assert (Dec : In v kept \/ ~ In v kept) by (destruct (in_dec Nat.eq_dec v kept); auto). destruct Dec as [|Hn]; [left; apply in_or_app; auto|].
      apply in_app_or in Hv as [Hv|Hv]; [destruct (gi_m _ _ _ _ _ _ I v Hv); auto; left; apply in_or_app; auto|]. right. intros Hb. apply Hn. apply H2. auto.
    - rewrite app_length. lia.
    - intros i v y Ei Hi. rewrite nth_error_app2 in Ei by auto. apply nth_error_In in Ei. apply in_map_iff in Ei as (w & Ew & _). congruence.
    - intros i v y Ei Hi u Hu. rewrite nth_error_app1 in Ei by auto. destruct (lt_dec i k) as [Hk|Hk]; [apply in_or_app; left; eapply (gi_cl _ _ _ _ _ _ I); eauto|]. eapply C1; eauto. lia. }
  assert (Z2 : bsize (sq _ x2) = length K + length kept) by (rewrite (qs_size _ _ _ Q2), <- (map_length (fun e => (bref e, bd e))); change (map (fun e => (bref e, bd e)) (bq (sq _ x2))) with (keys (sq _ x2)); rewrite K2, app_length, map_length; auto).
  assert (Z0 : bsize (sq _ x) = length K) by (rewrite (qs_size _ _ _ (gi_q _ _ _ _ _ _ I)), <- (map_length (fun e => (bref e, bd e))); change (map (fun e => (bref e, bd e)) (bq (sq _ x))) with (keys (sq _ x)); rewrite (gi_k _ _ _ _ _ _ I); auto).
  rewrite Z2, Z0. destruct kept as [|w kept].
  - cbn [length]. rewrite Nat.add_0_r, Nat.eqb_refl. eexists x2, (length K), (d + 1), (M ++ nw), K. split; auto. cbn [map] in I2. rewrite app_nil_r in I2. auto.
  - cbn [length]. rewrite (proj2 (Nat.eqb_neq _ _)) by lia.
    destruct (IH (d + 1) (length K) (M ++ nw) _ x2 I2) as (x' & lp & d' & M' & K' & H); [|exists x', lp, d', M', K'; auto].
    pose proof (gi_len _ _ _ _ _ _ I2) as L2. rewrite app_length, map_length in *. cbn [length] in *. lia.
Qed.
End Search.

(** ** One set: the first node left and what belongs to it *)
Section Round.
Context {A : Type} {ops : NumOps A}.
Variables (g : net A) (W : wf_net g) (c0 : net A) (Wc : wf_net c0) (Lc : length c0 = length g) (Nc : forall i, nbrs c0 i = nbrs g i).
Context {T : Type}.
Variables (act : net A -> T -> nat -> res T) (TI : list nat -> T -> Prop) (empty : T).
Hypothesis Hact : forall Q s g' v, TI Q s -> same_but_state g g' -> v < length g -> ~ In v Q -> (forall n, nth_error g' v = Some n -> gstate n = 1) -> exists s', act g' s v = Ok s' /\ TI (Q ++ [v]) s'.
Hypothesis Hempty : TI [] empty.
Record between (S0 : nat -> Prop) (a0 : nat) (x : scan T) : Prop := {
  be_g : same_but_state g (sg _ x);
  be_c : same_but_state c0 (sc _ x);
  be_q : sq _ x = CreateHeaderList;
  be_ltn : length g <= length (this_net _ x);
  be_lse : length g <= length (selected _ x);
  be_se : forall v, nth v (selected _ x) false = true <-> S0 v;
  be_an : anod _ x = a0
}.
Lemma first_left_ok (g' : net A) sel : wf_net g' -> length g' <= length sel -> forall k, k < length g' -> nth k sel false = false ->
  exists p, first_left g' sel 0 = Ok p /\ p < length g' /\ nth p sel false = false /\ forall q, q < p -> nth q sel false = true.
Proof.
  intros W' L k Hk Ek.
  assert (H : forall (t : net A) pos, (forall i n, nth_error t i = Some n -> gnum n = pos + i) -> pos + length t <= length sel -> pos <= k < pos + length t -> exists p, first_left t sel pos = Ok p /\ p < pos + length t /\ nth p sel false = false /\ forall q, pos <= q < p -> nth q sel false = true).
  { induction t as [|n t IH]; intros pos HN HL Hp; cbn [length] in *; [lia|]. cbn [first_left]. pose proof (HN 0 n eq_refl) as En. rewrite Nat.add_0_r in En. rewrite En. destruct (nth_ex sel pos) as [b Eb]; [lia|]. rewrite (get_ok _ _ _ Eb). cbn [bind]. pose proof (nth_error_nth _ _ false Eb) as Nb. destruct b.
    - destruct (IH (pos + 1)) as (p & E & Lp & Np & Mp); try lia; [intros i m Ei; rewrite (HN (S i) m Ei); lia|destruct (Nat.eq_dec pos k); [subst; congruence|lia]|]. exists p. split; auto. split; [lia|]. split; auto. intros q Hq. destruct (Nat.eq_dec q pos) as [->|]; auto. apply Mp. lia.
    - exists pos. split; auto. split; [lia|]. split; auto. intros q Hq. lia. }
  destruct (H g' 0) as (p & E & Lp & Np & Mp); [intros i n Ei; apply (wf_num _ W' _ _ Ei)|lia|lia|]. exists p. split; auto. split; auto. split; auto. intros q Hq. apply Mp. lia.
Qed.
Lemma nth_repeat_false k v : nth v (repeat false k) false = false.
Proof. destruct (nth_in_or_default v (repeat false k) false) as [H|H]; auto. now apply repeat_spec in H. Qed.
Lemma begin_ok strong S0 a0 x k : between S0 a0 x -> k < length g -> ~ S0 k -> exists p x', begin_set act x empty = Ok (p, x') /\ p < length g /\ ~ S0 p /\ (forall q, q < p -> S0 q) /\ GI g c0 TI S0 a0 p strong 0 0 [p] [(p, 0)] x'.
Proof.
  intros [G C Q L1 L2 Se An] Hk Hnk. unfold begin_set. pose proof (sbs_length _ _ G) as Lg. pose proof (sbs_wf _ _ G W) as Wg.
  destruct (first_left_ok (sg _ x) (selected _ x) Wg ltac:(lia) k ltac:(lia)) as (p & Ep & Lp & Np & Mp); [destruct (nth k (selected _ x) false) eqn:E; auto; apply Se in E; tauto|].
  assert (HnS : ~ S0 p) by (intros H; apply Se in H; congruence).
  rewrite Ep. cbn [bind]. destruct (nth_ex (sg _ x) p Lp) as [n En]. rewrite (get_ok _ _ _ En). cbn [bind]. rewrite (wf_num _ Wg _ _ En), set_ok by lia. cbn [bind].
  assert (QS0 : QS g [] (ResetNodesState (sg _ x)) (sq _ x)) by (constructor; [eapply sbs_trans; [exact G|apply sbs_reset]|rewrite Q; auto|apply marked_reset]).
  rewrite Lg in Lp. destruct (Enqueue_q g [] _ _ p None 0 QS0 Lp) as (g1 & q1 & nw & E1 & Q1 & K1 & Hnw). cbn in Hnw. subst nw. rewrite E1. cbn [bind]. cbn [app] in Q1. rewrite Q in K1. cbn in K1.
  destruct (Hact [] empty g1 p Hempty (qs_sbs _ _ _ _ Q1) Lp) as (s' & Es & Ts); [intros []|intros m Em; rewrite (qs_mark _ _ _ _ Q1 _ _ Em); cbn; rewrite Nat.eqb_refl; auto|]. rewrite Es. cbn [bind]. rewrite set_ok by (rewrite repeat_length; lia). cbn [bind].
  eexists p, _. split; [reflexivity|]. split; auto. split; auto. split; [intros r Hr; apply Se; auto|]. assert (Rp : reachable g p p) by (apply reach_refl; auto). constructor; cbn [map fst sg sq].
  - constructor; cbn [sc this_net selected anod set_of]; auto.
    + rewrite length_upd, repeat_length. auto.
    + intros v. rewrite (nth_upd_true (repeat false (length (this_net _ x))) p v) by (rewrite repeat_length; lia). rewrite nth_repeat_false. cbn. intuition; discriminate.
    + rewrite length_upd. auto.
    + intros v. rewrite nth_upd_true by lia. rewrite Se. cbn. intuition.
  - exact Q1.
  - exact K1.
  - constructor; [intros []|constructor].
  - left; auto.
  - intros v [<-|[]]. split; [|left; auto]. destruct strong; cbn; auto. split; auto.
  - intros v [<-|[]]. left. left. auto.
  - cbn. lia.
  - intros [|[|i]] v y Ei _; cbn in Ei; try discriminate. congruence.
  - intros i v y _ Hi. lia.
Qed.
Theorem round_ok strong S0 a0 x k fuel : between S0 a0 x -> k < length g -> ~ S0 k -> length g < fuel + 1 -> exists p x1 x' lp d Q,
  begin_set act x empty = Ok (p, x1) /\ grow act strong fuel x1 0 0 = Ok (x', lp, d) /\ p < length g /\ ~ S0 p /\ (forall q, q < p -> S0 q) /\ NoDup Q /\ (forall v, In v Q <-> belongs g p strong v) /\
  same_but_state g (sg _ x') /\ ClearList (sq _ x') = Ok CreateHeaderList /\ SS g c0 TI S0 a0 Q x'.
Proof.
  intros B Hk Hn Hf. destruct (begin_ok strong S0 a0 x k B Hk Hn) as (p & x1 & E1 & Lp & HnS & HmS & I). destruct (grow_ok g W c0 Wc Lc Nc act TI Hact S0 a0 p Lp strong fuel 0 0 [p] [(p, 0)] x1 I) as (x' & lp & d & M & K & E2 & I2 & El); [cbn [length]; lia|].
  exists p, x1, x', lp, d, (map fst K). split; auto. split; auto. split; auto. split; auto. split; auto. split; [apply (gi_nd _ _ _ _ _ _ _ _ _ _ _ _ I2)|]. split; [eapply gi_end; eauto|].
  pose proof (gi_q _ _ _ _ _ _ _ _ _ _ _ _ I2) as QQ. split; [apply (qs_sbs _ _ _ _ QQ)|]. split; [apply ClearList_ok; apply (qs_size _ _ _ _ QQ)|apply (gi_s _ _ _ _ _ _ _ _ _ _ _ _ I2)].
Qed.
End Round.
