(** CommSums.v -- groups as a colouring, and the terms of modularity when a node moves or two groups are merged. *)
From Coq Require Import List Arith ZArith Bool QArith Qcanon Lia.
From Verif Require Import Base Num ListLib NatSum QcSum IoModel GraphModel GraphSpec GraphProof GroupModel GroupSpec PairSum GroupProof GroupExact ModulesModel ModulesSpec ModulesMod
  MissModel MissSpec MissSets RecSpec CommModel CommSpec.
Import ListNotations.
Local Open Scope nat_scope.

(** * Colourings *)
Lemma colour_upd c v w i : v < length c -> colour (upd c v w) i = if i =? v then w else colour c i.
Proof.
  intros Hv. unfold colour. destruct (Nat.eqb_spec i v) as [->|Hne].
  - apply nth_error_nth. now apply nth_upd_eq.
  - destruct (nth_error c i) as [x|] eqn:E.
    + rewrite (nth_error_nth _ _ _ E). apply nth_error_nth. rewrite nth_upd_neq; auto.
    + apply nth_error_None in E. rewrite !nth_overflow; auto. now rewrite length_upd.
Qed.
Lemma colour_repaint a b c i : i < length c -> colour (repaint a b c) i = if colour c i =? a then b else colour c i.
Proof.
  intros Hi. unfold colour, repaint. destruct (nth_ex c i Hi) as [x E]. rewrite (nth_error_nth c i 0 E). apply nth_error_nth. rewrite nth_error_map, E. reflexivity.
Qed.
Lemma colour_map {X} (f : X -> nat) l i x : nth_error l i = Some x -> colour (map f l) i = f x.
Proof. intros E. unfold colour. apply nth_error_nth. rewrite nth_error_map, E. reflexivity. Qed.
Lemma colour_In c i : i < length c -> In (colour c i) c.
Proof. intros H. unfold colour. now apply nth_In. Qed.
Lemma In_colour c k : In k c -> exists i, i < length c /\ colour c i = k.
Proof. intros H. apply (In_nth c k 0) in H as (i & Hi & E). eauto. Qed.
Lemma colour_ext c c' : length c = length c' -> (forall i, i < length c -> colour c i = colour c' i) -> c = c'.
Proof. intros HL H. apply (List.nth_ext c c' 0 0); auto. Qed.

Section Shows.
Variables N K : nat.
Implicit Types (M : groups) (c : list nat).

(** The groups [M] with labels 0, ..., K-1 are the colours of [c]. *)
Record cshows M c : Prop := {
  ch_labels : map fst M = seq 0 K;
  ch_once : forall k, NoDup (nth_members M k);
  ch_len : length c = N;
  ch_in : forall i k, In i (nth_members M k) <-> i < N /\ colour c i = k
}.
Lemma ch_size M c : cshows M c -> length M = K.
Proof. intros [H _ _ _]. apply (f_equal (@length nat)) in H. now rewrite map_length, seq_length in H. Qed.
Lemma ch_nth M c k : cshows M c -> k < K -> nth_error M k = Some (k, nth_members M k).
Proof.
  intros H Hk. destruct (nth_ex M k) as [[lab l] E]; [now rewrite (ch_size M c H)|]. rewrite (nth_members_eq _ _ _ _ E), E.
  pose proof (ch_labels _ _ H) as L. assert (F : nth_error (map fst M) k = Some lab) by (rewrite nth_error_map, E; reflexivity).
  rewrite L, nth_error_seq in F by auto. injection F as <-. reflexivity.
Qed.
Lemma ch_at M c a l : cshows M c -> In (a, l) M -> a < K /\ l = nth_members M a.
Proof.
  intros H Hl. apply In_nth_error in Hl as [k E]. assert (Hk : k < K) by (rewrite <- (ch_size M c H); eapply nth_lt; eauto).
  rewrite (ch_nth M c k H Hk) in E. injection E as <- <-. auto.
Qed.
Lemma ch_lt M c i : cshows M c -> i < N -> colour c i < K.
Proof.
  intros H Hi. destruct (Nat.lt_ge_cases (colour c i) K) as [|Hge]; auto. assert (X : In i (nth_members M (colour c i))) by (apply (ch_in _ _ H); auto).
  rewrite (nth_members_out M) in X by (now rewrite (ch_size M c H)). destruct X.
Qed.
Lemma ch_good M c : cshows M c -> good M.
Proof.
  intros H. split.
  - rewrite (ch_labels _ _ H). apply seq_NoDup.
  - intros a l Hl. apply (ch_at M c) in Hl as [_ ->]; auto. apply H.
  - intros a x b y i Ha Hb Hi Hj. apply (ch_at M c) in Ha as [_ ->]; auto. apply (ch_at M c) in Hb as [_ ->]; auto. apply (ch_in _ _ H) in Hi. apply (ch_in _ _ H) in Hj. lia.
Qed.
Lemma ch_home M c i : cshows M c -> i < N -> home M i = Some (colour c i).
Proof.
  intros H Hi. apply home_iff; [eapply ch_good; eauto|]. exists (nth_members M (colour c i)). split; [|apply (ch_in _ _ H); auto].
  eapply nth_error_In. eapply ch_nth; eauto. eapply ch_lt; eauto.
Qed.
Lemma ch_covering M c : cshows M c -> covering N M.
Proof. intros H i Hi. rewrite (ch_home M c i H Hi). discriminate. Qed.
Lemma ch_same M c i j : cshows M c -> i < N -> j < N -> same_home M i j = among c i j.
Proof. intros H Hi Hj. unfold same_home, among. now rewrite (ch_home M c i H Hi), (ch_home M c j H Hj). Qed.

Lemma nth_gmove M v a w k : a < length M -> w < length M -> a <> w -> In v (nth_members M a) ->
  nth_members (grop_do M (GMove v a w)) k = if k =? w then nth_members M w ++ [v] else if k =? a then remove1 v (nth_members M a) else nth_members M k.
Proof.
  intros Ha Hw Hne Hv. cbn [grop_do]. rewrite (proj2 (mem_In v _) Hv). cbv zeta. rewrite nth_set_members by (rewrite length_set_members; auto). rewrite !nth_set_members by auto.
  destruct (Nat.eqb_spec k w) as [->|]; auto. destruct (Nat.eqb_spec w a); [congruence|auto].
Qed.
Lemma labels_gmove M v a w : map fst (grop_do M (GMove v a w)) = map fst M.
Proof. cbn [grop_do]. destruct (mem v (nth_members M a)); auto. cbv zeta. now rewrite !labels_set_members. Qed.
Lemma nth_gmerge M a b k : a < length M -> b < length M -> a <> b ->
  nth_members (grop_do M (GMerge a b)) k = if k =? a then [] else if k =? b then nth_members M b ++ nth_members M a else nth_members M k.
Proof. intros Ha Hb Hne. cbn [grop_do]. rewrite nth_set_members by (rewrite length_set_members; auto). now rewrite !nth_set_members by auto. Qed.

Lemma ch_move M c v w : cshows M c -> v < N -> w < K -> colour c v <> w -> cshows (grop_do M (GMove v (colour c v) w)) (upd c v w).
Proof.
  intros H Hv Hw Hne. pose proof (ch_lt M c v H Hv) as Ha. pose proof (ch_size M c H) as HM. assert (Hin : In v (nth_members M (colour c v))) by (apply (ch_in _ _ H); auto).
  assert (E : forall k, nth_members (grop_do M (GMove v (colour c v) w)) k = if k =? w then nth_members M w ++ [v] else if k =? colour c v then remove1 v (nth_members M (colour c v)) else nth_members M k)
    by (intros k; apply nth_gmove; auto; rewrite HM; auto).
  assert (Hnw : ~ In v (nth_members M w)) by (intros X; apply (ch_in _ _ H) in X; lia).
  split.
  - rewrite labels_gmove. apply H.
  - intros k. rewrite E. destruct (Nat.eqb_spec k w) as [->|]; [|destruct (k =? colour c v); [apply NoDup_filter|]; apply H].
    apply NoDup_app_iff. splits; [apply H|repeat constructor; auto|intros x Hx [<-|[]]; auto].
  - now rewrite length_upd, (ch_len _ _ H).
  - intros i k. rewrite E, colour_upd by (rewrite (ch_len _ _ H); auto). destruct (Nat.eqb_spec k w) as [->|Nw].
    + rewrite in_app_iff, (ch_in _ _ H). simpl. destruct (Nat.eqb_spec i v) as [->|]; [tauto|]. split; [intros [X|[X|[]]]; [auto|congruence]|auto].
    + destruct (Nat.eqb_spec k (colour c v)) as [->|Na].
      * rewrite remove1_In, (ch_in _ _ H). destruct (Nat.eqb_spec i v) as [->|]; [split; [tauto|intros [_ X]; congruence]|tauto].
      * rewrite (ch_in _ _ H). destruct (Nat.eqb_spec i v) as [->|]; [split; intros [_ X]; congruence|tauto].
Qed.
Lemma ch_merge M c a b : cshows M c -> a < K -> b < K -> a <> b -> cshows (grop_do M (GMerge a b)) (repaint a b c).
Proof.
  intros H Ha Hb Hne. pose proof (ch_size M c H) as HM.
  assert (E : forall k, nth_members (grop_do M (GMerge a b)) k = if k =? a then [] else if k =? b then nth_members M b ++ nth_members M a else nth_members M k)
    by (intros k; apply nth_gmerge; auto; rewrite HM; auto).
  split.
  - cbn [grop_do]. rewrite !labels_set_members. apply H.
  - intros k. rewrite E. destruct (k =? a); [constructor|]. destruct (k =? b); [|apply H]. apply NoDup_app_iff. splits; try apply H.
    intros i X Y. apply (ch_in _ _ H) in X. apply (ch_in _ _ H) in Y. lia.
  - unfold repaint. now rewrite map_length, (ch_len _ _ H).
  - intros i k. rewrite E. destruct (Nat.lt_ge_cases i N) as [Hi|Hi].
    + rewrite colour_repaint by (rewrite (ch_len _ _ H); auto). destruct (Nat.eqb_spec k a) as [->|Na].
      * split; [intros []|]. intros [_ X]. destruct (Nat.eqb_spec (colour c i) a); congruence.
      * destruct (Nat.eqb_spec k b) as [->|Nb].
        -- rewrite in_app_iff, !(ch_in _ _ H). destruct (Nat.eqb_spec (colour c i) a); tauto.
        -- rewrite (ch_in _ _ H). destruct (Nat.eqb_spec (colour c i) a); split; intros [_ X]; split; auto; congruence.
    + split; [|lia]. intros X. exfalso. destruct (k =? a); [destruct X|]. destruct (k =? b); [apply in_app_or in X as [X|X]|]; apply (ch_in _ _ H) in X; lia.
Qed.
End Shows.

(** * Sums over the groups *)
Lemma Qsum_set (F : list nat -> Qc) M : forall k l, k < length M -> Qsum (fun x => F (snd x)) (set_members M k l) = (Qsum (fun x => F (snd x)) M - F (nth_members M k) + F l)%Qc.
Proof.
  induction M as [|[lab x] M IH]; intros k l Hk; [simpl in Hk; lia|]. destruct k as [|k].
  - unfold set_members, nth_members. cbn. ring.
  - simpl in Hk. specialize (IH k l). unfold set_members, nth_members in *. cbn [nth_error]. destruct (nth_ex M k) as [[lb y] E]; [lia|]. rewrite E in *. cbn [upd Qsum snd]. rewrite IH by lia. ring.
Qed.
Section Value.
Variables (n : nat) (f : nat -> nat -> Qc).
Hypothesis fsym : forall i j, f i j = f j i.
Hypothesis f0 : forall i, f i i = 0%Qc.
(** The term of a group. *)
Definition worth (L : Qc) (S : list nat) : Qc :=
  ((s_in n f S + s_in n f S) / L - (s_in n f S + s_tot n f S) * (s_in n f S + s_tot n f S) / (L * L))%Qc.
Theorem groups_value L M : good M -> Qsum (fun G => worth L (snd G)) M =
  Qsum (fun i => Qsum (fun j => if same_home M i j then (f i j / L - node_sum n f i * node_sum n f j / (L * L))%Qc else 0%Qc) (seq 0 n)) (seq 0 n).
Proof.
  intros GM. rewrite (Qsum_ext _ (fun G => Qsum (fun i => Qsum (fun j => if mem i (snd G) && mem j (snd G) then f i j / L - node_sum n f i * node_sum n f j / (L * L) else 0)%Qc (seq 0 n)) (seq 0 n))).
  - rewrite Qsum_swap. apply Qsum_ext. intros i _. rewrite Qsum_swap. apply Qsum_ext. intros j _. now apply over_groups2.
  - intros G _. unfold worth. rewrite s_in_twice, (Qcplus_comm (s_in n f (snd G))), s_degrees by auto. unfold Qcdiv. rewrite Qsum_prod.
    rewrite <- !Qsum_scal_r. rewrite <- Qsum_sub. apply Qsum_ext. intros i _. rewrite <- !Qsum_scal_r. rewrite <- Qsum_sub. apply Qsum_ext. intros j _.
    unfold s_deg, node_sum. destruct (mem i (snd G)), (mem j (snd G)); cbn [andb]; ring.
Qed.
Lemma shown_value K L M c : cshows n K M c -> Qsum (fun G => worth L (snd G)) M = pair_value n f L c.
Proof.
  intros H. rewrite groups_value by (eapply ch_good; eauto). unfold pair_value. apply Qsum_ext. intros i Hi. apply Qsum_ext. intros j Hj. apply in_seq in Hi. apply in_seq in Hj.
  rewrite (ch_same n K M c i j H) by lia. reflexivity.
Qed.
Lemma gain_move K L M c v w : cshows n K M c -> v < n -> w < K -> colour c v <> w ->
  (pair_value n f L (upd c v w) - pair_value n f L c)%Qc =
  (worth L (remove1 v (nth_members M (colour c v))) + worth L (nth_members M w ++ [v]) - worth L (nth_members M (colour c v)) - worth L (nth_members M w))%Qc.
Proof.
  intros H Hv Hw Hne. pose proof (ch_lt n K M c v H Hv) as Ha. pose proof (ch_size n K M c H) as HM. assert (Hin : In v (nth_members M (colour c v))) by (apply (ch_in _ _ _ _ H); auto).
  rewrite <- (shown_value K L _ _ (ch_move n K M c v w H Hv Hw Hne)), <- (shown_value K L _ _ H). cbn [grop_do]. rewrite (proj2 (mem_In v _) Hin). cbv zeta.
  rewrite !Qsum_set by (rewrite ?length_set_members, HM; auto). rewrite !nth_set_members by (rewrite HM; auto). destruct (Nat.eqb_spec w (colour c v)) as [->|_]; [congruence|]. ring.
Qed.
Lemma gain_merge K L M c a b : cshows n K M c -> a < K -> b < K -> a <> b -> worth L [] = 0%Qc ->
  (pair_value n f L (repaint a b c) - pair_value n f L c)%Qc = (worth L (nth_members M b ++ nth_members M a) - worth L (nth_members M a) - worth L (nth_members M b))%Qc.
Proof.
  intros H Ha Hb Hne E0. pose proof (ch_size n K M c H) as HM.
  rewrite <- (shown_value K L _ _ (ch_merge n K M c a b H Ha Hb Hne)), <- (shown_value K L _ _ H). cbn [grop_do].
  rewrite !Qsum_set by (rewrite ?length_set_members, HM; auto). rewrite !nth_set_members by (rewrite HM; auto). destruct (Nat.eqb_spec a b) as [->|_]; [congruence|]. rewrite E0. ring.
Qed.
Lemma worth_nil L : worth L [] = 0%Qc.
Proof. unfold worth. destruct (s_empty n f) as (-> & -> & _). unfold Qcdiv. ring. Qed.
Lemma worth_ext L S S' : (forall i, In i S <-> In i S') -> worth L S = worth L S'.
Proof.
  intros H. unfold worth. destruct (s_ext n f S S') as (-> & -> & _); auto.
  intros i. destruct (mem_spec i S), (mem_spec i S'); auto; exfalso; apply H in i0; auto || (apply n0; apply H; auto).
Qed.
End Value.
