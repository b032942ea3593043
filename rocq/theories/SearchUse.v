(** SearchUse.v -- tfind, twalk, tdestroy, the height of the tree, and the tree as a dictionary of labels. *)
From Coq Require Import List Arith Lia ZArith Bool Sorted Permutation Ascii.
From Verif Require Import Base ListLib IoModel SearchModel SearchSpec SearchProof SearchLoop.
Import ListNotations.
Local Open Scope nat_scope.

(** ** strcmp *)
Lemma nat_of_ascii_inj x y : nat_of_ascii x = nat_of_ascii y -> x = y.
Proof. intros H. rewrite <- (ascii_nat_embedding x), <- (ascii_nat_embedding y). now rewrite H. Qed.
Lemma strcmp_zero a : forall b, strcmp a b = 0%Z <-> a = b.
Proof.
  induction a as [|x a IH]; intros [|y b]; cbn; try (split; [lia|discriminate]); [tauto|]. destruct (Nat.compare_spec (nat_of_ascii x) (nat_of_ascii y)) as [E|E|E].
  - rewrite IH. apply nat_of_ascii_inj in E. subst y. split; [congruence|intros H; now injection H].
  - split; [lia|]. intros H. injection H as -> _. lia.
  - split; [lia|]. intros H. injection H as -> _. lia.
Qed.
Lemma strcmp_anti a : forall b, (strcmp a b < 0)%Z <-> (0 < strcmp b a)%Z.
Proof.
  induction a as [|x a IH]; intros [|y b]; cbn; try lia. rewrite (Nat.compare_antisym (nat_of_ascii x) (nat_of_ascii y)). destruct (Nat.compare (nat_of_ascii x) (nat_of_ascii y)); cbn; [apply IH|lia|lia].
Qed.
Lemma strcmp_trans a : forall b c, (strcmp a b < 0)%Z -> (strcmp b c < 0)%Z -> (strcmp a c < 0)%Z.
Proof.
  induction a as [|x a IH]; intros [|y b] [|z c]; cbn; try lia.
  destruct (Nat.compare_spec (nat_of_ascii x) (nat_of_ascii y)) as [E|E|E]; destruct (Nat.compare_spec (nat_of_ascii y) (nat_of_ascii z)) as [E'|E'|E']; destruct (Nat.compare_spec (nat_of_ascii x) (nat_of_ascii z)) as [E2|E2|E2]; try lia; apply IH.
Qed.
Lemma label_good {V : Type} : good_compar (@NodeTreeLabelCompare V).
Proof.
  unfold NodeTreeLabelCompare. constructor.
  - intros a. now apply strcmp_zero.
  - intros a b. apply strcmp_anti.
  - intros a b c. apply strcmp_trans.
  - intros a b c H. apply strcmp_zero in H. now rewrite H.
Qed.
Lemma label_eqb_strcmp a b : label_eqb a b = (strcmp b a =? 0)%Z.
Proof.
  assert (H : label_eqb a b = true <-> a = b).
  { revert b. induction a as [|x a IH]; intros [|y b]; cbn; try (split; [discriminate|discriminate]); [tauto|]. rewrite andb_true_iff, IH. unfold ascii_eqb. rewrite Ascii.eqb_eq. split; [intros [-> ->]; auto|intros E; now injection E]. }
  destruct (Z.eqb_spec (strcmp b a) 0) as [E|E].
  - apply H. apply strcmp_zero in E. auto.
  - apply not_true_is_false. intros L. apply H in L. subst b. destruct E. now apply strcmp_zero.
Qed.

Section Use.
Context {K : Type}.
Variable compar : K -> K -> Z.
Hypothesis GC : good_compar compar.
Implicit Types t : tree K.
Implicit Types h : theap K.

(** ** Height *)
Lemma elems_size t : length (elems t) = size t.
Proof. unfold size. induction t as [|i k c l IHl r IHr]; auto. cbn [elems ids length]. rewrite !app_length. cbn [length]. lia. Qed.
Lemma elems_ids t : Permutation (map fst (elems t)) (ids t).
Proof.
  induction t as [|i k c l IHl r IHr]; auto. cbn [elems ids]. rewrite map_app. cbn [map fst]. rewrite <- Permutation_middle. constructor. now apply Permutation_app.
Qed.
Lemma height_size t : height t <= size t.
Proof. unfold size. induction t as [|i k c l IHl r IHr]; cbn [height ids length]; auto. rewrite app_length. lia. Qed.
Lemma balanced_height t : forall n, balanced t n -> height t <= 2 * n + (if isred t then 1 else 0) /\ 2 ^ n <= S (size t).
Proof.
  unfold size. induction t as [|i k [|] l IHl r IHr]; intros n; cbn [balanced height ids isred length].
  - intros ->. cbn. lia.
  - intros (Hl & Hr & Rl & Rr). apply IHl in Hl. apply IHr in Hr. rewrite Rl in Hl. rewrite Rr in Hr. rewrite app_length. lia.
  - intros (m & -> & Hl & Hr). apply IHl in Hl. apply IHr in Hr. rewrite app_length. cbn [Nat.pow]. destruct (isred l), (isred r); lia.
Qed.
Lemma holds_height h t d : holds compar h t -> length (elems t) + 1 < 2 ^ S d -> height t <= 2 * d + 1.
Proof.
  intros H HD. destruct (ho_balanced _ _ _ H) as (n & Hn). apply balanced_height in Hn as [H1 H2]. rewrite elems_size in HD. assert (n < S d). { apply (Nat.pow_lt_mono_r_iff 2); lia. } destruct (isred t); lia.
Qed.

(** ** tfind *)
Lemma tfind_loop_ok key h c t : forall fuel, here h c t -> J compar true key c t -> height t <= fuel ->
  exists v, tfind_loop compar fuel key h (cell_of c) = Ok v /\
  match v with Some q => exists k, In (q, k) (elems t) /\ compar key k = 0%Z | None => forall i k, In (i, k) (elems t) -> compar key k <> 0%Z end.
Proof.
  revert c. induction t as [|i k b l IHl r IHr]; intros c fuel HH HJ HF.
  - destruct HH as (v & Hc & Hv). cbn in Hv. subst v. destruct fuel; cbn [tfind_loop]; rewrite (load_ctx _ _ _ Hc); cbn [bind]; exists None; cbn; auto.
  - destruct (split_load _ _ _ _ _ _ _ HH) as (L1 & L2 & L3 & L4). cbn [height] in HF. destruct fuel as [|fuel]; [lia|]. cbn [tfind_loop]. rewrite L1. cbn [bind].
    assert (Hn : exists n, get (hnodes h) i = Ok n /\ tkey n = k). { destruct HH as (v & _ & _ & n & En & Ek & _). exists n. split; auto. now apply get_ok. }
    destruct Hn as (n & En & Ek). rewrite En. cbn [bind]. rewrite Ek. pose proof (j_sorted _ _ _ _ _ HJ) as SS. unfold all in SS. apply ss_app in SS as (_ & SS & _). apply ss_app in SS as (SS & _ & _). cbn [elems] in SS. apply ss_app in SS as (_ & SS & SL). inversion SS as [|? ? _ SR]; subst. rewrite Forall_forall in SR.
    destruct (Z.eqb_spec (compar key (tkey n)) 0) as [E0|N0].
    + exists (Some i). split; auto. exists (tkey n). split; auto. cbn [elems]. apply in_or_app. right. left. auto.
    + destruct (Z.ltb_spec (compar key (tkey n)) 0) as [Hlt|Hge].
      * destruct (IHl (F true i (tkey n) b r :: c) fuel) as (v & Ev & Hv); [now apply here_left|now apply J_left|lia|]. exists v. split; [exact Ev|]. destruct v as [q|].
        -- destruct Hv as (kq & Hin & Hq). exists kq. split; auto. cbn [elems]. apply in_or_app. auto.
        -- intros j kj Hin. cbn [elems] in Hin. apply in_app_or in Hin as [Hin|[E|Hin]]; [eauto|injection E as <- <-; auto|]. specialize (SR _ Hin). cbn in SR. pose proof (gc_trans _ GC _ _ _ Hlt SR). lia.
      * assert (Hgt : (0 < compar key (tkey n))%Z) by lia. destruct (IHr (F false i (tkey n) b l :: c) fuel) as (v & Ev & Hv); [now apply here_right|now apply J_right|lia|]. exists v. split; [exact Ev|]. destruct v as [q|].
        -- destruct Hv as (kq & Hin & Hq). exists kq. split; auto. cbn [elems]. apply in_or_app. right. right. auto.
        -- intros j kj Hin. cbn [elems] in Hin. apply in_app_or in Hin as [Hin|[E|Hin]]; [|injection E as <- <-; auto|eauto]. specialize (SL _ _ Hin (or_introl eq_refl)). cbn in SL. apply (gc_anti _ GC) in Hgt. pose proof (gc_trans _ GC _ _ _ SL Hgt) as X. apply (gc_anti _ GC) in X. lia.
Qed.
Lemma tfind_gen key h t fuel : holds compar h t -> height t <= fuel ->
  exists v, tfind_loop compar fuel key h CRoot = Ok v /\
  match v with Some q => exists k, In (q, k) (elems t) /\ compar key k = 0%Z | None => forall i k, In (i, k) (elems t) -> compar key k <> 0%Z end.
Proof.
  intros HO HF. apply (tfind_loop_ok key h [] t fuel); auto; [apply here_plug; apply (ho_rep _ _ _ HO)|]. destruct HO as [A B C (n & D)]. constructor; cbn; auto; try tauto; [|eauto|discriminate]. unfold all. cbn. rewrite app_nil_r. exact C.
Qed.
Lemma height_nodes h t : holds compar h t -> height t <= length (hnodes h).
Proof. intros HO. pose proof (height_size t). pose proof (size_bound h t _ (ho_rep _ _ _ HO) (ho_nodup _ _ _ HO)). lia. Qed.
Lemma tfind_ok key h t : holds compar h t ->
  match tfind compar key h with
  | Ok (Some q) => exists k, In (q, k) (elems t) /\ compar key k = 0%Z
  | Ok None => forall i k, In (i, k) (elems t) -> compar key k <> 0%Z
  | Err _ => False
  end.
Proof.
  intros HO. unfold tfind. destruct (tfind_gen key h t _ HO (height_nodes _ _ HO)) as (v & -> & Hv). exact Hv.
Qed.
Lemma tfind_fuel key h t : holds compar h t -> forall f1 f2, height t <= f1 -> height t <= f2 -> tfind_loop compar f1 key h CRoot = tfind_loop compar f2 key h CRoot.
Proof.
  intros HO f1 f2 H1 H2. destruct (tfind_gen key h t f1 HO H1) as (v1 & E1 & V1), (tfind_gen key h t f2 HO H2) as (v2 & E2 & V2). rewrite E1, E2. f_equal.
  assert (U : forall i j k k', In (i, k) (elems t) -> In (j, k') (elems t) -> compar key k = 0%Z -> compar key k' = 0%Z -> i = j).
  { intros i j k k' Hi Hj Zi Zj. destruct (Nat.eq_dec i j) as [|Hn]; auto. exfalso. pose proof (ho_sorted _ _ _ HO) as SS. unfold sorted in SS. apply in_split in Hi as (l1 & l2 & El). rewrite El in SS, Hj. apply ss_app in SS as (S1 & S2 & S3). inversion S2 as [|? ? _ SF]; subst. rewrite Forall_forall in SF.
    assert (Q : forall a b, compar key a = 0%Z -> compar key b = 0%Z -> (compar a b < 0)%Z -> False).
    { intros a b Ha Hb Hab. pose proof (gc_eq _ GC _ _ _ Ha Hab). lia. }
    apply in_app_or in Hj as [Hj|[Hj|Hj]]; [|congruence|].
    - apply (Q k' k); auto. apply (S3 _ (i, k) Hj). left. auto.
    - apply (Q k k'); auto. apply (SF _ Hj). }
  destruct v1 as [q1|], v2 as [q2|]; auto.
  - destruct V1 as (k1 & I1 & Z1), V2 as (k2 & I2 & Z2). f_equal. eauto.
  - destruct V1 as (k1 & I1 & Z1). destruct (V2 _ _ I1 Z1).
  - destruct V2 as (k1 & I1 & Z1). destruct (V1 _ _ I1 Z1).
Qed.
Lemma tfind_fast key h t d : holds compar h t -> length (elems t) + 1 < 2 ^ S d -> tfind_loop compar (2 * d + 1) key h CRoot = tfind compar key h.
Proof. intros HO HD. unfold tfind. apply (tfind_fuel key h t HO); [eapply holds_height; eauto|now apply height_nodes]. Qed.

(** ** twalk *)
Lemma trecurse_ok h i k c l r : forall fuel level, rep h (Some i) (T i k c l r) -> height (T i k c l r) <= fuel ->
  exists ev, trecurse fuel h i level = Ok ev /\ map who (filter inorder_event ev) = map fst (elems (T i k c l r)) /\ map who (filter preorder_event ev) = ids (T i k c l r).
Proof.
  remember (T i k c l r) as t eqn:Et. revert i k c l r Et. induction t as [|i0 k0 c0 l IHl r IHr]; intros i k c l' r' Et; [discriminate|]. injection Et as -> -> -> <- <-.
  intros fuel level (_ & n & En & Ek & Ec & Hl & Hr) HF. cbn [height] in HF. destruct fuel as [|fuel]; [lia|]. cbn [trecurse]. rewrite (get_ok _ _ _ En). cbn [bind]. rewrite (root_ptr _ _ _ Hl), (root_ptr _ _ _ Hr).
  assert (SL : exists a, (match ptr l with Some i => trecurse fuel h i (level + 1) | None => Ok [] end) = Ok a /\ map who (filter inorder_event a) = map fst (elems l) /\ map who (filter preorder_event a) = ids l).
  { destruct l as [|il kl cl ll lr]; cbn [ptr]; [exists []; auto|]. apply (IHl il kl cl ll lr eq_refl); [now rewrite (root_ptr _ _ _ Hl) in Hl|lia]. }
  assert (SR : exists a, (match ptr r with Some i => trecurse fuel h i (level + 1) | None => Ok [] end) = Ok a /\ map who (filter inorder_event a) = map fst (elems r) /\ map who (filter preorder_event a) = ids r).
  { destruct r as [|il kl cl ll lr]; cbn [ptr]; [exists []; auto|]. apply (IHr il kl cl ll lr eq_refl); [now rewrite (root_ptr _ _ _ Hr) in Hr|lia]. }
  destruct SL as (a & Ea & A1 & A2), SR as (b & Eb & B1 & B2). fold (ptr l). fold (ptr r).
  destruct (ptr l) as [pl|] eqn:Pl; [|destruct (ptr r) as [pr|] eqn:Pr].
  3: { destruct l; [|discriminate]. destruct r; [|discriminate]. eexists. split; [reflexivity|]. auto. }
  all: (rewrite Ea || (injection Ea as <-)); cbn [bind]; rewrite Eb; cbn [bind]; eexists; (split; [reflexivity|]); cbn [filter inorder_event preorder_event fst snd map elems ids];
    rewrite !filter_app; cbn [filter inorder_event preorder_event fst snd]; rewrite !filter_app; cbn [filter inorder_event preorder_event fst snd]; rewrite ?app_nil_r, !map_app; cbn [map who fst]; rewrite <- A1, <- A2, <- B1, <- B2; auto.
Qed.
Lemma twalk_ok h t : holds compar h t ->
  exists ev, twalk h = Ok ev /\ map who (filter inorder_event ev) = map fst (elems t) /\ map who (filter preorder_event ev) = ids t.
Proof.
  intros HO. pose proof (ho_rep _ _ _ HO) as HR. unfold twalk. destruct t as [|i k c l r]; [cbn in HR; rewrite HR; exists []; auto|].
  assert (E : hroot h = Some i) by (cbn in HR; tauto). rewrite E in HR |- *. apply (trecurse_ok h i k c l r); auto. now apply height_nodes.
Qed.

(** ** tdestroy *)
Fixpoint post_ids t : list nat := match t with E => [] | T i _ _ l r => post_ids l ++ post_ids r ++ [i] end.
Lemma post_perm t : Permutation (post_ids t) (ids t).
Proof.
  induction t as [|i k c l IHl r IHr]; auto. cbn [post_ids ids]. rewrite app_assoc. rewrite <- Permutation_cons_append. constructor. now apply Permutation_app.
Qed.
Lemma not_freed i l : ~ In i l -> negb (existsb (Nat.eqb i) l) = true.
Proof.
  intros H. destruct (existsb (Nat.eqb i) l) eqn:E; auto. apply existsb_exists in E as (x & Hx & E). apply Nat.eqb_eq in E. subst x. contradiction.
Qed.
Lemma tdestroy_rec_ok h t : forall fuel freed i, rep h (Some i) t -> height t <= fuel -> NoDup (freed ++ ids t) -> tdestroy_recurse fuel h freed i = Ok (freed ++ post_ids t).
Proof.
  induction t as [|i0 k c l IHl r IHr]; intros fuel freed i; [cbn; discriminate|]. intros (Ei & n & En & Ek & Ec & Hl & Hr) HF ND. injection Ei as ->. cbn [height] in HF. destruct fuel as [|fuel]; [lia|].
  cbn [ids] in ND. assert (NI : ~ In i0 freed /\ ~ In i0 (ids l) /\ ~ In i0 (ids r)) by (apply NoDup_remove_2 in ND; rewrite !in_app_iff in ND; tauto). apply NoDup_remove_1 in ND. destruct NI as (N1 & N2 & N3).
  cbn [tdestroy_recurse]. rewrite not_freed by auto. cbn [check bind]. rewrite (get_ok _ _ _ En). cbn [bind].
  assert (SL : (match tleft n with Some j => tdestroy_recurse fuel h freed j | None => Ok freed end) = Ok (freed ++ post_ids l)).
  { destruct l as [|il kl cl ll lr]; [cbn in Hl; rewrite Hl; cbn; now rewrite app_nil_r|]. pose proof (root_ptr _ _ _ Hl) as E. rewrite E in *. apply IHl; auto; [lia|]. rewrite app_assoc in ND. now apply nd_l in ND. }
  rewrite SL. cbn [bind].
  assert (SR : (match tright n with Some j => tdestroy_recurse fuel h (freed ++ post_ids l) j | None => Ok (freed ++ post_ids l) end) = Ok ((freed ++ post_ids l) ++ post_ids r)).
  { destruct r as [|il kl cl ll lr]; [cbn in Hr; rewrite Hr; cbn; now rewrite app_nil_r|]. pose proof (root_ptr _ _ _ Hr) as E. rewrite E in *. apply IHr; auto; [lia|].
    eapply Permutation_NoDup; [|exact ND]. rewrite <- app_assoc. apply Permutation_app_head, Permutation_app_tail. symmetry. apply post_perm. }
  rewrite SR. cbn [bind]. rewrite not_freed. 2: { rewrite !in_app_iff. intros [[H|H]|H]; [tauto|apply (Permutation_in _ (post_perm l)) in H; tauto|apply (Permutation_in _ (post_perm r)) in H; tauto]. }
  cbn [check bind post_ids]. now rewrite <- !app_assoc.
Qed.
Lemma tdestroy_ok h t : holds compar h t -> exists l, tdestroy h = Ok l /\ Permutation l (ids t) /\ NoDup l.
Proof.
  intros HO. pose proof (ho_rep _ _ _ HO) as HR. pose proof (ho_nodup _ _ _ HO) as ND. exists (post_ids t). split; [|split; [apply post_perm|eapply Permutation_NoDup; [symmetry; apply post_perm|auto]]].
  unfold tdestroy. destruct t as [|i k c l r]; [cbn in HR; now rewrite HR|]. assert (E : hroot h = Some i) by (cbn in HR; tauto). rewrite E in *. rewrite (tdestroy_rec_ok h (T i k c l r)); auto. now apply height_nodes.
Qed.

(** ** The tree as a list of entries in the order of their insertion *)
Lemma elems_rep h t : forall p, rep h p t -> forall i k, In (i, k) (elems t) -> nth_error (entries h) i = Some k.
Proof.
  induction t as [|i k c l IHl r IHr]; intros p; cbn [rep elems]; [intros _ ? ? []|]. intros (_ & n & En & Ek & _ & Hl & Hr) j kj Hj. apply in_app_or in Hj as [Hj|[Hj|Hj]]; eauto. injection Hj as <- <-. unfold entries. rewrite nth_error_map, En. cbn. now rewrite Ek.
Qed.
Lemma table_elems h t : holds compar h t -> Permutation (map fst (elems t)) (seq 0 (length (hnodes h))) -> forall i k, In (i, k) (elems t) <-> nth_error (entries h) i = Some k.
Proof.
  intros HO HP i k. split; [apply (elems_rep _ _ _ (ho_rep _ _ _ HO))|]. intros E. assert (Hi : In i (map fst (elems t))). { eapply Permutation_in; [symmetry; exact HP|]. apply in_seq. apply nth_lt in E. unfold entries in E. rewrite map_length in E. lia. }
  apply in_map_iff in Hi as ((j & kj) & Ej & Hj). cbn in Ej. subst j. pose proof (elems_rep _ _ _ (ho_rep _ _ _ HO) _ _ Hj). congruence.
Qed.
Lemma empty_table : is_table compar (mkH None []).
Proof. exists E. split; [|reflexivity]. constructor; cbn; auto; [constructor|unfold sorted; constructor|exists 0; auto]. Qed.
Theorem tsearch_table h key : is_table compar h ->
  match tsearch compar key h with
  | Ok (q, h') => is_table compar h' /\ exists k, nth_error (entries h') q = Some k /\ compar key k = 0%Z /\
      match find (fun k' => (compar key k' =? 0)%Z) (entries h) with
      | Some k' => k = k' /\ entries h' = entries h
      | None => k = key /\ entries h' = entries h ++ [key] /\ q = length (entries h)
      end
  | Err _ => False
  end.
Proof.
  intros (t & HO & HP). pose proof (tsearch_ok compar GC h t key HO) as TS. destruct (tsearch compar key h) as [[q h']|e]; auto. destruct TS as (t' & HO' & TS). pose proof (table_elems _ _ HO HP) as TE.
  destruct TS as [(k & Hin & Z & El & Len)|(NF & Eq & l1 & l2 & E1 & E2 & Len)].
  - assert (HP' : Permutation (map fst (elems t')) (seq 0 (length (hnodes h')))) by (rewrite El, Len; exact HP). split; [exists t'; auto|]. pose proof (table_elems _ _ HO' HP') as TE'. rewrite El in TE'.
    assert (EE : entries h' = entries h). { apply ListLib.nth_ext. intros i. destruct (nth_error (entries h) i) as [k'|] eqn:Ei.
      - apply TE'. apply TE. exact Ei.
      - apply nth_error_None in Ei. apply nth_error_None. unfold entries in *. rewrite map_length in *. lia. }
    exists k. rewrite EE. split; [now apply TE|]. split; auto. destruct (find (fun k' => (compar key k' =? 0)%Z) (entries h)) as [k'|] eqn:Ef.
    + split; auto. apply find_some in Ef as [Hk Zk]. apply Z.eqb_eq in Zk. apply In_nth_error in Hk as [j Ej]. apply TE in Ej. destruct (Nat.eq_dec q j) as [->|Hn].
      * apply TE in Hin. apply TE in Ej. congruence.
      * exfalso. pose proof (ho_sorted _ _ _ HO) as SS. unfold sorted in SS. apply in_split in Hin as (m1 & m2 & Em). rewrite Em in SS, Ej. apply ss_app in SS as (S1 & S2 & S3). inversion S2 as [|? ? _ SF]; subst. rewrite Forall_forall in SF.
        assert (Q : forall a b, compar key a = 0%Z -> compar key b = 0%Z -> (compar a b < 0)%Z -> False) by (intros a b Ha Hb Hab; pose proof (gc_eq _ GC _ _ _ Ha Hab); lia).
        apply in_app_or in Ej as [Hj|[Hj|Hj]]; [|congruence|]; [apply (Q k' k)|apply (Q k k')]; auto; [apply (S3 _ (q, k) Hj); left; auto|apply (SF _ Hj)].
    + exfalso. apply TE in Hin. apply nth_error_In in Hin. pose proof (find_none _ _ Ef _ Hin) as X. cbn in X. apply Z.eqb_neq in X. auto.
  - assert (HP' : Permutation (map fst (elems t')) (seq 0 (length (hnodes h')))).
    { rewrite E2, Len, map_app. cbn [map fst]. rewrite <- Permutation_middle, <- map_app, <- E1, seq_S. cbn. rewrite HP. subst q. apply Permutation_cons_append. }
    split; [exists t'; auto|]. pose proof (table_elems _ _ HO' HP') as TE'. assert (LE : length (entries h) = length (hnodes h)) by apply map_length.
    assert (EE : entries h' = entries h ++ [key]).
    { apply ListLib.nth_ext. intros i. destruct (Nat.lt_trichotomy i (length (hnodes h))) as [Hi|[Hi|Hi]].
      - rewrite nth_error_app1 by lia. destruct (nth_ex (entries h) i) as [k' Ek]; [lia|]. rewrite Ek. apply TE'. apply TE in Ek. rewrite E2. rewrite E1 in Ek. apply in_app_or in Ek. apply in_or_app. cbn. tauto.
      - rewrite nth_error_app2 by lia. subst i. rewrite LE, Nat.sub_diag. cbn. apply TE'. rewrite E2, <- Eq. apply in_or_app. right. left. auto.
      - rewrite (proj2 (nth_error_None _ _)). 2: { unfold entries. rewrite map_length. lia. } symmetry. apply nth_error_None. rewrite app_length. cbn. lia. }
    exists key. rewrite EE, Eq, LE. split; [rewrite nth_error_app2, LE, Nat.sub_diag by lia; auto|]. split; [apply (gc_refl _ GC)|].
    destruct (find (fun k' => (compar key k' =? 0)%Z) (entries h)) as [k'|] eqn:Ef; auto. exfalso. apply find_some in Ef as [Hk Zk]. apply Z.eqb_eq in Zk. apply In_nth_error in Hk as [j Ej]. apply TE in Ej. exact (NF _ _ Ej Zk).
Qed.
Theorem tfind_table h key : is_table compar h ->
  match tfind compar key h with
  | Ok (Some q) => exists k, nth_error (entries h) q = Some k /\ find (fun k' => (compar key k' =? 0)%Z) (entries h) = Some k
  | Ok None => find (fun k' => (compar key k' =? 0)%Z) (entries h) = None
  | Err _ => False
  end.
Proof.
  intros HT. pose proof (tsearch_table h key HT) as TS. destruct HT as (t & HO & HP). pose proof (table_elems _ _ HO HP) as TE. pose proof (tfind_ok key h t HO) as TF. pose proof (tsearch_ok compar GC h t key HO) as TO.
  destruct (tfind compar key h) as [[q|]|e]; auto.
  - destruct TF as (k & Hin & Z). destruct (tsearch compar key h) as [[q' h']|e]; [|tauto]. destruct TO as (t' & _ & [(k' & Hin' & Z' & _)|(NF & _)]); [|destruct (NF _ _ Hin Z)].
    exists k. split; [now apply TE|]. destruct TS as (_ & k2 & E2 & _ & TS). destruct (find (fun k' => (compar key k' =? 0)%Z) (entries h)) as [k3|] eqn:Ef.
    + destruct TS as [-> EE]. rewrite EE in E2. assert (q = q'); [|subst q'; apply TE in Hin; congruence].
      destruct (Nat.eq_dec q q') as [|Hn]; auto. exfalso. pose proof (ho_sorted _ _ _ HO) as SS. unfold sorted in SS. apply in_split in Hin as (m1 & m2 & Em). rewrite Em in SS, Hin'. apply ss_app in SS as (S1 & S2 & S3). inversion S2 as [|? ? _ SF]; subst. rewrite Forall_forall in SF.
      assert (Q : forall a b, compar key a = 0%Z -> compar key b = 0%Z -> (compar a b < 0)%Z -> False) by (intros a b Ha Hb Hab; pose proof (gc_eq _ GC _ _ _ Ha Hab); lia).
      apply in_app_or in Hin' as [Hj|[Hj|Hj]]; [|congruence|]; [apply (Q k' k)|apply (Q k k')]; auto; [apply (S3 _ (q, k) Hj); left; auto|apply (SF _ Hj)].
    + exfalso. apply TE in Hin. apply nth_error_In in Hin. pose proof (find_none _ _ Ef _ Hin) as X. cbn in X. apply Z.eqb_neq in X. auto.
  - destruct (find (fun k' => (compar key k' =? 0)%Z) (entries h)) as [k3|] eqn:Ef; auto. exfalso. apply find_some in Ef as [Hk Zk]. apply Z.eqb_eq in Zk. apply In_nth_error in Hk as [j Ej]. apply TE in Ej. exact (TF _ _ Ej Zk).
Qed.
End Use.

(** ** The dictionary of the other models *)
Lemma dict_find_find d lab v : dict_find d lab = option_map snd (find (fun k' => (NodeTreeLabelCompare (lab, v) k' =? 0)%Z) d).
Proof.
  induction d as [|(k, w) d IH]; auto. cbn [dict_find find]. rewrite IH, label_eqb_strcmp. change (NodeTreeLabelCompare (lab, v) (k, w)) with (strcmp lab k). destruct (strcmp lab k =? 0)%Z; auto.
Qed.
Theorem dict_tsearch (h : theap (label * nat)) lab v : is_table NodeTreeLabelCompare h ->
  match tsearch NodeTreeLabelCompare (lab, v) h with
  | Ok (q, h') => is_table NodeTreeLabelCompare h' /\
      match dict_find (entries h) lab with
      | Some w => nth_error (entries h') q = Some (lab, w) /\ entries h' = entries h
      | None => nth_error (entries h') q = Some (lab, v) /\ entries h' = entries h ++ [(lab, v)]
      end
  | Err _ => False
  end.
Proof.
  intros HT. pose proof (tsearch_table _ label_good h (lab, v) HT) as TS. destruct (tsearch NodeTreeLabelCompare (lab, v) h) as [[q h']|e]; auto. destruct TS as (HT' & k & E & Z & TS). split; auto.
  rewrite (dict_find_find _ _ v). destruct (find (fun k' => (NodeTreeLabelCompare (lab, v) k' =? 0)%Z) (entries h)) as [[k1 w]|]; cbn [option_map snd].
  - destruct TS as [-> EE]. split; auto. unfold NodeTreeLabelCompare in Z. apply strcmp_zero in Z. cbn in Z. now subst k1.
  - destruct TS as (-> & EE & _). auto.
Qed.
Theorem dict_tfind (h : theap (label * nat)) lab v : is_table NodeTreeLabelCompare h ->
  match tfind NodeTreeLabelCompare (lab, v) h with
  | Ok (Some q) => exists w, nth_error (entries h) q = Some (lab, w) /\ dict_find (entries h) lab = Some w
  | Ok None => dict_find (entries h) lab = None
  | Err _ => False
  end.
Proof.
  intros HT. pose proof (tfind_table _ label_good h (lab, v) HT) as TS. destruct (tfind NodeTreeLabelCompare (lab, v) h) as [[q|]|e]; auto; rewrite (dict_find_find _ _ v).
  - destruct TS as ((k & w) & E & F). exists w. rewrite F. split; auto. apply find_some in F as [_ F]. apply Z.eqb_eq in F. unfold NodeTreeLabelCompare in F. apply strcmp_zero in F. cbn in F. now subst k.
  - now rewrite TS.
Qed.
