(** SearchProof.v -- tsearch keeps a balanced search tree. *)
From Coq Require Import List Arith Lia ZArith Bool Sorted Permutation.
From Verif Require Import Base ListLib SearchModel SearchSpec.
Import ListNotations.
Local Open Scope nat_scope.

Lemma nd_l {A} (a b : list A) : NoDup (a ++ b) -> NoDup a.
Proof. induction a as [|x a IH]; cbn; intros H; [constructor|]. inversion H; subst. constructor; auto. intros Hx. apply H2. apply in_or_app. auto. Qed.
Lemma nd_r {A} (a b : list A) : NoDup (a ++ b) -> NoDup b.
Proof. induction a as [|x a IH]; cbn; intros H; auto. inversion H; auto. Qed.

Ltac cj := repeat match goal with |- _ /\ _ => split end.

Section Mem.
Context {K : Type}.
Notation heap := (theap K).
Implicit Types h : heap.

(** ** Single nodes *)
Definition node_at h i := nth_error (hnodes h) i.
Definition put h i n : heap := mkH (hroot h) (upd (hnodes h) i n).
Lemma put_len h i n : length (hnodes (put h i n)) = length (hnodes h).
Proof. apply length_upd. Qed.
Lemma put_eq h i n : i < length (hnodes h) -> node_at (put h i n) i = Some n.
Proof. intros H. unfold node_at, put. cbn. rewrite nth_upd, Nat.eqb_refl. apply Nat.ltb_lt in H. now rewrite H. Qed.
Lemma put_neq h i n j : j <> i -> node_at (put h i n) j = node_at h j.
Proof. intros H. unfold node_at, put. cbn. rewrite nth_upd. apply Nat.eqb_neq in H. now rewrite H. Qed.
Lemma at_lt h i n : node_at h i = Some n -> i < length (hnodes h).
Proof. apply nth_lt. Qed.
Lemma upd_ok h i n f : node_at h i = Some n -> upd_t h i f = Ok (put h i (f n)).
Proof. intros H. unfold upd_t. rewrite (get_ok _ _ _ H). cbn [bind]. rewrite set_ok by (eapply nth_lt; exact H). reflexivity. Qed.
Lemma load_L h i n : node_at h i = Some n -> load h (CLeft i) = Ok (tleft n).
Proof. intros H. unfold load. now rewrite (get_ok _ _ _ H). Qed.
Lemma load_R h i n : node_at h i = Some n -> load h (CRight i) = Ok (tright n).
Proof. intros H. unfold load. now rewrite (get_ok _ _ _ H). Qed.
Lemma red_ok h i n : node_at h i = Some n -> red_at h i = Ok (tred n).
Proof. intros H. unfold red_at. now rewrite (get_ok _ _ _ H). Qed.

(** ** Trees and contexts *)
Record frame := F { fd : bool; fi : nat; fk : K; fc : bool; fs : tree K }.
Definition close f (t : tree K) : tree K := if fd f then T (fi f) (fk f) (fc f) t (fs f) else T (fi f) (fk f) (fc f) (fs f) t.
Fixpoint plug (c : list frame) (t : tree K) : tree K := match c with [] => t | f :: c => plug c (close f t) end.
Definition cell_of (c : list frame) : cell := match c with [] => CRoot | f :: _ => if fd f then CLeft (fi f) else CRight (fi f) end.
Fixpoint cids (c : list frame) : list nat := match c with [] => [] | f :: c => fi f :: ids (fs f) ++ cids c end.
Fixpoint ctxrep h (c : list frame) (v : option nat) : Prop :=
  match c with
  | [] => hroot h = v
  | f :: c => (exists n, node_at h (fi f) = Some n /\ tkey n = fk f /\ tred n = fc f /\
      if fd f then tleft n = v /\ rep h (tright n) (fs f) else tright n = v /\ rep h (tleft n) (fs f)) /\ ctxrep h c (Some (fi f))
  end.
Definition here h c t := exists v, ctxrep h c v /\ rep h v t.

Lemma here_left h c i k b l r : here h c (T i k b l r) <-> here h (F true i k b r :: c) l.
Proof.
  split.
  - intros (v & Hc & -> & n & En & Ek & Ec & Hl & Hr). exists (tleft n). split; auto. split; auto. exists n. cbn. auto.
  - intros (v & ((n & En & Ek & Ec & <- & Hr) & Hc) & Hl). cbn in *. exists (Some i). split; auto. split; auto. exists n. auto.
Qed.
Lemma here_right h c i k b l r : here h c (T i k b l r) <-> here h (F false i k b l :: c) r.
Proof.
  split.
  - intros (v & Hc & -> & n & En & Ek & Ec & Hl & Hr). exists (tright n). split; auto. split; auto. exists n. cbn. auto.
  - intros (v & ((n & En & Ek & Ec & <- & Hl) & Hc) & Hr). cbn in *. exists (Some i). split; auto. split; auto. exists n. auto.
Qed.
Lemma here_plug h c : forall t, here h c t <-> rep h (hroot h) (plug c t).
Proof.
  induction c as [|f c IH]; intros t; cbn [plug].
  - split; [intros (v & Hv & H); cbn in Hv; now subst v|intros H; exists (hroot h); split; auto; reflexivity].
  - rewrite <- IH. destruct f as [[|] i k b s]; unfold close; cbn; [symmetry; apply here_left|symmetry; apply here_right].
Qed.
Lemma rep_frame h h' t : forall p, rep h p t -> (forall j, In j (ids t) -> node_at h' j = node_at h j) -> rep h' p t.
Proof.
  induction t as [|i k c l IHl r IHr]; intros p; cbn [rep ids]; auto. intros (-> & n & En & Ek & Ec & Hl & Hr) H. split; auto. exists n. splits; auto.
  - unfold node_at in H. rewrite H; auto. left. auto.
  - apply IHl; auto. intros j Hj. apply H. right. apply in_or_app. auto.
  - apply IHr; auto. intros j Hj. apply H. right. apply in_or_app. auto.
Qed.
Lemma ctxrep_frame h h' c : forall v, ctxrep h c v -> hroot h' = hroot h -> (forall j, In j (cids c) -> node_at h' j = node_at h j) -> ctxrep h' c v.
Proof.
  induction c as [|f c IH]; intros v; cbn [ctxrep cids]; [congruence|]. intros [(n & En & Ek & Ec & Hs) Hc] Hr H. split.
  - exists n. splits; auto; [rewrite H; auto; left; auto|]. assert (G : forall p, rep h p (fs f) -> rep h' p (fs f)) by (intros p Hp; eapply rep_frame; eauto; intros j Hj; apply H; right; apply in_or_app; auto).
    destruct (fd f); destruct Hs as [Hs1 Hs2]; split; auto.
  - apply IH; auto. intros j Hj. apply H. right. apply in_or_app. auto.
Qed.
Lemma load_ctx h c v : ctxrep h c v -> load h (cell_of c) = Ok v.
Proof.
  destruct c as [|f c]; cbn [ctxrep cell_of load]; [intros ->; auto|]. intros [(n & En & _ & _ & Hs) _]. destruct (fd f); destruct Hs as [<- _]; [now apply load_L|now apply load_R].
Qed.
Lemma store_ctx h c v v' : ctxrep h c v -> NoDup (cids c) ->
  exists h', store h (cell_of c) v' = Ok h' /\ ctxrep h' c v' /\ (forall j, ~ In j (cids c) -> node_at h' j = node_at h j) /\ length (hnodes h') = length (hnodes h).
Proof.
  destruct c as [|f c]; cbn [ctxrep cell_of store cids].
  - intros _ _. exists (mkH v' (hnodes h)). splits; auto.
  - intros [(n & En & Ek & Ec & Hs) Hc] ND. inversion ND as [|? ? H1 H2]; subst. rewrite in_app_iff in H1.
    assert (G : forall m, ctxrep (put h (fi f) m) c (Some (fi f)) /\ (forall p, rep h p (fs f) -> rep (put h (fi f) m) p (fs f)) /\ (forall j, ~ In j (fi f :: ids (fs f) ++ cids c) -> node_at (put h (fi f) m) j = node_at h j)).
    { intros m. splits.
      - eapply ctxrep_frame; eauto. intros j Hj. apply put_neq. intros ->. tauto.
      - intros p Hp. eapply rep_frame; eauto. intros j Hj. apply put_neq. intros ->. tauto.
      - intros j Hj. apply put_neq. intros ->. apply Hj. left. auto. }
    destruct (fd f) eqn:Ed; cbn [store]; rewrite (upd_ok _ _ _ _ En).
    + destruct (G (set_left v' n)) as (G1 & G2 & G3). exists (put h (fi f) (set_left v' n)). split; [reflexivity|]. split; [|split; [exact G3|apply put_len]]. split; [|exact G1]. exists (set_left v' n). split; [apply put_eq; eapply at_lt; eauto|]. split; [exact Ek|]. split; [exact Ec|].
      cbn. split; auto. apply G2. tauto.
    + destruct (G (set_right v' n)) as (G1 & G2 & G3). exists (put h (fi f) (set_right v' n)). split; [reflexivity|]. split; [|split; [exact G3|apply put_len]]. split; [|exact G1]. exists (set_right v' n). split; [apply put_eq; eapply at_lt; eauto|]. split; [exact Ek|]. split; [exact Ec|].
      cbn. split; auto. apply G2. tauto.
Qed.
(** Colouring a node. *)
Lemma colour h c i k b b' l r : here h c (T i k b l r) -> NoDup (cids c ++ ids (T i k b l r)) ->
  exists h', set_red h i b' = Ok h' /\ here h' c (T i k b' l r) /\ length (hnodes h') = length (hnodes h).
Proof.
  intros (v & Hc & -> & n & En & Ek & Ec & Hl & Hr) ND. unfold set_red. rewrite (upd_ok _ _ _ _ En). eexists. splits; [reflexivity| |apply put_len].
  assert (NI : ~ In i (cids c) /\ ~ In i (ids l) /\ ~ In i (ids r)).
  { cbn [ids] in ND. apply NoDup_remove_2 in ND. rewrite !in_app_iff in ND. tauto. } destruct NI as (N1 & N2 & N3).
  exists (Some i). split.
  - eapply ctxrep_frame; eauto. intros j Hj. apply put_neq. intros ->. tauto.
  - split; auto. exists (set_tred b' n). splits; auto; [apply put_eq; eapply at_lt; eauto| |]; eapply rep_frame; eauto; intros j Hj; apply put_neq; intros ->; tauto.
Qed.
Definition blacken (t : tree K) : tree K := match t with T i k _ l r => T i k false l r | E => E end.
Lemma blacken_ids t : ids (blacken t) = ids t.
Proof. destruct t; auto. Qed.
Lemma blacken_elems t : elems (blacken t) = elems t.
Proof. destruct t; auto. Qed.
Lemma root_ptr h p t : rep h p t -> p = match t with E => None | T i _ _ _ _ => Some i end.
Proof. destruct t; cbn; [auto|tauto]. Qed.
Definition ptr (t : tree K) : option nat := match t with E => None | T i _ _ _ _ => Some i end.

(** The three assignments of colours in maybe_split_for_insert. *)
Lemma paint h c i k b l r : here h c (T i k b l r) -> NoDup (cids c ++ ids (T i k b l r)) ->
  exists h1 h2 h3, set_red h i true = Ok h1 /\ (match ptr r with Some a => set_red h1 a false | None => Ok h1 end) = Ok h2 /\
    (match ptr l with Some a => set_red h2 a false | None => Ok h2 end) = Ok h3 /\ here h3 c (T i k true (blacken l) (blacken r)) /\ length (hnodes h3) = length (hnodes h).
Proof.
  intros H ND. destruct (colour _ _ _ _ _ true _ _ H ND) as (h1 & E1 & H1 & L1). exists h1.
  assert (S2 : exists h2, (match ptr r with Some a => set_red h1 a false | None => Ok h1 end) = Ok h2 /\ here h2 c (T i k true l (blacken r)) /\ length (hnodes h2) = length (hnodes h1)).
  { destruct r as [|a ka ca la ra]; cbn [ptr blacken]; [eauto|]. apply here_right in H1. destruct (colour _ _ _ _ _ false _ _ H1) as (h2 & E2 & H2 & L2).
    - eapply Permutation_NoDup; [|exact ND]. cbn [cids fi fs ids]. change (i :: ids l ++ a :: ids la ++ ids ra) with ((i :: ids l) ++ a :: ids la ++ ids ra). rewrite app_assoc.
      apply Permutation_trans with (((i :: ids l) ++ cids c) ++ a :: ids la ++ ids ra); [apply Permutation_app_tail, Permutation_app_comm|]. cbn. reflexivity.
    - exists h2. splits; auto. now apply here_right in H2. }
  destruct S2 as (h2 & E2 & H2 & L2). exists h2.
  assert (S3 : exists h3, (match ptr l with Some a => set_red h2 a false | None => Ok h2 end) = Ok h3 /\ here h3 c (T i k true (blacken l) (blacken r)) /\ length (hnodes h3) = length (hnodes h2)).
  { destruct l as [|a ka ca la ra]; cbn [ptr blacken]; [eauto|]. apply here_left in H2. destruct (colour _ _ _ _ _ false _ _ H2) as (h3 & E3 & H3 & L3).
    - eapply Permutation_NoDup; [|exact ND]. cbn [cids fi fs]. rewrite blacken_ids. cbn [ids].
      transitivity (cids c ++ (i :: ids r) ++ (a :: ids la ++ ids ra)).
      + apply Permutation_app_head. cbn. constructor. rewrite app_comm_cons. apply (Permutation_app_comm (a :: ids la ++ ids ra) (ids r)).
      + rewrite app_assoc. apply Permutation_app_tail. rewrite (Permutation_app_comm (cids c)). reflexivity.
    - exists h3. splits; auto. now apply here_left in H3. }
  destruct S3 as (h3 & E3 & H3 & L3). exists h3. splits; auto. congruence.
Qed.

(** ** The rotations *)
Definition rot_ctx (d1 d2 : bool) p kp s1 gp kg s2 (rest : list frame) : list frame :=
  if Bool.eqb d1 d2 then F d1 p kp false (if d1 then T gp kg true s1 s2 else T gp kg true s2 s1) :: rest else rest.
Definition rot_tree (d1 d2 : bool) p kp s1 gp kg s2 i k l r : tree K :=
  if Bool.eqb d1 d2 then T i k true l r
  else if d1 then T i k false (T gp kg true s2 l) (T p kp true r s1) else T i k false (T p kp true s1 l) (T gp kg true r s2).
Definition sign_ok (d : bool) (r : Z) : Prop := if d then (r < 0)%Z else (0 < r)%Z.

Ltac run_at := repeat first [rewrite put_eq by (rewrite ?put_len; assumption) | rewrite put_neq by assumption]; eassumption || reflexivity.
Ltac step1 := first
  [ match goal with |- context [set_red ?h ?i ?b] => unfold set_red at 1; erewrite (upd_ok h i) by run_at end
  | match goal with |- context [load ?h (CLeft ?i)] => erewrite (load_L h i) by run_at end
  | match goal with |- context [load ?h (CRight ?i)] => erewrite (load_R h i) by run_at end
  | match goal with |- context [store ?h (CLeft ?i) ?v] => change (store h (CLeft i) v) with (upd_t h i (set_left v)); erewrite (upd_ok h i) by run_at end
  | match goal with |- context [store ?h (CRight ?i) ?v] => change (store h (CRight i) v) with (upd_t h i (set_right v)); erewrite (upd_ok h i) by run_at end ]; cbn [bind].

Lemma rotate_ok h d1 d2 p kp s1 gp kg s2 rest i k l r p_r gp_r :
  let c := F d1 p kp true s1 :: F d2 gp kg false s2 :: rest in
  here h c (T i k true l r) -> NoDup (cids c ++ ids (T i k true l r)) -> sign_ok d1 p_r -> sign_ok d2 gp_r ->
  exists h', rotate h i p gp (cell_of (F d2 gp kg false s2 :: rest)) (cell_of rest) p_r gp_r = Ok h' /\
    here h' (rot_ctx d1 d2 p kp s1 gp kg s2 rest) (rot_tree d1 d2 p kp s1 gp kg s2 i k l r) /\ length (hnodes h') = length (hnodes h).
Proof.
  intros c (v & Hc & Hv & nr & Er & Kr & Cr & Rl & Rr) ND S1 S2. subst v. destruct Hc as [(np & Ep & Kp & Cp & Hp) [(ng & Eg & Kg & Cg & Hg) Hrest]]. cbn [fi fk fc fs fd] in *.
  subst c. cbn [cids fi fs ids app] in ND.
  assert (NDr : NoDup (cids rest)). { apply NoDup_cons_iff in ND as [_ ND]. rewrite <- app_assoc in ND. apply nd_r in ND. cbn [app] in ND. apply NoDup_cons_iff in ND as [_ ND]. rewrite <- app_assoc in ND. apply nd_r in ND. now apply nd_l in ND. }
  assert (Dj : forall x, In x (p :: gp :: i :: ids s1 ++ ids s2 ++ ids l ++ ids r) -> ~ In x (cids rest)).
  { intros x Hx Hr. apply in_split in Hr as (r1 & r2 & Hr). rewrite Hr in ND.
    assert (P : Permutation (p :: (ids s1 ++ gp :: ids s2 ++ r1 ++ x :: r2) ++ i :: ids l ++ ids r) (x :: (p :: gp :: i :: ids s1 ++ ids s2 ++ ids l ++ ids r) ++ r1 ++ r2)).
    { apply (Permutation_count_occ Nat.eq_dec). intros y. repeat (rewrite !count_occ_app || cbn [count_occ app] || rewrite <- !app_assoc). repeat (match goal with |- context [Nat.eq_dec ?a ?b] => destruct (Nat.eq_dec a b) end); lia. }
    apply (Permutation_NoDup P) in ND. apply NoDup_cons_iff in ND as [ND _]. apply ND. apply in_or_app. auto. }
  assert (P3 : NoDup (p :: gp :: i :: ids s1 ++ ids s2 ++ ids l ++ ids r)).
  { assert (P : Permutation (p :: (ids s1 ++ gp :: ids s2 ++ cids rest) ++ i :: ids l ++ ids r) ((p :: gp :: i :: ids s1 ++ ids s2 ++ ids l ++ ids r) ++ cids rest)).
    { apply (Permutation_count_occ Nat.eq_dec). intros y. repeat (rewrite !count_occ_app || cbn [count_occ app] || rewrite <- !app_assoc). repeat (match goal with |- context [Nat.eq_dec ?a ?b] => destruct (Nat.eq_dec a b) end); lia. }
    apply (Permutation_NoDup P) in ND. now apply nd_l in ND. }
  apply NoDup_cons_iff in P3 as [Np P3]. apply NoDup_cons_iff in P3 as [Ng P3]. apply NoDup_cons_iff in P3 as [Ni _].
  assert (Dp := Dj p ltac:(left; auto)). assert (Dg := Dj gp ltac:(right; left; auto)). assert (Di := Dj i ltac:(right; right; left; auto)).
  cbn [In] in Np, Ng. rewrite !in_app_iff in Np, Ng, Ni.
  assert (A1 : p <> gp) by (intros ->; tauto). assert (A2 : p <> i) by (intros ->; tauto). assert (A3 : gp <> i) by (intros ->; tauto).
  assert (A1' : gp <> p) by auto. assert (A2' : i <> p) by auto. assert (A3' : i <> gp) by auto.
  pose proof (at_lt _ _ _ Ep) as Lp. pose proof (at_lt _ _ _ Eg) as Lg. pose proof (at_lt _ _ _ Er) as Li.
  assert (FR : forall h' t q, (forall j, j <> p -> j <> gp -> j <> i -> ~ In j (cids rest) -> node_at h' j = node_at h j) -> (forall x, In x (ids t) -> In x (ids s1) \/ In x (ids s2) \/ In x (ids l) \/ In x (ids r)) -> rep h q t -> rep h' q t).
  { intros h' t q Hj Ht Hq. eapply rep_frame; eauto. intros j Hin. apply Ht in Hin. apply Hj; try (intros ->; tauto). apply Dj. right. right. right. rewrite !in_app_iff. tauto. }
  unfold rotate, rot_ctx, rot_tree. destruct d1, d2; cbn [sign_ok Bool.eqb] in *.
  - (* left left *)
    destruct Hp as [Hp1 Hp2], Hg as [Hg1 Hg2].
    rewrite (proj2 (Z.ltb_ge 0 p_r)), (proj2 (Z.ltb_ge 0 gp_r)) by lia. cbn [Bool.eqb negb]. cbn [cell_of fd fi]. step1. rewrite Hg1.
    destruct (store_ctx h rest _ (Some p) Hrest NDr) as (h0 & E0 & Hc0 & J0 & L0). rewrite E0. cbn [bind].
    assert (Ep0 : node_at h0 p = Some np) by (rewrite J0; auto). assert (Eg0 : node_at h0 gp = Some ng) by (rewrite J0; auto). assert (Er0 : node_at h0 i = Some nr) by (rewrite J0; auto).
    rewrite <- L0 in Lp, Lg, Li. do 2 step1. rewrite (proj2 (Z.ltb_lt p_r 0)) by lia. do 2 step1. match goal with |- context [store ?hh (CRight ?x) ?v] => change (store hh (CRight x) v) with (upd_t hh x (set_right v)); erewrite (upd_ok hh x) by run_at end.
    eexists. cj; [reflexivity| |rewrite !put_len; auto].
    match goal with |- here ?hh _ _ => set (h' := hh) end. assert (HJ : forall j, j <> p -> j <> gp -> node_at h' j = node_at h0 j) by (intros j Hj1 Hj2; unfold h'; rewrite !put_neq by assumption; auto).
    assert (HJ' : forall j, j <> p -> j <> gp -> j <> i -> ~ In j (cids rest) -> node_at h' j = node_at h j) by (intros j Hj1 Hj2 _ Hj3; rewrite HJ by auto; now apply J0).
    assert (Ep' : node_at h' p = Some (set_right (Some gp) (set_tred false np))) by (unfold h'; run_at).
    assert (Eg' : node_at h' gp = Some (set_left (tright np) (set_tred true ng))) by (unfold h'; run_at).
    assert (Ei' : node_at h' i = Some nr) by (rewrite HJ; auto).
    exists (Some i). split.
    + split; [|eapply ctxrep_frame; [exact Hc0|reflexivity|intros j Hj; apply HJ; intros ->; tauto]]. exists (set_right (Some gp) (set_tred false np)). cbn. cj; auto.
      exists (set_left (tright np) (set_tred true ng)). cbn. cj; auto; eapply FR; eauto; tauto.
    + split; auto. exists nr. cj; auto; eapply FR; eauto; tauto.
  - (* i left of p, p right of gp *)
    destruct Hp as [Hp1 Hp2], Hg as [Hg1 Hg2].
    rewrite (proj2 (Z.ltb_ge 0 p_r)), (proj2 (Z.ltb_lt 0 gp_r)) by lia. cbn [Bool.eqb negb]. do 3 step1. rewrite (proj2 (Z.ltb_lt p_r 0)) by lia.
    do 5 step1. match goal with |- context [store ?hh (CLeft ?x) ?v] => change (store hh (CLeft x) v) with (upd_t hh x (set_left v)); erewrite (upd_ok hh x) by run_at end. cbn [bind].
    match goal with |- context [store ?hh (cell_of rest) _] => set (h0 := hh) end. assert (HJ : forall j, j <> p -> j <> gp -> j <> i -> node_at h0 j = node_at h j) by (intros j Hj1 Hj2 Hj3; unfold h0; rewrite !put_neq by assumption; auto).
    assert (Hr0 : ctxrep h0 rest (Some gp)). { eapply ctxrep_frame; [exact Hrest|reflexivity|]. intros j Hj. apply HJ; intros ->; tauto. }
    destruct (store_ctx h0 rest _ (Some i) Hr0 NDr) as (h' & E0 & Hc0 & J0 & L0). exists h'. cj; [exact E0| |rewrite L0; unfold h0; rewrite !put_len; auto].
    assert (HJ' : forall j, j <> p -> j <> gp -> j <> i -> ~ In j (cids rest) -> node_at h' j = node_at h j) by (intros; rewrite J0 by auto; auto).
    exists (Some i). split; auto. split; auto. exists (set_left (Some gp) (set_right (Some p) (set_tred false nr))). cbn. cj; auto.
    + change (node_at h' i = Some (set_left (Some gp) (set_right (Some p) (set_tred false nr)))). rewrite J0 by auto. unfold h0. run_at.
    + exists (set_right (tleft nr) (set_tred true ng)). cbn. cj; auto; try (eapply FR; eauto; tauto).
      change (node_at h' gp = Some (set_right (tleft nr) (set_tred true ng))). rewrite J0 by auto. unfold h0. run_at.
    + exists (set_left (tright nr) (set_tred true np)). cbn. cj; auto; try (eapply FR; eauto; tauto).
      change (node_at h' p = Some (set_left (tright nr) (set_tred true np))). rewrite J0 by auto. unfold h0. run_at.
  - (* i right of p, p left of gp *)
    destruct Hp as [Hp1 Hp2], Hg as [Hg1 Hg2].
    rewrite (proj2 (Z.ltb_lt 0 p_r)), (proj2 (Z.ltb_ge 0 gp_r)) by lia. cbn [Bool.eqb negb]. do 3 step1. rewrite (proj2 (Z.ltb_ge p_r 0)) by lia.
    do 5 step1. match goal with |- context [store ?hh (CRight ?x) ?v] => change (store hh (CRight x) v) with (upd_t hh x (set_right v)); erewrite (upd_ok hh x) by run_at end. cbn [bind].
    match goal with |- context [store ?hh (cell_of rest) _] => set (h0 := hh) end. assert (HJ : forall j, j <> p -> j <> gp -> j <> i -> node_at h0 j = node_at h j) by (intros j Hj1 Hj2 Hj3; unfold h0; rewrite !put_neq by assumption; auto).
    assert (Hr0 : ctxrep h0 rest (Some gp)). { eapply ctxrep_frame; [exact Hrest|reflexivity|]. intros j Hj. apply HJ; intros ->; tauto. }
    destruct (store_ctx h0 rest _ (Some i) Hr0 NDr) as (h' & E0 & Hc0 & J0 & L0). exists h'. cj; [exact E0| |rewrite L0; unfold h0; rewrite !put_len; auto].
    assert (HJ' : forall j, j <> p -> j <> gp -> j <> i -> ~ In j (cids rest) -> node_at h' j = node_at h j) by (intros; rewrite J0 by auto; auto).
    exists (Some i). split; auto. split; auto. exists (set_right (Some gp) (set_left (Some p) (set_tred false nr))). cbn. cj; auto.
    + change (node_at h' i = Some (set_right (Some gp) (set_left (Some p) (set_tred false nr)))). rewrite J0 by auto. unfold h0. run_at.
    + exists (set_right (tleft nr) (set_tred true np)). cbn. cj; auto; try (eapply FR; eauto; tauto).
      change (node_at h' p = Some (set_right (tleft nr) (set_tred true np))). rewrite J0 by auto. unfold h0. run_at.
    + exists (set_left (tright nr) (set_tred true ng)). cbn. cj; auto; try (eapply FR; eauto; tauto).
      change (node_at h' gp = Some (set_left (tright nr) (set_tred true ng))). rewrite J0 by auto. unfold h0. run_at.
  - (* right right *)
    destruct Hp as [Hp1 Hp2], Hg as [Hg1 Hg2].
    rewrite (proj2 (Z.ltb_lt 0 p_r)), (proj2 (Z.ltb_lt 0 gp_r)) by lia. cbn [Bool.eqb negb]. cbn [cell_of fd fi]. step1. rewrite Hg1.
    destruct (store_ctx h rest _ (Some p) Hrest NDr) as (h0 & E0 & Hc0 & J0 & L0). rewrite E0. cbn [bind].
    assert (Ep0 : node_at h0 p = Some np) by (rewrite J0; auto). assert (Eg0 : node_at h0 gp = Some ng) by (rewrite J0; auto). assert (Er0 : node_at h0 i = Some nr) by (rewrite J0; auto).
    rewrite <- L0 in Lp, Lg, Li. do 2 step1. rewrite (proj2 (Z.ltb_ge p_r 0)) by lia. do 2 step1. match goal with |- context [store ?hh (CLeft ?x) ?v] => change (store hh (CLeft x) v) with (upd_t hh x (set_left v)); erewrite (upd_ok hh x) by run_at end.
    eexists. cj; [reflexivity| |rewrite !put_len; auto].
    match goal with |- here ?hh _ _ => set (h' := hh) end. assert (HJ : forall j, j <> p -> j <> gp -> node_at h' j = node_at h0 j) by (intros j Hj1 Hj2; unfold h'; rewrite !put_neq by assumption; auto).
    assert (HJ' : forall j, j <> p -> j <> gp -> j <> i -> ~ In j (cids rest) -> node_at h' j = node_at h j) by (intros j Hj1 Hj2 _ Hj3; rewrite HJ by auto; now apply J0).
    assert (Ep' : node_at h' p = Some (set_left (Some gp) (set_tred false np))) by (unfold h'; run_at).
    assert (Eg' : node_at h' gp = Some (set_right (tleft np) (set_tred true ng))) by (unfold h'; run_at).
    assert (Ei' : node_at h' i = Some nr) by (rewrite HJ; auto).
    exists (Some i). split.
    + split; [|eapply ctxrep_frame; [exact Hc0|reflexivity|intros j Hj; apply HJ; intros ->; tauto]]. exists (set_left (Some gp) (set_tred false np)). cbn. cj; auto.
      exists (set_right (tleft np) (set_tred true ng)). cbn. cj; auto; eapply FR; eauto; tauto.
    + split; auto. exists nr. cj; auto; eapply FR; eauto; tauto.
Qed.
End Mem.
