(** BtwSearch.v -- the search from one source finds distances, numbers of shortest paths and predecessors. *)
From Coq Require Import List Arith Lia ZArith Bool Sorted QArith Qcanon Permutation.
From Verif Require Import Base Num ListLib NatSum QcSum IoModel GraphModel GraphSpec GraphProof BfsModel BfsProof FillProof BtwModel BtwSpec BtwCount BtwBrandes.
Import ListNotations.
Local Open Scope nat_scope.

Section Tab.
Context {X : Type}.
Definition tab (N : nat) (f : nat -> X) : list X := map f (seq 0 N).
Lemma tab_length N f : length (tab N f) = N.
Proof. unfold tab. now rewrite map_length, seq_length. Qed.
Lemma tab_get N f i : i < N -> get (tab N f) i = Ok (f i).
Proof. intros H. apply get_ok. unfold tab. rewrite nth_map_seq. apply Nat.ltb_lt in H. now rewrite H. Qed.
Lemma tab_ext N f h : (forall i, i < N -> f i = h i) -> tab N f = tab N h.
Proof. intros H. apply map_ext_in. intros i Hi. apply in_seq in Hi. apply H. lia. Qed.
Lemma tab_set N f i v : i < N -> set (tab N f) i v = Ok (tab N (fun x => if x =? i then v else f x)).
Proof.
  intros H. rewrite set_ok by (now rewrite tab_length). f_equal. apply ListLib.nth_ext. intros j. rewrite nth_upd, tab_length. unfold tab. rewrite !nth_map_seq.
  apply Nat.ltb_lt in H. rewrite H, andb_true_r. destruct (Nat.eqb_spec j i) as [->|]; auto. now rewrite H.
Qed.
Lemma tab_repeat N x : repeat x N = tab N (fun _ => x).
Proof. unfold tab. rewrite <- (seq_length N 0) at 1. generalize 0. induction N as [|n IH]; intros a; cbn; auto. f_equal. apply IH. Qed.
End Tab.

Lemma in_snoc {X} (l : list X) v : In v (l ++ [v]).
Proof. apply in_or_app. right. left. auto. Qed.
Lemma SS_split {X} (R : X -> X -> Prop) a b : StronglySorted R (a ++ b) -> forall x y, In x a -> In y b -> R x y.
Proof.
  induction a as [|z a IH]; cbn; intros H x y Hx Hy; [destruct Hx|]. inversion H as [|? ? H1 H2]; subst. destruct Hx as [<-|Hx]; [|eauto].
  rewrite Forall_forall in H2. apply H2, in_or_app. auto.
Qed.
Lemma SS_snoc {X} (R : X -> X -> Prop) l w : StronglySorted R l -> (forall x, In x l -> R x w) -> StronglySorted R (l ++ [w]).
Proof.
  induction l as [|z l IH]; cbn; intros H Hw; [repeat constructor|]. inversion H as [|? ? H1 H2]; subst. constructor; auto.
  rewrite Forall_forall in *. intros x Hx. apply in_app_or in Hx as [Hx|[<-|[]]]; auto.
Qed.
Lemma lsum_incl_le (f : nat -> nat) l m : NoDup l -> incl l m -> lsum f l <= lsum f m.
Proof.
  revert m; induction l as [|x l IH]; intros m ND H; cbn [lsum]; [lia|]. inversion ND as [|? ? Hx ND']; subst.
  destruct (in_split x m) as (a & b & ->); [apply H; left; auto|]. rewrite lsum_app. cbn [lsum].
  assert (lsum f l <= lsum f (a ++ b)); [|rewrite lsum_app in *; lia]. apply IH; auto. intros y Hy. specialize (H y (or_intror Hy)).
  apply in_app_or in H as [H|[H|H]]; [apply in_or_app; auto|congruence|apply in_or_app; auto].
Qed.
Lemma NoDup_app_l {X} (a b : list X) : NoDup (a ++ b) -> NoDup a.
Proof. induction a as [|x a IH]; cbn; intros H; constructor; inversion H; subst; auto. rewrite in_app_iff in *. tauto. Qed.
Lemma NoDup_snoc {X} (a : list X) x : NoDup (a ++ [x]) <-> NoDup a /\ ~ In x a.
Proof.
  split.
  - intros H. split; [eapply NoDup_app_l; eauto|]. apply NoDup_remove_2 in H. now rewrite app_nil_r in H.
  - intros [H1 H2]. apply NoDup_rev in H1. rewrite <- (rev_involutive (a ++ [x])). apply NoDup_rev. rewrite rev_app_distr. cbn. constructor; auto. now rewrite <- in_rev.
Qed.

Section Search.
Context {A : Type} {ops : NumOps A}.
Variable g : net A.
Hypothesis W : wf_net g.
Notation N := (length g).
Notation wk := (wk g).
Variable s : nat.
Hypothesis Hs : s < N.

Definition dd (x : nat) : nat := match dist g s x with Some k => k | None => 0 end.
Lemma dd_dist x k : distance g s x k -> dd x = k.
Proof. intros D. apply (dist_spec g W) in D; auto. unfold dd. now rewrite D. Qed.
Definition preds (ex : list nat) (ed : nat -> list nat) (w : nat) : list nat := filter (fun u => mem w (ed u) && (S (dd u) =? dd w)) ex.
Definition sig ex ed w : nat := (if w =? s then 1 else 0) + lsum (fun u => wk (dd u) s u) (preds ex ed w).
Definition state_of (ex : list nat) (ed : nat -> list nat) (Q : list nat) : search :=
  mkSearch (tab N (fun x => if mem x (ex ++ Q) then Z.of_nat (dd x) else (-1)%Z)) (tab N (fun w => Z.of_nat (sig ex ed w))) (tab N (preds ex ed)) Q.
Record facts (ex : list nat) (ed : nat -> list nat) (Q : list nat) : Prop := {
  f_nodup : NoDup (ex ++ Q);
  f_dist : forall x, In x (ex ++ Q) -> distance g s x (dd x);
  f_src : In s (ex ++ Q);
  f_sort : StronglySorted (fun x y => dd x <= dd y) (ex ++ Q);
  f_next : forall y, In y Q -> dd y = 0 \/ exists u, In u ex /\ dd y <= S (dd u);
  f_ed : forall u w, In u ex -> In w (ed u) -> In w (nbrs g u) /\ In w (ex ++ Q);
  f_max : forall w, w < N -> (Z.of_nat (sig ex ed w) <= INT_MAX)%Z
}.
Definition edv (v : nat) (dn : list nat) (u : nat) : list nat := if u =? v then dn else nbrs g u.

Lemma mem_lt ex ed Q x : facts ex ed Q -> In x (ex ++ Q) -> x < N.
Proof. intros F H. apply (path_lt g W (dd x) s x). apply (f_dist _ _ _ F), H. Qed.

(** Everything at most as far as the node being expanded has been found. *)
Lemma found S0 v dn Q : facts (S0 ++ [v]) (edv v dn) Q -> forall k x, path g k s x -> k <= dd v -> In x ((S0 ++ [v]) ++ Q).
Proof.
  intros F k. induction k as [|k IH]; intros x P L; inversion P as [|? ? u ? P' H]; subst; [apply F|].
  assert (Hu : In u ((S0 ++ [v]) ++ Q)) by (apply IH; auto; lia).
  assert (Du : dd u <= k) by (apply (f_dist _ _ _ F) in Hu; apply Hu; auto).
  assert (IN : In u S0).
  { pose proof (SS_split _ _ _ (f_sort _ _ _ F)) as SS1. rewrite <- app_assoc in Hu. apply in_app_or in Hu as [Hu|Hu]; auto. exfalso.
    destruct Hu as [<-|Hu]; [lia|]. specialize (SS1 v u (in_snoc S0 v) Hu). cbv beta in SS1. lia. }
  apply (f_ed _ _ _ F u). { apply in_or_app; auto. } unfold edv. destruct (Nat.eqb_spec u v) as [->|]; auto. exfalso.
  pose proof (f_nodup _ _ _ F) as ND. apply NoDup_app_l, NoDup_snoc in ND. tauto.
Qed.
(** The number of shortest paths is known once all nodes one step nearer have been expanded. *)
Lemma sig_full ex ed w n : NoDup ex -> distance g s w n -> (forall x, In x ex -> distance g s x (dd x)) ->
  (forall u w', In u ex -> In w' (ed u) -> In w' (nbrs g u)) ->
  (forall u, distance g s u (pred n) -> n <> 0 -> In w (nbrs g u) -> In u ex /\ In w (ed u)) -> sig ex ed w = wk n s w.
Proof.
  intros ND D HD HE H. unfold sig. assert (Ew := dd_dist _ _ D). destruct n as [|n].
  - inversion D as [P _]. inversion P; subst. rewrite wk_0, Nat.eqb_refl. unfold preds. rewrite lsum_filter, lsum_0; auto. intros u _. rewrite Ew, andb_false_r. auto.
  - destruct (Nat.eqb_spec w s) as [->|_].
    { exfalso. destruct D as [_ M]. specialize (M 0 (path_0 g s Hs)). lia. }
    cbn [pred] in H. rewrite (wk_last g W) by auto. cbn [Nat.add].
    rewrite (lsum_members _ (preds ex ed w) N).
    2: { apply NoDup_filter; auto. } 2: { intros u Hu. apply filter_In in Hu as [Hu _]. apply HD in Hu. apply (path_lt g W (dd u) s u). apply Hu. }
    apply lsum_ext. intros u Hu. apply in_seq in Hu. destruct (mem_spec u (preds ex ed w)) as [Hp|Hp].
    + apply filter_In in Hp as [Hp E]. apply andb_true_iff in E as [E1 E2]. apply mem_In in E1. apply Nat.eqb_eq in E2. unfold lk.
      rewrite (proj2 (mem_In _ _) (HE _ _ Hp E1)). rewrite Ew in E2. injection E2 as ->. lia.
    + destruct (Nat.eq_dec (wk n s u * lk g u w) 0) as [|Z]; [lia|exfalso]. unfold lk in Z. destruct (mem_spec w (nbrs g u)) as [Hm|]; [|lia].
      assert (P : path g n s u) by (apply (wk_path g W); auto; lia).
      assert (Du : distance g s u n). { split; auto. intros d' P'. pose proof (proj2 D _ (path_S g _ _ _ _ P' Hm)). lia. }
      destruct (H u) as [H1 H2]; auto. apply Hp, filter_In. split; auto. apply andb_true_iff. split; [now apply mem_In|]. rewrite (dd_dist _ _ Du), Ew. apply Nat.eqb_refl.
Qed.
Lemma sig_le ex ed w n : NoDup ex -> distance g s w n -> (forall x, In x ex -> distance g s x (dd x)) ->
  (forall u w', In u ex -> In w' (ed u) -> In w' (nbrs g u)) -> sig ex ed w <= wk n s w.
Proof.
  intros ND D HD HE. unfold sig. assert (Ew := dd_dist _ _ D). destruct n as [|n].
  - inversion D as [P _]. inversion P; subst. rewrite wk_0, Nat.eqb_refl. unfold preds. rewrite lsum_filter, lsum_0; auto. intros u _. rewrite Ew, andb_false_r. auto.
  - destruct (Nat.eqb_spec w s) as [->|_].
    { exfalso. destruct D as [_ M]. specialize (M 0 (path_0 g s Hs)). lia. }
    rewrite (wk_last g W) by auto. cbn [Nat.add]. rewrite (lsum_ext _ (fun u => wk n s u * lk g u w)).
    + apply lsum_incl_le; [now apply NoDup_filter|]. intros u Hu. apply filter_In in Hu as [Hu _]. apply HD in Hu. apply in_seq. pose proof (path_lt g W _ _ _ (proj1 Hu)). lia.
    + intros u Hp. apply filter_In in Hp as [Hp E]. apply andb_true_iff in E as [E1 E2]. apply mem_In in E1. apply Nat.eqb_eq in E2. unfold lk.
      rewrite (proj2 (mem_In _ _) (HE _ _ Hp E1)). rewrite Ew in E2. injection E2 as ->. lia.
Qed.
Lemma preds_step S0 v dn w x : ~ In v S0 -> ~ In w dn ->
  preds (S0 ++ [v]) (edv v (dn ++ [w])) x = if (x =? w) && (S (dd v) =? dd x) then preds (S0 ++ [v]) (edv v dn) x ++ [v] else preds (S0 ++ [v]) (edv v dn) x.
Proof.
  intros Hv Hw. unfold preds. rewrite !filter_app.
  assert (E : forall dn, filter (fun u => mem x (edv v dn u) && (S (dd u) =? dd x)) S0 = filter (fun u => mem x (nbrs g u) && (S (dd u) =? dd x)) S0).
  { intros d. apply filter_ext_in. intros u Hu. unfold edv. destruct (Nat.eqb_spec u v) as [->|]; tauto. }
  rewrite !E. cbn [filter]. unfold edv. rewrite Nat.eqb_refl, mem_app. cbn [mem existsb]. rewrite orb_false_r.
  destruct (Nat.eqb_spec x w) as [->|Hx].
  - assert (M : mem w dn = false) by (destruct (mem_spec w dn); tauto). rewrite M, ?Nat.eqb_refl, ?orb_true_r, ?orb_false_l. cbn [andb orb]. destruct (S (dd v) =? dd w); cbn; rewrite <- ?app_assoc; auto.
  - cbn [andb]. destruct (Nat.eqb_spec x w); [congruence|]. rewrite ?orb_false_r. destruct (Nat.eqb_spec w x); [congruence|]. rewrite ?orb_false_r. reflexivity.
Qed.
Definition many : Prop := exists t, t < N /\ (INT_MAX < Z.of_nat (npaths g s t))%Z.

Lemma link_step S0 v dn w Q l rest :
  facts (S0 ++ [v]) (edv v dn) Q -> nbrs g v = dn ++ w :: rest -> lref l = Some w ->
  match btw_link g v (state_of (S0 ++ [v]) (edv v dn) Q) l with
  | Ok st => exists Q', st = state_of (S0 ++ [v]) (edv v (dn ++ [w])) Q' /\ facts (S0 ++ [v]) (edv v (dn ++ [w])) Q'
  | Err e => e = Wrap /\ many end.
Proof.
  intros F EN El. set (ex := S0 ++ [v]) in *.
  assert (INw : In w (nbrs g v)) by (rewrite EN; apply in_or_app; right; left; auto).
  destruct (nbrs_in g W _ _ INw) as [Hv Hw]. assert (NDn := wf_nodup g W v). rewrite EN in NDn.
  assert (Hwdn : ~ In w dn). { apply NoDup_remove_2 in NDn. rewrite in_app_iff in NDn. tauto. }
  assert (Hvin : In v (ex ++ Q)) by (apply in_or_app; left; apply in_or_app; right; left; auto).
  assert (NDx : NoDup ex) by (eapply NoDup_app_l, F). assert (HvS : ~ In v S0) by (now apply NoDup_snoc in NDx).
  pose proof (f_dist _ _ _ F v Hvin) as Dv.
  assert (FD : forall x k, path g k s x -> k <= dd v -> In x (ex ++ Q)) by (intros; eapply found; eauto).
  assert (LE : forall x, In x (ex ++ Q) -> dd x <= S (dd v)).
  { assert (L1 : forall x, In x ex -> dd x <= dd v).
    { intros x Hx. apply in_app_or in Hx as [Hx|[<-|[]]]; auto. pose proof (f_sort _ _ _ F) as SS. unfold ex in SS. rewrite <- app_assoc in SS. apply (SS_split _ _ _ SS x v); auto. left; auto. }
    intros x Hx. apply in_app_or in Hx as [Hx|Hx]; [specialize (L1 x Hx); lia|]. destruct (f_next _ _ _ F x Hx) as [|(u & Hu & L)]; [lia|]. specialize (L1 u Hu). lia. }
  assert (SV : sig ex (edv v dn) v = wk (dd v) s v).
  { apply sig_full; auto.
    - intros x Hx. apply (f_dist _ _ _ F). apply in_or_app; auto.
    - intros u w' H1 H2. apply (f_ed _ _ _ F u w' H1 H2).
    - intros u Du Hn Hu. assert (IN : In u (ex ++ Q)) by (eapply FD; [apply Du|lia]). assert (Eu := dd_dist _ _ Du).
      assert (INS : In u S0). { pose proof (f_sort _ _ _ F) as SS. unfold ex in IN, SS. rewrite <- app_assoc in IN, SS. apply in_app_or in IN as [|IN]; auto. exfalso.
        destruct IN as [<-|IN]; [lia|]. rewrite app_assoc in SS. pose proof (SS_split _ _ _ SS v u (in_snoc S0 v) IN) as LL; cbv beta in LL. lia. }
      split; [apply in_or_app; auto|]. unfold edv. destruct (Nat.eqb_spec u v) as [->|]; tauto. }
  (* the second half of the step, at a state where w has been found *)
  assert (TAIL : forall Q', facts ex (edv v dn) Q' -> In w (ex ++ Q') ->
     match (do dw <- get (bdist (state_of ex (edv v dn) Q')) w; do dv <- get (bdist (state_of ex (edv v dn) Q')) v;
       if (dw =? dv + 1)%Z then
         do sw <- get (bsigma (state_of ex (edv v dn) Q')) w; do sv <- get (bsigma (state_of ex (edv v dn) Q')) v;
         do _ <- check (sw + sv <=? INT_MAX)%Z Wrap;
         do sg <- set (bsigma (state_of ex (edv v dn) Q')) w (sw + sv)%Z;
         do pw <- get (bP (state_of ex (edv v dn) Q')) w; do P <- set (bP (state_of ex (edv v dn) Q')) w (pw ++ [v]);
         Ok (mkSearch (bdist (state_of ex (edv v dn) Q')) sg P (bQ (state_of ex (edv v dn) Q')))
       else Ok (state_of ex (edv v dn) Q'))
     with Ok st => exists Q', st = state_of ex (edv v (dn ++ [w])) Q' /\ facts ex (edv v (dn ++ [w])) Q' | Err e => e = Wrap /\ many end).
  { intros Q' F' Hin. assert (Hvin' : In v (ex ++ Q')) by (apply in_or_app; left; apply in_or_app; right; left; auto).
    assert (B1 : bdist (state_of ex (edv v dn) Q') = tab N (fun x => if mem x (ex ++ Q') then Z.of_nat (dd x) else (-1)%Z)) by reflexivity. assert (B2 : bsigma (state_of ex (edv v dn) Q') = tab N (fun w => Z.of_nat (sig ex (edv v dn) w))) by reflexivity. assert (B3 : bP (state_of ex (edv v dn) Q') = tab N (preds ex (edv v dn))) by reflexivity. assert (B4 : bQ (state_of ex (edv v dn) Q') = Q') by reflexivity. rewrite B1, B2, B3, B4. clear B1 B2 B3 B4. rewrite !tab_get by auto. cbn [bind].
    rewrite (proj2 (mem_In _ _) Hin), (proj2 (mem_In _ _) Hvin').
    pose proof (f_dist _ _ _ F' w Hin) as Dw.
    assert (PS := fun x => preds_step S0 v dn w x HvS Hwdn). fold ex in PS.
    assert (FE : forall u w0, In u ex -> In w0 (edv v (dn ++ [w]) u) -> In w0 (nbrs g u) /\ In w0 (ex ++ Q')).
    { intros u w0 Hu. unfold edv. destruct (Nat.eqb_spec u v) as [->|Hne].
      - intros H. apply in_app_or in H as [H|[<-|[]]]; [|auto]. apply (f_ed _ _ _ F'); auto. unfold edv. now rewrite Nat.eqb_refl.
      - intros H. apply (f_ed _ _ _ F'); auto. unfold edv. destruct (Nat.eqb_spec u v); [congruence|auto]. }
    assert (NDx' := NoDup_app_l _ _ (f_nodup _ _ _ F')).
    destruct (Z.eqb_spec (Z.of_nat (dd w)) (Z.of_nat (dd v) + 1)) as [E|E].
    - assert (E' : S (dd v) = dd w) by lia. rewrite SV.
      assert (SG : sig ex (edv v (dn ++ [w])) w = sig ex (edv v dn) w + wk (dd v) s v).
      { unfold sig. rewrite PS, Nat.eqb_refl, E', Nat.eqb_refl. cbn [andb]. rewrite lsum_app. cbn [lsum]. lia. }
      assert (SO : forall x, x <> w -> sig ex (edv v (dn ++ [w])) x = sig ex (edv v dn) x).
      { intros x Hx. unfold sig. rewrite PS. destruct (Nat.eqb_spec x w); [congruence|]. reflexivity. }
      unfold check. destruct (Z.leb_spec (Z.of_nat (sig ex (edv v dn) w) + Z.of_nat (wk (dd v) s v)) INT_MAX) as [L|L]; cbn [bind].
      + rewrite !tab_set by auto. cbn [bind]. exists Q'. split.
        * unfold state_of. f_equal; apply tab_ext; intros x Hx.
          -- destruct (Nat.eqb_spec x w) as [->|Hne]; [rewrite SG; lia|now rewrite SO].
          -- rewrite PS. destruct (Nat.eqb_spec x w) as [->|Hne]; auto. rewrite E', Nat.eqb_refl. reflexivity.
        * constructor; [apply F'|apply F'|apply F'|apply F'|apply F'|exact FE|]. intros x Hx. destruct (Nat.eq_dec x w) as [->|Hne]; [rewrite SG; lia|rewrite SO by auto; now apply F'].
      + split; auto. exists w. split; auto. rewrite (npaths_dist g W _ _ _ Dw).
        assert (sig ex (edv v (dn ++ [w])) w <= wk (dd w) s w); [|lia]. apply sig_le; auto.
        * intros x Hx. apply (f_dist _ _ _ F'), in_or_app; auto.
        * intros u w' H1 H2. apply (FE u w' H1 H2).
    - assert (PE : forall x, preds ex (edv v (dn ++ [w])) x = preds ex (edv v dn) x).
      { intros x. rewrite PS. destruct (Nat.eqb_spec x w) as [->|]; auto. cbn [andb]. destruct (Nat.eqb_spec (S (dd v)) (dd w)); auto. lia. }
      exists Q'. split.
      + unfold state_of. f_equal; apply tab_ext; intros x Hx; [unfold sig; now rewrite PE|now rewrite PE].
      + constructor; [apply F'|apply F'|apply F'|apply F'|apply F'|exact FE|]. intros x Hx. unfold sig. rewrite PE. now apply F'. }
  unfold btw_link. rewrite El. cbn [deref bind].
  destruct (nth_ex g w Hw) as [wn Ewn]. destruct (nth_ex g v Hv) as [vn Evn]. rewrite (get_ok _ _ _ Ewn), (get_ok _ _ _ Evn). cbn [bind].
  rewrite (wf_num g W _ _ Ewn), (wf_num g W _ _ Evn).
  unfold state_of at 1 2 3 4 5 6. cbn [bdist bsigma bP bQ]. rewrite !tab_get by auto. cbn [bind]. rewrite (proj2 (mem_In _ _) Hvin).
  destruct (mem_spec w (ex ++ Q)) as [Hin|Hin].
  - assert (Z0 : (Z.of_nat (dd w) <? 0)%Z = false) by (apply Z.ltb_ge; lia). rewrite Z0. cbn [bind]. apply TAIL; auto.
  - cbn [Z.ltb Z.compare bind]. rewrite tab_set by auto. cbn [bind].
    assert (Dw : distance g s w (S (dd v))).
    { split; [econstructor; [apply Dv|auto]|]. intros d' P'. destruct (le_lt_dec (S (dd v)) d'); auto. exfalso. apply Hin. eapply FD; eauto. lia. }
    assert (Edw := dd_dist _ _ Dw).
    assert (F' : facts ex (edv v dn) (Q ++ [w])).
    { constructor.
      - rewrite app_assoc. apply NoDup_snoc. split; auto. apply F.
      - intros x Hx. rewrite app_assoc in Hx. apply in_app_or in Hx as [Hx|[<-|[]]]; [now apply F|]. now rewrite Edw.
      - rewrite app_assoc. apply in_or_app. left. apply F.
      - rewrite app_assoc. apply SS_snoc; [apply F|]. intros x Hx. rewrite Edw. auto.
      - intros y Hy. apply in_app_or in Hy as [Hy|[<-|[]]]; [now apply (f_next _ _ _ F)|]. right. exists v. split; [apply in_or_app; right; left; auto|lia].
      - intros u w0 H1 H2. destruct (f_ed _ _ _ F _ _ H1 H2). split; auto. rewrite app_assoc. apply in_or_app. auto.
      - apply F. }
    match goal with |- context [mkSearch ?d ?sg ?P ?q] => replace (mkSearch d sg P q) with (state_of ex (edv v dn) (Q ++ [w])) end.
    + apply TAIL; auto. apply in_or_app. right. apply in_or_app. right; left; auto.
    + unfold state_of. f_equal. apply tab_ext. intros x Hx. rewrite app_assoc, mem_app. cbn [mem existsb]. rewrite orb_false_r.
      destruct (Nat.eqb_spec x w) as [->|Hne]; [rewrite ?Nat.eqb_refl, orb_true_r; lia|]. destruct (Nat.eqb_spec w x); [congruence|]. now rewrite ?orb_false_r.
Qed.

(** Expanding one node. *)
Lemma expand S0 v Q vn : facts S0 (nbrs g) (v :: Q) -> nth_error g v = Some vn ->
  match foldM (btw_link g v) (mkSearch (bdist (state_of S0 (nbrs g) (v :: Q))) (bsigma (state_of S0 (nbrs g) (v :: Q))) (bP (state_of S0 (nbrs g) (v :: Q))) Q) (gadj vn) with
  | Ok st => exists Q', st = state_of (S0 ++ [v]) (nbrs g) Q' /\ facts (S0 ++ [v]) (nbrs g) Q'
  | Err e => e = Wrap /\ many end.
Proof.
  intros F Ev. assert (EN : nbrs g v = targets (gadj vn)) by (unfold nbrs; now rewrite Ev).
  assert (HvS : ~ In v S0). { pose proof (f_nodup _ _ _ F) as ND. apply NoDup_remove_2 in ND. rewrite in_app_iff in ND. tauto. }
  assert (PE : forall x, preds (S0 ++ [v]) (edv v []) x = preds S0 (nbrs g) x).
  { intros x. unfold preds. rewrite filter_app. cbn [filter]. unfold edv at 2. rewrite Nat.eqb_refl. cbn [mem existsb andb]. rewrite app_nil_r.
    apply filter_ext_in. intros u Hu. unfold edv. destruct (Nat.eqb_spec u v) as [->|]; tauto. }
  assert (F0 : facts (S0 ++ [v]) (edv v []) Q).
  { constructor; rewrite <- ?app_assoc; cbn [app]; try apply F.
    - intros y Hy. destruct (f_next _ _ _ F y (or_intror Hy)) as [|(u & Hu & L)]; auto. right. exists u. split; auto. apply in_or_app; auto.
    - intros u w Hu. unfold edv. destruct (Nat.eqb_spec u v) as [->|Hne]; [intros []|]. intros H. apply in_app_or in Hu as [Hu|[Hu|[]]]; [|congruence].
      exact (f_ed _ _ _ F u w Hu H).
    - intros x Hx. unfold sig. rewrite PE. now apply (f_max _ _ _ F). }
  match goal with |- context [foldM _ ?st _] => replace st with (state_of (S0 ++ [v]) (edv v []) Q) end.
  2: { unfold state_of. cbn [bdist bsigma bP]. f_equal; apply tab_ext; intros x Hx; [now rewrite <- app_assoc|unfold sig; now rewrite PE|now rewrite PE]. }
  pose proof (foldM_safe (fun ls st => exists Q', st = state_of (S0 ++ [v]) (edv v (targets ls)) Q' /\ facts (S0 ++ [v]) (edv v (targets ls)) Q')
    (btw_link g v) (fun e => e = Wrap /\ many) (gadj vn) (state_of (S0 ++ [v]) (edv v []) Q)) as G.
  destruct (foldM (btw_link g v) (state_of (S0 ++ [v]) (edv v []) Q) (gadj vn)) as [st|e].
  - destruct G as (Q' & -> & F').
    + exists Q. split; auto.
    + intros done l rest st' El (Q' & -> & F'). assert (INl : In l (gadj vn)) by (rewrite El; apply in_or_app; right; left; auto).
      destruct (wf_link g W _ _ _ Ev INl) as (w & _ & Rw & _). pose proof (link_step S0 v (targets done) w Q' l (targets rest) F') as L.
      rewrite targets_app. cbn [targets flat_map]. rewrite Rw. cbn [app]. apply L; auto. rewrite EN, El, targets_app. cbn [targets flat_map]. rewrite Rw. reflexivity.
    + assert (EE : forall u, edv v (targets (gadj vn)) u = nbrs g u). { intros u. unfold edv. destruct (Nat.eqb_spec u v) as [->|]; auto. }
      assert (PE' : forall x, preds (S0 ++ [v]) (edv v (targets (gadj vn))) x = preds (S0 ++ [v]) (nbrs g) x). { intros x. unfold preds. apply filter_ext. intros u. now rewrite EE. }
      exists Q'. split.
      * unfold state_of. f_equal; apply tab_ext; intros x Hx; [unfold sig; now rewrite PE'|now rewrite PE'].
      * constructor; try apply F'. { intros u w Hu Hw. apply F'; auto. now rewrite EE. } intros x Hx. unfold sig. rewrite <- PE'. now apply (f_max _ _ _ F').
  - apply G.
    + exists Q. split; auto.
    + intros done l rest st' El (Q' & -> & F'). assert (INl : In l (gadj vn)) by (rewrite El; apply in_or_app; right; left; auto).
      destruct (wf_link g W _ _ _ Ev INl) as (w & _ & Rw & _). pose proof (link_step S0 v (targets done) w Q' l (targets rest) F') as L.
      rewrite targets_app. cbn [targets flat_map]. rewrite Rw. cbn [app]. apply L; auto. rewrite EN, El, targets_app. cbn [targets flat_map]. rewrite Rw. reflexivity.
Qed.
Lemma search_loop fuel : forall S0 Q, facts S0 (nbrs g) Q -> N < fuel + length S0 ->
  match btw_search fuel g (state_of S0 (nbrs g) Q) (rev S0) with
  | Ok (st, stk) => exists ex, st = state_of ex (nbrs g) [] /\ stk = rev ex /\ facts ex (nbrs g) []
  | Err e => e = Wrap /\ many end.
Proof.
  induction fuel as [|fuel IH]; intros S0 Q F Hf.
  - exfalso. assert (length S0 <= length (seq 0 N)); [|rewrite seq_length in *; lia]. apply NoDup_incl_length; [eapply NoDup_app_l, F|].
    intros x Hx. apply in_seq. assert (x < N) by (eapply mem_lt; eauto; apply in_or_app; eauto). lia.
  - cbn [btw_search]. change (bQ (state_of S0 (nbrs g) Q)) with Q. destruct Q as [|v Q].
    + exists S0. auto.
    + assert (Hv : v < N) by (eapply mem_lt; eauto; apply in_or_app; right; left; auto). destruct (nth_ex g v Hv) as [vn Ev]. rewrite (get_ok _ _ _ Ev). cbn [bind].
      pose proof (expand S0 v Q vn F Ev) as X. destruct (foldM _ _ _) as [st|e]; [|exact X]. destruct X as (Q' & -> & F'). cbn [bind].
      change (v :: rev S0) with (rev [v] ++ rev S0). rewrite <- rev_app_distr. apply IH; auto. rewrite app_length. cbn [length]. lia.
Qed.
Lemma dd_src : dd s = 0.
Proof. apply dd_dist. split; [now constructor|lia]. Qed.
Lemma facts_init : facts [] (nbrs g) [s].
Proof.
  constructor; cbn [app].
  - repeat constructor. intros [].
  - intros x [<-|[]]. rewrite dd_src. split; [now constructor|lia].
  - left; auto.
  - repeat constructor.
  - intros y [<-|[]]. left. apply dd_src.
  - intros u w [].
  - intros w Hw. unfold sig, preds. cbn. destruct (w =? s); cbn; unfold INT_MAX; lia.
Qed.
(** What the search leaves behind. *)
Record searched (st : search) (ex : list nat) : Prop := {
  se_nodup : NoDup ex;
  se_reach : forall x, In x ex <-> exists n, distance g s x n;
  se_sort : StronglySorted (fun x y => dd x <= dd y) ex;
  se_sigma : forall x, In x ex -> get (bsigma st) x = Ok (Z.of_nat (npaths g s x));
  se_pred : forall x, In x ex -> exists l, get (bP st) x = Ok l /\ NoDup l /\ forall u, In u l <-> before g s u x = true;
  se_max : forall x, x < N -> (Z.of_nat (npaths g s x) <= INT_MAX)%Z
}.
Theorem search_spec :
  match btw_search (N + 1) g (mkSearch (tab N (fun x => if x =? s then 0%Z else (-1)%Z)) (tab N (fun x => if x =? s then 1%Z else 0%Z)) (repeat [] N) [s]) [] with
  | Ok (st, stk) => exists ex, stk = rev ex /\ searched st ex
  | Err e => e = Wrap /\ many end.
Proof.
  pose proof (search_loop (N + 1) [] [s] facts_init) as G. cbn [rev app] in G.
  match goal with |- context [btw_search _ _ ?st _] => replace st with (state_of [] (nbrs g) [s]) end.
  2: { unfold state_of. rewrite (tab_repeat N (@nil nat)). f_equal; apply tab_ext; intros x Hx.
    - cbn [app mem existsb]. rewrite orb_false_r, ?(Nat.eqb_sym s x). destruct (Nat.eqb_spec x s) as [->|]; auto. now rewrite dd_src.
    - unfold sig, preds. cbn. now destruct (x =? s). }
  destruct (btw_search _ _ _ _) as [[st stk]|e]; [|apply G; cbn; lia]. destruct G as (ex & -> & -> & F); [cbn; lia|]. exists ex. split; auto.
  assert (R : forall x, In x ex <-> exists n, distance g s x n).
  { intros x. split.
    - intros Hx. exists (dd x). apply (f_dist _ _ _ F). now rewrite app_nil_r.
    - intros [n [P _]]. remember s as s0 eqn:Es in P. induction P as [i Hi|d i j k P IH H]; subst.
      + pose proof (f_src _ _ _ F) as Z. now rewrite app_nil_r in Z.
      + destruct (f_ed _ _ _ F j k (IH eq_refl) H) as [_ Z]. now rewrite app_nil_r in Z. }
  assert (SF : forall x n, distance g s x n -> sig ex (nbrs g) x = npaths g s x).
  { intros x n D. rewrite (npaths_dist g W _ _ _ D). apply sig_full; auto.
    - pose proof (f_nodup _ _ _ F) as ND. now rewrite app_nil_r in ND.
    - intros y Hy. apply (f_dist _ _ _ F). now rewrite app_nil_r.
    - intros u Du _ Hu. split; auto. apply R. eauto. }
  constructor; auto.
  - pose proof (f_nodup _ _ _ F) as ND. now rewrite app_nil_r in ND.
  - pose proof (f_sort _ _ _ F) as ND. now rewrite app_nil_r in ND.
  - intros x Hx. assert (Hxn : x < N) by (eapply mem_lt; eauto; rewrite app_nil_r; eauto). apply R in Hx as [n D]. cbn [state_of bsigma]. rewrite tab_get by auto. now rewrite (SF _ _ D).
  - intros x Hx. assert (Hxn : x < N) by (eapply mem_lt; eauto; rewrite app_nil_r; eauto). cbn [state_of bP]. rewrite tab_get by auto. eexists. split; [reflexivity|]. split.
    + apply NoDup_filter. pose proof (f_nodup _ _ _ F) as ND. now rewrite app_nil_r in ND.
    + intros u. unfold preds. rewrite filter_In, andb_true_iff, mem_In, Nat.eqb_eq, (before_spec g W) by auto. split.
      * intros (H1 & H2 & H3). split; auto. exists (dd u). apply R in H1 as [k Du]. rewrite (dd_dist _ _ Du) in *. apply R in Hx as [k' Dx]. rewrite (dd_dist _ _ Dx) in H3. subst k'. auto.
      * intros (H1 & k & Du & Dx). splits; auto; [apply R; eauto|]. now rewrite (dd_dist _ _ Du), (dd_dist _ _ Dx).
  - intros x Hx. destruct (reach_dec g W s x Hs) as [[n D]|H].
    + rewrite <- (SF _ _ D). now apply (f_max _ _ _ F).
    + rewrite (npaths_none g W) by auto. unfold INT_MAX. lia.
Qed.
End Search.
