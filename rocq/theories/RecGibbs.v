(** RecGibbs.v -- Gibbs sampling of src/recommend.c: every node is moved with the heat bath rule. *)
From Coq Require Import List Arith ZArith Bool QArith Qcanon Lia.
From Verif Require Import Base Num ListLib NatSum QcSum MatLib GraphModel GraphSpec GraphProof GroupModel GroupSpec GroupProof NetModel NetCopy ToolsModel ToolsProof ModulesModel SAProof RolesBounds
  BipartModel BipartSpec BipartRen BipartCopy MissModel MissSpec MissStep MissExact MissRun RecModel RecSpec RecSets RecMem RecLinks RecStep RecSetup RecRun RecExact RecEnergy RecClean RecScore.
Import ListNotations.
Local Open Scope nat_scope.

(** * Lists of groups *)
Definition short (c ks : list nat) : Prop := NoDup ks /\ (forall k, In k ks -> k < length c) /\ (forall k, k < length c -> 0 < csize c k -> In k ks).
Lemma listed_short c : short c (listed c).
Proof.
  unfold short, listed. split; [apply NoDup_filter, seq_NoDup|]. split.
  - intros k Hk. apply filter_In in Hk as [Hk _]. apply in_seq in Hk. lia.
  - intros k Hk Hp. apply filter_In. split; [apply in_seq; lia|now apply Nat.ltb_lt].
Qed.
Lemma known_In ks w k : In k (known ks w) <-> In k ks \/ k = w.
Proof.
  unfold known. destruct (existsb (Nat.eqb w) ks) eqn:E.
  - apply existsb_exists in E as (x & Hx & Ex). apply Nat.eqb_eq in Ex. subst x. split; auto. intros [H| ->]; auto.
  - rewrite in_app_iff. simpl. split; [intros [H|[H|[]]]; auto|intros [H|H]; auto].
Qed.
Lemma existsb_not w ks : existsb (Nat.eqb w) ks = false <-> ~ In w ks.
Proof.
  split.
  - intros E Hi. enough (existsb (Nat.eqb w) ks = true) by congruence. apply existsb_exists. exists w. split; auto. apply Nat.eqb_refl.
  - intros H. destruct (existsb (Nat.eqb w) ks) eqn:E; auto. exfalso. apply existsb_exists in E as (x & Hx & Ex). apply Nat.eqb_eq in Ex. subst. auto.
Qed.
Lemma short_upd c ks v w : short c ks -> coloured c -> v < length c -> w < length c -> short (upd c v w) (known ks w).
Proof.
  intros (H1 & H2 & H3) HC Hv Hw. unfold short. rewrite length_upd. split; [|split].
  - unfold known. destruct (existsb (Nat.eqb w) ks) eqn:E; auto. apply existsb_not in E. apply NoDup_app_iff. splits; auto; [constructor; [simpl; tauto|constructor]|]. intros x Hx [<-|[]]. contradiction.
  - intros k Hk. apply known_In in Hk as [H| ->]; auto.
  - intros k Hk Hp. apply known_In. apply csize_pos in Hp as (i & Hi & Ei). rewrite length_upd in Hi. rewrite colour_upd in Ei by auto. destruct (Nat.eqb_spec i v) as [|Hne]; [auto|]. left. apply H3; auto. apply csize_pos. eauto.
Qed.
Lemma short_length c ks : short c ks -> length ks <= length c.
Proof.
  intros (H1 & H2 & _). rewrite <- (seq_length (length c) 0). apply NoDup_incl_length; auto. intros k Hk. apply in_seq. specialize (H2 k Hk). lia.
Qed.
Lemma Qsum_short c ks (f : nat -> Qc) : short c ks -> (forall k, k < length c -> ~ In k ks -> f k = 0%Qc) -> Qsum f ks = Qsum f (seq 0 (length c)).
Proof.
  intros (H1 & H2 & _) H. rewrite (Qsum_members f ks (length c)) by auto. apply Qsum_ext. intros k Hk. apply in_seq in Hk. destruct (mem k ks) eqn:E; auto. symmetry. apply H; [lia|]. intros Hi. apply (proj2 (mem_In _ _)) in Hi. congruence.
Qed.
Lemma Qsum_others c ks (f : nat -> Qc) x : short c ks -> (forall k, k < length c -> ~ In k ks -> f k = x) -> Qsum f (seq 0 (length c)) = (Qsum f ks + Qc_of_nat (length c - length ks) * x)%Qc.
Proof.
  intros HS H. assert (E : Qsum (fun k => f k - x)%Qc ks = Qsum (fun k => f k - x)%Qc (seq 0 (length c))) by (apply (Qsum_short c); auto; intros k Hk Hn; rewrite H by auto; ring).
  rewrite !Qsum_sub, !Qsum_const, seq_length in E. pose proof (short_length _ _ HS) as HL. assert (EN : Qc_of_nat (length c) = (Qc_of_nat (length c - length ks) + Qc_of_nat (length ks))%Qc) by (rewrite <- Qc_of_nat_add; f_equal; lia). rewrite EN in E.
  transitivity (Qsum f ks - Qc_of_nat (length ks) * x + (Qc_of_nat (length c - length ks) + Qc_of_nat (length ks)) * x)%Qc; [rewrite E; ring|ring].
Qed.
Lemma short_room c ks : short c ks -> length ks < length c -> exists w, w < length c /\ csize c w = 0 /\ (forall k, k < w -> 0 < csize c k).
Proof.
  intros HS HL. assert (X : exists k, k < length c /\ csize c k = 0).
  { destruct (existsb (fun k => csize c k =? 0) (seq 0 (length c))) eqn:E.
    - apply existsb_exists in E as (k & Hk & Ek). apply in_seq in Hk. apply Nat.eqb_eq in Ek. exists k. split; auto. lia.
    - exfalso. assert (length c <= length ks); [|lia]. rewrite <- (seq_length (length c) 0) at 1. apply NoDup_incl_length; [apply seq_NoDup|]. intros k Hk. apply HS; [apply in_seq in Hk; lia|].
      destruct (Nat.eq_dec (csize c k) 0) as [E0|]; [|lia]. exfalso. enough (existsb (fun k => csize c k =? 0) (seq 0 (length c)) = true) by congruence. apply existsb_exists. exists k. split; auto. now apply Nat.eqb_eq. }
  destruct X as (k & Hk & Ek). revert Hk Ek. induction k as [k IH] using lt_wf_ind. intros Hk Ek.
  destruct (existsb (fun j => csize c j =? 0) (seq 0 k)) eqn:E.
  - apply existsb_exists in E as (j & Hj & Ej). apply in_seq in Hj. apply Nat.eqb_eq in Ej. apply (IH j); auto; lia.
  - exists k. splits; auto. intros j Hj. destruct (Nat.eq_dec (csize c j) 0) as [E0|]; [|lia]. exfalso. enough (existsb (fun j => csize c j =? 0) (seq 0 k) = true) by congruence. apply existsb_exists. exists j. split; [apply in_seq; lia|now apply Nat.eqb_eq].
Qed.
Lemma used_room c o : coloured c -> o < length c -> 1 < csize c o -> used c + 1 <= length c.
Proof.
  intros HC Ho H. pose proof (csize_total c HC) as T. unfold used. rewrite count_lsum.
  assert (X : lsum (fun k => (if 0 <? csize c k then 1 else 0) + (if k =? o then 1 else 0)) (seq 0 (length c)) <= lsum (csize c) (seq 0 (length c))).
  { apply lsum_le. intros k _. destruct (Nat.ltb_spec 0 (csize c k)), (Nat.eqb_spec k o) as [->|]; lia. }
  rewrite lsum_add, (lsum_single (fun _ => 1)) in X by (auto using seq_NoDup; apply in_seq; lia). lia.
Qed.
Lemma used_pos c o : o < length c -> 0 < csize c o -> 1 <= used c.
Proof.
  intros Ho H. unfold used. rewrite count_lsum. transitivity (lsum (fun k => if k =? o then 1 else 0) (seq 0 (length c))).
  - rewrite (lsum_single (fun _ => 1)); auto using seq_NoDup. apply in_seq. lia.
  - apply lsum_le. intros k _. destruct (Nat.eqb_spec k o) as [->|]; [|lia]. apply Nat.ltb_lt in H. rewrite H. lia.
Qed.

Section Gibbs.
Variables ex sq : Qc -> Qc.
Hypothesis ex_pos : forall x, (0 < ex x)%Qc.
Local Instance opsG : NumOps Qc := Qc_ops ex sq.
Variable lnfact : nat -> Qc.
Hypothesis lnfact_0 : lnfact 0 = 0%Qc.
Variable lfsize : nat.
Variable K : nat.
Hypothesis HK : 0 < K.
Let cost := costK lnfact K.
Notation renergy := (renergy lnfact K cost).
Notation T R := (tallies R K).
Let tabf := InitializeTable lnfact lfsize.
Let charge := chargeK lnfact lfsize K tabf.
Notation pair_ok := (pair_ok K).

(** The sum over the groups of the other set with members. *)
Definition osum (c' : list nat) (f : nat -> Qc) : Qc := Qsum (fun b => if 0 <? csize c' b then f b else 0%Qc) (seq 0 (length c')).
Lemma osum_ext c' f h : (forall b, b < length c' -> f b = h b) -> osum c' f = osum c' h.
Proof. intros H. unfold osum. apply Qsum_ext. intros b Hb. apply in_seq in Hb. now rewrite H by lia. Qed.
Lemma delta_sum R c c' v w : coloured c -> v < length c -> w < length c -> colour c v <> w ->
  (renergy R (upd c v w) c' - renergy R c c' =
   - osum c' (fun b => cost (T R c c' (colour c v) b)) + osum c' (fun b => cost (T R (upd c v w) c' (colour c v) b)) - osum c' (fun b => cost (T R c c' w b)) + osum c' (fun b => cost (T R (upd c v w) c' w b))
   + (lnfact (length c - used c) - lnfact (length c - used (upd c v w))))%Qc.
Proof.
  intros HC Hv Hw Hne. pose proof (dH_exact ex sq lnfact K cost R c c' v w HC Hv Hw Hne) as X. rewrite <- X. clear X. unfold dH_of. cbv zeta. rewrite !chargeA_sum. cbv zeta. set (o := colour c v) in *.
  assert (ES : forall c0, Qsum (fun b => if 0 <? csize c' b then cost (T R c0 c' o b) + cost (T R c0 c' w b) else 0)%Qc (seq 0 (length c')) = (osum c' (fun b => cost (T R c0 c' o b)) + osum c' (fun b => cost (T R c0 c' w b)))%Qc).
  { intros c0. unfold osum. rewrite <- Qsum_add. apply Qsum_ext. intros b _. destruct (0 <? csize c' b); ring. }
  rewrite !ES. pose proof (used_upd c v w HC Hv Hw Hne) as HU. fold o in HU.
  destruct ((csize c o =? 1) || (csize c w =? 0)) eqn:Eb; cbn; [ring|]. apply orb_false_iff in Eb as [E1 E2]. rewrite E1, E2 in HU. cbn [one] in HU. replace (used (upd c v w)) with (used c) by lia. ring.
Qed.

(** * Sums over the shortlist *)
Lemma over_short_ok g s (oth : side Qc) c' slgo (f : Qc -> nat -> res Qc) h : groups_of g s (sP oth) c' -> sgl oth = map Some (seq 0 (length s)) -> short c' slgo -> (forall d b, b < length s -> f d b = Ok (d + h b)%Qc) ->
  over_short oth slgo f = Ok (osum c' h).
Proof.
  intros I EG HS Hf. unfold osum. rewrite <- (Qsum_short c' slgo).
  2: exact HS.
  2: { intros k Hk Hn. destruct (Nat.ltb_spec 0 (csize c' k)) as [Hp|]; auto. exfalso. apply Hn. now apply HS. }
  assert (HL : forall k, In k slgo -> k < length s) by (intros k Hk; rewrite <- (go_len _ _ _ _ I); now apply HS).
  assert (E : forall l d, (forall k, In k l -> k < length s) -> foldM (fun d lab => do k <- get (sgl oth) lab; do k <- deref k; do G <- get (sP oth) k; if (0 <? psize G)%Z then f d (plabel G) else Ok d) d l =
    Ok (d + Qsum (fun b => if 0 <? csize c' b then h b else 0) l)%Qc).
  { induction l as [|b l IH]; intros d Hl; cbn [foldM Qsum]; [f_equal; ring|]. assert (Hb : b < length s) by (apply Hl; simpl; auto). rewrite EG, (get_some (seq 0 (length s)) b b) by (now rewrite nth_error_seq). cbn [deref bind].
    destruct (go_nth _ _ _ _ b I Hb) as (G & EGb & LG). rewrite (get_ok _ _ _ EGb). cbn [bind]. rewrite (go_size _ _ _ _ I b G EGb), LG.
    assert (E : (0 <? Z.of_nat (csize c' b))%Z = (0 <? csize c' b)) by (destruct (Z.ltb_spec 0 (Z.of_nat (csize c' b))), (Nat.ltb_spec 0 (csize c' b)); auto; lia). rewrite E.
    destruct (0 <? csize c' b); [rewrite Hf by auto|]; cbn [bind]; rewrite <- EG, IH by (intros; apply Hl; simpl; auto); f_equal; ring. }
  unfold over_short. rewrite E by auto. f_equal. cbn. ring.
Qed.
Lemma plus_ok d cs : length cs = K -> plus charge d (map Z.of_nat cs) = Ok (d + cost cs)%Qc.
Proof. intros L. unfold plus. destruct (chargeK_ok ex sq lnfact lfsize K true d [] cs HK L) as (t & E & _). unfold charge, tabf. apply (f_equal (fun m => do (d, _) <- m; Ok d)) in E. exact E. Qed.
Lemma counts_with_ok n m TT NN sg a v b (F : nat -> nat) Ft Fn : tab3 K n m TT Ft -> tab3 K n m NN Fn -> a < n -> v < n -> b < m -> (forall k, k < K -> (Ft k a b + sg * Fn k v b)%Z = Z.of_nat (F k)) ->
  counts_with K sg TT NN a v b = Ok (map Z.of_nat (map F (seq 0 K))).
Proof.
  intros HT HN Ha Hv Hb HF. unfold counts_with. enough (H : forall l cs, (forall k, In k l -> k < K) ->
    foldM (fun cs k => do m <- get TT k; do x <- get2 m a b; do m <- get NN k; do y <- get2 m v b; Ok (cs ++ [(x + sg * y)%Z])) cs l = Ok (cs ++ map Z.of_nat (map F l))) by (apply (H _ []); intros k Hk; apply in_seq in Hk; lia).
  induction l as [|k l IH]; intros cs Hl; cbn [foldM map]; [now rewrite app_nil_r|]. assert (Hk : k < K) by (apply Hl; simpl; auto).
  rewrite (tab3_get _ _ _ _ _ k a b _ HT) by auto. rewrite (tab3_get _ _ _ _ _ k v b _ HN) by auto. cbn [bind]. rewrite HF by auto. rewrite IH by (simpl in Hl; auto). now rewrite <- app_assoc.
Qed.
Lemma cost_zeros : cost (map (fun _ => 0) (seq 0 K)) = lnfact (K - 1).
Proof.
  unfold cost, costK. assert (E1 : lsum (fun c => c) (map (fun _ : nat => 0) (seq 0 K)) = 0) by (apply lsum_0; intros x Hx; apply in_map_iff in Hx as (? & <- & _); auto). rewrite E1.
  rewrite (Qsum_0 lnfact); [cbn; ring|]. intros x Hx. apply in_map_iff in Hx as (? & <- & _). exact lnfact_0.
Qed.

(** * One node *)
Section Node.
Variables (g : net Qc) (sA sB : list nat) (R : nat -> nat -> nat -> bool) (cA cB : list nat) (me oth : side Qc).
Hypothesis PO : pair_ok g sA sB R cA cB me oth.
Variables (v p : nat) (n : gnode Qc).
Hypothesis Ep : nth_error sA v = Some p.
Hypothesis En : nth_error g p = Some n.
Variables slg slgo : list nat.
Hypothesis HS : short cA slg.
Hypothesis HSo : short cB slgo.
Let E (c : list nat) : Qc := renergy R c cB.
Let o := colour cA v.
Definition shift (w : nat) : Qc := (E (upd cA v w) - E cA)%Qc.
Let M := po_me _ _ _ _ _ _ _ _ _ PO.
Let O := po_oth _ _ _ _ _ _ _ _ _ PO.
Let I := so_g _ _ _ _ _ _ _ _ M.
Let Io := so_g _ _ _ _ _ _ _ _ O.
Lemma lenA : length cA = length sA. Proof. apply I. Qed.
Lemma Hv : v < length cA. Proof. rewrite lenA. eapply nth_lt; eauto. Qed.
Lemma Ho : o < length cA. Proof. apply coloured_lt; [apply I|apply Hv]. Qed.
Lemma num_v : gnum n = v.
Proof. destruct (hf_num _ _ _ (cr_l _ _ _ (po_cross _ _ _ _ _ _ _ _ _ PO)) v p Ep) as (n1 & En1 & Hn1). rewrite En in En1. now injection En1 as <-. Qed.
Lemma oo_ok a : a < length sA -> over_short oth slgo (fun d b => do c <- counts K (sG me) a b; plus charge d c) = Ok (osum cB (fun b => cost (T R cA cB a b))).
Proof.
  intros Ha. apply (over_short_ok g sB oth cB slgo _ _ Io (so_gl _ _ _ _ _ _ _ _ O) HSo). intros d b Hb. rewrite (counts_ok _ _ _ _ _ a b (so_G _ _ _ _ _ _ _ _ M) Ha Hb). cbn [bind]. apply (plus_ok d (T R cA cB a b)). apply tallies_length.
Qed.
Lemma nn_ok w : w < length sA -> over_short oth slgo (fun d b => do c <- counts_with K 1 (sG me) (sN me) w v b; plus charge d c) = Ok (osum cB (fun b => cost (map (fun k => tally R cA cB k w b + given R cB k v b) (seq 0 K)))).
Proof.
  intros Hw. apply (over_short_ok g sB oth cB slgo _ _ Io (so_gl _ _ _ _ _ _ _ _ O) HSo). intros d b Hb.
  rewrite (counts_with_ok _ _ _ _ 1 w v b (fun k => tally R cA cB k w b + given R cB k v b) _ _ (so_G _ _ _ _ _ _ _ _ M) (so_N _ _ _ _ _ _ _ _ M)); auto; [|rewrite <- lenA; apply Hv|intros; lia].
  cbn [bind]. apply (plus_ok d (map _ (seq 0 K))). now rewrite map_length, seq_length.
Qed.
Lemma tally_has k b : given R cB k v b <= tally R cA cB k o b.
Proof. pose proof (tally_upd R cA cB v (S o) k o b Hv) as X. fold o in X. rewrite Nat.eqb_refl in X. destruct (Nat.eqb_spec (S o) o); lia. Qed.
Lemma no_ok : over_short oth slgo (fun d b => do c <- counts_with K (-1) (sG me) (sN me) o v b; plus charge d c) = Ok (osum cB (fun b => cost (map (fun k => tally R cA cB k o b - given R cB k v b) (seq 0 K)))).
Proof.
  apply (over_short_ok g sB oth cB slgo _ _ Io (so_gl _ _ _ _ _ _ _ _ O) HSo). intros d b Hb.
  rewrite (counts_with_ok _ _ _ _ (-1) o v b (fun k => tally R cA cB k o b - given R cB k v b) _ _ (so_G _ _ _ _ _ _ _ _ M) (so_N _ _ _ _ _ _ _ _ M)); auto; [|rewrite <- lenA; apply Ho|rewrite <- lenA; apply Hv|].
  - cbn [bind]. apply (plus_ok d (map _ (seq 0 K))). now rewrite map_length, seq_length.
  - intros k _. pose proof (tally_has k b). lia.
Qed.
Lemma en_ok : over_short oth slgo (fun d b => do c <- counts K (sN me) v b; plus charge d c) = Ok (osum cB (fun b => cost (map (fun k => given R cB k v b) (seq 0 K)))).
Proof.
  apply (over_short_ok g sB oth cB slgo _ _ Io (so_gl _ _ _ _ _ _ _ _ O) HSo). intros d b Hb. rewrite (counts_ok _ _ _ _ (fun k i b => given R cB k i b) v b (so_N _ _ _ _ _ _ _ _ M)); auto; [|rewrite <- lenA; apply Hv]. cbn [bind]. apply (plus_ok d (map _ (seq 0 K))). now rewrite map_length, seq_length.
Qed.
Lemma eo_ok : over_short oth slgo (fun d (b : nat) => do a <- nat_of (Z.of_nat K - 1); do x <- FastTable lnfact a tabf lfsize; Ok (nadd d x)) = Ok (osum cB (fun _ => lnfact (K - 1))).
Proof.
  apply (over_short_ok g sB oth cB slgo _ _ Io (so_gl _ _ _ _ _ _ _ _ O) HSo). intros d b Hb. replace (Z.of_nat K - 1)%Z with (Z.of_nat (K - 1)) by lia. rewrite nat_of_nat. cbn [bind]. unfold tabf. rewrite (table_value lnfact lfsize (K - 1)). reflexivity.
Qed.
Lemma tallies_old w : w <> o -> forall b, T R (upd cA v w) cB o b = map (fun k => tally R cA cB k o b - given R cB k v b) (seq 0 K).
Proof. intros Hw b. unfold tallies. apply map_ext. intros k. pose proof (tally_upd R cA cB v w k o b Hv) as X. fold o in X. rewrite Nat.eqb_refl in X. destruct (Nat.eqb_spec w o); [congruence|]. lia. Qed.
Lemma tallies_new w : w <> o -> forall b, T R (upd cA v w) cB w b = map (fun k => tally R cA cB k w b + given R cB k v b) (seq 0 K).
Proof. intros Hw b. unfold tallies. apply map_ext. intros k. pose proof (tally_upd R cA cB v w k w b Hv) as X. fold o in X. rewrite Nat.eqb_refl in X. destruct (Nat.eqb_spec o w); [congruence|]. lia. Qed.
Lemma label_ok (x : nat) (z : Z) : (z = Z.of_nat x)%Z -> x <= length sA -> label_change lnfact me z = Ok (lnfact (length cA - used cA) - lnfact (length cA - x))%Qc.
Proof.
  intros -> Hx. unfold label_change. rewrite (so_n _ _ _ _ _ _ _ _ M), (so_ng _ _ _ _ _ _ _ _ M), lenA. pose proof (used_le cA) as HU. rewrite lenA in HU.
  replace (Z.of_nat (length sA) - Z.of_nat (used cA))%Z with (Z.of_nat (length sA - used cA)) by lia. replace (Z.of_nat (length sA) - Z.of_nat x)%Z with (Z.of_nat (length sA - x)) by lia. rewrite !nat_of_nat. reflexivity.
Qed.
Lemma size_o : 0 < csize cA o.
Proof. apply csize_pos. exists v. split; [apply Hv|reflexivity]. Qed.
Lemma shift_new w : w < length cA -> w <> o ->
  shift w = (- osum cB (fun b => cost (T R cA cB o b)) + osum cB (fun b => cost (map (fun k => tally R cA cB k o b - given R cB k v b)%nat (seq 0 K))) - osum cB (fun b => cost (T R cA cB w b))
    + osum cB (fun b => cost (map (fun k => tally R cA cB k w b + given R cB k v b)%nat (seq 0 K))) + (lnfact (length cA - used cA) - lnfact (length cA - used (upd cA v w))))%Qc.
Proof.
  intros Hw Hne. unfold shift, E. rewrite (delta_sum R cA cB v w (go_col _ _ _ _ I) Hv Hw ltac:(auto)). fold o.
  rewrite (osum_ext cB (fun b => cost (T R (upd cA v w) cB o b)) (fun b => cost (map (fun k => tally R cA cB k o b - given R cB k v b) (seq 0 K)))) by (intros; now rewrite tallies_old).
  rewrite (osum_ext cB (fun b => cost (T R (upd cA v w) cB w b)) (fun b => cost (map (fun k => tally R cA cB k w b + given R cB k v b) (seq 0 K)))) by (intros; now rewrite tallies_new). reflexivity.
Qed.
Lemma shift_same : shift o = 0%Qc.
Proof. unfold shift. unfold o. rewrite (upd_same cA v Hv). ring. Qed.
Let Go_ex := go_nth _ _ _ _ o I (eq_ind _ (fun m => o < m) Ho _ lenA).
Variable Go : grp Qc.
Hypothesis EGo : nth_error (sP me) o = Some Go.
Definition Soo := osum cB (fun b => cost (T R cA cB o b)).
Definition Sno := osum cB (fun b => cost (map (fun k => tally R cA cB k o b - given R cB k v b)%nat (seq 0 K))).
Lemma Zpos x : (0 <? Z.of_nat x)%Z = (0 <? x). Proof. destruct (Z.ltb_spec 0 (Z.of_nat x)), (Nat.ltb_spec 0 x); auto; lia. Qed.
Lemma Zone x : (1 <? Z.of_nat x)%Z = (1 <? x). Proof. destruct (Z.ltb_spec 1 (Z.of_nat x)), (Nat.ltb_spec 1 x); auto; lia. Qed.
Lemma Zeq1 x : (Z.of_nat x =? 1)%Z = (x =? 1). Proof. destruct (Z.eqb_spec (Z.of_nat x) 1), (Nat.eqb_spec x 1); auto; lia. Qed.
Lemma Zeq0 x : (Z.of_nat x =? 0)%Z = (x =? 0). Proof. destruct (Z.eqb_spec (Z.of_nat x) 0), (Nat.eqb_spec x 0); auto; lia. Qed.
Lemma gibbs_one_ok dH norm w : w < length sA -> w < length dH ->
  gibbs_one lnfact K charge me oth slgo v o Go Soo Sno (dH, norm) w = Ok (upd dH w (Some (shift w)), (norm + ex (- shift w))%Qc).
Proof.
  intros Hw Hd. unfold gibbs_one. rewrite (so_gl _ _ _ _ _ _ _ _ M), (get_some (seq 0 (length sA)) w w) by (now rewrite nth_error_seq). cbn [deref bind]. destruct (go_nth _ _ _ _ w I Hw) as (Gw & EGw & LGw). rewrite (get_ok _ _ _ EGw). cbn [bind].
  rewrite (oo_ok w Hw). cbn [bind]. rewrite (nn_ok w Hw). cbn [bind]. rewrite (go_size _ _ _ _ I o Go EGo), (go_size _ _ _ _ I w Gw EGw), (so_ng _ _ _ _ _ _ _ _ M), Zeq1, Zpos, Zone, Zeq0. pose proof size_o as HP. pose proof Ho as Hoc.
  assert (Hwc : w < length cA) by (rewrite lenA; auto).
  assert (ES : exists sam, (if (csize cA o =? 1) && (0 <? csize cA w) then label_change lnfact me (Z.of_nat (used cA) - 1) else if (1 <? csize cA o) && (csize cA w =? 0) then label_change lnfact me (Z.of_nat (used cA) + 1) else Ok n0) = Ok sam /\
     (w <> o -> sam = lnfact (length cA - used cA) - lnfact (length cA - used (upd cA v w)))%Qc).
  { destruct (Nat.eq_dec w o) as [Ew|Hne].
    - rewrite !Ew. destruct (Nat.eqb_spec (csize cA o) 1) as [E1|E1], (Nat.ltb_spec 0 (csize cA o)) as [E2|E2], (Nat.ltb_spec 1 (csize cA o)) as [E3|E3], (Nat.eqb_spec (csize cA o) 0) as [E4|E4]; cbn [andb]; try lia.
      + pose proof (used_pos cA o Hoc HP) as HU.
        rewrite (label_ok (used cA - 1)) by (try lia; pose proof (used_le cA); rewrite lenA in *; lia). eexists. split; [reflexivity|congruence].
      + eexists. split; [reflexivity|congruence].
    - pose proof (used_upd cA v w (go_col _ _ _ _ I) Hv Hwc ltac:(auto)) as HU. fold o in HU. pose proof (used_le cA) as HL. pose proof (used_le (upd cA v w)) as HL'. rewrite length_upd in HL'. rewrite lenA in HL, HL'. unfold one in HU.
      destruct (Nat.eqb_spec (csize cA o) 1) as [E1|E1], (Nat.ltb_spec 0 (csize cA w)) as [E2|E2], (Nat.ltb_spec 1 (csize cA o)) as [E3|E3], (Nat.eqb_spec (csize cA w) 0) as [E4|E4]; cbn [andb]; try lia.
      + rewrite (label_ok (used (upd cA v w))) by lia. eexists. split; [reflexivity|auto].
      + exists 0%Qc. split; [reflexivity|]. intros _. replace (used (upd cA v w)) with (used cA) by lia. ring.
      + exists 0%Qc. split; [reflexivity|]. intros _. replace (used (upd cA v w)) with (used cA) by lia. ring.
      + rewrite (label_ok (used (upd cA v w))) by lia. eexists. split; [reflexivity|auto]. }
  destruct ES as (sam & -> & Hsam). cbn [bind]. cbv zeta.
  match goal with |- context [nexp (nopp ?x)] => assert (EX : x = shift w) end.
  { destruct (Nat.eqb_spec w o) as [->|Hne]; [symmetry; apply shift_same|]. rewrite Hsam, shift_new by auto. unfold Soo, Sno. reflexivity. }
  rewrite EX. rewrite (set_ok dH w) by auto. reflexivity.
Qed.

Let bz := boltz ex E cA v.
Lemma bz_shift w : ex (- shift w)%Qc = bz w.
Proof. unfold bz, boltz, shift. f_equal. ring. Qed.
Lemma gibbs_all_ok size : length sA <= size -> exists dH, foldM (gibbs_one lnfact K charge me oth slgo v o Go Soo Sno) (repeat None size, n0) slg = Ok (dH, Qsum bz slg) /\
  length dH = size /\ (forall w, In w slg -> nth_error dH w = Some (Some (shift w))).
Proof.
  intros Hsz. assert (HL : forall w, In w slg -> w < length sA) by (intros w Hw; rewrite <- lenA; now apply HS).
  assert (G : forall l dH norm done, length dH = size -> (forall w, In w l -> w < length sA) -> (forall w, In w done -> nth_error dH w = Some (Some (shift w))) ->
    exists dH', foldM (gibbs_one lnfact K charge me oth slgo v o Go Soo Sno) (dH, norm) l = Ok (dH', (norm + Qsum bz l)%Qc) /\ length dH' = size /\ (forall w, In w done \/ In w l -> nth_error dH' w = Some (Some (shift w)))).
  { induction l as [|w l IH]; intros dH norm done Ld Hl Hd.
    - exists dH. cbn [foldM Qsum]. split; [f_equal; f_equal; ring|]. split; auto. intros w [|[]]; auto.
    - cbn [foldM]. assert (Hw : w < length sA) by (apply Hl; simpl; auto). rewrite gibbs_one_ok by lia. cbn [bind]. destruct (IH (upd dH w (Some (shift w))) (norm + ex (- shift w))%Qc (w :: done)) as (dH' & E' & L' & H').
      + now rewrite length_upd.
      + intros; apply Hl; simpl; auto.
      + intros x [<-|Hx]; [apply nth_upd_eq; lia|]. rewrite nth_upd. destruct (Nat.eqb_spec x w) as [->|]; cbn [andb]; auto. destruct (w <? length dH) eqn:El; auto.
      + exists dH'. split; [rewrite E'; f_equal; f_equal; cbn [Qsum]; rewrite bz_shift; ring|]. split; auto. intros x [Hx|[<-|Hx]]; apply H'; simpl; auto. }
  destruct (G slg (repeat None size) n0 []) as (dH & E1 & L1 & H1); auto; [apply repeat_length|simpl; tauto|]. exists dH. rewrite E1. split; [f_equal; f_equal; cbn; ring|]. split; auto.
Qed.
Lemma gibbs_walk_ok dH dice : forall l cum last, (forall w, In w l -> nth_error dH w = Some (Some (shift w))) -> (cum < dice)%Qc -> (dice <= cum + Qsum bz l)%Qc ->
  exists pre w post, l = pre ++ w :: post /\ gibbs_walk dH dice cum last l = Ok w /\ (cum + Qsum bz pre < dice)%Qc /\ (dice <= cum + (Qsum bz pre + bz w))%Qc.
Proof.
  induction l as [|x l IH]; intros cum last Hl H1 H2.
  - exfalso. cbn [Qsum] in H2. rewrite Qcplus_0_r in H2. apply Qcle_not_lt in H2. contradiction.
  - cbn [gibbs_walk]. cbn [nltb opsG Qc_ops]. rewrite (proj2 (Num.Qc_ltb_true _ _) H1). rewrite (get_ok _ _ _ (Hl x (or_introl eq_refl))). cbn [bind]. cbn [nadd nexp nopp opsG Qc_ops]. rewrite bz_shift. cbn [Qsum] in H2.
    destruct (Qclt_le_dec (cum + bz x) dice) as [Hlt|Hle].
    + destruct (IH (cum + bz x)%Qc (Some x)) as (pre & w & post & -> & Ew & P1 & P2); auto; [intros; apply Hl; simpl; auto|now rewrite <- Qcplus_assoc|].
      exists (x :: pre), w, post. split; auto. split; [exact Ew|]. cbn [Qsum]. rewrite !Qcplus_assoc in *. auto.
    + exists [], x, l. split; auto. split.
      * destruct l; cbn [gibbs_walk]; cbn [nltb opsG Qc_ops]; rewrite (proj2 (Num.Qc_ltb_false _ _) Hle); reflexivity.
      * cbn [Qsum]. rewrite Qcplus_0_l, Qcplus_0_r. auto.
Qed.
(** The weight of an empty group. *)
Definition Sempty : Qc := (- Soo + Sno - osum cB (fun _ => lnfact (K - 1)) + osum cB (fun b => cost (map (fun k => given R cB k v b) (seq 0 K))) +
  (if 1 <? csize cA o then lnfact (length cA - used cA) - lnfact (length cA - (used cA + 1)) else 0))%Qc.
Lemma empty_shift w : w < length cA -> csize cA w = 0 -> shift w = Sempty.
Proof.
  intros Hw H0. pose proof size_o as HP. assert (Hne : w <> o) by (intros ->; lia). rewrite shift_new by auto. unfold Sempty, Soo, Sno.
  rewrite (osum_ext cB (fun b => cost (T R cA cB w b)) (fun _ => lnfact (K - 1))).
  2: { intros b _. rewrite <- cost_zeros. f_equal. unfold tallies. apply map_ext. intros k. now apply tally_empty_l. }
  rewrite (osum_ext cB (fun b => cost (map (fun k => tally R cA cB k w b + given R cB k v b) (seq 0 K))) (fun b => cost (map (fun k => given R cB k v b) (seq 0 K)))).
  2: { intros b _. f_equal. apply map_ext. intros k. now rewrite tally_empty_l. }
  f_equal. pose proof (used_upd cA v w (go_col _ _ _ _ I) Hv Hw ltac:(auto)) as HU. fold o in HU. rewrite H0 in HU. unfold one in HU. cbn [Nat.eqb] in HU.
  destruct (Nat.ltb_spec 1 (csize cA o)) as [H1|H1].
  - destruct (Nat.eqb_spec (csize cA o) 1); [lia|]. now replace (used (upd cA v w)) with (used cA + 1) by lia.
  - destruct (Nat.eqb_spec (csize cA o) 1); [|lia]. replace (used (upd cA v w)) with (used cA) by lia. ring.
Qed.
Lemma all_sum : boltz_all ex E cA v = (Qsum bz slg + Qc_of_nat (length cA - length slg) * ex (- Sempty))%Qc.
Proof.
  unfold boltz_all. fold bz. apply Qsum_others; auto. intros k Hk Hn. rewrite <- bz_shift. f_equal. f_equal. apply empty_shift; auto. destruct (Nat.eq_dec (csize cA k) 0) as [|Hne]; auto. exfalso. apply Hn. apply HS; auto. lia.
Qed.
Lemma slg_sum_pos : (0 < Qsum bz slg)%Qc.
Proof.
  assert (Hi : In o slg) by (apply HS; [apply Ho|apply size_o]). apply in_split in Hi as (l1 & l2 & ->). rewrite Qsum_app. cbn [Qsum].
  assert (P : forall l, (0 <= Qsum bz l)%Qc) by (intros l; apply Qsum_nonneg; intros x _; apply Qclt_le_weak; apply ex_pos).
  rewrite Qcplus_comm. apply Qc_lt_add; auto. apply Qc_lt_add; auto. apply ex_pos.
Qed.

Lemma find_empty_ok (P : gpart Qc) : forall pos w, w < length P -> (forall k G, nth_error P k = Some G -> psize G = Z.of_nat (csize cA (pos + k))) -> csize cA (pos + w) = 0 -> (forall k, k < w -> 0 < csize cA (pos + k)) ->
  find_empty pos P = Some (pos + w).
Proof.
  induction P as [|G P IH]; intros pos w Hw HP H0 H1; [simpl in Hw; lia|]. cbn [find_empty]. rewrite (HP 0 G eq_refl), Nat.add_0_r, Zeq0. destruct w as [|w].
  - rewrite Nat.add_0_r in H0. rewrite H0, Nat.add_0_r. reflexivity.
  - specialize (H1 0 ltac:(lia)) as H2. rewrite Nat.add_0_r in H2. destruct (Nat.eqb_spec (csize cA pos) 0); [lia|]. rewrite (IH (pos + 1) w).
    + f_equal. lia.
    + simpl in Hw. lia.
    + intros k G' E'. rewrite <- Nat.add_assoc. apply (HP (S k)). exact E'.
    + rewrite <- H0. f_equal. lia.
    + intros k Hk. rewrite <- Nat.add_assoc. apply (H1 (S k)). lia.
Qed.
Definition mid (u : Qc) : Prop := (0 < u /\ u < 1)%Qc.
Lemma gibbs_in_ok size H ds : length sA <= size -> Forall mid ds ->
  ends rng_err (gibbs_in lnfact lfsize K tabf charge size g me oth slg slgo (Some p) H ds) (fun '(g', me', oth', slg', H', ds') => exists u w, ds = u :: ds' /\ heats ex E cA v slg u w /\ w < length cA /\
    slg' = known slg w /\ H' = (H + shift w)%Qc /\ pair_ok g' sA sB R (upd cA v w) cB me' oth' /\ same_but_group g g').
Proof.
  intros Hsz HD. unfold gibbs_in. cbn [deref bind]. rewrite (get_ok _ _ _ En). cbn [bind].
  assert (Eg : ggroup n = Some o) by (pose proof (go_group _ _ _ _ I v p Ep) as Q; unfold group_of in Q; now rewrite En in Q). rewrite Eg. cbn [bind]. rewrite num_v.
  pose proof Ho as Hoc. pose proof lenA as LA. assert (Hoa : o < length sA) by lia. rewrite (so_gl _ _ _ _ _ _ _ _ M), (get_some (seq 0 (length sA)) o o) by (now rewrite nth_error_seq). cbn [deref bind]. rewrite (get_ok _ _ _ EGo). cbn [bind].
  rewrite (oo_ok o Hoa). cbn [bind]. fold Soo. rewrite no_ok. cbn [bind]. fold Sno.
  destruct (gibbs_all_ok size Hsz) as (dH & EA & LdH & HdH). rewrite EA. cbn [bind]. rewrite eo_ok. cbn [bind]. rewrite en_ok. cbn [bind].
  rewrite (go_size _ _ _ _ I o Go EGo), Zone, (so_ng _ _ _ _ _ _ _ _ M).
  assert (ES : (if 1 <? csize cA o then label_change lnfact me (Z.of_nat (used cA) + 1) else Ok n0) = Ok (if 1 <? csize cA o then lnfact (length cA - used cA) - lnfact (length cA - (used cA + 1)) else 0)%Qc).
  { destruct (Nat.ltb_spec 1 (csize cA o)) as [H1|]; [|reflexivity]. apply label_ok; [lia|]. rewrite <- LA. apply (used_room cA o); auto. apply I. }
  rewrite ES. clear ES. cbn [bind]. cbn [nadd nsub nopp nmul nexp nofnat opsG Qc_ops]. fold Sempty. rewrite (so_n _ _ _ _ _ _ _ _ M), <- LA.
  set (rest := (Qc_of_nat (length cA - length slg) * ex (- Sempty))%Qc). set (ZZ := boltz_all ex E cA v). assert (EZ : ZZ = (Qsum bz slg + rest)%Qc) by apply all_sum.
  destruct ds as [|u ds]; [left; reflexivity|]. cbn [draw bind]. destruct (Forall_inv HD) as [Hu0 Hu1]. rewrite <- EZ. cbn [nltb opsG Qc_ops]. replace (ZZ - rest)%Qc with (Qsum bz slg) by (rewrite EZ; ring).
  assert (Hrest : (0 <= rest)%Qc). { unfold rest. apply Qcmult_le_0_compat; [apply Qc_of_nat_nonneg|apply Qclt_le_weak, ex_pos]. }
  assert (HZ : (0 < ZZ)%Qc) by (rewrite EZ; apply Qc_lt_add; auto using slg_sum_pos). pose proof (short_length _ _ HS) as HSL.
  (* the choice *)
  match goal with |- ends _ (bind ?m _) _ => assert (EW : exists w, m = Ok (w, known slg w, shift w) /\ w < length cA /\ heats ex E cA v slg u w) end.
  { destruct (Qc_ltb (Qsum bz slg) (ZZ * u)) eqn:Eb.
    - apply Num.Qc_ltb_true in Eb. assert (Hroom : length slg < length cA).
      { destruct (Nat.lt_ge_cases (length slg) (length cA)) as [|Hge]; auto. exfalso. assert (Er : rest = 0%Qc) by (unfold rest; replace (length cA - length slg) with 0 by lia; change (Qc_of_nat 0) with 0%Qc; ring).
        rewrite Er, Qcplus_0_r in EZ. rewrite EZ in Eb, HZ. apply (Qclt_not_le _ _ Eb). rewrite <- (Qcmult_1_r (Qsum bz slg)) at 2. apply Qclt_le_weak. rewrite !(Qcmult_comm (Qsum bz slg)). apply Qcmult_lt_compat_r; auto. }
      destruct (short_room cA slg HS Hroom) as (w & Hw & H0 & Hfirst). exists w. split; [|split; [exact Hw|]].
      + unfold GetEmptyGroup. rewrite (find_empty_ok (sP me) 0 w); [|rewrite (go_length _ _ _ _ I), <- LA; auto|intros k G; apply (go_size _ _ _ _ I)|exact H0|exact Hfirst]. cbn [deref bind Nat.add].
        destruct (go_nth _ _ _ _ w I ltac:(lia)) as (Gw & EGw & LGw). rewrite (get_ok _ _ _ EGw). cbn [bind]. rewrite LGw. rewrite (proj2 (Nat.ltb_lt w size)) by lia. cbn [check bind]. unfold known.
        rewrite (proj2 (Nat.ltb_lt _ _) Hroom). rewrite (empty_shift w Hw H0). destruct (existsb (Nat.eqb w) slg); reflexivity.
      + apply he_new; auto. rewrite Qcmult_comm. exact Eb.
    - apply Num.Qc_ltb_false in Eb. destruct (gibbs_walk_ok dH (ZZ * u)%Qc slg 0%Qc None HdH) as (pre & w & post & Esl & EWK & P1 & P2); [apply Qc_mul_pos; auto|now rewrite Qcplus_0_l|].
      rewrite !Qcplus_0_l in P1, P2. assert (Hi : In w slg) by (rewrite Esl; apply in_or_app; simpl; auto). exists w. split; [|split; [now apply HS|]].
      + change n0 with 0%Qc. rewrite EWK. cbn [bind]. rewrite (get_ok _ _ _ (HdH w Hi)). cbn [bind]. f_equal. f_equal. f_equal. unfold known. destruct (existsb (Nat.eqb w) slg) eqn:Ex; auto. apply existsb_not in Ex. contradiction.
      + rewrite Esl. apply he_known; rewrite Qcmult_comm; auto. }
  destruct EW as (w & -> & Hw & HH). cbn [bind].
  assert (Hwa : w < length sA) by lia. rewrite LA, (get_some (seq 0 (length sA)) w w) by (now rewrite nth_error_seq). cbn [deref bind].
  destruct (shifted K g sA sB R cA cB me oth v p n 1 o w w PO Ep En Hoa Hwa Hwa) as (g1 & P1 & T1 & Ti1 & Ni1 & F1 & F2 & F3 & S1 & I1 & K1); [intros a; fold o; lia|].
  fold o in F1. rewrite F1. cbn [bind]. rewrite num_v in F2. rewrite F2. cbn [bind]. rewrite F3. cbn [bind].
  destruct (go_nth _ _ _ _ o I1 Hoa) as (Go1 & EGo1 & _). destruct (go_nth _ _ _ _ w I1 Hwa) as (Gw1 & EGw1 & _). rewrite (get_ok _ _ _ EGo1), (get_ok _ _ _ EGw1). cbn [bind].
  rewrite (go_size _ _ _ _ I1 o Go1 EGo1), (go_size _ _ _ _ I1 w Gw1 EGw1), Zeq0, Zeq1. cbn [ends].
  exists u, w. split; [reflexivity|]. split; [exact HH|]. split; [exact Hwa|]. split; [reflexivity|]. split; [reflexivity|]. split; [|exact S1].
  match goal with |- RecStep.pair_ok _ _ _ _ _ _ _ (mkSide _ _ _ _ ?ng _ _) _ => assert (Hng : ng = Z.of_nat (used (upd cA v w))) end.
  { destruct (Nat.eqb_spec o w) as [Eow|Hne]; [unfold o in Eow; rewrite <- Eow, (upd_same cA v Hv); reflexivity|].
    destruct (csize_move cA v w Hv) as (Q1 & Q2 & Q3 & _); [auto|]. fold o in Q1, Q2. pose proof (used_upd cA v w (go_col _ _ _ _ I) Hv Hw ltac:(auto)) as QU. fold o in QU. unfold one in QU.
    destruct (Nat.eqb_spec (csize (upd cA v w) o) 0), (Nat.eqb_spec (csize (upd cA v w) w) 1), (Nat.eqb_spec (csize cA o) 1), (Nat.eqb_spec (csize cA w) 0); lia. }
  pose proof (K1 _ Hng) as PO1. rewrite (so_n _ _ _ _ _ _ _ _ M), (so_gl _ _ _ _ _ _ _ _ M) in PO1. exact PO1.
Qed.
End Node.
End Gibbs.
