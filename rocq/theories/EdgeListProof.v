(** EdgeListProof.v -- EdgeListToAdjaArray on edge lists without self loops. *)
From Coq Require Import List Arith Lia Bool.
From Verif Require Import Base ListLib PartModel FillModel PartSpec AdjSpec FillProof.
Import ListNotations.
Local Open Scope nat_scope.

Section EL.
Context {A : Type} {ops : NumOps A}.
Implicit Types (es : list (@edge A)) (p : partition A).

(** ** Specification: what is incident to node [i], in file order. *)
Definition incident (d : A) es (i : nat) : list (nat * A) :=
  flat_map (fun '(a, b, w) => if a =? i then [(b, ndiv w d)] else if b =? i then [(a, ndiv w d)] else []) es.

(** Weights met at node [i], added in file order to a starting value. *)
Definition weight_at es (i : nat) (s : A) : A :=
  fold_left (fun s '(a, b, w) => if a =? i then nadd s w else if b =? i then nadd s w else s) es s.
Definition weight_all es : A := fold_left (fun s '(_, _, w) => nadd s w) es n0.

Definition no_loops es : Prop := Forall (fun '(a, b, _) => a <> b) es.
Definition in_range N es : Prop := Forall (fun '(a, b, _) => a < N /\ b < N) es.

Definition degree_of es (i : nat) : nat :=
  count (fun '(a, b, _) => (a =? i) || (b =? i)) es.

Lemma incident_app d es1 es2 i : incident d (es1 ++ es2) i = incident d es1 i ++ incident d es2 i.
Proof. apply flat_map_app. Qed.
Lemma degree_of_app es1 es2 i : degree_of (es1 ++ es2) i = degree_of es1 i + degree_of es2 i.
Proof. apply count_app. Qed.
Lemma degree_of_cons a b w es i : degree_of ((a, b, w) :: es) i = (if (a =? i) || (b =? i) then 1 else 0) + degree_of es i.
Proof. unfold degree_of. now rewrite count_cons. Qed.
Lemma degree_of_nil i : degree_of [] i = 0.
Proof. reflexivity. Qed.
Lemma weight_at_app es1 es2 i s : weight_at (es1 ++ es2) i s = weight_at es2 i (weight_at es1 i s).
Proof. apply fold_left_app. Qed.
Lemma incident_length d es i : length (incident d es i) = degree_of es i.
Proof.
  induction es as [|[[a b] w] es IH]; simpl; auto. unfold degree_of in *. rewrite count_cons, app_length, IH.
  destruct (a =? i); simpl; auto. destruct (b =? i); simpl; auto.
Qed.

Fixpoint offset es (i : nat) : nat := match i with O => 0 | S i' => offset es i' + degree_of es i' end.

Lemma offset_mono es i j : i <= j -> offset es i <= offset es j.
Proof. induction 1; simpl; lia. Qed.

Lemma offset_total N es : no_loops es -> in_range N es -> offset es N = 2 * length es.
Proof.
  intros H1 H2. induction es as [|[[a b] w] es IH]; simpl.
  - induction N; simpl; auto. rewrite IHN; auto. constructor.
  - apply Forall_cons_iff in H1 as [Hne H1']. apply Forall_cons_iff in H2 as [[Ha Hb] H2'].
    assert (E : forall n, offset ((a, b, w) :: es) n = offset es n + (if a <? n then 1 else 0) + (if b <? n then 1 else 0)).
    { induction n as [|n IHn]; simpl; auto. rewrite IHn. unfold degree_of. rewrite count_cons.
      destruct (Nat.eqb_spec a n); destruct (Nat.eqb_spec b n); destruct (Nat.ltb_spec a n); destruct (Nat.ltb_spec b n);
      destruct (Nat.ltb_spec a (S n)); destruct (Nat.ltb_spec b (S n)); simpl; try lia. }
    rewrite E, IH by auto. destruct (Nat.ltb_spec a N); [|lia]. destruct (Nat.ltb_spec b N); lia.
Qed.

(** ** Counting *)
Lemma ela_count_spec es p N : no_loops es -> in_range N es -> length (pnodes p) = N ->
  exists p' deg, ela_count es p (repeat 0 N) = Ok (weight_all es, p', deg) /\
    pN p' = pN p /\ pM p' = pM p /\ pnempty p' = pnempty p /\ pmods p' = pmods p /\ length (pnodes p') = N /\
    length deg = N /\ (forall i, i < N -> nth_error deg i = Some (degree_of es i)) /\
    (forall i nd, nth_error (pnodes p) i = Some nd -> nth_error (pnodes p') i = Some (set_nstr (weight_at es i (nstr nd)) nd)).
Proof.
  intros NL IR HN. unfold ela_count.
  match goal with |- exists p' deg, foldM ?f ?s es = _ /\ _ =>
    destruct (foldM_inv (fun done '(ws, q, deg) => ws = weight_all done /\
      pN q = pN p /\ pM q = pM p /\ pnempty q = pnempty p /\ pmods q = pmods p /\ length (pnodes q) = N /\
      length deg = N /\ (forall i, i < N -> nth_error deg i = Some (degree_of done i)) /\
      (forall i nd, nth_error (pnodes p) i = Some nd -> nth_error (pnodes q) i = Some (set_nstr (weight_at done i (nstr nd)) nd)))
      f es s) as ([[ws q] deg] & E & H)
  end.
  - splits; auto.
    + apply repeat_length.
    + intros i Hi. rewrite (nth_error_nth' _ 0) by (rewrite repeat_length; auto). now rewrite nth_repeat.
    + intros i nd E. rewrite E. destruct nd; reflexivity.
  - intros done [[a b] w] rest [[ws q] deg] El (Hw & Q1 & Q2 & Q3 & Q4 & Q5 & Q6 & Q7 & Q8).
    assert (Hx : In (a, b, w) es) by (rewrite El, in_app_iff; simpl; auto).
    unfold no_loops, in_range in *. rewrite Forall_forall in NL, IR. specialize (NL _ Hx). specialize (IR _ Hx). cbn in NL, IR.
    destruct IR as [Ha Hb].
    destruct (nth_ex (pnodes q) a) as [na Ena]; [lia|]. destruct (nth_ex (pnodes q) b) as [nb Enb]; [lia|].
    unfold upd_node. rewrite (get_ok _ _ _ Ena). cbn [bind set_nodes pnodes].
    assert (Enb' : nth_error (upd (pnodes q) a (set_nstr (nadd (nstr na) w) na)) b = Some nb) by (rewrite nth_upd_neq; auto).
    rewrite (get_ok _ _ _ Enb'). cbn [bind set_nodes pnodes].
    rewrite (get_ok _ _ _ (Q7 a Ha)). cbn [bind]. rewrite set_ok by lia. cbn [bind].
    assert (Edb : nth_error (upd deg a (degree_of done a + 1)) b = Some (degree_of done b)) by (rewrite nth_upd_neq; auto).
    rewrite (get_ok _ _ _ Edb). cbn [bind]. rewrite set_ok by (rewrite length_upd; lia). cbn [bind].
    eexists. split; [reflexivity|]. cbn [pN pM pnempty pmods pnodes set_nodes]. splits; auto.
    + unfold weight_all. rewrite fold_left_app. cbn. now rewrite Hw.
    + now rewrite !length_upd.
    + now rewrite !length_upd.
    + intros i Hi. rewrite degree_of_app, degree_of_cons, degree_of_nil.
      rewrite nth_upd, length_upd. destruct (Nat.eqb_spec i b) as [->|Hib].
      * rewrite (proj2 (Nat.ltb_lt _ _)) by lia. cbn [andb]. rewrite Nat.eqb_refl, orb_true_r. f_equal; lia.
      * cbn [andb]. rewrite nth_upd. destruct (Nat.eqb_spec i a) as [->|Hia].
        -- rewrite (proj2 (Nat.ltb_lt _ _)) by lia. cbn [andb]. rewrite Nat.eqb_refl. cbn [orb]. f_equal; lia.
        -- cbn [andb]. rewrite (proj2 (Nat.eqb_neq a i)), (proj2 (Nat.eqb_neq b i)) by auto. cbn [orb]. rewrite Q7 by auto. f_equal; lia.
    + intros i nd E. rewrite weight_at_app. cbn [weight_at fold_left].
      rewrite nth_upd, length_upd. destruct (Nat.eqb_spec i b) as [->|Hib].
      * rewrite (proj2 (Nat.ltb_lt _ _)) by lia. cbn [andb]. rewrite (proj2 (Nat.eqb_neq a b)) by auto. rewrite Nat.eqb_refl.
        rewrite (Q8 b nd E) in Enb. injection Enb as <-. reflexivity.
      * cbn [andb]. rewrite nth_upd. destruct (Nat.eqb_spec i a) as [->|Hia].
        -- rewrite (proj2 (Nat.ltb_lt _ _)) by lia. cbn [andb]. rewrite Nat.eqb_refl.
           rewrite (Q8 a nd E) in Ena. injection Ena as <-. reflexivity.
        -- cbn [andb]. rewrite (proj2 (Nat.eqb_neq a i)), (proj2 (Nat.eqb_neq b i)) by auto. apply Q8; auto.
  - destruct H as (Hw & R). subst ws. eauto 20.
Qed.

(** ** Row starts *)
Lemma ela_index_spec es ws deg (adj : adja A) p N : aN adj = N -> length (aidx adj) = N + 1 -> length (pnodes p) = N ->
  (forall i, i < N -> nth_error deg i = Some (degree_of es i)) ->
  exists idx p', ela_index N ws deg adj p = Ok (mkAdja N (aE adj) idx (anb adj) (astr adj), p') /\
    length idx = N + 1 /\ (forall i, i < N -> nth_error idx i = Some (offset es i)) /\
    nth_error idx N = nth_error (aidx adj) N /\
    pN p' = pN p /\ pM p' = pM p /\ pnempty p' = pnempty p /\ pmods p' = pmods p /\ length (pnodes p') = N /\
    (forall i nd, nth_error (pnodes p) i = Some nd -> nth_error (pnodes p') i = Some (set_nstr (ndiv (nstr nd) ws) nd)).
Proof.
  intros HaN Hidx HN Hdeg. unfold ela_index.
  match goal with |- context [foldM ?f ?s (seq 0 N)] =>
    destruct (foldM_seq (fun k '(idx, q, pos) => pos = offset es k /\ length idx = N + 1 /\
      (forall i, i < k -> nth_error idx i = Some (offset es i)) /\
      nth_error idx N = nth_error (aidx adj) N /\
      pN q = pN p /\ pM q = pM p /\ pnempty q = pnempty p /\ pmods q = pmods p /\ length (pnodes q) = N /\
      (forall i nd, nth_error (pnodes p) i = Some nd ->
         nth_error (pnodes q) i = Some (if i <? k then set_nstr (ndiv (nstr nd) ws) nd else nd)))
      f N s) as ([[idx q] pos] & E & H)
  end.
  - splits; auto. intros; lia.
  - intros k [[idx q] pos] Hk (Q0 & Q1 & Q2 & Q3 & Q4 & Q5 & Q6 & Q7 & Q8 & Q9).
    rewrite set_ok by lia. cbn [bind]. rewrite (get_ok _ _ _ (Hdeg k Hk)). cbn [bind].
    destruct (nth_ex (pnodes p) k) as [nd End]; [lia|]. specialize (Q9 k nd End) as Enq.
    rewrite Nat.ltb_irrefl in Enq. unfold upd_node. rewrite (get_ok _ _ _ Enq). cbn [bind].
    eexists. split; [reflexivity|]. cbn [pN pM pnempty pmods pnodes set_nodes]. splits; auto.
    + rewrite Nat.add_1_r. simpl. lia.
    + now rewrite length_upd.
    + intros i Hi. destruct (Nat.eq_dec i k) as [->|].
      * rewrite nth_upd_eq by lia. now subst pos.
      * rewrite nth_upd_neq by auto. apply Q2. lia.
    + rewrite nth_upd_neq by lia. auto.
    + now rewrite length_upd.
    + intros i nd' E'. destruct (Nat.eq_dec i k) as [->|Hne].
      * rewrite nth_upd_eq by lia. rewrite End in E'. injection E' as <-.
        rewrite (proj2 (Nat.ltb_lt _ _)) by lia. reflexivity.
      * rewrite nth_upd_neq by auto. rewrite (Q9 i nd' E').
        destruct (Nat.ltb_spec i k); destruct (Nat.ltb_spec i (k + 1)); auto; lia.
  - rewrite E. cbn [bind]. destruct H as (Q0 & Q1 & Q2 & Q3 & Q4 & Q5 & Q6 & Q7 & Q8 & Q9).
    exists idx, q. rewrite HaN. splits; auto. intros i nd En. rewrite (Q9 i nd En).
    rewrite (proj2 (Nat.ltb_lt _ _)); auto. apply nth_lt in En. lia.
Qed.

(** ** Filling the rows *)
Lemma cell_inj es N i k i' k' : i < N -> i' < N -> k < degree_of es i -> k' < degree_of es i' ->
  offset es i + k = offset es i' + k' -> i = i' /\ k = k'.
Proof.
  intros Hi Hi' Hk Hk' E. destruct (lt_eq_lt_dec i i') as [[H|H]|H].
  - pose proof (offset_mono es (S i) i' H). simpl in H0. lia.
  - subst. lia.
  - pose proof (offset_mono es (S i') i H). simpl in H0. lia.
Qed.

Lemma ela_fill_spec es ws deg (adj : adja A) N : no_loops es -> in_range N es ->
  length (aidx adj) = N + 1 -> (forall i, i <= N -> nth_error (aidx adj) i = Some (offset es i)) ->
  length deg = N -> (forall i, i < N -> nth_error deg i = Some (degree_of es i)) ->
  2 * length es <= length (anb adj) -> length (astr adj) = length (anb adj) ->
  exists nb st, ela_fill es ws deg adj = Ok (mkAdja (aN adj) (aE adj) (aidx adj) nb st) /\
    length nb = length (anb adj) /\ length st = length (anb adj) /\
    (forall i k j w, i < N -> nth_error (incident ws es i) k = Some (j, w) ->
       nth_error nb (offset es i + k) = Some j /\ nth_error st (offset es i + k) = Some w).
Proof.
  intros NL IR Hidx Hoff Hdl Hdeg Hnb Hst. unfold ela_fill.
  match goal with |- context [foldM ?f ?s es] =>
    destruct (foldM_inv (fun done '(nb, st, dg) => length nb = length (anb adj) /\ length st = length (anb adj) /\
       length dg = N /\ (forall i, i < N -> nth_error dg i = Some (degree_of es i - degree_of done i)) /\
       (forall i k j w, i < N -> nth_error (incident ws done i) k = Some (j, w) ->
         nth_error nb (offset es i + k) = Some j /\ nth_error st (offset es i + k) = Some w)) f es s) as ([[nb st] dg] & E & H)
  end.
  - splits; auto.
    + intros i Hi. rewrite Hdeg by auto. rewrite degree_of_nil. f_equal; lia.
    + intros i k j w _ E. destruct k; discriminate.
  - intros done [[a b] w] rest [[nb st] dg] El (Q1 & Q2 & Q3 & Q4 & Q5).
    assert (Hx : In (a, b, w) es) by (rewrite El, in_app_iff; simpl; auto).
    pose proof NL as NL'. pose proof IR as IR'.
    unfold no_loops, in_range in NL', IR'. rewrite Forall_forall in NL', IR'. specialize (NL' _ Hx). specialize (IR' _ Hx). cbn in NL', IR'.
    destruct IR' as [Ha Hb].
    (* positions *)
    assert (Hpos : forall i, i < N -> (i = a \/ i = b) ->
        degree_of done i < degree_of es i /\ offset es i + degree_of done i < length nb /\
        sub_index (offset es (i + 1)) (degree_of es i - degree_of done i) = Ok (offset es i + degree_of done i)).
    { intros i Hi Hab. assert (D : degree_of done i < degree_of es i).
      { rewrite El, degree_of_app, degree_of_cons.
        destruct Hab; subst i; rewrite Nat.eqb_refl; rewrite ?orb_true_r; cbn [orb]; lia. }
      assert (T : offset es (S i) <= 2 * length es).
      { rewrite <- (offset_total N es NL IR). apply offset_mono. lia. }
      simpl in T. splits; auto; [lia|].
      unfold sub_index. rewrite Nat.add_1_r. simpl. rewrite (proj2 (Nat.leb_le _ _)) by lia. f_equal; lia. }
    destruct (Hpos a Ha (or_introl eq_refl)) as (Da & Pa & Sa).
    destruct (Hpos b Hb (or_intror eq_refl)) as (Db & Pb & Sb).
    rewrite (get_ok _ _ _ (Hoff (a + 1) ltac:(lia))). cbn [bind]. rewrite (get_ok _ _ _ (Q4 a Ha)). cbn [bind]. rewrite Sa. cbn [bind].
    rewrite (get_ok _ _ _ (Hoff (b + 1) ltac:(lia))). cbn [bind]. rewrite (get_ok _ _ _ (Q4 b Hb)). cbn [bind]. rewrite Sb. cbn [bind].
    rewrite set_ok by lia. cbn [bind]. rewrite set_ok by lia. cbn [bind].
    rewrite set_ok by (rewrite length_upd; lia). cbn [bind]. rewrite set_ok by (rewrite length_upd; lia). cbn [bind].
    set (pa := offset es a + degree_of done a) in *. set (pb := offset es b + degree_of done b) in *.
    assert (Ea : degree_of es a - degree_of done a = S (degree_of es a - degree_of done a - 1)) by lia.
    rewrite Ea. cbn [dec bind]. rewrite set_ok by lia. cbn [bind].
    rewrite (get_ok _ _ (degree_of es b - degree_of done b)).
    2: { rewrite nth_upd_neq by auto. apply Q4; auto. }
    cbn [bind]. assert (Eb : degree_of es b - degree_of done b = S (degree_of es b - degree_of done b - 1)) by lia.
    rewrite Eb. cbn [dec bind]. rewrite set_ok by (rewrite length_upd; lia). cbn [bind].
    eexists. split; [reflexivity|]. cbv beta iota. splits.
    + now rewrite !length_upd.
    + now rewrite !length_upd.
    + now rewrite !length_upd.
    + intros i Hi. rewrite degree_of_app, degree_of_cons, degree_of_nil.
      rewrite nth_upd, length_upd. destruct (Nat.eqb_spec i b) as [->|Hib].
      * rewrite (proj2 (Nat.ltb_lt _ _)) by lia. cbn [andb]. rewrite Nat.eqb_refl, orb_true_r. f_equal; lia.
      * cbn [andb]. rewrite nth_upd. destruct (Nat.eqb_spec i a) as [->|Hia].
        -- rewrite (proj2 (Nat.ltb_lt _ _)) by lia. cbn [andb]. rewrite Nat.eqb_refl. cbn [orb]. f_equal; lia.
        -- cbn [andb]. rewrite (proj2 (Nat.eqb_neq a i)), (proj2 (Nat.eqb_neq b i)) by auto. cbn [orb]. rewrite Q4 by auto. f_equal; lia.
    + intros i k j v Hi E. rewrite incident_app in E.
      assert (Hpab : pa <> pb). { intros E'. destruct (cell_inj es N a (degree_of done a) b (degree_of done b)); auto. }
      destruct (lt_dec k (degree_of done i)) as [Hk|Hk].
      * (* an older cell *)
        rewrite nth_error_app1 in E by (rewrite incident_length; auto).
        assert (Hdi : degree_of done i <= degree_of es i) by (rewrite El, degree_of_app; lia).
        assert (offset es i + k <> pa).
        { intros E'. destruct (cell_inj es N i k a (degree_of done a)) as [X Y]; auto; [lia|rewrite X in Hk; lia]. }
        assert (offset es i + k <> pb).
        { intros E'. destruct (cell_inj es N i k b (degree_of done b)) as [X Y]; auto; [lia|rewrite X in Hk; lia]. }
        destruct (Q5 i k j v Hi E). split; rewrite !nth_upd_neq by auto; auto.
      * (* the cell just written *)
        rewrite nth_error_app2 in E by (rewrite incident_length; lia). rewrite incident_length in E.
        unfold incident in E. cbn [flat_map] in E. rewrite app_nil_r in E.
        destruct (Nat.eqb_spec a i) as [<-|Hia].
        -- destruct (k - degree_of done a) as [|z] eqn:Ez; [|destruct z; discriminate]. cbn in E. injection E as <- <-.
           replace (offset es a + k) with pa by (unfold pa; lia).
           split; (rewrite nth_upd_neq by auto); (rewrite nth_upd_eq by lia); auto.
        -- destruct (Nat.eqb_spec b i) as [<-|Hib]; [|destruct (k - degree_of done i); discriminate].
           destruct (k - degree_of done b) as [|z] eqn:Ez; [|destruct z; discriminate]. cbn in E. injection E as <- <-.
           replace (offset es b + k) with pb by (unfold pb; lia).
           split; (rewrite nth_upd_eq by (rewrite length_upd; lia)); auto.
  - unfold edge in *. rewrite E. cbn [bind]. destruct H as (Q1 & Q2 & _ & _ & Q5). exists nb, st. splits; auto.
Qed.

(** ** The whole conversion *)
Definition divisor es (normalize : bool) : A := if normalize then nmul (weight_all es) (nofnat 2) else n1.

Theorem EdgeListToAdjaArray_spec es p N normalize : no_loops es -> in_range N es -> length (pnodes p) = N ->
  exists adj p', EdgeListToAdjaArray es (CreateAdjaArray N (length es)) p normalize = Ok (adj, p') /\
    adj_ok adj N /\ aE adj = length es /\
    (forall i, i < N -> row adj i = incident (divisor es normalize) es i) /\
    pN p' = pN p /\ pM p' = pM p /\ pnempty p' = pnempty p /\ pmods p' = pmods p /\ length (pnodes p') = N /\
    (forall i nd, nth_error (pnodes p) i = Some nd ->
       nth_error (pnodes p') i = Some (set_nstr (ndiv (weight_at es i (nstr nd)) (divisor es normalize)) nd)).
Proof.
  intros NL IR HN. unfold EdgeListToAdjaArray. cbn [aN CreateAdjaArray].
  destruct (ela_count_spec es p N NL IR HN) as (p1 & deg & E1 & A1 & A2 & A3 & A4 & A5 & A6 & A7 & A8).
  rewrite E1. cbn [bind]. change (if normalize then nmul (weight_all es) (nofnat 2) else n1) with (divisor es normalize).
  destruct (ela_index_spec es (divisor es normalize) deg (CreateAdjaArray N (length es)) p1 N) as
    (idx & p2 & E2 & B1 & B2 & B3 & B4 & B5 & B6 & B7 & B8 & B9); auto.
  { cbn. rewrite length_upd, repeat_length. auto. }
  rewrite E2. cbn [bind].
  set (adj1 := mkAdja _ _ _ _ _).
  assert (Hoff : forall i, i <= N -> nth_error (aidx adj1) i = Some (offset es i)).
  { intros i Hi. cbn. destruct (Nat.eq_dec i N) as [->|]; [|apply B2; lia].
    rewrite B3. cbn. rewrite nth_upd_eq by (rewrite repeat_length; lia). now rewrite (offset_total N es). }
  destruct (ela_fill_spec es (divisor es normalize) deg adj1 N) as (nb & st & E3 & C1 & C2 & C3); auto.
  { cbn. rewrite repeat_length. lia. }
  { cbn. rewrite !repeat_length. auto. }
  rewrite E3. cbn [bind]. set (adj2 := mkAdja _ _ _ _ _).
  assert (Hlen : length nb = 2 * length es + 1) by (rewrite C1; cbn; now rewrite repeat_length).
  assert (Hlen2 : length st = 2 * length es + 1) by (rewrite C2; cbn; now rewrite repeat_length).
  assert (Hnth : forall i a b, nth_error (aidx adj2) i = Some a -> nth_error (aidx adj2) (i + 1) = Some b ->
            i < N /\ a = offset es i /\ b = offset es i + degree_of es i).
  { intros i a b Ea Eb. apply nth_lt in Eb as Hb. cbn [aidx adj2 adj1] in Hb. rewrite B1 in Hb.
    assert (Hi : i < N) by lia. split; auto. cbn [aidx adj2] in Ea, Eb.
    rewrite Hoff in Ea by lia. rewrite Hoff in Eb by lia. rewrite Nat.add_1_r in Eb. simpl in Eb. split; congruence. }
  assert (Hok : adj_ok adj2 N).
  { constructor.
    - reflexivity.
    - exact B1.
    - intros i a b Ea Eb. destruct (Hnth i a b Ea Eb) as (_ & -> & ->). lia.
    - intros i a b k Ea Eb H1 H2. destruct (Hnth i a b Ea Eb) as (Hi & -> & ->).
      destruct (nth_ex (incident (divisor es normalize) es i) (k - offset es i)) as [[j w] Ej]; [rewrite incident_length; lia|].
      destruct (C3 i (k - offset es i) j w Hi Ej) as [K1 _]. exists j. cbn [anb adj2]. split.
      + rewrite <- K1. f_equal; lia.
      + apply nth_error_In in Ej. unfold incident in Ej. apply in_flat_map in Ej as ([[x y] v] & Hin & Hj).
        unfold in_range in IR. rewrite Forall_forall in IR. specialize (IR _ Hin). cbn in IR.
        destruct (x =? i); [|destruct (y =? i)]; cbn in Hj; try tauto; destruct Hj as [Hj|[]]; injection Hj as <- _; tauto.
    - intros i a b k Ea Eb H1 H2. destruct (Hnth i a b Ea Eb) as (Hi & -> & ->).
      destruct (nth_ex (incident (divisor es normalize) es i) (k - offset es i)) as [[j w] Ej]; [rewrite incident_length; lia|].
      destruct (C3 i (k - offset es i) j w Hi Ej) as [_ K1]. exists w. cbn [astr adj2]. rewrite <- K1. f_equal; lia. }
  exists adj2, p2. splits; auto; try congruence.
  - intros i Hi. apply nth_ext. intros k.
    destruct (row_nth adj2 N i (offset es i) (offset es (i + 1)) Hok) as [L G]; [apply Hoff; lia|apply Hoff; lia|].
    assert (Hd : offset es (i + 1) - offset es i = degree_of es i) by (rewrite Nat.add_1_r; simpl; lia). rewrite Hd in *.
    destruct (lt_dec k (degree_of es i)) as [Hk|Hk].
    + destruct (G k Hk) as (j & w & E & K1 & K2 & _). rewrite E.
      destruct (nth_ex (incident (divisor es normalize) es i) k) as [[j' w'] Ej]; [rewrite incident_length; lia|].
      destruct (C3 i k j' w' Hi Ej) as [K1' K2']. cbn [anb astr adj2] in K1, K2. rewrite K1 in K1'. rewrite K2 in K2'. rewrite Ej. congruence.
    + rewrite (proj2 (nth_error_None _ _)) by lia. symmetry. apply nth_error_None. rewrite incident_length. lia.
  - intros i nd E. rewrite (B9 i _ (A8 i nd E)). destruct nd; reflexivity.
Qed.

(** The filled partition is still fresh (no node assigned). *)
Lemma EdgeList_fresh es p N normalize adj p' : no_loops es -> in_range N es -> length (pnodes p) = N -> fresh p ->
  EdgeListToAdjaArray es (CreateAdjaArray N (length es)) p normalize = Ok (adj, p') -> fresh p'.
Proof.
  intros NL IR HN F E. destruct (EdgeListToAdjaArray_spec es p N normalize NL IR HN) as
   (adj2 & p2 & E2 & _ & _ & _ & B4 & B5 & B6 & B7 & B8 & B9). rewrite E in E2. injection E2 as <- <-.
  destruct F as [F1 F2 F3 F4 F5]. constructor.
  - congruence.
  - congruence.
  - intros i nd En. apply nth_lt in En as Hl. destruct (nth_ex (pnodes p) i) as [nd0 E0]; [lia|].
    rewrite (B9 i nd0 E0) in En. injection En as <-. cbn. apply (F3 i); auto.
  - intros m md Em. rewrite B7 in Em. apply F4; auto.
  - congruence.
Qed.

End EL.
