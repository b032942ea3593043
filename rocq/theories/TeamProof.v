(** TeamProof.v -- what BuildModularBipartiteNetwork builds. *)
From Coq Require Import List Arith ZArith Bool QArith Qcanon Qround Lia.
From Verif Require Import Base Num ListLib QcSum ToolsModel TeamModel.
Import ListNotations.
Local Open Scope nat_scope.

(** Either a result with the property, or the random numbers run out. *)
Definition fine {T} (P : T -> Prop) (r : res T) : Prop := match r with Ok x => P x | Err e => e = RngOut end.
Lemma fine_bind {T U} (P : T -> Prop) (R : U -> Prop) m f : fine P m -> (forall x, P x -> fine R (f x)) -> fine R (bind m f).
Proof. destruct m; cbn; auto. Qed.

(** The agents of module [c] are consecutive numbers. *)
Definition first_of (sizes : list nat) (c : nat) : nat := list_sum (firstn c sizes).
Definition belongs (sizes : list nat) (c t : nat) : bool := (first_of sizes c <=? t) && (t <? first_of sizes (S c)).

Lemma modules_length i sizes : length (modules_of i sizes) = list_sum sizes.
Proof. revert i; induction sizes as [|s l IH]; intros i; auto. cbn [modules_of]. rewrite app_length, repeat_length, IH. reflexivity. Qed.
Lemma starts_nth s sizes c z : nth_error sizes c = Some z -> nth_error (starts_of s sizes) c = Some (s + first_of sizes c).
Proof.
  revert s c; induction sizes as [|x l IH]; intros s [|c] H; try discriminate; cbn [starts_of nth_error].
  - unfold first_of. cbn. f_equal. lia.
  - rewrite (IH _ _ H). unfold first_of. f_equal. change (list_sum (firstn (S c) (x :: l))) with (x + list_sum (firstn c l)). lia.
Qed.
Lemma first_S sizes c z : nth_error sizes c = Some z -> first_of sizes (S c) = first_of sizes c + z.
Proof.
  revert c; induction sizes as [|x l IH]; intros [|c] H; try discriminate.
  - injection H as ->. unfold first_of. cbn. lia.
  - specialize (IH c H). unfold first_of in *. change (list_sum (firstn (S (S c)) (x :: l))) with (x + list_sum (firstn (S c) l)). change (list_sum (firstn (S c) (x :: l))) with (x + list_sum (firstn c l)). lia.
Qed.
Lemma first_le sizes c : first_of sizes c <= list_sum sizes.
Proof. unfold first_of. rewrite <- (firstn_skipn c sizes) at 2. rewrite list_sum_app. lia. Qed.
Lemma modules_nth i sizes t d : nth_error (modules_of i sizes) t = Some d <-> i <= d /\ d - i < length sizes /\ belongs sizes (d - i) t = true.
Proof.
  revert i t; induction sizes as [|x l IH]; intros i t; cbn [modules_of].
  - split; [destruct t; discriminate|intros (_ & H & _); cbn in H; lia].
  - assert (B : forall c, belongs (x :: l) (S c) t = true <-> x <= t /\ belongs l c (t - x) = true).
    { intros c. unfold belongs, first_of. change (list_sum (firstn (S c) (x :: l))) with (x + list_sum (firstn c l)). change (list_sum (firstn (S (S c)) (x :: l))) with (x + list_sum (firstn (S c) l)).
      rewrite !andb_true_iff, !Nat.leb_le, !Nat.ltb_lt. lia. }
    assert (B0 : belongs (x :: l) 0 t = true <-> t < x).
    { unfold belongs, first_of. cbn [firstn]. change (list_sum [x]) with (x + 0). change (list_sum []) with 0. rewrite andb_true_iff, Nat.leb_le, Nat.ltb_lt. lia. }
    destruct (Nat.lt_ge_cases t x) as [Ht|Ht].
    + rewrite nth_error_app1 by (rewrite repeat_length; auto). rewrite nth_error_repeat by auto. split.
      * intros [= <-]. rewrite Nat.sub_diag. splits; [lia|cbn; lia|now apply B0].
      * intros (H1 & H2 & H3). destruct (d - i) as [|c] eqn:E; [f_equal; lia|]. apply B in H3. lia.
    + rewrite nth_error_app2, repeat_length by (rewrite repeat_length; auto). rewrite IH. split.
      * intros (H1 & H2 & H3). splits; [lia|cbn [length]; lia|]. replace (d - i) with (S (d - (i + 1))) by lia. apply B. auto.
      * intros (H1 & H2 & H3). destruct (d - i) as [|c] eqn:E; [apply B0 in H3; lia|]. apply B in H3 as [_ H3]. cbn [length] in H2. replace (d - (i + 1)) with c by lia. splits; auto; lia.
Qed.
Lemma bounded_length l n : NoDup l -> Forall (fun t => t < n) l -> length l <= n.
Proof. intros N F. rewrite <- (seq_length n 0). apply NoDup_incl_length; auto. intros t Ht. apply in_seq. rewrite Forall_forall in F. specialize (F t Ht). lia. Qed.
Lemma existsb_In t l : existsb (Nat.eqb t) l = true <-> In t l.
Proof. rewrite existsb_exists. split; [intros (x & H & E); apply Nat.eqb_eq in E; now subst|]. intros H. exists t. split; auto. apply Nat.eqb_refl. Qed.

(** Numbers as the generator gives them. *)
Definition unit_number (u : Qc) : Prop := (0 <= u /\ u < 1)%Qc.

Section Exact.
Variables ex sq : Qc -> Qc.
#[local] Instance opsT : NumOps Qc := Qc_ops ex sq.

Lemma floor_between a b x : (Qc_of_nat a <= x)%Qc -> (x < Qc_of_nat b)%Qc -> a <= Z.to_nat (Qfloor (this x)) < b.
Proof.
  intros H1 H2. assert (Q : forall n, (this (Qc_of_nat n) == inject_Z (Z.of_nat n))%Q) by (intros n; unfold Qc_of_nat; cbn [this Q2Qc]; apply Qred_correct).
  assert (X1 : (Z.of_nat a <= Qfloor (this x))%Z). { rewrite <- (Qfloor_Z (Z.of_nat a)). apply Qfloor_resp_le. rewrite <- Q. exact H1. }
  assert (X2 : (Qfloor (this x) < Z.of_nat b)%Z). { rewrite Zlt_Qlt. eapply Qle_lt_trans; [apply Qfloor_le|]. rewrite <- Q. exact H2. }
  lia.
Qed.
Lemma floor_unit u n : unit_number u -> 0 < n -> nfloor (nmul u (nofnat n)) < n.
Proof.
  intros [H1 H2] Hn. pose proof (Qc_of_nat_pos n Hn) as P. apply (floor_between 0 n).
  - rewrite Qc_of_nat_0. cbn [nmul nofnat opsT Qc_ops]. replace 0%Qc with (0 * Qc_of_nat n)%Qc by ring. apply Qcmult_le_compat_r; auto. apply Qclt_le_weak; auto.
  - cbn [nmul nofnat opsT Qc_ops]. replace (Qc_of_nat n) with (1 * Qc_of_nat n)%Qc at 2 by ring. apply Qcmult_lt_compat_r; auto.
Qed.

Section Run.
Variable good : Qc -> Prop.
Hypothesis good_unit : forall u, good u -> unit_number u.
Variable sizes : list nat.
Hypothesis some_agents : 0 < list_sum sizes.

Lemma pick_agent_ok lo n agents ds : Forall good ds -> 0 < n -> lo + n <= list_sum sizes ->
  fine (fun '(t, ds') => lo <= t < lo + n /\ ~ In t agents /\ Forall good ds') (pick_agent (length (modules_of 0 sizes)) lo n agents ds).
Proof.
  intros G Hn Hl. induction ds as [|u ds IH]; [reflexivity|]. inversion G; subst. cbn [pick_agent]. pose proof (floor_unit u n (good_unit u H1) Hn) as F.
  destruct (Nat.ltb_spec (lo + nfloor (nmul u (nofnat n))) (length (modules_of 0 sizes))) as [L|L]; [|rewrite modules_length in L; lia].
  destruct (existsb _ agents) eqn:E; [now apply IH|]. cbn [fine]. splits; auto; try lia. intros X. apply existsb_In in X. congruence.
Qed.

(** What is known after [j] spots of a team of color [c]. *)
Definition inv (p : Qc) (c z j : nat) (st : list nat * nat * list Qc) : Prop :=
  let '(agents, n, ds) := st in
  length agents = j /\ NoDup agents /\ Forall (fun t => t < list_sum sizes) agents /\ n = length (filter (belongs sizes c) agents) /\ Forall good ds /\ ((1 <= p)%Qc -> n = Nat.min j z).
Lemma filter_one f (l : list nat) t : length (filter f (l ++ [t])) = length (filter f l) + if f t then 1 else 0.
Proof. rewrite filter_app, app_length. cbn [filter]. destruct (f t); reflexivity. Qed.
Lemma NoDup_snoc (l : list nat) t : NoDup l -> ~ In t l -> NoDup (l ++ [t]).
Proof. intros N H. induction l as [|a l IH]; cbn; [constructor; auto; constructor|]. inversion N; subst. constructor; [|apply IH; auto; intros X; apply H; now right]. rewrite in_app_iff. intros [X|[X|[]]]; auto. apply H. left. auto. Qed.
Lemma spot_ok p c z j st k : nth_error sizes c = Some z -> inv p c z j st -> fine (inv p c z (S j)) (spot sizes p (Some c) st k).
Proof.
  intros Hz. destruct st as [[agents n] ds]. intros (L & N & F & C & G & P). unfold spot. destruct ds as [|u ds]; [reflexivity|]. cbn [draw bind]. inversion G; subst x l.
  pose proof (first_S sizes c z Hz) as FS. pose proof (first_le sizes (S c)) as FL.
  assert (Hn : n <= z). { rewrite C, <- (seq_length z (first_of sizes c)). apply NoDup_incl_length; [now apply NoDup_filter|]. intros t Ht. apply filter_In in Ht as [_ Ht]. unfold belongs in Ht. rewrite andb_true_iff, Nat.leb_le, Nat.ltb_lt in Ht. apply in_seq. lia. }
  assert (OWN : n < z -> fine (inv p c z (S j)) (do lo <- get (starts_of 0 sizes) c; do (t, ds0) <- pick_agent (length (modules_of 0 sizes)) lo z agents ds; Ok (agents ++ [t], n + 1, ds0))).
  { intros Hlt. rewrite (get_ok _ _ _ (starts_nth 0 sizes c z Hz)). cbn [bind Nat.add]. eapply fine_bind; [apply pick_agent_ok; auto; lia|]. intros [t ds'] (T1 & T2 & T3). cbn [fine inv]. splits; auto.
    - rewrite app_length, L. cbn. lia.
    - now apply NoDup_snoc.
    - apply Forall_app. split; auto. constructor; auto. lia.
    - rewrite filter_one, <- C. replace (belongs sizes c t) with true; auto. symmetry. unfold belongs. rewrite andb_true_iff, Nat.leb_le, Nat.ltb_lt. lia.
    - intros Hp. specialize (P Hp). lia. }
  assert (ANY : ((1 <= p)%Qc -> n = z) -> fine (inv p c z (S j)) (do (t, ds0) <- pick_agent (length (modules_of 0 sizes)) 0 (length (modules_of 0 sizes)) agents ds; do c0 <- get (modules_of 0 sizes) t; Ok (agents ++ [t], if c0 =? c then n + 1 else n, ds0))).
  { intros Hf. rewrite modules_length at 2. eapply fine_bind; [apply pick_agent_ok; auto|]. intros [t ds'] (T1 & T2 & T3).
    destruct (nth_ex (modules_of 0 sizes) t) as [d Hd]; [rewrite modules_length; lia|]. rewrite (get_ok _ _ _ Hd). cbn [bind fine inv].
    assert (B : (d =? c) = belongs sizes c t).
    { destruct (belongs sizes c t) eqn:E.
      - assert (X : nth_error (modules_of 0 sizes) t = Some c). { apply modules_nth. rewrite Nat.sub_0_r. splits; auto; [lia|]. apply nth_error_Some. congruence. } apply Nat.eqb_eq. congruence.
      - apply Nat.eqb_neq. intros ->. apply modules_nth in Hd. rewrite Nat.sub_0_r in Hd. destruct Hd as (_ & _ & X). congruence. }
    splits; auto.
    - rewrite app_length, L. cbn. lia.
    - now apply NoDup_snoc.
    - apply Forall_app. split; auto. constructor; auto. lia.
    - rewrite filter_one, <- C, B. destruct (belongs sizes c t); lia.
    - intros Hp. specialize (P Hp). specialize (Hf Hp). rewrite B. destruct (belongs sizes c t) eqn:E; [|lia]. exfalso.
      assert (I : incl (seq (first_of sizes c) z) (filter (belongs sizes c) agents)).
      { apply NoDup_length_incl; [now apply NoDup_filter|rewrite seq_length; lia|]. intros y Hy. apply filter_In in Hy as [_ Hy]. unfold belongs in Hy. rewrite andb_true_iff, Nat.leb_le, Nat.ltb_lt in Hy. apply in_seq. lia. }
      apply T2. unfold belongs in E. rewrite andb_true_iff, Nat.leb_le, Nat.ltb_lt in E. assert (X : In t (seq (first_of sizes c) z)) by (apply in_seq; lia). apply I in X. apply filter_In in X. tauto. }
  cbn [nltb opsT Qc_ops]. destruct (Qc_ltb u p) eqn:E.
  - cbn [bind]. rewrite (get_ok _ _ _ Hz). cbn [bind]. destruct (Nat.ltb_spec n z) as [X|X]; cbn [bind]; [now apply OWN|]. apply ANY. lia.
  - cbn [bind]. apply ANY. intros Hp. apply Qc_ltb_false in E. destruct (good_unit u H1) as [_ X]. exfalso. apply (Qclt_not_le _ _ X). eapply Qcle_trans; eauto.
Qed.
Lemma spots_ok p c z m : nth_error sizes c = Some z -> forall ks j st, length ks = m -> inv p c z j st -> fine (inv p c z (j + m)) (foldM (spot sizes p (Some c)) st ks).
Proof.
  intros Hz. induction m as [|m IH]; intros [|k ks] j st Hk H; try discriminate.
  - cbn. now rewrite Nat.add_0_r.
  - cbn [foldM]. eapply fine_bind; [apply (spot_ok p c z j st k Hz H)|]. intros st' H'. replace (j + S m) with (S j + m) by lia. apply IH; auto.
Qed.

(** The color from the table of probabilities: the first one at which the sums reach the number drawn. *)
Lemma pick_color_ok dice cp : forall cum k, (cum < dice)%Qc -> (dice <= cum + Qsum (fun x => x) cp)%Qc ->
  exists c, pick_color dice cum cp k = Ok (Some (k + c)) /\ c < length cp.
Proof.
  induction cp as [|x cp IH]; intros cum k H1 H2.
  - exfalso. cbn [Qsum] in H2. apply (Qclt_not_le _ _ H1). replace (cum + 0)%Qc with cum in H2 by ring. exact H2.
  - cbn [pick_color]. cbn [nltb opsT Qc_ops]. replace (Qc_ltb cum dice) with true by (symmetry; now apply Qc_ltb_true). destruct (Qc_ltb (cum + x) dice) eqn:E.
    + apply Qc_ltb_true in E. destruct (IH (cum + x)%Qc (k + 1) E) as (c & Hc & Lc). { cbn [Qsum] in H2. replace (cum + x + Qsum (fun y => y) cp)%Qc with (cum + (x + Qsum (fun y => y) cp))%Qc by ring. exact H2. }
      exists (S c). cbn [nadd opsT Qc_ops]. split; [|cbn; lia]. replace (k + S c) with (k + 1 + c) by lia. exact Hc.
    + exists 0. split; [|cbn; lia]. destruct cp; cbn [pick_color nltb nadd opsT Qc_ops]; rewrite E; replace (k + 1) with (S k) by lia; now rewrite Nat.add_0_r.
Qed.
Variable col_prob : option (list Qc).
Definition colors_ok : Prop := match col_prob with None => True | Some cp => length cp = length sizes /\ (1 <= Qsum (fun x => x) cp)%Qc /\ forall u, good u -> (0 < u)%Qc end.
Hypothesis col : colors_ok.
Lemma color_ok ds : Forall good ds -> fine (fun '(c, ds') => (exists c', c = Some c' /\ c' < length sizes) /\ Forall good ds') (team_color (length sizes) col_prob ds).
Proof.
  intros G. destruct ds as [|u ds]; [reflexivity|]. inversion G; subst. unfold team_color. cbn [draw bind]. unfold colors_ok in col. destruct col_prob as [cp|].
  - destruct col as (L & S1 & Z). destruct (pick_color_ok u cp 0 0 (Z u H1)) as (c & Hc & Lc).
    { destruct (good_unit u H1) as [_ X]. apply Qclt_le_weak. eapply Qclt_le_trans; [exact X|]. replace (0 + Qsum (fun x => x) cp)%Qc with (Qsum (fun x => x) cp) by ring. exact S1. }
    cbn [n0 opsT Qc_ops]. replace (pick_color u 0%Qc cp 0) with (@Ok (option nat) (Some c)) by (symmetry; exact Hc). cbn [bind fine]. split; auto. exists c. split; auto. lia.
  - cbn [fine]. split; auto. eexists. split; [reflexivity|]. apply floor_unit; auto. destruct sizes; cbn in *; lia.
Qed.
Lemma geometric_fine p ds : Forall good ds -> fine (fun '(_, ds') => Forall good ds') (geometric_dist_val p ds).
Proof. induction ds as [|u ds IH]; intros G; [reflexivity|]. inversion G; subst. cbn [geometric_dist_val]. destruct (nltb p u); [|exact H2]. eapply fine_bind; [now apply IH|]. intros [v ds'] X. exact X. Qed.
Definition size_ok (mmin : option nat) (mmax m : nat) : Prop := match mmin with None => True | Some lo => lo <= mmax -> lo <= m <= mmax end.
Lemma size_fine mmin mmax gp ds : Forall good ds -> fine (fun '(m, ds') => size_ok mmin mmax m /\ Forall good ds') (team_size mmin mmax gp ds).
Proof.
  intros G. destruct mmin as [lo|]; cbn [team_size].
  - destruct (Nat.eqb_spec mmax lo) as [->|Ne]; [cbn; split; auto|]. destruct ds as [|u ds]; [reflexivity|]. inversion G; subst. cbn [draw bind fine size_ok]. split; auto. intros Hl. destruct (good_unit u H1) as [U1 U2].
    cbn [nfloor nadd nmul nsub nofnat opsT Qc_ops]. replace (mmax + 1) with (lo + (mmax + 1 - lo)) by lia. rewrite Qc_of_nat_add. set (d := mmax + 1 - lo). pose proof (Qc_of_nat_pos d ltac:(unfold d; lia)) as Pd.
    replace (u * (Qc_of_nat lo + Qc_of_nat d - Qc_of_nat lo) + Qc_of_nat lo)%Qc with (Qc_of_nat lo + u * Qc_of_nat d)%Qc by ring.
    assert (X : lo <= Z.to_nat (Qfloor (this (Qc_of_nat lo + u * Qc_of_nat d)%Qc)) < lo + d).
    { apply floor_between.
      - replace (Qc_of_nat lo) with (Qc_of_nat lo + 0)%Qc at 1 by ring. apply Qcplus_le_compat; [apply Qcle_refl|]. replace 0%Qc with (0 * Qc_of_nat d)%Qc by ring. apply Qcmult_le_compat_r; auto. now apply Qclt_le_weak.
      - rewrite Qc_of_nat_add. assert (Y : (u * Qc_of_nat d < Qc_of_nat d)%Qc). { replace (Qc_of_nat d) with (1 * Qc_of_nat d)%Qc at 2 by ring. apply Qcmult_lt_compat_r; auto. }
        apply -> Qclt_minus_iff in Y. apply <- Qclt_minus_iff. replace (Qc_of_nat lo + Qc_of_nat d + - (Qc_of_nat lo + u * Qc_of_nat d))%Qc with (Qc_of_nat d + - (u * Qc_of_nat d))%Qc by ring. exact Y. }
    assert (Dd : lo + d = mmax + 1) by (unfold d; lia). clearbody d. lia.
  - pose proof (geometric_fine gp ds G) as X. destruct (geometric_dist_val gp ds) as [[v ds']|e]; cbn in *; auto.
Qed.
Definition team_ok (mmin : option nat) (mmax : nat) (p : Qc) (t : team) : Prop :=
  exists c z, tcol t = Some c /\ nth_error sizes c = Some z /\ NoDup (tagents t) /\ Forall (fun a => a < list_sum sizes) (tagents t) /\ size_ok mmin mmax (length (tagents t)) /\
    ((1 <= p)%Qc -> length (filter (belongs sizes c) (tagents t)) = Nat.min (length (tagents t)) z).
Lemma one_team_ok mmin mmax gp p n st i : length (fst st) = n /\ Forall (team_ok mmin mmax p) (fst st) /\ Forall good (snd st) ->
  fine (fun st' => length (fst st') = S n /\ Forall (team_ok mmin mmax p) (fst st') /\ Forall good (snd st')) (one_team sizes col_prob mmin mmax gp p st i).
Proof.
  destruct st as [teams ds]. cbn [fst snd]. intros (L & F & G). unfold one_team. eapply fine_bind; [now apply color_ok|]. intros [c ds1] [(c' & -> & Lc) G1]. eapply fine_bind; [now apply size_fine|]. intros [m ds2] [Sm G2].
  destruct (nth_ex sizes c' Lc) as [z Hz]. eapply fine_bind.
  - apply (spots_ok p c' z m Hz (seq 0 m) 0); [apply seq_length|]. cbn [inv]. splits; auto; constructor.
  - intros [[agents k] ds3] (A1 & A2 & A3 & A4 & A5 & A6). cbn [fine fst snd]. splits; auto.
    + rewrite app_length, L. cbn. lia.
    + apply Forall_app. split; auto. constructor; [|constructor]. exists c', z. cbn [tcol tagents]. cbn in A1. rewrite A1. splits; auto. intros Hp. rewrite <- A4. now apply A6.
Qed.
Theorem Build_ok S2 mmin mmax gp p ds : Forall good ds ->
  fine (fun '(mods, teams, ds') => mods = modules_of 0 sizes /\ length teams = S2 /\ Forall (team_ok mmin mmax p) teams /\ Forall good ds') (BuildModularBipartiteNetwork sizes col_prob S2 mmin mmax gp p ds).
Proof.
  intros G. unfold BuildModularBipartiteNetwork.
  assert (X : forall l n st, length (fst st) = n /\ Forall (team_ok mmin mmax p) (fst st) /\ Forall good (snd st) ->
    fine (fun st' => length (fst st') = n + length l /\ Forall (team_ok mmin mmax p) (fst st') /\ Forall good (snd st')) (foldM (one_team sizes col_prob mmin mmax gp p) st l)).
  { induction l as [|i l IH]; intros n st H; cbn [foldM]; [cbn; now rewrite Nat.add_0_r|]. eapply fine_bind; [apply (one_team_ok mmin mmax gp p n st i H)|]. intros st' H'. cbn [length]. replace (n + S (length l)) with (S n + length l) by lia. now apply IH. }
  eapply fine_bind; [apply (X (seq 0 S2) 0 ([], ds)); cbn; auto|]. intros [teams ds'] (L & F & G'). cbn [fst snd] in *. rewrite seq_length in L. cbn. splits; auto.
Qed.
End Run.
End Exact.
