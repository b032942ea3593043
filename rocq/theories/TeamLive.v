(** TeamLive.v -- a run of BuildModularBipartiteNetwork can always be completed. *)
From Coq Require Import List Arith ZArith Bool QArith Qcanon Qround Lia.
From Verif Require Import Base Num ListLib QcSum ToolsModel TeamModel TeamProof.
Import ListNotations.
Local Open Scope nat_scope.

Lemma all_or_free (l agents : list nat) : incl l agents \/ exists t, In t l /\ ~ In t agents.
Proof.
  induction l as [|a l [IH|(t & H1 & H2)]]; [left; intros t []| |right; exists t; split; auto; now right].
  destruct (in_dec Nat.eq_dec a agents) as [H|H]; [|right; exists a; split; auto; now left]. left. intros t [->|Ht]; auto.
Qed.

Section Exact.
Variables ex sq : Qc -> Qc.
#[local] Instance opsL : NumOps Qc := Qc_ops ex sq.

(** Numbers that are drawn later do not change what has been done. *)
Lemma pick_agent_ext s1 lo n agents ds t rest e : pick_agent s1 lo n agents ds = Ok (t, rest) -> pick_agent s1 lo n agents (ds ++ e) = Ok (t, rest ++ e).
Proof. induction ds as [|u ds IH]; [discriminate|]. cbn [pick_agent app]. destruct (_ <? s1); [|discriminate]. destruct (existsb _ agents); auto. intros [= <- <-]. reflexivity. Qed.
Lemma spot_ext sizes p col a n ds k a' n' ds' e : spot sizes p col (a, n, ds) k = Ok (a', n', ds') -> spot sizes p col (a, n, ds ++ e) k = Ok (a', n', ds' ++ e).
Proof.
  unfold spot. destruct ds as [|u ds]; [discriminate|]. cbn [app draw bind]. match goal with |- context [bind (if nltb u p then ?x else ?y) _] => destruct (if nltb u p then x else y) as [[[c s]|]|er]; cbn [bind]; [| |discriminate] end.
  - destruct (get (starts_of 0 sizes) c) as [lo|er]; cbn [bind]; [|discriminate]. destruct (pick_agent _ lo s a ds) as [[t r]|er] eqn:E; cbn [bind]; [|discriminate]. rewrite (pick_agent_ext _ _ _ _ _ _ _ e E). cbn [bind]. intros H. assert (X : (a ++ [t], n + 1, r) = (a', n', ds')) by congruence. injection X as X1 X2 X3. subst. reflexivity.
  - destruct (pick_agent _ 0 _ a ds) as [[t r]|er] eqn:E; cbn [bind]; [|discriminate]. rewrite (pick_agent_ext _ _ _ _ _ _ _ e E). cbn [bind]. destruct (get (modules_of 0 sizes) t) as [c|er]; cbn [bind]; [|discriminate].
    set (n2 := if match col with Some c' => c =? c' | None => false end then n + 1 else n). intros H. assert (X : (a ++ [t], n2, r) = (a', n', ds')) by congruence. injection X as X1 X2 X3. subst. reflexivity.
Qed.
Lemma spots_ext sizes p col ks e : forall a n ds a' n' ds', foldM (spot sizes p col) (a, n, ds) ks = Ok (a', n', ds') -> foldM (spot sizes p col) (a, n, ds ++ e) ks = Ok (a', n', ds' ++ e).
Proof.
  induction ks as [|k ks IH]; intros a n ds a' n' ds'; cbn [foldM].
  - intros H. assert (X : (a, n, ds) = (a', n', ds')) by congruence. injection X as X1 X2 X3. now subst.
  - destruct (spot sizes p col (a, n, ds) k) as [[[a1 n1] ds1]|er] eqn:E; cbn [bind]; [|discriminate]. rewrite (spot_ext _ _ _ _ _ _ _ _ _ _ e E). cbn [bind]. apply IH.
Qed.
Lemma color_ext nmod cp ds c r e : team_color nmod cp ds = Ok (c, r) -> team_color nmod cp (ds ++ e) = Ok (c, r ++ e).
Proof.
  unfold team_color. destruct ds as [|u ds]; [discriminate|]. cbn [app draw bind]. destruct cp as [cp|].
  - destruct (pick_color u n0 cp 0); cbn [bind]; [|discriminate]. intros [= <- <-]. reflexivity.
  - intros H. set (x := Some (nfloor (nmul u (nofnat nmod)))) in *. assert (X : (x, ds) = (c, r)) by congruence. injection X as X1 X2. now subst.
Qed.
Lemma size_ext lo mmax gp ds m r e : team_size (Some lo) mmax gp ds = Ok (m, r) -> team_size (Some lo) mmax gp (ds ++ e) = Ok (m, r ++ e).
Proof.
  cbn [team_size]. destruct (mmax =? lo); [intros [= <- <-]; reflexivity|]. destruct ds as [|u ds]; [discriminate|]. cbn [app draw bind]. intros H. set (x := nfloor _) in *. assert (X : (x, ds) = (m, r)) by congruence. injection X as X1 X2. now subst.
Qed.
Lemma one_team_ext sizes cp lo mmax gp p ts ds i ts' ds' e : one_team sizes cp (Some lo) mmax gp p (ts, ds) i = Ok (ts', ds') -> one_team sizes cp (Some lo) mmax gp p (ts, ds ++ e) i = Ok (ts', ds' ++ e).
Proof.
  unfold one_team. destruct (team_color _ cp ds) as [[c d1]|er] eqn:E1; cbn [bind]; [|discriminate]. rewrite (color_ext _ _ _ _ _ e E1). cbn [bind].
  destruct (team_size (Some lo) mmax gp d1) as [[m d2]|er] eqn:E2; cbn [bind]; [|discriminate]. rewrite (size_ext _ _ _ _ _ _ e E2). cbn [bind].
  destruct (foldM (spot sizes p c) ([], 0, d2) (seq 0 m)) as [[[a n] d3]|er] eqn:E3; cbn [bind]; [|discriminate]. rewrite (spots_ext _ _ _ _ e _ _ _ _ _ _ E3). cbn [bind].
  intros H. assert (X : (ts ++ [mkTeam c a], d3) = (ts', ds')) by congruence. injection X as X1 X2. now subst.
Qed.

Section Run.
Variable good : Qc -> Prop.
Hypothesis good_unit : forall u, good u -> unit_number u.
Hypothesis good_inner : forall u, (0 < u)%Qc -> (u < 1)%Qc -> good u.
Variable sizes : list nat.
Hypothesis some_agents : 0 < list_sum sizes.

Definition half : Qc := Q2Qc (1 # 2).
Lemma half_good : good half.
Proof. apply good_inner; reflexivity. Qed.
(** A number that selects the [k]-th of [n]. *)
Lemma selector k n : k < n -> exists u, good u /\ nfloor (nmul u (nofnat n)) = k.
Proof.
  intros H. pose proof (Qc_of_nat_pos n ltac:(lia)) as Pn. assert (Nz : Qc_of_nat n <> 0%Qc) by (intros X; rewrite X in Pn; discriminate).
  set (u := ((Qc_of_nat k + half) / Qc_of_nat n)%Qc). assert (M : (u * Qc_of_nat n)%Qc = (Qc_of_nat k + half)%Qc) by (unfold u; field; auto).
  assert (B1 : (Qc_of_nat k <= Qc_of_nat k + half)%Qc). { replace (Qc_of_nat k) with (Qc_of_nat k + 0)%Qc at 1 by ring. apply Qcplus_le_compat; [apply Qcle_refl|]. vm_compute; discriminate. }
  assert (B2 : (Qc_of_nat k + half < Qc_of_nat (S k))%Qc). { rewrite Qc_of_nat_S. apply <- Qclt_minus_iff. replace (1 + Qc_of_nat k + - (Qc_of_nat k + half))%Qc with (1 - half)%Qc by ring. reflexivity. }
  assert (B0 : (0 < Qc_of_nat k + half)%Qc). { apply Qcle_lt_trans with (Qc_of_nat k); [apply Qc_of_nat_nonneg|]. apply <- Qclt_minus_iff. replace (Qc_of_nat k + half + - Qc_of_nat k)%Qc with half by ring. reflexivity. }
  exists u. split.
  - apply good_inner.
    + apply Qcnot_le_lt. intros X. apply (Qclt_not_le _ _ B0). rewrite <- M. replace 0%Qc with (0 * Qc_of_nat n)%Qc by ring. apply Qcmult_le_compat_r; auto. now apply Qclt_le_weak.
    + apply Qcnot_le_lt. intros X. assert (Y : (Qc_of_nat n <= Qc_of_nat k + half)%Qc). { rewrite <- M. replace (Qc_of_nat n) with (1 * Qc_of_nat n)%Qc at 1 by ring. apply Qcmult_le_compat_r; auto. now apply Qclt_le_weak. }
      apply (Qclt_not_le _ _ B2). eapply Qcle_trans; [|exact Y]. apply Qc_of_nat_le. lia.
  - cbn [nfloor nmul nofnat opsL Qc_ops]. rewrite M. pose proof (floor_between k (S k) _ B1 B2). lia.
Qed.
Lemma pick_agent_live lo n agents ds : Forall good ds -> 0 < n -> lo + n <= list_sum sizes -> (exists t, lo <= t < lo + n /\ ~ In t agents) ->
  exists e, Forall good e /\ exists t r, pick_agent (length (modules_of 0 sizes)) lo n agents (ds ++ e) = Ok (t, r).
Proof.
  intros G Hn Hl (t & Ht & Hf). induction ds as [|u ds IH].
  - destruct (selector (t - lo) n ltac:(lia)) as (u & Gu & Eu). exists [u]. split; [constructor; auto|]. exists t, []. cbn [app pick_agent]. replace (nfloor (nmul u (nofnat n))) with (t - lo) by (symmetry; exact Eu). replace (lo + (t - lo)) with t by lia.
    rewrite modules_length. destruct (Nat.ltb_spec t (list_sum sizes)); [|lia]. destruct (existsb (Nat.eqb t) agents) eqn:E; auto. apply existsb_In in E. tauto.
  - inversion G; subst. destruct (IH H2) as (e & Ge & t' & r & E). cbn [app pick_agent]. pose proof (floor_unit ex sq u n (good_unit u H1) Hn) as F. rewrite modules_length in *.
    destruct (Nat.ltb_spec (lo + nfloor (nmul u (nofnat n))) (list_sum sizes)) as [L|L]; [|exfalso; change (nfloor (nmul u (nofnat n)) < n) in F; lia].
    destruct (existsb _ agents); [exists e; split; auto; exists t', r; exact E|]. exists []. split; [constructor|]. eexists _, _. reflexivity.
Qed.
Lemma spot_live p c z j a n ds k : nth_error sizes c = Some z -> inv good sizes p c z j (a, n, ds) -> j < list_sum sizes ->
  exists e, Forall good e /\ exists st, spot sizes p (Some c) (a, n, ds ++ e) k = Ok st.
Proof.
  intros Hz (L & N & F & C & G & P) Hj. pose proof (first_S sizes c z Hz) as FS. pose proof (first_le sizes (S c)) as FL.
  assert (W : forall u ds, Forall good ds -> exists e, Forall good e /\ exists st, spot sizes p (Some c) (a, n, u :: ds ++ e) k = Ok st).
  { clear ds G. intros u ds G.
    assert (ANY : exists e, Forall good e /\ exists st, (do (t, ds0) <- pick_agent (length (modules_of 0 sizes)) 0 (length (modules_of 0 sizes)) a (ds ++ e); do c0 <- get (modules_of 0 sizes) t; Ok (a ++ [t], if c0 =? c then n + 1 else n, ds0)) = Ok st).
    { destruct (pick_agent_live 0 (list_sum sizes) a ds G some_agents ltac:(lia)) as (e & Ge & t & r & E).
      { destruct (all_or_free (seq 0 (list_sum sizes)) a) as [I|(t & H1 & H2)]; [|exists t; split; auto; apply in_seq in H1; lia]. exfalso. apply NoDup_incl_length in I; [|apply seq_NoDup]. rewrite seq_length in I. lia. }
      exists e. split; auto. assert (E' : pick_agent (length (modules_of 0 sizes)) 0 (length (modules_of 0 sizes)) a (ds ++ e) = Ok (t, r)) by (rewrite modules_length at 2; exact E). rewrite E'. cbn [bind].
      destruct (nth_error (modules_of 0 sizes) t) as [d|] eqn:Hd; [rewrite (get_ok _ _ _ Hd); cbn [bind]; eauto|]. exfalso. apply nth_error_None in Hd. rewrite modules_length in Hd.
      clear -E Hd. revert E. generalize (ds ++ e). intros l. induction l as [|v l IH]; [discriminate|]. cbn [pick_agent]. rewrite modules_length in *. destruct (Nat.ltb_spec (0 + nfloor (nmul v (nofnat (list_sum sizes)))) (list_sum sizes)); [|discriminate]. destruct (existsb _ a); auto. intros X. assert (Y : t = 0 + nfloor (nmul v (nofnat (list_sum sizes)))) by congruence. lia. }
    unfold spot. cbn [draw bind]. destruct (nltb u p).
    - cbn [bind]. rewrite (get_ok _ _ _ Hz). cbn [bind]. destruct (Nat.ltb_spec n z) as [X|X]; cbn [bind]; [|exact ANY].
      rewrite (get_ok _ _ _ (starts_nth 0 sizes c z Hz)). cbn [bind Nat.add].
      destruct (pick_agent_live (first_of sizes c) z a ds G ltac:(lia) ltac:(lia)) as (e & Ge & t & r & E).
      { destruct (all_or_free (seq (first_of sizes c) z) (filter (belongs sizes c) a)) as [I|(t & H1 & H2)].
        - exfalso. apply NoDup_incl_length in I; [|apply seq_NoDup]. rewrite seq_length in I. lia.
        - exists t. apply in_seq in H1. split; auto. intros Y. apply H2. apply filter_In. split; auto. unfold belongs. rewrite andb_true_iff, Nat.leb_le, Nat.ltb_lt. lia. }
      exists e. split; auto. rewrite E. cbn [bind]. eauto.
    - cbn [bind]. exact ANY. }
  destruct ds as [|u ds].
  - destruct (W half [] ltac:(constructor)) as (e & Ge & st & E). exists (half :: e). split; [constructor; auto; apply half_good|]. exists st. exact E.
  - inversion G; subst. destruct (W u ds H2) as (e & Ge & st & E). exists e. split; auto. exists st. exact E.
Qed.
Lemma spots_live p c z : nth_error sizes c = Some z -> forall ks j a n ds, inv good sizes p c z j (a, n, ds) -> j + length ks <= list_sum sizes ->
  exists e, Forall good e /\ exists a' n' ds', foldM (spot sizes p (Some c)) (a, n, ds ++ e) ks = Ok (a', n', ds') /\ Forall good ds'.
Proof.
  intros Hz. induction ks as [|k ks IH]; intros j a n ds H Hj.
  - exists []. split; [constructor|]. rewrite app_nil_r. exists a, n, ds. split; auto. apply H.
  - cbn [length] in Hj. destruct (spot_live p c z j a n ds k Hz H ltac:(lia)) as (e & Ge & [[a1 n1] d1] & E).
    assert (H' : inv good sizes p c z j (a, n, ds ++ e)). { destruct H as (h1 & h2 & h3 & h4 & h5 & h6). cbn. splits; auto. apply Forall_app. auto. }
    pose proof (spot_ok ex sq good good_unit sizes some_agents p c z j _ k Hz H') as F. assert (F' : inv good sizes p c z (S j) (a1, n1, d1)).
    { match type of F with fine _ ?r => replace r with (Ok (a1, n1, d1)) in F by (symmetry; first [exact E|reflexivity]) end. exact F. }
    destruct (IH (S j) a1 n1 d1 F' ltac:(lia)) as (e2 & Ge2 & a' & n' & ds' & E2 & G2). exists (e ++ e2). split; [apply Forall_app; auto|]. exists a', n', ds'. split; auto. cbn [foldM]. rewrite app_assoc. rewrite (spot_ext _ _ _ _ _ _ _ _ _ _ e2 E). cbn [bind]. exact E2.
Qed.
Variable col_prob : option (list Qc).
Hypothesis col : colors_ok good sizes col_prob.
Lemma one_team_live lo mmax gp p ts ds i : lo <= mmax <= list_sum sizes -> Forall good ds ->
  exists e, Forall good e /\ exists ts' ds', one_team sizes col_prob (Some lo) mmax gp p (ts, ds ++ e) i = Ok (ts', ds') /\ Forall good ds'.
Proof.
  intros Hm G.
  assert (C : forall ds, Forall good ds -> exists e, Forall good e /\ exists c z r, team_color (length sizes) col_prob (ds ++ e) = Ok (Some c, r) /\ nth_error sizes c = Some z /\ Forall good r).
  { clear ds G. intros ds G. set (e := [half]). exists e. assert (Ge : Forall good e) by (constructor; auto; apply half_good). split; auto.
    pose proof (color_ok ex sq good good_unit sizes some_agents col_prob col (ds ++ e) ltac:(apply Forall_app; auto)) as F.
    destruct (team_color (length sizes) col_prob (ds ++ e)) as [[c r]|er] eqn:E.
    - match type of F with fine _ ?x => replace x with (@Ok (option nat * list Qc) (c, r)) in F by (symmetry; first [exact E|reflexivity]) end. destruct F as [(c' & -> & Lc) Gr]. destruct (nth_ex sizes c' Lc) as [z Hz]. exists c', z, r. auto.
    - match type of F with fine _ ?x => replace x with (@Err (option nat * list Qc) er) in F by (symmetry; first [exact E|reflexivity]) end. cbn in F. subst er. exfalso. unfold team_color in E. destruct ds as [|u ds]; cbn [app draw bind e] in E; (destruct col_prob as [cp|]; [|discriminate]).
      + assert (X : forall cp cum k u, pick_color u cum cp k <> Err RngOut) by (clear; induction cp as [|x cp IH]; intros cum k u; cbn [pick_color]; destruct (nltb cum u); try discriminate; apply IH). specialize (X cp n0 0 half). destruct (pick_color half n0 cp 0); cbn [bind] in E; congruence.
      + assert (X : forall cp cum k u, pick_color u cum cp k <> Err RngOut) by (clear; induction cp as [|x cp IH]; intros cum k u; cbn [pick_color]; destruct (nltb cum u); try discriminate; apply IH). specialize (X cp n0 0 u). destruct (pick_color u n0 cp 0); cbn [bind] in E; congruence. }
  assert (Z : forall ds, Forall good ds -> exists e, Forall good e /\ exists m r, team_size (Some lo) mmax gp (ds ++ e) = Ok (m, r) /\ m <= mmax /\ Forall good r).
  { clear ds G. intros ds G. set (e := [half]). exists e. assert (Ge : Forall good e) by (constructor; auto; apply half_good). split; auto.
    pose proof (size_fine ex sq good good_unit sizes some_agents (Some lo) mmax gp (ds ++ e) ltac:(apply Forall_app; auto)) as F.
    destruct (team_size (Some lo) mmax gp (ds ++ e)) as [[m r]|er] eqn:E.
    - match type of F with fine _ ?x => replace x with (@Ok (nat * list Qc) (m, r)) in F by (symmetry; first [exact E|reflexivity]) end. destruct F as [Sm Gr]. cbn in Sm. exists m, r. splits; auto. apply Sm. lia.
    - exfalso. cbn [team_size] in E. destruct (mmax =? lo); [discriminate|]. destruct ds; discriminate. }
  destruct (C ds G) as (e1 & G1 & c & z & r1 & E1 & Hz & Gr1). destruct (Z r1 Gr1) as (e2 & G2 & m & r2 & E2 & Lm & Gr2).
  destruct (spots_live p c z Hz (seq 0 m) 0 [] 0 r2) as (e3 & G3 & a & n & r3 & E3 & Gr3); [cbn; splits; auto; constructor|rewrite seq_length; lia|].
  exists (e1 ++ e2 ++ e3). split; [repeat (apply Forall_app; split; auto)|]. exists (ts ++ [mkTeam (Some c) a]), r3. split; auto. unfold one_team. rewrite app_assoc. rewrite (color_ext _ _ _ _ _ (e2 ++ e3) E1). cbn [bind]. rewrite app_assoc. rewrite (size_ext _ _ _ _ _ _ e3 E2). cbn [bind]. rewrite E3. reflexivity.
Qed.
Theorem Build_live S2 lo mmax gp p ds : lo <= mmax <= list_sum sizes -> Forall good ds ->
  exists e, Forall good e /\ exists out, BuildModularBipartiteNetwork sizes col_prob S2 (Some lo) mmax gp p (ds ++ e) = Ok out.
Proof.
  intros Hm G.
  assert (X : forall l ts ds, Forall good ds -> exists e, Forall good e /\ exists ts' ds', foldM (one_team sizes col_prob (Some lo) mmax gp p) (ts, ds ++ e) l = Ok (ts', ds') /\ Forall good ds').
  { clear ds G. induction l as [|i l IH]; intros ts ds G.
    - exists []. split; [constructor|]. rewrite app_nil_r. exists ts, ds. auto.
    - destruct (one_team_live lo mmax gp p ts ds i Hm G) as (e1 & G1 & ts1 & d1 & E1 & Gd). destruct (IH ts1 d1 Gd) as (e2 & G2 & ts2 & d2 & E2 & Gd2). exists (e1 ++ e2). split; [apply Forall_app; auto|]. exists ts2, d2. split; auto. cbn [foldM]. rewrite app_assoc. rewrite (one_team_ext _ _ _ _ _ _ _ _ _ _ _ e2 E1). cbn [bind]. exact E2. }
  destruct (X (seq 0 S2) [] ds G) as (e & Ge & ts & d & E & _). exists e. split; auto. unfold BuildModularBipartiteNetwork. rewrite E. cbn [bind]. eauto.
Qed.
End Run.
End Exact.
