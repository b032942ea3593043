(** Properties33.v -- random two-sided networks with modules (C174 to C178). *)
From Coq Require Import List Arith ZArith Bool QArith Qcanon Lia.
From Verif Require Import Base Num ListLib QcSum ToolsModel TeamModel TeamProof Refute.
Import ListNotations.
Local Open Scope nat_scope.

(** Agent [t] is in module [c]: the modules take consecutive numbers. *)
Definition agent_in (sizes : list nat) (c t : nat) : Prop := list_sum (firstn c sizes) <= t < list_sum (firstn (S c) sizes).
(** How many of the agents of a team are in module [c]. *)
Definition own (sizes : list nat) (c : nat) (l : list nat) : nat := length (filter (fun t => (list_sum (firstn c sizes) <=? t) && (t <? list_sum (firstn (S c) sizes))) l).
(** The numbers drawn are at least 0 and below 1; if colors are chosen from a table, the table has an entry for each module, its sum is at least 1, and 0 is not drawn. *)
Definition draws_ok (sizes : list nat) (col_prob : option (list Qc)) (ds : list Qc) : Prop :=
  match col_prob with
  | None => Forall (fun u => 0 <= u /\ u < 1)%Qc ds
  | Some cp => length cp = length sizes /\ (1 <= Qsum (fun x => x) cp)%Qc /\ Forall (fun u => 0 < u /\ u < 1)%Qc ds
  end.

Section Exact.
Variables ex sq : Qc -> Qc.
#[local] Instance ops33 : NumOps Qc := Qc_ops ex sq.

Lemma run_ok sizes col_prob S2 mmin mmax gp p ds : 0 < list_sum sizes -> draws_ok sizes col_prob ds ->
  fine (fun '(mods, teams, _) => mods = modules_of 0 sizes /\ length teams = S2 /\ Forall (team_ok sizes mmin mmax p) teams) (BuildModularBipartiteNetwork sizes col_prob S2 mmin mmax gp p ds).
Proof.
  intros Hs Hd.
  assert (X : exists good : Qc -> Prop, (forall u, good u -> unit_number u) /\ colors_ok good sizes col_prob /\ Forall good ds).
  { destruct col_prob as [cp|]; cbn in Hd.
    - destruct Hd as (L & S1 & F). exists (fun u => 0 < u /\ u < 1)%Qc. splits; auto; [intros u [H1 H2]; split; auto; now apply Qclt_le_weak|]. cbn. splits; auto. intros u [H _]. exact H.
    - exists unit_number. splits; auto. exact I. }
  destruct X as (good & H1 & H2 & H3). pose proof (Build_ok ex sq good H1 sizes Hs col_prob H2 S2 mmin mmax gp p ds H3) as B.
  match goal with |- fine _ ?r => destruct r as [[[mods teams] rest]|e] eqn:E end; match type of B with fine _ ?r => replace r with (BuildModularBipartiteNetwork sizes col_prob S2 mmin mmax gp p ds) in B by reflexivity end; rewrite E in B; cbn [fine] in *; tauto.
Qed.
(** C174: the run ends, or waits for more random numbers; it does not leave its arrays.  At the end agents are in their modules, there are S2 teams, each with a color and with different agents, and with a size between mmin and mmax. *)
Theorem C174_teams sizes col_prob S2 mmin mmax gp p ds : 0 < list_sum sizes -> draws_ok sizes col_prob ds ->
  match BuildModularBipartiteNetwork sizes col_prob S2 mmin mmax gp p ds with
  | Err e => e = RngOut
  | Ok (mods, teams, _) =>
      length mods = list_sum sizes /\ (forall t c, nth_error mods t = Some c <-> c < length sizes /\ agent_in sizes c t) /\
      length teams = S2 /\
      forall T, In T teams -> (exists c, tcol T = Some c /\ c < length sizes) /\ NoDup (tagents T) /\ (forall a, In a (tagents T) -> a < list_sum sizes) /\
        forall lo, mmin = Some lo -> lo <= mmax -> lo <= length (tagents T) <= mmax
  end.
Proof.
  intros Hs Hd. pose proof (run_ok sizes col_prob S2 mmin mmax gp p ds Hs Hd) as B. destruct (BuildModularBipartiteNetwork _ _ _ _ _ _ _ _) as [[[mods teams] rest]|e]; cbn [fine] in B; auto. destruct B as (-> & L & F).
  splits; auto.
  - apply modules_length.
  - intros t c. rewrite modules_nth, Nat.sub_0_r. unfold agent_in, belongs, first_of. rewrite andb_true_iff, Nat.leb_le, Nat.ltb_lt. split; [tauto|]. intros (H1 & H2). splits; auto; lia.
  - intros T HT. rewrite Forall_forall in F. destruct (F T HT) as (c & z & H1 & H2 & H3 & H4 & H5 & _). rewrite Forall_forall in H4. splits; auto.
    + exists c. split; auto. apply nth_error_Some. congruence.
    + intros lo -> Hl. exact (H5 Hl).
Qed.
(** C175: if p is at least 1, a team takes agents from the module of its color as long as there are any. *)
Theorem C175_own_color sizes col_prob S2 mmin mmax gp p ds mods teams rest T : 0 < list_sum sizes -> draws_ok sizes col_prob ds -> (1 <= p)%Qc ->
  BuildModularBipartiteNetwork sizes col_prob S2 mmin mmax gp p ds = Ok (mods, teams, rest) -> In T teams ->
  exists c z, tcol T = Some c /\ nth_error sizes c = Some z /\ own sizes c (tagents T) = Nat.min (length (tagents T)) z.
Proof.
  intros Hs Hd Hp E HT. pose proof (run_ok sizes col_prob S2 mmin mmax gp p ds Hs Hd) as B. rewrite E in B. cbn [fine] in B. destruct B as (_ & _ & F). rewrite Forall_forall in F. destruct (F T HT) as (c & z & H1 & H2 & _ & _ & _ & H6). exists c, z. split; [exact H1|]. split; [exact H2|exact (H6 Hp)].
Qed.
(** C176: the color from a table is the first one at which the sum of the entries reaches the number drawn. *)
Theorem C176_color nmod cp u ds c : team_color nmod (Some cp) (u :: ds) = Ok (Some c, ds) <->
  c < length cp /\ (u <= Qsum (fun x => x) (firstn (S c) cp))%Qc /\ forall k, k <= c -> (Qsum (fun x => x) (firstn k cp) < u)%Qc.
Proof.
  assert (X : forall cp cum k c, pick_color u cum cp k = Ok (Some c) <-> (k = S c /\ (u <= cum)%Qc) \/ (exists d, c = k + d /\ d < length cp /\ (u <= cum + Qsum (fun x => x) (firstn (S d) cp))%Qc /\ forall j, j <= d -> (cum + Qsum (fun x => x) (firstn j cp) < u)%Qc)).
  { clear. induction cp as [|x cp IH]; intros cum k c; cbn [pick_color]; cbn [nltb ops33 Qc_ops]; destruct (Qc_ltb cum u) eqn:E.
    - apply Qc_ltb_true in E. split; [discriminate|]. intros [[_ H]|(d & _ & H & _)]; [|cbn in H; lia]. exfalso. exact (Qclt_not_le _ _ E H).
    - apply Qc_ltb_false in E. split.
      + destruct k as [|k]; [discriminate|]. intros [= ->]. auto.
      + intros [[-> _]|(d & _ & H & _)]; [reflexivity|cbn in H; lia].
    - apply Qc_ltb_true in E. cbn [nadd ops33 Qc_ops]. etransitivity; [apply IH|]. split.
      + intros [[H1 H2]|(d & -> & H2 & H3 & H4)]; right.
        * exists 0. splits; [lia|cbn; lia|cbn [firstn Qsum]; replace (cum + (x + 0))%Qc with (cum + x)%Qc by ring; exact H2|]. intros [|j] Hj; [|lia]. cbn [firstn Qsum]. replace (cum + 0)%Qc with cum by ring. exact E.
        * exists (S d). splits; [lia|cbn; lia|change (firstn (S (S d)) (x :: cp)) with (x :: firstn (S d) cp); cbn [Qsum]; rewrite Qcplus_assoc; exact H3|]. intros [|j] Hj; [cbn [firstn Qsum]; replace (cum + 0)%Qc with cum by ring; exact E|]. cbn [firstn Qsum]. rewrite Qcplus_assoc. apply H4. lia.
      + intros [[_ H]|(d & -> & H2 & H3 & H4)]; [exfalso; exact (Qclt_not_le _ _ E H)|]. destruct d as [|d].
        * left. split; [lia|]. cbn [firstn Qsum] in H3. replace (cum + (x + 0))%Qc with (cum + x)%Qc in H3 by ring. exact H3.
        * right. exists d. cbn [length] in H2. splits; [lia|lia| |].
          -- change (firstn (S (S d)) (x :: cp)) with (x :: firstn (S d) cp) in H3. cbn [Qsum] in H3. rewrite Qcplus_assoc in H3. exact H3.
          -- intros j Hj. specialize (H4 (S j) ltac:(lia)). cbn [firstn Qsum] in H4. rewrite Qcplus_assoc in H4. exact H4.
    - apply Qc_ltb_false in E. split.
      + destruct k as [|k]; [discriminate|]. intros [= ->]. auto.
      + intros [[-> _]|(d & _ & _ & _ & H)]; [reflexivity|]. exfalso. specialize (H 0 ltac:(lia)). cbn [firstn Qsum] in H. replace (cum + 0)%Qc with cum in H by ring. exact (Qclt_not_le _ _ H E). }
  assert (R : team_color nmod (Some cp) (u :: ds) = Ok (Some c, ds) <-> pick_color u 0%Qc cp 0 = Ok (Some c)).
  { unfold team_color. cbn [draw bind]. cbn [n0 ops33 Qc_ops]. destruct (pick_color u 0%Qc cp 0); cbn [bind]; split; congruence. }
  rewrite R, X. split.
  - intros [[H _]|(d & -> & H2 & H3 & H4)]; [discriminate|]. cbn [Nat.add]. rewrite Qcplus_0_l in H3. splits; auto. intros k Hk. specialize (H4 k Hk). rewrite Qcplus_0_l in H4. exact H4.
  - intros (H1 & H2 & H3). right. exists c. rewrite Qcplus_0_l. splits; auto. intros j Hj. rewrite Qcplus_0_l. auto.
Qed.
(** C177: a team cannot be larger than the number of agents; the run then draws for ever. *)
Theorem C177_large_team_refuted sizes col_prob S2 lo mmax gp p ds : 0 < list_sum sizes -> draws_ok sizes col_prob ds -> list_sum sizes < lo <= mmax -> 0 < S2 ->
  BuildModularBipartiteNetwork sizes col_prob S2 (Some lo) mmax gp p ds = Err RngOut.
Proof.
  intros Hs Hd Hl H2. pose proof (run_ok sizes col_prob S2 (Some lo) mmax gp p ds Hs Hd) as B. destruct (BuildModularBipartiteNetwork _ _ _ _ _ _ _ _) as [[[mods teams] rest]|e]; cbn [fine] in B; [|now subst]. exfalso. destruct B as (_ & L & F).
  destruct teams as [|T teams]; [cbn in L; lia|]. inversion F as [|? ? HT _]; subst. destruct HT as (c & z & _ & _ & N & A & Z & _). cbn in Z. pose proof (bounded_length _ _ N A). lia.
Qed.
(** C178: with a table of probabilities the number 0 gives the color -1, and the size of module -1 is read. *)
Theorem C178_zero_refuted sizes cp S2 m gp p v ds : (v < p)%Qc -> 0 < m -> 0 < S2 ->
  team_color (length sizes) (Some cp) (0%Qc :: v :: ds) = Ok (None, v :: ds) /\
  BuildModularBipartiteNetwork sizes (Some cp) S2 (Some m) m gp p (0%Qc :: v :: ds) = Err UB_oob.
Proof.
  intros Hv Hm H2. assert (C : team_color (length sizes) (Some cp) (0%Qc :: v :: ds) = Ok (None, v :: ds)) by (destruct cp; reflexivity). split; auto.
  unfold BuildModularBipartiteNetwork. destruct S2 as [|n]; [lia|]. cbn [seq foldM]. unfold one_team at 1. rewrite C. cbn [bind team_size]. rewrite Nat.eqb_refl. cbn [bind]. destruct m as [|m]; [lia|]. cbn [seq foldM]. unfold spot at 1. cbn [draw bind]. cbn [nltb ops33 Qc_ops]. apply Qc_ltb_true in Hv. rewrite Hv. reflexivity.
Qed.
End Exact.

(** The hypotheses are met: two modules of two and three agents, one team of color 1 with three agents, and p = 1. *)
#[local] Instance opsE33 : NumOps Qc := Qc_ops ex0 sq0.
Definition h (a : Z) (b : positive) : Qc := Q2Qc (a # b).
Example team_met : draws_ok [2; 3] None [h 3 4; h 0 1; h 1 2; h 0 1; h 1 2; h 1 10; h 1 4; h 9 10] /\ 0 < list_sum [2; 3] /\
  match BuildModularBipartiteNetwork [2; 3] None 1 (Some 3) 3 (h 1 2) (h 1 1) [h 3 4; h 0 1; h 1 2; h 0 1; h 1 2; h 1 10; h 1 4; h 9 10] with
  | Ok (mods, teams, rest) => (mods, map tcol teams, map tagents teams, length rest) | Err _ => ([], [], [], 0) end = ([0; 0; 1; 1; 1], [Some 1], [[3; 2; 4]], 0).
Proof. split; [repeat constructor; vm_compute; discriminate || reflexivity|]. split; [cbn; lia|vm_compute; reflexivity]. Qed.
Example color_met : team_color 3 (Some [h 1 2; h 1 4; h 1 4]) [h 5 8] = Ok (Some 1, []) /\ draws_ok [1; 1; 1] (Some [h 1 2; h 1 4; h 1 4]) [h 5 8].
Proof. split; [vm_compute; reflexivity|]. cbn. splits; auto; [vm_compute; discriminate|]. repeat constructor; vm_compute; reflexivity. Qed.

Print Assumptions C174_teams.
Print Assumptions C175_own_color.
Print Assumptions C176_color.
Print Assumptions C177_large_team_refuted.
Print Assumptions C178_zero_refuted.
Print Assumptions team_met.
Print Assumptions color_met.
