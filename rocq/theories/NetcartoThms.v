(** NetcartoThms.v -- end-to-end theorems on netcarto. *)
From Coq Require Import List Arith Lia Bool QArith Qcanon Ascii Permutation.
From Verif Require Import Base Num ListLib QcSum PartModel FillModel SAModel IoModel PartSpec AdjSpec ModSpec PartInv FillProof IoSpec IoProof IoClust
  MergeProof GraphRand EnergyForm ExactProof EdgeListProof EdgeListExact CoreThms CoreExact SAProof RolesProof RolesBounds ProjModel ProjProof ProjSpec ProjExact
  NetcartoModel NetcartoSpec NetcartoProof.
Import ListNotations.
Local Open Scope nat_scope.

(** Two actors have a team in common. *)
Definition mates (es : list (label * label * Qc)) (x y : label) : Prop := exists t v w, In (x, t, v) es /\ In (y, t, w) es.
(** The lines of a file with the actor first. *)
Definition actors_first (o : options Qc) (es : list (label * label * Qc)) : list (label * label * Qc) :=
  map (fun e => if oinvert o then (snd (fst e), fst (fst e), snd e) else e) es.
(** The text of a partition file: one line per group, labels separated by tabulators. *)
Definition partition_text (gl : list (list label)) : list ascii :=
  concat (map (fun g => tab_joined g ++ ["010"%char]) gl).

Section Thms.
Local Open Scope Qc_scope.
Context (ex sq : Qc -> Qc).
Let opsT := Qc_ops ex sq.
Existing Instance opsT.
Context (scan_lf : list ascii -> option Qc) (qsort : list (Edge Qc) -> list (Edge Qc)).
Implicit Types (es : list (label * label * Qc)).

(** What the input stage has to deliver for the rest to work. *)
Definition delivers (lw : label -> label -> Qc) (lk : label -> Qc) (L : list label) (p : partition Qc) (adj : adja Qc) : Prop :=
  fresh p /\ pN p = length L /\ pM p = length L /\ (0 < length L)%nat /\ NoDup L /\
  adj_ok adj (length L) /\ sym_adj adj /\ sym_w adj /\ loop_free adj /\ simple_rows adj /\ (forall i, positive_row adj i) /\
  (forall i j, (i < length L)%nat -> (j < length L)%nat -> i <> j -> aw adj i j = lw (nth i L []) (nth j L [])) /\
  (forall i, (i < length L)%nat -> kk p i = lk (nth i L [])).

Lemma netcarto_from_input lw lk L p adj o file s0 past1 past2 ds : nc_input scan_lf qsort s0 past1 past2 o file = Ok (p, adj, L, length L) -> delivers lw lk L p adj ->
  oread o = None -> Forall good_draw ds ->
  match netcarto scan_lf qsort s0 past1 past2 o file ds with
  | Ok r => exists G, cartography sq lw lk L (oroles o) G r
  | Err e => e = RngOut \/ e = UB_null
  end.
Proof.
  intros EI (F & N & M & POS & ND & OK & SA & SW & LF & SR & PR & AW & KK) R HD. unfold netcarto. rewrite EI. cbn [bind].
  pose proof (nc_partition_anneal o p adj L (length L) ds R F N M POS OK SA HD) as H.
  destruct (nc_partition o p adj L (length L) ds) as [[q ds']|e]; cbn [bind]; auto. destruct H as (V & Nq & S & MM).
  destruct (nc_report_spec ex sq o q adj L lw lk) as (r & Er & C); auto; rewrite ?Nq; auto.
  - intros i Hi. rewrite <- KK by auto. unfold kk. now rewrite S.
  - match goal with |- match ?m with _ => _ end => replace m with (Ok r) end. exists (grouping q L). exact C.
Qed.

(** The partition reported is the one the annealing returns (empty modules removed), and the modularity printed is its energy. *)
Lemma netcarto_anneals lw lk L p adj o file s0 past1 past2 ds r : nc_input scan_lf qsort s0 past1 past2 o file = Ok (p, adj, L, length L) -> delivers lw lk L p adj ->
  oread o = None -> Forall good_draw ds -> netcarto scan_lf qsort s0 past1 past2 o file ds = Ok r ->
  exists p1 best e ds' G, AssignNodesToModules p [] = Ok (p1, []) /\ (forall i, (i < length L)%nat -> group p1 i = Some i) /\
    GeneralSA p1 adj (ofac o) (1 / Qc_of_nat (length L)) (Q2Qc (1 # Pos.pow 10 200)) (oTs o) (oproba o) 25 ds = Ok (Some best, Some e, ds') /\
    cartography sq lw lk L (oroles o) G r /\ rmod r = e /\
    (forall i j m m', (i < length L)%nat -> (j < length L)%nat -> In (nth i L [], m) G -> In (nth j L [], m') G -> (m = m' <-> group best i = group best j)).
Proof.
  intros EI (F & N & M & POS & ND & OK & SA & SW & LF & SR & PR & AW & KK) R HD. unfold netcarto. rewrite EI. cbn [bind]. unfold nc_partition. rewrite R.
  destruct (AssignNodes_singletons p [] F) as (p1 & E1 & W1 & N1 & M1 & G1 & S1 & H1); [congruence|]. rewrite E1. cbn [bind].
  assert (V1 : valid p1) by (eapply WF_valid; eauto).
  set (Ti := 1 / Qc_of_nat (length L)). set (Tf := Q2Qc (1 # Pos.pow 10 200)).
  pose proof (annealing_valid ex sq p1 adj (ofac o) Ti Tf (oTs o) (oproba o) 25 ds V1) as H.
  rewrite N1, M1, N, M in H. specialize (H OK SA POS (le_n _) HD).
  change (ndiv n1 (nofnat (length L))) with Ti. change (nofQ (1 # Pos.pow 10 200)) with Tf.
  destruct (GeneralSA p1 adj (ofac o) Ti Tf (oTs o) (oproba o) 25 ds) as [[[[b|] [e|]] ds']|e] eqn:EG; cbn [bind deref]; try contradiction; try discriminate.
  destruct H as (Vb & Nb & Mb & Sb & He).
  destruct (compress_spec b Vb) as (q & Eq & Vq & Nq & Mq & _ & Hq & Gq & Sq); [lia|]. rewrite Eq. cbn [bind]. intros Er.
  destruct (nc_report_spec ex sq o q adj L lw lk) as (r' & Er' & C); auto; rewrite ?Nq, ?Nb; auto.
  { intros i Hi. rewrite <- KK by auto. unfold kk. now rewrite Sq, Sb, S1. }
  assert (X : Ok r = Ok r') by (rewrite <- Er, <- Er'; reflexivity). injection X as <-.
  exists p1, b, e, ds', (grouping q L). splits; auto.
  - intros i Hi. apply G1. lia.
  - rewrite (ct_mod _ _ _ _ _ _ _ C).
    assert (KQ : forall i, (i < pN q)%nat -> kk q i = lk (nth i L [])). { intros i Hi. rewrite Nq, Nb in Hi. rewrite <- KK by auto. unfold kk. now rewrite Sq, Sb, S1. }
    assert (EM : mod_value lw lk (grouping q L) = modularity q adj). { apply (grouping_mod q adj L lw lk); auto; rewrite ?Nq, ?Nb; auto. }
    rewrite EM. destruct (compress_modularity b q adj Vb) as [-> _]; [lia|exact Eq|].
    destruct He as [_ ->]; auto.
    { apply (strengths_assign_singletons ex sq p [] p1 []); auto. congruence. }
    assert (Z : modularity p1 adj = 0).
    { unfold modularity. apply Qsum_0. intros i Hi. apply Qsum_0. intros j Hj. apply in_seq in Hi, Hj. unfold together. rewrite N1, N in *. rewrite !G1 by lia.
      destruct (Nat.eqb_spec i j) as [->|H]; cbn; auto. }
    rewrite Z. ring.
  - intros i j m m' Hi Hj Hx Hy. unfold grouping in Hx, Hy. apply in_map_iff in Hx as (i' & Ei & Hi'), Hy as (j' & Ej & Hj'). apply in_seq in Hi', Hj'. rewrite Nq, Nb in Hi', Hj'.
    injection Ei as Li <-. injection Ej as Lj <-. apply (proj1 (NoDup_nth L []) ND) in Li, Lj; try lia. subst i' j'.
    transitivity (group q i = group q j); [|apply Gq; lia]. rewrite !group_gof_any by (auto; lia). split; congruence.
Qed.

Fixpoint index_in (L : list label) (x : label) : nat := match L with [] => 0 | y :: L' => if eqb_label y x then 0 else S (index_in L' x) end.
Lemma index_in_nth L x : In x L -> nth (index_in L x) L [] = x /\ (index_in L x < length L)%nat.
Proof.
  induction L as [|y L IH]; intros H; [destruct H|]. cbn [index_in length]. destruct (eqb_label_spec y x) as [E|E]; [split; [exact E|lia]|].
  destruct H as [H|H]; [congruence|]. destruct (IH H). cbn [nth]. split; auto. lia.
Qed.

Lemma netcarto_from_file lw lk L p adj o file s0 past1 past2 ds gl : nc_input scan_lf qsort s0 past1 past2 o file = Ok (p, adj, L, length L) -> delivers lw lk L p adj ->
  oread o = Some (partition_text gl) -> (forall l, In l L -> cell_label l) -> Permutation (concat gl) L -> (forall g, In g gl -> g <> []) ->
  exists r G, netcarto scan_lf qsort s0 past1 past2 o file ds = Ok r /\ cartography sq lw lk L (oroles o) G r /\
    (forall x y m m', In (x, m) G -> In (y, m') G -> (m = m' <-> exists g, In g gl /\ In x g /\ In y g)).
Proof.
  intros EI (F & N & M & POS & ND & OK & SA & SW & LF & SR & PR & AW & KK) R CL HP NE. unfold netcarto. rewrite EI. cbn [bind].
  set (groups := map (map (index_in L)) gl).
  assert (HB : forall g x, In g gl -> In x g -> In x L). { intros g x Hg Hx. apply (Permutation_in _ HP). apply in_concat. eauto. }
  assert (BK : map (map (fun i => nth i L [])) groups = gl).
  { unfold groups. rewrite map_map. transitivity (map (fun g => g) gl); [|apply map_id]. apply map_ext_in. intros g Hg. rewrite map_map. transitivity (map (fun x => x) g); [|apply map_id]. apply map_ext_in. intros x Hx. apply index_in_nth. eauto. }
  assert (R' : oread o = Some (groups_text (fun i => nth i L []) groups)).
  { rewrite R. f_equal. unfold partition_text, groups_text. rewrite <- BK. rewrite map_map. reflexivity. }
  assert (CG : concat groups = map (index_in L) (concat gl)). { unfold groups. rewrite concat_map. reflexivity. }
  assert (HP' : Permutation (concat groups) (seq 0 (length L))).
  { rewrite CG, HP. replace (map (index_in L) L) with (seq 0 (length L)); auto. apply ListLib.nth_ext. intros i. rewrite nth_error_map. destruct (lt_dec i (length L)) as [Hi|Hi].
    - rewrite (nth_error_nth' (seq 0 (length L)) 0%nat), seq_nth by (rewrite ?seq_length; auto). rewrite (nth_error_nth' L []) by auto. cbn [option_map plus]. f_equal.
      destruct (index_in_nth L (nth i L [])) as [E1 E2]; [apply nth_In; auto|]. eapply NoDup_nth; eauto.
    - rewrite !(proj2 (nth_error_None _ _)); rewrite ?seq_length; auto; lia. }
  destruct (nc_partition_read o p adj L (length L) ds groups R' F N M POS ND eq_refl CL HP') as (q & Eq & V & Nq & S & MM & GR).
  { intros g Hg. unfold groups in Hg. apply in_map_iff in Hg as (g' & <- & Hg'). apply NE in Hg'. destruct g'; [congruence|discriminate]. }
  rewrite Eq. cbn [bind]. destruct (nc_report_spec ex sq o q adj L lw lk) as (r & Er & C); auto; rewrite ?Nq; auto.
  { intros i Hi. rewrite <- KK by auto. unfold kk. now rewrite S. }
  exists r, (grouping q L). split; [exact Er|]. split; [exact C|].
  intros x y m m' Hx Hy. unfold grouping in Hx, Hy. apply in_map_iff in Hx as (i & Ei & Hi), Hy as (j & Ej & Hj). apply in_seq in Hi, Hj. injection Ei as <- <-. injection Ej as <- <-. rewrite Nq in Hi, Hj.
  transitivity (group q i = group q j). { rewrite !group_gof_any by (auto; lia). split; congruence. } rewrite GR by lia. split.
  - intros (g & Hg & Hig & Hjg). exists (map (fun k => nth k L []) g). split; [rewrite <- BK; now apply in_map|]. split; apply (in_map (fun k => nth k L [])); auto.
  - intros (g & Hg & Hig & Hjg). exists (map (index_in L) g). split; [now apply in_map|].
    assert (X : forall k, (k < length L)%nat -> In (nth k L []) g -> In k (map (index_in L) g)).
    { intros k Hk Hin. apply in_map_iff. exists (nth k L []). split; auto. destruct (index_in_nth L (nth k L [])) as [E1 E2]; [apply nth_In; auto|]. eapply NoDup_nth; eauto. }
    split; apply X; auto; lia.
Qed.

(** *** Links *)
Lemma links_deliver s0 past1 past2 o file lines es : obipartite o = false -> oinvert o = false ->
  lines_of file lines -> Forall2 (line_holds scan_lf (oweighted o)) lines es -> (forall a b w, In (a, b, w) es -> (length a < 100)%nat /\ (length b < 100)%nat) ->
  es <> [] -> good_lines es -> let L := numbered (words1 0 es) in
  exists p adj, nc_input scan_lf qsort s0 past1 past2 o file = Ok (p, adj, L, length L) /\
    delivers (fun x y => line_weight es x y / twice_total es) (fun x => label_weight es x / twice_total es) L p adj.
Proof.
  intros OB OI HL HF Hlen NE GL L. destruct (nc_input_links ex sq scan_lf qsort s0 past1 past2 o file lines es) as (p & adj & E & H); auto.
  exists p, adj. split; [exact E|exact H].
Qed.
Theorem netcarto_links s0 past1 past2 o file lines es ds : obipartite o = false -> oinvert o = false -> oread o = None ->
  lines_of file lines -> Forall2 (line_holds scan_lf (oweighted o)) lines es -> (forall a b w, In (a, b, w) es -> (length a < 100)%nat /\ (length b < 100)%nat) ->
  es <> [] -> good_lines es -> Forall good_draw ds ->
  match netcarto scan_lf qsort s0 past1 past2 o file ds with
  | Ok r => exists G, cartography sq (fun x y => line_weight es x y / twice_total es) (fun x => label_weight es x / twice_total es) (numbered (words1 0 es)) (oroles o) G r
  | Err e => e = RngOut \/ e = UB_null
  end.
Proof.
  intros OB OI R HL HF Hlen NE GL HD. destruct (links_deliver s0 past1 past2 o file lines es OB OI HL HF Hlen NE GL) as (p & adj & E & D).
  eapply netcarto_from_input; eauto.
Qed.
Theorem netcarto_links_annealed s0 past1 past2 o file lines es ds r : obipartite o = false -> oinvert o = false -> oread o = None ->
  lines_of file lines -> Forall2 (line_holds scan_lf (oweighted o)) lines es -> (forall a b w, In (a, b, w) es -> (length a < 100)%nat /\ (length b < 100)%nat) ->
  es <> [] -> good_lines es -> Forall good_draw ds -> netcarto scan_lf qsort s0 past1 past2 o file ds = Ok r -> let L := numbered (words1 0 es) in
  exists p adj p1 best e ds' G, nc_input scan_lf qsort s0 past1 past2 o file = Ok (p, adj, L, length L) /\ AssignNodesToModules p [] = Ok (p1, []) /\ (forall i, (i < length L)%nat -> group p1 i = Some i) /\
    GeneralSA p1 adj (ofac o) (1 / Qc_of_nat (length L)) (Q2Qc (1 # Pos.pow 10 200)) (oTs o) (oproba o) 25 ds = Ok (Some best, Some e, ds') /\
    cartography sq (fun x y => line_weight es x y / twice_total es) (fun x => label_weight es x / twice_total es) L (oroles o) G r /\ rmod r = e /\
    (forall i j m m', (i < length L)%nat -> (j < length L)%nat -> In (nth i L [], m) G -> In (nth j L [], m') G -> (m = m' <-> group best i = group best j)).
Proof.
  intros OB OI R HL HF Hlen NE GL HD E L. destruct (links_deliver s0 past1 past2 o file lines es OB OI HL HF Hlen NE GL) as (p & adj & EI & D).
  destruct (netcarto_anneals _ _ _ _ _ o file s0 past1 past2 ds r EI D R HD E) as (p1 & b & e & ds' & G & H). exists p, adj, p1, b, e, ds', G. split; [exact EI|exact H].
Qed.
Lemma line_words weighted l e : line_holds scan_lf weighted l e -> word (fst (fst e)) /\ word (snd (fst e)).
Proof. destruct e as [[a b] w]. intros (s1 & s2 & rest & _ & _ & Wa & _ & _ & Wb & _). auto. Qed.
Lemma word_cell l : word l -> (length l < 100)%nat -> cell_label l.
Proof. intros [NE H] HL. unfold cell_label. splits; auto; intros X; apply H in X; apply X; compute; auto 10. Qed.
Lemma lines_cells bip lines es : Forall2 (line_holds scan_lf bip) lines es -> (forall a b w, In (a, b, w) es -> (length a < 100)%nat /\ (length b < 100)%nat) ->
  forall a b w, In (a, b, w) es -> cell_label a /\ cell_label b.
Proof.
  intros F HL a b w H. destruct (HL _ _ _ H) as [H1 H2]. destruct (Forall2_in_r _ _ _ _ F H) as (l & _ & Hl). apply line_words in Hl as [W1 W2]. split; apply word_cell; auto.
Qed.
Theorem netcarto_links_file s0 past1 past2 o file lines es ds gl : obipartite o = false -> oinvert o = false -> oread o = Some (partition_text gl) ->
  lines_of file lines -> Forall2 (line_holds scan_lf (oweighted o)) lines es -> (forall a b w, In (a, b, w) es -> (length a < 100)%nat /\ (length b < 100)%nat) ->
  es <> [] -> good_lines es -> Permutation (concat gl) (numbered (words1 0 es)) -> (forall g, In g gl -> g <> []) ->
  exists r G, netcarto scan_lf qsort s0 past1 past2 o file ds = Ok r /\
    cartography sq (fun x y => line_weight es x y / twice_total es) (fun x => label_weight es x / twice_total es) (numbered (words1 0 es)) (oroles o) G r /\
    (forall x y m m', In (x, m) G -> In (y, m') G -> (m = m' <-> exists g, In g gl /\ In x g /\ In y g)).
Proof.
  intros OB OI R HL HF Hlen NE GL HP NG. destruct (links_deliver s0 past1 past2 o file lines es OB OI HL HF Hlen NE GL) as (p & adj & E & D).
  eapply netcarto_from_file; eauto. intros l Hl. apply -> numbered_In in Hl. pose proof (lines_cells _ _ _ HF Hlen) as C. clear - Hl C.
  cbn [words1] in Hl. apply in_flat_map in Hl as ([[a b] w] & Hin & H). destruct (C _ _ _ Hin). destruct H as [<-|[<-|[]]]; auto.
Qed.

(** *** Actors and teams *)
Lemma oriented_first o es : oriented ((if true then 1 else 0) + (if oinvert o then 1 else 0)) es = actors_first o es.
Proof. unfold oriented, actors_first. apply map_ext. intros [[a b] w]. destruct (oinvert o); auto. Qed.
Hypothesis HQ : sorts qsort.
Lemma rows_deliver z1 z2 o file lines es0 : obipartite o = true ->
  lines_of file lines -> Forall2 (line_holds scan_lf (oweighted o)) lines es0 -> (forall a b w, In (a, b, w) es0 -> (length a < 100)%nat /\ (length b < 100)%nat) ->
  es0 <> [] -> let es := actors_first o es0 in good_rows es -> let L := numbered (map (fun e => fst (fst e)) es) in
  ~ mates es (nth (enode1 z2) L []) (nth (enode2 z2) L []) ->
  exists p adj, nc_input scan_lf qsort (Some 0) (Some z1) (Some z2) o file = Ok (p, adj, L, length L) /\
    delivers (fun x y => mate_weight es x y / mates_norm es) (fun x => actor_total es x / Qsum snd es) L p adj.
Proof.
  intros OB HL HF Hlen NE es [NDR POS] L HZ. set (bip := ((if true then 1 else 0) + (if oinvert o then 1 else 0))%nat).
  assert (B2 : (1 <= bip <= 2)%nat) by (unfold bip; destruct (oinvert o); simpl; lia).
  destruct (EdgeListFileInput_reads scan_lf (oweighted o) bip file lines es0 (proj2 B2) HL HF Hlen) as (inp & EI & D).
  destruct (edges_in_spec bip es0 inp D) as (ies & EE & F). pose proof (labels_in_spec bip es0 inp D) as EL.
  rewrite words1_oriented in EL, F by lia. rewrite words2_oriented in F by lia. pose proof (ds_N _ _ _ D) as DN. rewrite words1_oriented in DN by lia.
  replace (oriented bip es0) with es in * by (symmetry; apply oriented_first). fold L in EL, F, DN. set (L2 := numbered (map (fun e => snd (fst e)) es)) in *.
  assert (N1 : NoDup L) by apply numbered_NoDup. assert (N2 : NoDup L2) by apply numbered_NoDup.
  assert (ON : once ies) by (eapply stands_once; eauto).
  assert (POSL : (0 < length L)%nat).
  { assert (NE' : es <> []) by (unfold es, actors_first; destruct es0; [congruence|discriminate]).
    clearbody es. destruct es as [|[[a b] w] es']; [congruence|]. assert (In a L) as HI by (apply numbered_In; left; auto). clearbody L. destruct L; [destruct HI|simpl; lia]. }
  assert (AC : numN ies = length L).
  { rewrite numN_actors. apply actors_bound; auto.
    - intros a t w H. destruct (Forall2_in_l _ _ _ _ F H) as (l & _ & (S1 & _)). eapply nth_lt; eauto.
    - assert (In (nth (length L - 1) L []) (map (fun e => fst (fst e)) es)) as HI by (apply -> numbered_In; apply nth_In; fold L; lia).
      apply in_map_iff in HI as (l & El & Hl). destruct (Forall2_in_r _ _ _ _ F Hl) as ([[a t] w] & He & (S1 & _)). cbn [fst] in S1. rewrite El in S1.
      exists t, w. assert (X : (length L - 1)%nat = a); [|rewrite X; auto]. apply (proj1 (NoDup_nth_error L) N1); [lia|]. rewrite S1. apply nth_error_nth'. lia. }
  assert (POI : positive ies) by (eapply stands_positive; eauto).
  destruct (Project_exact ex sq qsort HQ ies z1 z2 ON) as (E & p & adj & EP & (OK & _) & (FR & PN & PM) & (SA & SW & LF & SR) & ADJ & AW & KK & _).
  { intros (t & v & w & H1 & H2). apply HZ. destruct (Forall2_in_l _ _ _ _ F H1) as ([[x1 t1] v1] & Hl1 & (A1 & A2 & A3)), (Forall2_in_l _ _ _ _ F H2) as ([[x2 t2] v2] & Hl2 & (B1 & B2' & B3)).
    cbn [fst snd] in *. exists t1, v1, v2. rewrite (nth_lab L _ _ A1), (nth_lab L _ _ B1). split; [exact Hl1|]. replace t1 with t2 by congruence. exact Hl2. }
  rewrite AC in *. exists p, adj. split.
  { unfold nc_input. rewrite OB. fold bip. unfold opsT in *. rewrite EI. cbn [bind]. rewrite EE. cbn [bind]. rewrite EL. cbn [bind negb].
    rewrite DN. match goal with |- bind ?m _ = _ => replace m with (Ok (E, p, adj)) end. reflexivity. }
  unfold delivers. splits; auto.
  - intros i j w H. rewrite <- (in_row_aw adj i j w SR H). assert (AD : adjacent adj i j) by (apply in_map_iff; exists (j, w); auto).
    apply ADJ in AD as [Hij SH]. rewrite AW by auto. apply Qc_div_pos; [apply co_weight_pos; auto|eapply norm1_pos; eauto].
  - intros i j Hi Hj Hij. rewrite AW by auto. rewrite (stands_mates L L2 ies es) by auto. rewrite (stands_norm1 L L2 ies es) by auto. reflexivity.
  - intros i Hi. rewrite KK by auto. rewrite (stands_actor L L2 ies es) by auto. rewrite (stands_norm2 L L2 ies es) by auto. reflexivity.
Qed.
Theorem netcarto_rows z1 z2 o file lines es0 ds : obipartite o = true -> oread o = None ->
  lines_of file lines -> Forall2 (line_holds scan_lf (oweighted o)) lines es0 -> (forall a b w, In (a, b, w) es0 -> (length a < 100)%nat /\ (length b < 100)%nat) ->
  es0 <> [] -> let es := actors_first o es0 in good_rows es -> let L := numbered (map (fun e => fst (fst e)) es) in
  ~ mates es (nth (enode1 z2) L []) (nth (enode2 z2) L []) -> Forall good_draw ds ->
  match netcarto scan_lf qsort (Some 0) (Some z1) (Some z2) o file ds with
  | Ok r => exists G, cartography sq (fun x y => mate_weight es x y / mates_norm es) (fun x => actor_total es x / Qsum snd es) L (oroles o) G r
  | Err e => e = RngOut \/ e = UB_null
  end.
Proof.
  intros OB R HL HF Hlen NE es GR L HZ HD. destruct (rows_deliver z1 z2 o file lines es0 OB HL HF Hlen NE GR HZ) as (p & adj & E & D).
  eapply netcarto_from_input; eauto.
Qed.
Theorem netcarto_rows_annealed z1 z2 o file lines es0 ds r : obipartite o = true -> oread o = None ->
  lines_of file lines -> Forall2 (line_holds scan_lf (oweighted o)) lines es0 -> (forall a b w, In (a, b, w) es0 -> (length a < 100)%nat /\ (length b < 100)%nat) ->
  es0 <> [] -> let es := actors_first o es0 in good_rows es -> let L := numbered (map (fun e => fst (fst e)) es) in
  ~ mates es (nth (enode1 z2) L []) (nth (enode2 z2) L []) -> Forall good_draw ds -> netcarto scan_lf qsort (Some 0) (Some z1) (Some z2) o file ds = Ok r ->
  exists p adj p1 best e ds' G, nc_input scan_lf qsort (Some 0) (Some z1) (Some z2) o file = Ok (p, adj, L, length L) /\ AssignNodesToModules p [] = Ok (p1, []) /\ (forall i, (i < length L)%nat -> group p1 i = Some i) /\
    GeneralSA p1 adj (ofac o) (1 / Qc_of_nat (length L)) (Q2Qc (1 # Pos.pow 10 200)) (oTs o) (oproba o) 25 ds = Ok (Some best, Some e, ds') /\
    cartography sq (fun x y => mate_weight es x y / mates_norm es) (fun x => actor_total es x / Qsum snd es) L (oroles o) G r /\ rmod r = e /\
    (forall i j m m', (i < length L)%nat -> (j < length L)%nat -> In (nth i L [], m) G -> In (nth j L [], m') G -> (m = m' <-> group best i = group best j)).
Proof.
  intros OB R HL HF Hlen NE es GR L HZ HD E. destruct (rows_deliver z1 z2 o file lines es0 OB HL HF Hlen NE GR HZ) as (p & adj & EI & D).
  destruct (netcarto_anneals _ _ _ _ _ o file _ _ _ ds r EI D R HD E) as (p1 & b & e & ds' & G & H). exists p, adj, p1, b, e, ds', G. split; [exact EI|exact H].
Qed.
Theorem netcarto_rows_file z1 z2 o file lines es0 ds gl : obipartite o = true -> oread o = Some (partition_text gl) ->
  lines_of file lines -> Forall2 (line_holds scan_lf (oweighted o)) lines es0 -> (forall a b w, In (a, b, w) es0 -> (length a < 100)%nat /\ (length b < 100)%nat) ->
  es0 <> [] -> let es := actors_first o es0 in good_rows es -> let L := numbered (map (fun e => fst (fst e)) es) in
  ~ mates es (nth (enode1 z2) L []) (nth (enode2 z2) L []) -> Permutation (concat gl) L -> (forall g, In g gl -> g <> []) ->
  exists r G, netcarto scan_lf qsort (Some 0) (Some z1) (Some z2) o file ds = Ok r /\
    cartography sq (fun x y => mate_weight es x y / mates_norm es) (fun x => actor_total es x / Qsum snd es) L (oroles o) G r /\
    (forall x y m m', In (x, m) G -> In (y, m') G -> (m = m' <-> exists g, In g gl /\ In x g /\ In y g)).
Proof.
  intros OB R HL HF Hlen NE es GR L HZ HP NG. destruct (rows_deliver z1 z2 o file lines es0 OB HL HF Hlen NE GR HZ) as (p & adj & E & D).
  eapply netcarto_from_file; eauto. intros l Hl. unfold L in Hl. apply -> numbered_In in Hl. pose proof (lines_cells _ _ _ HF Hlen) as C. clear - Hl C.
  unfold es, actors_first in Hl. rewrite map_map in Hl. apply in_map_iff in Hl as ([[a b] w] & <- & Hin). destruct (C _ _ _ Hin). destruct (oinvert o); auto.
Qed.

(** A malformed line is not reported: the program goes on with values it never read. *)
Theorem netcarto_malformed s0 past1 past2 o file lines l ds : lines_of file lines -> In l lines -> (forall e, ~ line_holds scan_lf (oweighted o) l e) ->
  (forall s w t, file = s ++ w ++ t -> word w -> (length w < 100)%nat) ->
  netcarto scan_lf qsort s0 past1 past2 o file ds = Err UB_uninit.
Proof.
  intros HL HI HN HW. unfold netcarto, nc_input. unfold opsT in *.
  rewrite (EdgeListFileInput_refuses scan_lf (oweighted o) ((if obipartite o then 1 else 0) + (if oinvert o then 1 else 0)) file lines l); auto.
  destruct (obipartite o), (oinvert o); simpl; lia.
Qed.
End Thms.
