(** ModulesFile.v -- writing and reading partitions as text (C36). *)
From Coq Require Import List Arith Ascii ZArith Bool QArith Lia.
From Verif Require Import Base ListLib IoModel IoSpec IoProof GraphModel GraphSpec GroupModel GroupSpec ModulesModel ModulesSpec.
Import ListNotations.
Local Open Scope nat_scope.

Section Any.
Context {A : Type} {ops : NumOps A}.
Implicit Types (P Q : gpart A).

Lemma upd_last {X} (l : list X) x y : upd (l ++ [x]) (length l) y = l ++ [y].
Proof. induction l as [|z l IH]; [reflexivity|]. cbn [app length upd]. f_equal. exact IH. Qed.
Lemma word_blank w : word w -> forall c t, w = c :: t -> is_space c = false.
Proof. intros [_ H] c t ->. apply not_space_blank. apply H. simpl; auto. Qed.
Lemma text_head w ws s : text (w :: ws) s -> forall c t, s = c :: t -> is_space c = false.
Proof.
  intros H c t Es. assert (K : word w /\ exists r, s = w ++ r).
  { inversion H; subst; split; auto; [exists []; now rewrite app_nil_r|eexists; reflexivity]. }
  destruct K as [[K1 K2] [r Er]]. destruct w as [|x w]; [congruence|]. rewrite Er in Es. injection Es as -> _. apply not_space_blank, K2. simpl; auto.
Qed.
Lemma scan_text b w ws s : (forall c, In c b -> blank c) -> text (w :: ws) s -> exists s', scan_word (b ++ s) = Some (w, s') /\ text ws s' /\ length w + length s' <= length s.
Proof.
  intros Hb H. unfold scan_word. inversion H as [|w0 Hw|w0 b0 ws0 s0 Hw Hne Hb0 T]; subst.
  - exists []. rewrite <- (app_nil_r s) at 1. rewrite (scan_s_word b s []) by (auto; discriminate). simpl. splits; auto; [constructor|lia].
  - assert (HB : forall c t, b0 ++ s0 = c :: t -> blank c).
    { intros c t E. destruct b0 as [|x b0]; [congruence|]. injection E as -> _. apply Hb0. simpl; auto. }
    rewrite (scan_s_word b w (b0 ++ s0)) by auto. exists s0. rewrite span_app.
    + cbn [snd]. splits; auto. rewrite !app_length. lia.
    + intros c Hc. apply is_space_blank. auto.
    + intros c t E. destruct ws as [|w' ws]; [inversion T; subst; discriminate|]. eapply text_head; eauto.
Qed.
Lemma scan_blank b : (forall c, In c b -> blank c) -> scan_word b = None.
Proof.
  intros H. unfold scan_word, scan_s. rewrite <- (app_nil_r b). rewrite span_app; [reflexivity| |intros c t E; discriminate E]. intros c Hc. apply is_space_blank. auto.
Qed.
Lemma text_length ws s : text ws s -> length ws <= length s.
Proof.
  induction 1 as [|w [Hw _]|w b ws s [Hw _] Hb _ H IH]; [simpl; lia|destruct w; [congruence|simpl; lia]|]. destruct w; [congruence|]. simpl. rewrite !app_length. lia.
Qed.

Definition soft (k : nat) (ls : list label) : grp A :=
  mkGroup k (Z.of_nat (length ls)) 0 0 0 n0 n0 n0 (map (fun lab => mkLink 0 lab 0 None n0 n0) ls).
Lemma add_soft Q k ls lab : length lab < 100 -> AddNodeToGroupSoft (Q ++ [soft k ls]) (length Q) lab = Ok (Q ++ [soft k (ls ++ [lab])]).
Proof.
  intros Hl. unfold AddNodeToGroupSoft, store_label, max_label. rewrite (proj2 (Nat.ltb_lt _ _) Hl). cbn [check bind].
  rewrite (get_ok _ _ (soft k ls)) by (rewrite nth_error_app2, Nat.sub_diag by lia; reflexivity). cbn [bind]. rewrite set_ok by (rewrite app_length; simpl; lia). rewrite upd_last.
  unfold soft. cbn [psize plabel ptot pin pout ptotW pinW poutW pnodes]. rewrite map_app, app_length. do 4 f_equal. simpl. lia.
Qed.
Lemma sep_eq w : w <> slashes -> label_eqb w separator = false.
Proof. intros H. destruct (label_eqb w separator) eqn:E; auto. apply label_eqb_eq in E. contradiction. Qed.
Lemma sep_word : word slashes.
Proof. split; [discriminate|]. intros c [<-|[<-|[<-|[]]]]; apply not_space_blank; reflexivity. Qed.
Lemma store_ok w : length w < 100 -> store_label w = Ok w.
Proof. intros H. unfold store_label, max_label. now rewrite (proj2 (Nat.ltb_lt _ _) H). Qed.

(** One group: the first word [w] has been read. *)
Lemma read_group_ok Q k rest : forall w ls done s fuel, text (ls ++ slashes :: rest) s -> Forall plain (w :: ls) -> length s < fuel ->
  exists s', read_group fuel (Q ++ [soft k done]) (length Q) w s = Ok (Q ++ [soft k (done ++ w :: ls)], s') /\ text rest s' /\ length s' + 2 < length s.
Proof.
  intros w ls. revert w. induction ls as [|w' ls IH]; intros w done s fuel T HP Hf; inversion HP as [|? ? (Hw & Hs & Hl) HP']; subst; (destruct fuel as [|fuel]; [lia|]); cbn [read_group]; rewrite (sep_eq w Hs), add_soft by auto; cbn [bind].
  - cbn [app] in T. destruct (scan_text [] slashes rest s (fun c H => match H with end) T) as (s' & E & T' & L). cbn [app] in E. rewrite E. rewrite (store_ok slashes) by (simpl; lia). cbn [bind].
    destruct fuel as [|fuel]; [pose proof (text_length _ _ T) as K; simpl in K; lia|]. cbn [read_group]. cbn [label_eqb separator slashes]. exists s'. splits; auto. simpl in L. lia.
  - cbn [app] in T. destruct (scan_text [] w' (ls ++ slashes :: rest) s (fun c H => match H with end) T) as (s' & E & T' & L). cbn [app] in E. rewrite E.
    inversion HP' as [|? ? (Hw' & _ & Hl') _]; subst. rewrite (store_ok w') by auto. cbn [bind]. assert (1 <= length w') by (destruct Hw'; destruct w'; [congruence|simpl; lia]).
    destruct (IH w' (done ++ [w]) s' fuel T' HP') as (s2 & E2 & T2 & L2); [lia|]. exists s2. rewrite <- app_assoc in E2. splits; auto. lia.
Qed.
(** A group that is not closed. *)
Lemma read_group_open Q k : forall w ls done s fuel, text ls s -> Forall plain (w :: ls) -> read_group fuel (Q ++ [soft k done]) (length Q) w s = Err Diverge.
Proof.
  intros w ls. revert w. induction ls as [|w' ls IH]; intros w done s fuel T HP; inversion HP as [|? ? (Hw & Hs & Hl) HP']; subst; (destruct fuel as [|fuel]; [reflexivity|]); cbn [read_group]; rewrite (sep_eq w Hs), add_soft by auto; cbn [bind].
  - inversion T; subst. reflexivity.
  - destruct (scan_text [] w' ls s (fun c H => match H with end) T) as (s' & E & T' & L). cbn [app] in E. rewrite E.
    inversion HP' as [|? ? (Hw' & _ & Hl') _]; subst. rewrite (store_ok w') by auto. cbn [bind]. apply IH; auto.
Qed.
Definition softs (k : nat) (gs : list (list label)) : gpart A := map (fun '(k, ls) => soft k ls) (combine (seq k (length gs)) gs).
Lemma softs_cons k ls gs : softs k (ls :: gs) = soft k ls :: softs (k + 1) gs.
Proof. unfold softs. cbn [length seq combine map]. rewrite Nat.add_1_r. reflexivity. Qed.

Lemma read_ok gs : Forall (Forall plain) gs -> gs <> [] -> forall b s P fuel last, (forall c, In c b -> blank c) -> text (group_words gs) s -> length s < fuel ->
  read_partition fuel P (b ++ s) last = Ok (P ++ softs (length P) gs).
Proof.
  induction gs as [|ls gs IH]; intros HG Hne b s P fuel last Hb T Hf; [congruence|]. clear Hne. inversion HG as [|? ? Hls HG']; subst.
  destruct fuel as [|fuel]; [lia|]. cbn [read_partition CreateGroup]. change (mkGroup (length P) 0 0 0 0 n0 n0 n0 []) with (soft (length P) []).
  unfold group_words in T. cbn [flat_map] in T. fold (group_words gs) in T. rewrite <- app_assoc in T. cbn [app] in T.
  assert (FIN : exists s', (do (lab, s0) <- match scan_word (b ++ s) with Some (lab, s) => do lab <- store_label lab; Ok (lab, s) | None => match last with Some lab => Ok (lab, []) | None => Err UB_uninit end end;
     read_group (length s0 + 2) (P ++ [soft (length P) []]) (length P) lab s0) = Ok (P ++ [soft (length P) ls], s') /\ text (group_words gs) s' /\ length s' < length s).
  { destruct ls as [|w ls].
    - cbn [app] in T. destruct (scan_text b slashes _ s Hb T) as (s' & E & T' & L). rewrite E, (store_ok slashes) by (simpl; lia). cbn [bind]. rewrite Nat.add_comm. cbn [Nat.add read_group label_eqb separator slashes].
      exists s'. splits; auto. simpl in L. lia.
    - cbn [app] in T. destruct (scan_text b w _ s Hb T) as (s' & E & T' & L). inversion Hls as [|? ? (Hw & Hs & Hl) Hls']; subst. rewrite E, (store_ok w) by auto. cbn [bind].
      destruct (read_group_ok P (length P) (group_words gs) w ls [] s' (length s' + 2) T' Hls) as (s2 & E2 & T2 & L2); [lia|]. cbn [app] in E2. exists s2. splits; auto. lia. }
  destruct FIN as (s' & E & T' & L).
  match type of E with bind ?m ?f = _ => destruct m as [[lab s0]|] eqn:Em; cbn [bind] in E |- *; [|discriminate] end. rewrite E. cbn [bind].
  rewrite softs_cons. destruct gs as [|ls' gs].
  - cbn in T'. inversion T'; subst. unfold softs. reflexivity.
  - destruct s' as [|c s']; [pose proof (text_length _ _ T') as K; unfold group_words in K; cbn [flat_map] in K; rewrite !app_length in K; simpl in K; lia|].
    change (c :: s') with ([] ++ c :: s'). rewrite IH; auto; try discriminate; [|intros ? []|simpl in *; lia]. rewrite app_length. cbn [length]. rewrite <- app_assoc. reflexivity.
Qed.
Theorem FCreatePartition_reads gs b s : gs <> [] -> Forall (Forall plain) gs -> (forall c, In c b -> blank c) -> text (group_words gs) s ->
  FCreatePartition (b ++ s) = Ok (softs 0 gs).
Proof. intros Hne HG Hb T. unfold FCreatePartition. rewrite (read_ok gs HG Hne b s [] _ None Hb T); auto. rewrite app_length. lia. Qed.

(** A file whose last group is not closed: the reader never stops adding the last label. *)
Lemma read_open gs w ls : Forall (Forall plain) gs -> Forall plain (w :: ls) -> forall b s P fuel last, (forall c, In c b -> blank c) -> text (group_words gs ++ w :: ls) s ->
  read_partition fuel P (b ++ s) last = Err Diverge.
Proof.
  intros HG HW. induction gs as [|ls0 gs IH]; intros b s P fuel last Hb T; (destruct fuel as [|fuel]; [reflexivity|]); cbn [read_partition CreateGroup]; change (mkGroup (length P) 0 0 0 0 n0 n0 n0 []) with (soft (length P) []).
  - cbn [group_words flat_map app] in T. destruct (scan_text b w _ s Hb T) as (s' & E & T' & L). inversion HW as [|? ? (Hw & Hs & Hl) Hls']; subst. rewrite E, (store_ok w) by auto. cbn [bind].
    rewrite (read_group_open P (length P) w ls [] s' _ T' HW). reflexivity.
  - inversion HG as [|? ? Hls0 HG']; subst. unfold group_words in T. cbn [flat_map] in T. fold (group_words gs) in T. rewrite <- !app_assoc in T. cbn [app] in T.
    assert (FIN : exists s', (do (lab, s0) <- match scan_word (b ++ s) with Some (lab, s) => do lab <- store_label lab; Ok (lab, s) | None => match last with Some lab => Ok (lab, []) | None => Err UB_uninit end end;
       read_group (length s0 + 2) (P ++ [soft (length P) []]) (length P) lab s0) = Ok (P ++ [soft (length P) ls0], s') /\ text (group_words gs ++ w :: ls) s').
    { destruct ls0 as [|w0 ls0].
      - cbn [app] in T. destruct (scan_text b slashes _ s Hb T) as (s' & E & T' & L). rewrite E, (store_ok slashes) by (simpl; lia). cbn [bind]. rewrite Nat.add_comm. cbn [Nat.add read_group label_eqb separator slashes].
        exists s'. splits; auto.
      - cbn [app] in T. destruct (scan_text b w0 _ s Hb T) as (s' & E & T' & L). inversion Hls0 as [|? ? (Hw & Hs & Hl) Hls']; subst. rewrite E, (store_ok w0) by auto. cbn [bind].
        destruct (read_group_ok P (length P) (group_words gs ++ w :: ls) w0 ls0 [] s' (length s' + 2) T' Hls0) as (s2 & E2 & T2 & L2); [lia|]. cbn [app] in E2. exists s2. splits; auto. }
    destruct FIN as (s' & E & T').
    match type of E with bind ?m ?f = _ => destruct m as [[lab s0]|] eqn:Em; cbn [bind] in E |- *; [|discriminate] end. rewrite E. cbn [bind].
    destruct s' as [|c s']; [pose proof (text_length _ _ T') as K; rewrite app_length in K; simpl in K; lia|].
    change (c :: s') with ([] ++ c :: s'). apply IH; auto. intros ? [].
Qed.
Theorem FCreatePartition_open gs w ls b s : Forall (Forall plain) gs -> Forall plain (w :: ls) -> (forall c, In c b -> blank c) -> text (group_words gs ++ w :: ls) s ->
  FCreatePartition (A := A) (b ++ s) = Err Diverge.
Proof. intros. eapply read_open; eauto. Qed.
Theorem FCreatePartition_blank b : (forall c, In c b -> blank c) -> FCreatePartition (A := A) b = Err UB_uninit.
Proof. intros H. unfold FCreatePartition. rewrite Nat.add_comm. cbn [Nat.add read_partition CreateGroup]. rewrite scan_blank by auto. reflexivity. Qed.

(** Writing. *)
Lemma text_lines (ls : list label) r t : Forall word ls -> text r t -> text (ls ++ r) (flat_map (fun l => l ++ [nl]) ls ++ t).
Proof.
  induction 1 as [|w ls Hw HF IH]; intros T; [exact T|]. cbn [flat_map app]. rewrite <- !app_assoc. apply text_cons; auto; [discriminate|].
  intros c [<-|[]]. apply is_space_blank. reflexivity.
Qed.
Theorem FPrintPartition_text P : (forall G, In G P -> psize G = Z.of_nat (length (pnodes G)) /\ Forall word (map llabel (pnodes G))) ->
  text (group_words (kept P)) (FPrintPartition P).
Proof.
  induction P as [|G P IH]; intros H; [constructor|]. unfold FPrintPartition, kept. cbn [flat_map]. fold (FPrintPartition P). fold (kept P).
  destruct (H G) as [Hz Hw]; [simpl; auto|]. assert (T : text (group_words (kept P)) (FPrintPartition P)) by (apply IH; intros; apply H; simpl; auto).
  rewrite Hz. destruct (pnodes G) as [|x ns] eqn:En; [exact T|]. rewrite (proj2 (Z.ltb_lt 0 (Z.of_nat (length (x :: ns))))) by (simpl; lia).
  replace (flat_map (fun l : link A => llabel l ++ [nl]) (x :: ns)) with (flat_map (fun l => l ++ [nl]) (map llabel (x :: ns))) by (rewrite !flat_map_concat_map, map_map; reflexivity).
  generalize dependent (x :: ns). clear x ns. intros ns En Hz Hw. unfold group_words. cbn [flat_map app]. fold (group_words (kept P)). rewrite <- !app_assoc.
  apply text_lines; auto. cbn [app]. change separator with slashes. change (nl :: FPrintPartition P) with ([nl] ++ FPrintPartition P). 
  apply (text_cons slashes [nl]); auto; [apply sep_word|discriminate|]. intros c [<-|[]]. apply is_space_blank. reflexivity.
Qed.
Lemma names_softs gs : forall k, names (softs k gs) = combine (seq k (length gs)) gs.
Proof.
  induction gs as [|ls gs IH]; intros k; [reflexivity|]. rewrite softs_cons. cbn [names map length seq combine]. f_equal.
  - cbn [soft plabel pnodes]. rewrite map_map. cbn [llabel]. now rewrite map_id.
  - rewrite Nat.add_1_r. apply IH.
Qed.
Lemma softs_sizes gs : forall k G, In G (softs k gs) -> psize G = Z.of_nat (length (pnodes G)).
Proof.
  induction gs as [|ls gs IH]; intros k G; [intros []|]. rewrite softs_cons. intros [<-|HG]; [cbn; now rewrite map_length|eauto].
Qed.
Theorem write_read P : (forall G, In G P -> psize G = Z.of_nat (length (pnodes G)) /\ Forall plain (map llabel (pnodes G))) -> (exists G, In G P /\ pnodes G <> []) ->
  exists P', FCreatePartition (FPrintPartition P) = Ok P' /\ names P' = combine (seq 0 (length (kept P))) (kept P) /\ (forall G, In G P' -> psize G = Z.of_nat (length (pnodes G))).
Proof.
  intros H (G & HG & Hne). exists (softs 0 (kept P)). split; [|split; [apply names_softs|apply softs_sizes]].
  apply (FCreatePartition_reads (kept P) [] (FPrintPartition P)).
  - intros E. assert (K : In (map llabel (pnodes G)) (kept P)) by (unfold kept; apply in_flat_map; exists G; split; auto; destruct (pnodes G); [congruence|left; reflexivity]). rewrite E in K. destruct K.
  - apply Forall_forall. intros ls Hls. unfold kept in Hls. apply in_flat_map in Hls. destruct Hls as (G' & HG' & Hl). destruct (pnodes G') eqn:E; [destruct Hl|]. destruct Hl as [<-|[]]. rewrite <- E. apply H; auto.
  - intros c [].
  - apply FPrintPartition_text. intros G' HG'. destruct (H G' HG') as [K1 K2]. split; auto. eapply Forall_impl; [|exact K2]. intros w (K & _). exact K.
Qed.
End Any.
