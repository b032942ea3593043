(** Properties7.v -- partitions of a network as files and as wholes: C36, C39, C40, C48, C49. *)
From Coq Require Import List Arith ZArith Lia Bool QArith Qcanon.
From Coq Require Import Strings.Ascii.
From Verif Require Import Base Num ListLib NatSum QcSum IoModel IoSpec GraphModel GraphSpec GraphProof GroupModel GroupSpec GroupProof GroupExact
  ModulesModel ModulesSpec ModulesMap ModulesCopy ModulesEqui ModulesFile ModulesClass ModulesClusters Refute Properties4 Properties6.
Import ListNotations.
Local Open Scope nat_scope.

Section Generic.
Context {A : Type} {ops : NumOps A}.
Implicit Types (g : net A) (P : gpart A).

(** C36: any text whose words are groups of plain labels, each group closed by "///", is read as these groups. *)
Theorem C36_read gs b s : gs <> [] -> Forall (Forall plain) gs -> (forall c, In c b -> blank c) -> text (group_words gs) s ->
  exists P, FCreatePartition (b ++ s) = Ok P /\ names P = combine (seq 0 (length gs)) gs /\ (forall G, In G P -> psize G = Z.of_nat (length (pnodes G))).
Proof. intros H1 H2 H3 H4. exists (softs 0 gs). split; [exact (FCreatePartition_reads gs b s H1 H2 H3 H4)|split; [apply names_softs|apply softs_sizes]]. Qed.
(** C36: what FPrintPartition writes is such a text, and reading it back gives the non-empty groups, numbered anew. *)
Theorem C36_write P : (forall G, In G P -> psize G = Z.of_nat (length (pnodes G)) /\ Forall word (map llabel (pnodes G))) -> text (group_words (kept P)) (FPrintPartition P).
Proof. exact (FPrintPartition_text P). Qed.
Theorem C36_round_trip P : (forall G, In G P -> psize G = Z.of_nat (length (pnodes G)) /\ Forall plain (map llabel (pnodes G))) -> (exists G, In G P /\ pnodes G <> []) ->
  exists P', FCreatePartition (FPrintPartition P) = Ok P' /\ names P' = combine (seq 0 (length (kept P))) (kept P) /\ (forall G, In G P' -> psize G = Z.of_nat (length (pnodes G))).
Proof. exact (write_read P). Qed.
(** C36: a file whose last group is not closed is read for ever; a blank one leaves the first label uninitialised. *)
Theorem C36_unclosed_refuted gs w ls b s : Forall (Forall plain) gs -> Forall plain (w :: ls) -> (forall c, In c b -> blank c) -> text (group_words gs ++ w :: ls) s ->
  FCreatePartition (A := A) (b ++ s) = Err Diverge.
Proof. exact (FCreatePartition_open gs w ls b s). Qed.
Theorem C36_blank_refuted b : (forall c, In c b -> blank c) -> FCreatePartition (A := A) b = Err UB_uninit.
Proof. exact (FCreatePartition_blank b). Qed.

(** C40: ClustersPartition finds the connected components of any non-empty undirected network. *)
Theorem C40_components g : undirected g -> g <> [] ->
  exists g' P', ClustersPartition g = Ok (g', P') /\ undirected g' /\ same_net g g' /\ mapped g' P' /\ covering (length g) (abs P') /\ map plabel P' = seq 0 (length P') /\
    (forall G, In G P' -> members G <> []) /\ (forall i j, i < length g -> j < length g -> (same_home (abs P') i j = true <-> reachable g i j)).
Proof. exact (ClustersPartition_spec g). Qed.
(** C40: without nodes it follows a null pointer. *)
Theorem C40_empty_refuted : ClustersPartition (@nil (gnode A)) = Err UB_null.
Proof. reflexivity. Qed.

(** C48: mapping a partition to a network by the labels of the nodes makes all counters right. *)
Theorem C48_map g P : undirected g -> nameable g P ->
  exists g' P', MapPartToNet (g, P) = Ok (g', P') /\ undirected g' /\ same_but_group g g' /\ mapped g' P' /\ names P' = names P.
Proof. exact (MapPartToNet_mapped g P). Qed.
(** C48: a copied partition counts inner links twice ... *)
Theorem C48_copy g P : undirected g -> mapped g P ->
  exists g' Q, CopyPartition g P = Ok (g', Q) /\ undirected g' /\ same_but_group g g' /\ abs Q = abs P /\ names Q = names P /\
    forall G, In G Q -> psize G = Z.of_nat (length (members G)) /\ pin G = Z.of_nat (2 * links_in g (members G)) /\ ptot G = Z.of_nat (links_out g (members G)) /\
      pout G = (Z.of_nat (links_out g (members G)) - Z.of_nat (2 * links_in g (members G)))%Z.
Proof. intros U M. destruct (CopyPartition_spec g P U M) as (g' & Q & E & U' & S & _ & EA & EN & _ & H). exists g', Q. auto 10. Qed.
(** ... until it is mapped again. *)
Theorem C48_copy_map g P : undirected g -> mapped g P -> NoDup (map glabel g) ->
  exists g' Q g'' Q', CopyPartition g P = Ok (g', Q) /\ MapPartToNet (g', Q) = Ok (g'', Q') /\ undirected g'' /\ same_but_group g g'' /\ mapped g'' Q' /\ abs Q' = abs P /\ names Q' = names P.
Proof. exact (Copy_then_map g P). Qed.

(** C49: groups of equal size, when one node more would fill the last group; otherwise a null pointer is followed. *)
Theorem C49_equal_groups g gsize : undirected g -> (forall i n, nth_error g i = Some n -> ggroup n = None) -> 0 < gsize ->
  if Nat.modulo (length g + 1) gsize =? 0 then
    exists g' P', CreateEquiNPartition g gsize = Ok (g', P') /\ undirected g' /\ same_but_group g g' /\ mapped g' P' /\
      (forall i, i < length g -> home (abs P') i = Some (Nat.div i gsize)) /\ (forall G, In G P' -> members G <> [])
  else CreateEquiNPartition g gsize = Err UB_null.
Proof. exact (CreateEquiN_spec g gsize). Qed.
Theorem C49_size_0 g : CreateEquiNPartition g 0 = Err DivZero.
Proof. reflexivity. Qed.
End Generic.

Section Exact.
Variables ex sq : Qc -> Qc.
#[local] Instance opsR : NumOps Qc := Qc_ops ex sq.

(** C39: the value for identical partitions is one half, and it is never more for partitions of equally many nodes. *)
Theorem C39_self_refuted (P : gpart Qc) n : 0 < n -> numbering n P -> CorrectlyClassified P P = Ok (Q2Qc (1 # 2)).
Proof. exact (classified_self_half ex sq P n). Qed.
Theorem C39_bound_refuted (ref act : gpart Qc) x : (forall G, In G ref -> psize G = Z.of_nat (length (pnodes G))) -> (forall G, In G act -> psize G = Z.of_nat (length (pnodes G))) ->
  length (flat_map pnodes ref) = length (flat_map pnodes act) -> 0 < length (flat_map pnodes act) -> CorrectlyClassified ref act = Ok x -> (x <= Q2Qc (1 # 2))%Qc.
Proof. exact (classified_half ex sq ref act x). Qed.
(** C48: the weighted counters after mapping. *)
Theorem C48_map_weights (g : net Qc) P : undirected g -> strengths_cached g -> nameable g P ->
  exists g' P', MapPartToNet (g, P) = Ok (g', P') /\ undirected g' /\ strengths_cached g' /\ same_but_group g g' /\ mapped g' P' /\ (forall G, In G P' -> weights_right g' G) /\ names P' = names P.
Proof. exact (MapPartToNet_weights ex sq g P). Qed.
End Exact.

(** * The hypotheses are met. *)
#[local] Instance opsF : NumOps Qc := Qc_ops ex0 sq0.
Definition file_ab : list ascii := ["a"; "b"; "010"; "c"; "010"; "/"; "/"; "/"; "010"; "d"; " "; "/"; "/"; "/"]%char.
Definition groups_ab : list (list (list ascii)) := [[["a"; "b"]; ["c"]]; [["d"]]]%char.
Ltac word_tac := split; [discriminate|]; intros ? H; cbn in H; unfold blank; cbn; intuition (subst; discriminate).
Example file_met : Forall (Forall plain) groups_ab /\ text (group_words groups_ab) file_ab /\ exists P, FCreatePartition (A := Qc) file_ab = Ok P /\ names P = [(0, [["a"; "b"]; ["c"]]); (1, [["d"]])]%char.
Proof.
  assert (B : forall c, In c ["010"%char] -> blank c) by (intros c [<-|[]]; cbn; auto). assert (B' : forall c, In c [" "%char] -> blank c) by (intros c [<-|[]]; cbn; auto).
  splits.
  - unfold groups_ab. repeat (apply Forall_cons || apply Forall_nil); (split; [word_tac|split; [discriminate|cbn; lia]]).
  - unfold group_words, groups_ab. cbn [flat_map app]. change file_ab with (["a"; "b"] ++ ["010"] ++ ["c"] ++ ["010"] ++ slashes ++ ["010"] ++ ["d"] ++ [" "] ++ slashes)%char.
    repeat (apply text_cons; [word_tac|discriminate|auto|]). apply text_last. word_tac.
  - eexists. split; vm_compute; reflexivity.
Qed.
Example unclosed_met : text (group_words [] ++ [["a"]]%char) ["a"%char] /\ FCreatePartition (A := Qc) ["a"%char] = Err Diverge.
Proof. split; [apply text_last; word_tac|vm_compute; reflexivity]. Qed.
(** A network of two components, mapped groups of it, a partition that can be named. *)
Example kite_components : exists g' P', ClustersPartition (kite (A := Qc)) = Ok (g', P') /\ abs P' = [(0, [0; 1; 2; 3]); (1, [4])].
Proof. do 2 eexists. split; vm_compute; reflexivity. Qed.
Lemma kite_labels : NoDup (map glabel (kite (A := Qc))).
Proof. vm_compute. repeat constructor; cbn; intuition discriminate. Qed.
Example nameable_met : exists P : gpart Qc, nameable kite P /\ abs P <> [] /\ exists g' P', MapPartToNet (kite, P) = Ok (g', P') /\ exists G, In G P' /\ pin G = 1%Z /\ ptot G = 3%Z.
Proof.
  exists (softs 0 [firstn 2 (map glabel (kite (A := Qc))); skipn 2 (map glabel (kite (A := Qc)))]). splits.
  - split; [exact kite_labels|vm_compute; repeat constructor; cbn; intuition discriminate| | |].
    + intros G l HG Hl. vm_compute in HG. repeat (destruct HG as [<-|HG]; [vm_compute in Hl; repeat (destruct Hl as [<-|Hl]; [vm_compute; auto 10|]); destruct Hl|]). destruct HG.
    + vm_compute. repeat constructor; cbn; intuition discriminate.
    + apply softs_sizes.
  - discriminate.
  - do 2 eexists. split; [vm_compute; reflexivity|]. eexists. splits; [right; left; reflexivity|vm_compute; reflexivity|vm_compute; reflexivity].
Qed.
Example copy_met : exists g P, undirected g /\ mapped (A := Qc) g P /\ NoDup (map glabel g) /\ length P = 2.
Proof.
  destruct kite_met as (g & P & _ & U & _ & M & _ & EA & _ & S). exists g, P. splits; auto.
  - assert (K : forall k h : net Qc, same_but_group k h -> map glabel k = map glabel h) by (intros k h R; induction R as [|n m l l2 [R _] _ IH]; auto; cbn [map]; now rewrite R, IH).
    rewrite <- (K _ _ S). exact kite_labels.
  - apply (f_equal (@length _)) in EA. unfold abs in EA. rewrite map_length in EA. exact EA.
Qed.
Example equal_met : exists g' P', CreateEquiNPartition (kite (A := Qc)) 3 = Ok (g', P') /\ abs P' = [(0, [0; 1; 2]); (1, [3; 4])] /\ CreateEquiNPartition (kite (A := Qc)) 4 = Err UB_null.
Proof. do 2 eexists. splits; vm_compute; reflexivity. Qed.
Definition numbered : gpart Qc :=
  [mkGroup 3 2 0 0 0 n0 n0 n0 [mkLink 1 [] 0 (Some 1) n0 n0; mkLink 4 [] 0 (Some 4) n0 n0];
   mkGroup 0 3 0 0 0 n0 n0 n0 [mkLink 0 [] 0 (Some 0) n0 n0; mkLink 3 [] 0 (Some 3) n0 n0; mkLink 2 [] 0 (Some 2) n0 n0]].
Example numbering_met : numbering 5 numbered /\ CorrectlyClassified numbered numbered = Ok (Q2Qc (1 # 2)).
Proof.
  assert (N : numbering 5 numbered).
  { split.
    - repeat constructor; cbn; intuition discriminate.
    - intros G [<-|[<-|[]]]; cbn; lia.
    - repeat constructor; cbn; intuition discriminate.
    - intros G l [<-|[<-|[]]] [<-|[<-|Hl]]; try (destruct Hl as [<-|Hl]; [|destruct Hl]); try destruct Hl; cbn; split; (lia || discriminate).
    - reflexivity.
    - intros G [<-|[<-|[]]]; reflexivity. }
  split; auto. apply (C39_self_refuted ex0 sq0 numbered 5); [lia|exact N].
Qed.

Print Assumptions C36_read.
Print Assumptions C36_write.
Print Assumptions C36_round_trip.
Print Assumptions C36_unclosed_refuted.
Print Assumptions C36_blank_refuted.
Print Assumptions C39_self_refuted.
Print Assumptions C39_bound_refuted.
Print Assumptions C40_components.
Print Assumptions C40_empty_refuted.
Print Assumptions C48_map.
Print Assumptions C48_map_weights.
Print Assumptions C48_copy.
Print Assumptions C48_copy_map.
Print Assumptions C49_equal_groups.
Print Assumptions C49_size_0.
