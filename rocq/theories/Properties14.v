(** Properties14.v -- the program netcarto from the text of its file to its report: C72 to C75. *)
From Coq Require Import Ascii String List Arith Lia Bool QArith Qcanon Permutation.
From Verif Require Import Base Num ListLib QcSum PartModel FillModel SAModel IoModel PartSpec AdjSpec ModSpec IoSpec SAProof RolesBounds Refute ProjModel ProjSpec
  NetcartoModel NetcartoSpec NetcartoProof NetcartoThms Properties13.
Import ListNotations.
Local Open Scope nat_scope.
Local Open Scope list_scope.

Section Exact.
Context (ex sq : Qc -> Qc).
#[local] Instance ops14 : NumOps Qc := Qc_ops ex sq.
Context (scan_lf : list ascii -> option Qc) (qsort : list (Edge Qc) -> list (Edge Qc)).
Implicit Types es : list (label * label * Qc).
Local Open Scope Qc_scope.

(** C72: a file of links and no partition file.  [G] groups all the labels; the numbers printed are those of [G] in the network of the
    file, and what is shown is [G]. *)
Theorem C72_links s0 past1 past2 o file lines es ds : obipartite o = false -> oinvert o = false -> oread o = None ->
  lines_of file lines -> Forall2 (line_holds scan_lf (oweighted o)) lines es -> (forall a b w, In (a, b, w) es -> (length a < 100)%nat /\ (length b < 100)%nat) ->
  es <> [] -> good_lines es -> Forall good_draw ds ->
  match netcarto scan_lf qsort s0 past1 past2 o file ds with
  | Ok r => exists G, cartography sq (fun x y => line_weight es x y / twice_total es) (fun x => label_weight es x / twice_total es) (numbered (words1 0 es)) (oroles o) G r
  | Err e => e = RngOut \/ e = UB_null
  end.
Proof. exact (netcarto_links ex sq scan_lf qsort s0 past1 past2 o file lines es ds). Qed.

(** ... and [G] is the partition returned by the annealing from the partition into single nodes (C42 says which one that is); the
    modularity printed is the energy it was recorded with. *)
Theorem C72_annealed s0 past1 past2 o file lines es ds r : obipartite o = false -> oinvert o = false -> oread o = None ->
  lines_of file lines -> Forall2 (line_holds scan_lf (oweighted o)) lines es -> (forall a b w, In (a, b, w) es -> (length a < 100)%nat /\ (length b < 100)%nat) ->
  es <> [] -> good_lines es -> Forall good_draw ds -> netcarto scan_lf qsort s0 past1 past2 o file ds = Ok r -> let L := numbered (words1 0 es) in
  exists p adj p1 best e ds' G, nc_input scan_lf qsort s0 past1 past2 o file = Ok (p, adj, L, length L) /\ AssignNodesToModules p [] = Ok (p1, []) /\ (forall i, (i < length L)%nat -> group p1 i = Some i) /\
    GeneralSA p1 adj (ofac o) (1 / Qc_of_nat (length L)) (Q2Qc (1 # Pos.pow 10 200)) (oTs o) (oproba o) 25 ds = Ok (Some best, Some e, ds') /\
    cartography sq (fun x y => line_weight es x y / twice_total es) (fun x => label_weight es x / twice_total es) L (oroles o) G r /\ rmod r = e /\
    (forall i j m m', (i < length L)%nat -> (j < length L)%nat -> In (nth i L [], m) G -> In (nth j L [], m') G -> (m = m' <-> group best i = group best j)).
Proof. exact (netcarto_links_annealed ex sq scan_lf qsort s0 past1 past2 o file lines es ds r). Qed.

(** C73: with a partition file, the program always answers and [G] is the partition of that file. *)
Theorem C73_read s0 past1 past2 o file lines es ds gl : obipartite o = false -> oinvert o = false -> oread o = Some (partition_text gl) ->
  lines_of file lines -> Forall2 (line_holds scan_lf (oweighted o)) lines es -> (forall a b w, In (a, b, w) es -> (length a < 100)%nat /\ (length b < 100)%nat) ->
  es <> [] -> good_lines es -> Permutation (concat gl) (numbered (words1 0 es)) -> (forall g, In g gl -> g <> []) ->
  exists r G, netcarto scan_lf qsort s0 past1 past2 o file ds = Ok r /\
    cartography sq (fun x y => line_weight es x y / twice_total es) (fun x => label_weight es x / twice_total es) (numbered (words1 0 es)) (oroles o) G r /\
    (forall x y m m', In (x, m) G -> In (y, m') G -> (m = m' <-> exists g, In g gl /\ In x g /\ In y g)).
Proof. exact (netcarto_links_file ex sq scan_lf qsort s0 past1 past2 o file lines es ds gl). Qed.
Theorem C73_read_rows z1 z2 o file lines es0 ds gl : sorts qsort -> obipartite o = true -> oread o = Some (partition_text gl) ->
  lines_of file lines -> Forall2 (line_holds scan_lf (oweighted o)) lines es0 -> (forall a b w, In (a, b, w) es0 -> (length a < 100)%nat /\ (length b < 100)%nat) ->
  es0 <> [] -> let es := actors_first o es0 in good_rows es -> let L := numbered (map (fun e => fst (fst e)) es) in
  ~ mates es (nth (enode1 z2) L []) (nth (enode2 z2) L []) -> Permutation (concat gl) L -> (forall g, In g gl -> g <> []) ->
  exists r G, netcarto scan_lf qsort (Some 0) (Some z1) (Some z2) o file ds = Ok r /\
    cartography sq (fun x y => mate_weight es x y / mates_norm es) (fun x => actor_total es x / Qsum snd es) L (oroles o) G r /\
    (forall x y m m', In (x, m) G -> In (y, m') G -> (m = m' <-> exists g, In g gl /\ In x g /\ In y g)).
Proof. intros HQ. exact (netcarto_rows_file ex sq scan_lf qsort HQ z1 z2 o file lines es0 ds gl). Qed.

(** C74: a file of actors and teams (with -t: of teams and actors). *)
Theorem C74_rows z1 z2 o file lines es0 ds : sorts qsort -> obipartite o = true -> oread o = None ->
  lines_of file lines -> Forall2 (line_holds scan_lf (oweighted o)) lines es0 -> (forall a b w, In (a, b, w) es0 -> (length a < 100)%nat /\ (length b < 100)%nat) ->
  es0 <> [] -> let es := actors_first o es0 in good_rows es -> let L := numbered (map (fun e => fst (fst e)) es) in
  ~ mates es (nth (enode1 z2) L []) (nth (enode2 z2) L []) -> Forall good_draw ds ->
  match netcarto scan_lf qsort (Some 0) (Some z1) (Some z2) o file ds with
  | Ok r => exists G, cartography sq (fun x y => mate_weight es x y / mates_norm es) (fun x => actor_total es x / Qsum snd es) L (oroles o) G r
  | Err e => e = RngOut \/ e = UB_null
  end.
Proof. intros HQ. exact (netcarto_rows ex sq scan_lf qsort HQ z1 z2 o file lines es0 ds). Qed.

Theorem C74_annealed z1 z2 o file lines es0 ds r : sorts qsort -> obipartite o = true -> oread o = None ->
  lines_of file lines -> Forall2 (line_holds scan_lf (oweighted o)) lines es0 -> (forall a b w, In (a, b, w) es0 -> (length a < 100)%nat /\ (length b < 100)%nat) ->
  es0 <> [] -> let es := actors_first o es0 in good_rows es -> let L := numbered (map (fun e => fst (fst e)) es) in
  ~ mates es (nth (enode1 z2) L []) (nth (enode2 z2) L []) -> Forall good_draw ds -> netcarto scan_lf qsort (Some 0) (Some z1) (Some z2) o file ds = Ok r ->
  exists p adj p1 best e ds' G, nc_input scan_lf qsort (Some 0) (Some z1) (Some z2) o file = Ok (p, adj, L, length L) /\ AssignNodesToModules p [] = Ok (p1, []) /\ (forall i, (i < length L)%nat -> group p1 i = Some i) /\
    GeneralSA p1 adj (ofac o) (1 / Qc_of_nat (length L)) (Q2Qc (1 # Pos.pow 10 200)) (oTs o) (oproba o) 25 ds = Ok (Some best, Some e, ds') /\
    cartography sq (fun x y => mate_weight es x y / mates_norm es) (fun x => actor_total es x / Qsum snd es) L (oroles o) G r /\ rmod r = e /\
    (forall i j m m', (i < length L)%nat -> (j < length L)%nat -> In (nth i L [], m) G -> In (nth j L [], m') G -> (m = m' <-> group best i = group best j)).
Proof. intros HQ. exact (netcarto_rows_annealed ex sq scan_lf qsort HQ z1 z2 o file lines es0 ds r). Qed.

(** C75: that unusable input is reported is false: a malformed line makes the program read values that were never written. *)
Theorem C75_malformed_refuted s0 past1 past2 o file lines l ds : lines_of file lines -> In l lines -> (forall e, ~ line_holds scan_lf (oweighted o) l e) ->
  (forall s w t, file = s ++ w ++ t -> word w -> (length w < 100)%nat) ->
  netcarto scan_lf qsort s0 past1 past2 o file ds = Err UB_uninit.
Proof. exact (netcarto_malformed ex sq scan_lf qsort s0 past1 past2 o file lines l ds). Qed.
End Exact.

(** ** Concrete cases *)
#[local] Instance ops14' : NumOps Qc := Qc_ops ex0 sq0.
Definition txt14 (s : string) : list ascii := list_ascii_of_string s.
Definition str14 (l : list ascii) : string := string_of_list_ascii l.
Definition nl14 : string := String "010" EmptyString.
Definition tb14 : string := String "009" EmptyString.
Definition lines14 : list (list ascii) := map (fun s => txt14 (s ++ nl14)%string) ["a b"; "b c"; "c d"]%string.
Definition file14 : list ascii := txt14 ("a b" ++ nl14 ++ "b c" ++ nl14 ++ "c d" ++ nl14)%string.
Definition es14 : list (label * label * Qc) := map (fun e => (txt14 (fst e), txt14 (snd e), 1%Qc)) [("a", "b"); ("b", "c"); ("c", "d")]%string.
Definition opt14 (bip inv roles : bool) (rd : option (list ascii)) : options Qc :=
  mkOpt false bip inv roles (qq (1 # 100)) (qq (1 # Pos.pow 10 120)) (qq 1) rd.
Definition draws14 : list Qc := map (fun k => let z := Z.of_nat k in qq (((z * z * 7 + z * 37 + 11) mod 101)%Z # 101)) (seq 0 400).
Definition none14 : list ascii -> option Qc := fun _ => None.
Definition show14 (r : res (report Qc)) := match r with
  | Ok r => Ok (this (rmod r), this (rdiag r), option_map (map (fun x => (str14 (t_label x), t_module x, this (t_z x), this (t_P x), t_role x))) (rtable r), option_map str14 (rtext r))
  | Err e => Err e end.

(** A line with two words of one character. *)
Lemma short14 a b : ~ blank a -> ~ blank b -> line_holds none14 false ([a] ++ [" "%char] ++ [b] ++ ["010"%char]) ([a], [b], 1%Qc).
Proof.
  intros Ha Hb. exists [], [" "%char], ["010"%char]. splits; auto; try discriminate.
  - intros c [].
  - split; [discriminate|]. intros c [<-|[]]; auto.
  - intros c [<-|[]]. unfold blank; simpl; auto 10.
  - split; [discriminate|]. intros c [<-|[]]; auto.
  - intros c t X. injection X as <- _. unfold blank; simpl; auto 10.
Qed.
Lemma es14_eq : es14 = [(["a"%char], ["b"%char], 1%Qc); (["b"%char], ["c"%char], 1%Qc); (["c"%char], ["d"%char], 1%Qc)].
Proof. reflexivity. Qed.
Example file14_lines : lines_of file14 lines14 /\ Forall2 (line_holds none14 false) lines14 es14 /\
  (forall a b w, In (a, b, w) es14 -> (length a < 100)%nat /\ (length b < 100)%nat) /\ es14 <> [] /\ good_lines es14 /\ Forall good_draw draws14.
Proof.
  rewrite es14_eq. splits.
  - exists lines14, []. splits; auto. intros l H. exists (removelast l). simpl in H. destruct H as [<-|[<-|[<-|[]]]]; split; try reflexivity; simpl; intuition congruence.
  - cbv [lines14 map txt14 list_ascii_of_string nl14 String.append fst snd app]. repeat (apply Forall2_cons; [refine (short14 _ _ _ _); unfold blank; simpl; intuition congruence|]); apply Forall2_nil.
  - intros a b w H. simpl in H. intuition (match goal with H : _ = _ |- _ => injection H as <- <- <- end; simpl; lia).
  - discriminate.
  - split.
    + intros a b w H. simpl in H. intuition (match goal with H : _ = _ |- _ => injection H as <- <- <- end; try discriminate; reflexivity).
    + intros l1 a b w l2 a' b' w' E H. destruct l1 as [|x1 [|x2 [|x3 l1]]]; cbn [app] in E; inversion E; subst; try (destruct l1; discriminate); simpl in H; intuition congruence.
  - apply Forall_forall. intros d Hd. unfold draws14 in Hd. apply in_map_iff in Hd as (k & <- & _). set (z := ((Z.of_nat k * Z.of_nat k * 7 + Z.of_nat k * 37 + 11) mod 101)%Z).
    assert (B : (0 <= (Z.of_nat k * Z.of_nat k * 7 + Z.of_nat k * 37 + 11) mod 101 < 101)%Z) by (apply Z.mod_pos_bound; lia).
    fold z in B. clearbody z. cbv zeta. apply good_draw_Qc; [unfold Qcle|unfold Qclt]; cbn [this qq Q2Qc]; rewrite ?Qred_correct; unfold Qle, Qlt; simpl; lia.
Qed.
Example run14_roles : show14 (netcarto none14 isort None None None (opt14 false false true None) file14 draws14) =
  Ok (4 # 9, 1 # 6, Some [("a"%string, 0%nat, 0, 0, 1%nat); ("b"%string, 0%nat, 0, 1 # 2, 2%nat); ("c"%string, 1%nat, 0, 1 # 2, 2%nat); ("d"%string, 1%nat, 0, 0, 1%nat)], None)%Q.
Proof. vm_compute. reflexivity. Qed.
Example run14_clusters : show14 (netcarto none14 isort None None None (opt14 false false false None) file14 draws14) =
  Ok ((4 # 9)%Q, (1 # 6)%Q, None, Some ("b" ++ tb14 ++ "a" ++ tb14 ++ nl14 ++ "d" ++ tb14 ++ "c" ++ tb14 ++ nl14)%string).
Proof. vm_compute. reflexivity. Qed.

(** A partition file. *)
Definition groups14 : list (list label) := map (map txt14) [["a"; "c"; "b"]; ["d"]]%string.
Example groups14_ok : Permutation (concat groups14) (numbered (words1 0 es14)) /\ (forall g, In g groups14 -> g <> []) /\
  partition_text groups14 = txt14 ("a" ++ tb14 ++ "c" ++ tb14 ++ "b" ++ nl14 ++ "d" ++ nl14)%string.
Proof.
  splits; [|intros g H; simpl in H; intuition (subst; discriminate)|reflexivity].
  apply NoDup_Permutation; [repeat (constructor; [simpl; intuition congruence|]); constructor|apply IoProof.numbered_NoDup|].
  intros x. vm_compute. tauto.
Qed.
Example run14_read : show14 (netcarto none14 isort None None None (opt14 false false false (Some (partition_text groups14))) file14 []) =
  Ok ((2 # 9)%Q, (-1 # 18)%Q, None, Some ("a" ++ tb14 ++ "c" ++ tb14 ++ "b" ++ tb14 ++ nl14 ++ "d" ++ tb14 ++ nl14)%string).
Proof. vm_compute. reflexivity. Qed.

(** Actors and teams. *)
Definition rows14 : list (label * label * Qc) :=
  map (fun e => (txt14 (fst e), txt14 (snd e), 1%Qc)) [("a", "X"); ("b", "X"); ("c", "Y"); ("b", "Z"); ("c", "Z"); ("d", "Y")]%string.
Definition films14 : list ascii := concat (map (fun e => fst (fst e) ++ " "%char :: snd (fst e) ++ ["010"%char]) rows14).
Definition past14 : Edge Qc := mkEdge 0 3 (qq 0).
Example rows14_good : good_rows (actors_first (opt14 true false false None) rows14) /\ good_rows (actors_first (opt14 true true false None) rows14).
Proof.
  split; split; try (repeat (constructor; [vm_compute; intuition congruence|]); constructor);
    intros a b w H; simpl in H; intuition (match goal with H : _ = _ |- _ => injection H as <- <- <- end; reflexivity).
Qed.
Definition labels14 (o : options Qc) : list label := numbered (map (fun e => fst (fst e)) (actors_first o rows14)).
Example rows14_past : let o := opt14 true false false None in
  ~ mates (actors_first o rows14) (nth (enode1 past14) (labels14 o) []) (nth (enode2 past14) (labels14 o) []).
Proof. intros o (t & v & w & H1 & H2). vm_compute in H1, H2. intuition congruence. Qed.
Example films14_lines : exists lines, lines_of films14 lines /\ Forall2 (line_holds none14 false) lines rows14.
Proof.
  exists (map (fun e => fst (fst e) ++ " "%char :: snd (fst e) ++ ["010"%char]) rows14). split.
  - eexists _, []. splits; [symmetry; apply app_nil_r|reflexivity| |auto]. intros l H. exists (removelast l). simpl in H.
    destruct H as [<-|[<-|[<-|[<-|[<-|[<-|[]]]]]]]; split; try reflexivity; simpl; intuition congruence.
  - cbv [lines14 rows14 map txt14 list_ascii_of_string nl14 String.append fst snd app]. repeat (apply Forall2_cons; [refine (short14 _ _ _ _); unfold blank; simpl; intuition congruence|]); apply Forall2_nil.
Qed.
Example run14_films : show14 (netcarto none14 isort (Some 0%Qc) (Some past14) (Some past14) (opt14 true false false None) films14 draws14) =
  Ok ((4 # 9)%Q, (1 # 6)%Q, None, Some ("b" ++ tb14 ++ "a" ++ tb14 ++ nl14 ++ "d" ++ tb14 ++ "c" ++ tb14 ++ nl14)%string).
Proof. vm_compute. reflexivity. Qed.
(** With -t the teams are grouped. *)
Example run14_teams : show14 (netcarto none14 isort (Some 0%Qc) (Some past14) (Some past14) (opt14 true true false (Some (partition_text (map (map txt14) [["X"; "Z"]; ["Y"]]%string)))) films14 []) =
  Ok ((5 # 18)%Q, (-1 # 18)%Q, None, Some ("X" ++ tb14 ++ "Z" ++ tb14 ++ nl14 ++ "Y" ++ tb14 ++ nl14)%string).
Proof. vm_compute. reflexivity. Qed.

(** C75: a file with a line of one word, and -t without -b: the six lines are taken for links between nodes numbered in two different
    ways.  The reported modularity of the grouping a b / c d is -1/18; that of the network of the lines, with labels of both
    columns, does not even have these four nodes only. *)
Example malformed14 : netcarto none14 isort None None None (opt14 false false false None) (txt14 ("a b" ++ nl14 ++ "c" ++ nl14)%string) draws14 = Err UB_uninit.
Proof. vm_compute. reflexivity. Qed.
Definition bad14 : list ascii := txt14 ("a b" ++ nl14 ++ "c" ++ nl14)%string.
Example malformed14_met : let lines := [txt14 ("a b" ++ nl14)%string; txt14 ("c" ++ nl14)%string] in
  lines_of bad14 lines /\ (forall e, ~ line_holds none14 false (txt14 ("c" ++ nl14)%string) e) /\ (forall s w t, bad14 = s ++ w ++ t -> word w -> (length w < 100)%nat).
Proof.
  intros lines. splits.
  - exists lines, []. splits; [symmetry; apply app_nil_r|reflexivity| |auto]. intros l H. exists (removelast l). simpl in H. destruct H as [<-|[<-|[]]]; split; try reflexivity; simpl; intuition congruence.
  - intros [[a b] w] (s1 & s2 & rest & E & _ & [Wa _] & N2 & _ & [Wb _] & _). apply (f_equal (@length ascii)) in E. rewrite !app_length in E.
    destruct a, b, s2; try congruence. cbn in E. lia.
  - intros s w t E _. apply (f_equal (@length ascii)) in E. rewrite !app_length in E. cbn in E. lia.
Qed.
Theorem C75_inverted_refuted : exists r, netcarto none14 isort (Some 0%Qc) (Some past14) (Some past14)
    (opt14 false true false (Some (partition_text (map (map txt14) [["a"; "b"]; ["c"; "d"]]%string)))) films14 [] = Ok r /\
  this (rmod r) = (-1 # 18)%Q /\ ~ incl (numbered (words1 0 rows14)) (map txt14 ["a"; "b"; "c"; "d"]%string) /\
  rtext r = Some (txt14 ("a" ++ tb14 ++ "b" ++ tb14 ++ nl14 ++ "c" ++ tb14 ++ "d" ++ tb14 ++ nl14)%string).
Proof.
  assert (R : match netcarto none14 isort (Some 0%Qc) (Some past14) (Some past14)
    (opt14 false true false (Some (partition_text (map (map txt14) [["a"; "b"]; ["c"; "d"]]%string)))) films14 [] with
    Ok r => this (rmod r) = (-1 # 18)%Q /\ rtext r = Some (txt14 ("a" ++ tb14 ++ "b" ++ tb14 ++ nl14 ++ "c" ++ tb14 ++ "d" ++ tb14 ++ nl14)%string) | Err _ => False end) by (vm_compute; split; reflexivity).
  destruct (netcarto none14 isort (Some 0%Qc) (Some past14) (Some past14) _ films14 []) as [r|]; [|destruct R]. exists r. destruct R as [R1 R2]. splits; auto.
  intros I. specialize (I (txt14 "X"%string)). assert (H : In (txt14 "X"%string) (numbered (words1 0 rows14))) by (vm_compute; auto 10). apply I in H. vm_compute in H. intuition congruence.
Qed.
(** -t without -b, first column with fewer words than the second: out of bounds. *)
Theorem C75_inverted_oob_refuted : netcarto none14 isort None None None (opt14 false true false None) (txt14 ("a X" ++ nl14 ++ "a Y" ++ nl14 ++ "a Z" ++ nl14)%string) draws14 = Err UB_oob.
Proof. vm_compute. reflexivity. Qed.

Print Assumptions C72_links.
Print Assumptions C72_annealed.
Print Assumptions C73_read.
Print Assumptions C73_read_rows.
Print Assumptions C74_rows.
Print Assumptions C74_annealed.
Print Assumptions C75_malformed_refuted.
Print Assumptions C75_inverted_refuted.
Print Assumptions C75_inverted_oob_refuted.
