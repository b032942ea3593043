(** Properties3.v -- text files and linked containers: C21 to C24. *)
From Coq Require Import String Ascii List Arith Lia Permutation QArith Qcanon.
From Verif Require Import Base Num PartModel FillModel ListLib PartSpec FillProof IoModel IoSpec IoProof IoClust DataModel DataProof Refute.
Import ListNotations.
Local Open Scope nat_scope.
Local Open Scope list_scope.

Section Generic.
Context {A : Type} {ops : NumOps A}.
Implicit Types p q : partition A.

(** C21: the full claim (the written text reads back to the same grouping) is false, for every partition. *)
Theorem C21_written_clusters_unreadable_refuted p q labels :
  valid p -> 0 < pN p -> pN p <= length labels -> NoDup labels -> Forall cell_label labels ->
  fresh q -> pN q = pN p -> 0 < pM q ->
  exists text, ClusteringOutput p labels = Ok text /\
    (AssignNodesToModulesFromFile text q labels = Err UB_oob \/ AssignNodesToModulesFromFile text q labels = Err Diverge) /\
    (pnempty p = 0 -> AssignNodesToModulesFromFile text q labels = Err UB_oob).
Proof. exact (clustering_unreadable p q labels). Qed.

(** C21, what holds: the text that the writer produces, and the reader on texts with single separators. *)
Theorem C21_groups_readable q labels lab groups : fresh q -> 0 < pN q -> length labels = pN q -> NoDup labels ->
  (forall i, i < pN q -> nth_error labels i = Some (lab i) /\ cell_label (lab i)) ->
  Permutation (concat groups) (seq 0 (pN q)) -> (forall g, In g groups -> g <> []) -> length groups <= pM q ->
  exists p', AssignNodesToModulesFromFile (groups_text lab groups) q labels = Ok (p', 0) /\ valid p' /\ pN p' = pN q /\
    pM p' = length groups /\
    (forall i j, i < pN q -> j < pN q -> (group p' i = group p' j <-> exists g, In g groups /\ In i g /\ In j g)) /\
    (forall i, strength p' i = strength q i).
Proof. exact (groups_readable q labels lab groups). Qed.

Variable scan_lf : list ascii -> option A.

(** C22: well-formed files. *)
Theorem C22_reads weighted bip file lines es : bip <= 2 -> lines_of file lines ->
  Forall2 (line_holds scan_lf weighted) lines es ->
  (forall a b w, In (a, b, w) es -> length a < 100 /\ length b < 100) ->
  exists inp, EdgeListFileInput scan_lf weighted bip file = Ok (Some inp) /\ describes bip es inp.
Proof. exact (EdgeListFileInput_reads scan_lf weighted bip file lines es). Qed.

(** C22: a file with a line that holds no edge is refused. *)
Theorem C22_refuses weighted bip file lines l : bip <= 2 -> lines_of file lines -> In l lines ->
  (forall e, ~ line_holds scan_lf weighted l e) ->
  (forall s w t, file = s ++ w ++ t -> word w -> length w < 100) ->
  EdgeListFileInput scan_lf weighted bip file = Ok None.
Proof. exact (EdgeListFileInput_refuses scan_lf weighted bip file lines l). Qed.

(** C22: what a successful reading means, for any file. *)
Theorem C22_sound weighted bip file inp : bip <= 2 -> EdgeListFileInput scan_lf weighted bip file = Ok (Some inp) ->
  exists lines es, lines_of file lines /\ Forall2 (line_holds scan_lf weighted) lines es /\ describes bip es inp.
Proof. intros Hb E. pose proof (EdgeListFileInput_total scan_lf weighted bip file Hb) as T. rewrite E in T. exact T. Qed.

(** The numbering used by [describes]: the labels without repetition. *)
Theorem C22_numbered_nodup l : NoDup (numbered l) /\ forall x, In x (numbered l) <-> In x l.
Proof.
  unfold numbered. induction l as [|x l [IH1 IH2]]; cbn [first_seen].
  - split; [constructor|tauto].
  - assert (E : forall y, negb (eqb_label x y) = true <-> x <> y).
    { intros y. unfold eqb_label. destruct (list_eq_dec ascii_dec x y); simpl; split; congruence. }
    split.
    + constructor; [|now apply NoDup_filter]. rewrite filter_In, E. tauto.
    + intros y. simpl. rewrite filter_In, E, IH2. destruct (list_eq_dec ascii_dec x y); tauto.
Qed.

(** ... and in order of first appearance. *)
Theorem C22_numbered_order l1 x l2 : ~ In x l1 ->
  exists rest, numbered (l1 ++ x :: l2) = numbered l1 ++ x :: rest.
Proof.
  unfold numbered. induction l1 as [|y l1 IH]; intros Hn; cbn [app first_seen].
  - eexists; reflexivity.
  - destruct IH as [rest E]. { intros H; apply Hn; simpl; auto. }
    rewrite E, filter_app. cbn [filter].
    replace (negb (eqb_label y x)) with true.
    2: { unfold eqb_label. destruct (list_eq_dec ascii_dec y x) as [->|Hne]; auto. exfalso; apply Hn; simpl; auto. }
    eexists. reflexivity.
Qed.

(** C23: the only write outside a buffer is that of a word of a hundred characters or more into a label buffer. *)
Theorem C23_memory_safe weighted bip file e : bip <= 2 -> EdgeListFileInput scan_lf weighted bip file = Err e ->
  e = UB_oob /\ exists s w t, file = s ++ w ++ t /\ word w /\ 100 <= length w.
Proof. intros Hb E. pose proof (EdgeListFileInput_total scan_lf weighted bip file Hb) as T. rewrite E in T. exact T. Qed.

(** C23: such words do overflow the buffer. *)
Theorem C23_long_label_refuted weighted bip s w t rest : bip <= 2 -> word w -> 100 <= length w ->
  (forall c, In c s -> blank c /\ c <> nl) -> (forall c t', t = c :: t' -> blank c) -> ~ In nl t ->
  EdgeListFileInput scan_lf weighted bip ((s ++ w ++ t) ++ nl :: rest) = Err UB_oob.
Proof. exact (EdgeListFileInput_overflow scan_lf weighted bip s w t rest). Qed.
End Generic.

(** C24: any program over any number of stacks and queues sharing the heap. *)
Theorem C24_containers {X} (null : X) ops rs os : acalls null [] ops rs os ->
  exists h objs, calls null ([], []) ops = Ok (rs, (h, objs)) /\ length objs = length os /\
    (forall k o x, nth_error objs k = Some o -> nth_error os k = Some x -> recorded o = alen x) /\
    live h = length (concat (map content os)).
Proof. exact (datastruct_refines null ops rs os). Qed.

(** ** Concrete cases *)
Definition txt (s : string) : list ascii := list_ascii_of_string s.
Definition nls : string := String "010" "".
Definition tbs : string := String "009" "".
Definition file3 : list ascii := txt ("a b" ++ nls ++ "b c" ++ nls ++ " c  a x" ++ nls)%string.

(** Three lines, three labels: the second line reuses the label of the first one. *)
Example reads_met :
  exists inp, @EdgeListFileInput Qc (Qc_ops ex0 sq0) (fun _ => None) false 0 file3 = Ok (Some inp) /\ eiN inp = 3 /\ eiE inp = 3 /\
    ei_labels inp = [Some (txt "a"); Some (txt "b"); Some (txt "c")] ++ skipn 3 (ei_labels inp) /\
    firstn 3 (ei_in inp) = [Some 0; Some 1; Some 2] /\ firstn 3 (ei_out inp) = [Some 1; Some 2; Some 0].
Proof. eexists. split; [vm_compute; reflexivity|]. splits; vm_compute; reflexivity. Qed.

Example lines_met : exists lines es, lines_of file3 lines /\
  Forall2 (@line_holds Qc (Qc_ops ex0 sq0) (fun _ => None) false) lines es /\ length es = 3.
Proof.
  pose proof (C22_sound (ops := Qc_ops ex0 sq0) (fun _ => None) false 0 file3) as H.
  destruct reads_met as (inp & E & _ & EE & _).
  destruct (H inp (Nat.le_0_l 2) E) as (lines & es & H1 & H2 & H3). exists lines, es. splits; auto. destruct H3 as [<- _ _ _ _ _]. exact EE.
Qed.

(** A file with a line of one word is refused. *)
Example refuses_met : @EdgeListFileInput Qc (Qc_ops ex0 sq0) (fun _ => None) false 0 (txt ("a b" ++ nls ++ "c" ++ nls)%string) = Ok None.
Proof. vm_compute. reflexivity. Qed.

(** Labels of a hundred characters exist. *)
Example long_met : word (repeat "x"%char 100) /\ 100 <= length (repeat "x"%char 100).
Proof. split; [split; [discriminate|]|rewrite repeat_length; lia]. intros c Hc. apply repeat_spec in Hc. subst. unfold blank. simpl. intuition congruence. Qed.

(** The path partition of the witnesses, its labels and a fresh partition. *)
Definition labs3 : list (list ascii) := [txt "n1"; txt "n2"; txt "n3"].
Example unreadable_met :
  @ClusteringOutput Qc p14 (labs3 ++ [txt "n4"]) <> Err UB_null /\ Forall cell_label (labs3 ++ [txt "n4"]) /\ NoDup (labs3 ++ [txt "n4"]).
Proof.
  splits.
  - vm_compute. congruence.
  - repeat constructor; try discriminate; vm_compute; intuition congruence.
  - repeat constructor; vm_compute; intuition congruence.
Qed.
Example readable_met : exists q p', @CreatePartition Qc (Qc_ops ex0 sq0) 3 2 = Ok q /\
  @AssignNodesToModulesFromFile Qc (Qc_ops ex0 sq0) (groups_text (fun i => nth i labs3 []) [[0; 2]; [1]]) q labs3 = Ok (p', 0) /\
  group p' 0 = group p' 2 /\ group p' 0 <> group p' 1.
Proof. eexists _, _. split; [vm_compute; reflexivity|]. split; [vm_compute; reflexivity|]. vm_compute. split; congruence. Qed.

(** A stack and a queue used in turn, emptied and used again. *)
Example containers_met : exists rs os, acalls 0 [] [NewStack; NewQueue; SPush 0 5; QEnq 1 6; SPush 0 7; QEnq 1 8; SPop 0; QDeq 1; QDeq 1; QDeq 1; QEnq 1 9; QFirst 1; SClear 0; STop 0] rs os /\
  rs = [Unit; Unit; Unit; Unit; Unit; Unit; Ptr 7; Ptr 6; Ptr 8; Ptr 0; Unit; Ptr 9; Unit; Ptr 0].
Proof.
  eexists _, _. split; [repeat first [eapply as_nil|eapply as_cons; [econstructor; simpl; reflexivity|simpl upd; simpl app; cbn [tl]]]|reflexivity].
Qed.

Print Assumptions C21_written_clusters_unreadable_refuted.
Print Assumptions C21_groups_readable.
Print Assumptions C22_reads.
Print Assumptions C22_refuses.
Print Assumptions C22_sound.
Print Assumptions C22_numbered_nodup.
Print Assumptions C22_numbered_order.
Print Assumptions C23_memory_safe.
Print Assumptions C23_long_label_refuted.
Print Assumptions C24_containers.
