(** BipartSpec.v -- bipartite networks as mathematical objects. *)
From Coq Require Import List Arith Ascii Bool Permutation QArith Qcanon.
From Verif Require Import Base ListLib QcSum Num IoSpec GraphModel GraphSpec GroupModel GroupSpec BipartModel.
Import ListNotations.
Local Open Scope nat_scope.

Section Spec.
Context {A : Type}.
Implicit Types b : binet A.

(** The two lists share out the nodes and number them in order; every link joins a node of one list to a node of the other,
    points to a node of the network and carries its number and label; no neighbour is listed twice; the two directions of a
    link have the same weight; a cached degree is right. *)
Record bipartite b : Prop := {
  bi_nodes : Permutation (bset1 b ++ bset2 b) (seq 0 (length (bmem b)));
  bi_num1 : forall k i n, nth_error (bset1 b) k = Some i -> nth_error (bmem b) i = Some n -> gnum n = k;
  bi_num2 : forall k i n, nth_error (bset2 b) k = Some i -> nth_error (bmem b) i = Some n -> gnum n = k;
  bi_link : forall i n l, nth_error (bmem b) i = Some n -> In l (gadj n) ->
    exists j m, lref l = Some j /\ nth_error (bmem b) j = Some m /\ lnode l = gnum m /\ llabel l = glabel m;
  bi_cross : forall i j, In j (nbrs (bmem b) i) -> In i (bset1 b) /\ In j (bset2 b) \/ In i (bset2 b) /\ In j (bset1 b);
  bi_once : forall i, NoDup (nbrs (bmem b) i);
  bi_sym : forall i j, weight (bmem b) i j = weight (bmem b) j i;
  bi_deg : forall i n, nth_error (bmem b) i = Some n -> gdeg n = 0 \/ gdeg n = length (gadj n)
}.

(** How many neighbours two nodes share; the label of a node; labels that fit the buffer of 100 characters. *)
Definition common (g : net A) (i j : nat) : nat := length (filter (fun x => existsb (Nat.eqb x) (nbrs g j)) (nbrs g i)).
Definition label_of (g : net A) (i : nat) : list ascii := match nth_error g i with Some n => glabel n | None => [] end.
Definition labels_fit (g : net A) : Prop := forall n, In n g -> length (glabel n) < 100.
End Spec.

(** Groups of different nodes of the list [s], pointed to by their cells, under different labels. *)
Record groups_of {A} (s : list nat) (P : gpart A) : Prop := {
  go_labels : NoDup (map plabel P);
  go_refs : forall G l, In G P -> In l (pnodes G) -> lref l <> None;
  go_once : NoDup (flat_map members P);
  go_in : forall i, In i (flat_map members P) -> In i s }.

(** The bipartite modularity: over the ordered pairs of different nodes of net1 put together by [same], the shared teams
    against the pairs of places in teams, minus the product of the numbers of teams against the square of all places. *)
Definition teams (b : binet Qc) (i : nat) : Qc := Qc_of_nat (degree (bmem b) i).
Definition bi_modularity (b : binet Qc) (same : nat -> nat -> bool) : Qc :=
  (let m := Qsum (teams b) (bset2 b) in
   let m2 := Qsum (fun s => teams b s * teams b s) (bset2 b) in
   Qsum (fun i => Qsum (fun j => if same i j && negb (i =? j)
     then Qc_of_nat (common (bmem b) i j) / (m2 - m) - teams b i * teams b j / (m * m) else 0) (bset1 b)) (bset1 b))%Qc.

(** The same with weights: total weights of nodes, and products of the weights to shared neighbours. *)
Definition weight0 (g : net Qc) (i j : nat) : Qc := match weight g i j with Some w => w | None => 0%Qc end.
Definition strength_of (g : net Qc) (i : nat) : Qc := Qsum (weight0 g i) (nbrs g i).
Definition shared_weight (g : net Qc) (i j : nat) : Qc := Qsum (fun x => weight0 g i x * weight0 g j x)%Qc (nbrs g i).
Definition bi_modularity_w (b : binet Qc) (same : nat -> nat -> bool) : Qc :=
  (let st := strength_of (bmem b) in
   let w := Qsum st (bset2 b) in
   let w2 := Qsum (fun s => st s * st s) (bset2 b) in
   Qsum (fun i => Qsum (fun j => if same i j && negb (i =? j)
     then shared_weight (bmem b) i j / (w2 - w) - st i * st j / (w * w) else 0) (bset1 b)) (bset1 b))%Qc.

(** The other members of the teams of a node, once for every shared team, and the participation coefficient: one minus the sum
    of the squared shares of the groups among them. *)
Definition peers {A} (g : net A) (i : nat) : list nat := filter (fun j => negb (j =? i)) (flat_map (nbrs g) (nbrs g i)).
Definition in_group {A} (g : net A) (x j : nat) : bool :=
  match nth_error g j with Some n => match ggroup n with Some y => y =? x | None => false end | None => false end.
Definition participation (g : net Qc) (groups : nat) (i : nat) : Qc :=
  (1 - Qsum (fun x => let s := Qc_of_nat (length (filter (in_group g x) (peers g i))) / Qc_of_nat (length (peers g i)) in s * s) (seq 0 groups))%Qc.

(** The network of a list of rows (a, c, w): labels in order of their first row; two nodes are linked if there is a row with
    their labels; the weight is that of the first such row or, if weights are added, the sum in the order of the rows. *)
Section Rows.
Context {A : Type} {ops : NumOps A}.
Notation row := (list ascii * list ascii * A)%type.
Definition same_ends (a c : list ascii) (r : row) : bool := let '(x, y, _) := r in eqb_label x a && eqb_label y c.
Definition rows_weight (add : bool) (es : list row) (a c : list ascii) : option A :=
  match map snd (filter (same_ends a c) es) with
  | [] => None
  | w :: ws => Some (if add then fold_left nadd ws w else w)
  end.
Record network_of (add : bool) (es : list row) (b : binet A) : Prop := {
  no_bi : bipartite b;
  no_lab1 : map (label_of (bmem b)) (bset1 b) = numbered (map (fun r => fst (fst r)) es);
  no_lab2 : map (label_of (bmem b)) (bset2 b) = numbered (map (fun r => snd (fst r)) es);
  no_weight : forall i j, In i (bset1 b) -> In j (bset2 b) ->
    weight (bmem b) i j = rows_weight add es (label_of (bmem b) i) (label_of (bmem b) j);
  no_fields : forall n, In n (bmem b) -> gstate n = 0 /\ ggroup n = None
}.
(** The rows of a network: for every node of net1 and every neighbour, their labels and the weight. *)
Definition rows_of (b : binet A) : list row :=
  flat_map (fun i => map (fun j => (label_of (bmem b) i, label_of (bmem b) j, match weight (bmem b) i j with Some w => w | None => n0 end)) (nbrs (bmem b) i)) (bset1 b).
End Rows.
(** A copy: the same nodes in the same order in both sets, with links of the same weight between the nodes at the same places. *)
Record copy_of {A} {ops : NumOps A} (b b' : binet A) : Prop := {
  co_bi : bipartite b';
  co_len1 : length (bset1 b') = length (bset1 b);
  co_len2 : length (bset2 b') = length (bset2 b);
  co_node : forall k i i', nth_error (bset1 b) k = Some i /\ nth_error (bset1 b') k = Some i' \/ nth_error (bset2 b) k = Some i /\ nth_error (bset2 b') k = Some i' ->
    exists n n', nth_error (bmem b) i = Some n /\ nth_error (bmem b') i' = Some n' /\
      (glabel n', gnum n', gstate n', ggroup n', gdvar n') = (glabel n, gnum n, gstate n, ggroup n, gdvar n);
  co_weight : forall k1 k2 i j i' j', nth_error (bset1 b) k1 = Some i -> nth_error (bset1 b') k1 = Some i' ->
    nth_error (bset2 b) k2 = Some j -> nth_error (bset2 b') k2 = Some j' -> weight (bmem b') i' j' = weight (bmem b) i j
}.
(** The line of a row. *)
Definition row_line {A} (show : A -> list ascii) (weighted : bool) (r : list ascii * list ascii * A) : list ascii :=
  let '(a, c, w) := r in a ++ [" "%char] ++ c ++ (if weighted then [" "%char] ++ show w else []) ++ ["010"%char].
(** A row that can be written and read again: labels are words that fit the buffer, and the weight is read as it was written. *)
Definition row_fits {A} (show : A -> list ascii) (scan : list ascii -> option A) (weighted : bool) (r : list ascii * list ascii * A) : Prop :=
  let '(a, c, w) := r in word a /\ word c /\ length a < 100 /\ length c < 100 /\
    (weighted = true -> ~ In "010"%char (show w) /\ scan ([" "%char] ++ show w ++ ["010"%char]) = Some w).
