(** GroupSpec.v -- groups of nodes of a network, their links recounted from scratch, and what the operations on groups should do. *)
From Coq Require Import List Arith ZArith Bool QArith Qcanon.
From Verif Require Import Base ListLib NatSum QcSum GraphModel GraphSpec GroupModel.
Import ListNotations.
Local Open Scope nat_scope.

(** Sums and counts over the unordered pairs of different numbers below [N]. *)
Definition pair_sum (N : nat) (f : nat -> nat -> Qc) : Qc :=
  Qsum (fun i => Qsum (fun j => if i <? j then f i j else 0%Qc) (seq 0 N)) (seq 0 N).
Definition pair_count (N : nat) (p : nat -> nat -> bool) : nat :=
  lsum (fun i => count (fun j => (i <? j) && p i j) (seq 0 N)) (seq 0 N).

Section Any.
Context {A : Type}.
Implicit Types g : net A.

(** Links and the nodes of a group. *)
Definition linked g (i j : nat) : bool := match weight g i j with Some _ => true | None => false end.
Definition members (G : grp A) : list nat := targets (pnodes G).

(** Links inside a set of nodes, links with an end in it, links with one end in it. *)
Definition links_in g (S : list nat) : nat := pair_count (length g) (fun i j => mem i S && mem j S && linked g i j).
Definition links_tot g (S : list nat) : nat := pair_count (length g) (fun i j => (mem i S || mem j S) && linked g i j).
Definition links_out g (S : list nat) : nat := pair_count (length g) (fun i j => xorb (mem i S) (mem j S) && linked g i j).

Definition counts_right g (G : grp A) : Prop :=
  psize G = Z.of_nat (length (members G)) /\ pin G = Z.of_nat (links_in g (members G)) /\
  ptot G = Z.of_nat (links_tot g (members G)) /\ pout G = Z.of_nat (links_out g (members G)).

(** Nothing but the groups of the nodes and the caches has changed. *)
Definition same_but_group g g' : Prop :=
  Forall2 (fun n m => glabel n = glabel m /\ gnum n = gnum m /\ gstate n = gstate m /\ gdvar n = gdvar m /\ gadj n = gadj m) g g'.

(** What the operations on groups should do to the labels and the members of the groups. *)
Inductive grop := GNew (lab : nat) | GAdd (k i : nat) | GMove (i a b : nat) | GMerge (a b : nat) | GCompress.
Definition groups := list (nat * list nat).
Definition nth_members (M : groups) (k : nat) : list nat := match nth_error M k with Some (_, l) => l | None => [] end.
Definition set_members (M : groups) (k : nat) (l : list nat) : groups :=
  match nth_error M k with Some (lab, _) => upd M k (lab, l) | None => M end.
Definition remove1 (i : nat) (l : list nat) : list nat := filter (fun x => negb (x =? i)) l.
Definition grop_ok (N : nat) (M : groups) (o : grop) : Prop :=
  match o with
  | GNew lab => ~ In lab (map fst M)
  | GAdd k i => k < length M /\ i < N /\ forall m, ~ In i (nth_members M m)
  | GMove _ a b => a < length M /\ b < length M
  | GMerge a b => a < length M /\ b < length M /\ a <> b
  | GCompress => True
  end.
Definition grop_do (M : groups) (o : grop) : groups :=
  match o with
  | GNew lab => M ++ [(lab, [])]
  | GAdd k i => set_members M k (nth_members M k ++ [i])
  | GMove i a b =>
      if mem i (nth_members M a) then
        let M := set_members M a (remove1 i (nth_members M a)) in set_members M b (nth_members M b ++ [i])
      else M
  | GMerge a b => set_members (set_members M b (nth_members M b ++ nth_members M a)) a []
  | GCompress => filter (fun x => match snd x with [] => false | _ => true end) M
  end.
Fixpoint grops_ok (N : nat) (M : groups) (os : list grop) : Prop :=
  match os with [] => True | o :: os => grop_ok N M o /\ grops_ok N (grop_do M o) os end.
(** The group of a node. *)
Definition home (M : groups) (i : nat) : option nat := option_map fst (find (fun x => mem i (snd x)) M).
(** Labels and members of the groups of a partition. *)
Definition abs (P : gpart A) : groups := map (fun G => (plabel G, members G)) P.
(** A partition whose groups describe the network. *)
Record mapped g (P : gpart A) : Prop := {
  mp_labels : NoDup (map plabel P);
  mp_once : forall G, In G P -> NoDup (members G);
  mp_disjoint : forall G H i, In G P -> In H P -> In i (members G) -> In i (members H) -> plabel G = plabel H;
  mp_cells : forall G l, In G P -> In l (pnodes G) -> exists j n, lref l = Some j /\ nth_error g j = Some n /\ lnode l = j /\ llabel l = glabel n;
  mp_group : forall i n, nth_error g i = Some n -> ggroup n = home (abs P) i;
  mp_counts : forall G, In G P -> counts_right g G
}.
Context {ops : NumOps A}.
(** The operation of the program. *)
Definition run_grop (st : net A * gpart A) (o : grop) : res (net A * gpart A) :=
  match o with
  | GNew lab => Ok (fst st, snd (CreateGroup (snd st) lab))
  | GAdd k i => AddNodeToGroup st k i
  | GMove i a b => do (_, st) <- MoveNode st i a b; Ok st
  | GMerge a b => MergeGroups st a b
  | GCompress => Ok (fst st, CompressPart (snd st))
  end.
End Any.

(** The weighted recount. *)
Section Exact.
Implicit Types g : net Qc.
Definition wt g (i j : nat) : Qc := match weight g i j with Some w => w | None => 0%Qc end.
Definition weight_in_set g (S : list nat) : Qc := pair_sum (length g) (fun i j => if mem i S && mem j S then wt g i j else 0%Qc).
Definition weight_tot g (S : list nat) : Qc := pair_sum (length g) (fun i j => if mem i S || mem j S then wt g i j else 0%Qc).
Definition weight_out g (S : list nat) : Qc := pair_sum (length g) (fun i j => if xorb (mem i S) (mem j S) then wt g i j else 0%Qc).
Definition weights_right g (G : grp Qc) : Prop :=
  pinW G = weight_in_set g (members G) /\ ptotW G = weight_tot g (members G) /\ poutW G = weight_out g (members G).
(** A cached strength is the sum of the weights of the links (0 stands for "not cached"). *)
Definition strengths_cached g : Prop :=
  forall i n, nth_error g i = Some n -> gstr n = 0%Qc \/ gstr n = Qsum lweight (gadj n).
End Exact.
