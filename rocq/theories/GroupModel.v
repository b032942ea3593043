(** GroupModel.v -- model of src/modules.c, groups of nodes of a network.

    A partition is the list of its groups in the order of the C list (the header group is implicit); a pointer to a group is
    its position in that list.  The list of nodes of a group (whose header cell is implicit) is a list of the same struct
    node_lis as an adjacency list, see GraphModel.v.  The fields coorX, coorY, coorZ and offspr are left out.  Labels of groups
    are non-negative.  The functions that only release memory are left out. *)
From Coq Require Import List Arith ZArith Bool QArith.
From Verif Require Import Base IoModel GraphModel.
Import ListNotations.
Local Open Scope nat_scope.

Section Groups.
Context {A : Type} {ops : NumOps A}.

(** src/modules.h 16-36, struct group. *)
Record grp := mkGroup {
  plabel : nat; psize : Z; ptot : Z; pin : Z; pout : Z; ptotW : A; pinW : A; poutW : A; pnodes : list (link A) }.
Definition gpart := list grp.

(** src/modules.c 65-98, CreateGroup: at the end of the list. *)
Definition CreateGroup (P : gpart) (lab : nat) : nat * gpart :=
  (length P, P ++ [mkGroup lab 0 0 0 0 n0 n0 n0 []]).

Definition in_group (n : gnode A) (lab : nat) : bool := match ggroup n with Some x => x =? lab | None => false end.

(** src/modules.c 817-828 and 855-866, NLinksToGroup and NLinksToGroupByNum. *)
Definition NLinksToGroup (g : net A) (i lab : nat) : res nat :=
  do n <- get g i;
  foldM (fun c l => do j <- deref (lref l); do m <- get g j; Ok (if in_group m lab then c + 1 else c)) 0 (gadj n).

(** src/modules.c 876-887 and 893-904, StrengthToGroup and StrengthToGroupByNum. *)
Definition StrengthToGroup (g : net A) (i lab : nat) : res A :=
  do n <- get g i;
  foldM (fun s l => do j <- deref (lref l); do m <- get g j; Ok (if in_group m lab then nadd s (lweight l) else s)) n0 (gadj n).

(** src/modules.c 329-370, AddNodeToGroup(g = group number k, node = i). *)
Definition AddNodeToGroup (st : net A * gpart) (k i : nat) : res (net A * gpart) :=
  let '(g, P) := st in
  do G <- get P k;
  do n <- get g i;
  let cells := pnodes G ++ [mkLink (gnum n) (glabel n) 0 (Some i) n0 n0] in
  do (totlink, g) <- NodeDegree g i;
  do inlink <- NLinksToGroup g i (plabel G);
  do (totweight, g) <- NodeStrength g i;
  do inweight <- StrengthToGroup g i (plabel G);
  let tot := (ptot G + (Z.of_nat totlink - Z.of_nat inlink))%Z in
  let inl := (pin G + Z.of_nat inlink)%Z in
  let totW := nadd (ptotW G) (nsub totweight inweight) in
  let inW := nadd (pinW G) inweight in
  do P <- set P k (mkGroup (plabel G) (psize G + 1) tot inl (tot - inl) totW inW (nsub totW inW) cells);
  do g <- upd_node g i (set_ggroup (Some (plabel G)));
  Ok (g, P).

(** Unlink the first cell that points to node [i]. *)
Fixpoint rm_cell (i : nat) (ls : list (link A)) : option (list (link A)) :=
  match ls with
  | [] => None
  | l :: ls' => if eq_ref (lref l) i then Some ls' else option_map (cons l) (rm_cell i ls')
  end.

(** src/modules.c 450-486, RemoveNodeFromGroup.  The node keeps its inGroup. *)
Definition RemoveNodeFromGroup (st : net A * gpart) (k i : nat) : res (bool * (net A * gpart)) :=
  let '(g, P) := st in
  do G <- get P k;
  match rm_cell i (pnodes G) with
  | None => Ok (false, (g, P))
  | Some cells =>
      do (totlink, g) <- NodeDegree g i;
      do inlink <- NLinksToGroup g i (plabel G);
      do (totweight, g) <- NodeStrength g i;
      do inweight <- StrengthToGroup g i (plabel G);
      let tot := (ptot G - (Z.of_nat totlink - Z.of_nat inlink))%Z in
      let inl := (pin G - Z.of_nat inlink)%Z in
      let totW := nsub (ptotW G) (nsub totweight inweight) in
      let inW := nsub (pinW G) inweight in
      do P <- set P k (mkGroup (plabel G) (psize G - 1) tot inl (tot - inl) totW inW (nsub totW inW) cells);
      Ok (true, (g, P))
  end.

(** src/modules.c 530-538, MoveNode. *)
Definition MoveNode (st : net A * gpart) (i old new : nat) : res (bool * (net A * gpart)) :=
  do (r, st) <- RemoveNodeFromGroup st old i;
  if r then do st <- AddNodeToGroup st new i; Ok (true, st) else Ok (false, st).

(** src/modules.c 972-980, MergeGroups: move the first node of [g1] until there is none. *)
Fixpoint merge_loop (fuel : nat) (st : net A * gpart) (g1 g2 : nat) : res (net A * gpart) :=
  match fuel with
  | 0 => Err Diverge
  | S f =>
      do G <- get (snd st) g1;
      match pnodes G with
      | [] => Ok st
      | c :: _ => do i <- deref (lref c); do (_, st) <- MoveNode st i g1 g2; merge_loop f st g1 g2
      end
  end.
Definition MergeGroups (st : net A * gpart) (g1 g2 : nat) : res (net A * gpart) :=
  do G <- get (snd st) g1;
  merge_loop (length (pnodes G) + 1) st g1 g2.

(** src/modules.c 573-595, CompressPart. *)
Definition CompressPart (P : gpart) : gpart := filter (fun G => negb (psize G =? 0)%Z) P.

(** src/modules.c 602-612, GetGroup: None for a null pointer. *)
Fixpoint find_group (lab pos : nat) (P : gpart) : option nat :=
  match P with [] => None | G :: P' => if plabel G =? lab then Some pos else find_group lab (pos + 1) P' end.
Definition GetGroup (P : gpart) (lab : nat) : option nat := find_group lab 0 P.

(** src/modules.c 620-629, NGroups; 637-647, NNonEmptyGroups; 655-664, PartitionSize. *)
Definition NGroups (P : gpart) : nat := length P.
Definition NNonEmptyGroups (P : gpart) : nat := length (filter (fun G => (0 <? psize G)%Z) P).
Definition PartitionSize (P : gpart) : Z := fold_left (fun s G => (s + psize G)%Z) P 0%Z.

(** src/modules.c 911-924, NG2GLinks, and 952-965, NG2GLinksWeight. *)
Definition NG2GLinks (g : net A) (P : gpart) (g1 g2 : nat) : res nat :=
  do G1 <- get P g1;
  do G2 <- get P g2;
  do c <- foldM (fun c l => do i <- deref (lref l); do x <- NLinksToGroup g i (plabel G2); Ok (c + x)) 0 (pnodes G1);
  Ok (if g1 =? g2 then Nat.div c 2 else c).
Definition NG2GLinksWeight (g : net A) (P : gpart) (g1 g2 : nat) : res A :=
  do G1 <- get P g1;
  do G2 <- get P g2;
  do c <- foldM (fun c l => do i <- deref (lref l); do x <- StrengthToGroup g i (plabel G2); Ok (nadd c x)) n0 (pnodes G1);
  Ok (if g1 =? g2 then ndiv c (nofQ (2 # 1)) else c).

(** src/modules.c 1189-1200, GetEmptyGroup. *)
Fixpoint find_empty (pos : nat) (P : gpart) : option nat :=
  match P with [] => None | G :: P' => if (psize G =? 0)%Z then Some pos else find_empty (pos + 1) P' end.
Definition GetEmptyGroup (P : gpart) : option nat := find_empty 0 P.

(** src/modules.c 1217-1224, ResetNetGroup. *)
Definition ResetNetGroup (g : net A) : net A := map (set_ggroup None) g.
End Groups.
Arguments grp A : clear implicits.
Arguments gpart A : clear implicits.
