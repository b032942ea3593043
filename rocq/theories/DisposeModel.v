(** DisposeModel.v -- src/graph.c and src/bipartite.c: giving back the memory of a network. *)
From Coq Require Import List Arith Bool.
From Verif Require Import Base.
Import ListNotations.
Local Open Scope nat_scope.

(** A block of memory: a struct node_gra (label, neig, next), a struct node_lis (nodeLabel, next), a struct binet (net1, net2) or a text.  Fields that are not pointers to blocks of the network are left out; [None] is NULL. *)
Inductive cell := CNode (label neig next : option nat) | CLis (label next : option nat) | CBi (net1 net2 : option nat) | CText.
(** The memory: which addresses hold a block.  [None]: not allocated, or given back. *)
Definition mem := nat -> option cell.
Definition clear (h : mem) (a : nat) : mem := fun x => if x =? a then None else h x.
(** free of the C library: NULL is ignored; an address that holds no block is an error. *)
Definition free (h : mem) (a : option nat) : res mem :=
  match a with None => Ok h | Some a => match h a with Some _ => Ok (clear h a) | None => Err UB_free end end.
Definition read_node (h : mem) (a : nat) : res (option nat * option nat * option nat) :=
  match h a with Some (CNode l g n) => Ok (l, g, n) | _ => Err UB_free end.
Definition read_lis (h : mem) (a : nat) : res (option nat * option nat) :=
  match h a with Some (CLis l n) => Ok (l, n) | _ => Err UB_free end.

(** src/graph.c 390-396, FreeNodeLis. *)
Definition FreeNodeLis (h : mem) (p : nat) : res mem :=
  do (l, _) <- read_lis h p;
  do h <- free h l;
  free h (Some p).
(** src/graph.c 402-409, FreeAdjacencyList.  The recursion is as deep as the list is long; [fuel] bounds it. *)
Fixpoint FreeAdjacencyList (fuel : nat) (h : mem) (p : nat) : res mem :=
  match fuel with
  | 0 => Err Diverge
  | S fuel =>
      do (_, n) <- read_lis h p;
      do h <- match n with Some q => FreeAdjacencyList fuel h q | None => Ok h end;
      FreeNodeLis h p
  end.
(** src/graph.c 414-424, FreeNode. *)
Definition FreeNode (fuel : nat) (h : mem) (p : nat) : res mem :=
  do (_, g, _) <- read_node h p;
  do h <- match g with Some q => FreeAdjacencyList fuel h q | None => Ok h end;
  do (l, _, _) <- read_node h p;
  do h <- free h l;
  free h (Some p).
(** src/graph.c 429-436, RemoveGraph. *)
Fixpoint RemoveGraph (fuel : nat) (h : mem) (p : nat) : res mem :=
  match fuel with
  | 0 => Err Diverge
  | S fuel' =>
      do (_, _, n) <- read_node h p;
      do h <- match n with Some q => RemoveGraph fuel' h q | None => Ok h end;
      FreeNode fuel h p
  end.
(** src/bipartite.c 301-308, RemoveBipart.  What CreateBipart (35-44) returns is a block with two NULL pointers. *)
Definition RemoveBipart (fuel : nat) (h : mem) (p : nat) : res mem :=
  do (a, b) <- match h p with Some (CBi a b) => Ok (a, b) | _ => Err UB_free end;
  do a <- deref a;
  do h <- RemoveGraph fuel h a;
  do b <- deref b;
  do h <- RemoveGraph fuel h b;
  free h (Some p).
