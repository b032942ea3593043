(** SearchModel.v -- model of the search tree lib/search.c: tsearch, tfind, twalk, tdestroy.

    The memory of the tree is a list of nodes, one per call of malloc; a pointer to a node is an index.  A pointer to a pointer
    is a [cell]: the variable of the caller that holds the root, or one of the two links of a node.  malloc always
    succeeds.  Keys are values of any type; [compar] is any function. *)
From Coq Require Import List Arith ZArith Bool Ascii.
From Verif Require Import Base.
Import ListNotations.
Local Open Scope nat_scope.

(** strcmp of the C library, on strings without their final zero: only the sign of the result is specified.  src/io.c 11-16 (node_compare) and
    src/graph.c 522-527 (NodeTreeLabelCompare) call it on the labels of two entries; the number is the payload of an entry. *)
Fixpoint strcmp (a b : list ascii) : Z :=
  match a, b with
  | [], [] => 0
  | [], _ :: _ => -1
  | _ :: _, [] => 1
  | x :: a, y :: b =>
      match Nat.compare (nat_of_ascii x) (nat_of_ascii y) with Eq => strcmp a b | Lt => -1 | Gt => 1 end
  end.
Definition NodeTreeLabelCompare {V : Type} (a b : list ascii * V) : Z := strcmp (fst a) (fst b).

Section Search.
Context {K : Type}.
Variable compar : K -> K -> Z.

(** lib/search.c 122-130, struct node_t. *)
Record tnode := mkT { tkey : K; tleft : option nat; tright : option nat; tred : bool }.
Definition set_left (v : option nat) (n : tnode) : tnode := mkT (tkey n) v (tright n) (tred n).
Definition set_right (v : option nat) (n : tnode) : tnode := mkT (tkey n) (tleft n) v (tred n).
Definition set_tred (b : bool) (n : tnode) : tnode := mkT (tkey n) (tleft n) (tright n) b.
Record theap := mkH { hroot : option nat; hnodes : list tnode }.
Inductive cell := CRoot | CLeft (i : nat) | CRight (i : nat).
Definition cell_eqb (a b : cell) : bool :=
  match a, b with CRoot, CRoot => true | CLeft i, CLeft j => i =? j | CRight i, CRight j => i =? j | _, _ => false end.

(** Reading and writing through a pointer. *)
Definition upd_t (h : theap) (i : nat) (f : tnode -> tnode) : res theap :=
  do n <- get (hnodes h) i; do l <- set (hnodes h) i (f n); Ok (mkH (hroot h) l).
Definition load (h : theap) (c : cell) : res (option nat) :=
  match c with
  | CRoot => Ok (hroot h)
  | CLeft i => do n <- get (hnodes h) i; Ok (tleft n)
  | CRight i => do n <- get (hnodes h) i; Ok (tright n)
  end.
Definition store (h : theap) (c : cell) (v : option nat) : res theap :=
  match c with
  | CRoot => Ok (mkH v (hnodes h))
  | CLeft i => upd_t h i (set_left v)
  | CRight i => upd_t h i (set_right v)
  end.
Definition red_at (h : theap) (i : nat) : res bool := do n <- get (hnodes h) i; Ok (tred n).
Definition set_red (h : theap) (i : nat) (b : bool) : res theap := upd_t h i (set_tred b).

(** lib/search.c 210-262: two red edges in a row; [root], [p] and [gp] are the three nodes. *)
Definition rotate (h : theap) (root p gp : nat) (pp gpp : cell) (p_r gp_r : Z) : res theap :=
  let rp := CRight root in
  let lp := CLeft root in
  if negb (Bool.eqb (0 <? p_r)%Z (0 <? gp_r)%Z) then
    do h <- set_red h p true;
    do h <- set_red h gp true;
    do h <- set_red h root false;
    do h <-
      (if (p_r <? 0)%Z then
         do v <- load h rp;
         do h <- store h (CLeft p) v;
         do h <- store h rp (Some p);
         do v <- load h lp;
         do h <- store h (CRight gp) v;
         store h lp (Some gp)
       else
         do v <- load h lp;
         do h <- store h (CRight p) v;
         do h <- store h lp (Some p);
         do v <- load h rp;
         do h <- store h (CLeft gp) v;
         store h rp (Some gp));
    store h gpp (Some root)
  else
    do v <- load h pp;
    do h <- store h gpp v;
    do h <- set_red h p false;
    do h <- set_red h gp true;
    if (p_r <? 0)%Z then
      do v <- load h (CRight p);
      do h <- store h (CLeft gp) v;
      store h (CRight p) (Some gp)
    else
      do v <- load h (CLeft p);
      do h <- store h (CRight gp) v;
      store h (CLeft p) (Some gp).

(** lib/search.c 187-264, maybe_split_for_insert. *)
Definition maybe_split_for_insert (h : theap) (rootp : cell) (parentp gparentp : option cell) (p_r gp_r : Z) (mode : bool) : res theap :=
  do v <- load h rootp;
  do root <- deref v;
  do r <- load h (CRight root);
  do l <- load h (CLeft root);
  do both <- (match r, l with Some a, Some b => do x <- red_at h a; if x then red_at h b else Ok false | _, _ => Ok false end);
  if mode || both then
    do h <- set_red h root true;
    do h <- (match r with Some a => set_red h a false | None => Ok h end);
    do h <- (match l with Some b => set_red h b false | None => Ok h end);
    match parentp with
    | None => Ok h
    | Some pp =>
        do v <- load h pp;
        do p <- deref v;
        do x <- red_at h p;
        if x then
          do gpp <- deref gparentp;
          do v <- load h gpp;
          do gp <- deref v;
          rotate h root p gp pp gpp p_r gp_r
        else Ok h
    end
  else Ok h.

(** lib/search.c 287-310, the loop of tsearch: the node was found, or the place for the new one. *)
Fixpoint tsearch_loop (fuel : nat) (key : K) (h : theap) (rootp : cell) (parentp gparentp : option cell) (p_r gp_r : Z) :
    res ((nat * theap) + (theap * cell * cell * option cell * Z * Z)) :=
  match fuel with
  | O => Err Diverge
  | S fuel =>
      do v <- load h rootp;
      do root <- deref v;
      do n <- get (hnodes h) root;
      let r := compar key (tkey n) in
      if (r =? 0)%Z then Ok (inl (root, h))
      else
        do h <- maybe_split_for_insert h rootp parentp gparentp p_r gp_r false;
        let nextp := if (r <? 0)%Z then CLeft root else CRight root in
        do v <- load h nextp;
        match v with
        | None => Ok (inr (h, nextp, rootp, parentp, r, p_r))
        | Some _ => tsearch_loop fuel key h nextp (Some rootp) parentp r p_r
        end
  end.
(** lib/search.c 312-324, the new node. *)
Definition tsearch_new (key : K) (h : theap) (nextp rootp : cell) (parentp : option cell) (r p_r : Z) : res (nat * theap) :=
  let q := length (hnodes h) in
  do h <- store (mkH (hroot h) (hnodes h ++ [mkT key None None true])) nextp (Some q);
  do h <- (if cell_eqb nextp rootp then Ok h else maybe_split_for_insert h nextp (Some rootp) parentp r p_r true);
  Ok (q, h).
(** lib/search.c 269-327, __tsearch.  The result is the node; the caller reads its key.  The bound on the number of rounds is never
    reached. *)
Definition tsearch (key : K) (h : theap) : res (nat * theap) :=
  match hroot h with
  | None => tsearch_new key h CRoot CRoot None 0 0
  | Some root =>
      do h <- set_red h root false;
      do s <- tsearch_loop (3 * length (hnodes h) + 1) key h CRoot None None 0 0;
      match s with
      | inl x => Ok x
      | inr (h, nextp, rootp, parentp, r, p_r) => tsearch_new key h nextp rootp parentp r p_r
      end
  end.

(** lib/search.c 336-361, __tfind. *)
Fixpoint tfind_loop (fuel : nat) (key : K) (h : theap) (rootp : cell) : res (option nat) :=
  do v <- load h rootp;
  match v with
  | None => Ok None
  | Some root =>
      match fuel with
      | O => Err Diverge
      | S fuel =>
          do n <- get (hnodes h) root;
          let r := compar key (tkey n) in
          if (r =? 0)%Z then Ok (Some root)
          else tfind_loop fuel key h (if (r <? 0)%Z then CLeft root else CRight root)
      end
  end.
Definition tfind (key : K) (h : theap) : res (option nat) := tfind_loop (length (hnodes h)) key h CRoot.

(** lib/search.c 622-655, trecurse and __twalk: the calls of the action, as a list. *)
Inductive visit := preorder | postorder | endorder | leaf.
Fixpoint trecurse (fuel : nat) (h : theap) (root level : nat) : res (list (nat * visit * nat)) :=
  match fuel with
  | O => Err Diverge
  | S fuel =>
      do n <- get (hnodes h) root;
      match tleft n, tright n with
      | None, None => Ok [(root, leaf, level)]
      | l, r =>
          do a <- (match l with Some i => trecurse fuel h i (level + 1) | None => Ok [] end);
          do b <- (match r with Some i => trecurse fuel h i (level + 1) | None => Ok [] end);
          Ok ((root, preorder, level) :: a ++ (root, postorder, level) :: b ++ [(root, endorder, level)])
      end
  end.
Definition twalk (h : theap) : res (list (nat * visit * nat)) :=
  match hroot h with None => Ok [] | Some root => trecurse (length (hnodes h)) h root 0 end.

(** lib/search.c 664-685, tdestroy_recurse and __tdestroy; src/graph.c 498-509, FreeLabelDict; src/io.c 31-42, free_node_tree: the nodes in the order in which
    they and their keys are freed.  [freed] are the nodes freed so far; reading one of them is an error. *)
Fixpoint tdestroy_recurse (fuel : nat) (h : theap) (freed : list nat) (root : nat) : res (list nat) :=
  match fuel with
  | O => Err Diverge
  | S fuel =>
      let live := fun i => check (negb (existsb (Nat.eqb i) freed)) UB_free in
      do _ <- live root;
      do n <- get (hnodes h) root;
      do freed <- (match tleft n with Some i => tdestroy_recurse fuel h freed i | None => Ok freed end);
      do freed <- (match tright n with Some i => tdestroy_recurse fuel h freed i | None => Ok freed end);
      do _ <- check (negb (existsb (Nat.eqb root) freed)) UB_free;
      Ok (freed ++ [root])
  end.
Definition tdestroy (h : theap) : res (list nat) :=
  match hroot h with None => Ok [] | Some root => tdestroy_recurse (length (hnodes h)) h [] root end.
End Search.
Arguments tnode : clear implicits.
Arguments theap : clear implicits.
