(** BipartModel.v -- model of src/bipartite.c.

    All nodes of a bipartite network sit in one memory, a list of nodes; a pointer to a node is its position there.  Each of
    the two node lists (net1 and net2, whose headers are implicit) is the list of these pointers in order.  The field num of a
    node counts within its own list. *)
From Coq Require Import List Arith Ascii Bool QArith.
From Verif Require Import Base IoModel GraphModel GroupModel.
Import ListNotations.
Local Open Scope nat_scope.

Section Bipart.
Context {A : Type} {ops : NumOps A}.

(** src/bipartite.h 20-23, struct binet. *)
Record binet := mkBi { bmem : net A; bset1 : list nat; bset2 : list nat }.

(** src/bipartite.c 325-340, NCommonLinksBipart: links are compared by the node they point to. *)
Definition eq_refs (o o' : option nat) : bool :=
  match o, o' with Some a, Some b => a =? b | None, None => true | _, _ => false end.
Definition NCommonLinksBipart (g : net A) (i j : nat) : res nat :=
  do n <- get g i;
  do m <- get g j;
  Ok (fold_left (fun c l1 => fold_left (fun c l2 => if eq_refs (lref l1) (lref l2) then c + 1 else c) (gadj m) c) (gadj n) 0).

(** src/bipartite.c 350-369, SumProductsOfCommonWeightsBipart. *)
Definition SumProductsOfCommonWeightsBipart (g : net A) (i j : nat) : res A :=
  do n <- get g i;
  do m <- get g j;
  Ok (fold_left (fun c l1 => fold_left (fun c l2 =>
        if eq_refs (lref l1) (lref l2) then nadd c (nmul (lweight l1) (lweight l2)) else c) (gadj m) c) (gadj n) n0).

(** src/bipartite.c 522-532, InvertBipart. *)
Definition InvertBipart (b : binet) : binet := mkBi (bmem b) (bset2 b) (bset1 b).

(** src/bipartite.c 539-549, NLinksBipart. *)
Definition NLinksBipart (b : binet) : res (nat * binet) :=
  do (t, g) <- foldM (fun '(t, g) i => do (k, g) <- NodeDegree g i; Ok (t + k, g)) (0, bmem b) (bset1 b);
  Ok (t, mkBi g (bset1 b) (bset2 b)).

(** src/bipartite.c 673-681: all links of net1, in order. *)
Definition link_list_bi (b : binet) : res (list (nat * nat)) :=
  foldM (fun acc i =>
    do n <- get (bmem b) i;
    foldM (fun acc l => do j <- deref (lref l); Ok (acc ++ [(i, j)])) acc (gadj n)) [] (bset1 b).

(** src/bipartite.c 695-699: redraw the second link until it shares no end with the first. *)
Fixpoint pick_second (fuel : nat) (ls : list (nat * nat)) (nlink n1 n2 : nat) (ds : list A) : res (nat * nat * nat * list A) :=
  match fuel with
  | 0 => Err RngOut
  | S f =>
      do (u, ds) <- draw ds;
      let t2 := nfloor (nmul u (nofnat nlink)) in
      do (n3, n4) <- get ls t2;
      if (n1 =? n3) || (n2 =? n4) then pick_second f ls nlink n1 n2 ds else Ok (t2, n3, n4, ds)
  end.

(** src/bipartite.c 690-702: redraw both links until neither new link exists.  Every round takes draws, so the number of draws
    bounds the rounds. *)
Fixpoint pick_both (fuel : nat) (g : net A) (ls : list (nat * nat)) (nlink : nat) (ds : list A)
  : res (nat * nat * nat * nat * nat * nat * list A) :=
  match fuel with
  | 0 => Err RngOut
  | S f =>
      do (u, ds) <- draw ds;
      let t1 := nfloor (nmul u (nofnat nlink)) in
      do (n1, n2) <- get ls t1;
      do (t2, n3, n4, ds) <- pick_second (length ds + 1) ls nlink n1 n2 ds;
      do x <- IsThereLink g n1 n4;
      if x then pick_both f g ls nlink ds
      else
      do y <- IsThereLink g n2 n3;
      if y then pick_both f g ls nlink ds else Ok (t1, t2, n1, n2, n3, n4, ds)
  end.

(** src/bipartite.c 687-717, one switch. *)
Definition switch_bi (st : net A * list (nat * nat) * list A) (nlink : nat) : res (net A * list (nat * nat) * list A) :=
  let '(g, ls, ds) := st in
  do (t1, t2, n1, n2, n3, n4, ds) <- pick_both (length ds + 1) g ls nlink ds;
  do g <- switch_ends g n1 n2 n3 n4 n0;
  do ls <- set ls t1 (n1, n4);
  do ls <- set ls t2 (n3, n2);
  Ok (g, ls, ds).

(** src/bipartite.c 657-723, RandomizeBipart.  The arrays hold [nlink] pairs: writing more is out of bounds. *)
Definition RandomizeBipart (b : binet) (times : A) (ds : list A) : res (binet * list A) :=
  do (nlink, b) <- NLinksBipart b;
  let niter := nceil (nmul times (nofnat nlink)) in
  do ls <- link_list_bi b;
  do _ <- check (length ls <=? nlink) UB_oob;
  do (g, _, ds) <- foldM (fun st _ => switch_bi st nlink) (bmem b, ls, ds) (seq 0 niter);
  Ok (mkBi g (bset1 b) (bset2 b), ds).
(** src/bipartite.c 567-585, 615-632 and 455-490: a node is appended and the entry of its label in the search tree is made to
    point to it (GetNodeDict then finds the last node with that label). *)
Definition copy_node (st : net A * dict) (lab : label) : res (net A * dict) :=
  let '(g, d) := st in do (p, g) <- CreateNodeGraph g lab; Ok (g, (lab, p) :: d).
Definition GetNodeDict (lab : label) (d : dict) : option nat := dict_find d lab.

(** src/bipartite.c 588-597 and 636-644: both directions of a link of the projection. *)
Definition project_link (b : binet) (d : dict) (cw : nat -> nat -> res nat) (i : nat) (g : net A) (j : nat) : res (net A) :=
  do w <- cw i j;
  if 0 <? w then
    do n <- get (bmem b) i;
    do m <- get (bmem b) j;
    do p <- deref (GetNodeDict (glabel n) d);
    do q <- deref (GetNodeDict (glabel m) d);
    do (_, g) <- AddAdjacency g p q false false (nofnat w) 0;
    do (_, g) <- AddAdjacency g q p false false (nofnat w) 0;
    Ok g
  else Ok g.
(** src/bipartite.c 584-600 and 632-647: the pairs of nodes of net1, the second after the first. *)
Fixpoint project_links (b : binet) (d : dict) (cw : nat -> nat -> res nat) (g : net A) (l : list nat) : res (net A) :=
  match l with
  | [] => Ok g
  | i :: l' => do g <- foldM (project_link b d cw i) g l'; project_links b d cw g l'
  end.
Definition project (b : binet) (cw : nat -> nat -> res nat) : res (net A) :=
  do (g, d) <- foldM (fun st i => do n <- get (bmem b) i; copy_node st (glabel n)) ([], []) (bset1 b);
  project_links b d cw g (bset1 b).

(** src/bipartite.c 558-602, ProjectBipart. *)
Definition ProjectBipart (b : binet) : res (net A) := project b (NCommonLinksBipart (bmem b)).
(** src/bipartite.c 605-649, ProjectBipartWeighted: the sum is stored in an int, which cuts off its fraction (a negative one
    makes no link either way).  Sums beyond the largest int are outside the model. *)
Definition ProjectBipartWeighted (b : binet) : res (net A) :=
  project b (fun i j => do s <- SumProductsOfCommonWeightsBipart (bmem b) i j; Ok (nfloor s)).

(** src/bipartite.c 442-515, CopyBipart.  All nodes of the copy are new; the memory of the copy holds those of net1, then
    those of net2. *)
Definition copy_fields (n : gnode A) (m : gnode A) : gnode A :=
  mkNode (glabel m) (gnum n) (gstate n) (gadj m) (ggroup n) (gdvar n) (gdeg m) (gstr m).
(** CreateNodeGraph after the last node of a list that is part of a larger memory. *)
Definition CreateNodeAt (g : net A) (last : option nat) (lab : label) : res (nat * net A) :=
  do lab <- store_label lab;
  do num <- match last with None => Ok 0 | Some k => do n <- get g k; Ok (gnum n + 1) end;
  Ok (length g, g ++ [mkNode lab num 0 [] None (nofQ (-1 # 1)) 0 n0]).
Definition copy_side (b : binet) (g : net A) (l : list nat) : res (net A * list nat * dict) :=
  foldM (fun '(g, s, d) i =>
    do n <- get (bmem b) i;
    do (p, g) <- CreateNodeAt g (match rev s with [] => None | k :: _ => Some k end) (glabel n);
    do g <- upd_node g p (copy_fields n);
    Ok (g, s ++ [p], (glabel n, p) :: d)) (g, [], []) l.
Definition CopyBipart (b : binet) : res binet :=
  do (g, s1, d1) <- copy_side b [] (bset1 b);
  do (g, s2, d2) <- copy_side b g (bset2 b);
  do g <- foldM (fun g i =>
    do n <- get (bmem b) i;
    foldM (fun g l =>
      do p <- deref (GetNodeDict (glabel n) d1);
      do q <- deref (GetNodeDict (llabel l) d2);
      do (_, g) <- AddAdjacency g p q false false (lweight l) 0;
      do (_, g) <- AddAdjacency g q p false false (lweight l) 0;
      Ok g) g (gadj n)) g (bset1 b);
  Ok (mkBi g s1 s2).

(** src/bipartite.c 86-116: find the node of a label in one list, or append a new one. *)
Definition intern_node (g : net A) (s : list nat) (d : dict) (lab : label) : res (nat * net A * list nat * dict) :=
  match dict_find d lab with
  | Some p => Ok (p, g, s, d)
  | None =>
      do (p, g) <- CreateNodeAt g (match rev s with [] => None | k :: _ => Some k end) lab;
      Ok (p, g, s ++ [p], (lab, p) :: d)
  end.

(** src/bipartite.c 51-129, FBuildNetworkBipart.  [None]: a line has too few fields and the function returns NULL.
    [scan_lf] is the conversion %lf. *)
Definition build_line (add_weight : bool) (b : binet) (d1 d2 : dict) (l1 l2 : label) (w : A) : res (binet * dict * dict) :=
  do (p, g, s1, d1) <- intern_node (bmem b) (bset1 b) d1 l1;
  do (q, g, s2, d2) <- intern_node g (bset2 b) d2 l2;
  do (_, g) <- AddAdjacency g p q false add_weight w 0;
  do (_, g) <- AddAdjacency g q p false add_weight w 0;
  Ok (mkBi g s1 s2, d1, d2).
Fixpoint build_lines (scan_lf : list ascii -> option A) (weighted add_weight : bool) (st : binet * dict * dict) (ls : list (list ascii)) : res (option binet) :=
  match ls with
  | [] => Ok (Some (fst (fst st)))
  | line :: ls' =>
      do r <- scan_line scan_lf weighted line;
      match r with
      | None => Ok None
      | Some (l1, l2, w) =>
          let '(b, d1, d2) := st in
          do st <- build_line add_weight b d1 d2 l1 l2 w;
          build_lines scan_lf weighted add_weight st ls'
      end
  end.
Definition FBuildNetworkBipart (scan_lf : list ascii -> option A) (file : list ascii) (weighted add_weight : bool) : res (option binet) :=
  build_lines scan_lf weighted add_weight (mkBi [] [] [], [], []) (getlines file).

(** src/bipartite.c 811-833, FPrintBipart.  [show] is the conversion %g. *)
Definition FPrintBipart (show : A -> list ascii) (b : binet) (weighted : bool) : res (list ascii) :=
  foldM (fun out i =>
    do n <- get (bmem b) i;
    foldM (fun out l =>
      do j <- deref (lref l);
      do m <- get (bmem b) j;
      Ok (out ++ glabel n ++ [" "%char] ++ glabel m ++ (if weighted then [" "%char] ++ show (lweight l) else []) ++ [nl])) out (gadj n))
    [] (bset1 b).
(** src/bipartite.c 866-876, 907-918: the pairs of nodes of a group, the second after the first. *)
Fixpoint over_pairs {S} (f : S -> nat -> nat -> res S) (st : S) (ls : list (link A)) : res S :=
  match ls with
  | [] => Ok st
  | l :: ls' =>
      do st <- foldM (fun st l' => do i <- deref (lref l); do j <- deref (lref l'); f st i j) st ls';
      over_pairs f st ls'
  end.

(** src/bipartite.c 848-883, ModularityBipart.  The degrees are cached in the nodes. *)
Definition bimod_pair (sms sms2 s2ms : A) (st : A * net A) (i j : nat) : res (A * net A) :=
  let '(q, g) := st in
  do c12 <- NCommonLinksBipart g i j;
  do (t1, g) <- NodeDegree g i;
  do (t2, g) <- NodeDegree g j;
  Ok (nadd q (nsub (ndiv (nofnat c12) (nsub sms2 sms)) (ndiv (nofnat (t1 * t2)) s2ms)), g).
Definition ModularityBipart (b : binet) (P : gpart A) : res (A * binet) :=
  do (sms, sms2, g) <- foldM (fun '(s, s2, g) i =>
      do (k, g) <- NodeDegree g i;
      do (k1, g) <- NodeDegree g i;
      do (k2, g) <- NodeDegree g i;
      Ok (nadd s (nofnat k), nadd s2 (nofnat (k1 * k2)), g)) (n0, n0, bmem b) (bset2 b);
  do (q, g) <- foldM (fun st G => over_pairs (bimod_pair sms sms2 (nmul sms sms)) st (pnodes G)) (n0, g) P;
  Ok (nmul q (nofQ (2 # 1)), mkBi g (bset1 b) (bset2 b)).

(** src/bipartite.c 890-925, ModularityBipartWeighted. *)
Definition bimodw_pair (sWa sWa2 s2Wa : A) (st : A * net A) (i j : nat) : res (A * net A) :=
  let '(q, g) := st in
  do sww12 <- SumProductsOfCommonWeightsBipart g i j;
  do (s1, g) <- NodeStrength g i;
  do (s2, g) <- NodeStrength g j;
  Ok (nadd q (nsub (ndiv sww12 (nsub sWa2 sWa)) (ndiv (nmul s1 s2) s2Wa)), g).
Definition ModularityBipartWeighted (b : binet) (P : gpart A) : res (A * binet) :=
  do (sWa, sWa2, g) <- foldM (fun '(s, s2, g) i =>
      do (k, g) <- NodeStrength g i;
      do (k1, g) <- NodeStrength g i;
      do (k2, g) <- NodeStrength g i;
      Ok (nadd s k, nadd s2 (nmul k1 k2), g)) (n0, n0, bmem b) (bset2 b);
  do (q, g) <- foldM (fun st G => over_pairs (bimodw_pair sWa sWa2 (nmul sWa sWa)) st (pnodes G)) (n0, g) P;
  Ok (nmul q (nofQ (2 # 1)), mkBi g (bset1 b) (bset2 b)).

(** src/bipartite.c 1019-1063, ParticipationCoefficientBipart of node [i], whose list is [side]: the counters go up to the
    number of the last node of that list. *)
Definition ParticipationCoefficientBipart (g : net A) (side : list nat) (i : nat) : res A :=
  do k <- deref (hd_error (rev side));
  do n <- get g k;
  let maxNum := gnum n in
  do n <- get g i;
  do (norm, cnt) <- foldM (fun st t =>
      do s <- deref (lref t);
      do m <- get g s;
      foldM (fun '(norm, cnt) a =>
        do j <- deref (lref a);
        if j =? i then Ok (norm, cnt)
        else
          do m <- get g j;
          match ggroup m with
          | None => Err UB_oob
          | Some x => do c <- get cnt x; do cnt <- set cnt x (c + 1); Ok (norm + 1, cnt)
          end) st (gadj m)) (0, repeat 0 (maxNum + 1)) (gadj n);
  Ok (nsub (nofQ (1 # 1)) (fold_left (fun P c => nadd P (ndiv (nmul (nofnat c) (nofnat c)) (nmul (nofnat norm) (nofnat norm)))) cnt n0)).
End Bipart.
Arguments binet : clear implicits.
