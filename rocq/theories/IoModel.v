(** IoModel.v -- model of src/io.c: reading edge lists, writing and reading partitions.
    A file is the list of its characters.  The standard library functions used by the code (getline, sscanf, fscanf with the
    conversions that occur, tsearch, hsearch) are modelled by their documented behaviour.  Files holding the character zero are
    outside the model (getline would return a line that sscanf reads only up to the zero). *)
From Coq Require Import List Arith Ascii Bool.
From Verif Require Import Base PartModel FillModel.
Import ListNotations.
Local Open Scope nat_scope.

(** A C string without its terminating zero. *)
Notation label := (list ascii) (only parsing).
Definition nl : ascii := "010"%char.
Definition tab : ascii := "009"%char.

(** isspace in the C locale. *)
Definition is_space (c : ascii) : bool :=
  let n := nat_of_ascii c in (n =? 32) || ((9 <=? n) && (n <=? 13)).
Definition ascii_eqb (a b : ascii) : bool := Ascii.eqb a b.
Fixpoint label_eqb (a b : label) : bool :=
  match a, b with
  | [], [] => true
  | x :: a', y :: b' => ascii_eqb x y && label_eqb a' b'
  | _, _ => false
  end.

(** The longest prefix whose characters satisfy [f], and the rest. *)
Fixpoint span (f : ascii -> bool) (s : list ascii) : list ascii * list ascii :=
  match s with
  | [] => ([], [])
  | c :: s' => if f c then let '(a, b) := span f s' in (c :: a, b) else ([], s)
  end.

(** src/io.h 15: MAX_LABEL_LENGTH.  A buffer of 100 characters holds a string of at most 99. *)
Definition max_label : nat := 100.
Definition store_label (l : label) : res label := do _ <- check (length l <? max_label) UB_oob; Ok l.

Section Io.
Context {A : Type} {ops : NumOps A}.
(** The number conversion %lf of sscanf: the value read at the start of a text, if there is one. *)
Variable scan_lf : list ascii -> option A.

(** One %s conversion: skip blanks, then read a non-empty run of non-blanks. *)
Definition scan_s (s : list ascii) : option (label * list ascii) :=
  let '(_, s) := span is_space s in
  let '(w, s) := span (fun c => negb (is_space c)) s in
  match w with [] => None | _ => Some (w, s) end.

(** src/io.c 97-103: sscanf of one line.  Returns the two labels and the weight if all expected fields were read; [None] if
    fewer were read.  A label too long for its buffer is an out-of-bounds write. *)
Definition scan_line (weighted : bool) (line : list ascii) : res (option (label * label * A)) :=
  match scan_s line with
  | None => Ok None
  | Some (l1, s) =>
      do l1 <- store_label l1;
      match scan_s s with
      | None => Ok None
      | Some (l2, s) =>
          do l2 <- store_label l2;
          if weighted then match scan_lf s with Some w => Ok (Some (l1, l2, w)) | None => Ok None end
          else Ok (Some (l1, l2, n1))
      end
  end.

(** getline: cut the file into lines, each with its newline if it has one. *)
Fixpoint lines_aux (cur : list ascii) (s : list ascii) : list (list ascii) :=
  match s with
  | [] => match cur with [] => [] | _ => [rev cur] end
  | c :: s' => if ascii_eqb c nl then rev (c :: cur) :: lines_aux [] s' else lines_aux (c :: cur) s'
  end.
Definition getlines (s : list ascii) : list (list ascii) := lines_aux [] s.

(** A growing C array: cells not yet written hold [None]; its capacity is the length of the list. *)
Definition buf X := list (option X).
Definition bwrite {X} (b : buf X) (i : nat) (v : X) : res (buf X) := set b i (Some v).
Definition brealloc {X} (b : buf X) (n : nat) : buf X := firstn n b ++ repeat None (n - length b).

(** The search tree of labels (tsearch with node_compare): a finite map from labels to numbers, in order of insertion. *)
Definition dict := list (label * nat).
Fixpoint dict_find (d : dict) (l : label) : option nat :=
  match d with
  | [] => None
  | (k, v) :: d' => if label_eqb k l then Some v else dict_find d' l
  end.

(** Variables of the reading loop, src/io.c 57-87. *)
Record rd := mkRd {
  rNmax : nat; rEmax : nat; rN : nat; rN2 : nat; rE : nat;
  rlabels : buf label; rweights : buf A; rin : buf nat; rout : buf nat;
  rtree : dict; rtree2 : dict
}.

(** src/io.c 68-81. *)
Definition rd_init : rd :=
  let Nmax := 10 in let Emax := 100 in
  mkRd Nmax Emax 0 0 0 (repeat None (Nmax + 1)) (repeat None (Emax + 1)) (repeat None (Emax + 1)) (repeat None (Emax + 1)) [] [].

(** src/io.c 120-138 and 143-152: look the label up; a new label gets the next number and is stored. *)
Definition intern (l : label) (r : rd) : res (nat * rd) :=
  match dict_find (rtree r) l with
  | Some i => Ok (i, r)
  | None =>
      do labs <- bwrite (rlabels r) (rN r) l;
      Ok (rN r, mkRd (rNmax r) (rEmax r) (rN r + 1) (rN2 r) (rE r) labs (rweights r) (rin r) (rout r)
                     (rtree r ++ [(l, rN r)]) (rtree2 r))
  end.

(** src/io.c 157-166: the other column of a bipartite file has its own tree and its labels are not stored. *)
Definition intern2 (l : label) (r : rd) : res (nat * rd) :=
  match dict_find (rtree2 r) l with
  | Some i => Ok (i, r)
  | None => Ok (rN2 r, mkRd (rNmax r) (rEmax r) (rN r) (rN2 r + 1) (rE r) (rlabels r) (rweights r) (rin r) (rout r)
                            (rtree r) (rtree2 r ++ [(l, rN2 r)]))
  end.

Definition set_in (b : buf nat) (r : rd) : rd :=
  mkRd (rNmax r) (rEmax r) (rN r) (rN2 r) (rE r) (rlabels r) (rweights r) b (rout r) (rtree r) (rtree2 r).
Definition set_out (b : buf nat) (r : rd) : rd :=
  mkRd (rNmax r) (rEmax r) (rN r) (rN2 r) (rE r) (rlabels r) (rweights r) (rin r) b (rtree r) (rtree2 r).
Definition set_weights (b : buf A) (r : rd) : rd :=
  mkRd (rNmax r) (rEmax r) (rN r) (rN2 r) (rE r) (rlabels r) b (rin r) (rout r) (rtree r) (rtree2 r).

(** src/io.c 168-183: count the edge and enlarge the buffers. *)
Definition grow (r : rd) : rd :=
  let E := rE r + 1 in
  let '(Nmax, labs) := if rNmax r <=? rN r + 2 then (rNmax r * 2, brealloc (rlabels r) (rNmax r * 2 + 1)) else (rNmax r, rlabels r) in
  if rEmax r <=? E + 1 then
    let m := rEmax r * 2 in
    mkRd Nmax m (rN r) (rN2 r) E labs (brealloc (rweights r) (m + 1)) (brealloc (rin r) (m + 1)) (brealloc (rout r) (m + 1))
         (rtree r) (rtree2 r)
  else mkRd Nmax (rEmax r) (rN r) (rN2 r) E labs (rweights r) (rin r) (rout r) (rtree r) (rtree2 r).

(** src/io.c 89-184, one line of the file.  [inr] is the early return with code 1.  (The weight is stored before the fields are
    counted; a line that fails ends the function, so the order does not show.) *)
Definition read_line (weighted : bool) (bip : nat) (r : rd) (line : list ascii) : res (rd + unit) :=
  do f <- scan_line weighted line;
  match f with
  | None => Ok (inr tt)
  | Some (l1, l2, w) =>
      do ws <- bwrite (rweights r) (rE r) w;
      let r := set_weights ws r in
      let '(a, b) := if 1 <? bip then (l2, l1) else (l1, l2) in
      do (i, r) <- intern a r;
      do bi <- bwrite (rin r) (rE r) i;
      let r := set_in bi r in
      do (j, r) <- (if bip =? 0 then intern b r else intern2 b r);
      do bo <- bwrite (rout r) (rE r) j;
      Ok (inl (grow (set_out bo r)))
  end.

Fixpoint read_lines (weighted : bool) (bip : nat) (r : rd) (ls : list (list ascii)) : res (rd + unit) :=
  match ls with
  | [] => Ok (inl r)
  | l :: ls' =>
      do x <- read_line weighted bip r l;
      match x with inl r => read_lines weighted bip r ls' | inr e => Ok (inr e) end
  end.

(** The arrays handed back, src/io.c 186-200. *)
Record edge_input := mkInput { eiN : nat; eiE : nat; ei_in : buf nat; ei_out : buf nat; ei_w : buf A; ei_labels : buf label }.

(** src/io.c 53-211, EdgeListFileInput.  [None] stands for the error codes 1 and 2. *)
Definition EdgeListFileInput (weighted : bool) (bip : nat) (file : list ascii) : res (option edge_input) :=
  if 2 <? bip then Ok None
  else
  do x <- read_lines weighted bip rd_init (getlines file);
  match x with
  | inr _ => Ok None
  | inl r => Ok (Some (mkInput (rN r) (rE r) (brealloc (rin r) (rE r + 1)) (brealloc (rout r) (rE r + 1))
                               (brealloc (rweights r) (rE r + 1)) (brealloc (rlabels r) (rN r + 1))))
  end.

(** src/io.c 233-245, ClusteringOutput: one line per module, a tab after every label. *)
Definition ClusteringOutput (p : partition A) (labels : list label) : res (list ascii) :=
  foldM (fun out m =>
    do md <- get (pmods p) m;
    do out <- walkM (fun _ i => next_of p i)
                (fun out i => do nd <- get (pnodes p) i; do l <- get labels (nid nd); Ok (out ++ l ++ [tab]))
                (length (pnodes p)) (mfirst md) out;
    Ok (out ++ [nl])) [] (seq 0 (pM p)).

Definition is_sep (c : ascii) : bool := ascii_eqb c tab || ascii_eqb c nl.

(** src/io.c 256-263: the table of labels.  The first of several equal labels wins (hsearch ENTER keeps the old entry). *)
Fixpoint label_index (labels : list label) (i : nat) (l : label) : option nat :=
  match labels with
  | [] => None
  | k :: ks => if label_eqb k l then Some i else label_index ks (i + 1) l
  end.

(** src/io.c 265-291, one round of the loop: [fscanf(inF, "%[^\t\n]%[\t\n]", label, sep)].
    The buffer [sep] has 2 cells: a run of two or more separators writes outside it.
    At the start of an empty file fscanf returns EOF (-1), which counts as true, and an unwritten label is looked up.
    If the first conversion fails (the next character is a separator) nothing is read and the loop never ends. *)
Fixpoint assign_loop (fuel : nat) (labels : list label) (s : list ascii) (sep : option ascii) (j nnode : nat) (p : partition A)
  : res (partition A * nat) :=
  match fuel with
  | 0 => Err Diverge
  | S fuel' =>
      match s with
      | [] => Err UB_uninit
      | _ =>
        let '(w, s1) := span (fun c => negb (is_sep c)) s in
        match w with
        | [] => Err Diverge
        | _ =>
          do w <- store_label w;
          let '(sp, s2) := span is_sep s1 in
          do _ <- check (length sp <? 2) UB_oob;
          let sep := match sp with [] => sep | c :: _ => Some c end in
          do i <- deref (label_index labels 0 w);                               (* 271-272 *)
          do nnode <- Ok (nnode - 1);
          do p <- append_node p i j;                                            (* 275-287 *)
          do c <- match sep with Some c => Ok c | None => Err UB_uninit end;    (* 288 *)
          let j := if ascii_eqb c nl then j + 1 else j in
          match s2 with
          | [] => Ok (p, nnode)                                                 (* feof *)
          | _ => assign_loop fuel' labels s2 sep j nnode p
          end
        end
      end
  end.

(** src/io.c 247-296, AssignNodesToModulesFromFile.  The counter of missing nodes is an int in C; here it stops at 0. *)
Definition AssignNodesToModulesFromFile (file : list ascii) (p : partition A) (labels : list label)
  : res (partition A * nat) :=
  do (p, nnode) <- assign_loop (length file + 1) (firstn (pN p) labels) file None 0 (pN p) p;
  do p <- CompressPartition p;
  Ok (p, nnode).
End Io.
