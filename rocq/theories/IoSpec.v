(** IoSpec.v -- what the text files mean, stated on texts and lists alone (no model function appears here). *)
From Coq Require Import List Arith Ascii Bool.
From Verif Require Import Base IoModel.
Import ListNotations.
Local Open Scope nat_scope.

(** The blank characters. *)
Definition blank (c : ascii) : Prop := In c [" "; "009"; "010"; "011"; "012"; "013"]%char.

(** The lines of a text: every line but possibly the last ends with its only newline. *)
Definition lines_of (file : list ascii) (lines : list (list ascii)) : Prop :=
  exists full last, lines = full ++ last /\ file = concat lines /\
    (forall l, In l full -> exists b, l = b ++ ["010"%char] /\ ~ In "010"%char b) /\
    (last = [] \/ exists l, last = [l] /\ l <> [] /\ ~ In "010"%char l).

(** A word: a non-empty run of characters that are not blank. *)
Definition word (w : list ascii) : Prop := w <> [] /\ forall c, In c w -> ~ blank c.

(** A line that holds the edge (a, b, w): blanks, a word, blanks, a word, and the end of the line or a blank; in weighted files
    the number [w] is read after the second word, in others it is 1. *)
Definition line_holds {A} {ops : NumOps A} (scan : list ascii -> option A) (weighted : bool)
  (line : list ascii) (e : list ascii * list ascii * A) : Prop :=
  let '(a, b, w) := e in
  exists s1 s2 rest, line = s1 ++ a ++ s2 ++ b ++ rest /\
    (forall c, In c s1 -> blank c) /\ word a /\ s2 <> [] /\ (forall c, In c s2 -> blank c) /\ word b /\
    (forall c t, rest = c :: t -> blank c) /\
    (if weighted then scan rest = Some w else w = n1).

(** The labels of a list in order of first appearance. *)
Fixpoint first_seen (eqb : list ascii -> list ascii -> bool) (l : list (list ascii)) : list (list ascii) :=
  match l with
  | [] => []
  | x :: l' => x :: filter (fun y => negb (eqb x y)) (first_seen eqb l')
  end.
Definition eqb_label (a b : list ascii) : bool := if list_eq_dec ascii_dec a b then true else false.
Definition numbered := first_seen eqb_label.

(** The words numbered in the first name space and in the second one, for the three reading modes. *)
Definition words1 {A} (bip : nat) (es : list (list ascii * list ascii * A)) : list (list ascii) :=
  match bip with
  | 0 => flat_map (fun '(a, b, _) => [a; b]) es
  | 1 => map (fun '(a, _, _) => a) es
  | _ => map (fun '(_, b, _) => b) es
  end.
Definition words2 {A} (bip : nat) (es : list (list ascii * list ascii * A)) : list (list ascii) :=
  match bip with
  | 0 => words1 0 es
  | 1 => map (fun '(_, b, _) => b) es
  | _ => map (fun '(a, _, _) => a) es
  end.
Definition ends {A} (bip : nat) (e : list ascii * list ascii * A) : list ascii * list ascii :=
  let '(a, b, _) := e in match bip with 0 | 1 => (a, b) | _ => (b, a) end.

(** The arrays returned for the edges [es] read in mode [bip]. *)
Record describes {A} (bip : nat) (es : list (list ascii * list ascii * A)) (inp : @edge_input A) : Prop := {
  ds_E : eiE inp = length es;
  ds_N : eiN inp = length (numbered (words1 bip es));
  ds_labels : forall i, i < eiN inp -> nth_error (ei_labels inp) i = Some (nth_error (numbered (words1 bip es)) i);
  ds_in : forall k e, nth_error es k = Some e ->
    exists i, nth_error (ei_in inp) k = Some (Some i) /\ nth_error (numbered (words1 bip es)) i = Some (fst (ends bip e));
  ds_out : forall k e, nth_error es k = Some e ->
    exists i, nth_error (ei_out inp) k = Some (Some i) /\ nth_error (numbered (words2 bip es)) i = Some (snd (ends bip e));
  ds_w : forall k a b w, nth_error es k = Some (a, b, w) -> nth_error (ei_w inp) k = Some (Some w)
}.

(** A label that a text of groups can hold: not empty, without separator, short enough for the buffer. *)
Definition cell_label (l : list ascii) : Prop :=
  l <> [] /\ ~ In "009"%char l /\ ~ In "010"%char l /\ length l < 100.

(** Text of a grouping with one tab between the labels of a group and one newline after each group. *)
Fixpoint tab_joined (ls : list (list ascii)) : list ascii :=
  match ls with
  | [] => []
  | [l] => l
  | l :: ls' => l ++ "009"%char :: tab_joined ls'
  end.
Definition groups_text (lab : nat -> list ascii) (groups : list (list nat)) : list ascii :=
  concat (map (fun g => tab_joined (map lab g) ++ ["010"%char]) groups).
(** Text with a tab after every label. *)
Definition tabbed_text (lab : nat -> list ascii) (groups : list (list nat)) : list ascii :=
  concat (map (fun g => concat (map (fun i => lab i ++ ["009"%char]) g) ++ ["010"%char]) groups).
