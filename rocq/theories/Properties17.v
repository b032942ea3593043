(** Properties17.v -- the search tree of labels: C85 to C88. *)
From Coq Require Import List Arith Lia ZArith Bool Permutation Ascii.
From Verif Require Import Base ListLib IoModel SearchModel SearchSpec SearchProof SearchLoop SearchUse.
Import ListNotations.
Local Open Scope nat_scope.

Section Any.
Context {K : Type} (compar : K -> K -> Z).

(** C85: tsearch finds the entry or makes it, and keeps the tree sorted and balanced; no entry moves. *)
Theorem C85_tsearch (h : theap K) t key : good_compar compar -> holds compar h t ->
  match tsearch compar key h with
  | Ok (q, h') => exists t', holds compar h' t' /\
      ((exists k, In (q, k) (elems t) /\ compar key k = 0%Z /\ elems t' = elems t /\ length (hnodes h') = length (hnodes h)) \/
       ((forall i k, In (i, k) (elems t) -> compar key k <> 0%Z) /\ q = length (hnodes h) /\
        exists l1 l2, elems t = l1 ++ l2 /\ elems t' = l1 ++ (q, key) :: l2 /\ length (hnodes h') = S (length (hnodes h))))
  | Err _ => False
  end.
Proof. intros GC. exact (tsearch_ok compar GC h t key). Qed.

(** C86: tfind answers exactly; with fewer than 2^(d+1)-1 entries it makes at most 2d+1 comparisons. *)
Theorem C86_tfind (h : theap K) t key : good_compar compar -> holds compar h t ->
  match tfind compar key h with
  | Ok (Some q) => exists k, In (q, k) (elems t) /\ compar key k = 0%Z
  | Ok None => forall i k, In (i, k) (elems t) -> compar key k <> 0%Z
  | Err _ => False
  end.
Proof. intros GC. exact (tfind_ok compar GC key h t). Qed.
Theorem C86_comparisons (h : theap K) t key d : good_compar compar -> holds compar h t -> length (elems t) + 1 < 2 ^ S d ->
  tfind_loop compar (2 * d + 1) key h CRoot = tfind compar key h.
Proof. intros GC. exact (tfind_fast compar GC key h t d). Qed.

(** C87: a walk reports the nodes in order; freeing the tree frees each node once. *)
Theorem C87_twalk (h : theap K) t : holds compar h t ->
  exists ev, twalk h = Ok ev /\ map who (filter inorder_event ev) = map fst (elems t) /\ map who (filter preorder_event ev) = ids t.
Proof. exact (twalk_ok compar h t). Qed.
Theorem C87_tdestroy (h : theap K) t : holds compar h t -> exists l, tdestroy h = Ok l /\ Permutation l (ids t) /\ NoDup l.
Proof. exact (tdestroy_ok compar h t). Qed.

(** C88: a table of entries in the order in which they were made. *)
Theorem C88_table (h : theap K) key : good_compar compar -> is_table compar h ->
  match tsearch compar key h with
  | Ok (q, h') => is_table compar h' /\ exists k, nth_error (entries h') q = Some k /\ compar key k = 0%Z /\
      match find (fun k' => (compar key k' =? 0)%Z) (entries h) with
      | Some k' => k = k' /\ entries h' = entries h
      | None => k = key /\ entries h' = entries h ++ [key] /\ q = length (entries h)
      end
  | Err _ => False
  end.
Proof. intros GC. exact (tsearch_table compar GC h key). Qed.
Theorem C88_empty : is_table compar (mkH None []).
Proof. exact (empty_table compar). Qed.
End Any.

(** C88 for labels: the tree is the dictionary [dict_find] of the models of the input functions. *)
Theorem C88_strcmp {V : Type} : good_compar (@NodeTreeLabelCompare V).
Proof. exact label_good. Qed.
Theorem C88_intern (h : theap (label * nat)) lab v : is_table NodeTreeLabelCompare h ->
  match tsearch NodeTreeLabelCompare (lab, v) h with
  | Ok (q, h') => is_table NodeTreeLabelCompare h' /\
      match dict_find (entries h) lab with
      | Some w => nth_error (entries h') q = Some (lab, w) /\ entries h' = entries h
      | None => nth_error (entries h') q = Some (lab, v) /\ entries h' = entries h ++ [(lab, v)]
      end
  | Err _ => False
  end.
Proof. exact (dict_tsearch h lab v). Qed.
Theorem C88_lookup (h : theap (label * nat)) lab v : is_table NodeTreeLabelCompare h ->
  match tfind NodeTreeLabelCompare (lab, v) h with
  | Ok (Some q) => exists w, nth_error (entries h) q = Some (lab, w) /\ dict_find (entries h) lab = Some w
  | Ok None => dict_find (entries h) lab = None
  | Err _ => False
  end.
Proof. exact (dict_tfind h lab v). Qed.

(** A case: twelve insertions of numbers in an order that needs all four rotations. *)
Definition zcmp (a b : Z) : Z := (a - b)%Z.
Lemma zcmp_good : good_compar zcmp.
Proof. constructor; unfold zcmp; intros; lia. Qed.
Definition fill17 (l : list Z) : res (theap Z) := foldM (fun h k => do x <- tsearch zcmp k h; Ok (snd x)) (mkH None []) l.
Lemma fill_table : forall l h, is_table zcmp h -> exists h', foldM (fun h k => do x <- tsearch zcmp k h; Ok (snd x)) h l = Ok h' /\ is_table zcmp h'.
Proof.
  induction l as [|k l IH]; intros h H; cbn [foldM]; [eauto|]. pose proof (C88_table zcmp h k zcmp_good H) as TS. destruct (tsearch zcmp k h) as [[q h']|e]; [|tauto]. destruct TS as [H' _]. cbn [bind snd]. exact (IH h' H').
Qed.
Definition list17 : list Z := [5; 1; 9; 3; 4; 7; 6; 2; 8; 0; 4; 10; 11]%Z.
Example case17 : exists h t, fill17 list17 = Ok h /\ holds zcmp h t /\ is_table zcmp h /\ length (elems t) = 12 /\ 1 < length (hnodes h).
Proof.
  destruct (fill_table list17 _ (C88_empty zcmp)) as (h & E & T). exists h. pose proof T as (t & H & P). exists t. assert (L : length (hnodes h) = 12). { assert (X : match fill17 list17 with Ok h => length (hnodes h) | _ => 0 end = 12) by (vm_compute; reflexivity). unfold fill17 in X. rewrite E in X. exact X. }
  splits; auto; [|lia]. apply Permutation_length in P. rewrite map_length, seq_length in P. congruence.
Qed.
Example run17 : match fill17 list17 with
  | Ok h => map who (filter inorder_event (match twalk h with Ok e => e | _ => [] end)) = [9; 1; 7; 3; 4; 0; 6; 5; 8; 2; 10; 11] /\ tfind zcmp 7%Z h = Ok (Some 5) /\ tfind zcmp 12%Z h = Ok None /\
      (match twalk h with Ok e => length e | _ => 0 end) = 24 | _ => False end.
Proof. vm_compute. auto. Qed.

Print Assumptions C85_tsearch.
Print Assumptions C86_tfind.
Print Assumptions C86_comparisons.
Print Assumptions C87_twalk.
Print Assumptions C87_tdestroy.
Print Assumptions C88_table.
Print Assumptions C88_empty.
Print Assumptions C88_strcmp.
Print Assumptions C88_intern.
Print Assumptions C88_lookup.
