(** Properties36.v -- two-sided networks in Pajek format (C183). *)
From Coq Require Import List Arith Bool Ascii QArith Qcanon Lia.
From Verif Require Import Base Num ListLib IoModel GraphModel GraphSpec BipartModel BipartSpec PajBiModel PajBiProof Refute Properties8.
Import ListNotations.
Local Open Scope nat_scope.

Section Generic.
Context {A : Type} {ops : NumOps A}.
(** C183: the nodes of the first side have the numbers from 1, those of the second side the numbers that follow; there is a row exactly for each link, from the first side to the second; no row is there twice. *)
Theorem C183_pajek_two_sided (b : binet A) weighted : bipartite b ->
  exists f, FPrintPajekFileBipart b weighted = Ok f /\ p2_count f = length (bmem b) /\ p2_first f = length (bset1 b) /\ length (p2_nodes f) = p2_count f /\
    (forall k i, nth_error (bset1 b ++ bset2 b) k = Some i -> nth_error (p2_nodes f) k = Some (k + 1, label_of (bmem b) i)) /\
    NoDup (map fst (p2_links f)) /\
    forall a c w, In (a, c, w) (p2_links f) <-> exists k1 k2 i j x, nth_error (bset1 b) k1 = Some i /\ nth_error (bset2 b) k2 = Some j /\ weight (bmem b) i j = Some x /\
      a = k1 + 1 /\ c = k2 + length (bset1 b) + 1 /\ w = (if weighted then Some x else None).
Proof.
  intros B. eexists. split; [exact (Pajek2_ok b weighted B)|]. cbn [p2_count p2_first p2_nodes p2_links].
  split; [|split; [reflexivity|]; split; [now rewrite app_length, !map_length|]; split; [|split; [now apply rows2_once|intros a c w; now apply rows2_In]]].
  - rewrite <- app_length, <- (seq_length (length (bmem b)) 0). apply Permutation.Permutation_length. apply (bi_nodes b B).
  - intros k i H. destruct (Nat.lt_ge_cases k (length (bset1 b))) as [L|L].
    + rewrite nth_error_app1 in H by auto. rewrite nth_error_app1 by (now rewrite map_length). rewrite nth_error_map, H. cbn [option_map]. rewrite (num1 b k i B H). do 2 f_equal. lia.
    + rewrite nth_error_app2 in H by auto. rewrite nth_error_app2 by (now rewrite map_length). rewrite map_length, nth_error_map, H. cbn [option_map]. rewrite (num2 b _ i B H). do 2 f_equal. lia.
Qed.
End Generic.

(** The hypotheses are met by the network of Properties8. *)
#[local] Instance opsE36 : NumOps Qc := Qc_ops ex0 sq0.
Example crew_pajek : bipartite crew /\ match FPrintPajekFileBipart crew false with Ok f => (p2_count f, p2_first f, map fst (p2_links f)) | Err _ => (0, 0, []) end =
  (5, 3, [(1, 4); (1, 5); (2, 4); (2, 5); (3, 4)]).
Proof. split; [apply crew_met|vm_compute; reflexivity]. Qed.

Print Assumptions C183_pajek_two_sided.
Print Assumptions crew_pajek.
