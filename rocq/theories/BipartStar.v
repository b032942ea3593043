(** BipartStar.v -- swapping the two sides; RandomizeBipart when no two links can be switched. *)
From Coq Require Import List Arith Lia Bool Permutation QArith.
From Verif Require Import Base Num ListLib NatSum IoModel GraphModel GraphSpec GraphProof SAProof GraphRand BipartModel BipartSpec BipartRen BipartRand.
Import ListNotations.
Local Open Scope nat_scope.

Section Star.
Context {A : Type} {ops : NumOps A}.
Implicit Types (g : net A) (b : binet A).

Lemma invert_bipartite b : bipartite b -> bipartite (InvertBipart b).
Proof.
  intros [H1 H2 H3 H4 H5 H6 H7 H8]. split; cbn [InvertBipart bmem bset1 bset2]; auto.
  - rewrite Permutation_app_comm. exact H1.
  - intros i j H. specialize (H5 i j H). tauto.
Qed.
Theorem NLinks_invert b : bipartite b -> exists b1 b2, NLinksBipart b = Ok (lsum (degree (bmem b)) (bset1 b), b1) /\ NLinksBipart (InvertBipart b) = Ok (lsum (degree (bmem b)) (bset1 b), b2).
Proof.
  intros B. destruct (NLinksBipart_spec b B) as (b1 & E1 & _). destruct (NLinksBipart_spec _ (invert_bipartite b B)) as (b2 & E2 & _). exists b1, b2. split; auto.
  rewrite E2. cbn [InvertBipart bmem bset1]. now rewrite (sum_sides b B).
Qed.

(** Every two links of the list share an end. *)
Definition star (ls : list (nat * nat)) : Prop := forall x y x' y', In (x, y) ls -> In (x', y') ls -> x = x' \/ y = y'.
Lemma pick_second_star ls n1 n2 : star ls -> In (n1, n2) ls -> forall fuel ds, Forall good_draw ds -> pick_second (A := A) fuel ls (length ls) n1 n2 ds = Err RngOut.
Proof.
  intros St Hin. induction fuel as [|f IH]; intros ds Hd; auto. cbn [pick_second]. destruct ds as [|u ds]; auto. inversion Hd as [|? ? D1 Hd1]; subst. cbn [draw bind].
  destruct (nth_ex ls (nfloor (nmul u (nofnat (length ls))))) as [[x y] E]; [apply D1; destruct ls; [destruct Hin|simpl; lia]|]. rewrite (get_ok _ _ _ E). cbn [bind].
  replace ((n1 =? x) || (n2 =? y)) with true; auto. symmetry. apply orb_true_iff. rewrite !Nat.eqb_eq. apply St; auto. eapply nth_error_In; eauto.
Qed.
Lemma switch_bi_star g ls ds : star ls -> 0 < length ls -> Forall good_draw ds -> switch_bi (A := A) (g, ls, ds) (length ls) = Err RngOut.
Proof.
  intros St Hp Hd. unfold switch_bi. rewrite Nat.add_1_r. cbn [pick_both]. destruct ds as [|u ds]; auto. inversion Hd as [|? ? D1 Hd1]; subst. cbn [draw bind].
  destruct (nth_ex ls (nfloor (nmul u (nofnat (length ls))))) as [[x y] E]; [apply D1; auto|]. rewrite (get_ok _ _ _ E). cbn [bind].
  rewrite pick_second_star; auto. eapply nth_error_In; eauto.
Qed.
(** If every two links share an end, the search for two links to switch takes all draws there are. *)
Theorem RandomizeBipart_star b times ds : bipartite b -> Forall good_draw ds -> (exists i j, In j (nbrs (bmem b) i)) ->
  (forall i j i' j', In i (bset1 b) -> In i' (bset1 b) -> In j (nbrs (bmem b) i) -> In j' (nbrs (bmem b) i') -> i = i' \/ j = j') ->
  0 < nceil (nmul times (nofnat (lsum (degree (bmem b)) (bset1 b)))) -> RandomizeBipart b times ds = Err RngOut.
Proof.
  intros B Hd (i0 & j0 & Hex) St Hn. unfold RandomizeBipart. destruct (NLinksBipart_spec b B) as (b1 & -> & B1 & (F1 & F2 & F3 & F4 & F5)). cbn [bind].
  rewrite (link_list_bi_spec b1 B1). cbn [bind].
  assert (El : length (bi_edges b1) = lsum (degree (bmem b)) (bset1 b)) by (rewrite bi_edges_length, F1; apply lsum_ext; intros i _; unfold degree; now rewrite F4).
  rewrite <- El in *. rewrite Nat.leb_refl. cbn [check bind]. clear El. destruct (nceil _) as [|n]; [lia|]. cbn [seq foldM]. rewrite switch_bi_star; auto.
  - intros x y x' y' H H'. apply In_bi_edges in H as [H1 H2]. apply In_bi_edges in H' as [H3 H4]. rewrite F4 in H2, H4. rewrite F1 in H1, H3. eauto.
  - assert (H : exists x y, In (x, y) (bi_edges b1)).
    { rewrite <- F4 in Hex. destruct (bi_cross b1 B1 i0 j0 Hex) as [[H1 H2]|[H1 H2]]; [exists i0, j0|exists j0, i0]; apply In_bi_edges; split; auto.
      apply nbrs_weight. rewrite (bi_sym b1 B1). now apply nbrs_weight. }
    destruct H as (x & y & H). destruct (bi_edges b1); simpl in *; [tauto|lia].
Qed.
End Star.
