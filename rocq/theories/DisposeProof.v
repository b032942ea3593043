(** DisposeProof.v -- every block of a network is given back once, and no other. *)
From Coq Require Import List Arith Bool Lia.
From Verif Require Import Base ListLib DisposeModel.
Import ListNotations.
Local Open Scope nat_scope.

Definition opt (a : option nat) : list nat := match a with Some x => [x] | None => [] end.
Definition text (h : mem) (a : option nat) : Prop := match a with Some x => h x = Some CText | None => True end.
(** The list of links that starts at an address, and its blocks. *)
Inductive chain (h : mem) : option nat -> list nat -> Prop :=
| chain_nil : chain h None []
| chain_cons p l n own : h p = Some (CLis l n) -> text h l -> chain h n own -> chain h (Some p) (opt l ++ p :: own).
(** The list of nodes that starts at an address, and all its blocks. *)
Inductive nodes (h : mem) : option nat -> list nat -> Prop :=
| nodes_nil : nodes h None []
| nodes_cons p l g n own1 own2 : h p = Some (CNode l g n) -> text h l -> chain h g own1 -> nodes h n own2 -> nodes h (Some p) (opt l ++ own1 ++ p :: own2).

(** [h'] is [h] without the blocks [own]. *)
Definition without (own : list nat) (h h' : mem) : Prop := forall a, (In a own -> h' a = None) /\ (~ In a own -> h' a = h a).
Lemma without_nil h : without [] h h.
Proof. intros a. split; [intros []|auto]. Qed.
Lemma without_app o1 o2 h h1 h2 : without o1 h h1 -> without o2 h1 h2 -> without (o1 ++ o2) h h2.
Proof.
  intros H1 H2 a. rewrite in_app_iff. destruct (H1 a) as [A1 A2], (H2 a) as [B1 B2]. destruct (in_dec Nat.eq_dec a o2) as [I2|I2].
  - split; [intros _; auto|tauto].
  - destruct (in_dec Nat.eq_dec a o1) as [I1|I1]; split; intros X; try tauto; rewrite B2 by auto; auto.
Qed.
Lemma without_same o o' h h' : (forall a, In a o <-> In a o') -> without o h h' -> without o' h h'.
Proof. intros E H a. destruct (H a) as [H1 H2]. split; intros X; [apply H1|apply H2]; rewrite E; auto. Qed.
Lemma free_one (h : mem) a c : h a = Some c -> exists h', free h (Some a) = Ok h' /\ without [a] h h'.
Proof. intros E. cbn. rewrite E. eexists. split; [reflexivity|]. intros x. unfold clear. destruct (Nat.eqb_spec x a) as [->|N]; cbn; split; auto; try tauto. intros [->|[]]. congruence. Qed.
Lemma free_text (h : mem) l : text h l -> exists h', free h l = Ok h' /\ without (opt l) h h'.
Proof. destruct l as [a|]; cbn [text opt]; [intros E; exact (free_one h a CText E)|intros _; exists h; split; auto; apply without_nil]. Qed.
Lemma text_frame (h h' : mem) l : (forall a, In a (opt l) -> h' a = h a) -> text h l -> text h' l.
Proof. destruct l as [a|]; cbn; auto. intros E H. rewrite E; auto. Qed.
Lemma chain_frame (h h' : mem) p own : chain h p own -> (forall a, In a own -> h' a = h a) -> chain h' p own.
Proof.
  induction 1 as [|p l n own E T C IH]; intros F; [apply chain_nil|]. apply chain_cons with (n := n).
  - rewrite F; auto. apply in_app_iff. right. now left.
  - apply (text_frame h); auto. intros a Ha. apply F. apply in_app_iff. auto.
  - apply IH. intros a Ha. apply F. apply in_app_iff. right. now right.
Qed.
Lemma nodes_frame (h h' : mem) p own : nodes h p own -> (forall a, In a own -> h' a = h a) -> nodes h' p own.
Proof.
  induction 1 as [|p l g n o1 o2 E T C N IH]; intros F; [apply nodes_nil|]. apply nodes_cons with (g := g) (n := n).
  - rewrite F; auto. rewrite !in_app_iff. right. right. now left.
  - apply (text_frame h); auto. intros a Ha. apply F. apply in_app_iff. auto.
  - apply (chain_frame h); auto. intros a Ha. apply F. rewrite !in_app_iff. auto.
  - apply IH. intros a Ha. apply F. rewrite !in_app_iff. right. right. now right.
Qed.

Lemma FreeNodeLis_ok (h : mem) p l n : h p = Some (CLis l n) -> text h l -> ~ In p (opt l) -> exists h', FreeNodeLis h p = Ok h' /\ without (opt l ++ [p]) h h'.
Proof.
  intros E T N. unfold FreeNodeLis, read_lis. rewrite E. cbn [bind]. destruct (free_text h l T) as (h1 & E1 & W1). rewrite E1. cbn [bind].
  destruct (free_one h1 p (CLis l n)) as (h2 & E2 & W2); [rewrite (proj2 (W1 p) N); auto|]. exists h2. split; auto. eapply without_app; eauto.
Qed.
Lemma FreeAdjacencyList_ok (h : mem) p own : chain h p own -> NoDup own -> forall fuel q, p = Some q -> length own <= fuel -> exists h', FreeAdjacencyList fuel h q = Ok h' /\ without own h h'.
Proof.
  induction 1 as [|p l n own E T C IH]; intros ND fuel q Eq F; [discriminate|]. injection Eq as <-. rewrite app_length in F. cbn [length] in F. destruct fuel as [|fuel]; [lia|].
  apply NoDup_app_iff in ND as (N1 & N2 & N3). inversion N2; subst. cbn [FreeAdjacencyList]. unfold read_lis. rewrite E. cbn [bind].
  assert (X : exists h1, match n with Some q => FreeAdjacencyList fuel h q | None => Ok h end = Ok h1 /\ without own h h1).
  { destruct n as [q|]; [apply IH; auto; lia|]. inversion C; subst. exists h. split; auto. apply without_nil. }
  destruct X as (h1 & E1 & W1). rewrite E1. cbn [bind].
  destruct (FreeNodeLis_ok h1 p l n) as (h2 & E2 & W2).
  - rewrite (proj2 (W1 p)); auto.
  - apply (text_frame h); auto. intros a Ha. apply W1. intros K. apply (N3 a Ha). now right.
  - intros K. apply (N3 p K). now left.
  - exists h2. split; auto. eapply without_same; [|eapply without_app; eauto]. intros a. rewrite !in_app_iff. cbn. tauto.
Qed.
Lemma FreeNode_ok (h : mem) p l g n own fuel : h p = Some (CNode l g n) -> text h l -> chain h g own -> NoDup (opt l ++ own ++ [p]) -> length own <= fuel -> exists h', FreeNode fuel h p = Ok h' /\ without (opt l ++ own ++ [p]) h h'.
Proof.
  intros E T C ND F. apply NoDup_app_iff in ND as (N1 & N2 & N3). apply NoDup_app_iff in N2 as (N4 & _ & N5). unfold FreeNode, read_node. rewrite E. cbn [bind].
  assert (X : exists h1, match g with Some q => FreeAdjacencyList fuel h q | None => Ok h end = Ok h1 /\ without own h h1).
  { destruct g as [q|]; [apply (FreeAdjacencyList_ok h (Some q) own); auto|]. inversion C; subst. exists h. split; auto. apply without_nil. }
  destruct X as (h1 & E1 & W1). rewrite E1. cbn [bind]. assert (Ep : h1 p = Some (CNode l g n)). { rewrite (proj2 (W1 p)); auto. intros K. apply (N5 p K). now left. } rewrite Ep. cbn [bind].
  destruct (free_text h1 l) as (h2 & E2 & W2). { apply (text_frame h); auto. intros a Ha. apply W1. intros K. apply (N3 a Ha). apply in_app_iff. auto. } rewrite E2. cbn [bind].
  destruct (free_one h2 p (CNode l g n)) as (h3 & E3 & W3). { rewrite (proj2 (W2 p)); auto. intros K. apply (N3 p K). apply in_app_iff. right. now left. }
  exists h3. split; auto. eapply without_same; [|eapply without_app; [exact W1|eapply without_app; [exact W2|exact W3]]]. intros a. rewrite !in_app_iff. tauto.
Qed.
Theorem RemoveGraph_ok (h : mem) p own : nodes h p own -> NoDup own -> forall fuel q, p = Some q -> length own <= fuel -> exists h', RemoveGraph fuel h q = Ok h' /\ without own h h'.
Proof.
  induction 1 as [|p l g n o1 o2 E T C N IH]; intros ND fuel q Eq F; [discriminate|]. injection Eq as <-. rewrite !app_length in F. cbn [length] in F. destruct fuel as [|fuel]; [lia|].
  assert (ND' : NoDup ((opt l ++ o1 ++ [p]) ++ o2)) by (rewrite <- !app_assoc; exact ND). apply NoDup_app_iff in ND' as (N1 & N2 & N3).
  cbn [RemoveGraph]. unfold read_node. rewrite E. cbn [bind].
  assert (X : exists h1, match n with Some q => RemoveGraph fuel h q | None => Ok h end = Ok h1 /\ without o2 h h1).
  { destruct n as [q|]; [apply IH; auto; lia|]. inversion N; subst. exists h. split; auto. apply without_nil. }
  destruct X as (h1 & E1 & W1). rewrite E1. cbn [bind]. assert (K : forall a, In a (opt l ++ o1 ++ [p]) -> h1 a = h a) by (intros a Ha; apply W1; intros Y; exact (N3 a Ha Y)).
  destruct (FreeNode_ok h1 p l g n o1 (S fuel)) as (h2 & E2 & W2); auto.
  - rewrite K; auto. rewrite !in_app_iff. cbn. auto.
  - apply (text_frame h); auto. intros a Ha. apply K. apply in_app_iff. auto.
  - apply (chain_frame h); auto. intros a Ha. apply K. rewrite !in_app_iff. auto.
  - lia.
  - exists h2. split; auto. eapply without_same; [|eapply without_app; eauto]. intros a. rewrite !in_app_iff. cbn. tauto.
Qed.
Theorem RemoveBipart_ok (h : mem) p a b o1 o2 fuel : h p = Some (CBi (Some a) (Some b)) -> nodes h (Some a) o1 -> nodes h (Some b) o2 -> NoDup (o1 ++ o2 ++ [p]) -> length o1 <= fuel -> length o2 <= fuel ->
  exists h', RemoveBipart fuel h p = Ok h' /\ without (o1 ++ o2 ++ [p]) h h'.
Proof.
  intros E A B ND F1 F2. apply NoDup_app_iff in ND as (N1 & N2 & N3). apply NoDup_app_iff in N2 as (N4 & _ & N5). unfold RemoveBipart. rewrite E. cbn [bind deref].
  destruct (RemoveGraph_ok h (Some a) o1 A N1 fuel a eq_refl F1) as (h1 & E1 & W1). rewrite E1. cbn [bind].
  destruct (RemoveGraph_ok h1 (Some b) o2) with (fuel := fuel) (q := b) as (h2 & E2 & W2); auto.
  { apply (nodes_frame h); auto. intros x Hx. apply W1. intros K. apply (N3 x K). apply in_app_iff. auto. }
  rewrite E2. cbn [bind]. destruct (free_one h2 p (CBi (Some a) (Some b))) as (h3 & E3 & W3).
  { rewrite (proj2 (W2 p)) by (intros K; apply (N5 p K); now left). rewrite (proj2 (W1 p)); auto. intros K. apply (N3 p K). apply in_app_iff. right. now left. }
  exists h3. split; auto. eapply without_app; [exact W1|eapply without_app; eauto].
Qed.
