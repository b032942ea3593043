(** HeapProof.v -- the heap-level operations of HeapModel.v carry out the operations of PartModel.v and MoveModel.v on the
    partition they are given and touch nothing else; a deep copy shares no object with its original. *)
From Coq Require Import List Arith Lia Bool.
From Verif Require Import Base ListLib PartModel MoveModel HeapModel PartSpec PartInv MergeProof CopyProof CoreThms CoreExact.
Import ListNotations.
Local Open Scope nat_scope.

Section HeapProof.
Context {A : Type} {ops : NumOps A}.
Implicit Types (p q : partition A) (h : heap A).

(** ** Which partition a heap holds (specification) *)
Record layout := mkLayout { lx : nat; ly : nat; lnodes : list nat; lmods : list nat }.

(** The heap object of a node: pointers become addresses. *)
Definition at_ (na : list nat) (o : option nat) : option nat := option_map (fun i => nth i na 0) o.
Definition hnode (na : list nat) (n : node A) : node A := mkNode (nid n) (nstr n) (nmod n) (at_ na (nprev n)) (at_ na (nnext n)).
Definition hmod (na : list nat) (m : module A) : module A := mkModule (mid m) (msize m) (mstr m) (at_ na (mfirst m)) (at_ na (mlast m)).
Definition inside (k : nat) (o : option nat) : Prop := forall j, o = Some j -> j < k.

(** [Rep h r L p]: the partition object at address [r], with its pointer arrays and objects placed by [L], holds [p]. *)
Record Rep h (r : nat) (L : layout) p : Prop := {
  rep_part : nth_error h r = Some (CPart (pN p) (pM p) (pnempty p) (lx L) (ly L));
  rep_x : nth_error h (lx L) = Some (CArr (lnodes L));
  rep_y : nth_error h (ly L) = Some (CArr (lmods L));
  rep_lenN : length (lnodes L) = pN p;
  rep_lenM : length (lmods L) = pM p;
  rep_N : length (pnodes p) = pN p;
  rep_M : length (pmods p) = pM p;
  rep_node : forall i a nd, nth_error (lnodes L) i = Some a -> nth_error (pnodes p) i = Some nd ->
     nth_error h a = Some (CNode (hnode (lnodes L) nd));
  rep_mod : forall i a md, nth_error (lmods L) i = Some a -> nth_error (pmods p) i = Some md ->
     nth_error h a = Some (CMod (hmod (lnodes L) md));
  rep_xy : lx L <> ly L;
  rep_ndN : NoDup (lnodes L);
  rep_ndM : NoDup (lmods L);
  rep_inN : forall i nd, nth_error (pnodes p) i = Some nd -> inside (pN p) (nprev nd) /\ inside (pN p) (nnext nd);
  rep_inM : forall i md, nth_error (pmods p) i = Some md -> inside (pN p) (mfirst md) /\ inside (pN p) (mlast md)
}.

(** All addresses of a partition. *)
Definition footprint (r : nat) (L : layout) : list nat := r :: lx L :: ly L :: lnodes L ++ lmods L.

(** [only h h' r L]: nothing outside the partition changed, and no object was allocated. *)
Definition only h h' (r : nat) (L : layout) : Prop :=
  length h' = length h /\ forall a, ~ In a (footprint r L) -> nth_error h' a = nth_error h a.

Lemma only_refl h r L : only h h r L. Proof. split; auto. Qed.
Lemma only_trans h1 h2 h3 r L : only h1 h2 r L -> only h2 h3 r L -> only h1 h3 r L.
Proof. intros [A1 B1] [A2 B2]. split; [congruence|]. intros a Ha. rewrite B2, B1; auto. Qed.

Lemma Rep_frame h h' r L p : Rep h r L p -> (forall a, In a (footprint r L) -> nth_error h' a = nth_error h a) -> Rep h' r L p.
Proof.
  intros R E. assert (EN : forall i a, nth_error (lnodes L) i = Some a -> nth_error h' a = nth_error h a).
  { intros i a Hi. apply E. do 3 right. apply in_or_app. left. eapply nth_error_In; eauto. }
  assert (EM : forall i a, nth_error (lmods L) i = Some a -> nth_error h' a = nth_error h a).
  { intros i a Hi. apply E. do 3 right. apply in_or_app. right. eapply nth_error_In; eauto. }
  destruct R. constructor; auto.
  - rewrite E by (cbn; auto). auto.
  - rewrite E by (cbn; auto). auto.
  - rewrite E by (cbn; auto). auto.
  - intros i a nd Ha Hn. rewrite (EN _ _ Ha). eauto.
  - intros i a md Ha Hn. rewrite (EM _ _ Ha). eauto.
Qed.

Definition disjoint (l1 l2 : list nat) : Prop := forall a, In a l1 -> In a l2 -> False.

(** An operation on one partition leaves a partition with other addresses alone. *)
Lemma Rep_other h h' r L r2 L2 p : only h h' r L -> disjoint (footprint r2 L2) (footprint r L) -> Rep h r2 L2 p -> Rep h' r2 L2 p.
Proof. intros [_ O] D R. refine (Rep_frame h h' r2 L2 p R _). intros a Ha. apply O. intros Hb. eapply D; eauto. Qed.

(** ** Reads *)
Lemma h_get_ok h a c : nth_error h a = Some c -> c <> CFreed -> h_get h a = Ok c.
Proof. intros E N. unfold h_get. rewrite E. destruct c; auto. congruence. Qed.
Lemma h_part_ok h r L p : Rep h r L p -> h_part h r = Ok (pN p, pM p, pnempty p, lx L, ly L).
Proof. intros R. unfold h_part. rewrite (h_get_ok _ _ _ (rep_part _ _ _ _ R)) by discriminate. reflexivity. Qed.
Lemma h_nodeptr_ok h r L p i a : Rep h r L p -> nth_error (lnodes L) i = Some a -> h_nodeptr h r i = Ok a.
Proof.
  intros R E. unfold h_nodeptr. rewrite (h_part_ok _ _ _ _ R). cbn [bind]. unfold h_arr.
  rewrite (h_get_ok _ _ _ (rep_x _ _ _ _ R)) by discriminate. cbn [bind]. now apply get_ok.
Qed.
Lemma h_modptr_ok h r L p i a : Rep h r L p -> nth_error (lmods L) i = Some a -> h_modptr h r i = Ok a.
Proof.
  intros R E. unfold h_modptr. rewrite (h_part_ok _ _ _ _ R). cbn [bind]. unfold h_arr.
  rewrite (h_get_ok _ _ _ (rep_y _ _ _ _ R)) by discriminate. cbn [bind]. now apply get_ok.
Qed.
Lemma h_nempty_ok h r L p : Rep h r L p -> h_nempty h r = Ok (pnempty p).
Proof. intros R. unfold h_nempty. rewrite (h_part_ok _ _ _ _ R). reflexivity. Qed.
Lemma h_node_at h a n : nth_error h a = Some (CNode n) -> h_node h a = Ok n.
Proof. intros E. unfold h_node. rewrite (h_get_ok _ _ _ E) by discriminate. reflexivity. Qed.
Lemma h_mod_at h a n : nth_error h a = Some (CMod n) -> h_mod h a = Ok n.
Proof. intros E. unfold h_mod. rewrite (h_get_ok _ _ _ E) by discriminate. reflexivity. Qed.

Lemma node_addr h r L p i : Rep h r L p -> i < pN p -> nth_error (lnodes L) i = Some (nth i (lnodes L) 0).
Proof. intros R H. apply nth_error_nth'. now rewrite (rep_lenN _ _ _ _ R). Qed.
Lemma mod_addr h r L p i : Rep h r L p -> i < pM p -> nth_error (lmods L) i = Some (nth i (lmods L) 0).
Proof. intros R H. apply nth_error_nth'. now rewrite (rep_lenM _ _ _ _ R). Qed.

(** Reading node [i] through its address. *)
Lemma node_read h r L p i nd : Rep h r L p -> get (pnodes p) i = Ok nd ->
  i < pN p /\ nth_error (lnodes L) i = Some (nth i (lnodes L) 0) /\ h_nodeptr h r i = Ok (nth i (lnodes L) 0) /\
  h_node h (nth i (lnodes L) 0) = Ok (hnode (lnodes L) nd).
Proof.
  intros R G. apply get_inv in G. assert (Hi : i < pN p) by (rewrite <- (rep_N _ _ _ _ R); eapply nth_lt; eauto).
  pose proof (node_addr _ _ _ _ i R Hi) as E. splits; auto.
  - eapply h_nodeptr_ok; eauto.
  - apply h_node_at. eapply rep_node; eauto.
Qed.
Lemma mod_read h r L p i md : Rep h r L p -> get (pmods p) i = Ok md ->
  i < pM p /\ nth_error (lmods L) i = Some (nth i (lmods L) 0) /\ h_modptr h r i = Ok (nth i (lmods L) 0) /\
  h_mod h (nth i (lmods L) 0) = Ok (hmod (lnodes L) md).
Proof.
  intros R G. apply get_inv in G. assert (Hi : i < pM p) by (rewrite <- (rep_M _ _ _ _ R); eapply nth_lt; eauto).
  pose proof (mod_addr _ _ _ _ i R Hi) as E. splits; auto.
  - eapply h_modptr_ok; eauto.
  - apply h_mod_at. eapply rep_mod; eauto.
Qed.

(** ** Writes *)
Lemma only_upd h r L a c : In a (footprint r L) -> only h (upd h a c) r L.
Proof.
  intros Ha. split; [apply length_upd|]. intros b Hb. apply nth_upd_neq. intros ->. auto.
Qed.

Lemma upd_node_sim h r L p i f g p' : Rep h r L p -> upd_node p i f = Ok p' ->
  (forall nd, nth_error (pnodes p) i = Some nd -> g (hnode (lnodes L) nd) = hnode (lnodes L) (f nd) /\
     inside (pN p) (nprev (f nd)) /\ inside (pN p) (nnext (f nd))) ->
  exists h', h_upd_node (nth i (lnodes L) 0) g h = Ok h' /\ Rep h' r L p' /\ only h h' r L /\ pN p' = pN p.
Proof.
  intros R H HF. unfold upd_node in H. destruct (get (pnodes p) i) as [nd|] eqn:G; cbn [bind] in H; [|discriminate].
  injection H as <-. destruct (node_read _ _ _ _ _ _ R G) as (Hi & Ea & _ & Hn).
  apply get_inv in G. destruct (HF nd G) as (Hg & I1 & I2). set (a := nth i (lnodes L) 0) in *.
  assert (Hin : In a (footprint r L)) by (do 3 right; apply in_or_app; left; eapply nth_error_In; eauto).
  assert (Ha : nth_error h a = Some (CNode (hnode (lnodes L) nd))) by (eapply rep_node; eauto).
  unfold h_upd_node. rewrite Hn. cbn [bind]. eexists. split; [reflexivity|]. split; [|split; [now apply only_upd|reflexivity]].
  assert (NE : forall b c, nth_error h b = Some c -> (forall n, c <> CNode n) -> b <> a).
  { intros b c Hb Hc ->. rewrite Ha in Hb. injection Hb as <-. eapply Hc; eauto. }
  destruct R as [P X Y LN LM PN PM RN RM XY DN DM IN IM]. constructor; cbn [set_nodes pN pM pnempty pnodes pmods]; auto.
  - rewrite nth_upd_neq; auto. intros E. eapply NE in P; [congruence|discriminate].
  - rewrite nth_upd_neq; auto. intros E. eapply NE in X; [congruence|discriminate].
  - rewrite nth_upd_neq; auto. intros E. eapply NE in Y; [congruence|discriminate].
  - now rewrite length_upd.
  - intros j b nd' Hb Hj. destruct (Nat.eq_dec j i) as [->|Hji].
    + rewrite Ea in Hb. injection Hb as <-. rewrite nth_upd_eq in Hj by (eapply nth_lt; eauto). injection Hj as <-.
      rewrite nth_upd_eq by (eapply nth_lt; eauto). now rewrite Hg.
    + rewrite nth_upd_neq in Hj by auto. rewrite nth_upd_neq; [eauto|]. intros E. apply Hji.
      rewrite (NoDup_nth_error (lnodes L)) in DN. apply DN; [eapply nth_lt; eauto|congruence].
  - intros j b md Hb Hj. pose proof (RM _ _ _ Hb Hj) as Z. rewrite nth_upd_neq; auto. intros E. eapply NE in Z; [congruence|discriminate].
  - intros j nd' Hj. destruct (Nat.eq_dec j i) as [->|Hji].
    + rewrite nth_upd_eq in Hj by (eapply nth_lt; eauto). injection Hj as <-. auto.
    + rewrite nth_upd_neq in Hj by auto. eauto.
Qed.

Lemma upd_mod_sim h r L p i f g p' : Rep h r L p -> upd_mod p i f = Ok p' ->
  (forall md, nth_error (pmods p) i = Some md -> g (hmod (lnodes L) md) = hmod (lnodes L) (f md) /\
     inside (pN p) (mfirst (f md)) /\ inside (pN p) (mlast (f md))) ->
  exists h', h_upd_mod (nth i (lmods L) 0) g h = Ok h' /\ Rep h' r L p' /\ only h h' r L /\ pN p' = pN p.
Proof.
  intros R H HF. unfold upd_mod in H. destruct (get (pmods p) i) as [nd|] eqn:G; cbn [bind] in H; [|discriminate].
  injection H as <-. destruct (mod_read _ _ _ _ _ _ R G) as (Hi & Ea & _ & Hn).
  apply get_inv in G. destruct (HF nd G) as (Hg & I1 & I2). set (a := nth i (lmods L) 0) in *.
  assert (Hin : In a (footprint r L)) by (do 3 right; apply in_or_app; right; eapply nth_error_In; eauto).
  assert (Ha : nth_error h a = Some (CMod (hmod (lnodes L) nd))) by (eapply rep_mod; eauto).
  unfold h_upd_mod. rewrite Hn. cbn [bind]. eexists. split; [reflexivity|]. split; [|split; [now apply only_upd|reflexivity]].
  assert (NE : forall b c, nth_error h b = Some c -> (forall n, c <> CMod n) -> b <> a).
  { intros b c Hb Hc ->. rewrite Ha in Hb. injection Hb as <-. eapply Hc; eauto. }
  destruct R as [P X Y LN LM PN PM RN RM XY DN DM IN IM]. constructor; cbn [set_mods pN pM pnempty pnodes pmods]; auto.
  - rewrite nth_upd_neq; auto. intros E. eapply NE in P; [congruence|discriminate].
  - rewrite nth_upd_neq; auto. intros E. eapply NE in X; [congruence|discriminate].
  - rewrite nth_upd_neq; auto. intros E. eapply NE in Y; [congruence|discriminate].
  - now rewrite length_upd.
  - intros j b md Hb Hj. pose proof (RN _ _ _ Hb Hj) as Z. rewrite nth_upd_neq; auto. intros E. eapply NE in Z; [congruence|discriminate].
  - intros j b nd' Hb Hj. destruct (Nat.eq_dec j i) as [->|Hji].
    + rewrite Ea in Hb. injection Hb as <-. rewrite nth_upd_eq in Hj by (eapply nth_lt; eauto). injection Hj as <-.
      rewrite nth_upd_eq by (eapply nth_lt; eauto). now rewrite Hg.
    + rewrite nth_upd_neq in Hj by auto. rewrite nth_upd_neq; [eauto|]. intros E. apply Hji.
      rewrite (NoDup_nth_error (lmods L)) in DM. apply DM; [eapply nth_lt; eauto|congruence].
  - intros j nd' Hj. destruct (Nat.eq_dec j i) as [->|Hji].
    + rewrite nth_upd_eq in Hj by (eapply nth_lt; eauto). injection Hj as <-. auto.
    + rewrite nth_upd_neq in Hj by auto. eauto.
Qed.

Lemma set_nempty_sim h r L p v : Rep h r L p ->
  exists h', h_set_nempty r v h = Ok h' /\ Rep h' r L (set_nempty v p) /\ only h h' r L.
Proof.
  intros R. unfold h_set_nempty. rewrite (h_part_ok _ _ _ _ R). cbn [bind]. eexists. split; [reflexivity|].
  split; [|apply only_upd; left; auto].
  pose proof (rep_part _ _ _ _ R) as P0.
  assert (NE : forall b c, nth_error h b = Some c -> (forall a1 a2 a3 a4 a5, c <> CPart a1 a2 a3 a4 a5) -> b <> r).
  { intros b c Hb Hc ->. rewrite P0 in Hb. injection Hb as <-. eapply Hc; eauto. }
  destruct R as [P X Y LN LM PN PM RN RM XY DN DM IN IM]. constructor; cbn [set_nempty pN pM pnempty pnodes pmods]; auto.
  - apply nth_upd_eq. eapply nth_lt; eauto.
  - rewrite nth_upd_neq; auto. intros E. eapply NE in X; [congruence|discriminate].
  - rewrite nth_upd_neq; auto. intros E. eapply NE in Y; [congruence|discriminate].
  - intros j b md Hb Hj. pose proof (RN _ _ _ Hb Hj) as Z. rewrite nth_upd_neq; auto. intros E. eapply NE in Z; [congruence|discriminate].
  - intros j b md Hb Hj. pose proof (RM _ _ _ Hb Hj) as Z. rewrite nth_upd_neq; auto. intros E. eapply NE in Z; [congruence|discriminate].
Qed.

(** ** One statement of the value-level operation is one statement of the heap-level operation *)
Ltac step_get R H := match type of H with
  | bind (get (pnodes ?p) ?i) _ = Ok _ => let nd := fresh "nd" in let G := fresh "G" in
      destruct (get (pnodes p) i) as [nd|] eqn:G; cbn [bind] in H; [|discriminate];
      let Hi := fresh "Hi" in let Ha := fresh "Ha" in let Hp := fresh "Hp" in let Hn := fresh "Hn" in
      destruct (node_read _ _ _ _ _ _ R G) as (Hi & Ha & Hp & Hn); apply get_inv in G
  | bind (get (pmods ?p) ?i) _ = Ok _ => let nd := fresh "md" in let G := fresh "G" in
      destruct (get (pmods p) i) as [nd|] eqn:G; cbn [bind] in H; [|discriminate];
      let Hi := fresh "Hi" in let Ha := fresh "Ha" in let Hp := fresh "Hp" in let Hn := fresh "Hn" in
      destruct (mod_read _ _ _ _ _ _ R G) as (Hi & Ha & Hp & Hn); apply get_inv in G
  end.

Lemma in_prev h r L p i nd : Rep h r L p -> nth_error (pnodes p) i = Some nd -> inside (pN p) (nprev nd).
Proof. intros R E. exact (proj1 (rep_inN _ _ _ _ R _ _ E)). Qed.
Lemma in_next h r L p i nd : Rep h r L p -> nth_error (pnodes p) i = Some nd -> inside (pN p) (nnext nd).
Proof. intros R E. exact (proj2 (rep_inN _ _ _ _ R _ _ E)). Qed.
Lemma in_first h r L p i nd : Rep h r L p -> nth_error (pmods p) i = Some nd -> inside (pN p) (mfirst nd).
Proof. intros R E. exact (proj1 (rep_inM _ _ _ _ R _ _ E)). Qed.
Lemma in_last h r L p i nd : Rep h r L p -> nth_error (pmods p) i = Some nd -> inside (pN p) (mlast nd).
Proof. intros R E. exact (proj2 (rep_inM _ _ _ _ R _ _ E)). Qed.
Ltac insides R := first [ eapply (in_prev _ _ _ _ _ _ R); eassumption | eapply (in_next _ _ _ _ _ _ R); eassumption
  | eapply (in_first _ _ _ _ _ _ R); eassumption | eapply (in_last _ _ _ _ _ _ R); eassumption ].

Lemma inside_None k : inside k None. Proof. intros j; discriminate. Qed.
Lemma inside_Some k i : i < k -> inside k (Some i). Proof. intros H j [= <-]; auto. Qed.

Lemma ChangeModule_heap h r L p n m p' : Rep h r L p -> ChangeModule n m p = Ok p' ->
  exists h', h_ChangeModule n m r h = Ok h' /\ Rep h' r L p' /\ only h h' r L.
Proof.
  intros R H. unfold ChangeModule in H. step_get R H. rename nd into nd0.
  step_get R H. clear G0.
  destruct (cm_book _ _ _ _ _) as [p7|] eqn:B; cbn [bind] in H; [|discriminate]. unfold cm_book in B.
  destruct (get (pmods p) m) as [nm|] eqn:Gm; cbn [bind] in B; [|discriminate].
  destruct (mod_read _ _ _ _ _ _ R Gm) as (Hm & Ham & Hpm & Hnm). apply get_inv in Gm.
  unfold h_ChangeModule. rewrite Hp. cbn [bind]. rewrite Hn. cbn [bind]. cbn [hnode nmod nstr nid]. rewrite Hp0. cbn [bind].
  rewrite Hpm. cbn [bind]. rewrite Hnm. cbn [bind]. cbn [hmod mid].
  (* 111 *)
  destruct (upd_node p n (set_nmod (mid nm))) as [p1|] eqn:U1; cbn [bind] in B; [|discriminate].
  destruct (upd_node_sim h r L p n _ (set_nmod (mid nm)) p1 R U1) as (h1 & E1 & R1 & O1 & N1).
  { intros nd Hnd. splits; auto; cbn [set_nmod nprev nnext]; insides R. }
  rewrite E1. cbn [bind].
  (* 114 *)
  destruct (upd_mod p1 (nmod nd0) _) as [p2|] eqn:U2; cbn [bind] in B; [|discriminate].
  destruct (upd_mod_sim h1 r L p1 _ _ (fun m => set_mstr (nsub (mstr m) (nstr nd0)) m) p2 R1 U2) as (h2 & E2 & R2 & O2 & N2).
  { intros nd Hnd. splits; auto; cbn [set_mstr mfirst mlast]; insides R1. }
  rewrite E2. cbn [bind].
  (* 115 *)
  step_get R2 B. rewrite Hn1. cbn [bind hmod msize].
  destruct (dec (msize md0)) as [sz|]; cbn [bind] in B |- *; [|discriminate].
  destruct (upd_mod p2 (nmod nd0) _) as [p3|] eqn:U3; cbn [bind] in B; [|discriminate].
  destruct (upd_mod_sim h2 r L p2 _ _ (set_msize sz) p3 R2 U3) as (h3 & E3 & R3 & O3 & N3).
  { intros nd Hnd. splits; auto; cbn [set_msize mfirst mlast]; insides R2. }
  rewrite E3. cbn [bind].
  (* 116-119 *)
  set (p4 := if sz =? 0 then set_nempty (pnempty p3 + 1) p3 else p3) in B. cbv zeta in B.
  assert (S4 : exists h4, (if sz =? 0 then do ne <- h_nempty h3 r; h_set_nempty r (ne + 1) h3 else Ok h3) = Ok h4 /\ Rep h4 r L p4 /\
     only h3 h4 r L /\ pN p4 = pN p3).
  { unfold p4. destruct (sz =? 0).
    - rewrite (h_nempty_ok _ _ _ _ R3). cbn [bind]. destruct (set_nempty_sim h3 r L p3 (pnempty p3 + 1) R3) as (h4 & E4 & R4 & O4). exists h4. splits; auto.
    - exists h3. splits; auto. apply only_refl. }
  destruct S4 as (h4 & E4 & R4 & O4 & N4). rewrite E4. cbn [bind].
  (* 120-122 *)
  step_get R4 B. rewrite Hn2. cbn [bind hmod msize].
  destruct (if msize md1 =? 0 then _ else _) as [p5|] eqn:U5; cbn [bind] in B; [|discriminate].
  assert (S5 : exists h5, (if msize md1 =? 0 then do ne <- h_nempty h4 r; do ne <- dec ne; h_set_nempty r ne h4 else Ok h4) = Ok h5 /\ Rep h5 r L p5 /\
     only h4 h5 r L /\ pN p5 = pN p4).
  { destruct (msize md1 =? 0).
    - rewrite (h_nempty_ok _ _ _ _ R4). cbn [bind]. destruct (dec (pnempty p4)) as [ne|]; cbn [bind] in *; [|discriminate]. injection U5 as <-.
      destruct (set_nempty_sim h4 r L p4 ne R4) as (h5 & E5 & R5 & O5). exists h5. splits; auto.
    - injection U5 as <-. exists h4. splits; auto. apply only_refl. }
  destruct S5 as (h5 & E5 & R5 & O5 & N5). rewrite E5. cbn [bind].
  (* 123 *)
  destruct (upd_mod p5 m _) as [p6|] eqn:U6; cbn [bind] in B; [|discriminate].
  destruct (upd_mod_sim h5 r L p5 _ _ (fun m => set_mstr (nadd (mstr m) (nstr nd0)) m) p6 R5 U6) as (h6 & E6 & R6 & O6 & N6).
  { intros nd Hnd. splits; auto; cbn [set_mstr mfirst mlast]; insides R5. }
  rewrite E6. cbn [bind].
  (* 124 *)
  destruct (upd_mod_sim h6 r L p6 _ _ (fun m => set_msize (msize m + 1) m) p7 R6 B) as (h7 & E7 & R7 & O7 & N7).
  { intros nd Hnd. splits; auto; cbn [set_msize mfirst mlast]; insides R6. }
  rewrite E7. cbn [bind].
  (* 130-137 *)
  destruct (cm_unlink n (nmod nd0) p7) as [p9|] eqn:U8; cbn [bind] in H; [|discriminate].
  unfold cm_unlink in U8. step_get R7 U8. rewrite Hn3. cbn [bind hnode nprev nnext].
  destruct (match nprev nd with Some a => _ | None => _ end) as [p8|] eqn:U8a; cbn [bind] in U8; [|discriminate].
  assert (S8 : exists h8, match at_ (lnodes L) (nprev nd) with
                | Some b => h_upd_node b (set_nnext (at_ (lnodes L) (nnext nd))) h7
                | None => h_upd_mod (nth (nmod nd0) (lmods L) 0) (set_mfirst (at_ (lnodes L) (nnext nd))) h7 end = Ok h8 /\
                Rep h8 r L p8 /\ only h7 h8 r L /\ pN p8 = pN p7).
  { destruct (nprev nd) as [a|]; cbn [at_ option_map].
    - destruct (upd_node_sim h7 r L p7 a _ (set_nnext (at_ (lnodes L) (nnext nd))) p8 R7 U8a) as (h8 & E8 & R8 & O8 & N8); [|eauto 8].
      intros x Hx. splits; auto; cbn [set_nnext nprev nnext]; insides R7.
    - destruct (upd_mod_sim h7 r L p7 _ _ (set_mfirst (at_ (lnodes L) (nnext nd))) p8 R7 U8a) as (h8 & E8 & R8 & O8 & N8); [|eauto 8].
      intros x Hx. splits; auto; cbn [set_mfirst mfirst mlast]; insides R7. }
  destruct S8 as (h8 & E8 & R8 & O8 & N8). rewrite E8. cbn [bind].
  step_get R8 U8. rewrite Hn4. cbn [bind hnode nprev nnext].
  assert (S9 : exists h9, match at_ (lnodes L) (nnext nd1) with
                | Some b => h_upd_node b (set_nprev (at_ (lnodes L) (nprev nd1))) h8
                | None => h_upd_mod (nth (nmod nd0) (lmods L) 0) (set_mlast (at_ (lnodes L) (nprev nd1))) h8 end = Ok h9 /\
                Rep h9 r L p9 /\ only h8 h9 r L /\ pN p9 = pN p8).
  { destruct (nnext nd1) as [a|]; cbn [at_ option_map].
    - destruct (upd_node_sim h8 r L p8 a _ (set_nprev (at_ (lnodes L) (nprev nd1))) p9 R8 U8) as (h9 & E9 & R9 & O9 & N9); [|eauto 8].
      intros x Hx. splits; auto; cbn [set_nprev nprev nnext]; insides R8.
    - destruct (upd_mod_sim h8 r L p8 _ _ (set_mlast (at_ (lnodes L) (nprev nd1))) p9 R8 U8) as (h9 & E9 & R9 & O9 & N9); [|eauto 8].
      intros x Hx. splits; auto; cbn [set_mlast mfirst mlast]; insides R8. }
  destruct S9 as (h9 & E9 & R9 & O9 & N9). rewrite E9. cbn [bind].
  (* 140-146 *)
  unfold cm_push in H. step_get R9 H. rewrite Hn5. cbn [bind hmod mfirst].
  destruct (upd_node p9 n _) as [p10|] eqn:U10; cbn [bind] in H; [|discriminate].
  destruct (upd_node_sim h9 r L p9 n _ (set_nnext (at_ (lnodes L) (mfirst md2))) p10 R9 U10) as (h10 & E10 & R10 & O10 & N10).
  { intros x Hx. splits; auto; cbn [set_nnext nprev nnext]; insides R9. }
  rewrite E10. cbn [bind].
  destruct (upd_node p10 n _) as [p11|] eqn:U11; cbn [bind] in H; [|discriminate].
  destruct (upd_node_sim h10 r L p10 n _ (set_nprev None) p11 R10 U11) as (h11 & E11 & R11 & O11 & N11).
  { intros x Hx. splits; auto; cbn [set_nprev nprev nnext]; [apply inside_None|insides R10]. }
  rewrite E11. cbn [bind].
  destruct (match mfirst md2 with Some c => _ | None => _ end) as [p12|] eqn:U12; cbn [bind] in H; [|discriminate].
  assert (S12 : exists h12, match at_ (lnodes L) (mfirst md2) with
                | Some b => h_upd_node b (set_nprev (Some (nth n (lnodes L) 0))) h11
                | None => h_upd_mod (nth m (lmods L) 0) (set_mlast (Some (nth n (lnodes L) 0))) h11 end = Ok h12 /\
                Rep h12 r L p12 /\ only h11 h12 r L /\ pN p12 = pN p11).
  { destruct (mfirst md2) as [a|]; cbn [at_ option_map].
    - destruct (upd_node_sim h11 r L p11 a _ (set_nprev (Some (nth n (lnodes L) 0))) p12 R11 U12) as (h12 & E12 & R12 & O12 & N12); [|eauto 8].
      intros x Hx. splits; auto; cbn [set_nprev nprev nnext]; [apply inside_Some; congruence|insides R11].
    - destruct (upd_mod_sim h11 r L p11 _ _ (set_mlast (Some (nth n (lnodes L) 0))) p12 R11 U12) as (h12 & E12 & R12 & O12 & N12); [|eauto 8].
      intros x Hx. splits; auto; cbn [set_mlast mfirst mlast]; [insides R11|apply inside_Some; congruence]. }
  destruct S12 as (h12 & E12 & R12 & O12 & N12). rewrite E12. cbn [bind].
  destruct (upd_mod_sim h12 r L p12 _ _ (set_mfirst (Some (nth n (lnodes L) 0))) p' R12 H) as (h13 & E13 & R13 & O13 & N13).
  { intros x Hx. splits; auto; cbn [set_mfirst mfirst mlast]; [apply inside_Some; congruence|insides R12]. }
  exists h13. splits; auto. repeat (eapply only_trans; [eassumption|]). apply only_refl.
Qed.
(** ** Merging *)
Lemma walkM_sim {S T} (nx : S -> nat -> res (option nat)) (body : S -> nat -> res S)
  (nx' : T -> nat -> res (option nat)) (body' : T -> nat -> res T) (I : S -> T -> Prop) (ad : nat -> nat) :
  (forall s t i s1 o, I s t -> body s i = Ok s1 -> nx s1 i = Ok o ->
     exists t1, body' t (ad i) = Ok t1 /\ nx' t1 (ad i) = Ok (option_map ad o) /\ I s1 t1) ->
  forall fuel fuel' cur s t s', fuel <= fuel' -> I s t -> walkM nx body fuel cur s = Ok s' ->
  exists t', walkM nx' body' fuel' (option_map ad cur) t = Ok t' /\ I s' t'.
Proof.
  intros HS. induction fuel as [|fuel IH]; intros fuel' cur s t s' Hf HI H.
  - destruct cur; cbn in H; [discriminate|]. injection H as <-. exists t. destruct fuel'; cbn; auto.
  - destruct cur as [i|]; cbn [walkM option_map] in *.
    + destruct fuel' as [|fuel']; [lia|]. cbn [walkM].
      destruct (body s i) as [s1|] eqn:B; cbn [bind] in H; [|discriminate].
      destruct (nx s1 i) as [o|] eqn:N; cbn [bind] in H; [|discriminate].
      destruct (HS _ _ _ _ _ HI B N) as (t1 & B' & N' & I1). rewrite B'. cbn [bind]. rewrite N'. cbn [bind].
      apply (IH fuel' o s1); auto. lia.
    + injection H as <-. exists t. destruct fuel'; cbn; auto.
Qed.

Lemma heap_big h r L p : Rep h r L p -> pN p <= length h.
Proof.
  intros R. rewrite <- (rep_lenN _ _ _ _ R). apply NoDup_bound; [exact (rep_ndN _ _ _ _ R)|].
  intros a Ha. apply In_nth_error in Ha as [i Hi]. destruct (nth_ex (pnodes p) i) as [nd E].
  { rewrite (rep_N _ _ _ _ R), <- (rep_lenN _ _ _ _ R). eapply nth_lt; eauto. }
  eapply nth_lt. eapply rep_node; eauto.
Qed.

Lemma MergeModules_heap h r L p m1 m2 p' : Rep h r L p -> MergeModules m1 m2 p = Ok p' ->
  exists h', h_MergeModules m1 m2 r h = Ok h' /\ Rep h' r L p' /\ only h h' r L.
Proof.
  intros R H. unfold MergeModules in H. step_get R H. step_get R H. unfold h_MergeModules.
  rewrite Hp. cbn [bind]. rewrite Hn. cbn [bind]. rewrite Hp0. cbn [bind]. rewrite Hn0. cbn [bind hmod msize].
  destruct ((msize md =? 0) || (msize md0 =? 0)).
  { injection H as <-. exists h. splits; auto. apply only_refl. }
  assert (K : exists s l, (if msize md0 <? msize md then (m2, m1) else (m1, m2)) = (s, l) /\
     (if msize md0 <? msize md then (nth m2 (lmods L) 0, nth m1 (lmods L) 0) else (nth m1 (lmods L) 0, nth m2 (lmods L) 0))
     = (nth s (lmods L) 0, nth l (lmods L) 0)).
  { destruct (msize md0 <? msize md); eauto. }
  destruct K as (s & l & K1 & K2). rewrite K1 in H. rewrite K2. clear K1 K2.
  clear md md0 G G0 Hi Hi0 Ha Ha0 Hp Hp0 Hn Hn0.
  step_get R H. rename md into sm0. step_get R H. rename md into lg0.
  rewrite Hn. cbn [bind]. rewrite Hn0. cbn [bind hmod mid mfirst]. clear Hp Hp0 Hn Hn0.
  (* 181-182 *)
  destruct (walkM _ _ _ _ p) as [p1|] eqn:W; cbn [bind] in H; [|discriminate].
  destruct (walkM_sim (fun p i => next_of p i) (fun p i => upd_node p i (set_nmod (mid lg0)))
     (fun h a => do n <- h_node h a; Ok (nnext n)) (fun h a => h_upd_node a (set_nmod (mid lg0)) h)
     (fun q h' => Rep h' r L q /\ only h h' r L /\ pN q = pN p) (fun i => nth i (lnodes L) 0)) with
     (fuel := length (pnodes p)) (fuel' := length h) (cur := mfirst sm0) (s := p) (t := h) (s' := p1) as (h1 & E1 & R1 & O1 & N1).
  { intros q h' i q1 o (Rq & Oq & Nq) U X.
    destruct (upd_node_sim h' r L q i _ (set_nmod (mid lg0)) q1 Rq U) as (h1 & E1 & R1 & O1 & N1).
    { intros x Hx. splits; auto; cbn [set_nmod nprev nnext]; insides Rq. }
    exists h1. splits; auto.
    - unfold next_of in X. step_get R1 X. rewrite Hn. cbn [bind hnode nnext]. injection X as <-. reflexivity.
    - eapply only_trans; eauto.
    - congruence. }
  { rewrite (rep_N _ _ _ _ R). eapply heap_big; eauto. }
  { splits; auto. apply only_refl. }
  { exact W. }
  change (at_ (lnodes L) (mfirst sm0)) with (option_map (fun i => nth i (lnodes L) 0) (mfirst sm0)).
  rewrite E1. cbn [bind]. rewrite (h_nempty_ok _ _ _ _ R1). cbn [bind]. cbv zeta in H.
  destruct (set_nempty_sim h1 r L p1 (pnempty p1 + 1) R1) as (h2 & E2 & R2 & O2). rewrite E2. cbn [bind].
  set (p2 := set_nempty (pnempty p1 + 1) p1) in *. assert (N2 : pN p2 = pN p1) by reflexivity.
  clearbody p2. clear W E1 sm0 G Hi Ha.
  step_get R2 H. rewrite Hn. cbn [bind hmod msize].
  destruct (upd_mod p2 l _) as [p3|] eqn:U3; cbn [bind] in H; [|discriminate].
  destruct (upd_mod_sim h2 r L p2 _ _ (fun m => set_msize (msize m + msize md) m) p3 R2 U3) as (h3 & E3 & R3 & O3 & N3).
  { intros x Hx. splits; auto; cbn [set_msize mfirst mlast]; insides R2. }
  rewrite E3. cbn [bind].
  destruct (upd_mod p3 s _) as [p4|] eqn:U4; cbn [bind] in H; [|discriminate].
  destruct (upd_mod_sim h3 r L p3 _ _ (set_msize 0) p4 R3 U4) as (h4 & E4 & R4 & O4 & N4).
  { intros x Hx. splits; auto; cbn [set_msize mfirst mlast]; insides R3. }
  rewrite E4. cbn [bind].
  step_get R4 H. rewrite Hn0. cbn [bind hmod mstr].
  destruct (upd_mod p4 l _) as [p5|] eqn:U5; cbn [bind] in H; [|discriminate].
  destruct (upd_mod_sim h4 r L p4 _ _ (fun m => set_mstr (nadd (mstr m) (mstr md0)) m) p5 R4 U5) as (h5 & E5 & R5 & O5 & N5).
  { intros x Hx. splits; auto; cbn [set_mstr mfirst mlast]; insides R4. }
  rewrite E5. cbn [bind].
  destruct (upd_mod p5 s _) as [p6|] eqn:U6; cbn [bind] in H; [|discriminate].
  destruct (upd_mod_sim h5 r L p5 _ _ (set_mstr n0) p6 R5 U6) as (h6 & E6 & R6 & O6 & N6).
  { intros x Hx. splits; auto; cbn [set_mstr mfirst mlast]; insides R5. }
  rewrite E6. cbn [bind].
  step_get R6 H. rewrite Hn1. cbn [bind]. step_get R6 H. rewrite Hn2. cbn [bind hmod mfirst mlast].
  pose proof (in_last _ _ _ _ _ _ R6 G2) as B1. pose proof (in_first _ _ _ _ _ _ R6 G3) as B2. pose proof (in_first _ _ _ _ _ _ R6 G2) as B3.
  destruct (mfirst md2) as [lf|] eqn:Elf; cbn [deref bind] in H; [|discriminate].
  change (at_ (lnodes L) (Some lf)) with (Some (nth lf (lnodes L) 0)). cbn [deref bind].
  destruct (upd_node p6 lf _) as [p7|] eqn:U7; cbn [bind] in H; [|discriminate].
  destruct (upd_node_sim h6 r L p6 lf _ (set_nprev (at_ (lnodes L) (mlast md1))) p7 R6 U7) as (h7 & E7 & R7 & O7 & N7).
  { intros x Hx. splits; auto; cbn [set_nprev nprev nnext]; auto; insides R6. }
  rewrite E7. cbn [bind].
  destruct (mlast md1) as [sl|] eqn:Esl; cbn [deref bind] in H; [|discriminate].
  change (at_ (lnodes L) (Some sl)) with (Some (nth sl (lnodes L) 0)). cbn [deref bind].
  destruct (upd_node p7 sl _) as [p8|] eqn:U8; cbn [bind] in H; [|discriminate].
  destruct (upd_node_sim h7 r L p7 sl _ (set_nnext (Some (nth lf (lnodes L) 0))) p8 R7 U8) as (h8 & E8 & R8 & O8 & N8).
  { intros x Hx. splits; auto; cbn [set_nnext nprev nnext]; [insides R7|rewrite N7; auto]. }
  rewrite E8. cbn [bind].
  destruct (upd_mod p8 l _) as [p9|] eqn:U9; cbn [bind] in H; [|discriminate].
  destruct (upd_mod_sim h8 r L p8 _ _ (set_mfirst (at_ (lnodes L) (mfirst md1))) p9 R8 U9) as (h9 & E9 & R9 & O9 & N9).
  { intros x Hx. splits; auto; cbn [set_mfirst mfirst mlast]; [rewrite N8, N7; auto|insides R8]. }
  rewrite E9. cbn [bind].
  destruct (upd_mod p9 s _) as [p10|] eqn:U10; cbn [bind] in H; [|discriminate].
  destruct (upd_mod_sim h9 r L p9 _ _ (set_mlast None) p10 R9 U10) as (h10 & E10 & R10 & O10 & N10).
  { intros x Hx. splits; auto; cbn [set_mlast mfirst mlast]; [insides R9|apply inside_None]. }
  rewrite E10. cbn [bind].
  destruct (upd_mod_sim h10 r L p10 _ _ (set_mfirst None) p' R10 H) as (h11 & E11 & R11 & O11 & N11).
  { intros x Hx. splits; auto; cbn [set_mfirst mfirst mlast]; [apply inside_None|insides R10]. }
  exists h11. splits; auto. repeat (eapply only_trans; [eassumption|]). apply only_refl.
Qed.

(** ** Allocation *)
Lemma alloc_cells_app cs h : alloc_cells cs h = (seq (length h) (length cs), h ++ cs).
Proof.
  revert h. induction cs as [|c cs IH]; intros h; cbn [alloc_cells length seq].
  - now rewrite app_nil_r.
  - unfold malloc. rewrite IH, app_length, <- app_assoc. cbn [length]. now rewrite Nat.add_1_r.
Qed.

Definition fresh_layout h (N M : nat) : layout :=
  mkLayout (length h + N + M) (length h + N + M + 1) (seq (length h) N) (seq (length h + N) M).

Lemma CreatePartition_heap h N M p : CreatePartition N M = Ok p ->
  exists h', h_CreatePartition N M h = Ok (length h + N + M + 2, h') /\ Rep h' (length h + N + M + 2) (fresh_layout h N M) p /\
    (forall a, a < length h -> nth_error h' a = nth_error h a) /\ length h' = length h + N + M + 3.
Proof.
  unfold CreatePartition, h_CreatePartition. destruct (check (M <=? N) UB_oob) as [[]|]; cbn [bind]; [|discriminate]. intros [= <-].
  rewrite alloc_cells_app, map_length, seq_length. rewrite alloc_cells_app, app_length, !map_length, !seq_length.
  unfold malloc. rewrite !app_length, !map_length, !seq_length. cbn [length]. rewrite <- !app_assoc. cbn [app].
  set (cN := map (fun i => CNode (mkNode i n0 0 None None)) (seq 0 N)).
  set (cM := map (fun i => CMod (mkModule i 0 n0 None None)) (seq 0 M)).
  assert (LcN : length cN = N) by (unfold cN; now rewrite map_length, seq_length).
  assert (LcM : length cM = M) by (unfold cM; now rewrite map_length, seq_length).
  replace (length h + (N + (M + 1))) with (length h + N + M + 1) by lia.
  replace (length h + (N + M)) with (length h + N + M) by lia.
  replace (length h + N + M + 1 + 1) with (length h + N + M + 2) by lia.
  eexists. split; [reflexivity|]. splits.
  - set (tl := [CArr (seq (length h) N); CArr (seq (length h + N) M); CPart N M M (length h + N + M) (length h + N + M + 1)]).
    assert (T : forall k, nth_error (h ++ cN ++ cM ++ tl) (length h + N + M + k) = nth_error tl k).
    { intros k. rewrite nth_error_app2 by lia. rewrite nth_error_app2 by lia. rewrite nth_error_app2 by lia. f_equal. lia. }
    constructor; cbn [fresh_layout lx ly lnodes lmods pN pM pnempty pnodes pmods]; rewrite ?map_length, ?seq_length; auto.
    + rewrite T. reflexivity.
    + replace (length h + N + M) with (length h + N + M + 0) by lia. rewrite T. reflexivity.
    + rewrite T. reflexivity.
    + intros i a nd Ha Hnd. assert (Hi : i < N) by (apply nth_lt in Ha; now rewrite seq_length in Ha).
      rewrite nth_error_seq in Ha by auto. injection Ha as <-.
      rewrite nth_error_app2 by lia. rewrite nth_error_app1 by lia. unfold cN.
      rewrite nth_error_map in *. replace (length h + i - length h) with i by lia. rewrite nth_error_seq in * by auto.
      cbn in *. injection Hnd as <-. reflexivity.
    + intros i a nd Ha Hnd. assert (Hi : i < M) by (apply nth_lt in Ha; now rewrite seq_length in Ha).
      rewrite nth_error_seq in Ha by auto. injection Ha as <-.
      rewrite nth_error_app2 by lia. rewrite nth_error_app2 by lia. rewrite nth_error_app1 by lia. unfold cM.
      rewrite nth_error_map in *. replace (length h + N + i - length h - length cN) with i by lia. rewrite nth_error_seq in * by auto.
      cbn in *. injection Hnd as <-. reflexivity.
    + lia.
    + apply seq_NoDup.
    + apply seq_NoDup.
    + intros i nd Hnd. apply nth_error_In, in_map_iff in Hnd as (k & <- & _). split; apply inside_None.
    + intros i nd Hnd. apply nth_error_In, in_map_iff in Hnd as (k & <- & _). split; apply inside_None.
  - intros a Ha. now rewrite nth_error_app1.
  - rewrite !app_length, LcN, LcM. cbn [length]. lia.
Qed.

Lemma fresh_layout_above h N M a : In a (footprint (length h + N + M + 2) (fresh_layout h N M)) -> length h <= a.
Proof.
  unfold footprint, fresh_layout; cbn [lx ly lnodes lmods In]. intros [<-|[<-|[<-|H]]]; try lia.
  apply in_app_or in H as [H|H]; apply in_seq in H; lia.
Qed.

Lemma footprint_below h r L p a : Rep h r L p -> In a (footprint r L) -> a < length h.
Proof.
  intros R. unfold footprint; cbn [In]. intros [<-|[<-|[<-|H]]].
  - eapply nth_lt; eapply rep_part; eauto.
  - eapply nth_lt; eapply rep_x; eauto.
  - eapply nth_lt; eapply rep_y; eauto.
  - apply in_app_or in H as [H|H]; apply In_nth_error in H as [i Hi].
    + destruct (nth_ex (pnodes p) i) as [nd E].
      { rewrite (rep_N _ _ _ _ R), <- (rep_lenN _ _ _ _ R). eapply nth_lt; eauto. }
      eapply nth_lt. eapply rep_node; eauto.
    + destruct (nth_ex (pmods p) i) as [nd E].
      { rewrite (rep_M _ _ _ _ R), <- (rep_lenM _ _ _ _ R). eapply nth_lt; eauto. }
      eapply nth_lt. eapply rep_mod; eauto.
Qed.

(** ** Deep copy *)
Lemma foldM_sim {S T X} (f : S -> X -> res S) (g : T -> X -> res T) (I : S -> T -> Prop) :
  (forall s t x s', I s t -> f s x = Ok s' -> exists t', g t x = Ok t' /\ I s' t') ->
  forall l s t s', I s t -> foldM f s l = Ok s' -> exists t', foldM g t l = Ok t' /\ I s' t'.
Proof.
  intros HS. induction l as [|x l IH]; intros s t s' HI H; cbn [foldM] in *.
  - injection H as <-. eauto.
  - destruct (f s x) as [s1|] eqn:E; cbn [bind] in H; [|discriminate].
    destruct (HS _ _ _ _ HI E) as (t1 & E1 & I1). rewrite E1. cbn [bind]. eauto.
Qed.

Lemma copy_link_heap h r L p c Lc q o o' : Rep h r L p -> Rep h c Lc q -> pN q = pN p -> copy_link p o = Ok o' ->
  h_copy_link h c (at_ (lnodes L) o) = Ok (at_ (lnodes Lc) o') /\ inside (pN q) o'.
Proof.
  intros R Rc EN H. destruct o as [j|]; cbn [copy_link at_ option_map h_copy_link] in *.
  - step_get R H. rewrite Hn. cbn [bind hnode nid].
    destruct (Nat.ltb_spec (nid nd) (pN p)) as [Hlt|Hlt]; cbn [check bind] in H; [|discriminate]. injection H as <-.
    assert (Hlt' : nid nd < pN q) by lia.
    rewrite (h_nodeptr_ok _ _ _ _ (nid nd) _ Rc (node_addr _ _ _ _ _ Rc Hlt')). cbn [bind]. split; auto.
    apply inside_Some. lia.
  - injection H as <-. split; auto. apply inside_None.
Qed.

Theorem CopyPartition_heap h r L p p' : Rep h r L p -> CopyPartitionStruct p = Ok p' ->
  exists c h' Lc, h_CopyPartitionStruct r h = Ok (c, h') /\ Rep h' r L p /\ Rep h' c Lc p' /\
    (forall a, a < length h -> nth_error h' a = nth_error h a) /\
    (forall a, In a (footprint r L) -> a < length h) /\ (forall a, In a (footprint c Lc) -> length h <= a).
Proof.
  intros R H. unfold CopyPartitionStruct in H. unfold h_CopyPartitionStruct. rewrite (h_part_ok _ _ _ _ R). cbn [bind].
  destruct (CreatePartition (pN p) (pM p)) as [c0|] eqn:EC; cbn [bind] in H; [|discriminate].
  destruct (CreatePartition_heap h _ _ _ EC) as (h0 & E0 & R0 & B0 & LEN0). rewrite E0. cbn [bind].
  set (c := length h + pN p + pM p + 2) in *. set (Lc := fresh_layout h (pN p) (pM p)) in *.
  assert (NC : pN c0 = pN p) by (unfold CreatePartition in EC; destruct (check _ _); [injection EC as <-; reflexivity|discriminate]).
  assert (MC : pM c0 = pM p) by (unfold CreatePartition in EC; destruct (check _ _); [injection EC as <-; reflexivity|discriminate]).
  assert (FB : forall a, In a (footprint r L) -> a < length h) by (intros a; eapply footprint_below; eauto).
  assert (FA : forall a, In a (footprint c Lc) -> length h <= a) by (intros a; apply fresh_layout_above).
  assert (DJ : disjoint (footprint r L) (footprint c Lc)) by (intros a Ha Hb; apply FB in Ha; apply FA in Hb; lia).
  assert (Rp0 : Rep h0 r L p) by (refine (Rep_frame h h0 r L p R _); intros a Ha; apply B0; auto).
  destruct (set_nempty_sim h0 c Lc c0 (pnempty p) R0) as (h1 & E1 & R1 & O1). rewrite E1. cbn [bind].
  cbv zeta in H.
  set (J := fun (q : partition A) (h' : heap A) => Rep h' c Lc q /\ only h0 h' c Lc /\ pN q = pN p /\ pM q = pM p).
  assert (J1 : J (set_nempty (pnempty p) c0) h1) by (unfold J; splits; auto).
  assert (JP : forall q h', J q h' -> Rep h' r L p) by (intros q h' (_ & O & _ & _); eapply Rep_other; eauto).
  assert (JU : forall q h' i f g q', J q h' -> upd_node q i f = Ok q' ->
     (forall nd, nth_error (pnodes q) i = Some nd -> g (hnode (lnodes Lc) nd) = hnode (lnodes Lc) (f nd) /\
       inside (pN q) (nprev (f nd)) /\ inside (pN q) (nnext (f nd))) ->
     exists h'', h_nodeptr h' c i = Ok (nth i (lnodes Lc) 0) /\ h_upd_node (nth i (lnodes Lc) 0) g h' = Ok h'' /\ J q' h'').
  { intros q h' i f g q' (RJ & OJ & NJ & MJ) U F.
    destruct (upd_node_sim h' c Lc q i f g q' RJ U F) as (h2 & E2 & R2 & O2 & N2). exists h2. splits; auto.
    - unfold upd_node in U. step_get RJ U. auto.
    - unfold J. splits; auto; try congruence.
      + eapply only_trans; eauto.
      + unfold upd_node in U. destruct (get (pnodes q) i); cbn [bind] in U; [|discriminate]. injection U as <-. auto. }
  assert (JM : forall q h' i f g q', J q h' -> upd_mod q i f = Ok q' ->
     (forall nd, nth_error (pmods q) i = Some nd -> g (hmod (lnodes Lc) nd) = hmod (lnodes Lc) (f nd) /\
       inside (pN q) (mfirst (f nd)) /\ inside (pN q) (mlast (f nd))) ->
     exists h'', h_modptr h' c i = Ok (nth i (lmods Lc) 0) /\ h_upd_mod (nth i (lmods Lc) 0) g h' = Ok h'' /\ J q' h'').
  { intros q h' i f g q' (RJ & OJ & NJ & MJ) U F.
    destruct (upd_mod_sim h' c Lc q i f g q' RJ U F) as (h2 & E2 & R2 & O2 & N2). exists h2. splits; auto.
    - unfold upd_mod in U. step_get RJ U. auto.
    - unfold J. splits; auto; try congruence.
      + eapply only_trans; eauto.
      + unfold upd_mod in U. destruct (get (pmods q) i); cbn [bind] in U; [|discriminate]. injection U as <-. auto. }
  (* 97-101 *)
  destruct (foldM _ (set_nempty (pnempty p) c0) (seq 0 (pN p))) as [c2|] eqn:F2; cbn [bind] in H; [|discriminate].
  match type of F2 with foldM ?f _ _ = _ => match goal with |- context [foldM ?g h1 (seq 0 (pN p))] =>
    destruct (foldM_sim f g J) with (l := seq 0 (pN p)) (s := set_nempty (pnempty p) c0) (t := h1) (s' := c2) as (h2 & E2 & J2) end end; auto.
  { intros q h' i q' HJ U. pose proof (JP _ _ HJ) as RP. cbv beta in U. step_get RP U.
    destruct (JU q h' i _ (fun x => mkNode (nid nd) (nstr nd) (nmod nd) (nprev x) (nnext x)) q' HJ U) as (h2 & P2 & E2 & J2).
    { intros x Hx. destruct HJ as (RJ & _). splits; auto; cbn [nprev nnext]; insides RJ. }
    exists h2. split; auto. rewrite Hp. cbn [bind]. rewrite Hn. cbn [bind hnode nid nstr nmod]. rewrite P2. cbn [bind]. exact E2. }
  rewrite E2. cbn [bind]. clear F2.
  (* 104-108 *)
  destruct (foldM _ c2 (seq 0 (pM p))) as [c3|] eqn:F3; cbn [bind] in H; [|discriminate].
  match type of F3 with foldM ?f _ _ = _ => match goal with |- context [foldM ?g h2 (seq 0 (pM p))] =>
    destruct (foldM_sim f g J) with (l := seq 0 (pM p)) (s := c2) (t := h2) (s' := c3) as (h3 & E3 & J3) end end; auto.
  { intros q h' i q' HJ U. pose proof (JP _ _ HJ) as RP. cbv beta in U. step_get RP U.
    destruct (JM q h' i _ (fun x => mkModule (mid md) (msize md) (mstr md) (mfirst x) (mlast x)) q' HJ U) as (h2' & P2 & E2' & J2').
    { intros x Hx. destruct HJ as (RJ & _). splits; auto; cbn [mfirst mlast]; insides RJ. }
    exists h2'. split; auto. rewrite Hp. cbn [bind]. rewrite Hn. cbn [bind hmod mid msize mstr]. rewrite P2. cbn [bind]. exact E2'. }
  rewrite E3. cbn [bind]. clear F3.
  (* 111-120 *)
  destruct (foldM _ c3 (seq 0 (pN p))) as [c4|] eqn:F4; cbn [bind] in H; [|discriminate].
  match type of F4 with foldM ?f _ _ = _ => match goal with |- context [foldM ?g h3 (seq 0 (pN p))] =>
    destruct (foldM_sim f g J) with (l := seq 0 (pN p)) (s := c3) (t := h3) (s' := c4) as (h4 & E4 & J4) end end; auto.
  { intros q h' i q' HJ U. pose proof (JP _ _ HJ) as RP. cbv beta in U. step_get RP U.
    destruct (copy_link p (nnext nd)) as [nx|] eqn:CN; cbn [bind] in U; [|discriminate].
    destruct (copy_link p (nprev nd)) as [pv|] eqn:CP; cbn [bind] in U; [|discriminate].
    destruct (upd_node q i _) as [q1|] eqn:U1; cbn [bind] in U; [|discriminate].
    destruct (copy_link_heap h' r L p c Lc q _ _ RP (proj1 HJ) (proj1 (proj2 (proj2 HJ))) CN) as [HN IN].
    destruct (JU q h' i _ (set_nnext (at_ (lnodes Lc) nx)) q1 HJ U1) as (h1' & P1' & E1' & J1').
    { intros x Hx. destruct HJ as (RJ & _). splits; auto; cbn [set_nnext nprev nnext]; auto. insides RJ. }
    pose proof (JP _ _ J1') as RP1.
    destruct (copy_link_heap h1' r L p c Lc q1 _ _ RP1 (proj1 J1') (proj1 (proj2 (proj2 J1'))) CP) as [HP IP].
    destruct (JU q1 h1' i _ (set_nprev (at_ (lnodes Lc) pv)) q' J1' U) as (h2' & P2' & E2' & J2').
    { intros x Hx. destruct J1' as (RJ & _). splits; auto; cbn [set_nprev nprev nnext]; auto. insides RJ. }
    exists h2'. split; auto. rewrite Hp. cbn [bind]. rewrite Hn. cbn [bind hnode nnext nprev]. rewrite P1'. cbn [bind].
    rewrite HN. cbn [bind]. rewrite E1'. cbn [bind]. rewrite HP. cbn [bind]. exact E2'. }
  rewrite E4. cbn [bind]. clear F4.
  (* 121-130 *)
  match type of H with foldM ?f _ _ = _ => match goal with |- context [foldM ?g h4 (seq 0 (pM p))] =>
    destruct (foldM_sim f g J) with (l := seq 0 (pM p)) (s := c4) (t := h4) (s' := p') as (h5 & E5 & J5) end end; auto.
  { intros q h' i q' HJ U. pose proof (JP _ _ HJ) as RP. cbv beta in U. step_get RP U.
    destruct (copy_link p (mfirst md)) as [nx|] eqn:CN; cbn [bind] in U; [|discriminate].
    destruct (copy_link p (mlast md)) as [pv|] eqn:CP; cbn [bind] in U; [|discriminate].
    destruct (upd_mod q i _) as [q1|] eqn:U1; cbn [bind] in U; [|discriminate].
    destruct (copy_link_heap h' r L p c Lc q _ _ RP (proj1 HJ) (proj1 (proj2 (proj2 HJ))) CN) as [HN IN].
    destruct (JM q h' i _ (set_mfirst (at_ (lnodes Lc) nx)) q1 HJ U1) as (h1' & P1' & E1' & J1').
    { intros x Hx. destruct HJ as (RJ & _). splits; auto; cbn [set_mfirst mfirst mlast]; auto. insides RJ. }
    pose proof (JP _ _ J1') as RP1.
    destruct (copy_link_heap h1' r L p c Lc q1 _ _ RP1 (proj1 J1') (proj1 (proj2 (proj2 J1'))) CP) as [HP IP].
    destruct (JM q1 h1' i _ (set_mlast (at_ (lnodes Lc) pv)) q' J1' U) as (h2' & P2' & E2' & J2').
    { intros x Hx. destruct J1' as (RJ & _). splits; auto; cbn [set_mlast mfirst mlast]; auto. insides RJ. }
    exists h2'. split; auto. rewrite Hp. cbn [bind]. rewrite Hn. cbn [bind hmod mfirst mlast]. rewrite P1'. cbn [bind].
    rewrite HN. cbn [bind]. rewrite E1'. cbn [bind]. rewrite HP. cbn [bind]. exact E2'. }
  rewrite E5. cbn [bind]. exists c, h5, Lc. splits; auto.
  - eapply JP; eauto.
  - apply J5.
  - intros a Ha. destruct J5 as (_ & (_ & O5) & _). rewrite O5; [apply B0; auto|]. intros X. apply FA in X. lia.
Qed.
(** ** Freeing *)
Lemma h_free_ok h a c : nth_error h a = Some c -> c <> CFreed -> h_free a h = Ok (upd h a CFreed).
Proof. intros E N. unfold h_free. rewrite (h_get_ok _ _ _ E N). reflexivity. Qed.

(** [freed h h' l]: exactly the objects of [l] were freed. *)
Definition freed h h' (l : list nat) : Prop :=
  length h' = length h /\ (forall a, In a l -> nth_error h' a = Some CFreed) /\ forall a, ~ In a l -> nth_error h' a = nth_error h a.

Lemma freed_snoc h h' l a : freed h h' l -> a < length h -> freed h (upd h' a CFreed) (l ++ [a]).
Proof.
  intros (E & F & O) H. unfold freed. splits.
  - now rewrite length_upd.
  - intros b Hb. destruct (Nat.eq_dec b a) as [->|N]; [apply nth_upd_eq; lia|]. rewrite nth_upd_neq by auto.
    apply F. apply in_app_or in Hb as [Hb|[->|[]]]; congruence.
  - intros b Hb. rewrite nth_upd_neq; [apply O|]; intros X; apply Hb; apply in_or_app; [left; auto|right; left; auto].
Qed.

Lemma freed_trans h h1 h2 l1 l2 : freed h h1 l1 -> freed h1 h2 l2 -> freed h h2 (l1 ++ l2).
Proof.
  intros (E1 & F1 & O1) (E2 & F2 & O2). unfold freed. splits; [congruence| |].
  - intros a Ha. destruct (in_dec Nat.eq_dec a l2) as [Hi|Hi]; [auto|]. rewrite O2 by auto. apply F1.
    apply in_app_or in Ha as [Ha|Ha]; [auto|contradiction].
  - intros a Ha. rewrite O2, O1; auto; intros X; apply Ha; apply in_or_app; auto.
Qed.

Lemma free_loop h h0 r (ptr : heap A -> nat -> res nat) (na : list nat) :
  (forall h1 done, freed h h1 done -> incl done na -> forall i a, nth_error na i = Some a -> ptr h1 i = Ok a) ->
  NoDup na -> (forall a, In a na -> exists c, nth_error h a = Some c /\ c <> CFreed) -> h0 = h -> r = length na ->
  exists h', foldM (fun h i => do a <- ptr h i; h_free a h) h0 (seq 0 r) = Ok h' /\ freed h h' na.
Proof.
  intros HP ND HL -> ->.
  destruct (foldM_seq (fun k h' => freed h h' (firstn k na)) (fun h i => do a <- ptr h i; h_free a h) (length na) h) as (h' & E & I).
  - unfold freed. splits; auto. intros a [].
  - intros i h1 Hi F. destruct (nth_ex na i Hi) as [a Ea].
    assert (IN : incl (firstn i na) na). { intros b Hb. rewrite <- (firstn_skipn i na). apply in_or_app. auto. }
    rewrite (HP h1 _ F IN i a Ea). cbn [bind].
    destruct (HL a) as (c & Ec & Nc). { eapply nth_error_In; eauto. }
    assert (S : firstn (i + 1) na = firstn i na ++ [a]).
    { clear -Ea. revert na Ea. induction i; intros [|x na] Ea; try discriminate; cbn in *; [congruence|]. f_equal. now apply IHi. }
    assert (NI : ~ In a (firstn i na)).
    { intros X. apply In_nth_error in X as [j Ej]. assert (Hj : j < i) by (apply nth_lt in Ej; rewrite firstn_length in Ej; lia).
      assert (Ej' : nth_error na j = Some a).
      { rewrite <- Ej. clear -Hj. revert i na Hj. induction j; intros [|i] [|x na] Hj; cbn; auto; try lia. apply IHj. lia. }
      rewrite NoDup_nth_error in ND. assert (j = i) by (apply ND; [eapply nth_lt; eauto|congruence]). lia. }
    assert (E1 : nth_error h1 a = Some c) by (rewrite (proj2 (proj2 F)) by auto; auto).
    rewrite (h_free_ok _ _ _ E1 Nc). eexists. split; [reflexivity|]. rewrite S. apply freed_snoc; auto. eapply nth_lt; eauto.
  - exists h'. split; auto. now rewrite firstn_all in I.
Qed.

Theorem FreePartition_heap h r L p : Rep h r L p ->
  exists h', h_FreePartition r h = Ok h' /\ freed h h' (lnodes L ++ lmods L ++ [lx L; ly L; r]).
Proof.
  intros R. unfold h_FreePartition. rewrite (h_part_ok _ _ _ _ R). cbn [bind].
  pose proof (rep_part _ _ _ _ R) as P. pose proof (rep_x _ _ _ _ R) as X. pose proof (rep_y _ _ _ _ R) as Y.
  assert (KN : forall a, In a (lnodes L) -> exists n, nth_error h a = Some (CNode n)).
  { intros a Ha. apply In_nth_error in Ha as [i Hi]. destruct (nth_ex (pnodes p) i) as [nd E].
    { rewrite (rep_N _ _ _ _ R), <- (rep_lenN _ _ _ _ R). eapply nth_lt; eauto. }
    eexists. eapply rep_node; eauto. }
  assert (KM : forall a, In a (lmods L) -> exists n, nth_error h a = Some (CMod n)).
  { intros a Ha. apply In_nth_error in Ha as [i Hi]. destruct (nth_ex (pmods p) i) as [nd E].
    { rewrite (rep_M _ _ _ _ R), <- (rep_lenM _ _ _ _ R). eapply nth_lt; eauto. }
    eexists. eapply rep_mod; eauto. }
  assert (NM : forall a, In a (lnodes L) -> In a (lmods L) -> False).
  { intros a Ha Hb. apply KN in Ha as [n Ha]. apply KM in Hb as [m Hb]. congruence. }
  assert (SN : forall a c, nth_error h a = Some c -> (forall n, c <> CNode n) -> ~ In a (lnodes L)).
  { intros a c Ec Nc Ha. apply KN in Ha as [n Ha]. rewrite Ec in Ha. injection Ha as ->. eapply Nc; eauto. }
  assert (SM : forall a c, nth_error h a = Some c -> (forall n, c <> CMod n) -> ~ In a (lmods L)).
  { intros a c Ec Nc Ha. apply KM in Ha as [n Ha]. rewrite Ec in Ha. injection Ha as ->. eapply Nc; eauto. }
  destruct (free_loop h h (pN p) (fun h i => h_nodeptr h r i) (lnodes L)) as (h1 & E1 & F1); auto.
  { intros h1 done (_ & _ & O) IC i a Ea. unfold h_nodeptr, h_part.
    assert (E : nth_error h1 r = nth_error h r) by (apply O; intros Z; apply IC in Z; revert Z; eapply SN; eauto; discriminate).
    rewrite (h_get_ok h1 r _ (eq_trans E P)) by discriminate. cbn [bind]. unfold h_arr.
    assert (E' : nth_error h1 (lx L) = nth_error h (lx L)) by (apply O; intros Z; apply IC in Z; revert Z; eapply SN; eauto; discriminate).
    rewrite (h_get_ok h1 _ _ (eq_trans E' X)) by discriminate. cbn [bind]. now apply get_ok. }
  { exact (rep_ndN _ _ _ _ R). }
  { intros a Ha. apply KN in Ha as [n Ha]. exists (CNode n). split; auto. discriminate. }
  { symmetry. exact (rep_lenN _ _ _ _ R). }
  cbv beta in E1. rewrite E1. cbn [bind].
  destruct F1 as (L1 & D1 & O1).
  assert (P1 : nth_error h1 r = Some (CPart (pN p) (pM p) (pnempty p) (lx L) (ly L))) by (rewrite O1; auto; eapply SN; eauto; discriminate).
  assert (X1 : nth_error h1 (lx L) = Some (CArr (lnodes L))) by (rewrite O1; auto; eapply SN; eauto; discriminate).
  assert (Y1 : nth_error h1 (ly L) = Some (CArr (lmods L))) by (rewrite O1; auto; eapply SN; eauto; discriminate).
  destruct (free_loop h1 h1 (pM p) (fun h i => h_modptr h r i) (lmods L)) as (h2 & E2 & F2); auto.
  { intros h2 done (_ & _ & O) IC i a Ea. unfold h_modptr, h_part.
    assert (E : nth_error h2 r = nth_error h1 r) by (apply O; intros Z; apply IC in Z; revert Z; eapply SM; eauto; discriminate).
    rewrite (h_get_ok h2 r _ (eq_trans E P1)) by discriminate. cbn [bind]. unfold h_arr.
    assert (E' : nth_error h2 (ly L) = nth_error h1 (ly L)) by (apply O; intros Z; apply IC in Z; revert Z; eapply SM; eauto; discriminate).
    rewrite (h_get_ok h2 _ _ (eq_trans E' Y1)) by discriminate. cbn [bind]. now apply get_ok. }
  { exact (rep_ndM _ _ _ _ R). }
  { intros a Ha. assert (Hn : ~ In a (lnodes L)) by (intros Z; eauto). rewrite (O1 _ Hn).
    apply KM in Ha as [n Ha]. exists (CMod n). split; auto. discriminate. }
  { symmetry. exact (rep_lenM _ _ _ _ R). }
  cbv beta in E2. rewrite E2. cbn [bind].
  pose proof F2 as (L2 & D2 & O2).
  assert (P2 : nth_error h2 r = Some (CPart (pN p) (pM p) (pnempty p) (lx L) (ly L))) by (rewrite O2; auto; eapply SM; eauto; discriminate).
  assert (X2 : nth_error h2 (lx L) = Some (CArr (lnodes L))) by (rewrite O2; auto; eapply SM; eauto; discriminate).
  assert (Y2 : nth_error h2 (ly L) = Some (CArr (lmods L))) by (rewrite O2; auto; eapply SM; eauto; discriminate).
  rewrite (h_free_ok _ _ _ X2) by discriminate. cbn [bind].
  pose proof (rep_xy _ _ _ _ R) as XY.
  assert (XR : lx L <> r) by (intros Z; rewrite Z, P in X; discriminate).
  assert (YR : ly L <> r) by (intros Z; rewrite Z, P in Y; discriminate).
  assert (BX : lx L < length h) by (eapply nth_lt; eauto). assert (BY : ly L < length h) by (eapply nth_lt; eauto).
  assert (BR : r < length h) by (eapply nth_lt; eauto).
  erewrite h_free_ok; [|rewrite nth_upd_neq by congruence; exact Y2|discriminate]. cbn [bind].
  erewrite h_free_ok; [|rewrite nth_upd_neq by congruence; rewrite nth_upd_neq by congruence; exact P2|discriminate].
  eexists. split; [reflexivity|]. eapply freed_trans; [split; [exact L1|split; [exact D1|exact O1]]|].
  eapply freed_trans; [exact F2|].
  assert (F0 : freed h2 h2 []) by (unfold freed; splits; auto; intros a []).
  apply (freed_snoc _ _ _ (lx L)) in F0; [|lia]. apply (freed_snoc _ _ _ (ly L)) in F0; [|lia].
  apply (freed_snoc _ _ _ r) in F0; [|lia]. exact F0.
Qed.

Lemma freed_others h h' r L r2 L2 p : freed h h' (lnodes L ++ lmods L ++ [lx L; ly L; r]) ->
  disjoint (footprint r2 L2) (footprint r L) -> Rep h r2 L2 p -> Rep h' r2 L2 p.
Proof.
  intros (_ & _ & O) D R. refine (Rep_frame h h' r2 L2 p R _). intros a Ha. apply O. intros Hb. apply (D a Ha).
  unfold footprint. rewrite app_assoc in Hb. apply in_app_or in Hb as [Hb|[<-|[<-|[<-|[]]]]]; cbn [In]; auto.
Qed.

(** ** Histories of operations on one partition *)
Inductive hop := HMove (n m : nat) | HMerge (a b : nat).
Definition hop_ok p (o : hop) : Prop :=
  match o with HMove n m => n < pN p /\ m < pM p | HMerge a b => a <> b /\ a < pM p /\ b < pM p end.
Definition h_op (r : nat) h (o : hop) : res (heap A) :=
  match o with HMove n m => h_ChangeModule n m r h | HMerge a b => h_MergeModules a b r h end.
Definition v_op p (o : hop) : res (partition A) :=
  match o with HMove n m => ChangeModule n m p | HMerge a b => MergeModules a b p end.

Theorem history_heap r L l : forall h p, Rep h r L p -> valid p -> Forall (hop_ok p) l ->
  exists h' p', foldM (h_op r) h l = Ok h' /\ foldM v_op p l = Ok p' /\ Rep h' r L p' /\ valid p' /\ only h h' r L.
Proof.
  induction l as [|o l IH]; intros h p R V H; cbn [foldM].
  - exists h, p. splits; auto. apply only_refl.
  - apply Forall_cons_iff in H as [Ho H].
    assert (K : exists p1, v_op p o = Ok p1 /\ valid p1 /\ pN p1 = pN p /\ pM p1 = pM p).
    { destruct o as [n m|a b]; cbn [v_op hop_ok] in *.
      - destruct (move_spec p n m V (proj1 Ho) (proj2 Ho)) as (p1 & E & V1 & N1 & M1 & _). eauto 6.
      - destruct Ho as (H1 & H2 & H3). destruct (merge_spec p a b V H1 H2 H3) as (p1 & E & V1 & N1 & M1 & _). eauto 6. }
    destruct K as (p1 & E1 & V1 & N1 & M1).
    assert (K : exists h1, h_op r h o = Ok h1 /\ Rep h1 r L p1 /\ only h h1 r L).
    { destruct o as [n m|a b]; cbn [v_op h_op] in *; [eapply ChangeModule_heap|eapply MergeModules_heap]; eauto. }
    destruct K as (h1 & E2 & R1 & O1). rewrite E1, E2. cbn [bind].
    destruct (IH h1 p1 R1 V1) as (h' & p' & E3 & E4 & R' & V' & O').
    { eapply Forall_impl; [|exact H]. intros [n m|a b]; cbn [hop_ok]; rewrite ?N1, ?M1; auto. }
    exists h', p'. splits; auto. eapply only_trans; eauto.
Qed.

(** ** A copy is independent of its original *)
Theorem copy_independent h r L p : Rep h r L p -> valid p -> pM p <= pN p ->
  exists c h1 Lc, h_CopyPartitionStruct r h = Ok (c, h1) /\ Rep h1 r L p /\ Rep h1 c Lc p /\
    disjoint (footprint r L) (footprint c Lc) /\
    (forall a, a < length h -> nth_error h1 a = nth_error h a) /\
    (* whatever is done to the copy, the original stays, and the other way round *)
    (forall l, Forall (hop_ok p) l -> exists h2 q, foldM (h_op c) h1 l = Ok h2 /\ foldM v_op p l = Ok q /\
       Rep h2 r L p /\ Rep h2 c Lc q) /\
    (forall l, Forall (hop_ok p) l -> exists h2 q, foldM (h_op r) h1 l = Ok h2 /\ foldM v_op p l = Ok q /\
       Rep h2 r L q /\ Rep h2 c Lc p) /\
    (exists h2, h_FreePartition c h1 = Ok h2 /\ Rep h2 r L p /\ forall a, In a (footprint c Lc) -> nth_error h2 a = Some CFreed) /\
    (exists h2, h_FreePartition r h1 = Ok h2 /\ Rep h2 c Lc p /\ forall a, In a (footprint r L) -> nth_error h2 a = Some CFreed).
Proof.
  intros R V HM. destruct (CopyPartition_heap h r L p p R (copy_equal p V HM)) as (c & h1 & Lc & E & R1 & RC & B & FB & FA).
  assert (D : disjoint (footprint r L) (footprint c Lc)) by (intros a Ha Hb; apply FB in Ha; apply FA in Hb; lia).
  assert (D' : disjoint (footprint c Lc) (footprint r L)) by (intros a Ha Hb; eapply D; eauto).
  exists c, h1, Lc. splits; auto.
  - intros l Hl. destruct (history_heap c Lc l h1 p RC V Hl) as (h2 & q & E1 & E2 & R2 & _ & O). exists h2, q. splits; auto.
    eapply Rep_other; eauto.
  - intros l Hl. destruct (history_heap r L l h1 p R1 V Hl) as (h2 & q & E1 & E2 & R2 & _ & O). exists h2, q. splits; auto.
    eapply Rep_other; eauto.
  - destruct (FreePartition_heap h1 c Lc p RC) as (h2 & E2 & F). exists h2. splits; auto; [eapply freed_others; eauto|].
    intros a Ha. apply F. unfold footprint in Ha. rewrite app_assoc. apply in_or_app. cbn [In] in *. intuition.
  - destruct (FreePartition_heap h1 r L p R1) as (h2 & E2 & F). exists h2. splits; auto; [eapply freed_others; eauto|].
    intros a Ha. apply F. unfold footprint in Ha. rewrite app_assoc. apply in_or_app. cbn [In] in *. intuition.
Qed.

(** Every valid partition is held by some heap, so the hypotheses above can be met. *)
Theorem Rep_exists p : valid p -> exists h r L, Rep h r L p.
Proof.
  intros V. set (N := length (pnodes p)). set (M := length (pmods p)).
  pose proof (WF_links_in p _ (valid_WF p V)) as [LN LM].
  set (tl := [CArr (seq 0 N); CArr (seq N M); CPart (pN p) (pM p) (pnempty p) (N + M) (N + M + 1)] : heap A).
  set (cN := map (fun nd => CNode (hnode (seq 0 N) nd)) (pnodes p)). set (cM := map (fun md => CMod (hmod (seq 0 N) md)) (pmods p)).
  assert (LcN : length cN = N) by (unfold cN; now rewrite map_length).
  assert (LcM : length cM = M) by (unfold cM; now rewrite map_length).
  exists (cN ++ cM ++ tl), (N + M + 2), (mkLayout (N + M) (N + M + 1) (seq 0 N) (seq N M)).
  assert (T : forall k, nth_error (cN ++ cM ++ tl) (N + M + k) = nth_error tl k).
  { intros k. rewrite nth_error_app2 by lia. rewrite nth_error_app2 by lia. f_equal. lia. }
  pose proof (valid_N _ V) as EN. pose proof (valid_M _ V) as EM.
  constructor; cbn [lx ly lnodes lmods]; rewrite ?seq_length; auto.
  - rewrite T. reflexivity.
  - replace (N + M) with (N + M + 0) by lia. rewrite T. reflexivity.
  - rewrite T. reflexivity.
  - intros i a nd Ha Hnd. assert (Hi : i < N) by (apply nth_lt in Ha; now rewrite seq_length in Ha).
    rewrite nth_error_seq in Ha by auto. injection Ha as <-. rewrite nth_error_app1 by lia.
    unfold cN. rewrite nth_error_map. cbn [plus]. now rewrite Hnd.
  - intros i a nd Ha Hnd. assert (Hi : i < M) by (apply nth_lt in Ha; now rewrite seq_length in Ha).
    rewrite nth_error_seq in Ha by auto. injection Ha as <-. rewrite nth_error_app2 by lia. rewrite nth_error_app1 by lia.
    unfold cM. rewrite nth_error_map. replace (N + i - length cN) with i by lia. now rewrite Hnd.
  - lia.
  - apply seq_NoDup.
  - apply seq_NoDup.
  - intros i nd E. destruct (LN i nd E). split; auto.
Qed.
End HeapProof.
