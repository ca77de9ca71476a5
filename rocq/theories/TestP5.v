(** * TestP5: the complete check of an embedding. *)
From Coq Require Import ZifyBool.
From Verif Require Import Base BaseP GraphRec GraphM GraphSpec GSimp LinkP GraphP GraphP2 GraphP3 GraphP5
  DFSM DFSSpec DFSP DFSP2 DFSP3 DFSP4 RandP2 TestM TestSpec OrbitP TestP TestP2 TestP3 TestP4.

(** What the specification of the checks looks at. *)
Definition alike (g h : graph) : Prop :=
  gN h = gN g /\ gM h = gM g /\ (forall e, enbr h e = enbr g e) /\ (forall v, primary g v -> par h v = par g v).

Lemma alike_sym g h : alike g h -> alike h g.
Proof. intros (A & B & C & D). repeat split; auto. intros v Hv. symmetry. apply D. unfold primary in *. now rewrite A in Hv. Qed.
Lemma alike_trans g h k : alike g h -> alike h k -> alike g k.
Proof.
  intros (A & B & C & D) (A' & B' & C' & D'). split; [congruence|]. split; [congruence|]. split.
  - intros e. now rewrite C'.
  - intros v Hv. rewrite D', D; auto. unfold primary in *. now rewrite A.
Qed.
Lemma sm_alike g h : same_but_marks g h -> alike g h.
Proof.
  intros H. repeat split; [apply (sm_N _ _ H)|apply (sm_M _ _ H)|apply (sm_enbr _ _ H)|].
  intros v Hv. apply (sm_info _ _ H v Hv).
Qed.
Lemma em_alike g h : edge_marks_only g h -> alike g h.
Proof.
  intros H. repeat split; [apply (em_N _ _ H)|apply (em_M _ _ H)|intros; now rewrite (em_enbr _ _ H)|].
  intros v Hv. unfold par. now rewrite (em_VI _ _ H).
Qed.
Lemma vm_alike g h : vertex_marks_only g h -> alike g h.
Proof. intros H. apply sm_alike. now apply vm_same. Qed.

Lemma alike_face g h adj : alike g h -> forall a b, same_face g adj a b -> same_face h adj a b.
Proof.
  intros (_ & _ & E & _) a b (k & <-). exists k. induction k as [|k IH]; [reflexivity|].
  rewrite !iter_S, IH. unfold face_step. now rewrite E.
Qed.
Lemma alike_conn g h adj : alike g h -> forall a b, connected g adj a b -> connected h adj a b.
Proof.
  intros (_ & _ & E & _) a b. induction 1 as [|w e _ IH He]; [constructor|]. rewrite <- E. apply conn_step with w; auto.
Qed.
Lemma num_classes_mono (P P' : Z -> Prop) R R' n : (forall x, P x <-> P' x) -> (forall x y, R x y <-> R' x y) -> num_classes P R n -> num_classes P' R' n.
Proof.
  intros HP HR (rs & H1 & H2 & H3 & H4 & H5). exists rs. split; [auto|]. split; [intros r Hr; apply HP; auto|].
  split; [intros r r' ? ? ?; apply H3; auto; now apply HR|]. split; [|auto].
  intros x Hx. apply HP in Hx. destruct (H4 x Hx) as (r & ? & ?). exists r; split; auto. now apply HR.
Qed.
Lemma alike_primary g h : alike g h -> forall v, primary g v <-> primary h v.
Proof. intros (A & _) v. unfold primary. now rewrite A. Qed.

Lemma alike_euler g h adj : alike g h -> euler g adj -> euler h adj.
Proof.
  intros A (F & C & HF & HC & E). pose proof (alike_sym _ _ A) as A'. exists F, C. split; [|split].
  - eapply num_classes_mono; [reflexivity| |exact HF]. intros x y; split; apply alike_face; auto.
  - eapply num_classes_mono; [apply (alike_primary _ _ A)| |exact HC]. intros x y; split; apply alike_conn; auto.
  - destruct A as (EN & EM & _). unfold num_isolated in *. rewrite EN, EM. auto.
Qed.
Lemma alike_roots g h adj : alike g h -> one_root_each g adj -> one_root_each h adj.
Proof.
  intros A H v Hv. pose proof (alike_sym _ _ A) as A'. pose proof (alike_primary _ _ A) as P.
  destruct (H v) as (r & R1 & R2 & R3 & R4); [now apply P|].
  destruct A as (EN & EM & EE & EP). exists r. split; [now apply P|]. split; [now rewrite EP|].
  split; [eapply alike_conn; [|exact R3]; now apply alike_sym|].
  intros r' H1 H2 H3. apply R4; [now apply P|rewrite <- EP; auto; now apply P|eapply alike_conn; [exact A'|auto]].
Qed.
Lemma alike_outer g h adj : alike g h -> all_outer g adj -> all_outer h adj.
Proof.
  intros A H v Hv. pose proof (alike_primary _ _ A) as P. destruct (H v) as (r & R1 & R2 & R3); [now apply P|].
  exists r. split; [now apply P|]. split; [destruct A as (_ & _ & _ & EP); now rewrite EP|].
  unfold on_first_face in *. destruct (adj r); auto. destruct R3 as (b & ? & ?). exists b; split; auto. eapply alike_face; eauto.
Qed.

Lemma sm_rep g h adj : same_but_marks g h -> rep g adj -> rep h adj.
Proof.
  intros S [[C1 C2 C3 C4 C5 C6 C7] T [S1 S2 S3 S4 S5 S6 S7 S8 S9]].
  destruct S. constructor; [|intros v e H; rewrite !sm_enbr; apply T; auto|]; constructor;
    unfold is_vertex, gp_EdgeIndexBound, gp_EdgeInUseIndexBound in *;
    rewrite ?sm_N, ?sm_M, ?sm_cap, ?sm_enext, ?sm_eprev, ?sm_holes, ?sm_holesCap in *; auto.
  all: try (intros v Hv; rewrite ?sm_first, ?sm_last by auto; now auto).
  all: intros e; rewrite ?sm_enbr; eauto.
Qed.
Lemma alike_prim_edges g h adj : alike g h -> primary_edges g adj -> primary_edges h adj.
Proof. intros A P v e He. apply (alike_primary _ _ A). eauto. Qed.
Lemma sm_sorted g h : same_but_marks g h -> is_sorted h = is_sorted g.
Proof. intros S. unfold is_sorted. now rewrite (sm_iflags _ _ S). Qed.
Lemma sm_sort_state g h : same_but_marks g h -> 0 <= gN g -> sort_state g -> sort_state h.
Proof.
  intros S HN H E. rewrite (sm_sorted _ _ S) in E. destruct (H E) as (A & B & C & D).
  assert (Pe : forall v, primary h v <-> primary g v) by (intros v; unfold primary; now rewrite (sm_N _ _ S)).
  assert (Ix : forall v, primary g v -> vindex h v = vindex g v) by (intros v Hv; apply (sm_index _ _ S); unfold primary, is_vertex in *; lia).
  split; [now rewrite (sm_iflags _ _ S)|]. split; [|split].
  - intros v Hv. apply Pe in Hv. rewrite Ix by auto. apply Pe. auto.
  - intros v w Hv Hw. apply Pe in Hv, Hw. rewrite !Ix by auto. auto.
  - intros v Hv. apply Pe in Hv. destruct (sm_info _ _ S v Hv) as (-> & _). intros; apply Pe; auto.
Qed.
Lemma sm_sym_sub s s' sadj g g' gadj : rep s sadj -> primary_edges s sadj -> rep g gadj -> primary_edges g gadj ->
  same_but_marks s s' -> same_but_marks g g' -> (sub_adj s sadj g gadj <-> sub_adj s' sadj g' gadj).
Proof.
  intros Rs Ps Rg Pg Ss Sg.
  assert (X : forall (h h' : graph) (b b' : graph) v, same_but_marks h h' -> same_but_marks b b' -> primary h v -> label h' b' v = label h b v).
  { intros h h' b b' v H B Hv. unfold label. rewrite (sm_sorted _ _ H), (sm_sorted _ _ B).
    rewrite (sm_index _ _ H v); auto. unfold primary, is_vertex in *; lia. }
  unfold sub_adj. split; intros H v e He; destruct (H v e He) as (v' & e' & H1 & H2 & H3); exists v', e'; (split; [auto|]).
  - rewrite (sm_enbr _ _ Ss), (sm_enbr _ _ Sg). rewrite !(X s s' g g'), !(X g g' s s'); eauto using nbr_prim.
  - rewrite (sm_enbr _ _ Ss), (sm_enbr _ _ Sg) in *. rewrite !(X s s' g g'), !(X g g' s s') in *; eauto using nbr_prim.
Qed.

Lemma check_embedding_ok g adj o oadj :
  rep g adj -> primary_edges g adj -> rep o oadj -> primary_edges o oadj -> gN g = gN o ->
  sort_state g -> sort_state o -> 2 * gM g <= gstackCap g -> one_root_each g adj ->
  wp (_CheckEmbeddingIntegrity g o) (fun '(g', o', r) =>
    rep g' adj /\ (forall e, enbr g' e = enbr g e) /\ rep o' oadj /\ (forall e, enbr o' e = enbr o e) /\
    (r = C_OK \/ r = C_NOTOK) /\
    (r = C_OK <-> sub_adj g adj o oadj /\ sub_adj o oadj g adj /\ euler g adj /\
                  (gembed g = EMBEDFLAGS_OUTERPLANAR -> all_outer g adj))).
Proof.
  intros R P Ro Po EN Sg So Cap OR. unfold _CheckEmbeddingIntegrity.
  apply wp_bind. eapply wp_mono; [apply (test_subgraph_ok g adj o oadj); auto|].
  intros ((g1, o1), r1) (G1 & O1 & B1 & Q1).
  pose proof (st_N _ _ (rep_storage _ _ R)) as HN.
  pose proof (sm_rep _ _ _ G1 R) as R1. pose proof (sm_rep _ _ _ O1 Ro) as Ro1.
  pose proof (alike_prim_edges _ _ _ (sm_alike _ _ G1) P) as P1. pose proof (alike_prim_edges _ _ _ (sm_alike _ _ O1) Po) as Po1.
  destruct B1 as [-> | ->].
  2:{ cbn [negb Z.eqb C_TRUE C_FALSE wp]. do 5 (split; [auto; first [apply (sm_enbr _ _ G1)|apply (sm_enbr _ _ O1)]|]).
      split; [discriminate|]. intros (H & _). apply Q1 in H. discriminate. }
  change (negb (C_TRUE =? C_TRUE)) with false. cbv iota.
  apply wp_bind. eapply wp_mono.
  { apply (test_subgraph_ok o1 oadj g1 adj); auto.
    - rewrite (sm_N _ _ G1), (sm_N _ _ O1). auto.
    - eapply sm_sort_state; eauto. lia.
    - eapply sm_sort_state; eauto. lia. }
  intros ((o2, g2), r2) (O2 & G2 & B2 & Q2).
  pose proof (sm_rep _ _ _ G2 R1) as R2. pose proof (sm_rep _ _ _ O2 Ro1) as Ro2.
  assert (A2 : alike g g2) by (eapply alike_trans; eapply sm_alike; eauto).
  assert (AO2 : alike o o2) by (eapply alike_trans; eapply sm_alike; eauto).
  assert (Q2' : r2 = C_TRUE <-> sub_adj o oadj g adj) by (rewrite Q2; symmetry; apply sm_sym_sub; auto).
  destruct B2 as [-> | ->].
  2:{ cbn [negb Z.eqb C_TRUE C_FALSE wp]. do 5 (split; [auto; first [apply A2|apply AO2]|]).
      split; [discriminate|]. intros (_ & H & _). apply Q2' in H. discriminate. }
  change (negb (C_TRUE =? C_TRUE)) with false. cbv iota.
  assert (OR2 : one_root_each g2 adj) by (eapply alike_roots; eauto).
  apply wp_bind. eapply wp_mono.
  { apply (facial_ok g2 adj); auto. destruct A2 as (_ & -> & _). rewrite (sm_stackCap _ _ G2), (sm_stackCap _ _ G1). auto. }
  intros (g3, r3) (G3 & _ & B3 & Q3).
  assert (A3 : alike g g3) by (eapply alike_trans; [exact A2|now apply em_alike]).
  assert (R3 : rep g3 adj) by (eapply em_rep; eauto).
  assert (Q3' : r3 = C_OK <-> euler g adj) by (rewrite Q3; split; apply alike_euler; auto; now apply alike_sym).
  assert (F3 : gembed g3 = gembed g) by now rewrite (em_embed _ _ G3), (sm_embed _ _ G2), (sm_embed _ _ G1).
  destruct B3 as [-> | ->].
  2:{ change (negb (C_NOTOK =? C_OK)) with true. cbn [wp]. do 5 (split; [auto; first [apply A3|apply AO2]|]).
      split; [discriminate|]. intros (_ & _ & H & _). apply Q3' in H. discriminate. }
  change (negb (C_OK =? C_OK)) with false. cbv iota. rewrite F3.
  destruct (Z.eqb_spec (gembed g) EMBEDFLAGS_OUTERPLANAR) as [E|E].
  - apply wp_bind. eapply wp_mono.
    { apply (ext_check_ok g3 adj); auto. eapply alike_prim_edges; eauto. }
    intros (g4, r4) (G4 & B4 & Q4).
    assert (A4 : alike g g4) by (eapply alike_trans; [exact A3|now apply vm_alike]).
    assert (Q4' : r4 = C_OK <-> all_outer g adj) by (rewrite Q4; fold (all_outer g3 adj); split; apply alike_outer; auto; now apply alike_sym).
    assert (R4 : rep g4 adj) by (eapply vm_rep; eauto).
    destruct B4 as [-> | ->]; cbn [wp].
    + change (negb (C_OK =? C_OK)) with false. cbv iota. do 5 (split; [auto; first [apply A4|apply AO2]|]). tauto.
    + change (negb (C_NOTOK =? C_OK)) with true. cbv iota. do 5 (split; [auto; first [apply A4|apply AO2]|]).
      split; [discriminate|]. intros (_ & _ & _ & H). apply Q4'. auto.
  - cbn [wp]. do 5 (split; [auto; first [apply A3|apply AO2]|]). tauto.
Qed.
