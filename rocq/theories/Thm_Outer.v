(** * Thm_Outer: gp_Embed with EMBEDFLAGS_OUTERPLANAR. *)
From Coq Require Import ZifyBool Permutation.
From Verif Require Import Base BaseP GraphRec GraphM GraphSpec GraphP GraphP4 GraphEx DFSM DFSSpec DFSP DFSP3 DFSP4 DFSP7 TestM TestSpec TestP EmbM EmbedSpec EmbedP PlanSpec OutSpec PlanE PlanDec PlanO Thm_Test Thm_Embed Thm_Planar.

(** ** C59 *)
(** Asked for an outerplanar embedding and answering OK, gp_Embed leaves a planar embedding of the
    graph it was given in which every vertex is on the first face of the root of its component. *)
Theorem C59_outer_face :
  forall g adj flags h, rep g adj -> primary_edges g adj -> simple_graph g adj -> unsearched g adj -> embed_ready g adj ->
    Z.land flags EMBEDFLAGS_OUTERPLANAR <> 0 -> gp_Embed g flags = Ret (h, C_OK) ->
    exists A, planar_embedding g adj h A /\ one_root_each h A /\ all_outer h A.
Proof.
  intros g adj flags h R P S U E F H. destruct (embed_ok g adj flags R P S U E) as (h' & r & H' & [[-> _] | (-> & A & PE & Ro & Ou & _)]); rewrite H in H'; [discriminate|].
  injection H' as <-. exists A. auto.
Qed.

(** So OK is only answered for outerplanar graphs. *)
Theorem C59_ok_means_outerplanar :
  forall g adj flags h, rep g adj -> primary_edges g adj -> simple_graph g adj -> unsearched g adj -> embed_ready g adj ->
    Z.land flags EMBEDFLAGS_OUTERPLANAR <> 0 -> gp_Embed g flags = Ret (h, C_OK) -> outerplanar_graph g adj.
Proof.
  intros g adj flags h R P S U E F H. destruct (C59_outer_face g adj flags h R P S U E F H) as (A & H1 & H2 & H3). eapply embedding_outerplanar; eauto.
Qed.

(** ** C60 *)
(** A graph in which four disjoint connected sets of vertices touch one another, or two and three each
    other, is not outerplanar. *)
Theorem C60_obstruction_not_outerplanar :
  forall g adj, rep g adj -> primary_edges g adj -> simple_graph g adj -> outer_obstruction (primary g) (adjacent g adj) -> ~ outerplanar_graph g adj.
Proof. intros g adj R P [S _] K H. exact (outerplanar_no_minor g adj R P S H K). Qed.

Theorem C60_nonembeddable_has_minor :
  forall g adj flags h, rep g adj -> primary_edges g adj -> simple_graph g adj -> unsearched g adj -> embed_ready g adj ->
    Z.land flags EMBEDFLAGS_OUTERPLANAR <> 0 -> gp_Embed g flags = Ret (h, C_NONEMBEDDABLE) -> outer_obstruction (primary g) (adjacent g adj).
Proof.
  intros g adj flags h R P S U E F H. destruct (embed_ok g adj flags R P S U E) as (h' & r & H' & [[-> K] | (-> & _)]); [|rewrite H in H'; discriminate].
  destruct (graph_outer_dec g adj) as [D|D]; [exact D|]. elim (proj1 (proj2 K) F D).
Qed.

(** Asked for an outerplanar embedding, gp_Embed answers OK for exactly the outerplanar graphs and
    NONEMBEDDABLE for exactly the others. *)
Theorem C60_embed_decides_outerplanarity :
  forall g adj flags, rep g adj -> primary_edges g adj -> simple_graph g adj -> unsearched g adj -> embed_ready g adj ->
    Z.land flags EMBEDFLAGS_OUTERPLANAR <> 0 ->
    exists h r, gp_Embed g flags = Ret (h, r) /\ (r = C_OK /\ outerplanar_graph g adj \/ r = C_NONEMBEDDABLE /\ ~ outerplanar_graph g adj).
Proof.
  intros g adj flags R P S U E F. destruct (C55_embed_is_planar g adj flags R P S U E) as (h & r & H & [-> | ->] & _); exists h; eexists; (split; [exact H|]).
  - left. split; [reflexivity|]. eapply C59_ok_means_outerplanar; eauto.
  - right. split; [reflexivity|]. apply C60_obstruction_not_outerplanar; auto. eapply C60_nonembeddable_has_minor; eauto.
Qed.

(** The graphs without a K4 or K2,3 minor are exactly the outerplanar ones. *)
Theorem C60_outerplanar_iff_no_minor :
  forall g adj, rep g adj -> primary_edges g adj -> simple_graph g adj -> unsearched g adj -> embed_ready g adj ->
    outerplanar_graph g adj <-> ~ outer_obstruction (primary g) (adjacent g adj).
Proof.
  intros g adj R P S U E. split; [intros H K; now apply (C60_obstruction_not_outerplanar g adj R P S K)|]. intros Nk.
  destruct (C60_embed_decides_outerplanarity g adj EMBEDFLAGS_OUTERPLANAR R P S U E ltac:(discriminate)) as (h & r & H & [[_ Pl]|[-> _]]); [exact Pl|].
  elim Nk. eapply C60_nonembeddable_has_minor; eauto. discriminate.
Qed.

(** The same for every graph the editing functions can make of a new one, as the caller sees it. *)
Theorem C60_built_graphs :
  forall g, clean_reach g -> exists adj, rep g adj /\
    (simple_graph g adj -> exists h r, gp_Embed g EMBEDFLAGS_OUTERPLANAR = Ret (h, r) /\
       (r = C_OK /\ outerplanar_graph g adj \/ r = C_NONEMBEDDABLE /\ outer_obstruction (primary g) (adjacent g adj))).
Proof.
  intros g C. destruct (clean_reach_ready g C) as (adj & R & P & U & E & _). exists adj. split; [exact R|]. intros S.
  destruct (C60_embed_decides_outerplanarity g adj EMBEDFLAGS_OUTERPLANAR R P S U E ltac:(discriminate)) as (h & r & H & [[-> Pl]|[-> _]]); exists h; eexists; (split; [exact H|]).
  - left. auto.
  - right. split; [reflexivity|]. eapply C60_nonembeddable_has_minor; eauto. discriminate.
Qed.

(** Two triangles with a common edge are outerplanar; K4 (in a graph with two more vertices) is not,
    though it is planar; nor is K2,3. *)
Definition k23 := built 40 5 (adds [(1, 3); (4, 1); (1, 5); (2, 3); (2, 4); (5, 2)]).
Definition outer_decided (g : graph) (yes : Prop -> Prop) : Prop :=
  exists adj, rep g adj /\ primary_edges g adj /\ simple_graph g adj /\ unsearched g adj /\ embed_ready g adj /\ yes (outerplanar_graph g adj).
Example outer_decides_case :
  outer_decided fan (fun P => P) /\ outer_decided k4_2 (fun P => ~ P) /\ outer_decided k23 (fun P => ~ P) /\ decided k4_2 (fun P => P) /\ decided k23 (fun P => P).
Proof.
  assert (B : forall g, clean_reach g -> simpleb g = true -> exists adj, rep g adj /\ primary_edges g adj /\ simple_graph g adj /\ unsearched g adj /\ embed_ready g adj).
  { intros g C Q. destruct (clean_reach_ready g C) as (adj & R & P & U & E & _). exists adj. auto using simpleb_ok. }
  assert (Y : forall g, clean_reach g -> simpleb g = true -> embed_verdict g EMBEDFLAGS_OUTERPLANAR = C_OK -> outer_decided g (fun P => P)).
  { intros g C Q V. destruct (B g C Q) as (adj & R & P & S & U & E). exists adj. do 5 (split; [assumption|]).
    destruct (C60_embed_decides_outerplanarity g adj EMBEDFLAGS_OUTERPLANAR R P S U E ltac:(discriminate)) as (h & r & H & [[-> Pl]|[-> _]]); [exact Pl|]. unfold embed_verdict in V. rewrite H in V. discriminate. }
  assert (N : forall g, clean_reach g -> simpleb g = true -> embed_verdict g EMBEDFLAGS_OUTERPLANAR = C_NONEMBEDDABLE -> outer_decided g (fun P => ~ P)).
  { intros g C Q V. destruct (B g C Q) as (adj & R & P & S & U & E). exists adj. do 5 (split; [assumption|]).
    destruct (C60_embed_decides_outerplanarity g adj EMBEDFLAGS_OUTERPLANAR R P S U E ltac:(discriminate)) as (h & r & H & [[-> _]|[-> Pl]]); [|exact Pl]. unfold embed_verdict in V. rewrite H in V. discriminate. }
  assert (PY : forall g, clean_reach g -> simpleb g = true -> embed_verdict g EMBEDFLAGS_PLANAR = C_OK -> decided g (fun P => P)).
  { intros g C Q V. destruct (B g C Q) as (adj & R & P & S & U & E). exists adj. do 5 (split; [assumption|]).
    destruct (C58_embed_decides_planarity g adj EMBEDFLAGS_PLANAR R P S U E eq_refl) as (h & r & H & [[-> Pl]|[-> _]]); [exact Pl|]. unfold embed_verdict in V. rewrite H in V. discriminate. }
  split; [apply Y; [apply built_clean| |]; vm_compute; reflexivity|]. split; [apply N; [apply built_clean| |]; vm_compute; reflexivity|].
  split; [apply N; [apply built_clean| |]; vm_compute; reflexivity|]. split; (apply PY; [apply built_clean| |]; vm_compute; reflexivity).
Qed.

(** All the theorems of this file at once: their assumptions are printed together because each print walks the whole proof of gp_Embed. *)
Definition Thm_Outer_all := (@C59_outer_face, @C59_ok_means_outerplanar, @C60_obstruction_not_outerplanar, @C60_nonembeddable_has_minor, @C60_embed_decides_outerplanarity, @C60_outerplanar_iff_no_minor, @C60_built_graphs).
Print Assumptions Thm_Outer_all.
