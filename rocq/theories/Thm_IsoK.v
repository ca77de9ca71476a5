(** * Thm_IsoK: what gp_Embed leaves when it answers NONEMBEDDABLE to EMBEDFLAGS_PLANAR. *)
From Coq Require Import ZifyBool Permutation.
From Verif Require Import Base BaseP GraphRec GraphM GraphSpec GraphP GraphP4 GraphEx DFSM DFSSpec DFSP DFSP3 DFSP4 DFSP7 TestM TestSpec TestP ObsSpec EmbM EmbedSpec EmbedP PlanSpec OutSpec Thm_Test Thm_Obs Thm_Embed Thm_Planar Thm_Outer Thm_Iso SubdP.

(** ** C62 *)
(** Asked for a planar embedding, gp_Embed either answers OK or cuts the graph down to some of
    its edges, which form a subdivision of K3,3 or of K5. *)
Theorem C62_kuratowski_isolated :
  forall g adj h, rep g adj -> primary_edges g adj -> simple_graph g adj -> unsearched g adj -> embed_ready g adj ->
    gp_Embed g EMBEDFLAGS_PLANAR = Ret (h, C_NONEMBEDDABLE) ->
    exists A, isolated_subgraph g adj h A /\ (bipartite_subdivision h A 3 3 \/ complete_subdivision h A 5).
Proof.
  intros g adj h R P S U E H. destruct (embed_ok g adj EMBEDFLAGS_PLANAR R P S U E) as (h' & r & H' & [(-> & _ & _ & _ & K) | (-> & _)]); rewrite H in H'; [|discriminate].
  injection H' as <-. destruct (K eq_refl) as (A & H1 & H2 & _). eauto.
Qed.

(** For the graphs which the editing functions can make of a new one, as the caller sees it: the result
    is OK or the obstruction, and the check accepts the obstruction. *)
Theorem C62_isolate_then_check :
  forall g adj, clean_reach g -> rep g adj -> simple_graph g adj ->
    exists h r, gp_Embed g EMBEDFLAGS_PLANAR = Ret (h, r) /\
      (r = C_OK \/ r = C_NONEMBEDDABLE /\
        (exists A, isolated_subgraph g adj h A /\ (bipartite_subdivision h A 3 3 \/ complete_subdivision h A 5)) /\
        exists h' g', gp_TestEmbedResultIntegrity h g C_NONEMBEDDABLE = Ret (h', g', C_NONEMBEDDABLE)).
Proof.
  intros g adj Cl R S. destruct (clean_reach_ready g Cl) as (adj' & R' & P' & U' & E' & F').
  assert (EA : forall v, adj' v = adj v) by (intros v; apply (C55_lists_unique g); auto).
  assert (P : primary_edges g adj) by (intros v e; rewrite <- EA; apply P').
  assert (U : unsearched g adj) by (destruct U'; constructor; auto; intros v e; rewrite <- EA; apply us_types).
  assert (E : embed_ready g adj) by (destruct E'; constructor; auto; intros v e; rewrite <- EA; apply er_inv).
  destruct (embed_ok g adj EMBEDFLAGS_PLANAR R P S U E) as (h & r & H & [(-> & _ & _ & _ & K) | (-> & _)]); exists h; eexists; (split; [exact H|]); [|now left].
  right. split; [reflexivity|]. destruct (K eq_refl) as (A & Is & Ob & Fl & If & Pa). split; [eauto|]. pose proof Is as [Rh Ph N Ix Inj Ar En].
  rewrite F' in If.
  assert (Sh : is_sorted h = true) by (unfold is_sorted; rewrite If; reflexivity).
  assert (Sg : is_sorted g = false) by (unfold is_sorted; rewrite F'; reflexivity).
  assert (Pn : forall v, primary h v <-> primary g v) by (intros v; unfold primary; now rewrite N).
  destruct (C53_obstruction_integrity h A g adj) as (h' & g' & r & H1 & _ & _ & _ & _ & _ & H2); auto.
  - intros _. split; [rewrite If; discriminate|]. split; [intros v Hv; apply Pn, Ix, Pn, Hv|]. split; [intros v w Hv Hw; apply Inj; now apply Pn|exact Pa].
  - intros Q. rewrite Sg in Q. discriminate.
  - intros _ v e He Q. apply (proj1 S (vindex h v) e (Ar v e He)). rewrite <- (En v e He). now rewrite Q.
  - exists h', g'. rewrite H1. do 2 f_equal. apply H2. split; [|left; split; [exact Fl|tauto]].
    intros v e He. exists (vindex h v), e. unfold label. rewrite Sh, Sg. cbn [negb andb]. split; [exact (Ar v e He)|]. split; [reflexivity|]. symmetry. exact (En v e He).
Qed.

(** So a simple graph is planar unless some of its edges form a subdivision of K3,3 or K5. *)
Theorem C62_not_planar_has_subdivision :
  forall g adj, rep g adj -> primary_edges g adj -> simple_graph g adj -> unsearched g adj -> embed_ready g adj -> ~ planar_graph g adj ->
    exists h A, isolated_subgraph g adj h A /\ (bipartite_subdivision h A 3 3 \/ complete_subdivision h A 5).
Proof.
  intros g adj R P S U E N. destruct (C58_embed_decides_planarity g adj EMBEDFLAGS_PLANAR R P S U E eq_refl) as (h & r & H & [[_ Q]|[-> _]]); [contradiction|].
  destruct (C62_kuratowski_isolated g adj h R P S U E H) as (A & HA). eauto.
Qed.

(** Kuratowski's theorem for the graphs of the model: a simple graph is planar exactly if no subgraph
    is a subdivision of K3,3 or K5.  Whatever gp_Embed leaves with NONEMBEDDABLE proves its answer. *)
Theorem C62_subdivision_not_planar :
  forall g adj h A, rep g adj -> primary_edges g adj -> simple_graph g adj -> isolated_subgraph g adj h A ->
    bipartite_subdivision h A 3 3 \/ complete_subdivision h A 5 -> ~ planar_graph g adj.
Proof.
  intros g adj h A R P S Is H Pl. apply (C57_kuratowski_not_planar g adj R P S); [|exact Pl]. destruct Is as [Rh Ph N Ix Inj Ar En].
  assert (Pn : forall v, primary h v <-> primary g v) by (intros v; unfold primary; now rewrite N).
  apply (kuratowski_map (primary h) (primary g) (adjacent h A) (adjacent g adj) (vindex h)); [| | |exact (subd_kuratowski h A Rh Ph H)].
  - intros x Hx. apply Ix. now apply Pn.
  - intros x y Hx Hy. apply Inj; now apply Pn.
  - intros x y _ _ (e & He & <-). exists e. split; [exact (Ar x e He)|]. symmetry. exact (En x e He).
Qed.

Theorem C62_planar_iff_no_subdivision :
  forall g adj, rep g adj -> primary_edges g adj -> simple_graph g adj -> unsearched g adj -> embed_ready g adj ->
    planar_graph g adj <-> ~ exists h A, isolated_subgraph g adj h A /\ (bipartite_subdivision h A 3 3 \/ complete_subdivision h A 5).
Proof.
  intros g adj R P S U E. split; [intros Pl (h & A & Is & H); exact (C62_subdivision_not_planar g adj h A R P S Is H Pl)|]. intros Ns.
  destruct (C58_embed_decides_planarity g adj EMBEDFLAGS_PLANAR R P S U E eq_refl) as (h & r & H & [[_ Pl]|[-> Np]]); [exact Pl|]. elim Ns. exact (C62_not_planar_has_subdivision g adj R P S U E Np).
Qed.

(** The edges left, as pairs of original vertex numbers: of K3,3, of K5, of the complete graph on six
    vertices, of K5 with two subdivided edges and a further edge, and of a graph with twenty edges. *)
Definition kedges_left (g : graph) : list (Z * Z) :=
  let h := fst (the (g, 0) (gp_Embed g EMBEDFLAGS_PLANAR)) in
  flat_map (fun v => map (fun e => (vindex h v, vindex h (enbr h e))) (filter (fun e => vindex h v <? vindex h (enbr h e)) (arcs h v))) (zrange 1 (Z.to_nat (gN h))).
Definition k5_long := built 40 8 (adds [(1, 6); (6, 2); (1, 3); (1, 4); (1, 5); (2, 3); (2, 4); (2, 5); (3, 4); (3, 7); (7, 5); (4, 5); (8, 6)]).
Definition mixed1 := built 80 9 (adds [(1,2); (4,5); (3,6); (8,9); (7,9); (5,7); (1,6); (1,8); (5,6); (2,5); (5,9); (6,8); (1,9); (2,4); (6,9); (1,5); (6,7); (4,7); (4,8); (1,7)]).
Example kuratowski_case :
  kedges_left k33 = [(1, 5); (1, 6); (1, 4); (2, 6); (2, 5); (2, 4); (3, 4); (3, 5); (3, 6)] /\
  length (kedges_left k5) = 10%nat /\
  kedges_left k6 = [(1, 5); (1, 4); (1, 6); (1, 2); (2, 3); (3, 5); (3, 6); (3, 4); (4, 6); (4, 5); (5, 6)] /\
  kedges_left k5_long = [(1, 4); (1, 3); (1, 5); (1, 6); (2, 4); (2, 5); (2, 3); (2, 6); (3, 7); (3, 4); (4, 5); (5, 7)] /\
  kedges_left mixed1 = [(1, 9); (1, 6); (1, 2); (2, 5); (4, 8); (4, 7); (4, 5); (7, 9); (8, 9); (6, 8); (6, 7)].
Proof. vm_compute. repeat split; reflexivity. Qed.
Example kuratowski_case_hyps :
  Forall (fun g => exists adj h, clean_reach g /\ rep g adj /\ simple_graph g adj /\ gp_Embed g EMBEDFLAGS_PLANAR = Ret (h, C_NONEMBEDDABLE)) [k33; k5; k6; k5_long; mixed1].
Proof.
  assert (B : forall g, clean_reach g -> simpleb g = true -> embed_verdict g EMBEDFLAGS_PLANAR = C_NONEMBEDDABLE ->
    exists adj h, clean_reach g /\ rep g adj /\ simple_graph g adj /\ gp_Embed g EMBEDFLAGS_PLANAR = Ret (h, C_NONEMBEDDABLE)).
  { intros g C Q V. destruct (clean_reach_ready g C) as (adj & R & P & U & E & _). assert (S : simple_graph g adj) by auto using simpleb_ok.
    destruct (C62_isolate_then_check g adj C R S) as (h & r & H & [-> |(-> & _)]); [unfold embed_verdict in V; rewrite H in V; discriminate|]. exists adj, h. auto. }
  repeat constructor; (apply B; [apply built_clean| |]; vm_compute; reflexivity).
Qed.

(** All the theorems of this file at once: their assumptions are printed together because each print walks the whole proof of gp_Embed. *)
Definition Thm_IsoK_all := (@C62_kuratowski_isolated, @C62_isolate_then_check, @C62_not_planar_has_subdivision, @C62_subdivision_not_planar, @C62_planar_iff_no_subdivision).
Print Assumptions Thm_IsoK_all.
