(** * Thm_Iso: what gp_Embed leaves when it answers NONEMBEDDABLE to EMBEDFLAGS_OUTERPLANAR. *)
From Coq Require Import ZifyBool Permutation.
From Verif Require Import Base BaseP GraphRec GraphM GraphSpec GraphP GraphP4 GraphEx DFSM DFSSpec DFSP DFSP3 DFSP4 DFSP7 TestM TestSpec TestP ObsSpec EmbM EmbedSpec EmbedP PlanSpec OutSpec Thm_Test Thm_Obs Thm_Embed Thm_Planar Thm_Outer SubdP.

(** ** C61 *)
(** Asked for an outerplanar embedding, gp_Embed either answers OK or cuts the graph down to some of
    its edges, which form a subdivision of K2,3 or of K4. *)
Theorem C61_obstruction_isolated :
  forall g adj h, rep g adj -> primary_edges g adj -> simple_graph g adj -> unsearched g adj -> embed_ready g adj ->
    gp_Embed g EMBEDFLAGS_OUTERPLANAR = Ret (h, C_NONEMBEDDABLE) ->
    exists A, isolated_subgraph g adj h A /\ (bipartite_subdivision h A 2 3 \/ complete_subdivision h A 4).
Proof.
  intros g adj h R P S U E H. destruct (embed_ok g adj EMBEDFLAGS_OUTERPLANAR R P S U E) as (h' & r & H' & [(-> & _ & _ & K & _) | (-> & _)]); rewrite H in H'; [|discriminate].
  injection H' as <-. destruct (K eq_refl) as (A & H1 & H2 & _). eauto.
Qed.

(** For the graphs which the editing functions can make of a new one, as the caller sees it: the result
    is OK or the obstruction, and the check accepts the obstruction. *)
Theorem C61_isolate_then_check :
  forall g adj, clean_reach g -> rep g adj -> simple_graph g adj ->
    exists h r, gp_Embed g EMBEDFLAGS_OUTERPLANAR = Ret (h, r) /\
      (r = C_OK \/ r = C_NONEMBEDDABLE /\
        (exists A, isolated_subgraph g adj h A /\ (bipartite_subdivision h A 2 3 \/ complete_subdivision h A 4)) /\
        exists h' g', gp_TestEmbedResultIntegrity h g C_NONEMBEDDABLE = Ret (h', g', C_NONEMBEDDABLE)).
Proof.
  intros g adj Cl R S. destruct (clean_reach_ready g Cl) as (adj' & R' & P' & U' & E' & F').
  assert (EA : forall v, adj' v = adj v) by (intros v; apply (C55_lists_unique g); auto).
  assert (P : primary_edges g adj) by (intros v e; rewrite <- EA; apply P').
  assert (U : unsearched g adj) by (destruct U'; constructor; auto; intros v e; rewrite <- EA; apply us_types).
  assert (E : embed_ready g adj) by (destruct E'; constructor; auto; intros v e; rewrite <- EA; apply er_inv).
  destruct (embed_ok g adj EMBEDFLAGS_OUTERPLANAR R P S U E) as (h & r & H & [(-> & _ & _ & K & _) | (-> & _)]); exists h; eexists; (split; [exact H|]); [|now left].
  right. split; [reflexivity|]. destruct (K eq_refl) as (A & Is & Ob & Fl & If & Pa). split; [eauto|]. pose proof Is as [Rh Ph N Ix Inj Ar En].
  rewrite F' in If.
  assert (Sh : is_sorted h = true) by (unfold is_sorted; rewrite If; reflexivity).
  assert (Sg : is_sorted g = false) by (unfold is_sorted; rewrite F'; reflexivity).
  assert (Pn : forall v, primary h v <-> primary g v) by (intros v; unfold primary; now rewrite N).
  destruct (C53_obstruction_integrity h A g adj) as (h' & g' & r & H1 & _ & _ & _ & _ & _ & H2); auto.
  - intros _. split; [rewrite If; discriminate|]. split; [intros v Hv; apply Pn, Ix, Pn, Hv|]. split; [intros v w Hv Hw; apply Inj; now apply Pn|exact Pa].
  - intros Q. rewrite Sg in Q. discriminate.
  - intros _ v e He Q. apply (proj1 S (vindex h v) e (Ar v e He)). rewrite <- (En v e He). now rewrite Q.
  - exists h', g'. rewrite H1. do 2 f_equal. apply H2. split; [|right; split; [exact Fl|tauto]].
    intros v e He. exists (vindex h v), e. unfold label. rewrite Sh, Sg. cbn [negb andb]. split; [exact (Ar v e He)|]. split; [reflexivity|]. symmetry. exact (En v e He).
Qed.

(** So a simple graph is outerplanar unless some of its edges form a subdivision of K2,3 or K4. *)
Theorem C61_not_outerplanar_has_subdivision :
  forall g adj, rep g adj -> primary_edges g adj -> simple_graph g adj -> unsearched g adj -> embed_ready g adj -> ~ outerplanar_graph g adj ->
    exists h A, isolated_subgraph g adj h A /\ (bipartite_subdivision h A 2 3 \/ complete_subdivision h A 4).
Proof.
  intros g adj R P S U E N. destruct (C60_embed_decides_outerplanarity g adj EMBEDFLAGS_OUTERPLANAR R P S U E ltac:(discriminate)) as (h & r & H & [[_ Q]|[-> _]]); [contradiction|].
  destruct (C61_obstruction_isolated g adj h R P S U E H) as (A & HA). eauto.
Qed.

(** The theorem of Chartrand and Harary for the graphs of the model: a simple graph is outerplanar exactly if
    no subgraph is a subdivision of K2,3 or K4.  Whatever gp_Embed leaves with NONEMBEDDABLE proves its answer. *)
Theorem C61_subdivision_not_outerplanar :
  forall g adj h A, rep g adj -> primary_edges g adj -> simple_graph g adj -> isolated_subgraph g adj h A ->
    bipartite_subdivision h A 2 3 \/ complete_subdivision h A 4 -> ~ outerplanar_graph g adj.
Proof.
  intros g adj h A R P S Is H Pl. apply (C60_obstruction_not_outerplanar g adj R P S); [|exact Pl]. destruct Is as [Rh Ph N Ix Inj Ar En].
  assert (Pn : forall v, primary h v <-> primary g v) by (intros v; unfold primary; now rewrite N).
  apply (outer_map (primary h) (primary g) (adjacent h A) (adjacent g adj) (vindex h)); [| | |exact (subd_outer h A Rh Ph H)].
  - intros x Hx. apply Ix. now apply Pn.
  - intros x y Hx Hy. apply Inj; now apply Pn.
  - intros x y _ _ (e & He & <-). exists e. split; [exact (Ar x e He)|]. symmetry. exact (En x e He).
Qed.

Theorem C61_outerplanar_iff_no_subdivision :
  forall g adj, rep g adj -> primary_edges g adj -> simple_graph g adj -> unsearched g adj -> embed_ready g adj ->
    outerplanar_graph g adj <-> ~ exists h A, isolated_subgraph g adj h A /\ (bipartite_subdivision h A 2 3 \/ complete_subdivision h A 4).
Proof.
  intros g adj R P S U E. split; [intros Pl (h & A & Is & H); exact (C61_subdivision_not_outerplanar g adj h A R P S Is H Pl)|]. intros Ns.
  destruct (C60_embed_decides_outerplanarity g adj EMBEDFLAGS_OUTERPLANAR R P S U E ltac:(discriminate)) as (h & r & H & [[_ Pl]|[-> Np]]); [exact Pl|]. elim Ns. exact (C61_not_outerplanar_has_subdivision g adj R P S U E Np).
Qed.

(** The edges left, as pairs of original vertex numbers: of K2,3, of K4 next to two other vertices, of
    K4 with a subdivided edge and pendant paths, and of the complete graph on six vertices. *)
Definition edges_left (g : graph) : list (Z * Z) :=
  let h := fst (the (g, 0) (gp_Embed g EMBEDFLAGS_OUTERPLANAR)) in
  flat_map (fun v => map (fun e => (vindex h v, vindex h (enbr h e))) (filter (fun e => vindex h v <? vindex h (enbr h e)) (arcs h v))) (zrange 1 (Z.to_nat (gN h))).
Definition k4_long := built 40 8 (adds [(1, 2); (2, 3); (3, 4); (4, 5); (5, 1); (1, 3); (2, 5); (6, 3); (6, 7); (4, 8)]).
Definition k6 := built 40 6 (adds [(1, 2); (1, 3); (1, 4); (1, 5); (1, 6); (2, 3); (2, 4); (2, 5); (2, 6); (3, 4); (3, 5); (3, 6); (4, 5); (4, 6); (5, 6)]).
Example isolated_case :
  edges_left k23 = [(1, 4); (1, 5); (1, 3); (2, 4); (2, 3); (2, 5)] /\
  edges_left k4_2 = [(1, 2); (1, 4); (1, 3); (3, 4); (2, 3); (2, 4)] /\
  edges_left k4_long = [(1, 3); (1, 5); (1, 2); (2, 5); (2, 3); (3, 4); (4, 5)] /\
  edges_left k6 = [(3, 5); (3, 6); (3, 4); (4, 6); (4, 5); (5, 6)].
Proof. vm_compute. repeat split; reflexivity. Qed.
Example isolated_case_hyps :
  Forall (fun g => exists adj h, clean_reach g /\ rep g adj /\ simple_graph g adj /\ gp_Embed g EMBEDFLAGS_OUTERPLANAR = Ret (h, C_NONEMBEDDABLE)) [k23; k4_2; k4_long; k6].
Proof.
  assert (B : forall g, clean_reach g -> simpleb g = true -> embed_verdict g EMBEDFLAGS_OUTERPLANAR = C_NONEMBEDDABLE ->
    exists adj h, clean_reach g /\ rep g adj /\ simple_graph g adj /\ gp_Embed g EMBEDFLAGS_OUTERPLANAR = Ret (h, C_NONEMBEDDABLE)).
  { intros g C Q V. destruct (clean_reach_ready g C) as (adj & R & P & U & E & _). assert (S : simple_graph g adj) by auto using simpleb_ok.
    destruct (C61_isolate_then_check g adj C R S) as (h & r & H & [-> |(-> & _)]); [unfold embed_verdict in V; rewrite H in V; discriminate|]. exists adj, h. auto. }
  repeat constructor; (apply B; [apply built_clean| |]; vm_compute; reflexivity).
Qed.

(** All the theorems of this file at once: their assumptions are printed together because each print walks the whole proof of gp_Embed. *)
Definition Thm_Iso_all := (@C61_obstruction_isolated, @C61_isolate_then_check, @C61_not_outerplanar_has_subdivision, @C61_subdivision_not_outerplanar, @C61_outerplanar_iff_no_subdivision).
Print Assumptions Thm_Iso_all.
