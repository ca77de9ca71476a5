(** * Thm_Planar: what gp_Embed's answer says about the planarity of the graph. *)
From Coq Require Import ZifyBool Permutation.
From Verif Require Import Base BaseP GraphRec GraphM GraphSpec GraphP GraphP4 GraphEx DFSM DFSSpec DFSP DFSP3 DFSP4 DFSP7 TestM TestSpec TestP EmbM EmbedSpec EmbedP PlanSpec PlanE PlanDec Thm_Test Thm_Embed.

(** ** C57 *)
(** OK is only answered for planar graphs; and a graph in which five disjoint connected sets of
    vertices touch one another, or three and three each other, is not planar, so the answer for it is
    NONEMBEDDABLE. *)
Theorem C57_ok_means_planar :
  forall g adj flags h, rep g adj -> primary_edges g adj -> simple_graph g adj -> unsearched g adj -> embed_ready g adj ->
    gp_Embed g flags = Ret (h, C_OK) -> planar_graph g adj.
Proof.
  intros g adj flags h R P S U E H. destruct (C55_embed_is_planar g adj flags R P S U E) as (h' & r & H1 & _ & H2).
  rewrite H in H1. injection H1 as <- <-. destruct (H2 eq_refl) as [A HA]. eapply embedding_planar; eauto.
Qed.

Theorem C57_kuratowski_not_planar :
  forall g adj, rep g adj -> primary_edges g adj -> simple_graph g adj -> kuratowski (primary g) (adjacent g adj) -> ~ planar_graph g adj.
Proof. intros g adj R P [S _] K H. exact (planar_no_minor g adj R P S H K). Qed.

Theorem C57_embed_detects_minors :
  forall g adj flags, rep g adj -> primary_edges g adj -> simple_graph g adj -> unsearched g adj -> embed_ready g adj ->
    kuratowski (primary g) (adjacent g adj) -> exists h, gp_Embed g flags = Ret (h, C_NONEMBEDDABLE).
Proof.
  intros g adj flags R P S U E K. destruct (C55_embed_is_planar g adj flags R P S U E) as (h & r & H & [-> | ->] & _); [|now exists h].
  elim (C57_kuratowski_not_planar g adj R P S K). eapply C57_ok_means_planar; eauto.
Qed.

(** K3,3 with its edges subdivided or with more edges is such a graph: here K3,3 itself, on the six
    sets of one vertex. *)
Example minors_case : exists adj, rep k33 adj /\ primary_edges k33 adj /\ simple_graph k33 adj /\ unsearched k33 adj /\ embed_ready k33 adj /\
  kuratowski (primary k33) (adjacent k33 adj).
Proof.
  assert (C : clean_reach k33) by (apply built_clean; vm_compute; reflexivity).
  destruct (clean_reach_ready k33 C) as (adj & R & P & U & E & _). exists adj. do 2 (split; [assumption|]). split; [apply simpleb_ok; auto; vm_compute; reflexivity|]. do 2 (split; [assumption|]).
  right. exists (fun i => [i]). split; [|split].
  - intros i Hi. split; [|intros x [<-|[]]; unfold primary; change (gN k33) with 6; lia]. split; [discriminate|]. intros x y [<-|[]] [<-|[]]. constructor. now left.
  - intros i j x Hi Hj [<-|[]] [H|[]]. lia.
  - assert (B : forallb (fun p => existsb (fun e => enbr k33 e =? snd p) (arcs k33 (fst p))) [(1, 4); (1, 5); (1, 6); (2, 4); (2, 5); (2, 6); (3, 4); (3, 5); (3, 6)] = true) by (vm_compute; reflexivity).
    rewrite forallb_forall in B. intros i j Hi Hj. exists i, j. split; [now left|]. split; [now left|]. specialize (B (i, j)).
    assert (Q : In (i, j) [(1, 4); (1, 5); (1, 6); (2, 4); (2, 5); (2, 6); (3, 4); (3, 5); (3, 6)]).
    { assert (Ei : i = 1 \/ i = 2 \/ i = 3) by lia. assert (Ej : j = 4 \/ j = 5 \/ j = 6) by lia. destruct Ei as [->|[->| ->]], Ej as [->|[->| ->]]; cbn; tauto. }
    specialize (B Q). cbn [fst snd] in B. apply existsb_exists in B. destruct B as (e & He & Ee). exists e. split; [|lia].
    rewrite (arcs_ok k33 adj i (rep_chains _ _ R)); [exact He|]. unfold is_vertex. change (gN k33) with 6. lia.
Qed.

(** ** C58 *)
(** Asked for a planar embedding, gp_Embed answers OK for exactly the planar graphs and NONEMBEDDABLE
    for exactly the others; and those others are exactly the graphs with a K5 or K3,3 minor, so the two
    answers are also right in terms of minors (and planarity and the absence of those minors are the
    same thing, which is Wagner's theorem). *)
Theorem C58_embed_decides_planarity :
  forall g adj flags, rep g adj -> primary_edges g adj -> simple_graph g adj -> unsearched g adj -> embed_ready g adj ->
    Z.land flags EMBEDFLAGS_OUTERPLANAR = 0 ->
    exists h r, gp_Embed g flags = Ret (h, r) /\ (r = C_OK /\ planar_graph g adj \/ r = C_NONEMBEDDABLE /\ ~ planar_graph g adj).
Proof.
  intros g adj flags R P S U E F. destruct (embed_ok g adj flags R P S U E) as (h & r & H & [[-> K] | (-> & A & HA & _)]).
  - exists h, C_NONEMBEDDABLE. split; [exact H|]. right. split; [reflexivity|]. intros Pl. apply (proj1 K F). intros K'. now apply (C57_kuratowski_not_planar g adj R P S).
  - exists h, C_OK. split; [exact H|]. left. split; [reflexivity|]. eapply C57_ok_means_planar; eauto.
Qed.

Theorem C58_nonembeddable_has_minor :
  forall g adj flags h, rep g adj -> primary_edges g adj -> simple_graph g adj -> unsearched g adj -> embed_ready g adj ->
    Z.land flags EMBEDFLAGS_OUTERPLANAR = 0 -> gp_Embed g flags = Ret (h, C_NONEMBEDDABLE) -> kuratowski (primary g) (adjacent g adj).
Proof.
  intros g adj flags h R P S U E F H. destruct (embed_ok g adj flags R P S U E) as (h' & r & H' & [[-> K] | (-> & _)]); [|rewrite H in H'; discriminate].
  destruct (graph_kuratowski_dec g adj) as [D|D]; [exact D|]. elim (proj1 K F D).
Qed.

Theorem C58_planar_iff_no_minor :
  forall g adj, rep g adj -> primary_edges g adj -> simple_graph g adj -> unsearched g adj -> embed_ready g adj ->
    planar_graph g adj <-> ~ kuratowski (primary g) (adjacent g adj).
Proof.
  intros g adj R P S U E. split; [intros H K; now apply (C57_kuratowski_not_planar g adj R P S K)|]. intros Nk.
  destruct (C58_embed_decides_planarity g adj EMBEDFLAGS_PLANAR R P S U E eq_refl) as (h & r & H & [[_ Pl]|[-> _]]); [exact Pl|].
  elim Nk. eapply C58_nonembeddable_has_minor; eauto. reflexivity.
Qed.

(** The same for every graph the editing functions can make of a new one, as the caller sees it. *)
Theorem C58_built_graphs :
  forall g, clean_reach g -> exists adj, rep g adj /\
    (simple_graph g adj -> exists h r, gp_Embed g EMBEDFLAGS_PLANAR = Ret (h, r) /\
       (r = C_OK /\ planar_graph g adj \/ r = C_NONEMBEDDABLE /\ kuratowski (primary g) (adjacent g adj))).
Proof.
  intros g C. destruct (clean_reach_ready g C) as (adj & R & P & U & E & _). exists adj. split; [exact R|]. intros S.
  destruct (C58_embed_decides_planarity g adj EMBEDFLAGS_PLANAR R P S U E eq_refl) as (h & r & H & [[-> Pl]|[-> _]]); exists h; eexists; (split; [exact H|]).
  - left. auto.
  - right. split; [reflexivity|]. eapply C58_nonembeddable_has_minor; eauto. reflexivity.
Qed.

(** K5 less an edge and K5 meet the hypotheses; the one is planar, the other is not. *)
Definition decided (g : graph) (yes : Prop -> Prop) : Prop :=
  exists adj, rep g adj /\ primary_edges g adj /\ simple_graph g adj /\ unsearched g adj /\ embed_ready g adj /\ yes (planar_graph g adj).
Example decides_case : decided k5_less (fun P => P) /\ decided k5 (fun P => ~ P).
Proof.
  assert (B : forall g, clean_reach g -> simpleb g = true -> exists adj, rep g adj /\ primary_edges g adj /\ simple_graph g adj /\ unsearched g adj /\ embed_ready g adj).
  { intros g C Q. destruct (clean_reach_ready g C) as (adj & R & P & U & E & _). exists adj. auto using simpleb_ok. }
  split.
  - destruct (B k5_less) as (adj & R & P & S & U & E); [apply built_clean; vm_compute; reflexivity|vm_compute; reflexivity|]. exists adj. do 5 (split; [assumption|]).
    destruct (C58_embed_decides_planarity k5_less adj EMBEDFLAGS_PLANAR R P S U E eq_refl) as (h & r & H & [[-> Pl]|[-> _]]); [exact Pl|].
    assert (V : embed_verdict k5_less EMBEDFLAGS_PLANAR = C_OK) by (vm_compute; reflexivity). unfold embed_verdict in V. rewrite H in V. discriminate.
  - destruct (B k5) as (adj & R & P & S & U & E); [apply built_clean; vm_compute; reflexivity|vm_compute; reflexivity|]. exists adj. do 5 (split; [assumption|]).
    destruct (C58_embed_decides_planarity k5 adj EMBEDFLAGS_PLANAR R P S U E eq_refl) as (h & r & H & [[-> _]|[-> Pl]]); [|exact Pl].
    assert (V : embed_verdict k5 EMBEDFLAGS_PLANAR = C_NONEMBEDDABLE) by (vm_compute; reflexivity). unfold embed_verdict in V. rewrite H in V. discriminate.
Qed.

(** All the theorems of this file at once: their assumptions are printed together because each print walks the whole proof of gp_Embed. *)
Definition Thm_Planar_all := (@C57_ok_means_planar, @C57_kuratowski_not_planar, @C57_embed_detects_minors, @C58_embed_decides_planarity, @C58_nonembeddable_has_minor, @C58_planar_iff_no_minor, @C58_built_graphs).
Print Assumptions Thm_Planar_all.
