(** * Thm_Again: giving a graph structure to gp_Embed more than once. *)
From Coq Require Import ZifyBool Permutation.
From Verif Require Import Base BaseP GraphRec GraphM GraphSpec GSimp LinkP GraphP GraphP2 GraphP3 GraphP4 GraphP5 GraphEx DFSM DFSSpec DFSP DFSP3 DFSP4 DFSP7 TestM TestSpec TestP EmbM EmbedSpec EmbedP ObsSpec PlanSpec OutSpec PlanE Thm_Embed Thm_Planar Thm_Outer Thm_Iso Thm_IsoK SubdP SortEP EndSpec Thm_End RoomP AgainSpec.

(** ** C66 *)
(** *** What goes wrong *)
(** A path of three vertices.  The user has its DFS tree made and deletes one of its edges.  gp_Embed
    takes the old parents for those of the remaining graph, finds no root for a vertex, and reads behind
    the end of the vertex array (graphEmbed.c 185-200). *)
Definition path3 := built 40 3 (adds [(1, 2); (2, 3)]).
Theorem C66_embed_after_search_refuted :
  exists g h k, clean_reach g /\ gp_CreateDFSTree g = Ret (h, C_OK) /\ (exists e, gp_DeleteEdge h 2 0 = Ret (k, e)) /\
    (exists adj, rep g adj /\ simple_graph g adj) /\ gp_Embed k EMBEDFLAGS_PLANAR = UB.
Proof.
  assert (C : clean_reach path3) by (apply built_clean; vm_compute; reflexivity).
  exists path3, (fst (the (path3, 0) (gp_CreateDFSTree path3))).
  exists (fst (the (path3, 0) (gp_DeleteEdge (fst (the (path3, 0) (gp_CreateDFSTree path3))) 2 0))).
  split; [exact C|]. split; [vm_compute; reflexivity|]. split; [exists (snd (the (path3, 0) (gp_DeleteEdge (fst (the (path3, 0) (gp_CreateDFSTree path3))) 2 0))); vm_compute; reflexivity|].
  split; [|vm_compute; reflexivity].
  destruct (clean_reach_ready path3 C) as (adj & R & P & _). exists adj. split; [exact R|]. now apply simpleb_ok.
Qed.

(** K5 without an edge is planar, but not outerplanar.  The user asks for the latter, has the vertices put
    back in order, and asks for the former: gp_Embed reads what is not there. *)
Theorem C66_embed_again_refuted :
  exists g adj h k, clean_reach g /\ rep g adj /\ simple_graph g adj /\ planar_graph g adj /\
    gp_Embed g EMBEDFLAGS_OUTERPLANAR = Ret (h, C_NONEMBEDDABLE) /\ gp_SortVertices h = Ret (k, C_OK) /\
    gp_Embed k EMBEDFLAGS_PLANAR = UB.
Proof.
  set (g := k5_less).
  assert (C : clean_reach g) by (apply built_clean; vm_compute; reflexivity).
  destruct (clean_reach_ready g C) as (adj & R & P & U & E & _).
  assert (S : simple_graph g adj) by (apply simpleb_ok; auto; vm_compute; reflexivity).
  exists g, adj, (fst (the (g, 0) (gp_Embed g EMBEDFLAGS_OUTERPLANAR))).
  exists (fst (the (g, 0) (gp_SortVertices (fst (the (g, 0) (gp_Embed g EMBEDFLAGS_OUTERPLANAR)))))).
  do 3 (split; [assumption|]). split; [|split; [vm_compute; reflexivity|split; vm_compute; reflexivity]].
  destruct (C58_embed_decides_planarity g adj EMBEDFLAGS_PLANAR R P S U E eq_refl) as (h & r & H & [[-> Pl]|[-> _]]); [exact Pl|].
  assert (X : embed_verdict g EMBEDFLAGS_PLANAR = C_OK) by (vm_compute; reflexivity). unfold embed_verdict in X. rewrite H in X. discriminate.
Qed.

(** *** What does work *)
Definition roomy (g : graph) : Prop := stk_room g /\ 2 <= gstackCap g.
Definition used_inv (g : graph) : Prop := hist_inv g /\ plain_inv g /\ clean_inv g.
Lemma reinit_used h A : rep h A -> roomy h -> used_inv (gp_ReinitializeGraph h).
Proof.
  intros R [[S1 S2] S3]. pose proof (reinit_ok h A R) as (R' & Cl & St & M & N & Cp & Sc). cbv zeta in *.
  pose proof (GraphSpec.st_N _ _ (rep_storage _ _ R)) as HN. split; [|split].
  - split; [eauto|]. split; [exact Cl|]. split; [exact St|]. unfold stk_room. rewrite Cp, Sc. auto.
  - unfold gp_ReinitializeGraph. replace (gN h <=? 0) with false by lia.
    unfold plain_inv, par, etype, _ReinitializeGraph, _InitIsolatorContext, _InitEdges, _InitVertices, lists_reset. gsimp.
    split; [reflexivity|]. do 2 (split; [reflexivity|]). split; [intros e; unfold zfun; lia|]. lia.
  - unfold gp_ReinitializeGraph. replace (gN h <=? 0) with false by lia.
    unfold clean_inv, _ReinitializeGraph, _InitIsolatorContext, _InitEdges, _InitVertices, lists_reset. gsimp.
    repeat (split; [reflexivity|]). reflexivity.
Qed.
Lemma used_room g : used_inv g -> roomy g.
Proof. intros ((_ & _ & _ & H) & (_ & _ & _ & _ & I & _) & _). split; auto. Qed.
Lemma room_embed g fl h r : roomy g -> gp_Embed g fl = Ret (h, r) -> roomy h.
Proof. intros [[A B] C] H. destruct (embed_room g fl h r H) as (_ & E1 & E2). unfold roomy, stk_room. rewrite E1, E2. auto. Qed.
Lemma room_sort g h r : roomy g -> gp_SortVertices g = Ret (h, r) -> roomy h.
Proof. intros [[A B] C] H. destruct (sort_room g h r H) as (_ & E1 & E2). unfold roomy, stk_room. rewrite E1, E2. auto. Qed.
Lemma used_ready g : used_inv g -> exists adj, rep g adj /\ primary_edges g adj /\ unsearched g adj /\ embed_ready g adj /\ giflags g = 0.
Proof.
  intros (((adj & R) & _ & _ & Hc) & (I1 & I2 & I3 & I4 & I5 & I6) & (_ & J1 & J2 & J3 & J4 & J5 & J6 & J7)).
  exists adj. split; [exact R|]. split; [|split; [|split; [|exact I1]]].
  - intros v e He. split; [apply (ch_isvertex _ _ _ _ (rep_chains _ _ R) He)|].
    destruct (rep_twins _ _ R _ _ He) as [T _]. rewrite <- T. apply I4.
  - constructor; auto; [rewrite I1; reflexivity|]. destruct Hc. lia.
  - constructor; auto.
Qed.
Lemma used_ready_all g : used_inv g -> forall adj, rep g adj -> primary_edges g adj /\ unsearched g adj /\ embed_ready g adj.
Proof.
  intros V adj R. destruct (used_ready g V) as (adj' & R' & P' & U' & E' & _).
  assert (EA : forall v, adj' v = adj v) by (intros v; apply (C55_lists_unique g); auto).
  split; [intros v e; rewrite <- EA; apply P'|]. split.
  - destruct U'; constructor; auto; intros v e; rewrite <- EA; apply us_types.
  - destruct E'; constructor; auto; intros v e; rewrite <- EA; apply er_inv.
Qed.
(** What gp_Embed leaves, and what gp_SortVertices makes of it, represent graphs. *)
Lemma embed_leaves g adj flags h r : used_inv g -> rep g adj -> simple_graph g adj -> flags = EMBEDFLAGS_PLANAR \/ flags = EMBEDFLAGS_OUTERPLANAR ->
  gp_Embed g flags = Ret (h, r) -> (exists A, rep h A) /\ exists k B, gp_SortVertices h = Ret (k, C_OK) /\ rep k B.
Proof.
  intros V R S F H. destruct (used_ready_all g V adj R) as (P & U & E).
  destruct (embed_ok g adj flags R P S U E) as (h' & r' & H' & [(-> & _ & _ & K1 & K2) | (-> & A & PE & _)]); rewrite H in H'; injection H' as <- ->.
  - destruct F as [-> | ->].
    + split; [destruct (K2 eq_refl) as (A & Is & _); exists A; apply Is|].
      destruct (C63_isolate_then_sort_planar g adj h R P S U E H) as (k & B & K & Q & _). exists k, B. split; [exact K|apply Q].
    + split; [destruct (K1 eq_refl) as (A & Is & _); exists A; apply Is|].
      destruct (C63_isolate_then_sort_outerplanar g adj h R P S U E H) as (k & B & K & Q & _). exists k, B. split; [exact K|apply Q].
  - split; [exists A; apply PE|]. destruct (C63_embed_then_sort g adj flags h R P S U E H) as (k & B & K & Q & _). exists k, B. split; [exact K|apply Q].
Qed.
Lemma used_reach_inv g : used_reach g -> used_inv g.
Proof.
  induction 1 as [req N g HN Hf|g o g' r Hr IH Hv Hp Hs|g adj flags h r Hr IH R S F H|g adj flags h r k s Hr IH R S F H K].
  - assert (C : clean_reach g) by now apply (cr_init req N). split; [|split; [apply plain_reach_inv|apply clean_reach_inv]; auto using clean_plain].
    apply reach_inv, plain_reach_reach, clean_plain, C.
  - destruct IH as (I1 & I2 & I3). split; [|split].
    + pose proof (gstep_inv g o I1 Hv) as W. rewrite Hs in W. exact W.
    + pose proof (plain_gstep g o I1 I2 Hv (proj1 Hp)) as W. rewrite Hs in W. exact W.
    + pose proof (clean_gstep g o I1 I3 Hv Hp) as W. rewrite Hs in W. exact W.
  - destruct (embed_leaves g adj flags h r IH R S F H) as ((A & RA) & _). apply (reinit_used h A RA). exact (room_embed g flags h r (used_room g IH) H).
  - destruct (embed_leaves g adj flags h r IH R S F H) as (_ & k' & B & K' & RB). rewrite K in K'. injection K' as <- ->.
    apply (reinit_used k B RB). exact (room_sort h k _ (room_embed g flags h r (used_room g IH) H) K).
Qed.

(** A structure that is emptied with gp_ReinitializeGraph after each use works as a new one does, however
    many graphs it has held before and whatever gp_Embed said of them: gp_Embed decides planarity and
    outerplanarity of the graph it holds now, and with gp_SortVertices gives that graph in planar order or
    a subgraph that shows there is none.  Missing from the property as stated: the graphs not emptied, of
    which it is false. *)
Theorem C66_reuse_partial :
  forall g, used_reach g -> exists adj, rep g adj /\
    (simple_graph g adj ->
      (exists h r k B, gp_Embed g EMBEDFLAGS_PLANAR = Ret (h, r) /\ gp_SortVertices h = Ret (k, C_OK) /\
       (r = C_OK /\ planar_graph g adj /\ same_graph g adj k B /\ euler k B \/
        r = C_NONEMBEDDABLE /\ ~ planar_graph g adj /\ same_subgraph g adj k B /\ (bipartite_subdivision k B 3 3 \/ complete_subdivision k B 5))) /\
      (exists h r k B, gp_Embed g EMBEDFLAGS_OUTERPLANAR = Ret (h, r) /\ gp_SortVertices h = Ret (k, C_OK) /\
       (r = C_OK /\ outerplanar_graph g adj /\ same_graph g adj k B /\ euler k B /\ outer_rotations k B \/
        r = C_NONEMBEDDABLE /\ ~ outerplanar_graph g adj /\ same_subgraph g adj k B /\ (bipartite_subdivision k B 2 3 \/ complete_subdivision k B 4)))).
Proof.
  intros g V. apply used_reach_inv in V. destruct (used_ready g V) as (adj & R & P & U & E & _). exists adj. split; [exact R|]. intros S.
  assert (F : Z.land EMBEDFLAGS_OUTERPLANAR EMBEDFLAGS_OUTERPLANAR <> 0) by discriminate. split.
  - destruct (C58_embed_decides_planarity g adj EMBEDFLAGS_PLANAR R P S U E eq_refl) as (h & r & H & [[-> Pl]|[-> Np]]); exists h; eexists.
    + destruct (C63_embed_then_sort g adj _ h R P S U E H) as (k & B & K1 & K2 & K3 & _). exists k, B. split; [exact H|]. split; [exact K1|]. left. auto.
    + destruct (C63_isolate_then_sort_planar g adj h R P S U E H) as (k & B & K1 & K2 & K3). exists k, B. split; [exact H|]. split; [exact K1|]. right. auto.
  - destruct (C60_embed_decides_outerplanarity g adj EMBEDFLAGS_OUTERPLANAR R P S U E F) as (h & r & H & [[-> Pl]|[-> Np]]); exists h; eexists.
    + destruct (C63_embed_then_sort g adj _ h R P S U E H) as (k & B & K1 & K2 & K3 & K4). exists k, B. split; [exact H|]. split; [exact K1|]. left. do 4 (split; [auto; fail|]). exact (K4 F).
    + destruct (C63_isolate_then_sort_outerplanar g adj h R P S U E H) as (k & B & K1 & K2 & K3). exists k, B. split; [exact H|]. split; [exact K1|]. right. auto.
Qed.

(** The same structure used for K5 without an edge, rejected for outerplanarity, then for K5. *)
Definition used1 : graph := gp_ReinitializeGraph (fst (the (k5_less, 0) (gp_Embed k5_less EMBEDFLAGS_OUTERPLANAR))).
Definition k5_edges := adds [(1, 2); (1, 3); (1, 4); (1, 5); (2, 3); (2, 4); (2, 5); (3, 4); (3, 5); (4, 5)].
Fixpoint run (g : graph) (l : list gop) : graph :=
  match l with [] => g | o :: l => run (fst (the (g, 0) (gstep g o))) l end.
Example reuse_case :
  used_reach used1 /\ embed_verdict k5_less EMBEDFLAGS_OUTERPLANAR = C_NONEMBEDDABLE /\
  simpleb (run used1 k5_edges) = true /\ gM (run used1 k5_edges) = 10 /\ embed_verdict (run used1 k5_edges) EMBEDFLAGS_PLANAR = C_NONEMBEDDABLE.
Proof.
  split; [|repeat split; vm_compute; reflexivity].
  assert (C : clean_reach k5_less) by (apply built_clean; vm_compute; reflexivity).
  destruct (clean_reach_ready k5_less C) as (adj & R & P & U & E & _).
  assert (S : simple_graph k5_less adj) by (apply simpleb_ok; auto; vm_compute; reflexivity).
  destruct (C55_embed_is_planar k5_less adj EMBEDFLAGS_OUTERPLANAR R P S U E) as (h & r & H & _).
  unfold used1. rewrite H. cbn [the fst]. apply (us_embed k5_less adj EMBEDFLAGS_OUTERPLANAR h r); auto.
  clear - C. induction C; [eapply us_init|eapply us_step]; eauto.
Qed.

Definition Thm_Again_all := (@C66_embed_after_search_refuted, @C66_embed_again_refuted, @C66_reuse_partial, @reuse_case).
Print Assumptions Thm_Again_all.
