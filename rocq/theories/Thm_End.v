(** * Thm_End: gp_Embed followed by gp_SortVertices, as the library's own programs call them. *)
From Coq Require Import ZifyBool Permutation.
From Verif Require Import Base BaseP GraphRec GraphM GraphSpec GraphP GraphP4 GraphEx DFSM DFSSpec DFSP DFSP3 DFSP4 DFSP7 TestM TestSpec TestP EmbM EmbedSpec EmbedP ObsSpec PlanSpec OutSpec PlanE Thm_Embed Thm_Planar Thm_Outer Thm_Iso Thm_IsoK SubdP SortEP EndSpec.

(** ** C63 *)
Lemma sort_embedding g adj h A : rep g adj -> primary_edges g adj -> planar_embedding g adj h A ->
  giflags h = Z.lxor (Z.lor (giflags g) FLAGS_DFSNUMBERED) FLAGS_SORTEDBYDFI -> (forall v, primary h v -> par h v <> NIL -> primary h (par h v)) ->
  exists k B, gp_SortVertices h = Ret (k, C_OK) /\ same_graph g adj k B /\ euler k B /\ (one_root_each h A -> all_outer h A -> outer_rotations k B).
Proof.
  intros R P PE Fl Pa. pose proof PE as [Rh Ph N M Ix Inj Ar En Eu].
  destruct (sort_back g h A Rh Ph N Ix Inj Fl Pa) as (k & B & K1 & K2 & K3 & K4 & K5 & K6 & K7 & K8 & K9).
  assert (Pn : forall v, primary h v <-> primary g v) by (intros v; unfold primary; now rewrite N).
  assert (Pk : forall v, primary k v <-> primary g v) by (intros v; unfold primary; now rewrite K4, N).
  assert (PK : planar_embedding k B h A).
  { constructor; auto; try congruence.
    - intros v Hv. apply Pk, Ix, Pk, Hv.
    - intros v w Hv Hw. apply Inj; now apply Pk.
    - intros v e Hv. rewrite K6; [reflexivity|]. now apply Pn, Pk.
    - intros v e He. symmetry. exact (K7 v e He). }
  assert (Eq : forall v, relist k h A v = B v).
  { intros v. destruct (Z_le_dec 1 v) as [H1|H1]; [destruct (Z_le_dec v (gN k)) as [H2|H2]|].
    2,3: rewrite (relist_out k B h A PK) by (unfold primary; lia); destruct (B v) as [|e l] eqn:EB; [reflexivity|]; exfalso; destruct (K3 v e); [rewrite EB; now left|lia].
    destruct (relist_sur k B h A PK v (conj H1 H2)) as (u & Hu & <-). rewrite (relist_at k B h A PK) by auto. symmetry. apply K6. now apply Pn, Pk. }
  exists k, B. split; [exact K1|]. split; [|split].
  - constructor; [exact K2|congruence|congruence|exact K9| |].
    + intros v. destruct (Z_le_dec 1 v) as [H1|H1]; [destruct (Z_le_dec v (gN g)) as [H2|H2]|].
      2,3: rewrite <- Eq, (relist_out k B h A PK) by (unfold primary; lia); destruct (adj v) as [|e l] eqn:EB; [constructor|]; exfalso; destruct (P v e); [rewrite EB; now left|lia].
      destruct (relist_sur g adj h A PE v (conj H1 H2)) as (u & Hu & <-). rewrite K6 by now apply Pn.
      apply NoDup_Permutation; [apply (ch_nodup _ _ (rep_chains _ _ Rh))|apply (ch_nodup _ _ (rep_chains _ _ R))|]. intros e. now apply Ar.
    + intros v e He. rewrite <- Eq in He. assert (Ha : is_arc A e) by (apply (relist_arc k B h A PK); now exists v). destruct Ha as (u & Hu). rewrite (K7 u e Hu). exact (En u e Hu).
  - apply (euler_ext k (relist k h A) B Eq). apply (relist_euler k B h A); auto.
  - intros Ro Ou. apply (outer_ext k (relist k h A) B Eq). apply (relist_outer k B h A); auto.
Qed.
(** gp_Embed leaves the vertices in another order.  After gp_SortVertices every vertex has its own
    number again.  With OK the graph is then the graph given, every adjacency list put in an order
    such that the whole is a planar embedding, an outerplanar one if that was asked for. *)
Theorem C63_embed_then_sort :
  forall g adj flags h, rep g adj -> primary_edges g adj -> simple_graph g adj -> unsearched g adj -> embed_ready g adj ->
    gp_Embed g flags = Ret (h, C_OK) ->
    exists k B, gp_SortVertices h = Ret (k, C_OK) /\ same_graph g adj k B /\ euler k B /\
      (Z.land flags EMBEDFLAGS_OUTERPLANAR <> 0 -> outer_rotations k B).
Proof.
  intros g adj flags h R P S U E H. destruct (embed_ok g adj flags R P S U E) as (h' & r & H' & [[-> _] | (-> & A & PE & Ro & Ou & Ge & Fl & Pa & _)]); rewrite H in H'; [discriminate|].
  injection H' as <-. destruct (sort_embedding g adj h A R P PE Fl Pa) as (k & B & K1 & K2 & K3 & K4). exists k, B. auto 10.
Qed.

Lemma sort_isolated g adj h A : isolated_subgraph g adj h A -> giflags h = Z.lxor (Z.lor (giflags g) FLAGS_DFSNUMBERED) FLAGS_SORTEDBYDFI ->
  (forall v, primary h v -> par h v <> NIL -> primary h (par h v)) ->
  exists k B, gp_SortVertices h = Ret (k, C_OK) /\ same_subgraph g adj k B /\
    (forall n, (2 <= n)%nat -> complete_subdivision h A n -> complete_subdivision k B n) /\
    (forall m n, (1 <= m)%nat -> (1 <= n)%nat -> bipartite_subdivision h A m n -> bipartite_subdivision k B m n).
Proof.
  intros Is Fl Pa. destruct Is as [Rh Ph N Ix Inj Ar En]. destruct (sort_back g h A Rh Ph N Ix Inj Fl Pa) as (k & B & K1 & K2 & K3 & K4 & K5 & K6 & K7 & K8 & K9).
  assert (Pn : forall v, primary h v <-> primary g v) by (intros v; unfold primary; now rewrite N).
  assert (Pk : forall v, primary k v <-> primary h v) by (intros v; unfold primary; now rewrite K4).
  assert (Fi : forall v w, primary h v -> primary h w -> vindex h v = vindex h w -> v = w) by (intros v w Hv Hw; apply Inj; now apply Pn).
  assert (Fs : forall x, primary k x -> exists v, primary h v /\ vindex h v = x).
  { intros x Hx. apply (num_surj h); [|now apply Pk]. split; [intros v Hv; apply Pn, Ix, Pn, Hv|exact Fi]. }
  exists k, B. split; [exact K1|]. split; [|split].
  - constructor; [exact K2|congruence|exact K9| |]; intros v e He; destruct (Fs v (K3 v e He)) as (u & Hu & <-); rewrite K6 in He by auto; [exact (Ar u e He)|]. rewrite (K7 u e He). exact (En u e He).
  - intros n Hn. apply (ren_complete h k A B (vindex h)); auto.
  - intros m n Hm Hn. apply (ren_bipartite h k A B (vindex h)); auto.
Qed.

(** With NONEMBEDDABLE it is a subgraph of the graph given, on the same vertices, and a subdivision
    of K3,3 or K5; of K2,3 or K4 for outerplanarity. *)
Theorem C63_isolate_then_sort_planar :
  forall g adj h, rep g adj -> primary_edges g adj -> simple_graph g adj -> unsearched g adj -> embed_ready g adj ->
    gp_Embed g EMBEDFLAGS_PLANAR = Ret (h, C_NONEMBEDDABLE) ->
    exists k B, gp_SortVertices h = Ret (k, C_OK) /\ same_subgraph g adj k B /\ (bipartite_subdivision k B 3 3 \/ complete_subdivision k B 5).
Proof.
  intros g adj h R P S U E H. destruct (embed_ok g adj EMBEDFLAGS_PLANAR R P S U E) as (h' & r & H' & [(-> & _ & _ & _ & K) | (-> & _)]); rewrite H in H'; [|discriminate].
  injection H' as <-. destruct (K eq_refl) as (A & Is & Ob & Ge & Fl & Pa). destruct (sort_isolated g adj h A Is Fl Pa) as (k & B & K1 & K2 & K3 & K4).
  exists k, B. split; [exact K1|]. split; [exact K2|]. destruct Ob as [Ob|Ob]; [left; apply K4|right; apply K3]; auto; lia.
Qed.
Theorem C63_isolate_then_sort_outerplanar :
  forall g adj h, rep g adj -> primary_edges g adj -> simple_graph g adj -> unsearched g adj -> embed_ready g adj ->
    gp_Embed g EMBEDFLAGS_OUTERPLANAR = Ret (h, C_NONEMBEDDABLE) ->
    exists k B, gp_SortVertices h = Ret (k, C_OK) /\ same_subgraph g adj k B /\ (bipartite_subdivision k B 2 3 \/ complete_subdivision k B 4).
Proof.
  intros g adj h R P S U E H. destruct (embed_ok g adj EMBEDFLAGS_OUTERPLANAR R P S U E) as (h' & r & H' & [(-> & _ & _ & K & _) | (-> & _)]); rewrite H in H'; [|discriminate].
  injection H' as <-. destruct (K eq_refl) as (A & Is & Ob & Ge & Fl & Pa). destruct (sort_isolated g adj h A Is Fl Pa) as (k & B & K1 & K2 & K3 & K4).
  exists k, B. split; [exact K1|]. split; [exact K2|]. destruct Ob as [Ob|Ob]; [left; apply K4|right; apply K3]; auto; lia.
Qed.

(** For the graphs which the editing functions can make of a new one: the caller learns that the graph
    is planar, with a planar order of its edges, or gets a subgraph that shows it is not. *)
Theorem C63_built_graphs :
  forall g, clean_reach g -> exists adj, rep g adj /\
    (simple_graph g adj -> exists h r k B, gp_Embed g EMBEDFLAGS_PLANAR = Ret (h, r) /\ gp_SortVertices h = Ret (k, C_OK) /\
       (r = C_OK /\ planar_graph g adj /\ same_graph g adj k B /\ euler k B \/
        r = C_NONEMBEDDABLE /\ ~ planar_graph g adj /\ same_subgraph g adj k B /\ (bipartite_subdivision k B 3 3 \/ complete_subdivision k B 5))).
Proof.
  intros g C. destruct (clean_reach_ready g C) as (adj & R & P & U & E & _). exists adj. split; [exact R|]. intros S.
  destruct (C58_embed_decides_planarity g adj EMBEDFLAGS_PLANAR R P S U E eq_refl) as (h & r & H & [[-> Pl]|[-> Np]]); exists h; eexists.
  - destruct (C63_embed_then_sort g adj _ h R P S U E H) as (k & B & K1 & K2 & K3 & _). exists k, B. split; [exact H|]. split; [exact K1|]. left. auto.
  - destruct (C63_isolate_then_sort_planar g adj h R P S U E H) as (k & B & K1 & K2 & K3). exists k, B. split; [exact H|]. split; [exact K1|]. right. auto.
Qed.

(** The neighbours listed for each vertex after both calls: of the planar graph K5 without an edge, and of
    the complete graph on six vertices. *)
Definition sorted_lists (g : graph) (flags : Z) : list (list Z) :=
  let h := fst (the (g, 0) (gp_Embed g flags)) in let k := fst (the (h, 0) (gp_SortVertices h)) in
  map (fun v => map (enbr k) (arcs k v)) (zrange 1 (Z.to_nat (gN k))).
Example end_case :
  sorted_lists k5_less EMBEDFLAGS_PLANAR = [[5; 3; 4; 2]; [1; 4; 3; 5]; [5; 2; 4; 1]; [3; 2; 1]; [2; 3; 1]] /\
  sorted_lists fan EMBEDFLAGS_OUTERPLANAR = [[2; 4]; [5; 3; 4; 1]; [4; 2]; [1; 2; 3]; [2]] /\
  sorted_lists k6 EMBEDFLAGS_PLANAR = [[5; 4; 6; 2]; [3; 1]; [5; 6; 4; 2]; [1; 3; 6; 5]; [1; 3; 4; 6]; [1; 5; 4; 3]] /\
  sorted_lists k6 EMBEDFLAGS_OUTERPLANAR = [[]; []; [5; 6; 4]; [3; 6; 5]; [3; 4; 6]; [5; 4; 3]].
Proof. vm_compute. repeat split; reflexivity. Qed.
Example end_case_hyps :
  Forall (fun p => exists adj h, rep (fst (fst p)) adj /\ primary_edges (fst (fst p)) adj /\ simple_graph (fst (fst p)) adj /\ unsearched (fst (fst p)) adj /\ embed_ready (fst (fst p)) adj /\
      clean_reach (fst (fst p)) /\ gp_Embed (fst (fst p)) (snd (fst p)) = Ret (h, snd p))
    [(k5_less, EMBEDFLAGS_PLANAR, C_OK); (fan, EMBEDFLAGS_OUTERPLANAR, C_OK); (k6, EMBEDFLAGS_PLANAR, C_NONEMBEDDABLE); (k6, EMBEDFLAGS_OUTERPLANAR, C_NONEMBEDDABLE)].
Proof.
  assert (B : forall g fl r, clean_reach g -> simpleb g = true -> embed_verdict g fl = r -> r <> 77 -> r <> 78 -> exists adj h, rep g adj /\ primary_edges g adj /\ simple_graph g adj /\
    unsearched g adj /\ embed_ready g adj /\ clean_reach g /\ gp_Embed g fl = Ret (h, r)).
  { intros g fl r C Q V N1 N2. destruct (clean_reach_ready g C) as (adj & R & P & U & E & _). assert (S : simple_graph g adj) by auto using simpleb_ok.
    unfold embed_verdict in V. destruct (gp_Embed g fl) as [[h r']| |] eqn:H; [|congruence|congruence]. subst r'. exists adj, h. auto 10. }
  repeat constructor; cbn [fst snd]; (apply B; [apply built_clean| | | |]; vm_compute; try reflexivity; discriminate).
Qed.

(** All the theorems of this file at once: their assumptions are printed together because each print walks the whole proof of gp_Embed. *)
Definition Thm_End_all := (@C63_embed_then_sort, @C63_isolate_then_sort_planar, @C63_isolate_then_sort_outerplanar, @C63_built_graphs).
Print Assumptions Thm_End_all.
