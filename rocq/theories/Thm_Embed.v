(** * Thm_Embed: gp_Embed delivers planar embeddings. *)
From Verif Require Import Base BaseP GraphRec GraphM GraphSpec GraphP GraphP4 GraphEx DFSM DFSSpec DFSP DFSP3 DFSP4 DFSP7 TestM TestSpec TestP EmbM EmbedSpec EmbedP Thm_Test.

(** ** C55 *)
(** On every simple graph that has not been searched the embedder stops, touches nothing outside its
    arrays, and answers OK or NONEMBEDDABLE; with OK the graph it leaves is a planar embedding of the
    graph it was given.  This holds for every combination of embed flags. *)
Theorem C55_embed_is_planar :
  forall g adj flags, rep g adj -> primary_edges g adj -> simple_graph g adj -> unsearched g adj -> embed_ready g adj ->
    exists h r, gp_Embed g flags = Ret (h, r) /\ (r = C_OK \/ r = C_NONEMBEDDABLE) /\
      (r = C_OK -> exists A, planar_embedding g adj h A).
Proof.
  intros g adj flags R P S U E. destruct (embed_ok g adj flags R P S U E) as (h & r & H & [[-> _] | (-> & A & HA & _)]); exists h.
  - exists C_NONEMBEDDABLE. split; [exact H|]. split; [now right|]. discriminate.
  - exists C_OK. split; [exact H|]. split; [now left|]. intros _. now exists A.
Qed.

(** The hypotheses hold of every simple graph made by the editing functions. *)
Theorem C55_edited_graphs_qualify : forall g, clean_reach g ->
  exists adj, rep g adj /\ primary_edges g adj /\ unsearched g adj /\ embed_ready g adj.
Proof. intros g H. destruct (clean_reach_ready g H) as (adj & H1 & H2 & H3 & H4 & _). now exists adj. Qed.

(** The lists that represent a graph are determined by it. *)
Lemma linked_unique nx pv : forall l l' p p', linked nx pv p l NIL -> linked nx pv p' l' NIL -> hd NIL l = hd NIL l' ->
  (forall e, In e l -> e <> NIL) -> (forall e, In e l' -> e <> NIL) -> l = l'.
Proof.
  induction l as [|x l IH]; intros [|x' l'] p p' L L' F Z1 Z2; cbn [hd] in F; auto.
  - exfalso. apply (Z2 x'); [now left|auto].
  - exfalso. apply (Z1 x); [now left|auto].
  - subst x'. cbn [linked] in L, L'. destruct L as (_ & L1 & L2), L' as (_ & L1' & L2'). f_equal.
    apply (IH l' x x); auto; [congruence| |]; intros e He; [apply Z1|apply Z2]; now right.
Qed.
Theorem C55_lists_unique : forall g adj adj', rep g adj -> rep g adj' -> forall v, adj v = adj' v.
Proof.
  intros g adj adj' [C _ _] [C' _ _] v. destruct (Z_le_dec 1 v) as [H1|H1]; [destruct (Z_le_dec v (2 * gN g)) as [H2|H2]|].
  2,3: rewrite (ch_out _ _ C), (ch_out _ _ C') by (unfold is_vertex; lia); reflexivity.
  assert (V : is_vertex g v) by (unfold is_vertex; lia).
  apply (linked_unique (enext g) (eprev g) _ _ NIL NIL); try (apply (ch_linked _ _ C v V) || apply (ch_linked _ _ C' v V)).
  - now rewrite <- (ch_first _ _ C v V), <- (ch_first _ _ C' v V).
  - intros e He. pose proof (ch_range _ _ C v e He). unfold NIL; lia.
  - intros e He. pose proof (ch_range _ _ C' v e He). unfold NIL; lia.
Qed.

(** *** Cases *)
(** A decision procedure for simplicity, to compute with. *)
Definition simpleb (g : graph) : bool :=
  forallb (fun v => forallb (fun e => negb (enbr g e =? v) && forallb (fun e' => (e =? e') || negb (enbr g e =? enbr g e')) (arcs g v)) (arcs g v))
    (map Z.of_nat (seq 1 (Z.to_nat (gN g)))).
Lemma simpleb_ok g adj : rep g adj -> primary_edges g adj -> simpleb g = true -> simple_graph g adj.
Proof.
  intros R P H. unfold simpleb in H. rewrite forallb_forall in H.
  assert (B : forall v e, In e (adj v) -> enbr g e <> v /\ forall e', In e' (adj v) -> enbr g e = enbr g e' -> e = e').
  { intros v e He. pose proof (P v e He) as [P1 P2]. assert (V : is_vertex g v) by (unfold is_vertex; lia).
    assert (Hv : In v (map Z.of_nat (seq 1 (Z.to_nat (gN g))))) by (apply in_map_iff; exists (Z.to_nat v); split; [lia|apply in_seq; lia]).
    specialize (H v Hv). rewrite <- (arcs_ok g adj v (rep_chains _ _ R) V) in H. rewrite forallb_forall in H. specialize (H e He).
    apply andb_prop in H. destruct H as [H1 H2]. rewrite forallb_forall in H2. split; [lia|]. intros e' He' E. specialize (H2 e' He'). lia. }
  split; [intros u e He; apply (B u e He)|intros u e e' He He' E; now apply (B u e He)].
Qed.
Definition k33 := built 40 6 (adds [(1, 4); (1, 5); (1, 6); (2, 4); (2, 5); (2, 6); (3, 4); (3, 5); (3, 6)]).
Definition k5 := built 40 5 (adds [(1, 2); (1, 3); (1, 4); (1, 5); (2, 3); (2, 4); (2, 5); (3, 4); (3, 5); (4, 5)]).
Definition k5_less := built 40 5 (adds [(1, 2); (1, 3); (1, 4); (1, 5); (2, 3); (2, 4); (2, 5); (3, 4); (3, 5)]).
Definition k4_2 := built 40 6 (adds [(5, 2); (1, 3); (1, 4); (2, 3); (5, 6); (2, 4); (3, 4); (2, 1)]).
Definition embed_verdict (g : graph) (flags : Z) : Z := match gp_Embed g flags with Ret (_, r) => r | UB => 77 | OOF => 78 end.
Example embed_case :
  forallb simpleb [k33; k5; k5_less; k4_2] = true /\
  clean_reach k33 /\ clean_reach k5 /\ clean_reach k5_less /\ clean_reach k4_2 /\
  embed_verdict k33 EMBEDFLAGS_PLANAR = C_NONEMBEDDABLE /\ embed_verdict k5 EMBEDFLAGS_PLANAR = C_NONEMBEDDABLE /\
  embed_verdict k5_less EMBEDFLAGS_PLANAR = C_OK /\ embed_verdict k4_2 EMBEDFLAGS_PLANAR = C_OK /\
  embed_verdict k4_2 EMBEDFLAGS_OUTERPLANAR = C_NONEMBEDDABLE /\ embed_verdict k5_less EMBEDFLAGS_OUTERPLANAR = C_NONEMBEDDABLE.
Proof.
  split; [vm_compute; reflexivity|].
  do 4 (split; [apply built_clean; vm_compute; reflexivity|]). repeat (split; [vm_compute; reflexivity|]). vm_compute; reflexivity.
Qed.

(** Simplicity is needed: given two parallel edges, or a loop, gp_Embed answers OK, but the graph it
    leaves has lost an edge (it is in no adjacency list, though still counted). *)
Theorem C55_embed_multigraph_refuted :
  exists g h adj, clean_reach g /\ rep g adj /\ primary_edges g adj /\ (forall u e, In e (adj u) -> enbr g e <> u) /\
    gp_Embed g EMBEDFLAGS_PLANAR = Ret (h, C_OK) /\ gM h = gM g /\ forall A, ~ planar_embedding g adj h A.
Proof.
  set (g := built 40 3 (adds [(1, 2); (1, 2)])).
  assert (C : clean_reach g) by (apply built_clean; vm_compute; reflexivity).
  destruct (clean_reach_ready g C) as (adj & R & P & _). exists g, (fst (the (g, 0) (gp_Embed g EMBEDFLAGS_PLANAR))), adj.
  split; [exact C|]. split; [exact R|]. split; [exact P|].
  assert (L : adj 1 = arcs g 1 /\ adj 2 = arcs g 2 /\ adj 3 = arcs g 3).
  { repeat split; apply (arcs_ok _ _ _ (rep_chains _ _ R)); vm_compute; split; discriminate. }
  destruct L as (L1 & L2 & L3). vm_compute in L1, L2, L3. split.
  { intros u e He. destruct (P u e He) as [H1 H2]. change (gN g) with 3 in H2.
    assert (Hu : u = 1 \/ u = 2 \/ u = 3) by lia. destruct Hu as [-> |[-> | ->]]; rewrite ?L1, ?L2, ?L3 in He; cbn [In] in He.
    - destruct He as [<-|[<-|[]]]; vm_compute; discriminate.
    - destruct He as [<-|[<-|[]]]; vm_compute; discriminate.
    - destruct He. }
  split; [vm_compute; reflexivity|]. split; [vm_compute; reflexivity|].
  intros A H. destruct H as [Rh _ _ _ _ _ Ar _ _]. specialize (Ar 1 5). cbn [fst] in *.
  rewrite (arcs_ok _ _ 1 (rep_chains _ _ Rh)) in Ar by (vm_compute; split; discriminate).
  match type of Ar with _ -> In _ ?l <-> In _ (adj ?i) => assert (E1 : l = [3]) by (vm_compute; reflexivity); assert (E2 : i = 1) by (vm_compute; reflexivity) end.
  rewrite E1, E2, L1 in Ar. destruct Ar as [_ Ar]; [vm_compute; split; discriminate|]. destruct Ar as [Ar|[]]; [now left|discriminate].
Qed.

Theorem C55_embed_loop_refuted :
  exists g h adj, clean_reach g /\ rep g adj /\ primary_edges g adj /\
    (forall u e e', In e (adj u) -> In e' (adj u) -> e / 2 = e' / 2) /\
    gp_Embed g EMBEDFLAGS_PLANAR = Ret (h, C_OK) /\ gM h = gM g /\ forall A, ~ planar_embedding g adj h A.
Proof.
  set (g := built 40 3 (adds [(1, 1)])).
  assert (C : clean_reach g) by (apply built_clean; vm_compute; reflexivity).
  destruct (clean_reach_ready g C) as (adj & R & P & _). exists g, (fst (the (g, 0) (gp_Embed g EMBEDFLAGS_PLANAR))), adj.
  split; [exact C|]. split; [exact R|]. split; [exact P|].
  assert (L : adj 1 = arcs g 1 /\ adj 2 = arcs g 2 /\ adj 3 = arcs g 3).
  { repeat split; apply (arcs_ok _ _ _ (rep_chains _ _ R)); vm_compute; split; discriminate. }
  destruct L as (L1 & L2 & L3). vm_compute in L1, L2, L3. split.
  { intros u e e' He He'. destruct (P u e He) as [H1 H2]. change (gN g) with 3 in H2.
    assert (Hu : u = 1 \/ u = 2 \/ u = 3) by lia. destruct Hu as [-> |[-> | ->]]; rewrite ?L1, ?L2, ?L3 in He, He'; cbn [In] in He, He'.
    - destruct He as [<-|[<-|[]]], He' as [<-|[<-|[]]]; reflexivity.
    - destruct He.
    - destruct He. }
  split; [vm_compute; reflexivity|]. split; [vm_compute; reflexivity|].
  intros A H. destruct H as [Rh _ _ _ _ _ Ar _ _]. specialize (Ar 1 2). cbn [fst] in *.
  rewrite (arcs_ok _ _ 1 (rep_chains _ _ Rh)) in Ar by (vm_compute; split; discriminate).
  match type of Ar with _ -> In _ ?l <-> In _ (adj ?i) => assert (E1 : l = []) by (vm_compute; reflexivity); assert (E2 : i = 1) by (vm_compute; reflexivity) end.
  rewrite E1, E2, L1 in Ar. destruct Ar as [_ Ar]; [vm_compute; split; discriminate|]. apply Ar. vm_compute. auto.
Qed.

(** ** C56: the library's own check accepts what the embedder delivers *)
Lemma embedding_sub g adj h A : rep g adj -> primary_edges g adj -> planar_embedding g adj h A ->
  is_sorted h = true -> is_sorted g = false -> sub_adj h A g adj /\ sub_adj g adj h A.
Proof.
  intros R P [Rh Ph N M Ix Inj Ar En _] Sh Sg. 
  assert (Lh : forall v, label h g v = vindex h v) by (intros v; unfold label; now rewrite Sh, Sg).
  assert (Lg : forall v, label g h v = v) by (intros v; unfold label; now rewrite Sg).
  assert (Pn : forall v, primary h v <-> primary g v) by (intros v; unfold primary; now rewrite N).
  split; intros v e He.
  - pose proof (Ph v e He) as Pv. apply Pn in Pv. exists (vindex h v), e. rewrite !Lh, !Lg. split; [now apply Ar|]. split; [reflexivity|].
    symmetry. apply (En v e He).
  - destruct (rep_twins _ _ R _ _ He) as [T1 T2].
    assert (Sur : forall x, primary g x -> exists u, primary g u /\ vindex h u = x).
    { intros x Hx. destruct (num_surj h) with (x := x) as (u & H1 & H2); [|now apply Pn|exists u; split; [now apply Pn|auto]].
      split; [intros u Hu; apply Pn, Ix, Pn, Hu|intros u w Hu Hw; apply Inj; now apply Pn]. }
    destruct (Sur v (P v e He)) as (u & Hu & E). exists u, e. rewrite !Lh, !Lg.
    assert (Hi : In e (A u)) by (apply Ar; [exact Hu|now rewrite E]). split; [exact Hi|]. split; [exact E|]. apply (En u e Hi).
Qed.

Theorem C56_embed_then_check :
  forall g adj flags, clean_reach g -> rep g adj -> simple_graph g adj ->
    exists h r, gp_Embed g flags = Ret (h, r) /\ (r = C_OK \/ r = C_NONEMBEDDABLE) /\
      (r = C_OK -> exists h' g', gp_TestEmbedResultIntegrity h g C_OK = Ret (h', g', C_OK)).
Proof.
  intros g adj flags Cl R S. destruct (clean_reach_ready g Cl) as (adj' & R' & P' & U' & E' & F').
  assert (EA : forall v, adj' v = adj v) by (intros v; apply (C55_lists_unique g); auto).
  assert (P : primary_edges g adj) by (intros v e; rewrite <- EA; apply P').
  assert (U : unsearched g adj) by (destruct U'; constructor; auto; intros v e; rewrite <- EA; apply us_types).
  assert (E : embed_ready g adj) by (destruct E'; constructor; auto; intros v e; rewrite <- EA; apply er_inv).
  destruct (embed_ok g adj flags R P S U E) as (h & r & H & [[-> _] | (-> & A & PE & Ro & Ou & Fl & If & Pa & Rm & _)]); exists h.
  { exists C_NONEMBEDDABLE. split; [exact H|]. split; [now right|]. discriminate. }
  exists C_OK. split; [exact H|]. split; [now left|]. intros _. pose proof PE as [Rh Ph N M Ix Inj Ar En Eu].
  rewrite F' in If.
  assert (Sh : is_sorted h = true) by (unfold is_sorted; rewrite If; reflexivity).
  assert (Sg : is_sorted g = false) by (unfold is_sorted; rewrite F'; reflexivity).
  assert (Pn : forall v, primary h v <-> primary g v) by (intros v; unfold primary; now rewrite N).
  destruct (C53_embedding_integrity h A g adj) as (h' & g' & r & H1 & _ & _ & _ & _ & _ & H2); auto.
  - intros _. split; [rewrite If; discriminate|]. split; [intros v Hv; apply Pn, Ix, Pn, Hv|]. split; [intros v w Hv Hw; apply Inj; now apply Pn|exact Pa].
  - intros Q. rewrite Sg in Q. discriminate.
  - destruct (embedding_sub g adj h A R P PE Sh Sg) as [H3 H4].
    exists h', g'. rewrite H1. do 2 f_equal. apply H2. do 3 (split; [assumption|]). rewrite Fl. intros ->. apply Ou. discriminate.
Qed.

Example embed_then_check_case :
  let h := fst (the (k4_2, 0) (gp_Embed k4_2 EMBEDFLAGS_PLANAR)) in
  map (vindex h) [1; 2; 3; 4; 5; 6] = [1; 3; 2; 5; 6; 4] /\ verdict2 (gp_TestEmbedResultIntegrity h k4_2 C_OK) = C_OK.
Proof. vm_compute. split; reflexivity. Qed.
(** Two triangles with a common edge, embedded with all the vertices on the outer face. *)
Definition fan := built 40 5 (adds [(4, 1); (1, 2); (3, 2); (3, 4); (2, 4); (5, 2)]).
Example embed_then_check_outer_case :
  let h := fst (the (fan, 0) (gp_Embed fan EMBEDFLAGS_OUTERPLANAR)) in
  embed_verdict fan EMBEDFLAGS_OUTERPLANAR = C_OK /\ verdict2 (gp_TestEmbedResultIntegrity h fan C_OK) = C_OK.
Proof. vm_compute. split; reflexivity. Qed.

(** All the theorems of this file at once: their assumptions are printed together because each print walks the whole proof of gp_Embed. *)
Definition Thm_Embed_all := (@C55_embed_is_planar, @C55_edited_graphs_qualify, @C55_lists_unique, @C55_embed_multigraph_refuted, @C55_embed_loop_refuted, @C56_embed_then_check).
Print Assumptions Thm_Embed_all.
