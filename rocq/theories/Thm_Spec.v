(** * Thm_Spec: the test of one given graph, from the text read to the text written. *)
From Coq Require Import ZifyBool Permutation String Ascii.
From Verif Require Import StrBufM StrFileM G6M G6Spec IOP8 TransM Thm_Trans.
From Verif Require Import Base BaseP GraphRec GraphM GraphSpec GraphP GraphP4 GraphEx CopySpec DFSM DFSSpec DFSP TestM TestSpec TestP TestP2 TestP3 TestP4 TestP5 EmbM EmbedSpec EmbedP ObsSpec PlanSpec OutSpec RandSpec IOM IOSpec IOP IOP5 IOP6 IOP7 EndSpec SortEP DirP
  Thm_Copy Thm_Test Thm_Obs Thm_Embed Thm_Planar Thm_Outer Thm_End Thm_Text Thm_IO Thm_Read Thm_App SpecM.
From Verif Require ReadyP.
Open Scope list_scope.

(** ** What the integrity check leaves alone *)
Record kept (g h : graph) : Prop := {
  kp_alike : alike g h;
  kp_index : forall v, primary g v -> vindex h v = vindex g v;
  kp_iflags : giflags h = giflags g;
  kp_eflags : forall e, Z.ldiff (eflags h e) EDGE_VISITED_MASK = Z.ldiff (eflags g e) EDGE_VISITED_MASK }.
Lemma kept_trans a b c : kept a b -> kept b c -> kept a c.
Proof.
  intros [A1 A2 A3 A4] [B1 B2 B3 B4]. constructor; [eapply alike_trans; eauto| |congruence|intros e; now rewrite B4].
  intros v Hv. rewrite B2; auto. now apply (alike_primary a b A1).
Qed.
Lemma sm_kept g h : 1 <= gN g -> same_but_marks g h -> kept g h.
Proof.
  intros HN S. constructor; [now apply sm_alike| |apply S|].
  - intros v Hv. apply (sm_index _ _ S). unfold primary, is_vertex in *. lia.
  - intros e. now rewrite (sm_eflags _ _ S).
Qed.
Lemma em_kept g h : edge_marks_only g h -> kept g h.
Proof. intros S. constructor; [now apply em_alike|intros; now rewrite (em_vindex _ _ S)|apply S|apply S]. Qed.
Lemma vm_kept g h : vertex_marks_only g h -> kept g h.
Proof. intros S. constructor; [now apply vm_alike|intros; now rewrite (vm_vindex _ _ S)|apply S|intros; now rewrite (vm_eflags _ _ S)]. Qed.

Lemma check_kept g adj o oadj :
  rep g adj -> primary_edges g adj -> rep o oadj -> primary_edges o oadj -> gN g = gN o ->
  sort_state g -> sort_state o -> 2 * gM g <= gstackCap g -> one_root_each g adj ->
  wp (_CheckEmbeddingIntegrity g o) (fun '(g', _, _) => kept g g').
Proof.
  intros R P Ro Po EN Sg So Cap OR. unfold _CheckEmbeddingIntegrity.
  apply wp_bind. eapply wp_mono; [apply (test_subgraph_ok g adj o oadj); auto|].
  intros ((g1, o1), r1) (G1 & O1 & B1 & Q1).
  pose proof (st_N _ _ (rep_storage _ _ R)) as HN.
  pose proof (sm_rep _ _ _ G1 R) as R1. pose proof (sm_rep _ _ _ O1 Ro) as Ro1.
  pose proof (alike_prim_edges _ _ _ (sm_alike _ _ G1) P) as P1. pose proof (alike_prim_edges _ _ _ (sm_alike _ _ O1) Po) as Po1.
  pose proof (sm_kept g g1 HN G1) as K1.
  destruct (negb (r1 =? C_TRUE)); [exact K1|].
  apply wp_bind. eapply wp_mono.
  { apply (test_subgraph_ok o1 oadj g1 adj); auto.
    - rewrite (sm_N _ _ G1), (sm_N _ _ O1). auto.
    - eapply sm_sort_state; eauto. lia.
    - eapply sm_sort_state; eauto. lia. }
  intros ((o2, g2), r2) (O2 & G2 & B2 & Q2).
  pose proof (sm_rep _ _ _ G2 R1) as R2.
  assert (K2 : kept g g2) by (eapply kept_trans; [exact K1|apply sm_kept; [rewrite (sm_N _ _ G1); exact HN|exact G2]]).
  destruct (negb (r2 =? C_TRUE)); [exact K2|].
  pose proof (alike_roots _ _ _ (kp_alike _ _ K2) OR) as OR2.
  apply wp_bind. eapply wp_mono.
  { apply (facial_ok g2 adj); auto. destruct (kp_alike _ _ K2) as (_ & -> & _). rewrite (sm_stackCap _ _ G2), (sm_stackCap _ _ G1). auto. }
  intros (g3, r3) (G3 & _ & _ & _).
  assert (K3 : kept g g3) by (eapply kept_trans; [exact K2|now apply em_kept]).
  assert (R3 : rep g3 adj) by (eapply em_rep; eauto).
  destruct (negb (r3 =? C_OK)); [exact K3|].
  destruct (gembed g3 =? EMBEDFLAGS_OUTERPLANAR); [|exact K3].
  apply wp_bind. eapply wp_mono.
  { apply (ext_check_ok g3 adj); auto. apply (alike_prim_edges g g3 adj (kp_alike _ _ K3) P). }
  intros (g4, r4) (G4 & _ & _). cbn [wp]. eapply kept_trans; [exact K3|now apply vm_kept].
Qed.

Lemma kept_dir g h : kept g h -> no_directions g -> no_directions h.
Proof.
  intros K D e He. assert (X : forall x, Z.land x DIR_MASK = Z.land (Z.ldiff x EDGE_VISITED_MASK) DIR_MASK).
  { intros x. apply Z.bits_inj'. intros n Hn. rewrite !Z.land_spec, Z.ldiff_spec. assert (Q : Z.land EDGE_VISITED_MASK DIR_MASK = 0) by reflexivity.
    apply (f_equal (fun z => Z.testbit z n)) in Q. rewrite Z.land_spec, Z.bits_0 in Q. destruct (Z.testbit x n), (Z.testbit EDGE_VISITED_MASK n), (Z.testbit DIR_MASK n); auto; discriminate. }
  rewrite X, (kp_eflags _ _ K), <- X. now apply D.
Qed.
Lemma kept_pe g adj h A h' : primary_edges h A -> kept h h' -> rep h' A -> planar_embedding g adj h A -> planar_embedding g adj h' A.
Proof.
  intros P K R [Rh Ph N M Ix Inj Ar En Eu]. pose proof (kp_alike _ _ K) as Al. pose proof Al as (N' & M' & E' & _).
  assert (Pn : forall v, primary g v -> primary h v) by (intros v; unfold primary; now rewrite N).
  constructor; auto; try congruence.
  - exact (alike_prim_edges _ _ _ Al P).
  - intros v Hv. rewrite (kp_index _ _ K); auto.
  - intros v w Hv Hw. rewrite !(kp_index _ _ K); auto.
  - intros v e Hv. rewrite (kp_index _ _ K); auto.
  - intros v e He. rewrite E', (kp_index _ _ K); [exact (En v e He)|]. destruct (rep_twins _ _ Rh v e He) as [_ T]. exact (P _ _ T).
  - exact (alike_euler _ _ _ Al Eu).
Qed.
Lemma kept_is g adj h A h' : kept h h' -> rep h' A -> isolated_subgraph g adj h A -> isolated_subgraph g adj h' A.
Proof.
  intros K R [Rh Ph N Ix Inj Ar En]. pose proof (kp_alike _ _ K) as Al. pose proof Al as (N' & M' & E' & _).
  assert (Pn : forall v, primary g v -> primary h v) by (intros v; unfold primary; now rewrite N).
  constructor; auto; try congruence.
  - exact (alike_prim_edges _ _ _ Al Ph).
  - intros v Hv. rewrite (kp_index _ _ K); auto.
  - intros v w Hv Hw. rewrite !(kp_index _ _ K); auto.
  - intros v e He. rewrite (kp_index _ _ K); auto. exact (Ph v e He).
  - intros v e He. rewrite E', (kp_index _ _ K); [exact (En v e He)|]. destruct (rep_twins _ _ Rh v e He) as [_ T]. exact (Ph _ _ T).
Qed.
Lemma kept_par h h' : kept h h' -> (forall v, primary h v -> par h v <> NIL -> primary h (par h v)) -> forall v, primary h' v -> par h' v <> NIL -> primary h' (par h' v).
Proof.
  intros K H v Hv. pose proof (kp_alike _ _ K) as Al. pose proof Al as (_ & _ & _ & Q). apply (alike_primary _ _ Al) in Hv. rewrite (Q v Hv). intros Hp.
  apply (alike_primary _ _ Al). auto.
Qed.
Lemma kept_subdivision h A h' : rep h A -> primary_edges h A -> kept h h' ->
  (forall n, (2 <= n)%nat -> complete_subdivision h A n -> complete_subdivision h' A n) /\
  (forall m n, (1 <= m)%nat -> (1 <= n)%nat -> bipartite_subdivision h A m n -> bipartite_subdivision h' A m n).
Proof.
  intros R P K. pose proof (kp_alike _ _ K) as Al. pose proof Al as (N' & M' & E' & _).
  split; intros; [apply (ren_complete h h' A A (fun v => v))|apply (ren_bipartite h h' A A (fun v => v))]; auto; try (intros x Hx; exists x; split; [now apply (alike_primary _ _ Al)|reflexivity]); try exact (alike_prim_edges _ _ _ Al P).
Qed.

(** The graph after gp_Embed, the integrity check and gp_SortVertices. *)
Lemma after_check g adj o flags h r h' o' : rep g adj -> primary_edges g adj -> unsearched g adj -> embed_ready g adj -> giflags g = 0 \/ giflags g = 8 ->
  simple_graph g adj -> no_directions g -> flags = EMBEDFLAGS_PLANAR \/ flags = EMBEDFLAGS_OUTERPLANAR ->
  rep o adj -> same_content g o -> gp_Embed g flags = Ret (h, r) -> gp_TestEmbedResultIntegrity h o r = Ret (h', o', r) ->
  exists k B, gp_SortVertices h' = Ret (k, C_OK) /\ no_directions k /\
    (r = C_OK /\ same_graph g adj k B /\ euler k B /\ (flags = EMBEDFLAGS_OUTERPLANAR -> outer_rotations k B) \/
     r = C_NONEMBEDDABLE /\ same_subgraph g adj k B /\
       (flags = EMBEDFLAGS_PLANAR /\ (bipartite_subdivision k B 3 3 \/ complete_subdivision k B 5) \/
        flags = EMBEDFLAGS_OUTERPLANAR /\ (bipartite_subdivision k B 2 3 \/ complete_subdivision k B 4))).
Proof.
  intros R P U E F0 S D F Ro C H T.
  assert (Po : primary_edges o adj) by (intros v e He; unfold primary; rewrite (sc_N _ _ C); exact (P v e He)).
  assert (Sg : is_sorted g = false) by (unfold is_sorted; destruct F0 as [-> | ->]; reflexivity).
  assert (So : sort_state o) by (intros Q; unfold is_sorted in *; rewrite (sc_iflags _ _ C) in Q; rewrite Q in Sg; discriminate).
  assert (Dh : no_directions h) by (pose proof (gp_Embed_D g D flags I) as D1; rewrite H in D1; exact (proj1 D1)).
  assert (Dk : kept h h' -> forall k r', gp_SortVertices h' = Ret (k, r') -> no_directions k).
  { intros K k r' Q. pose proof (gp_SortVertices_D h' (kept_dir h h' K Dh)) as D2. rewrite Q in D2. exact (proj1 D2). }
  destruct (embed_ok g adj flags R P S U E) as (h0 & r0 & H0 & X). rewrite H in H0. injection H0 as <- <-.
  destruct X as [(-> & _ & _ & K1 & K2) | (-> & A & PE & Rt & Ou & Fl & If & Pa & Rm & _)].
  - assert (X : exists A, isolated_subgraph g adj h A /\ gembed h = flags /\
       (flags = EMBEDFLAGS_PLANAR /\ (bipartite_subdivision h A 3 3 \/ complete_subdivision h A 5) \/
        flags = EMBEDFLAGS_OUTERPLANAR /\ (bipartite_subdivision h A 2 3 \/ complete_subdivision h A 4)) /\
       giflags h = Z.lxor (Z.lor (giflags g) FLAGS_DFSNUMBERED) FLAGS_SORTEDBYDFI /\ (forall v, primary h v -> par h v <> NIL -> primary h (par h v))).
    { destruct F as [-> | ->]; [destruct (K2 eq_refl) as (A & Is & Ob & Fl & If & Pa)|destruct (K1 eq_refl) as (A & Is & Ob & Fl & If & Pa)]; exists A; auto 10. }
    destruct X as (A & Is & Fl & Ob & If & Pa). pose proof Is as [Rh Ph N Ix Inj Ar En].
    assert (Pn : forall v, primary h v <-> primary g v) by (intros v; unfold primary; now rewrite N).
    destruct (C53_obstruction_integrity h A o adj) as (h1 & o1 & r1 & H1 & Sm & _ & H3 & _); auto.
    + rewrite (sc_N _ _ C). exact N.
    + intros _. split; [rewrite If; destruct F0 as [-> | ->]; discriminate|]. split; [intros v Hv; apply Pn, Ix, Pn, Hv|]. split; [intros v w Hv Hw; apply Inj; now apply Pn|exact Pa].
    + intros _ v e He Q. apply (proj1 S (vindex h v) e (Ar v e He)). rewrite <- (En v e He). now rewrite Q.
    + rewrite T in H1. injection H1 as <- <- _. assert (K : kept h h') by (apply sm_kept; [apply (st_N _ _ (rep_storage _ _ Rh))|exact Sm]).
      destruct (sort_isolated g adj h' A (kept_is g adj h A h' K H3 Is)) as (k & B & Q1 & Q2 & Q3 & Q4); [rewrite (kp_iflags _ _ K); exact If|now apply (kept_par h h')|].
      destruct (kept_subdivision h A h' Rh Ph K) as [S1 S2].
      exists k, B. split; [exact Q1|]. split; [exact (Dk K k _ Q1)|]. right. split; [reflexivity|]. split; [exact Q2|].
      destruct Ob as [[-> Ob]|[-> Ob]]; [left|right]; (split; [reflexivity|]); (destruct Ob as [Ob|Ob]; [left; apply Q4; try lia; apply S2|right; apply Q3; try lia; apply S1]); auto; lia.
  - pose proof PE as [Rh Ph N M Ix Inj Ar En Eu].
    assert (Pn : forall v, primary h v <-> primary g v) by (intros v; unfold primary; now rewrite N).
    assert (Sh : sort_state h).
    { intros _. split; [rewrite If; destruct F0 as [-> | ->]; discriminate|]. split; [intros v Hv; apply Pn, Ix, Pn, Hv|]. split; [intros v w Hv Hw; apply Inj; now apply Pn|exact Pa]. }
    assert (No : gN h = gN o) by (rewrite (sc_N _ _ C); exact N).
    destruct (C53_embedding_integrity h A o adj) as (h1 & o1 & r1 & H1 & H3 & _); auto. rewrite T in H1. injection H1 as <- <- _.
    pose proof (check_kept h A o adj Rh Ph Ro Po No Sh So Rm Rt) as W. apply wp_inv in W as (((h2, o2), r2) & W1 & K).
    unfold gp_TestEmbedResultIntegrity in T. rewrite Z.eqb_refl, W1 in T. cbn [bind] in T. injection T as -> -> _.
    destruct (sort_embedding g adj h' A R P (kept_pe g adj h A h' Ph K H3 PE)) as (k & B & Q1 & Q2 & Q3 & Q4); [rewrite (kp_iflags _ _ K); exact If|now apply (kept_par h h')|].
    exists k, B. split; [exact Q1|]. split; [exact (Dk K k _ Q1)|]. left. split; [reflexivity|]. split; [exact Q2|]. split; [exact Q3|].
    intros ->. apply Q4; [exact (alike_roots _ _ _ (kp_alike _ _ K) Rt)|]. apply (alike_outer _ _ _ (kp_alike _ _ K)). apply Ou. discriminate.
Qed.

(** ** C69 *)
(** What the text [out] shows about the graph [g] with lists [adj] when it is read again: with OK the graph itself, its
    neighbours in the order of a planar (outerplanar) embedding; with NONEMBEDDABLE a subgraph of it that is an
    obstruction. *)
Definition shows_embedding (fuel : nat) (flags : Z) (g : graph) (adj : Z -> list Z) (out : list Z) : Prop :=
  forall rd, rd = gp_Read \/ rd = gp_ReadFromString ->
  exists m C, rd fuel gp_New out = Ret (m, C_OK) /\ rep m C /\ gN m = gN g /\ zero_based m = zero_based g /\ gM m = gM g /\
    (forall v, Permutation (nbr_lists m C v) (nbr_lists g adj v)) /\ euler m C /\ (flags = EMBEDFLAGS_OUTERPLANAR -> outer_rotations m C).
Definition shows_obstruction (fuel : nat) (flags : Z) (g : graph) (adj : Z -> list Z) (out : list Z) : Prop :=
  forall rd, rd = gp_Read \/ rd = gp_ReadFromString ->
  exists m C, rd fuel gp_New out = Ret (m, C_OK) /\ rep m C /\ gN m = gN g /\ zero_based m = zero_based g /\
    (forall v w, In w (nbr_lists m C v) -> In w (nbr_lists g adj v)) /\
    (flags = EMBEDFLAGS_PLANAR /\ (bipartite_subdivision m C 3 3 \/ complete_subdivision m C 5) \/
     flags = EMBEDFLAGS_OUTERPLANAR /\ (bipartite_subdivision m C 2 3 \/ complete_subdivision m C 4)).

(** A text from which a simple undirected graph is read: the program's answer is right, and its output is an
    embedding, or, if it is asked for, an obstruction. *)
Theorem C69_specific_graph_partial :
  forall rd fuel flags text obstruction g adj, rd = gp_Read \/ rd = gp_ReadFromString ->
    rd fuel gp_New text = Ret (g, C_OK) -> rep g adj -> simple g adj -> primary_edges g adj -> no_directions g ->
    gN g <= 32768 -> gN g <= Z.of_nat fuel -> flags = EMBEDFLAGS_PLANAR \/ flags = EMBEDFLAGS_OUTERPLANAR ->
    tested_for flags g adj /\
      (exists out, SpecificGraph rd fuel flags text obstruction = Ret (C_OK, Some out) /\ shows_embedding fuel flags g adj out) \/
    ~ tested_for flags g adj /\
      (if obstruction then exists out, SpecificGraph rd fuel flags text true = Ret (C_NONEMBEDDABLE, Some out) /\ shows_obstruction fuel flags g adj out
       else SpecificGraph rd fuel flags text false = Ret (C_NONEMBEDDABLE, None)).
Proof.
  intros rd fuel flags text ob g adj Hrd E R S P D Hn Hf F. pose proof (read_ready rd fuel text g C_OK Hrd E) as Rd. destruct (ready_fit g adj Rd R) as [U Er].
  pose proof (ReadyP.rd_base _ Rd) as F0.
  destruct (C14_dup_graph g adj R) as (o & X1 & Sc & Ro & _); [apply (ReadyP.rd_cap _ Rd), (st_N _ _ (rep_storage _ _ R))|].
  destruct (C55_embed_is_planar g adj flags R P S U Er) as (h & r & X2 & _).
  destruct (round_check g adj o flags h r R P U Er F0 S F Ro Sc X2) as (h' & o' & A & X3 & _ & _ & V).
  destruct (after_check g adj o flags h r h' o' R P U Er F0 S D F Ro Sc X2 X3) as (k & B & X4 & Dk & W).
  assert (Q : SpecificGraph rd fuel flags text ob =
    if (r =? C_OK) || ob then '(t, w) <- _WriteAdjList k ;; Ret (if negb (w =? C_OK) then C_NOTOK else r, Some t) else Ret (r, None)).
  { unfold SpecificGraph. rewrite E. cbn [bind]. rewrite Z.eqb_refl. cbn [negb]. rewrite X1. cbn [bind]. rewrite X2. cbn [bind]. rewrite X3. cbn [bind].
    destruct V as [[-> _]|[-> _]]; cbn [Z.eqb C_OK C_NONEMBEDDABLE negb andb]; rewrite X4; reflexivity. }
  destruct V as [[-> V]|[-> V]].
  - left. split; [exact V|]. destruct W as [(_ & W1 & W2 & W3)|[W _]]; [|discriminate].
    destruct (text_of_embedding g adj k B fuel P S Dk Hn Hf W1 W2) as (out & Wr & T). exists out. rewrite Q, Wr. split; [reflexivity|].
    intros rd' Hr'. destruct (T rd' Hr') as (m & C & E1 & E2 & E3 & E4 & E5 & E6 & E7 & E8). exists m, C. do 7 (split; [assumption|]). auto.
  - right. split; [exact V|]. destruct W as [[W _]|(_ & W1 & W2)]; [discriminate|].
    change (C_NONEMBEDDABLE =? C_OK) with false in Q. cbn [orb] in Q. destruct ob; [|exact Q].
    destruct (text_of_subgraph g adj k B fuel P S Dk Hn Hf W1) as (out & Wr & T). exists out. rewrite Q, Wr. split; [reflexivity|].
    intros rd' Hr'. destruct (T rd' Hr') as (m & C & E1 & E2 & E3 & E4 & E5 & E6 & E7). exists m, C. do 5 (split; [assumption|]).
    destruct W2 as [[-> [W2|W2]]|[-> [W2|W2]]]; auto 10.
Qed.

(** Any text of adjacency lists of a simple graph is such a text, in a file or in a string. *)
Theorem C69_specific_graph_lists :
  forall n off L fuel flags obstruction rd, rd = gp_Read \/ rd = gp_ReadFromString ->
    (forall v w, In w (L v) -> 1 <= v <= n /\ 1 <= w <= n) -> (forall v, NoDup (L v)) ->
    (forall v w, In w (L v) -> In v (L w)) -> (forall v, ~ In v (L v)) ->
    1 <= n <= 32768 -> off = 0 \/ off = 1 -> n <= Z.of_nat fuel -> flags = EMBEDFLAGS_PLANAR \/ flags = EMBEDFLAGS_OUTERPLANAR ->
    exists g adj, rep g adj /\ gN g = n /\ (forall v, nbr_lists g adj v = L v) /\ zero_based g = (off =? 1) /\
      (tested_for flags g adj /\
         (exists out, SpecificGraph rd fuel flags (adj_text n off L) obstruction = Ret (C_OK, Some out) /\ shows_embedding fuel flags g adj out) \/
       ~ tested_for flags g adj /\
         (if obstruction then exists out, SpecificGraph rd fuel flags (adj_text n off L) true = Ret (C_NONEMBEDDABLE, Some out) /\ shows_obstruction fuel flags g adj out
          else SpecificGraph rd fuel flags (adj_text n off L) false = Ret (C_NONEMBEDDABLE, None))).
Proof.
  intros n off L fuel flags ob rd Hrd H1 H2 H3 H4 Hn Ho Hf F. assert (HL : lists_ok n L) by (constructor; auto).
  assert (X : exists fs, rd fuel gp_New (adj_text n off L) = transform_read fs fuel gp_New (adj_text n off L)).
  { destruct Hrd as [-> | ->]; [exists false|exists true]; reflexivity. }
  destruct X as (fs & X). destruct (read_list_text n off L fuel fs HL Hn Ho Hf) as (g & adj & E & R & S & P & _ & N & Z & Fl & LL). rewrite <- X in E.
  pose proof (read_ready rd fuel _ g C_OK Hrd E) as Rd.
  assert (D : no_directions g).
  { intros e He. destruct (Z_lt_ge_dec e (gp_EdgeIndexBound g)) as [Q|Q]; [rewrite Fl by lia|rewrite (ReadyP.rd_out _ Rd) by lia]; reflexivity. }
  exists g, adj. split; [exact R|]. split; [exact N|]. split; [exact LL|]. split; [exact Z|]. apply C69_specific_graph_partial; auto; lia.
Qed.

(** So is any graph6 text with its header. *)
Theorem C69_specific_graph_g6 :
  forall n M fuel flags obstruction rd, 2 <= n <= 32768 -> n <= Z.of_nat fuel -> flags = EMBEDFLAGS_PLANAR \/ flags = EMBEDFLAGS_OUTERPLANAR ->
    rd = gp_Read \/ rd = gp_ReadFromString ->
    exists g adj, rep g adj /\ gN g = n /\ (forall u v, 1 <= u < v -> v <= n -> (M u v = true <-> adjacent g adj u v)) /\
      (tested_for flags g adj /\
         (exists out, SpecificGraph rd fuel flags (g6_text n M) obstruction = Ret (C_OK, Some out) /\ shows_embedding fuel flags g adj out) \/
       ~ tested_for flags g adj /\
         (if obstruction then exists out, SpecificGraph rd fuel flags (g6_text n M) true = Ret (C_NONEMBEDDABLE, Some out) /\ shows_obstruction fuel flags g adj out
          else SpecificGraph rd fuel flags (g6_text n M) false = Ret (C_NONEMBEDDABLE, None))).
Proof.
  intros n M fuel flags ob rd Hn Hf F Hrd. assert (X : exists fs, rd fuel gp_New (g6_text n M) = transform_read fs fuel gp_New (g6_text n M)).
  { destruct Hrd as [-> | ->]; [exists false|exists true]; reflexivity. }
  destruct X as (fs & X). destruct (read_g6 fuel n M fs Hn) as (g & adj & E & R & S & P & _ & N & D & HA). rewrite <- X in E.
  exists g, adj. split; [exact R|]. split; [exact N|]. split; [exact HA|]. apply C69_specific_graph_partial; auto; lia.
Qed.

(** So are the adjacency matrix of any graph and any LEDA file, if they are read from a file. *)
Theorem C69_specific_graph_matrix :
  forall n M fuel flags obstruction, 1 <= n <= 32768 -> n <= Z.of_nat fuel -> flags = EMBEDFLAGS_PLANAR \/ flags = EMBEDFLAGS_OUTERPLANAR ->
    exists g adj, rep g adj /\ gN g = n /\ (forall u v, 1 <= u < v -> v <= n -> (M u v = true <-> adjacent g adj u v)) /\
      (tested_for flags g adj /\
         (exists out, SpecificGraph gp_Read fuel flags (mat_text n M) obstruction = Ret (C_OK, Some out) /\ shows_embedding fuel flags g adj out) \/
       ~ tested_for flags g adj /\
         (if obstruction then exists out, SpecificGraph gp_Read fuel flags (mat_text n M) true = Ret (C_NONEMBEDDABLE, Some out) /\ shows_obstruction fuel flags g adj out
          else SpecificGraph gp_Read fuel flags (mat_text n M) false = Ret (C_NONEMBEDDABLE, None))).
Proof.
  intros n M fuel flags ob Hn Hf F. destruct (read_matrix fuel n M Hn) as (g & adj & E & R & S & P & _ & N & D & HA).
  exists g, adj. split; [exact R|]. split; [exact N|]. split; [exact HA|]. apply C69_specific_graph_partial; auto; lia.
Qed.
Theorem C69_specific_graph_leda :
  forall n pairs text fuel flags obstruction, 1 <= n <= 32768 -> n <= Z.of_nat fuel -> flags = EMBEDFLAGS_PLANAR \/ flags = EMBEDFLAGS_OUTERPLANAR ->
    Z.of_nat (length pairs) <= INT_MAX -> Forall (fun p => 1 <= fst p <= n /\ 1 <= snd p <= n) pairs -> leda_file n pairs text ->
    exists g adj, rep g adj /\ gN g = n /\ (forall x y, adjacent g adj x y <-> x <> y /\ (In (x, y) pairs \/ In (y, x) pairs)) /\
      (tested_for flags g adj /\
         (exists out, SpecificGraph gp_Read fuel flags text obstruction = Ret (C_OK, Some out) /\ shows_embedding fuel flags g adj out) \/
       ~ tested_for flags g adj /\
         (if obstruction then exists out, SpecificGraph gp_Read fuel flags text true = Ret (C_NONEMBEDDABLE, Some out) /\ shows_obstruction fuel flags g adj out
          else SpecificGraph gp_Read fuel flags text false = Ret (C_NONEMBEDDABLE, None))).
Proof.
  intros n pairs text fuel flags ob Hn Hf F Hm HR HF. destruct (read_leda fuel n pairs text Hn Hm HR HF) as (g & adj & E & R & S & P & _ & N & D & HA).
  exists g, adj. split; [exact R|]. split; [exact N|]. split; [exact HA|]. apply C69_specific_graph_partial; auto; lia.
Qed.

(** An empty file is not refused: the reader looks at a line buffer in which nothing was stored (graphIO.c:384-395). *)
Theorem C69_empty_file_refuted : forall fuel flags obstruction, SpecificGraph gp_Read fuel flags [] obstruction = UB.
Proof. reflexivity. Qed.

(** A text that cannot be read: an error is returned and nothing is written, unless the reader says NONEMBEDDABLE. *)
Theorem C69_unreadable :
  forall rd fuel flags text obstruction g r, rd fuel gp_New text = Ret (g, r) -> r <> C_OK -> r <> C_NONEMBEDDABLE ->
    SpecificGraph rd fuel flags text obstruction = Ret (C_NOTOK, None).
Proof.
  intros rd fuel flags text ob g r E H1 H2. unfold SpecificGraph. rewrite E. cbn [bind]. apply Z.eqb_neq in H1, H2. rewrite H1. cbn [negb bind]. now rewrite H1, H2.
Qed.

(** ** C69, refuted *)
Lemma two_vertices (V : Z -> Prop) E : (forall x, V x -> x = 1 \/ x = 2) -> ~ kuratowski V E.
Proof.
  intros H2 K. assert (X : exists S : Z -> list Z, (forall i, 1 <= i <= 3 -> S i <> [] /\ forall x, In x (S i) -> V x) /\ (forall i j x, 1 <= i < j -> j <= 3 -> In x (S i) -> ~ In x (S j))).
  { destruct K as [(S & A & B & _)|(S & A & B & _)]; exists S; (split; [intros i Hi; destruct (A i ltac:(lia)) as [[Q _] A2]; auto|intros i j x H3 H4; apply B; lia]). }
  destruct X as (S & A & B).
  assert (Y : forall i, 1 <= i <= 3 -> exists x, In x (S i) /\ (x = 1 \/ x = 2)).
  { intros i Hi. destruct (A i Hi) as [Q Vi]. destruct (S i) as [|x l]; [congruence|]. exists x. split; [now left|]. apply H2, Vi. now left. }
  destruct (Y 1 ltac:(lia)) as (a & Ha & Ea), (Y 2 ltac:(lia)) as (b & Hb & Eb), (Y 3 ltac:(lia)) as (c & Hc & Ec).
  pose proof (B 1 2 a ltac:(lia) ltac:(lia) Ha) as Nb. pose proof (B 1 3 a ltac:(lia) ltac:(lia) Ha) as Nc. pose proof (B 2 3 b ltac:(lia) ltac:(lia) Hb) as Nd.
  assert (a <> b) by congruence. assert (a <> c) by congruence. assert (b <> c) by congruence. lia.
Qed.
(** Two vertices joined seven times.  The reader gives up when it cannot add the seventh edge and returns
    NONEMBEDDABLE, because that is what gp_AddEdge returns when the arcs run out.  The program prints that it
    failed to read the graph, and then takes the value for a verdict: it writes what has been read so far as
    an "obstruction" and returns NONEMBEDDABLE.  There is no obstruction in a graph on two vertices. *)
Definition seven : string := "N=2|1: 2 2 2 2 2 2 2 0|2: 0|".
Theorem C69_specific_graph_refuted :
  exists text out, SpecificGraph gp_Read 10 EMBEDFLAGS_PLANAR text true = Ret (C_NONEMBEDDABLE, Some out) /\
    exists g, gp_Read 10 gp_New text = Ret (g, C_NONEMBEDDABLE) /\ gN g = 2 /\ forall adj, ~ kuratowski (primary g) (adjacent g adj).
Proof.
  exists (txt seven), (txt "N=2|1: 2 2 2 2 2 2 0|2: 1 1 1 1 1 1 0|"). split; [vm_compute; reflexivity|].
  assert (Q : forall t r, match gp_Read 10 gp_New t with Ret (g, r') => (gN g =? 2) && (r' =? r) | _ => false end = true ->
    exists g, gp_Read 10 gp_New t = Ret (g, r) /\ gN g = 2 /\ forall adj, ~ kuratowski (primary g) (adjacent g adj)).
  { intros t r H. destruct (gp_Read 10 gp_New t) as [[g r']| |]; try discriminate. apply andb_prop in H. destruct H as [H1 H2]. apply Z.eqb_eq in H1, H2. subst r'.
    exists g. split; [reflexivity|]. split; [exact H1|]. intros adj. apply two_vertices. unfold primary. intros x Hx. lia. }
  apply Q; vm_compute; reflexivity.
Qed.

(** K4 and K5 (with a further vertex) from text to text; texts that cannot be read. *)
Example specific_case :
  SpecificGraph gp_Read 10 EMBEDFLAGS_PLANAR (txt k4_text) true = Ret (C_OK, Some (txt "N=4|1: 2 4 3 0|2: 3 4 1 0|3: 1 4 2 0|4: 1 2 3 0|")) /\
  SpecificGraph gp_Read 10 EMBEDFLAGS_PLANAR (txt k5_text) true = Ret (C_NONEMBEDDABLE, Some (txt "N=6|0: 1 4 2 3 -1|1: 0 2 4 3 -1|2: 3 4 1 0 -1|3: 4 2 1 0 -1|4: 1 2 3 0 -1|5: -1|")) /\
  SpecificGraph gp_Read 10 EMBEDFLAGS_PLANAR (txt k5_text) false = Ret (C_NONEMBEDDABLE, None) /\
  match SpecificGraph gp_ReadFromString 10 EMBEDFLAGS_OUTERPLANAR (txt k4_text) true with Ret (r, Some _) => r | _ => 77 end = C_NONEMBEDDABLE /\
  match gp_Read 10 gp_New (txt "N=0|") with Ret (_, r) => r | _ => 77 end = C_NOTOK /\
  SpecificGraph gp_Read 10 EMBEDFLAGS_PLANAR (txt "N=0|") true = Ret (C_NOTOK, None).
Proof. vm_compute. repeat split; reflexivity. Qed.
(** The hypotheses of C69_specific_graph_lists hold for the lists of K4: read_case_hyps. *)

(** All the theorems of this file at once: their assumptions are printed together because each print walks the whole proof of gp_Embed. *)
Definition Thm_Spec_all := (@C69_specific_graph_partial, @C69_specific_graph_lists, @C69_specific_graph_g6, @C69_specific_graph_matrix, @C69_specific_graph_leda, @C69_empty_file_refuted, @C69_unreadable, @C69_specific_graph_refuted).
Print Assumptions Thm_Spec_all.
