(** * Thm_Text: the answers of gp_Embed as a text: gp_Embed, gp_SortVertices, _WriteAdjList, and the
    text read again. *)
From Coq Require Import ZifyBool Permutation String Ascii.
From Verif Require Import Base BaseP GraphRec GraphM GraphSpec GraphP GraphP4 GraphEx DFSM DFSSpec DFSP7 TestM TestSpec TestP EmbM EmbedSpec EmbedP ObsSpec PlanSpec OutSpec RandSpec IOM IOSpec IOP7 EndSpec SortEP RotP DirP
  Thm_Embed Thm_Planar Thm_Outer Thm_Iso Thm_IsoK Thm_End.

Lemma same_primary g adj k B : primary_edges g adj -> gN k = gN g -> (forall v e, In e (B v) -> In e (adj v)) -> primary_edges k B.
Proof. intros P N H v e He. unfold primary. rewrite N. exact (P v e (H v e He)). Qed.
Lemma same_simple g adj k B : EmbedSpec.simple_graph g adj -> (forall v e, In e (B v) -> In e (adj v)) -> (forall v e, In e (B v) -> enbr k e = enbr g e) -> simple k B.
Proof.
  intros [S1 S2] H En. split.
  - intros v e He. rewrite (En v e He). auto.
  - intros v e f He Hf E. rewrite (En v e He), (En v f Hf) in E. apply (S2 v); auto.
Qed.
Lemma in_lists g adj k B v w : (forall v e, In e (B v) -> In e (adj v)) -> (forall v e, In e (B v) -> enbr k e = enbr g e) -> In w (nbr_lists k B v) -> In w (nbr_lists g adj v).
Proof. intros H En. unfold nbr_lists. rewrite !in_map_iff. intros (e & <- & He). exists e. split; [symmetry; now apply (En v)|auto]. Qed.
Lemma same_base g k : giflags k = Z.lor (giflags g) FLAGS_DFSNUMBERED -> zero_based k = zero_based g.
Proof. intros E. unfold zero_based. rewrite E, Z.land_lor_distr_l. change (Z.land FLAGS_DFSNUMBERED 8) with 0. now rewrite Z.lor_0_r. Qed.

Open Scope list_scope.
(** ** C64 *)
Lemma text_of_embedding g adj k B fuel : primary_edges g adj -> EmbedSpec.simple_graph g adj -> no_directions k -> gN g <= 32768 -> gN g <= Z.of_nat fuel ->
  same_graph g adj k B -> euler k B ->
  exists text, _WriteAdjList k = Ret (text, C_OK) /\
  forall rd, rd = gp_Read \/ rd = gp_ReadFromString ->
  exists m C, rd fuel gp_New text = Ret (m, C_OK) /\ rep m C /\ gN m = gN g /\ zero_based m = zero_based g /\ gM m = gM g /\
    (forall v, Permutation (nbr_lists m C v) (nbr_lists g adj v)) /\ euler m C /\ (outer_rotations k B -> outer_rotations m C).
Proof.
  intros P S D Hn Hf [Rk Nk Mk Fk Lk Ek] Eu.
  assert (Lk' : forall v e, In e (B v) -> In e (adj v)) by (intros v e He; eapply Permutation_in; [apply Lk|exact He]).
  pose proof (same_primary g adj k B P Nk Lk') as Pk. pose proof (same_simple g adj k B S Lk' Ek) as Sk.
  assert (Uk : undirected k B) by (intros v e He; apply D; apply (ch_range _ _ (rep_chains _ _ Rk) v e He)).
  destruct (list_trip k B fuel Rk Sk Pk Uk ltac:(lia) ltac:(lia)) as (text & W & T). exists text. split; [exact W|].
  intros rd Hrd. destruct (T rd Hrd) as (m & C & E1 & Rm & Sm & Pm & _ & Nm & Zm & Lm). exists m, C. split; [exact E1|]. split; [exact Rm|]. split; [congruence|]. split; [rewrite Zm; now apply (same_base g k)|].
  split; [rewrite (rot_M k m B C Rk Rm); auto|]. split; [|split].
  - intros v. rewrite Lm. unfold nbr_lists. rewrite (map_ext_in _ (enbr g) (B v)) by (intros e He; now apply (Ek v)). apply Permutation_map, Lk.
  - apply (rot_euler k m B C Rk Rm (proj2 Sm) Nm Lm Eu).
  - intros Ou. apply (rot_outer k m B C Rk Rm (proj2 Sm) Nm Lm Pk Ou).
Qed.
(** With OK the text written is, when read again, the graph given with its neighbours in the order of a planar
    embedding, an outerplanar one if that was asked for. *)
Theorem C64_embedding_as_text :
  forall g adj flags h fuel, rep g adj -> primary_edges g adj -> EmbedSpec.simple_graph g adj -> unsearched g adj -> embed_ready g adj ->
    no_directions g -> gN g <= 32768 -> gN g <= Z.of_nat fuel ->
    gp_Embed g flags = Ret (h, C_OK) ->
    exists k text, gp_SortVertices h = Ret (k, C_OK) /\ _WriteAdjList k = Ret (text, C_OK) /\
    forall rd, rd = gp_Read \/ rd = gp_ReadFromString ->
    exists m C, rd fuel gp_New text = Ret (m, C_OK) /\ rep m C /\ gN m = gN g /\ zero_based m = zero_based g /\ gM m = gM g /\
      (forall v, Permutation (nbr_lists m C v) (nbr_lists g adj v)) /\ euler m C /\
      (Z.land flags EMBEDFLAGS_OUTERPLANAR <> 0 -> outer_rotations m C).
Proof.
  intros g adj flags h fuel R P S U E D Hn Hf H. destruct (C63_embed_then_sort g adj flags h R P S U E H) as (k & B & K1 & K2 & Eu & Ou).
  destruct (text_of_embedding g adj k B fuel P S (embed_sort_dir g flags h C_OK k C_OK D H K1) Hn Hf K2 Eu) as (text & W & T). exists k, text. split; [exact K1|]. split; [exact W|].
  intros rd Hrd. destruct (T rd Hrd) as (m & C & E1 & E2 & E3 & E4 & E5 & E6 & E7 & E8). exists m, C. do 7 (split; [assumption|]). auto.
Qed.

(** With NONEMBEDDABLE it is, when read again, a subgraph of the graph given, a subdivision of K3,3 or K5; of
    K2,3 or K4 for outerplanarity. *)
Lemma text_of_subgraph g adj k B fuel : primary_edges g adj -> EmbedSpec.simple_graph g adj -> no_directions k -> gN g <= 32768 -> gN g <= Z.of_nat fuel ->
  same_subgraph g adj k B ->
  exists text, _WriteAdjList k = Ret (text, C_OK) /\
  forall rd, rd = gp_Read \/ rd = gp_ReadFromString ->
  exists m C, rd fuel gp_New text = Ret (m, C_OK) /\ rep m C /\ gN m = gN g /\ zero_based m = zero_based g /\
    (forall v w, In w (nbr_lists m C v) -> In w (nbr_lists g adj v)) /\
    (forall n, complete_subdivision k B n -> complete_subdivision m C n) /\
    (forall n n', bipartite_subdivision k B n n' -> bipartite_subdivision m C n n').
Proof.
  intros P S D Hn Hf [Rk Nk Fk Lk Ek].
  pose proof (same_primary g adj k B P Nk Lk) as Pk. pose proof (same_simple g adj k B S Lk Ek) as Sk.
  assert (Uk : undirected k B) by (intros v e He; apply D; apply (ch_range _ _ (rep_chains _ _ Rk) v e He)).
  destruct (list_trip k B fuel Rk Sk Pk Uk ltac:(lia) ltac:(lia)) as (text & W & T). exists text. split; [exact W|].
  intros rd Hrd. destruct (T rd Hrd) as (m & C & E1 & Rm & Sm & Pm & _ & Nm & Zm & Lm). exists m, C. split; [exact E1|]. split; [exact Rm|]. split; [congruence|]. split; [rewrite Zm; now apply (same_base g k)|].
  split; [|split].
  - intros v w Hw. rewrite Lm in Hw. now apply (in_lists g adj k B).
  - intros n. now apply (rot_complete k m B C Rk Rm (proj2 Sm) Lm).
  - intros n n'. now apply (rot_bipartite k m B C Rk Rm (proj2 Sm) Lm).
Qed.
Theorem C64_kuratowski_as_text :
  forall g adj h fuel, rep g adj -> primary_edges g adj -> EmbedSpec.simple_graph g adj -> unsearched g adj -> embed_ready g adj ->
    no_directions g -> gN g <= 32768 -> gN g <= Z.of_nat fuel ->
    gp_Embed g EMBEDFLAGS_PLANAR = Ret (h, C_NONEMBEDDABLE) ->
    exists k text, gp_SortVertices h = Ret (k, C_OK) /\ _WriteAdjList k = Ret (text, C_OK) /\
    forall rd, rd = gp_Read \/ rd = gp_ReadFromString ->
    exists m C, rd fuel gp_New text = Ret (m, C_OK) /\ rep m C /\ gN m = gN g /\ zero_based m = zero_based g /\
      (forall v w, In w (nbr_lists m C v) -> In w (nbr_lists g adj v)) /\
      (bipartite_subdivision m C 3 3 \/ complete_subdivision m C 5).
Proof.
  intros g adj h fuel R P S U E D Hn Hf H. destruct (C63_isolate_then_sort_planar g adj h R P S U E H) as (k & B & K1 & K2 & K3).
  destruct (text_of_subgraph g adj k B fuel P S (embed_sort_dir g _ h _ k _ D H K1) Hn Hf K2) as (text & W & T). exists k, text. split; [exact K1|]. split; [exact W|].
  intros rd Hrd. destruct (T rd Hrd) as (m & C & E1 & Rm & Nm & Zm & Lm & T1 & T2). exists m, C. do 5 (split; [assumption|]). destruct K3; auto.
Qed.
Theorem C64_outerplanar_obstruction_as_text :
  forall g adj h fuel, rep g adj -> primary_edges g adj -> EmbedSpec.simple_graph g adj -> unsearched g adj -> embed_ready g adj ->
    no_directions g -> gN g <= 32768 -> gN g <= Z.of_nat fuel ->
    gp_Embed g EMBEDFLAGS_OUTERPLANAR = Ret (h, C_NONEMBEDDABLE) ->
    exists k text, gp_SortVertices h = Ret (k, C_OK) /\ _WriteAdjList k = Ret (text, C_OK) /\
    forall rd, rd = gp_Read \/ rd = gp_ReadFromString ->
    exists m C, rd fuel gp_New text = Ret (m, C_OK) /\ rep m C /\ gN m = gN g /\ zero_based m = zero_based g /\
      (forall v w, In w (nbr_lists m C v) -> In w (nbr_lists g adj v)) /\
      (bipartite_subdivision m C 2 3 \/ complete_subdivision m C 4).
Proof.
  intros g adj h fuel R P S U E D Hn Hf H. destruct (C63_isolate_then_sort_outerplanar g adj h R P S U E H) as (k & B & K1 & K2 & K3).
  destruct (text_of_subgraph g adj k B fuel P S (embed_sort_dir g _ h _ k _ D H K1) Hn Hf K2) as (text & W & T). exists k, text. split; [exact K1|]. split; [exact W|].
  intros rd Hrd. destruct (T rd Hrd) as (m & C & E1 & Rm & Nm & Zm & Lm & T1 & T2). exists m, C. do 5 (split; [assumption|]). destruct K3; auto.
Qed.

(** For the graphs which the editing functions can make of a new one: the text shows whether the graph is
    planar and why. *)
Lemma undirected_reach_ok g : undirected_reach g -> clean_reach g /\ no_directions g.
Proof.
  induction 1 as [req N g HN F|g o g' r _ [IH1 IH2] V C M E].
  - split; [now apply (cr_init req N)|now apply (fresh_dir req N)].
  - split; [now apply (cr_step g o g' r)|now apply (gstep_dir g o g' r)].
Qed.
Theorem C64_built_graphs :
  forall g fuel, undirected_reach g -> gN g <= 32768 -> gN g <= Z.of_nat fuel -> exists adj, rep g adj /\
    (EmbedSpec.simple_graph g adj -> exists h r k text, gp_Embed g EMBEDFLAGS_PLANAR = Ret (h, r) /\ gp_SortVertices h = Ret (k, C_OK) /\ _WriteAdjList k = Ret (text, C_OK) /\
      forall rd, rd = gp_Read \/ rd = gp_ReadFromString -> exists m C, rd fuel gp_New text = Ret (m, C_OK) /\ rep m C /\ gN m = gN g /\ zero_based m = zero_based g /\
       (r = C_OK /\ planar_graph g adj /\ (forall v, Permutation (nbr_lists m C v) (nbr_lists g adj v)) /\ euler m C \/
        r = C_NONEMBEDDABLE /\ ~ planar_graph g adj /\ (forall v w, In w (nbr_lists m C v) -> In w (nbr_lists g adj v)) /\
          (bipartite_subdivision m C 3 3 \/ complete_subdivision m C 5))).
Proof.
  intros g fuel Ug Hn Hf. destruct (undirected_reach_ok g Ug) as [Cg D]. destruct (clean_reach_ready g Cg) as (adj & R & P & U & E & _). exists adj. split; [exact R|]. intros S.
  destruct (C58_embed_decides_planarity g adj EMBEDFLAGS_PLANAR R P S U E eq_refl) as (h & r & H & [[-> Pl]|[-> Np]]); exists h; eexists.
  - destruct (C64_embedding_as_text g adj _ h fuel R P S U E D Hn Hf H) as (k & text & K1 & K2 & T). exists k, text. split; [exact H|]. split; [exact K1|]. split; [exact K2|].
    intros rd Hrd. destruct (T rd Hrd) as (m & C & E1 & Rm & Nm & Zm & _ & Lm & Eu & _). exists m, C. do 4 (split; [assumption|]). left. auto.
  - destruct (C64_kuratowski_as_text g adj h fuel R P S U E D Hn Hf H) as (k & text & K1 & K2 & T). exists k, text. split; [exact H|]. split; [exact K1|]. split; [exact K2|].
    intros rd Hrd. destruct (T rd Hrd) as (m & C & E1 & Rm & Nm & Zm & Lm & Ob). exists m, C. do 4 (split; [assumption|]). right. auto.
Qed.

(** The texts for the planar graph K5 without an edge, for a fan (outerplanarity) and for the complete graph on six vertices. *)
Definition text_of (g : graph) (flags : Z) : string :=
  let h := fst (the (g, 0) (gp_Embed g flags)) in let k := fst (the (h, 0) (gp_SortVertices h)) in
  string_of_list_ascii (map (fun c => ascii_of_N (Z.to_N c)) (fst (the ([], 0) (_WriteAdjList k)))).
Definition nl : string := String (ascii_of_N 10) EmptyString.
Example text_case :
  text_of k5_less EMBEDFLAGS_PLANAR = ("N=5" ++ nl ++ "1: 2 4 3 5 0" ++ nl ++ "2: 5 3 4 1 0" ++ nl ++ "3: 1 4 2 5 0" ++ nl ++ "4: 1 2 3 0" ++ nl ++ "5: 1 3 2 0" ++ nl)%string /\
  text_of k6 EMBEDFLAGS_OUTERPLANAR = ("N=6" ++ nl ++ "1: 0" ++ nl ++ "2: 0" ++ nl ++ "3: 4 6 5 0" ++ nl ++ "4: 5 6 3 0" ++ nl ++ "5: 6 4 3 0" ++ nl ++ "6: 3 4 5 0" ++ nl)%string.
Proof. vm_compute. split; reflexivity. Qed.
(** Adding edges marks none of them. *)
Fixpoint unmarked (l : list gop) : bool := match l with [] => true | GMark _ _ :: _ => false | _ :: l' => unmarked l' end.
Lemma undirected_run l : forall g g', undirected_reach g -> run_ops g l = Ret g' -> clean_run g l = true -> unmarked l = true -> undirected_reach g'.
Proof.
  induction l as [|o l IH]; cbn [run_ops clean_run unmarked]; intros g g' Hg E F M; [now injection E as <-|].
  apply andb_prop in F. destruct F as [F1 F2]. destruct (gop_validb g o) eqn:V; [|discriminate]. apply gop_validb_ok in V.
  destruct (gstep g o) as [[g1 r]| |] eqn:E1; cbn [bind] in E; try discriminate.
  apply (IH g1); auto; [|destruct o; (discriminate || exact M)]. eapply ur_step; [exact Hg|exact V| |destruct o; (discriminate || exact I)|exact E1]. apply andb_prop in F1. destruct F1 as [F3 F4].
  split; [|destruct o; auto; lia]. destruct o; cbn [plain_op plain_opb] in *; lia || auto.
Qed.
Lemma built_undirected req N l : is_ret (build req N l) = true -> clean_run (the gp_New (fresh_graph req N)) l = true -> unmarked l = true -> undirected_reach (built req N l).
Proof.
  unfold built, build. destruct (1 <=? N) eqn:HN; [|discriminate].
  destruct (fresh_graph req N) as [g0| |] eqn:E0; cbn [bind]; try discriminate. cbn [the].
  destruct (run_ops g0 l) as [g| |] eqn:E; try discriminate. intros _ F M. apply (undirected_run l g0); auto. eapply ur_init; [|exact E0]. lia.
Qed.
Example text_case_hyps :
  Forall (fun p => let g := fst (fst p) in exists adj h, rep g adj /\ primary_edges g adj /\ EmbedSpec.simple_graph g adj /\ unsearched g adj /\ embed_ready g adj /\
      undirected_reach g /\ no_directions g /\ gN g <= 32768 /\ gN g <= Z.of_nat 10 /\ gp_Embed g (snd (fst p)) = Ret (h, snd p))
    [(k5_less, EMBEDFLAGS_PLANAR, C_OK); (fan, EMBEDFLAGS_OUTERPLANAR, C_OK); (k6, EMBEDFLAGS_PLANAR, C_NONEMBEDDABLE); (k6, EMBEDFLAGS_OUTERPLANAR, C_NONEMBEDDABLE)].
Proof.
  assert (B : forall g fl r, undirected_reach g -> gN g <= 10 -> simpleb g = true -> embed_verdict g fl = r -> r <> 77 -> r <> 78 -> exists adj h, rep g adj /\ primary_edges g adj /\ EmbedSpec.simple_graph g adj /\
    unsearched g adj /\ embed_ready g adj /\ undirected_reach g /\ no_directions g /\ gN g <= 32768 /\ gN g <= Z.of_nat 10 /\ gp_Embed g fl = Ret (h, r)).
  { intros g fl r Ug Hn Q V N1 N2. destruct (undirected_reach_ok g Ug) as [C D]. destruct (clean_reach_ready g C) as (adj & R & P & U & E & _). assert (S : EmbedSpec.simple_graph g adj) by auto using simpleb_ok.
    unfold embed_verdict in V. destruct (gp_Embed g fl) as [[h r']| |] eqn:H; [|congruence|congruence]. subst r'. exists adj, h. do 7 (split; [assumption|]). split; [lia|]. split; [lia|reflexivity]. }
  repeat constructor; cbn [fst snd]; (apply B; [apply built_undirected| | | | |]; vm_compute; try reflexivity; discriminate).
Qed.

(** All the theorems of this file at once: their assumptions are printed together because each print walks the whole proof of gp_Embed. *)
Definition Thm_Text_all := (@C64_embedding_as_text, @C64_kuratowski_as_text, @C64_outerplanar_obstruction_as_text, @C64_built_graphs).
Print Assumptions Thm_Text_all.
