(** * Thm_Read: from a text to the verdict: a graph that was read is fit for gp_Embed, whatever the
    format. *)
From Coq Require Import ZifyBool Permutation String Ascii.
From Verif Require Import Base BaseP GraphRec GraphM GraphSpec GraphP GraphEx DFSM DFSSpec TestM TestSpec EmbM EmbedSpec ObsSpec PlanSpec OutSpec RandSpec StrBufM G6M G6Spec DrawM IOM IOSpec IOP IOP5 IOP6 IOP7 EndSpec ReadyP
  Thm_G6 Thm_IO Thm_Embed Thm_Planar Thm_Outer Thm_Iso Thm_IsoK Thm_End Thm_Text.
Open Scope list_scope.

Lemma land_sub x m m' : Z.land x m = 0 -> Z.land m m' = m' -> Z.land x m' = 0.
Proof. intros H E. rewrite <- E, Z.land_assoc, H. reflexivity. Qed.
Lemma ready_fit g adj : ready g -> rep g adj -> unsearched g adj /\ embed_ready g adj.
Proof.
  intros H R. pose proof (st_N _ _ (rep_storage _ _ R)) as N1. destruct H. split; constructor; auto; intros v e _.
  - exact (land_sub _ _ EDGE_TYPE_MASK (rd_flags e) eq_refl).
  - exact (land_sub _ _ EDGEFLAG_INVERTED_MASK (rd_flags e) eq_refl).
Qed.
Lemma read_ready rd fuel text g r : rd = gp_Read \/ rd = gp_ReadFromString -> rd fuel gp_New text = Ret (g, r) -> ready g.
Proof.
  intros Hrd E. assert (D : isD (rd fuel gp_New text)) by (destruct Hrd as [->| ->]; [apply gp_Read_D|apply gp_ReadFromString_D]; exact I || exact new_D).
  rewrite E in D. exact (proj1 D).
Qed.

(** ** C65 *)
(** Whatever text is read into a new graph, in whatever format: if the graph that results is a well-formed
    simple one, gp_Embed decides whether it is planar (outerplanar). *)
Theorem C65_read_then_embed :
  forall rd fuel text g adj r flags, rd = gp_Read \/ rd = gp_ReadFromString -> rd fuel gp_New text = Ret (g, r) ->
    rep g adj -> simple g adj -> primary_edges g adj ->
    exists h r', gp_Embed g flags = Ret (h, r') /\
      (Z.land flags EMBEDFLAGS_OUTERPLANAR = 0 -> r' = C_OK /\ planar_graph g adj \/ r' = C_NONEMBEDDABLE /\ ~ planar_graph g adj) /\
      (Z.land flags EMBEDFLAGS_OUTERPLANAR <> 0 -> r' = C_OK /\ outerplanar_graph g adj \/ r' = C_NONEMBEDDABLE /\ ~ outerplanar_graph g adj).
Proof.
  intros rd fuel text g adj r flags Hrd E R S P. destruct (ready_fit g adj (read_ready rd fuel text g r Hrd E) R) as [U Er].
  destruct (Z.eq_dec (Z.land flags EMBEDFLAGS_OUTERPLANAR) 0) as [F|F].
  - destruct (C58_embed_decides_planarity g adj flags R P S U Er F) as (h & r' & H & K). exists h, r'. split; [exact H|]. split; [auto|intros Q; elim (Q F)].
  - destruct (C60_embed_decides_outerplanarity g adj flags R P S U Er F) as (h & r' & H & K). exists h, r'. split; [exact H|]. split; [intros Q; elim (F Q)|auto].
Qed.

(** A LEDA file. *)
Theorem C65_leda_file :
  forall n pairs text fuel, 1 <= n <= 32768 -> Z.of_nat (length pairs) <= INT_MAX ->
    Forall (fun p => 1 <= fst p <= n /\ 1 <= snd p <= n) pairs -> leda_file n pairs text ->
    exists g adj h r, gp_Read fuel gp_New text = Ret (g, C_OK) /\ rep g adj /\ gN g = n /\
      (forall x y, adjacent g adj x y <-> x <> y /\ (In (x, y) pairs \/ In (y, x) pairs)) /\
      gp_Embed g EMBEDFLAGS_PLANAR = Ret (h, r) /\ (r = C_OK /\ planar_graph g adj \/ r = C_NONEMBEDDABLE /\ ~ planar_graph g adj).
Proof.
  intros n pairs text fuel Hn Hm HR HF. destruct (C47_leda n pairs text fuel Hn Hm HR HF) as (g & adj & E & R & S & P & N & A & _).
  destruct (C65_read_then_embed gp_Read fuel text g adj C_OK EMBEDFLAGS_PLANAR (or_introl eq_refl) E R S P) as (h & r & H & K & _).
  exists g, adj, h, r. do 5 (split; [assumption|]). exact (K eq_refl).
Qed.

(** A text of adjacency lists: embed it, sort it, write it.  The text that results shows whether the graph is planar and why. *)
Theorem C65_text_in_text_out :
  forall n off L fuel,
    (forall v w, In w (L v) -> 1 <= v <= n /\ 1 <= w <= n) -> (forall v, NoDup (L v)) ->
    (forall v w, In w (L v) -> In v (L w)) -> (forall v, ~ In v (L v)) ->
    1 <= n <= 32768 -> off = 0 \/ off = 1 -> n <= Z.of_nat fuel ->
    exists g adj h r k text, gp_Read fuel gp_New (adj_text n off L) = Ret (g, C_OK) /\ rep g adj /\ (forall v, nbr_lists g adj v = L v) /\
      gp_Embed g EMBEDFLAGS_PLANAR = Ret (h, r) /\ gp_SortVertices h = Ret (k, C_OK) /\ _WriteAdjList k = Ret (text, C_OK) /\
      forall rd, rd = gp_Read \/ rd = gp_ReadFromString ->
      exists m C, rd fuel gp_New text = Ret (m, C_OK) /\ rep m C /\ gN m = n /\ zero_based m = (off =? 1) /\
        (r = C_OK /\ planar_graph g adj /\ (forall v, Permutation (nbr_lists m C v) (L v)) /\ euler m C \/
         r = C_NONEMBEDDABLE /\ ~ planar_graph g adj /\ (forall v w, In w (nbr_lists m C v) -> In w (L v)) /\
           (bipartite_subdivision m C 3 3 \/ complete_subdivision m C 5)).
Proof.
  intros n off L fuel H1 H2 H3 H4 Hn Ho Hf. assert (HL : lists_ok n L) by (constructor; auto).
  destruct (read_adj_ok true n off L fuel HL ltac:(lia) Ho ltac:(lia)) as (g & adj & E & R & N & Fg & Fl & LL).
  rewrite <- N in HL. destruct (lists_simple g adj L R HL LL) as [S P]. rewrite N in HL.
  assert (E' : gp_Read fuel gp_New (adj_text n off L) = Ret (g, C_OK)).
  { rewrite (proj2 (proj2 (list_header fuel gp_New n off L))). cbn [mk] in E. rewrite E. reflexivity. }
  pose proof (read_ready gp_Read fuel _ g C_OK (or_introl eq_refl) E') as Rd. destruct (ready_fit g adj Rd R) as [U Er].
  assert (D : no_directions g).
  { intros e He. destruct (Z_lt_ge_dec e (gp_EdgeIndexBound g)) as [Q|Q]; [rewrite Fl by lia|rewrite (rd_out _ Rd) by lia]; reflexivity. }
  assert (Z0 : zero_based g = (off =? 1)) by (unfold zero_based; rewrite Fg; destruct (off =? 1); reflexivity).
  destruct (C58_embed_decides_planarity g adj EMBEDFLAGS_PLANAR R P S U Er eq_refl) as (h & r & H & [[-> Pl]|[-> Np]]); exists g, adj, h; eexists.
  - destruct (C64_embedding_as_text g adj _ h fuel R P S U Er D ltac:(lia) ltac:(lia) H) as (k & text & K1 & K2 & T). exists k, text. do 6 (split; [eassumption|]).
    intros rd Hrd. destruct (T rd Hrd) as (m & C & Em & Rm & Nm & Zm & _ & Lm & Eu & _). exists m, C. split; [exact Em|]. split; [exact Rm|]. split; [congruence|]. split; [congruence|].
    left. split; [reflexivity|]. split; [exact Pl|]. split; [|exact Eu]. intros v. rewrite Lm. change (nbr_lists g adj v) with (map (enbr g) (adj v)). now rewrite LL.
  - destruct (C64_kuratowski_as_text g adj h fuel R P S U Er D ltac:(lia) ltac:(lia) H) as (k & text & K1 & K2 & T). exists k, text. do 6 (split; [eassumption|]).
    intros rd Hrd. destruct (T rd Hrd) as (m & C & Em & Rm & Nm & Zm & Lm & Ob). exists m, C. split; [exact Em|]. split; [exact Rm|]. split; [congruence|]. split; [congruence|].
    right. split; [reflexivity|]. split; [exact Np|]. split; [|exact Ob]. intros v w Hw. apply Lm in Hw. change (nbr_lists g adj v) with (map (enbr g) (adj v)) in Hw. now rewrite LL in Hw.
Qed.

(** A graph6 text. *)
Theorem C65_graph6 :
  forall n A head rest, 2 <= n <= 32768 -> head = [] \/ head = g6_head -> line_of rest = [] -> (forall x, In x rest -> x <> 0) ->
    exists g adj h r, _ReadGraphFromG6FilePointer gp_New (head ++ g6_order n ++ g6_body n A ++ rest) = Ret (g, C_OK) /\ rep g adj /\ gN g = n /\
      (forall u v, 1 <= u < v -> v <= n -> (A u v = true <-> adjacent g adj u v)) /\
      gp_Embed g EMBEDFLAGS_PLANAR = Ret (h, r) /\ (r = C_OK /\ planar_graph g adj \/ r = C_NONEMBEDDABLE /\ ~ planar_graph g adj).
Proof.
  intros n A head rest Hn Hh HL HZ. destruct (C22_read_file gp_New n A head rest (or_introl (conj eq_refl Hn)) Hh HL HZ) as (g & E & N & adj & (R & S & P) & HA).
  assert (Rd : ready g). { pose proof (_ReadGraphFromG6FilePointer_D gp_New new_D (head ++ g6_order n ++ g6_body n A ++ rest) I) as D. rewrite E in D. exact (proj1 D). }
  destruct (ready_fit g adj Rd R) as [U Er]. destruct (C58_embed_decides_planarity g adj EMBEDFLAGS_PLANAR R P S U Er eq_refl) as (h & r & H & K).
  exists g, adj, h, r. auto 10.
Qed.

(** From text to text: K4, and K5, which is not planar, with a further vertex. *)
Definition through (text : list Z) : list Z :=
  let g := fst (the (gp_New, 0) (gp_Read 10 gp_New text)) in
  let h := fst (the (g, 0) (gp_Embed g EMBEDFLAGS_PLANAR)) in let k := fst (the (h, 0) (gp_SortVertices h)) in fst (the ([], 0) (_WriteAdjList k)).
Definition k4_text : string := "N=4|1: 2 3 4 0|2: 1 3 4 0|3: 1 2 4 0|4: 1 2 3 0|".
Definition k5_text : string := "N=6|0: 1 2 3 4 5 -1|1: 0 2 3 4 -1|2: 0 1 3 4 -1|3: 0 1 2 4 -1|4: 0 1 2 3 -1|5: 0 -1|".
Example read_case :
  through (txt k4_text) = txt "N=4|1: 2 4 3 0|2: 3 4 1 0|3: 1 4 2 0|4: 1 2 3 0|" /\
  through (txt k5_text) = txt "N=6|0: 1 4 2 3 -1|1: 0 2 4 3 -1|2: 3 4 1 0 -1|3: 4 2 1 0 -1|4: 1 2 3 0 -1|5: -1|".
Proof. vm_compute. split; reflexivity. Qed.
(** The lists of K4 and the hypotheses about them. *)
Definition k4_lists (v : Z) : list Z := if (1 <=? v) && (v <=? 4) then filter (fun w => negb (w =? v)) [4; 3; 2; 1] else [].
Example read_case_hyps :
  adj_text 4 0 k4_lists = txt k4_text /\
  (forall v w, In w (k4_lists v) -> 1 <= v <= 4 /\ 1 <= w <= 4) /\ (forall v, NoDup (k4_lists v)) /\
  (forall v w, In w (k4_lists v) -> In v (k4_lists w)) /\ (forall v, ~ In v (k4_lists v)).
Proof.
  assert (B : forall v w, In w (k4_lists v) <-> 1 <= v <= 4 /\ 1 <= w <= 4 /\ w <> v).
  { intros v w. unfold k4_lists. destruct ((1 <=? v) && (v <=? 4)) eqn:E; [rewrite filter_In; cbn [In]; lia|cbn [In]; lia]. }
  split; [vm_compute; reflexivity|]. split; [intros v w H; apply B in H; lia|]. split; [|split].
  - intros v. unfold k4_lists. destruct (_ && _); [|constructor]. apply NoDup_filter. repeat constructor; cbn [In]; lia.
  - intros v w H. apply B. apply B in H. lia.
  - intros v H. apply B in H. lia.
Qed.
(** K5 and K4 in graph6, and a LEDA file with a loop and an edge given twice. *)
Example read_formats :
  let verdict text := match gp_Read 10 gp_New text with Ret (g, r) => (gN g, gM g, r, embed_verdict g EMBEDFLAGS_PLANAR, embed_verdict g EMBEDFLAGS_OUTERPLANAR) | _ => (0, 0, 77, 77, 77) end in
  verdict (txt "D~{|") = (5, 10, C_OK, C_NONEMBEDDABLE, C_NONEMBEDDABLE) /\
  verdict (txt "C~|") = (4, 6, C_OK, C_OK, C_NONEMBEDDABLE) /\
  verdict (txt "LEDA.GRAPH|string|int|3|{}|{}|{}|4|1 2 0 {}|2 2 0 {}|2 1 0 {}|3 1 0 {}|") = (3, 2, C_OK, C_OK, C_OK).
Proof. vm_compute. repeat split; reflexivity. Qed.

(** All the theorems of this file at once: their assumptions are printed together because each print walks the whole proof of gp_Embed. *)
Definition Thm_Read_all := (@C65_read_then_embed, @C65_leda_file, @C65_graph6, @C65_text_in_text_out).
Print Assumptions Thm_Read_all.
