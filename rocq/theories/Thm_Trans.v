(** * Thm_Trans: converting graph texts from one format to another. *)
From Coq Require Import ZifyBool String Ascii.
From Verif Require Import Base BaseP StrBufM StrFileM GraphRec GraphM GraphSpec DFSSpec RandSpec RandP G6M G6Spec G6P G6P5 DrawM IOM IOSpec IOP IOP5 IOP6 IOP7 IOP8 EndSpec DirP Thm_G6 Thm_IO TransM.
Import ListNotations.
Open Scope Z_scope.
Open Scope list_scope.

(** ** C70 *)
(** The commands "-g", "-a", "-m". *)
Definition cmd_g6 : list Z := [45; 103].
Definition cmd_list : list Z := [45; 97].
Definition cmd_matrix : list Z := [45; 109].

Lemma read_g6_head fuel g s : TransM.transform_read true fuel g (g6_head ++ s) = _ReadGraphFromG6String g ((g6_head ++ s) ++ [0]) /\
  TransM.transform_read false fuel g (g6_head ++ s) = _ReadGraphFromG6FilePointer g (g6_head ++ s).
Proof.
  split; [reflexivity|]. unfold transform_read, gp_Read. set (r := [62; 103; 114; 97; 112; 104; 54; 60; 60] ++ s). change (g6_head ++ s) with (62 :: r).
  assert (K : exists t q, get_line None (62 :: r) = (Some (62 :: t), q)).
  { unfold get_line. change (fgets_take 254 (62 :: r)) with (let '(t, q) := fgets_take 253 r in (62 :: t, q)). destruct (fgets_take 253 r) as [t q]. eauto. }
  destruct K as (t & q & ->). reflexivity.
Qed.
Lemma trans_step fuel junk c (Hc : c = 103 \/ c = 97 \/ c = 109) fs ts input g : transform_read fs fuel gp_New input = Ret (g, C_OK) ->
  TransformGraph fuel junk [45; c] fs ts input =
    ('(out, r) <- (if ts then gp_WriteToString junk g (if c =? 103 then WRITE_G6 else if c =? 97 then WRITE_ADJLIST else WRITE_ADJMATRIX)
                   else gp_Write junk g (if c =? 103 then WRITE_G6 else if c =? 97 then WRITE_ADJLIST else WRITE_ADJMATRIX)) ;;
     Ret (r, Some (if zero_based g then 1 else 0, out))).
Proof. intros E. unfold TransformGraph. destruct Hc as [->|[->| ->]]; cbn [hd nth Z.eqb Pos.eqb orb negb]; rewrite E; reflexivity. Qed.

(** A text from which a simple undirected graph is read, converted to adjacency lists: the same graph, its
    neighbours in the same order, and numbered from the same base. *)
Theorem C70_to_lists_partial :
  forall fuel junk fs ts input g adj, transform_read fs fuel gp_New input = Ret (g, C_OK) ->
    rep g adj -> simple g adj -> primary_edges g adj -> undirected g adj -> gN g <= 32768 -> gN g <= Z.of_nat fuel ->
    exists out, TransformGraph fuel junk cmd_list fs ts input = Ret (C_OK, Some (if zero_based g then 1 else 0, out)) /\
      forall fs', exists h adj', transform_read fs' fuel gp_New out = Ret (h, C_OK) /\ rep h adj' /\ simple h adj' /\ primary_edges h adj' /\
        undirected h adj' /\ gN h = gN g /\ zero_based h = zero_based g /\ forall v, nbr_lists h adj' v = nbr_lists g adj v.
Proof.
  intros fuel junk fs ts input g adj E R S P U Hn Hf. destruct (C25_round_trip g adj fuel R S P U Hn Hf) as (out & W & T).
  exists out. split.
  - unfold cmd_list. rewrite (trans_step fuel junk 97 ltac:(auto) fs ts input g E). cbn [Z.eqb Pos.eqb]. unfold gp_WriteToString, gp_Write. cbn [Z.eqb Pos.eqb WRITE_ADJLIST WRITE_G6]. rewrite W. destruct ts; reflexivity.
  - intros fs'. destruct (T (if fs' then gp_ReadFromString else gp_Read)) as (h & adj' & Q & K); [destruct fs'; auto|]. exists h, adj'. split; [|exact K].
    assert (Ne : out <> []) by (rewrite (C25_text g adj R P U) in W; injection W as <-; discriminate).
    unfold transform_read. destruct fs'; [|exact Q]. destruct out; [congruence|exact Q].
Qed.

(** Converted to an adjacency matrix, and read from a file: the same adjacencies. *)
Theorem C70_to_matrix_partial :
  forall fuel junk fs ts input g adj, transform_read fs fuel gp_New input = Ret (g, C_OK) ->
    rep g adj -> simple g adj -> primary_edges g adj -> undirected g adj -> gN g <= 32768 -> Z.of_nat (length junk) = gN g + 2 ->
    exists out h adj', TransformGraph fuel junk cmd_matrix fs ts input = Ret (C_OK, Some (if zero_based g then 1 else 0, out)) /\
      transform_read false fuel gp_New out = Ret (h, C_OK) /\ rep h adj' /\ simple h adj' /\ primary_edges h adj' /\ gN h = gN g /\
      forall u v, adjacent h adj' u v <-> adjacent g adj u v.
Proof.
  intros fuel junk fs ts input g adj E R S P U Hn HJ. destruct (C26_round_trip g adj fuel junk R S P U Hn HJ) as (out & h & adj' & W & Q & K).
  exists out, h, adj'. split; [|split; [exact Q|exact K]].
  unfold cmd_matrix. rewrite (trans_step fuel junk 109 ltac:(auto) fs ts input g E). cbn [Z.eqb Pos.eqb]. unfold gp_WriteToString, gp_Write. cbn [Z.eqb Pos.eqb WRITE_ADJLIST WRITE_G6 WRITE_ADJMATRIX]. rewrite W. destruct ts; reflexivity.
Qed.

(** Converted to graph6: the same adjacencies. *)
Theorem C70_to_g6_partial :
  forall fuel junk fs ts input g adj, transform_read fs fuel gp_New input = Ret (g, C_OK) ->
    rep g adj -> simple g adj -> primary_edges g adj -> 2 <= gN g <= 32768 ->
    exists out, TransformGraph fuel junk cmd_g6 fs ts input = Ret (C_OK, Some (if zero_based g then 1 else 0, out)) /\
      forall fs', exists h adj', transform_read fs' fuel gp_New out = Ret (h, C_OK) /\ rep h adj' /\ simple h adj' /\ primary_edges h adj' /\ gN h = gN g /\
        forall u v, 1 <= u < v -> v <= gN g -> (adjacent h adj' u v <-> adjacent g adj u v).
Proof.
  intros fuel junk fs ts input g adj E R S P Hn.
  assert (IG : is_graph g (gN g) (adjb g adj)).
  { split; [auto|]. exists adj. split; [split; [auto|split; auto]|]. intros u v _ _. apply adjb_spec. }
  exists (g6_text (gN g) (adjb g adj)). split.
  - unfold cmd_g6. rewrite (trans_step fuel junk 103 ltac:(auto) fs ts input g E). cbn [Z.eqb Pos.eqb]. unfold gp_WriteToString, gp_Write. rewrite Z.eqb_refl.
    destruct ts; [|rewrite (C22_write_file g _ _ IG) by lia; reflexivity].
    rewrite (C22_write_string g _ _ IG) by lia. cbn [bind]. unfold g6_text. rewrite c_str_text; [reflexivity|].
    intros x Hx. apply (text_nz (gN g) (adjb g adj) [] ltac:(lia) ltac:(intros y []) g6_head ltac:(auto)). now rewrite app_nil_r.
  - intros fs'. assert (X : exists h, transform_read fs' fuel gp_New (g6_text (gN g) (adjb g adj)) = Ret (h, C_OK) /\ is_graph h (gN g) (adjb g adj)).
    { unfold g6_text. destruct (read_g6_head fuel gp_New (g6_order (gN g) ++ g6_body (gN g) (adjb g adj))) as [Q1 Q2]. destruct fs'.
      - rewrite Q1. destruct (C22_read_string gp_New (gN g) (adjb g adj) g6_head []) as (h & X & IH); [left; auto|auto|reflexivity|intros x []|]. exists h. rewrite app_nil_r in X. auto.
      - rewrite Q2. destruct (C22_read_file gp_New (gN g) (adjb g adj) g6_head []) as (h & X & IH); [left; auto|auto|reflexivity|intros x []|]. exists h. rewrite app_nil_r in X. auto. }
    destruct X as (h & X & NH & adj' & (R' & S' & P') & HA). exists h, adj'. do 5 (split; [assumption|]).
    intros u v Hu Hv. rewrite <- HA by auto. apply adjb_spec.
Qed.

(** Every graph6 text (with its header) is such a text: converted to lists it shows the graph it encodes. *)
Lemma read_g6 fuel n A fs : 2 <= n <= 32768 ->
  exists g adj, transform_read fs fuel gp_New (g6_text n A) = Ret (g, C_OK) /\ rep g adj /\ simple g adj /\ primary_edges g adj /\ undirected g adj /\ gN g = n /\ no_directions g /\
    forall u v, 1 <= u < v -> v <= n -> (A u v = true <-> adjacent g adj u v).
Proof.
  intros Hn. unfold g6_text. destruct (read_g6_head fuel gp_New (g6_order n ++ g6_body n A)) as [Q1 Q2].
  assert (D0 : no_directions gp_New) by (intros e _; reflexivity).
  assert (X : exists g, transform_read fs fuel gp_New (g6_head ++ g6_order n ++ g6_body n A) = Ret (g, C_OK) /\ is_graph g n A /\ no_directions g).
  { destruct fs; [rewrite Q1|rewrite Q2].
    - destruct (C22_read_string gp_New n A g6_head []) as (g & E & IG); [left; auto|auto|reflexivity|intros x []|]. rewrite app_nil_r in E. exists g. split; [exact E|]. split; [exact IG|].
      pose proof (_ReadGraphFromG6String_D gp_New D0 ((g6_head ++ g6_order n ++ g6_body n A) ++ [0]) I) as D. rewrite E in D. exact (proj1 D).
    - destruct (C22_read_file gp_New n A g6_head []) as (g & E & IG); [left; auto|auto|reflexivity|intros x []|]. rewrite app_nil_r in E. exists g. split; [exact E|]. split; [exact IG|].
      pose proof (_ReadGraphFromG6FilePointer_D gp_New D0 (g6_head ++ g6_order n ++ g6_body n A) I) as D. rewrite E in D. exact (proj1 D). }
  destruct X as (g & E & (N & adj & (R & S & P) & HA) & D). exists g, adj. do 4 (split; [assumption|]). split; [|auto].
  intros v e He. apply D. apply (ch_range _ _ (rep_chains _ _ R) v e He).
Qed.
Theorem C70_g6_to_lists :
  forall n A fuel junk fs ts, 2 <= n <= 32768 -> n <= Z.of_nat fuel ->
    exists base out, TransformGraph fuel junk cmd_list fs ts (g6_text n A) = Ret (C_OK, Some (base, out)) /\
      forall fs', exists h adj, transform_read fs' fuel gp_New out = Ret (h, C_OK) /\ rep h adj /\ simple h adj /\ gN h = n /\
        forall u v, 1 <= u < v -> v <= n -> (A u v = true <-> adjacent h adj u v).
Proof.
  intros n A fuel junk fs ts Hn Hf. destruct (read_g6 fuel n A fs Hn) as (g & adj & E & R & S & P & U & N & _ & HA).
  destruct (C70_to_lists_partial fuel junk fs ts (g6_text n A) g adj E R S P U ltac:(lia) ltac:(lia)) as (out & T & K).
  exists (if zero_based g then 1 else 0), out. split; [exact T|]. intros fs'. destruct (K fs') as (h & adj' & Q & R' & S' & _ & _ & N' & _ & LL). exists h, adj'.
  split; [exact Q|]. split; [exact R'|]. split; [exact S'|]. split; [congruence|]. intros u v Hu Hv. rewrite (HA u v Hu Hv).
  assert (X : forall k a, adjacent k a u v <-> In v (nbr_lists k a u)) by (intros k a; unfold adjacent, nbr_lists; rewrite in_map_iff; split; intros (e & H1 & H2); exists e; auto).
  now rewrite !X, LL.
Qed.
(** Lists to graph6 and back to lists: the same neighbours. *)
Lemma read_list_text n off L fuel fs : lists_ok n L -> 1 <= n <= 32768 -> off = 0 \/ off = 1 -> n <= Z.of_nat fuel ->
  exists g adj, transform_read fs fuel gp_New (adj_text n off L) = Ret (g, C_OK) /\ rep g adj /\ simple g adj /\ primary_edges g adj /\ undirected g adj /\ gN g = n /\
    zero_based g = (off =? 1) /\ (forall e, 2 <= e < gp_EdgeIndexBound g -> eflags g e = 0) /\ forall v, nbr_lists g adj v = L v.
Proof.
  intros HL Hn Ho Hf. destruct (read_adj_ok (negb fs) n off L fuel HL Hn Ho ltac:(lia)) as (g & adj & E & R & N & Fg & Fl & LL).
  exists g, adj. pose proof HL as HL'. rewrite <- N in HL'. destruct (lists_simple g adj L R HL' LL) as [S P]. split.
  - destruct fs; cbn [negb mk] in E; unfold transform_read.
    + change (adj_text n off L) with (78 :: 61 :: dec n ++ [10] ++ concat (map (adj_line off L) (from 1 n))) at 1. unfold gp_ReadFromString.
      destruct (list_header fuel gp_New n off L) as (-> & -> & _). rewrite E. reflexivity.
    + rewrite (proj2 (proj2 (list_header fuel gp_New n off L))), E. reflexivity.
  - split; [exact R|]. split; [exact S|]. split; [exact P|]. split; [intros v e He; rewrite Fl; [reflexivity|exact (ch_range _ _ (rep_chains _ _ R) _ _ He)]|].
    split; [exact N|]. split; [unfold zero_based; rewrite Fg; destruct (off =? 1); reflexivity|]. split; [exact Fl|exact LL].
Qed.
Theorem C70_lists_to_g6 :
  forall n off L fuel junk fs ts, (forall v w, In w (L v) -> 1 <= v <= n /\ 1 <= w <= n) -> (forall v, NoDup (L v)) ->
    (forall v w, In w (L v) -> In v (L w)) -> (forall v, ~ In v (L v)) ->
    2 <= n <= 32768 -> off = 0 \/ off = 1 -> n <= Z.of_nat fuel ->
    exists out, TransformGraph fuel junk cmd_g6 fs ts (adj_text n off L) = Ret (C_OK, Some (off, out)) /\
      forall fs', exists h adj, transform_read fs' fuel gp_New out = Ret (h, C_OK) /\ rep h adj /\ simple h adj /\ gN h = n /\
        forall u v, 1 <= u < v -> v <= n -> (In v (L u) <-> adjacent h adj u v).
Proof.
  intros n off L fuel junk fs ts H1 H2 H3 H4 Hn Ho Hf. assert (HL : lists_ok n L) by (constructor; auto).
  destruct (read_list_text n off L fuel fs HL ltac:(lia) Ho Hf) as (g & adj & E & R & S & P & U & N & Z & _ & LL).
  destruct (C70_to_g6_partial fuel junk fs ts (adj_text n off L) g adj E R S P ltac:(lia)) as (out & T & K).
  assert (B : (if zero_based g then 1 else 0) = off) by (rewrite Z; destruct Ho as [-> | ->]; reflexivity). rewrite B in T.
  exists out. split; [exact T|]. intros fs'. destruct (K fs') as (h & adj' & Q & R' & S' & _ & N' & HA). exists h, adj'.
  split; [exact Q|]. split; [exact R'|]. split; [exact S'|]. split; [congruence|]. intros u v Hu Hv. rewrite (HA u v Hu) by lia.
  rewrite <- LL. unfold adjacent, nbr_lists. rewrite in_map_iff. split; intros (e & X1 & X2); exists e; auto.
Qed.
(** Lists are converted to lists by giving the text back, character for character. *)
Theorem C70_lists_to_lists :
  forall n off L fuel junk fs ts, (forall v w, In w (L v) -> 1 <= v <= n /\ 1 <= w <= n) -> (forall v, NoDup (L v)) ->
    (forall v w, In w (L v) -> In v (L w)) -> (forall v, ~ In v (L v)) ->
    1 <= n <= 32768 -> off = 0 \/ off = 1 -> n <= Z.of_nat fuel ->
    TransformGraph fuel junk cmd_list fs ts (adj_text n off L) = Ret (C_OK, Some (off, adj_text n off L)).
Proof.
  intros n off L fuel junk fs ts H1 H2 H3 H4 Hn Ho Hf. assert (HL : lists_ok n L) by (constructor; auto).
  destruct (read_list_text n off L fuel fs HL Hn Ho Hf) as (g & adj & E & R & S & P & U & N & Z & _ & LL).
  unfold cmd_list. rewrite (trans_step fuel junk 97 (or_intror (or_introl eq_refl)) fs ts _ g E).
  assert (B : (if zero_based g then 1 else 0) = off) by (rewrite Z; destruct Ho as [-> | ->]; reflexivity).
  assert (W : _WriteAdjList g = Ret (adj_text n off L, C_OK)).
  { rewrite (C25_text g adj R P U), N, B. do 2 f_equal. unfold adj_text. do 4 f_equal. apply map_ext. intros v. unfold adj_line. rewrite LL. reflexivity. }
  rewrite B. destruct ts; unfold gp_WriteToString, gp_Write; cbn [Z.eqb Pos.eqb WRITE_ADJLIST WRITE_G6 WRITE_ADJMATRIX]; change (WRITE_ADJLIST =? WRITE_G6) with false; change (WRITE_ADJLIST =? WRITE_ADJLIST) with true; cbv iota; rewrite W; reflexivity.
Qed.

(** A text that does not begin with N is not in the list format, the only one with directions. *)
Lemma matrix_row_D : isD matrix_row. Proof. dfix matrix_row. Qed.
#[export] Hint Resolve matrix_row_D : dd.
Lemma matrix_rows_D : isD matrix_rows. Proof. dfix matrix_rows. Qed.
#[export] Hint Resolve matrix_rows_D : dd.
Lemma _ReadAdjMatrix_D : isD _ReadAdjMatrix. Proof. dnon _ReadAdjMatrix. Qed.
Lemma leda_edges_D : isD leda_edges. Proof. dfix leda_edges. Qed.
#[export] Hint Resolve leda_edges_D : dd.
Lemma _ReadLEDAGraph_D : isD _ReadLEDAGraph. Proof. dnon _ReadLEDAGraph. Qed.
Lemma read_no_directions fuel c t h r : c <> 78 -> gp_Read fuel gp_New (c :: t) = Ret (h, r) -> no_directions h.
Proof.
  intros Hc. unfold gp_Read, get_line.
  assert (K : exists u, fst (let '(t0, r0) := fgets_take 254 (c :: t) in (Some t0, r0)) = Some (c :: u)).
  { change (fgets_take 254 (c :: t)) with (if c =? CH_LF then ([c], t) else let '(t1, r1) := fgets_take 253 t in (c :: t1, r1)).
    destruct (c =? _); [exists []; reflexivity|]. destruct (fgets_take 253 t) as [t1 r1]. exists t1. reflexivity. }
  destruct K as (u & K). rewrite K. cbn [line_text bind]. assert (Hl : starts_with list_tag (c :: u) = false) by (unfold list_tag; cbn [starts_with]; destruct (Z.eqb_spec 78 c); [congruence|reflexivity]).
  rewrite Hl. assert (D0 : isD gp_New) by apply gp_New_D. destruct (starts_with leda_tag (c :: u)).
  - intros E. pose proof (_ReadLEDAGraph_D gp_New D0 (c :: t) I) as Q. rewrite E in Q. apply Q.
  - destruct (c_isdigit (hd 0 (c :: u))).
    + pose proof (_ReadAdjMatrix_D gp_New D0 (SFile (c :: t)) I) as Q. destruct (_ReadAdjMatrix gp_New (SFile (c :: t))) as [[[g' i'] r']| |]; cbn [bind]; intros E; inversion E; subst. apply Q.
    + intros E. pose proof (_ReadGraphFromG6FilePointer_D gp_New D0 (c :: t) I) as Q. rewrite E in Q. apply Q.
Qed.

(** From an adjacency matrix and from a LEDA file. *)
Lemma read_matrix fuel n M : 1 <= n <= 32768 ->
  exists g adj, gp_Read fuel gp_New (mat_text n M) = Ret (g, C_OK) /\ rep g adj /\ simple g adj /\ primary_edges g adj /\ undirected g adj /\ gN g = n /\ no_directions g /\
    forall u v, 1 <= u < v -> v <= n -> (M u v = true <-> adjacent g adj u v).
Proof.
  intros Hn. destruct (mat_trip_gen n M fuel Hn) as [(g & E & (N & adj & (R & S & P) & HA) & _) _].
  assert (D : no_directions g).
  { destruct (dec_val n) as (ds & E1 & E2 & E3 & _); [unfold INT_MAX; lia|]. pose proof E as E'. unfold mat_text in E'. rewrite E1 in E'. destruct ds as [|c ds]; [congruence|].
    refine (read_no_directions fuel c _ g C_OK _ E'). intros ->. specialize (E3 78 (or_introl eq_refl)). discriminate E3. }
  exists g, adj. do 4 (split; [assumption|]). split; [|auto]. intros v e He. apply D. apply (ch_range _ _ (rep_chains _ _ R) v e He).
Qed.
Lemma read_leda fuel n pairs text : 1 <= n <= 32768 -> Z.of_nat (length pairs) <= INT_MAX ->
  Forall (fun p => 1 <= fst p <= n /\ 1 <= snd p <= n) pairs -> leda_file n pairs text ->
  exists g adj, gp_Read fuel gp_New text = Ret (g, C_OK) /\ rep g adj /\ simple g adj /\ primary_edges g adj /\ undirected g adj /\ gN g = n /\ no_directions g /\
    forall x y, adjacent g adj x y <-> x <> y /\ (In (x, y) pairs \/ In (y, x) pairs).
Proof.
  intros Hn Hm HR HF. destruct (C47_leda n pairs text fuel Hn Hm HR HF) as (g & adj & E & R & S & P & N & HA & _).
  assert (D : no_directions g).
  { destruct HF as (h1 & h2 & h3 & tn & vs & tm & es & more & Et & _). rewrite Et in E. refine (read_no_directions fuel 76 _ g C_OK _ E). discriminate. }
  exists g, adj. do 4 (split; [assumption|]). split; [|auto]. intros v e He. apply D. apply (ch_range _ _ (rep_chains _ _ R) v e He).
Qed.
Lemma adjacent_nbr k a u v : adjacent k a u v <-> In v (nbr_lists k a u).
Proof. unfold adjacent, nbr_lists. rewrite in_map_iff. split; intros (e & H1 & H2); exists e; auto. Qed.
Theorem C70_matrix_to_lists :
  forall n M fuel junk ts, 1 <= n <= 32768 -> n <= Z.of_nat fuel ->
    exists base out, TransformGraph fuel junk cmd_list false ts (mat_text n M) = Ret (C_OK, Some (base, out)) /\
      forall fs', exists h adj, transform_read fs' fuel gp_New out = Ret (h, C_OK) /\ rep h adj /\ simple h adj /\ gN h = n /\
        forall u v, 1 <= u < v -> v <= n -> (M u v = true <-> adjacent h adj u v).
Proof.
  intros n M fuel junk ts Hn Hf. destruct (read_matrix fuel n M Hn) as (g & adj & E & R & S & P & U & N & _ & HA).
  destruct (C70_to_lists_partial fuel junk false ts (mat_text n M) g adj E R S P U ltac:(lia) ltac:(lia)) as (out & T & K).
  eexists _, out. split; [exact T|]. intros fs'. destruct (K fs') as (h & adj' & Q & R' & S' & _ & _ & N' & _ & LL). exists h, adj'.
  do 3 (split; [assumption|]). split; [congruence|]. intros u v Hu Hv. rewrite (HA u v Hu Hv), !adjacent_nbr, LL. reflexivity.
Qed.
Theorem C70_matrix_to_g6 :
  forall n M fuel junk ts, 2 <= n <= 32768 ->
    exists base out, TransformGraph fuel junk cmd_g6 false ts (mat_text n M) = Ret (C_OK, Some (base, out)) /\
      forall fs', exists h adj, transform_read fs' fuel gp_New out = Ret (h, C_OK) /\ rep h adj /\ simple h adj /\ gN h = n /\
        forall u v, 1 <= u < v -> v <= n -> (M u v = true <-> adjacent h adj u v).
Proof.
  intros n M fuel junk ts Hn. destruct (read_matrix fuel n M ltac:(lia)) as (g & adj & E & R & S & P & U & N & _ & HA).
  destruct (C70_to_g6_partial fuel junk false ts (mat_text n M) g adj E R S P ltac:(lia)) as (out & T & K).
  eexists _, out. split; [exact T|]. intros fs'. destruct (K fs') as (h & adj' & Q & R' & S' & _ & N' & LL). exists h, adj'.
  do 3 (split; [assumption|]). split; [congruence|]. intros u v Hu Hv. rewrite (HA u v Hu Hv), LL by lia. reflexivity.
Qed.
Theorem C70_leda_to_lists :
  forall n pairs text fuel junk ts, 1 <= n <= 32768 -> n <= Z.of_nat fuel -> Z.of_nat (length pairs) <= INT_MAX ->
    Forall (fun p => 1 <= fst p <= n /\ 1 <= snd p <= n) pairs -> leda_file n pairs text ->
    exists base out, TransformGraph fuel junk cmd_list false ts text = Ret (C_OK, Some (base, out)) /\
      forall fs', exists h adj, transform_read fs' fuel gp_New out = Ret (h, C_OK) /\ rep h adj /\ simple h adj /\ gN h = n /\
        forall x y, adjacent h adj x y <-> x <> y /\ (In (x, y) pairs \/ In (y, x) pairs).
Proof.
  intros n pairs text fuel junk ts Hn Hf Hm HR HF. destruct (read_leda fuel n pairs text Hn Hm HR HF) as (g & adj & E & R & S & P & U & N & _ & HA).
  destruct (C70_to_lists_partial fuel junk false ts text g adj E R S P U ltac:(lia) ltac:(lia)) as (out & T & K).
  eexists _, out. split; [exact T|]. intros fs'. destruct (K fs') as (h & adj' & Q & R' & S' & _ & _ & N' & _ & LL). exists h, adj'.
  do 3 (split; [assumption|]). split; [congruence|]. intros x y. rewrite <- HA, !adjacent_nbr, LL. reflexivity.
Qed.
Theorem C70_leda_to_g6 :
  forall n pairs text fuel junk ts, 2 <= n <= 32768 -> Z.of_nat (length pairs) <= INT_MAX ->
    Forall (fun p => 1 <= fst p <= n /\ 1 <= snd p <= n) pairs -> leda_file n pairs text ->
    exists base out, TransformGraph fuel junk cmd_g6 false ts text = Ret (C_OK, Some (base, out)) /\
      forall fs', exists h adj, transform_read fs' fuel gp_New out = Ret (h, C_OK) /\ rep h adj /\ simple h adj /\ gN h = n /\
        forall x y, 1 <= x < y -> y <= n -> (adjacent h adj x y <-> In (x, y) pairs \/ In (y, x) pairs).
Proof.
  intros n pairs text fuel junk ts Hn Hm HR HF. destruct (read_leda fuel n pairs text ltac:(lia) Hm HR HF) as (g & adj & E & R & S & P & U & N & _ & HA).
  destruct (C70_to_g6_partial fuel junk false ts text g adj E R S P ltac:(lia)) as (out & T & K).
  eexists _, out. split; [exact T|]. intros fs'. destruct (K fs') as (h & adj' & Q & R' & S' & _ & N' & LL). exists h, adj'.
  do 3 (split; [assumption|]). split; [congruence|]. intros x y Hx Hy. rewrite LL by lia. rewrite HA. split; [intros [_ H]; exact H|intros H; split; [lia|exact H]].
Qed.
(** The hypotheses on lists and LEDA files hold in concrete cases: path_lists_case and leda_case in Thm_IO. *)

(** A text that cannot be read, or a command that is not understood: not OK, and nothing is written. *)
Theorem C70_unreadable :
  forall fuel junk cmd fs ts input g r, transform_read fs fuel gp_New input = Ret (g, r) -> r <> C_OK ->
    exists r', TransformGraph fuel junk cmd fs ts input = Ret (r', None) /\ r' <> C_OK.
Proof.
  intros fuel junk cmd fs ts input g r E H. unfold TransformGraph. destruct (hd 0 cmd =? 45); [|exists C_NOTOK; split; [reflexivity|discriminate]].
  cbv zeta. destruct (negb _); [exists C_NOTOK; split; [reflexivity|discriminate]|]. rewrite E. cbn [bind]. apply Z.eqb_neq in H as H'. rewrite H'. exists r. auto.
Qed.

(** An empty string is refused, and so is every command but -g, -a and -m, whatever the input. *)
Theorem C70_empty_string :
  forall fuel junk cmd ts, exists r, TransformGraph fuel junk cmd true ts [] = Ret (r, None) /\ r <> C_OK.
Proof. intros fuel junk cmd ts. apply (C70_unreadable fuel junk cmd true ts [] gp_New C_NOTOK); [reflexivity|discriminate]. Qed.
Theorem C70_command :
  forall fuel junk cmd fs ts input, nth 0 cmd 0 <> 45 \/ ~ In (nth 1 cmd 0) [103; 97; 109] ->
    TransformGraph fuel junk cmd fs ts input = Ret (C_NOTOK, None).
Proof.
  intros fuel junk cmd fs ts input H. unfold TransformGraph. destruct (hd 0 cmd =? 45) eqn:K; [|reflexivity]. destruct H as [H|H].
  - destruct H. apply Z.eqb_eq in K. destruct cmd; exact K.
  - cbv zeta. destruct (nth 1 cmd 0 =? 103) eqn:K1; [destruct H; left; symmetry; apply Z.eqb_eq, K1|].
    destruct (nth 1 cmd 0 =? 97) eqn:K2; [destruct H; right; left; symmetry; apply Z.eqb_eq, K2|].
    destruct (nth 1 cmd 0 =? 109) eqn:K3; [destruct H; right; right; left; symmetry; apply Z.eqb_eq, K3|]. reflexivity.
Qed.

(** ** C70, refuted *)
(** A graph on one vertex cannot be converted to graph6, and a matrix in a string is read with edges lost:
    converted to lists, the path 2-1-3 has lost the edge from 1 to 3. *)
Theorem C70_one_vertex_refuted :
  exists input g, transform_read false 10 gp_New input = Ret (g, C_OK) /\ gN g = 1 /\
    forall ts, exists out, TransformGraph 10 [] cmd_g6 false ts input = Ret (C_NOTOK, Some (0, out)).
Proof.
  exists (txt "N=1|1: 0|"). destruct (outcome_ok (transform_read false 10 gp_New (txt "N=1|1: 0|")) C_OK (fun g => gN g =? 1)) as (g & E & K); [vm_compute; reflexivity|].
  exists g. split; [exact E|]. split; [lia|]. intros [|]; eexists; vm_compute; reflexivity.
Qed.
(** On an empty file the reader looks at a line buffer in which nothing was ever stored (graphIO.c:384-395). *)
Theorem C70_empty_file_refuted : forall fuel junk ts, TransformGraph fuel junk cmd_list false ts [] = UB.
Proof. reflexivity. Qed.
Theorem C70_matrix_string_refuted :
  exists input, mat_text 3 (fun u v => u =? 1) = input /\
    TransformGraph 10 [] cmd_list false true input = Ret (C_OK, Some (0, txt "N=3|1: 2 3 0|2: 1 0|3: 1 0|")) /\
    exists out, TransformGraph 10 [] cmd_list true true input = Ret (C_OK, Some (0, out)) /\ out <> txt "N=3|1: 2 3 0|2: 1 0|3: 1 0|".
Proof.
  eexists. split; [reflexivity|]. split; [vm_compute; reflexivity|]. eexists. split; [vm_compute; reflexivity|]. vm_compute. discriminate.
Qed.

(** K4 between the formats; a command that is not understood. *)
Example trans_case :
  let k4 := txt "N=4|1: 2 3 4 0|2: 1 3 4 0|3: 1 2 4 0|4: 1 2 3 0|" in
  TransformGraph 10 [] cmd_g6 false true k4 = Ret (C_OK, Some (0, g6_head ++ [67; 126])) /\
  TransformGraph 10 (repeat 7 6) cmd_matrix true false k4 = Ret (C_OK, Some (0, txt "4| 111|  11|   1|    |")) /\
  TransformGraph 10 [] cmd_list true true (txt "C~|") = Ret (C_OK, Some (1, txt "N=4|0: 1 2 3 -1|1: 0 2 3 -1|2: 0 1 3 -1|3: 0 1 2 -1|")) /\
  TransformGraph 10 [] [45; 120] true true k4 = Ret (C_NOTOK, None).
Proof. vm_compute. repeat split; reflexivity. Qed.
Definition Thm_Trans_all := (@C70_to_lists_partial, @C70_to_matrix_partial, @C70_to_g6_partial, @C70_g6_to_lists, @C70_lists_to_g6, @C70_lists_to_lists, @C70_matrix_to_lists, @C70_matrix_to_g6, @C70_leda_to_lists, @C70_leda_to_g6, @C70_unreadable, @C70_empty_string, @C70_command, @C70_empty_file_refuted, @C70_one_vertex_refuted, @C70_matrix_string_refuted).
Print Assumptions Thm_Trans_all.
