(** * C25-C29, C47: the text formats. *)
From Coq Require Import ZifyBool String Ascii.
From Verif Require Import Base BaseP StrBufM StrFileM GraphRec GraphM GraphSpec DFSSpec RandSpec G6Spec DrawM IOM IOSpec
  GSimp GraphP GraphP2 GraphP3 GraphP4 GraphP5 GraphEx DFSP7 CopyP RandP RandP2 IOP IOP2 IOP5 IOP6 IOP7 IOP8 IOP9.
Import ListNotations.
Open Scope Z_scope.

(** Character codes of a text, for the cases below; a vertical bar stands for the line end. *)
Fixpoint txt (s : string) : list Z :=
  match s with
  | EmptyString => []
  | String c s' => (if Ascii.eqb c "|"%char then 10 else Z.of_nat (nat_of_ascii c)) :: txt s'
  end.

Definition outcome (m : res (graph * Z)) (r : Z) (P : graph -> bool) : bool :=
  match m with Ret (h, c) => (c =? r) && P h | _ => false end.
Lemma outcome_ok m r P : outcome m r P = true -> exists h, m = Ret (h, r) /\ P h = true.
Proof. destruct m as [[h c]| |]; cbn; try discriminate. intros H. exists h. split; [do 2 f_equal; lia|lia]. Qed.

(** ** C25 *)
(** The text that is written, and what it says: see adj_text in IOSpec. *)
Theorem C25_text : forall g adj, rep g adj -> primary_edges g adj -> undirected g adj ->
  _WriteAdjList g = Ret (adj_text (gN g) (if zero_based g then 1 else 0) (nbr_lists g adj), C_OK).
Proof. intros g adj R P U. apply write_adj_ok; auto. Qed.
Print Assumptions C25_text.

(** Reading it back, from a file or from a string. *)
Theorem C25_round_trip : forall g adj fuel, rep g adj -> simple g adj -> primary_edges g adj -> undirected g adj ->
  gN g <= 32768 -> gN g <= Z.of_nat fuel ->
  exists text, _WriteAdjList g = Ret (text, C_OK) /\
    forall rd, rd = gp_Read \/ rd = gp_ReadFromString -> exists h adj', rd fuel gp_New text = Ret (h, C_OK) /\
      rep h adj' /\ simple h adj' /\ primary_edges h adj' /\ undirected h adj' /\
      gN h = gN g /\ zero_based h = zero_based g /\ forall v, nbr_lists h adj' v = nbr_lists g adj v.
Proof. intros g adj fuel R S P U Hn Hf. apply list_trip; auto. Qed.
Print Assumptions C25_round_trip.

Definition io_demo : graph := built 0 4 (adds [(2, 4); (1, 3); (1, 2); (4, 1)]).
Lemma flags_undirected g adj : rep g adj -> (forall v e, In e (adj v) -> eflags g e = 0) -> undirected g adj.
Proof. intros R H v e He. rewrite (H v e He). reflexivity. Qed.
Definition undirectedb (g : graph) : bool :=
  forallb (fun v => forallb (fun e => Z.land (eflags g e) DIR_MASK =? 0) (arcs g v)) (from 1 (gN g)).
Definition simpleb (g : graph) : bool :=
  forallb (fun v => forallb (fun e => negb (enbr g e =? v) && forallb (fun f => negb (enbr g e =? enbr g f) || (e =? f)) (arcs g v)) (arcs g v)) (from 1 (gN g)).
Lemma in_from a k x : In x (from a k) <-> a <= x < a + Z.max 0 k.
Proof.
  unfold from. rewrite in_map_iff. split.
  - intros (i & <- & H). apply in_seq in H. lia.
  - intros H. exists (Z.to_nat (x - a)). split; [lia|]. apply in_seq. lia.
Qed.
Lemma primary_arcs g adj v e : rep g adj -> primary_edges g adj -> In e (adj v) -> In v (from 1 (gN g)) /\ adj v = arcs g v.
Proof.
  intros R P He. pose proof (P _ _ He) as Pv. unfold primary in Pv. split; [apply in_from; lia|].
  apply (arcs_ok g adj v (rep_chains _ _ R)). unfold is_vertex. lia.
Qed.
Lemma undirectedb_ok g adj : rep g adj -> primary_edges g adj -> undirectedb g = true -> undirected g adj.
Proof.
  intros R P H v e He. destruct (primary_arcs _ _ _ _ R P He) as [Hv Ea]. unfold undirectedb in H. rewrite forallb_forall in H.
  specialize (H v Hv). rewrite forallb_forall in H. rewrite Ea in He. specialize (H e He). lia.
Qed.
Lemma simpleb_ok g adj : rep g adj -> primary_edges g adj -> simpleb g = true -> simple g adj.
Proof.
  intros R P H. unfold simpleb in H. rewrite forallb_forall in H.
  assert (K : forall v e, In e (adj v) -> negb (enbr g e =? v) && forallb (fun f => negb (enbr g e =? enbr g f) || (e =? f)) (adj v) = true).
  { intros v e He. destruct (primary_arcs _ _ _ _ R P He) as [Hv Ea]. specialize (H v Hv). rewrite forallb_forall in H.
    rewrite Ea in He |- *. exact (H e He). }
  split.
  - intros v e He. specialize (K v e He). lia.
  - intros v e f He Hf E. specialize (K v e He). apply andb_true_iff in K. destruct K as [_ K]. rewrite forallb_forall in K.
    specialize (K f Hf). lia.
Qed.
Lemma demo_graph g N l : g = built 0 N (adds l) -> is_ret (build 0 N (adds l)) = true -> plain_run (the gp_New (fresh_graph 0 N)) (adds l) = true ->
  undirectedb g = true -> simpleb g = true ->
  exists adj, rep g adj /\ simple g adj /\ primary_edges g adj /\ undirected g adj.
Proof.
  intros -> H1 H2 H3 H4. assert (PR : plain_reach (built 0 N (adds l))) by (apply built_plain; auto).
  destruct (plain_reach_unsearched _ PR) as (adj & R & P & _). exists adj. split; [exact R|]. split; [apply simpleb_ok; auto|].
  split; [exact P|]. apply undirectedb_ok; auto.
Qed.
Example io_demo_case : exists adj, rep io_demo adj /\ simple io_demo adj /\ primary_edges io_demo adj /\ undirected io_demo adj.
Proof. eapply demo_graph; [reflexivity|vm_compute; reflexivity..]. Qed.
Example io_demo_text : _WriteAdjList io_demo = Ret (txt "N=4|1: 3 2 4 0|2: 4 1 0|3: 1 0|4: 2 1 0|", C_OK).
Proof. vm_compute. reflexivity. Qed.
Example io_zero_text : _WriteAdjList (set_giflags io_demo 8) = Ret (txt "N=4|0: 2 1 3 -1|1: 3 0 -1|2: 0 -1|3: 1 0 -1|", C_OK).
Proof. vm_compute. reflexivity. Qed.

(** ** C26 *)
Theorem C26_text : forall g adj junk, rep g adj -> primary_edges g adj -> undirected g adj ->
  Z.of_nat (length junk) = gN g + 2 ->
  exists A, _WriteAdjMatrix junk g = Ret (mat_text (gN g) A, C_OK) /\ forall u v, A u v = true <-> adjacent g adj u v.
Proof.
  intros g adj junk R P U HJ. exists (adj_mat g adj). split; [apply write_mat_ok; auto|]. intros u v. apply adj_mat_adjacent.
Qed.
Print Assumptions C26_text.

(** The row buffer may hold anything when it is allocated. *)
Theorem C26_round_trip : forall g adj fuel junk, rep g adj -> simple g adj -> primary_edges g adj -> undirected g adj ->
  gN g <= 32768 -> Z.of_nat (length junk) = gN g + 2 ->
  exists text h adj', _WriteAdjMatrix junk g = Ret (text, C_OK) /\ gp_Read fuel gp_New text = Ret (h, C_OK) /\
    rep h adj' /\ simple h adj' /\ primary_edges h adj' /\ gN h = gN g /\
    forall u v, adjacent h adj' u v <-> adjacent g adj u v.
Proof.
  intros g adj fuel junk R Si P U Hn HJ. pose proof (st_N _ _ (rep_storage _ _ R)) as H1.
  exists (mat_text (gN g) (adj_mat g adj)).
  destruct (mat_trip_gen (gN g) (adj_mat g adj) fuel ltac:(lia)) as [(h & E & I & _) _].
  destruct (same_adjacent g adj h R Si P I) as (adj' & (R' & S' & P') & EN & HA).
  exists h, adj'. split; [apply write_mat_ok; auto|]. split; [exact E|]. auto.
Qed.
Print Assumptions C26_round_trip.
Example io_demo_matrix : _WriteAdjMatrix (repeat 7 6) io_demo = Ret (txt "4| 111|  01|   0|    |", C_OK).
Proof. vm_compute. reflexivity. Qed.

(** ** C27 *)
(** Through a string the round trip works for up to two vertices only. *)
Theorem C27_round_trip_partial : forall g adj fuel junk, rep g adj -> simple g adj -> primary_edges g adj -> undirected g adj ->
  gN g <= 2 -> Z.of_nat (length junk) = gN g + 2 ->
  exists text h adj', _WriteAdjMatrix junk g = Ret (text, C_OK) /\ gp_ReadFromString fuel gp_New text = Ret (h, C_OK) /\
    rep h adj' /\ simple h adj' /\ primary_edges h adj' /\ gN h = gN g /\
    forall u v, adjacent h adj' u v <-> adjacent g adj u v.
Proof.
  intros g adj fuel junk R Si P U Hn HJ. pose proof (st_N _ _ (rep_storage _ _ R)) as H1.
  exists (mat_text (gN g) (adj_mat g adj)).
  destruct (mat_trip_gen (gN g) (adj_mat g adj) fuel ltac:(lia)) as [_ K]. destruct (K Hn) as (h & E & I & _).
  destruct (same_adjacent g adj h R Si P I) as (adj' & (R' & S' & P') & EN & HA).
  exists h, adj'. split; [apply write_mat_ok; auto|]. split; [exact E|]. auto.
Qed.
Print Assumptions C27_round_trip_partial.
Example io_two_case : exists adj, let g := built 0 2 (adds [(2, 1)]) in
  gN g = 2 /\ rep g adj /\ simple g adj /\ primary_edges g adj /\ undirected g adj.
Proof.
  destruct (demo_graph (built 0 2 (adds [(2, 1)])) 2 [(2, 1)] eq_refl) as (adj & H); [vm_compute; reflexivity..|].
  exists adj. cbv zeta. split; [vm_compute; reflexivity|exact H].
Qed.

(** With three vertices and the edge 1-3 the edge is lost: the reader skips the whole row after
    its first flag. *)
Theorem C27_string_refuted : exists g adj text, rep g adj /\ simple g adj /\ primary_edges g adj /\ undirected g adj /\
  gN g = 3 /\ gM g = 1 /\ _WriteAdjMatrix (repeat 0 5) g = Ret (text, C_OK) /\
  forall fuel, exists h, gp_ReadFromString fuel gp_New text = Ret (h, C_OK) /\ gN h = 3 /\ gM h = 0.
Proof.
  set (g := built 0 3 (adds [(1, 3)])).
  destruct (demo_graph g 3 [(1, 3)] eq_refl) as (adj & R & S & P & U); [vm_compute; reflexivity..|].
  exists g, adj, (txt "3| 01|  0|   |"). do 4 (split; [assumption|]). do 3 (split; [vm_compute; reflexivity|]).
  intros fuel. destruct (outcome_ok (gp_ReadFromString fuel gp_New (txt "3| 01|  0|   |")) C_OK (fun h => (gN h =? 3) && (gM h =? 0))) as (h & E & K); [vm_compute; reflexivity|].
  exists h. split; [exact E|]. lia.
Qed.
Print Assumptions C27_string_refuted.

(** ** C28 *)
(** A loop is an error, wherever it is listed. *)
Theorem C28_loop_refuted : forall k, exists h,
  gp_Read (10 + k) gp_New (txt "N=2|1: 1 2 0|2: 1 0|") = Ret (h, C_NOTOK).
Proof.
  intros k. destruct (outcome_ok (gp_Read (10 + k) gp_New (txt "N=2|1: 1 2 0|2: 1 0|")) C_NOTOK (fun h => true)) as (h & E & _); [vm_compute; reflexivity|].
  exists h. exact E.
Qed.
Print Assumptions C28_loop_refuted.
(** A neighbour listed twice at both ends gives three parallel edges, two of them directed. *)
Theorem C28_repeat_refuted : forall k, exists h,
  gp_Read (10 + k) gp_New (txt "N=2|1: 2 2 0|2: 1 1 0|") = Ret (h, C_OK) /\ gM h = 3 /\ map (enbr h) (arcs h 1) = [2; 2; 2].
Proof.
  intros k. destruct (outcome_ok (gp_Read (10 + k) gp_New (txt "N=2|1: 2 2 0|2: 1 1 0|")) C_OK
    (fun h => (gM h =? 3) && (if list_eq_dec Z.eq_dec (map (enbr h) (arcs h 1)) [2; 2; 2] then true else false))) as (h & E & K); [vm_compute; reflexivity|].
  exists h. split; [exact E|]. apply andb_true_iff in K. destruct K as [K1 K2]. split; [lia|].
  destruct (list_eq_dec Z.eq_dec (map (enbr h) (arcs h 1)) [2; 2; 2]); [assumption|discriminate].
Qed.
Print Assumptions C28_repeat_refuted.

(** Texts without loops and repetitions in which every edge is listed at both ends are read to
    exactly the listed neighbours, in the listed order from last to first.  Missing: loops and
    repetitions (refuted above); edges listed at one end only, which become directed. *)
Theorem C28_read_lists_partial : forall n off L fuel,
  (forall v w, In w (L v) -> 1 <= v <= n /\ 1 <= w <= n) -> (forall v, NoDup (L v)) ->
  (forall v w, In w (L v) -> In v (L w)) -> (forall v, ~ In v (L v)) ->
  1 <= n <= 32768 -> off = 0 \/ off = 1 -> n <= Z.of_nat fuel ->
  exists h adj, gp_Read fuel gp_New (adj_text n off L) = Ret (h, C_OK) /\ rep h adj /\ simple h adj /\
    gN h = n /\ zero_based h = (off =? 1) /\ undirected h adj /\ forall v, nbr_lists h adj v = L v.
Proof.
  intros n off L fuel H1 H2 H3 H4 Hn Ho Hf.
  assert (HL : lists_ok n L) by (constructor; auto).
  destruct (read_adj_ok true n off L fuel HL Hn Ho ltac:(lia)) as (h & adj & E & R & EN & EF & Fl & LL).
  exists h, adj. split.
  - rewrite (proj2 (proj2 (list_header fuel gp_New n off L))). cbn [mk] in E. rewrite E. reflexivity.
  - split; [exact R|]. rewrite <- EN in HL. destruct (lists_simple h adj L R HL LL) as [S _]. split; [exact S|]. split; [exact EN|].
    split; [unfold zero_based; rewrite EF; destruct (off =? 1); reflexivity|]. split; [|exact LL].
    intros v e He. rewrite Fl; [reflexivity|]. exact (ch_range _ _ (rep_chains _ _ R) _ _ He).
Qed.
Print Assumptions C28_read_lists_partial.
Definition path_lists (v : Z) : list Z := if v =? 1 then [2] else if v =? 2 then [1; 3] else if v =? 3 then [2] else [].
Example path_lists_case : (forall v w, In w (path_lists v) -> 1 <= v <= 3 /\ 1 <= w <= 3) /\ (forall v, NoDup (path_lists v)) /\
  (forall v w, In w (path_lists v) -> In v (path_lists w)) /\ (forall v, ~ In v (path_lists v)) /\
  adj_text 3 0 path_lists = txt "N=3|1: 2 0|2: 3 1 0|3: 2 0|".
Proof.
  split; [|split; [|split; [|split; [|reflexivity]]]]; unfold path_lists.
  - intros v w. destruct (Z.eqb_spec v 1); [cbn; lia|]. destruct (Z.eqb_spec v 2); [cbn; lia|]. destruct (Z.eqb_spec v 3); cbn; lia.
  - intros v. destruct (v =? 1); [|destruct (v =? 2); [|destruct (v =? 3)]]; repeat constructor; cbn; lia.
  - intros v w. destruct (Z.eqb_spec v 1) as [->|]; [|destruct (Z.eqb_spec v 2) as [->|]; [|destruct (Z.eqb_spec v 3) as [->|]]]; cbn.
    + intros [<-|[]]. cbn. auto.
    + intros [<-|[<-|[]]]; cbn; auto.
    + intros [<-|[]]. cbn. auto.
    + intros [].
  - intros v. destruct (Z.eqb_spec v 1); [cbn; lia|]. destruct (Z.eqb_spec v 2); [cbn; lia|]. destruct (Z.eqb_spec v 3); cbn; lia.
Qed.

(** ** C29 *)
(** A one-based adjacency list text that stops after the line of some vertex but the last one is
    rejected.  Missing: other truncation points (some are refuted below). *)
Theorem C29_missing_lines_partial : forall n m L fuel,
  (forall v w, In w (L v) -> 1 <= v <= n /\ 1 <= w <= n) -> (forall v, NoDup (L v)) ->
  (forall v w, In w (L v) -> In v (L w)) -> (forall v, ~ In v (L v)) ->
  1 <= m < n -> n <= 32768 -> n <= Z.of_nat fuel ->
  forall rd, rd = gp_Read \/ rd = gp_ReadFromString ->
  exists h, rd fuel gp_New ([78; 61] ++ dec n ++ [10] ++ concat (map (adj_line 0 L) (from 1 m))) = Ret (h, C_NOTOK).
Proof.
  intros n m L fuel H1 H2 H3 H4 Hm Hn Hf rd Hrd.
  assert (HL : lists_ok n L) by (constructor; auto).
  change (from 1 m) with (zrange 1 (Z.to_nat m)). set (text := _ ++ _).
  assert (FIN : forall k, exists h, _ReadAdjList fuel gp_New (mk k text) = Ret (h, mk k [], C_NOTOK)).
  { intros k. apply read_cut_ok; auto; lia. }
  destruct Hrd as [->| ->].
  - destruct (FIN true) as (h & E). exists h. unfold gp_Read, text.
    assert (GL : exists r, fst (get_line None (78 :: 61 :: dec n ++ [10] ++ concat (map (adj_line 0 L) (zrange 1 (Z.to_nat m))))) = Some (78 :: 61 :: r)).
    { unfold get_line. set (s := dec n ++ _). change (fgets_take 254 (78 :: 61 :: s)) with (let '(t, r) := (let '(t, r) := fgets_take 252 s in (61 :: t, r)) in (78 :: t, r)).
      destruct (fgets_take 252 s) as [t r]. exists t. reflexivity. }
    destruct GL as (r & GL). cbn [app] in GL |- *. rewrite GL. cbn [line_text bind].
    replace (starts_with leda_tag (78 :: 61 :: r)) with false by reflexivity. replace (starts_with list_tag (78 :: 61 :: r)) with true by reflexivity.
    cbn [mk] in E. unfold text in E. cbn [app] in E. rewrite E. reflexivity.
  - destruct (FIN false) as (h & E). exists h. unfold gp_ReadFromString.
    replace (starts_with leda_tag text) with false by reflexivity. replace (starts_with list_tag text) with true by reflexivity.
    cbn [mk] in E. rewrite E. reflexivity.
Qed.
Print Assumptions C29_missing_lines_partial.
(** A header without a number. *)
Theorem C29_no_order_partial : forall fuel g s rd, rd = gp_Read \/ rd = gp_ReadFromString ->
  skip_ws s = [] -> exists h, rd fuel g ([78; 61] ++ s) = Ret (h, C_NOTOK).
Proof.
  intros fuel g s rd Hrd Hs. exists (fst (gp_InitGraph g (-1))).
  assert (K : forall k, _ReadAdjList fuel g (mk k ([78; 61] ++ s)) = Ret (fst (gp_InitGraph g (-1)), mk k [], C_NOTOK)).
  { intros k. unfold _ReadAdjList. cbv zeta. assert (Es : skip_char (skip_char (mk k ([78; 61] ++ s))) = mk k s) by (destruct k; reflexivity).
    rewrite Es. assert (ER : read_int false true true true (Some (-1)) (mk k s) = Ret (Some (-1), mk k [])).
    { destruct k; cbn [mk read_int]; rewrite ?Hs; unfold scan_int, scan_d; rewrite ?Hs; destruct (Datatypes.length s) as [|[|w]]; cbn; reflexivity. }
    rewrite ER, bind_ret. cbv beta iota. cbn [use bind]. unfold gp_InitGraph. cbn [Z.leb Z.compare]. reflexivity. }
  destruct Hrd as [->| ->].
  - unfold gp_Read. unfold get_line. cbn [app]. change (fgets_take 254 (78 :: 61 :: s)) with (let '(t, r) := (let '(t, r) := fgets_take 252 s in (61 :: t, r)) in (78 :: t, r)).
    destruct (fgets_take 252 s) as [t r]. cbn [fst line_text bind].
    replace (starts_with leda_tag (78 :: 61 :: t)) with false by reflexivity. replace (starts_with list_tag (78 :: 61 :: t)) with true by reflexivity.
    specialize (K true). cbn [mk app] in K. rewrite K. reflexivity.
  - unfold gp_ReadFromString. cbn [app]. replace (starts_with leda_tag (78 :: 61 :: s)) with false by reflexivity.
    replace (starts_with list_tag (78 :: 61 :: s)) with true by reflexivity. specialize (K false). cbn [mk app] in K. rewrite K. reflexivity.
Qed.
Print Assumptions C29_no_order_partial.

(** A matrix without its second row is accepted, with an edge that was never listed. *)
Theorem C29_matrix_refuted : forall fuel, exists h, gp_Read fuel gp_New (txt "3| 01|") = Ret (h, C_OK) /\
  gM h = 2 /\ map (enbr h) (arcs h 3) = [2; 1].
Proof.
  intros fuel. destruct (outcome_ok (gp_Read fuel gp_New (txt "3| 01|")) C_OK
    (fun h => (gM h =? 2) && (if list_eq_dec Z.eq_dec (map (enbr h) (arcs h 3)) [2; 1] then true else false))) as (h & E & K); [vm_compute; reflexivity|].
  exists h. split; [exact E|]. apply andb_true_iff in K. destruct K as [K1 K2]. split; [lia|].
  destruct (list_eq_dec Z.eq_dec (map (enbr h) (arcs h 3)) [2; 1]); [assumption|discriminate].
Qed.
Print Assumptions C29_matrix_refuted.
(** With no row at all an uninitialised flag is used. *)
Theorem C29_matrix_uninitialised_refuted : forall fuel, gp_Read fuel gp_New (txt "3") = UB.
Proof. reflexivity. Qed.
Print Assumptions C29_matrix_uninitialised_refuted.
(** A list that stops in the last line is accepted, and the edge becomes directed. *)
Theorem C29_list_refuted : forall k, exists h, gp_Read (10 + k) gp_New (txt "N=2|1: 2 0|2:") = Ret (h, C_OK) /\
  gM h = 1 /\ map (eflags h) (arcs h 2) = [32].
Proof.
  intros k. destruct (outcome_ok (gp_Read (10 + k) gp_New (txt "N=2|1: 2 0|2:")) C_OK
    (fun h => (gM h =? 1) && (if list_eq_dec Z.eq_dec (map (eflags h) (arcs h 2)) [32] then true else false))) as (h & E & K); [vm_compute; reflexivity|].
  exists h. split; [exact E|]. apply andb_true_iff in K. destruct K as [K1 K2]. split; [lia|].
  destruct (list_eq_dec Z.eq_dec (map (eflags h) (arcs h 2)) [32]); [assumption|discriminate].
Qed.
Print Assumptions C29_list_refuted.
(** A zero-based list in a string that stops after the line of the first vertex is read beyond its end. *)
Theorem C29_string_refuted : forall k, gp_ReadFromString (10 + k) gp_New (txt "N=2|0: 1 -1|") = UB.
Proof. intros k. vm_compute. reflexivity. Qed.
Print Assumptions C29_string_refuted.

(** ** C47 *)
Theorem C47_leda : forall n pairs text fuel, 1 <= n <= 32768 -> Z.of_nat (length pairs) <= INT_MAX ->
  Forall (fun p => 1 <= fst p <= n /\ 1 <= snd p <= n) pairs -> leda_file n pairs text ->
  exists h adj, gp_Read fuel gp_New text = Ret (h, C_OK) /\ rep h adj /\ simple h adj /\ primary_edges h adj /\ gN h = n /\
    (forall x y, adjacent h adj x y <-> x <> y /\ (In (x, y) pairs \/ In (y, x) pairs)) /\ zero_based h = false.
Proof.
  intros n pairs text fuel Hn Hm HR HF. destruct (leda_ok n pairs text fuel Hn Hm HR HF) as (h & adj & E & (R & S & P) & K).
  exists h, adj. auto.
Qed.
Print Assumptions C47_leda.
Example leda_case : leda_file 3 [(1, 2); (2, 2); (2, 1); (3, 1)]
  (txt "LEDA.GRAPH|void|void|3|_{}_|_{}_|_{}_|4|1 2 0 _{}_|2 2 0|2 1 0|3 1 0 _{}_|# end").
Proof.
  exists [], (txt "void"), (txt "void"), [], [txt "_{}_"; txt "_{}_"; txt "_{}_"], [],
    [((1, 2), txt " 0 _{}_"); ((2, 2), txt " 0"); ((2, 1), txt " 0"); ((3, 1), txt " 0 _{}_")], (txt "# end").
  split; [vm_compute; reflexivity|]. split; [reflexivity|]. split; [reflexivity|]. split; [|split; [exact I|split; [exact I|]]].
  - assert (K : forall l, (if in_dec Z.eq_dec 10 l then false else (length l <=? 253)%nat) = true -> plain_line l).
    { intros l. destruct (in_dec Z.eq_dec 10 l); [discriminate|]. intros H. split; [assumption|]. apply Nat.leb_le. exact H. }
    repeat (constructor; [apply K; vm_compute; reflexivity|]). constructor.
  - repeat (constructor; [cbn; lia|]). constructor.
Qed.
(** Numbers out of range are not checked. *)
Theorem C47_range_refuted : forall fuel, gp_Read fuel gp_New (txt "LEDA.GRAPH|void|void|1|_{}_|1|9 1 0|") = UB.
Proof. intros fuel. vm_compute. reflexivity. Qed.
Print Assumptions C47_range_refuted.
