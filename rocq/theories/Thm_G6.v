(** * C22-C24, C51, C52: the graph6 format. *)
From Coq Require Import ZifyBool.
From Verif Require Import Base BaseP StrBufM StrFileM StrFileSpec GraphRec GraphM GraphSpec DFSSpec RandSpec G6M G6Spec
  GSimp GraphP GraphP2 GraphP3 GraphP4 GraphP5 GraphEx CopyP RandP RandP2 StrFileP G6P G6P2 G6P3 G6P4 G6P5 G6P6.

(** ** C22 *)
(** Writing a simple graph gives exactly the graph6 text of its adjacency test. *)
Theorem C22_write_string :
  forall g n A, is_graph g n A -> 2 <= n <= 46341 ->
    _WriteGraphToG6String g = Ret (Some (g6_text n A ++ [0]), C_OK).
Proof. intros g n A H Hn. apply write_string_ok; [auto|lia|unfold INT_MAX; nia]. Qed.
Print Assumptions C22_write_string.

Theorem C22_write_file :
  forall g n A, is_graph g n A -> 2 <= n <= 46341 -> _WriteGraphToG6File g = Ret (g6_text n A, C_OK).
Proof. intros g n A H Hn. apply write_file_ok; [auto|lia|unfold INT_MAX; nia]. Qed.
Print Assumptions C22_write_file.

Lemma readable_nm g n : readable g n -> 2 <= n <= 100000 /\ n * (n - 1) <= INT_MAX.
Proof.
  intros [[_ H]|(_ & _ & H & _ & HC & R)].
  - unfold INT_MAX. nia.
  - split; [auto|]. unfold room in R. lia.
Qed.
Lemma c_str_text s : (forall x, In x s -> x <> 0) -> c_str (s ++ [0]) = Ret s.
Proof. intros H. rewrite c_str_app; auto. Qed.

(** Reading a graph6 text, with or without the header, up to the end or an end of line. *)
Theorem C22_read_file :
  forall g n A h rest, readable g n -> h = [] \/ h = g6_head -> line_of rest = [] -> (forall x, In x rest -> x <> 0) ->
    exists g', _ReadGraphFromG6FilePointer g (h ++ g6_order n ++ g6_body n A ++ rest) = Ret (g', C_OK) /\ is_graph g' n A.
Proof.
  intros g n A h rest Hr Hh HL HZ. destruct (readable_nm _ _ Hr) as [Hn NM].
  destruct (read_with_ok true h g n A rest Hh Hr NM HL HZ) as (g' & E & IG). exists g'. split; [exact E|auto].
Qed.
Print Assumptions C22_read_file.

Theorem C22_read_string :
  forall g n A h rest, readable g n -> h = [] \/ h = g6_head -> line_of rest = [] -> (forall x, In x rest -> x <> 0) ->
    exists g', _ReadGraphFromG6String g ((h ++ g6_order n ++ g6_body n A ++ rest) ++ [0]) = Ret (g', C_OK) /\ is_graph g' n A.
Proof.
  intros g n A h rest Hr Hh HL HZ. destruct (readable_nm _ _ Hr) as [Hn NM].
  destruct (read_with_ok false h g n A rest Hh Hr NM HL HZ) as (g' & E & IG). exists g'. split; [|auto].
  unfold _ReadGraphFromG6String. rewrite c_str_text by (apply text_nz; auto; lia). rewrite bind_ret. unfold str_len.
  assert (L : (0 < length (h ++ g6_order n ++ g6_body n A ++ rest))%nat).
  { rewrite !app_length. pose proof (order_len n) as OL. unfold nco in OL. destruct (n <? 63); lia. }
  replace (_ =? 0) with false by lia. unfold begin_read_str. rewrite c_str_text by (apply text_nz; auto; lia). rewrite bind_ret. unfold str_len.
  replace (_ <=? 0) with false by lia. exact E.
Qed.
Print Assumptions C22_read_string.

(** The round trip, without the encoding: the graph read has the order and the adjacencies of the
    one written. *)
Theorem C22_round_trip :
  forall g adj, rep g adj -> simple g adj -> primary_edges g adj -> 2 <= gN g <= 32768 ->
    exists text h adj', _WriteGraphToG6String g = Ret (Some text, C_OK) /\
      _ReadGraphFromG6String gp_New text = Ret (h, C_OK) /\
      rep h adj' /\ simple h adj' /\ gN h = gN g /\
      forall u v, 1 <= u < v -> v <= gN g -> (adjacent h adj' u v <-> adjacent g adj u v).
Proof.
  intros g adj R S P Hn.
  assert (IG : is_graph g (gN g) (adjb g adj)).
  { split; [auto|]. exists adj. split; [split; [auto|split; auto]|]. intros u v _ _. apply adjb_spec. }
  destruct (C22_read_string gp_New (gN g) (adjb g adj) g6_head []) as (h & E & NH & adj' & (R' & S' & _) & HA).
  - left. auto.
  - auto.
  - reflexivity.
  - intros x [].
  - exists (g6_text (gN g) (adjb g adj) ++ [0]), h, adj'. split; [apply C22_write_string; [auto|lia]|].
    split; [unfold g6_text; rewrite app_nil_r in E; exact E|]. do 3 (split; [auto|]).
    intros u v Hu Hv. rewrite <- HA by auto. apply adjb_spec.
Qed.
Print Assumptions C22_round_trip.

Theorem C22_round_trip_file :
  forall g adj, rep g adj -> simple g adj -> primary_edges g adj -> 2 <= gN g <= 32768 ->
    exists text h adj', _WriteGraphToG6File g = Ret (text, C_OK) /\
      _ReadGraphFromG6FilePointer gp_New text = Ret (h, C_OK) /\
      rep h adj' /\ simple h adj' /\ gN h = gN g /\
      forall u v, 1 <= u < v -> v <= gN g -> (adjacent h adj' u v <-> adjacent g adj u v).
Proof.
  intros g adj R S P Hn.
  assert (IG : is_graph g (gN g) (adjb g adj)).
  { split; [auto|]. exists adj. split; [split; [auto|split; auto]|]. intros u v _ _. apply adjb_spec. }
  destruct (C22_read_file gp_New (gN g) (adjb g adj) g6_head []) as (h & E & NH & adj' & (R' & S' & _) & HA).
  - left. auto.
  - auto.
  - reflexivity.
  - intros x [].
  - exists (g6_text (gN g) (adjb g adj)), h, adj'. split; [apply C22_write_file; [auto|lia]|].
    split; [unfold g6_text; rewrite app_nil_r in E; exact E|]. do 3 (split; [auto|]).
    intros u v Hu Hv. rewrite <- HA by auto. apply adjb_spec.
Qed.
Print Assumptions C22_round_trip_file.

(** The example of the format's definition: five vertices, edges 0-2, 0-4, 1-3, 3-4: "DQc". *)
Definition demo_mat : mat := fun u v => existsb (fun p => (fst p =? u) && (snd p =? v)) [(1, 3); (1, 5); (2, 4); (4, 5)].
Example g6_text_case : g6_text 5 demo_mat = g6_head ++ [68; 81; 99].
Proof. reflexivity. Qed.
(** 63 vertices, no edges but 0-1 and 61-62: the four-character order, and 326 characters. *)
Example g6_text_case_63 :
  let A := fun u v => ((u =? 1) && (v =? 2)) || ((u =? 62) && (v =? 63)) in
  g6_order 63 = [126; 63; 63; 126] /\ length (g6_body 63 A) = 326%nat /\ hd 0 (g6_body 63 A) = 95 /\ last (g6_body 63 A) 0 = 71.
Proof. cbv zeta. split; [reflexivity|]. split; [vm_compute; reflexivity|]. split; vm_compute; reflexivity. Qed.
Example g6_write_case :
  _WriteGraphToG6String (built 0 5 (adds [(4, 5); (3, 1); (1, 5); (4, 2)])) = Ret (Some (g6_head ++ [68; 81; 99; 0]), C_OK).
Proof. vm_compute. reflexivity. Qed.
(** The hypotheses are met: every adjacency test belongs to a graph, and a new graph is readable. *)
Example g6_case : forall n A, 2 <= n <= 32768 -> readable gp_New n /\ exists g, is_graph g n A.
Proof.
  intros n A Hn. assert (R : readable gp_New n) by (left; auto). split; [auto|].
  destruct (C22_read_file gp_New n A [] [] R (or_introl eq_refl) eq_refl) as (g & _ & H); [intros x []|eauto].
Qed.
Example g6_case_again : readable (built 0 5 (adds [(4, 5); (3, 1)])) 5.
Proof.
  right. split; [|split; [|split; [|split; [|split]]]].
  - destruct (reach_inv _ (built_reach 0 5 (adds [(4, 5); (3, 1)]) eq_refl)) as ((adj & R) & _). exists adj. apply R.
  - vm_compute; reflexivity.
  - lia.
  - vm_compute; congruence.
  - vm_compute; reflexivity.
  - vm_compute; congruence.
Qed.

(** An order of one is outside the range of the property: the graph is not written at all. *)
Theorem C22_order_one_not_written :
  exists g, reach g /\ gN g = 1 /\ _WriteGraphToG6String g = Ret (None, C_NOTOK).
Proof. exists (built 0 1 []). split; [apply built_reach; reflexivity|]. split; vm_compute; reflexivity. Qed.
Print Assumptions C22_order_one_not_written.

(** ** C23 *)
(** Up to 46341 vertices the sizes are computed without overflow, the number of characters is the
    least multiple that holds all pairs, and writing any simple graph stays inside its buffers (the
    results of C22 are not UB). *)
Theorem C23_sizes_partial :
  forall n, 1 <= n <= 46341 -> exists c, _getNumCharsForGraphEncoding n = Ret c /\
    6 * (c - 1) < n * (n - 1) / 2 <= 6 * c /\ 0 <= c.
Proof.
  intros n Hn. exists (nce n). split; [apply num_chars; [lia|unfold INT_MAX; nia]|].
  pose proof (nce_bounds n ltac:(lia)) as [H1 H2]. pose proof (tri2 n). pose proof (tri_nonneg n).
  replace (n * (n - 1) / 2) with (tri n) by (apply Z.div_unique_exact; lia). lia.
Qed.
Print Assumptions C23_sizes_partial.

Definition no_oof {A} (m : res A) : Prop := m <> OOF.
Lemma no_oof_bind {A B} (m : res A) (f : A -> res B) : no_oof m -> (forall x, no_oof (f x)) -> no_oof (x <- m ;; f x).
Proof. unfold no_oof. destruct m; cbn [bind]; auto; congruence. Qed.
Lemma no_oof_for {A} (body : Z -> A -> res A) : (forall i s, no_oof (body i s)) -> forall m i s, no_oof (for_up m i body s).
Proof.
  intros H. induction m as [|m IH]; intros i s; cbn [for_up]; [discriminate|]. apply no_oof_bind; auto.
Qed.
Lemma no_oof_guard {A} b (m : res A) : no_oof m -> no_oof (guard b m).
Proof. unfold no_oof, guard. destruct b; auto. intros _. discriminate. Qed.
Lemma offsets_no_oof b n : no_oof (_precomputeColumnOffsets b n).
Proof.
  unfold _precomputeColumnOffsets.
  assert (W : forall b i x, no_oof (b_wr b i x)) by (intros; unfold b_wr; apply no_oof_guard; discriminate).
  assert (Rd : forall b i, no_oof (b_rd b i)) by (intros; unfold b_rd; apply no_oof_guard; discriminate).
  assert (Ad : forall x y, no_oof (iadd x y)) by (intros; unfold iadd; apply no_oof_guard; discriminate).
  apply no_oof_bind; [auto|]. intros b1. apply no_oof_bind; [auto|]. intros b2. apply no_oof_for.
  intros i s. apply no_oof_bind; [auto|]. intros x. apply no_oof_bind; auto.
Qed.
Lemma chars_ub n : 46342 <= n -> _getNumCharsForGraphEncoding n = UB.
Proof.
  intros H. unfold _getNumCharsForGraphEncoding, _getMaxEdgeCount, imul, guard.
  replace (int_ok (n * (n - 1))) with false by (unfold int_ok, INT_MAX; nia). reflexivity.
Qed.

(** Beyond that, within the documented limit, every write overflows int. *)
Theorem C23_overflow_refuted :
  forall g, 46342 <= gN g <= 100000 -> _WriteGraphToG6String g = UB /\ _WriteGraphToG6File g = UB.
Proof.
  intros g Hn.
  assert (K : forall it out r, sf_fputs g6_header out = Ret r -> (fst r <? 0) = false -> begin_write it out g = UB).
  { intros it out [r o] E Er. cbn [fst] in Er. unfold begin_write, _beginG6WriteIteration. cbn [w_out]. rewrite E, bind_ret. cbv beta iota. rewrite Er.
    pose proof (offsets_no_oof (mkBlk (gN g + 1) (fun _ => 0)) (gN g)) as NO.
    destruct (_precomputeColumnOffsets (mkBlk (gN g + 1) (fun _ => 0)) (gN g)) as [o'| |]; [|reflexivity|exfalso; now apply NO].
    rewrite bind_ret, chars_ub by lia. reflexivity. }
  split.
  - unfold _WriteGraphToG6String, allocateG6WriteIterator. replace (gN g <=? 0) with false by lia. cbv iota.
    erewrite K; [reflexivity|vm_compute; reflexivity|vm_compute; reflexivity].
  - unfold _WriteGraphToG6File, allocateG6WriteIterator. replace (gN g <=? 0) with false by lia. cbv iota.
    erewrite K; [reflexivity|vm_compute; reflexivity|vm_compute; reflexivity].
Qed.
Print Assumptions C23_overflow_refuted.
Example overflow_case : exists g, reach g /\ 46342 <= gN g <= 100000.
Proof.
  destruct (new_graph_ok 50000 ltac:(lia)) as (g & E & _ & HN & _). exists g. split; [|lia].
  apply (reach_init 0 50000); [lia|]. unfold fresh_graph. cbn [gp_EnsureArcCapacity Z.leb Z.compare bind]. now rewrite E.
Qed.

(** ** C24 *)
(** The one-shot functions never report anything: whatever a file holds, a read that comes back
    comes back with OK; a string needs only to be non-empty. *)
Theorem C24_file_refuted :
  forall g content g' r, _ReadGraphFromG6FilePointer g content = Ret (g', r) -> r = C_OK.
Proof.
  intros g content g' r. unfold _ReadGraphFromG6FilePointer, read_graph_with.
  destruct (begin_read_file allocateG6ReadIterator content g) as [[[it g1] r1]| |]; cbn [bind]; try discriminate.
  destruct (negb (r1 =? C_OK)); [intros [= _ <-]; reflexivity|].
  destruct (readGraphUsingG6ReadIterator it g1) as [[[it2 g2] r2]| |]; cbn [bind]; try discriminate.
  intros [= _ <-]; reflexivity.
Qed.
Print Assumptions C24_file_refuted.
Theorem C24_string_refuted :
  forall g x s g' r, x <> 0 -> _ReadGraphFromG6String g (x :: s) = Ret (g', r) -> r = C_OK.
Proof.
  intros g x s g' r Hx. unfold _ReadGraphFromG6String. cbn [c_str]. replace (x =? 0) with false by lia.
  destruct (c_str s) as [t| |]; cbn [bind]; try discriminate. unfold str_len. cbn [length]. replace (_ =? 0) with false by lia.
  unfold read_graph_with. destruct (begin_read_str allocateG6ReadIterator (x :: s) g) as [[[it g1] r1]| |]; cbn [bind]; try discriminate.
  destruct (negb (r1 =? C_OK)); [intros [= _ <-]; reflexivity|].
  destruct (readGraphUsingG6ReadIterator it g1) as [[[it2 g2] r2]| |]; cbn [bind]; try discriminate.
  intros [= _ <-]; reflexivity.
Qed.
Print Assumptions C24_string_refuted.
(** Texts that are no graph6 at all come back with OK: "#", and "DQ" (too short). *)
Example c24_case :
  (exists g', _ReadGraphFromG6String gp_New [35; 0] = Ret (g', C_OK) /\ gN g' = 0) /\
  (exists g', _ReadGraphFromG6String gp_New [68; 81; 0] = Ret (g', C_OK) /\ gN g' = 5 /\ gM g' = 0) /\
  (exists g', _ReadGraphFromG6FilePointer gp_New [] = Ret (g', C_OK) /\ gN g' = 0).
Proof. split; [|split]; eexists; (split; [vm_compute; reflexivity|]); vm_compute; auto. Qed.

(** The iterator does report: after the order, the first line read is accepted exactly if it is
    the encoding of some graph, else NOTOK comes back and the graph is left alone. *)
Definition reports (n : Z) (it : riter) (g0 : graph) (s : list Z) : Prop :=
  (exists A it' g', line_of s = g6_body n A /\ readGraphUsingG6ReadIterator it g0 = Ret (it', g', C_OK) /\ is_graph g' n A) \/
  ((forall A, line_of s <> g6_body n A) /\ exists it', readGraphUsingG6ReadIterator it g0 = Ret (it', g0, C_NOTOK)).
Lemma reports_ok k h n s g : readable g n -> h = [] \/ h = g6_head -> s <> [] -> (forall x, In x s -> x <> 0) ->
  exists it g0, _beginG6ReadIteration allocateG6ReadIterator (cont k [] (h ++ g6_order n ++ s)) g = Ret (it, g0, C_OK) /\ reports n it g0 s.
Proof.
  intros Hr Hh Hs HZ. destruct (readable_nm _ _ Hr) as [Hn NM].
  destruct (begin_ok k h s g n Hh Hr NM) as (C & g0 & b & E & B1 & S0 & C1 & C2).
  exists (rit k (h ++ g6_order n) s 0 n b), g0. split; [exact E|].
  assert (NZ : forall x, In x ((h ++ g6_order n) ++ s) -> x <> 0).
  { intros x Hx. apply in_app_or in Hx. destruct Hx as [Hx|Hx]; [|auto]. apply in_app_or in Hx. destruct Hx as [Hx|Hx].
    - destruct Hh as [-> | ->]; [destruct Hx|]. unfold g6_head in Hx. simpl in Hx. lia.
    - apply order_range in Hx; lia. }
  destruct (list_eq_dec Z.eq_dec (line_of s) (g6_body n (mat_from (line_of s)))) as [EQ|NE].
  - left. destruct (read_line k (h ++ g6_order n) s 0 n b g0 C (mat_from (line_of s))) as (r & b1 & g' & adj' & _ & _ & ER & IG & _); auto; [lia|].
    exists (mat_from (line_of s)). eauto.
  - right. assert (NA : forall A, line_of s <> g6_body n A).
    { intros A EA. apply NE. apply wf_body_is; [lia|]. rewrite EA. apply wf_body_of. lia. }
    split; [auto|]. eapply read_bad; eauto; lia.
Qed.

Theorem C24_iterator_file_partial :
  forall g n h s, readable g n -> h = [] \/ h = g6_head -> s <> [] -> (forall x, In x s -> x <> 0) ->
    exists it g0, begin_read_file allocateG6ReadIterator (h ++ g6_order n ++ s) g = Ret (it, g0, C_OK) /\ reports n it g0 s.
Proof. intros g n h s. apply (reports_ok true). Qed.
Print Assumptions C24_iterator_file_partial.

Theorem C24_iterator_string_partial :
  forall g n h s, readable g n -> h = [] \/ h = g6_head -> s <> [] -> (forall x, In x s -> x <> 0) ->
    exists it g0, begin_read_str allocateG6ReadIterator ((h ++ g6_order n ++ s) ++ [0]) g = Ret (it, g0, C_OK) /\ reports n it g0 s.
Proof.
  intros g n h s Hr Hh Hs HZ. destruct (readable_nm _ _ Hr) as [Hn NM]. unfold begin_read_str. rewrite c_str_text.
  - rewrite bind_ret. unfold str_len.
    assert (L : (0 < length (h ++ g6_order n ++ s))%nat).
    { rewrite !app_length. pose proof (order_len n) as OL. unfold nco in OL. destruct (n <? 63); lia. }
    replace (_ <=? 0) with false by lia. exact (reports_ok false h n s g Hr Hh Hs HZ).
  - intros x Hx. apply in_app_or in Hx. destruct Hx as [Hx|Hx].
    + destruct Hh as [-> | ->]; [destruct Hx|]. unfold g6_head in Hx. simpl in Hx. lia.
    + apply in_app_or in Hx. destruct Hx as [Hx|Hx]; [apply order_range in Hx; lia|auto].
Qed.
Print Assumptions C24_iterator_string_partial.

(** A text that does not begin with an order, or with a damaged header, is rejected at once. *)
Lemma get_chars_cont k : forall j pre s, (forall x, In x s -> x <> 0) ->
  exists c, get_chars j (cont k pre s) = Ret (firstn j s ++ repeat C_EOF (j - length s), c).
Proof.
  induction j as [|j IH]; intros pre s H; cbn [get_chars]; [eexists; rewrite firstn_O; reflexivity|].
  destruct s as [|x s].
  - rewrite getc_eof, bind_ret. cbv beta iota. destruct (IH pre [] H) as (c & E). rewrite E, bind_ret. cbv beta iota.
    rewrite firstn_nil. cbn [app length Nat.sub repeat]. rewrite Nat.sub_0_r. eauto.
  - rewrite getc_cont, bind_ret by (apply H; simpl; auto). cbv beta iota.
    destruct (IH (pre ++ [x]) s) as (c & E); [intros y Hy; apply H; simpl; auto|]. rewrite E, bind_ret. cbv beta iota. eauto.
Qed.
Lemma list_eqb_eq a b : list_eqb a b = true -> a = b.
Proof.
  revert b. induction a as [|x a IH]; intros [|y b]; cbn [list_eqb]; try discriminate; auto.
  intros H. apply andb_true_iff in H. destruct H as [H1 H2]. f_equal; [lia|auto].
Qed.

Theorem C24_bad_start_partial :
  forall (k : bool) text g, (forall x, In x text -> x <> 0 /\ x <> C_EOF) ->
    (text = [] \/ (exists x s, text = x :: s /\ ~ (62 <= x <= 126)) \/
     (exists s, text = 62 :: s /\ forall r, text <> g6_head ++ r) \/
     (exists x s, text = g6_head ++ x :: s /\ ~ (63 <= x <= 126))) ->
    exists it, _beginG6ReadIteration allocateG6ReadIterator (if k then sf_NewFile text else sf_NewStr (text ++ [0])) g = Ret (it, g, C_NOTOK).
Proof.
  intros k text g H Hc. change (if k then sf_NewFile text else sf_NewStr (text ++ [0])) with (cont k [] text).
  unfold _beginG6ReadIteration. destruct Hc as [-> |[(x & s & -> & Hx)|[(s & -> & Hx)|(x & s & -> & Hx)]]].
  - rewrite getc_eof, bind_ret. cbv beta iota. rewrite Z.eqb_refl. eauto.
  - destruct (H x (or_introl eq_refl)) as [X1 X2]. rewrite getc_cont, bind_ret by auto. cbv beta iota. replace (x =? C_EOF) with false by lia.
    rewrite ungetc_cont, bind_ret by auto. cbv beta iota. rewrite Z.eqb_refl. cbn [negb]. replace (x =? 62) with false by lia. rewrite bind_ret. cbv beta iota.
    change (negb (C_OK =? C_OK)) with false. cbv iota. rewrite getc_cont, bind_ret by auto. cbv beta iota. rewrite ungetc_cont, bind_ret by auto. cbv beta iota.
    rewrite Z.eqb_refl. cbn [negb]. destruct (negb (_firstCharIsValid x)); [eauto|].
    unfold _getGraphOrder. rewrite getc_cont, bind_ret by auto. cbv beta iota.
    replace (x =? 126) with false by lia. replace ((x >? 62) && (x <? 126)) with false by lia. cbn [bind]. eexists. reflexivity.
  - rewrite getc_cont, bind_ret by lia. cbv beta iota. change (62 =? C_EOF) with false. cbv iota.
    rewrite ungetc_cont, bind_ret by (unfold C_EOF; lia). cbv beta iota. rewrite Z.eqb_refl. cbn [negb].
    unfold _processAndCheckHeader. destruct (get_chars_cont k 10 [] (62 :: s)) as (c & E); [intros y Hy; apply H; auto|].
    rewrite E. cbn [bind]. destruct (list_eqb _ g6_header) eqn:EH; [exfalso|cbn [bind]; eexists; reflexivity].
    apply list_eqb_eq in EH. apply (Hx (skipn 10 (62 :: s))). change g6_head with g6_header. rewrite <- EH.
    assert (EP : repeat C_EOF (10 - length (62 :: s)) = []).
    { destruct (10 - length (62%Z :: s))%nat as [|q] eqn:Eq; [reflexivity|exfalso].
      assert (X : In C_EOF g6_header) by (rewrite <- EH; apply in_or_app; right; cbn [repeat]; simpl; auto).
      unfold g6_header, C_EOF in X. simpl in X. lia. }
    rewrite EP, app_nil_r. now rewrite firstn_skipn.
  - assert (XI : In x (g6_head ++ x :: s)) by (apply in_or_app; right; simpl; auto). destruct (H x XI) as [X1 X2].
    change (g6_head ++ x :: s) with (62 :: tl g6_head ++ x :: s). rewrite getc_cont, bind_ret by lia. cbv beta iota. change (62 =? C_EOF) with false. cbv iota.
    rewrite ungetc_cont, bind_ret by (unfold C_EOF; lia). cbv beta iota. rewrite Z.eqb_refl. cbn [negb].
    change (62 =? 62) with true. cbv iota. change (62 :: tl g6_head ++ x :: s) with (g6_head ++ x :: s). rewrite header_ok, bind_ret. cbv beta iota.
    change (negb (C_OK =? C_OK)) with false. cbv iota. rewrite getc_cont, bind_ret by auto. cbv beta iota. rewrite ungetc_cont, bind_ret by auto. cbv beta iota.
    rewrite Z.eqb_refl. cbn [negb]. destruct (negb (_firstCharIsValid x)); [eauto|].
    unfold _getGraphOrder. rewrite getc_cont, bind_ret by auto. cbv beta iota.
    replace (x =? 126) with false by lia. replace ((x >? 62) && (x <? 126)) with false by lia. cbn [bind]. eexists. reflexivity.
Qed.
Print Assumptions C24_bad_start_partial.

(** An order over the limit of 100000 is rejected. *)
Theorem C24_order_limit_partial :
  forall (k : bool) h x y z s g, h = [] \/ h = g6_head -> 63 <= x < 126 -> 63 <= y <= 126 -> 63 <= z <= 126 ->
    4096 * (x - 63) + 64 * (y - 63) + (z - 63) > 100000 ->
    let text := h ++ 126 :: x :: y :: z :: s in
    exists it, _beginG6ReadIteration allocateG6ReadIterator (if k then sf_NewFile text else sf_NewStr (text ++ [0])) g = Ret (it, g, C_NOTOK).
Proof. intros k h x y z s g Hh Hx Hy Hz Hb text. exact (begin_big k h x y z s g Hh Hx Hy Hz Hb). Qed.
Print Assumptions C24_order_limit_partial.
Example order_limit_case : 4096 * (87 - 63) + 64 * (89 - 63) + (96 - 63) = 100001.
Proof. reflexivity. Qed.

(** Two texts that do worse: an order character below '?' is shifted as a negative number, and the
    order one followed by an empty line reads before the buffer. *)
Theorem C24_undefined_refuted :
  _ReadGraphFromG6FilePointer gp_New [126; 62; 63; 63] = UB /\
  _ReadGraphFromG6FilePointer gp_New [64; 10] = UB.
Proof. split; vm_compute; reflexivity. Qed.
Print Assumptions C24_undefined_refuted.

(** "DQc" is accepted, "DQ" and "DQd" (padding bits set) are not. *)
Example c24_iterator_case :
  readable gp_New 5 /\
  (exists it g0 it' g', begin_read_file allocateG6ReadIterator [68; 81; 99] gp_New = Ret (it, g0, C_OK) /\
     readGraphUsingG6ReadIterator it g0 = Ret (it', g', C_OK) /\ gM g' = 4) /\
  (exists it g0 it' g', begin_read_file allocateG6ReadIterator [68; 81; 100] gp_New = Ret (it, g0, C_OK) /\
     readGraphUsingG6ReadIterator it g0 = Ret (it', g', C_NOTOK)).
Proof.
  split; [left; split; [auto|lia]|]. split; do 4 eexists; (split; [vm_compute; reflexivity|]); [split|]; vm_compute; reflexivity.
Qed.

(** ** C51 *)
(** A text with one graph per line, all of the same order: the iterator delivers them one by one,
    each exactly, and then the end. *)
Theorem C51_file_sequence :
  forall g n A As h, readable g n -> h = [] \/ h = g6_head ->
    exists it g0, begin_read_file allocateG6ReadIterator (h ++ lines n (A :: As)) g = Ret (it, g0, C_OK) /\ delivers n it g0 (A :: As).
Proof. intros g n A As h Hr Hh. destruct (readable_nm _ _ Hr) as [Hn NM]. exact (deliver_all true h n A As g Hh Hr NM). Qed.
Print Assumptions C51_file_sequence.

Theorem C51_string_sequence :
  forall g n A As h, readable g n -> h = [] \/ h = g6_head ->
    exists it g0, begin_read_str allocateG6ReadIterator ((h ++ lines n (A :: As)) ++ [0]) g = Ret (it, g0, C_OK) /\ delivers n it g0 (A :: As).
Proof.
  intros g n A As h Hr Hh. destruct (readable_nm _ _ Hr) as [Hn NM]. unfold begin_read_str. rewrite c_str_text.
  - rewrite bind_ret. unfold str_len.
    assert (L : (0 < length (h ++ lines n (A :: As)))%nat).
    { cbn [lines]. rewrite !app_length. pose proof (order_len n) as OL. unfold nco in OL. destruct (n <? 63); lia. }
    replace (_ <=? 0) with false by lia. exact (deliver_all false h n A As g Hh Hr NM).
  - intros x Hx. apply in_app_or in Hx. destruct Hx as [Hx|Hx]; [|apply (lines_nz n (A :: As)); [lia|auto]].
    destruct Hh as [-> | ->]; [destruct Hx|]. unfold g6_head in Hx. simpl in Hx. lia.
Qed.
Print Assumptions C51_string_sequence.
Example sequence_case : lines 5 [demo_mat; fun _ _ => false] = [68; 81; 99; 10; 68; 63; 63; 10] /\ readable gp_New 5.
Proof. split; [reflexivity|left; split; [auto|lia]]. Qed.

(** A line of another order after some graphs is rejected; the graph read last is kept. *)
Theorem C51_other_order :
  forall (k : bool) g n n' A As u h, readable g n -> h = [] \/ h = g6_head -> 2 <= n' <= 100000 -> n' <> n -> (forall x, In x u -> x <> 0) ->
    let text := h ++ lines n (A :: As) ++ g6_order n' ++ u in
    exists it g0, _beginG6ReadIteration allocateG6ReadIterator (if k then sf_NewFile text else sf_NewStr (text ++ [0])) g = Ret (it, g0, C_OK) /\
      delivers_then_fails n it g0 (A :: As).
Proof. intros k g n n' A As u h Hr Hh Hn' Hne Hu text. destruct (readable_nm _ _ Hr) as [Hn NM]. exact (fail_all k h n n' u A As g Hh Hr NM Hn' Hne Hu). Qed.
Print Assumptions C51_other_order.
(** "DQc", then a line that starts with the order 4. *)
Example other_order_case : lines 5 [demo_mat] ++ g6_order 4 ++ [81; 99] = [68; 81; 99; 10; 67; 81; 99] /\ readable gp_New 5.
Proof. split; [reflexivity|left; split; [auto|lia]]. Qed.

(** ** C52 *)
(** Two graphs written through one iterator are not separated: what is written is no graph6 file,
    and reading it back fails at the first graph. *)
Theorem C52_sequence_refuted :
  exists g it1 it2 it3 out itr g0 itr' g',
    reach g /\ gN g = 5 /\ gM g = 4 /\
    begin_write (mkWI None 0 0 0 0 None None) (CFile [] []) g = Ret (it1, C_OK) /\
    writeGraphUsingG6WriteIterator it1 g = Ret (it2, C_OK) /\
    writeGraphUsingG6WriteIterator it2 g = Ret (it3, C_OK) /\
    w_out it3 = Some (CFile [] out) /\ out = g6_head ++ [68; 81; 99; 68; 81; 99] /\
    begin_read_file allocateG6ReadIterator out gp_New = Ret (itr, g0, C_OK) /\
    readGraphUsingG6ReadIterator itr g0 = Ret (itr', g', C_NOTOK).
Proof.
  exists (built 0 5 (adds [(4, 5); (3, 1); (1, 5); (4, 2)])). do 8 eexists.
  split; [apply built_reach; vm_compute; reflexivity|]. do 8 (split; [vm_compute; reflexivity|]). vm_compute. reflexivity.
Qed.
Print Assumptions C52_sequence_refuted.
