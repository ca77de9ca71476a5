(** * G6P3: the graph6 reader. *)
From Verif Require Import Base BaseP StrBufM StrFileM StrFileSpec GraphRec GraphM GraphSpec DFSSpec RandSpec G6M G6Spec
  GSimp GraphP GraphP2 GraphP3 GraphP4 RandP RandP2 StrFileP G6P G6P2.

(** ** Adding a missing edge, growing the storage when needed *)
Record ready (g : graph) (adj : Z -> list Z) (n C : Z) : Prop := {
  rd_sg : simple_graph g adj; rd_N : gN g = n; rd_stack : gstack g = []; rd_stackCap : 0 <= gstackCap g;
  rd_cap : 4 < gCap g <= C }.

Lemma dyn_missing g adj n C u v : ready g adj n C -> n * (n - 1) <= C -> 2 * C <= INT_MAX ->
  1 <= u <= n -> 1 <= v <= n -> u <> v -> ~ adjacent g adj u v -> 2 * gM g < n * (n - 1) ->
  exists g' adj', gp_DynamicAddEdge g u 0 v 0 = Ret (g', C_OK) /\ ready g' adj' n C /\ gM g' = gM g + 1 /\
    giflags g' = giflags g /\
    forall x y, adjacent g' adj' x y <-> adjacent g adj x y \/ (x = u /\ y = v) \/ (x = v /\ y = u).
Proof.
  intros [SG HN HS HSC HC] HnC HCI Hu Hv Hne NA HM. pose proof SG as (R & Si & Pe).
  assert (L0 : link_ok 0) by (left; reflexivity).
  assert (DF : dyn_fits g) by (unfold dyn_fits; rewrite HN; lia).
  assert (HL : Z.of_nat (length (gstack g)) <= gstackCap g) by (rewrite HS; exact HSC).
  assert (FIN : forall g1, rep g1 adj -> gN g1 = n -> gstack g1 = [] -> 0 <= gstackCap g1 -> 4 < gCap g1 <= C -> gM g1 = gM g ->
     giflags g1 = giflags g -> (forall w e, In e (adj w) -> enbr g1 e = enbr g e) -> gM g1 < gCap g1 / 2 ->
     exists g' adj', gp_AddEdge g1 u 0 v 0 = Ret (g', C_OK) /\ ready g' adj' n C /\ gM g' = gM g + 1 /\ giflags g' = giflags g /\
       forall x y, adjacent g' adj' x y <-> adjacent g adj x y \/ (x = u /\ y = v) \/ (x = v /\ y = u)).
  { intros g1 R1 N1 S1 SC1 C1 M1 I1 En1 Mc1.
    destruct (add_edge_in g1 adj u 0 v 0 R1) as (g' & a & E & AD); auto; try (unfold is_vertex; lia).
    pose proof (ad_frame _ _ _ _ _ _ _ AD) as F. exists g'. eexists. split; [exact E|].
    assert (Si1 : simple g1 adj).
    { destruct Si as [Q1 Q2]. split; [intros w e He; rewrite (En1 _ _ He); auto|].
      intros w e f He Hf EQ. rewrite (En1 _ _ He), (En1 _ _ Hf) in EQ. eauto. }
    assert (Pe1 : primary_edges g1 adj) by (intros w e He; unfold primary; rewrite N1, <- HN; apply (Pe _ _ He)).
    assert (NA1 : ~ adjacent g1 adj u v) by (intros (e & H1 & H2); apply NA; exists e; rewrite <- (En1 _ _ H1); auto).
    split; [|split; [rewrite (if_M _ _ F), M1; lia|split; [rewrite (if_iflags _ _ F); auto|]]].
    - constructor.
      + split; [exact (ad_rep _ _ _ _ _ _ _ AD)|]. split; [eapply simple_added; eauto|eapply primary_added; eauto; unfold primary; lia].
      + rewrite (if_N _ _ F); auto.
      + rewrite (if_stack _ _ F); auto.
      + rewrite (if_stackCap _ _ F); auto.
      + rewrite (if_cap _ _ F); auto.
    - intros x y. split.
      + intros (e & H1 & H2). destruct (added_nbr _ _ _ _ _ _ _ _ _ AD H1) as [[H3 E3]|[(-> & -> & E3)|(-> & -> & E3)]].
        * left. exists e. split; auto. rewrite <- (En1 _ _ H3). congruence.
        * right. left. split; congruence.
        * right. right. split; congruence.
      + intros [(e & H1 & H2)|[[-> ->]|[-> ->]]].
        * exists e. split; [apply (ad_in _ _ _ _ _ _ _ AD); auto|]. rewrite (ad_enbr _ _ _ _ _ _ _ AD _ _ H1), (En1 _ _ H1). auto.
        * exists a. split; [apply (ad_in _ _ _ _ _ _ _ AD); auto|exact (ad_a _ _ _ _ _ _ _ AD)].
        * exists (twin a). split; [apply (ad_in _ _ _ _ _ _ _ AD); auto|exact (ad_ta _ _ _ _ _ _ _ AD)]. }
  unfold gp_DynamicAddEdge. replace (_ || _) with false by lia.
  destruct (Z_lt_le_dec (gM g) (gCap g / 2)) as [Lt|Le].
  - destruct (FIN g) as (g' & adj' & E & K); auto. rewrite E, bind_ret. cbn [C_OK C_NONEMBEDDABLE Z.eqb]. exists g', adj'. auto.
  - rewrite (add_edge_full g adj) by (auto; unfold is_vertex; lia). rewrite bind_ret. cbn [C_NONEMBEDDABLE Z.eqb Pos.eqb].
    change (gp_GetArcCapacity g) with (gCap g - 2). rewrite HN.
    rewrite guard_true by (unfold int_ok, INT_MAX in *; nia).
    destruct (wp_inv _ _ (ensure_ok g adj (dyn_newcap g) R HL)) as ([g1 r1] & E1 & P1 & R1). cbn [fst snd] in P1, R1.
    unfold dyn_newcap in E1, P1. rewrite HN in E1, P1.
    set (nc := if (gCap g - 2) * 2 >? n * (n - 1) then n * (n - 1) else (gCap g - 2) * 2) in *.
    pose proof (st_even _ _ (rep_storage _ _ R)) as Hev.
    assert (EV : Z.even nc = true).
    { unfold nc. destruct (_ >? _).
      - rewrite <- tri2, Z.even_mul. reflexivity.
      - rewrite Z.even_mul. rewrite orb_true_r. reflexivity. }
    assert (Hhalf : gCap g = 2 * (gCap g / 2)).
    { apply Z.even_spec in Hev. destruct Hev as [k Hk]. rewrite Hk. rewrite Z.mul_comm, Z.div_mul by lia. lia. }
    assert (GT : gCap g < nc <= C) by (unfold nc; destruct (Z.gtb_spec ((gCap g - 2) * 2) (n * (n - 1))); lia).
    unfold ensure_post in P1. replace ((nc <=? 0) || negb (Z.even nc)) with false in P1 by (rewrite EV; cbn [negb]; lia).
    replace (nc <=? gCap g) with false in P1 by lia. destruct P1 as [-> Gr].
    rewrite E1, bind_ret. cbn [C_OK Z.eqb Pos.eqb negb].
    apply FIN; auto.
    + rewrite (gr_N _ _ _ Gr); auto.
    + rewrite (gr_stack _ _ _ Gr); auto.
    + pose proof (gr_stackCap _ _ _ Gr). lia.
    + rewrite (gr_cap _ _ _ Gr). lia.
    + exact (gr_M _ _ _ Gr).
    + exact (gr_iflags _ _ _ Gr).
    + intros w e He. rewrite (gr_enbr _ _ _ Gr). pose proof (ch_range _ _ (rep_chains _ _ R) _ _ He) as Hr.
      unfold gp_EdgeIndexBound in Hr. replace ((2 + gCap g <=? e) && (e <? 2 + nc)) with false by lia. auto.
    + rewrite (gr_M _ _ _ Gr), (gr_cap _ _ _ Gr).
      pose proof (st_cap _ _ (rep_storage _ _ R)) as Hb. unfold gp_EdgeInUseIndexBound, gp_EdgeIndexBound in Hb.
      apply Z.even_spec in EV. destruct EV as [k Hk]. rewrite Hk in *. rewrite Z.mul_comm, Z.div_mul by lia. lia.
Qed.

(** ** Decoding *)
(** The first k bits have been read. *)
Record dec (B : Z -> bool) (n C k : Z) (fl : Z) (g : graph) : Prop := {
  dc_M : gM g <= k; dc_fl : giflags g = fl;
  dc_adj : exists adj, ready g adj n C /\
    forall u v, 1 <= u < v -> v <= n -> (adjacent g adj u v <-> B (pidx u v) = true /\ pidx u v < k) }.

Lemma land1_bit a j : 0 <= j -> (negb (Z.land (Z.shiftr a j) 1 =? 0)) = Z.testbit a j.
Proof.
  intros H. change 1 with (Z.ones 1) at 1. rewrite Z.land_ones, Z.shiftr_div_pow2 by lia. change (2 ^ 1) with 2.
  rewrite Z.testbit_eqb by lia. pose proof (Z.mod_pos_bound (a / 2 ^ j) 2 ltac:(lia)).
  destruct (Z.eqb_spec ((a / 2 ^ j) mod 2) 0), (Z.eqb_spec ((a / 2 ^ j) mod 2) 1); cbn [negb]; auto; lia.
Qed.

Lemma dec_skip B n C k fl g : dec B n C k fl g -> B k = false -> dec B n C (k + 1) fl g.
Proof.
  intros [HM HF (adj & Rd & HA)] HB. constructor; [lia|auto|]. exists adj. split; auto. intros u v Hu Hv. rewrite HA by auto.
  split; intros [H1 H2]; split; auto; [lia|]. assert (pidx u v <> k) by congruence. lia.
Qed.

Lemma dec_add B n C k fl g row col : dec B n C k fl g -> n * (n - 1) <= C -> 2 * C <= INT_MAX ->
  k = tri col + row -> 0 <= row < col -> k < tri n -> B k = true ->
  exists g', gp_DynamicAddEdge g (row + 1) 0 (col + 1) 0 = Ret (g', C_OK) /\ dec B n C (k + 1) fl g'.
Proof.
  intros [HM HF (adj & Rd & HA)] HC HI Hk Hr Hlt HB.
  assert (Hn : 0 <= n) by (destruct Rd as [(R & _) HN _ _ _]; pose proof (st_N _ _ (rep_storage _ _ R)); lia).
  assert (Hc : col < n).
  { destruct (Z_lt_le_dec col n) as [|L]; auto. pose proof (tri_le n col ltac:(lia)). lia. }
  assert (PK : pidx (row + 1) (col + 1) = k) by (unfold pidx; replace (col + 1 - 1) with col by lia; lia).
  assert (NA : ~ adjacent g adj (row + 1) (col + 1)) by (rewrite HA by lia; lia).
  pose proof (tri2 n) as T2.
  destruct (dyn_missing g adj n C (row + 1) (col + 1) Rd HC HI ltac:(lia) ltac:(lia) ltac:(lia) NA ltac:(lia)) as (g' & adj' & E & Rd' & M' & F' & A').
  exists g'. split; [exact E|]. constructor; [lia|congruence|]. exists adj'. split; auto. intros u v Hu Hv. rewrite A', HA by auto. split.
  - intros [[H1 H2]|[[-> ->]|[-> ->]]]; [split; auto; lia| |lia]. rewrite PK. split; [auto|lia].
  - intros [H1 H2]. destruct (Z.eq_dec (pidx u v) k) as [E1|]; [|left; split; auto; lia].
    right. left. rewrite <- PK in E1. apply pidx_inj in E1; lia.
Qed.

Definition at_pos (k row col : Z) : Prop := k = tri col + row /\ 0 <= row <= col /\ 1 <= col.

Lemma decode_bits_ok B n C fl byte : n * (n - 1) <= C -> 2 * C <= INT_MAX -> (forall k, B k = true -> k < tri n) ->
  forall j k row col g, dec B n C k fl g -> at_pos k row col ->
  (forall i, (i < j)%nat -> Z.testbit byte (Z.of_nat i) = B (k + Z.of_nat (j - 1 - i))) ->
  exists row' col' g', decode_bits j byte row col g = Ret (row', col', g', C_OK) /\
    dec B n C (k + Z.of_nat j) fl g' /\ at_pos (k + Z.of_nat j) row' col'.
Proof.
  intros HC HI HB. induction j as [|j IH]; intros k row col g D (P1 & P2 & P3) Hb; cbn [decode_bits].
  - do 3 eexists. split; [reflexivity|]. replace (k + Z.of_nat 0) with k by lia. split; [auto|split; auto].
  - assert (Q : exists row1 col1, (if row =? col then (0, col + 1) else (row, col)) = (row1, col1) /\
       k = tri col1 + row1 /\ 0 <= row1 < col1).
    { destruct (Z.eqb_spec row col) as [->|N]; do 2 eexists; (split; [reflexivity|]); [rewrite tri_S|]; lia. }
    destruct Q as (row1 & col1 & -> & Q1 & Q2).
    rewrite land1_bit by lia. rewrite (Hb j) by lia. replace (k + Z.of_nat (S j - 1 - j)) with k by lia.
    assert (P' : at_pos (k + 1) (row1 + 1) col1) by (unfold at_pos; lia).
    assert (Hb' : forall i, (i < j)%nat -> Z.testbit byte (Z.of_nat i) = B (k + 1 + Z.of_nat (j - 1 - i))).
    { intros i Hi. rewrite (Hb i) by lia. f_equal. lia. }
    replace (k + Z.of_nat (S j)) with (k + 1 + Z.of_nat j) by lia.
    destruct (B k) eqn:EB.
    + destruct (dec_add B n C k fl g row1 col1 D HC HI Q1 Q2 (HB k EB) EB) as (g' & E & D').
      rewrite E, bind_ret. cbv beta iota. cbn [C_OK Z.eqb Pos.eqb negb]. apply IH; auto.
    + apply IH; auto. apply dec_skip; auto.
Qed.

Lemma decode_chars_ok n C fl (L : list Z) b off : n * (n - 1) <= C -> 2 * C <= INT_MAX -> 0 <= n -> wf_body n L -> 0 <= off ->
  off + Z.of_nat (length L) <= bsz b -> (forall i, (i < length L)%nat -> bdat b (off + Z.of_nat i) = nth i L 0) ->
  let B k := (k <? 6 * nce n) && bitat L k in
  forall m q row col g, (q + m = length L)%nat -> dec B n C (6 * Z.of_nat q) fl g -> at_pos (6 * Z.of_nat q) row col ->
  exists g', decode_chars m b (off + Z.of_nat q) row col g = Ret (g', C_OK) /\ dec B n C (6 * Z.of_nat (length L)) fl g'.
Proof.
  intros HC HI Hn (W1 & W2 & W3) Ho Hsz Hd B.
  induction m as [|m IH]; intros q row col g Hq D P; cbn [decode_chars].
  - replace (length L) with q by lia. eauto.
  - rewrite b_rd_ok, bind_ret by lia. rewrite Hd by lia.
    assert (Hr : 63 <= nth q L 0 <= 126) by (apply W2, nth_In; lia).
    rewrite to_char_id by lia.
    destruct (decode_bits_ok B n C fl (nth q L 0 - 63) HC HI) with (j := 6%nat) (k := 6 * Z.of_nat q) (row := row) (col := col) (g := g) as (row' & col' & g' & E & D' & P').
    + intros k Hk. unfold B in Hk. apply andb_true_iff in Hk. destruct Hk as [K1 K2].
      destruct (Z_lt_le_dec k (tri n)) as [|Le]; auto. rewrite W3 in K2 by lia. discriminate.
    + auto.
    + auto.
    + intros i Hi. set (k := 6 * Z.of_nat q + Z.of_nat (6 - 1 - i)). unfold B. replace (k <? 6 * nce n) with true by lia. cbn [andb].
      unfold bitat. replace (k / 6) with (Z.of_nat q) by (apply Z.div_unique with (Z.of_nat (6 - 1 - i)); lia).
      replace (k mod 6) with (Z.of_nat (6 - 1 - i)) by (apply Z.mod_unique with (Z.of_nat q); lia).
      rewrite Nat2Z.id. f_equal. lia.
    + rewrite E, bind_ret. cbv beta iota. cbn [C_OK Z.eqb Pos.eqb negb].
      replace (off + Z.of_nat q + 1) with (off + Z.of_nat (S q)) by lia.
      replace (6 * Z.of_nat q + Z.of_nat 6) with (6 * Z.of_nat (S q)) in D', P' by lia.
      apply (IH (S q) row' col' g'); auto. lia.
Qed.

Lemma dec_start B n C g : rep g no_adj -> gN g = n -> gstack g = [] -> 0 <= gstackCap g -> 4 < gCap g <= C -> 2 <= n ->
  dec B n C 0 (giflags g) g.
Proof.
  intros R HN HS HSC HC Hn. constructor; [rewrite (empty_M _ R); lia|auto|]. exists no_adj. split.
  - constructor; auto. split; [auto|]. split; [split; [intros v e []|intros v e f []]|intros v e []].
  - intros u v Hu Hv. split; [intros (e & [] & _)|]. intros [_ H]. unfold pidx in H. pose proof (tri_nonneg (v - 1)). lia.
Qed.

(** ** Reading characters *)
(** A file (true) or a string (false): [pre] has been read, [s] is still to be read. *)
Definition cont (k : bool) (pre s : list Z) : container :=
  if k then CFile s [] else CStr (pre ++ s ++ [0]) (Z.of_nat (length pre)).
Lemma nth_error_mid {A} (p : list A) x s : nth_error (p ++ x :: s) (length p) = Some x.
Proof. induction p as [|y p IH]; [reflexivity|apply IH]. Qed.
Lemma getc_cont k pre x s : x <> 0 -> sf_getc (cont k pre (x :: s)) = Ret (x, cont k (pre ++ [x]) s).
Proof.
  intros H. destruct k; cbn [cont sf_getc]; [reflexivity|]. cbn [app].
  rewrite (m_rd_ok _ _ x) by (try lia; rewrite Nat2Z.id; apply nth_error_mid). rewrite bind_ret.
  replace (x =? 0) with false by lia. unfold cont. rewrite app_length, <- app_assoc. cbn [length app]. do 3 f_equal. lia.
Qed.
Lemma getc_eof k pre : sf_getc (cont k pre []) = Ret (C_EOF, cont k pre []).
Proof.
  destruct k; cbn [cont sf_getc]; [reflexivity|]. cbn [app].
  rewrite (m_rd_ok _ _ 0) by (try lia; rewrite Nat2Z.id; apply nth_error_mid). reflexivity.
Qed.
Lemma ungetc_cont k pre x s : x <> C_EOF -> sf_ungetc x (cont k (pre ++ [x]) s) = Ret (x, cont k pre (x :: s)).
Proof.
  intros H. destruct k; cbn [cont sf_ungetc].
  - replace (x =? C_EOF) with false by lia. reflexivity.
  - rewrite app_length. cbn [length]. replace (Z.of_nat (length pre + 1) <=? 0) with false by lia.
    unfold m_wr. rewrite !app_length. cbn [length].
    replace ((Z.of_nat (length pre + 1) - 1 <? 0) || (Z.of_nat (length pre + 1 + (length s + 1)) <=? Z.of_nat (length pre + 1) - 1)) with false by lia.
    rewrite bind_ret. replace (Z.to_nat (Z.of_nat (length pre + 1) - 1)) with (length pre) by lia.
    unfold cont. replace (Z.of_nat (length pre + 1) - 1) with (Z.of_nat (length pre)) by lia. do 3 f_equal.
    rewrite m_set_same by apply nth_error_mid. rewrite <- app_assoc. reflexivity.
Qed.

(** ** Lines *)
Lemma line_len s : cspn_eol s = Z.of_nat (length (line_of s)).
Proof.
  induction s as [|x s IH]; [reflexivity|]. cbn [cspn_eol line_of]. unfold CH_LF, CH_CR.
  destruct ((x =? 10) || (x =? 13)); [reflexivity|]. cbn [length]. lia.
Qed.
Lemma line_firstn : forall k s, line_of (firstn k s) = firstn k (line_of s).
Proof.
  induction k as [|k IH]; intros [|x s]; cbn [firstn line_of]; try reflexivity.
  destruct ((x =? 10) || (x =? 13)); cbn [firstn]; [reflexivity|]. now rewrite IH.
Qed.
Lemma line_cut d s t : (d = 10 \/ d = 13) -> cut_after d s = Some t -> line_of t = line_of s.
Proof.
  intros Hd. revert t. induction s as [|x s IH]; intros t; cbn [cut_after]; [discriminate|].
  destruct (Z.eqb_spec x d) as [->|N].
  - intros [= <-]. cbn [line_of]. replace ((d =? 10) || (d =? 13)) with true by lia. reflexivity.
  - destruct (cut_after d s) as [t'|]; [|discriminate]. intros [= <-]. cbn [line_of]. now rewrite (IH t' eq_refl).
Qed.
Lemma cut_prefix d s t : cut_after d s = Some t -> exists r, s = t ++ r.
Proof.
  revert t. induction s as [|x s IH]; intros t; cbn [cut_after]; [discriminate|].
  destruct (x =? d); [intros [= <-]; exists s; reflexivity|].
  destruct (cut_after d s) as [t'|]; [|discriminate]. intros [= <-]. destruct (IH t' eq_refl) as (r & ->). exists r. reflexivity.
Qed.
Lemma prefix_firstn {A} k (s t r : list A) : firstn k s = t ++ r -> exists r', s = t ++ r' /\ (length t <= k)%nat.
Proof.
  intros H. exists (r ++ skipn k s). rewrite app_assoc, <- H, firstn_skipn. split; auto.
  pose proof (firstn_le_length k s). rewrite H, app_length in H0. lia.
Qed.
Lemma line_app_eol l x r : (forall y, In y l -> y <> 10 /\ y <> 13) -> x = 10 \/ x = 13 -> line_of (l ++ x :: r) = l.
Proof.
  intros Hl Hx. induction l as [|y l IH]; cbn [app line_of].
  - replace ((x =? 10) || (x =? 13)) with true by lia. reflexivity.
  - destruct (Hl y (or_introl eq_refl)). replace ((y =? 10) || (y =? 13)) with false by lia.
    rewrite IH; auto. intros z Hz. apply Hl. simpl. auto.
Qed.
Lemma line_whole l : (forall y, In y l -> y <> 10 /\ y <> 13) -> line_of l = l.
Proof.
  intros Hl. induction l as [|y l IH]; [reflexivity|]. cbn [line_of]. destruct (Hl y (or_introl eq_refl)).
  replace ((y =? 10) || (y =? 13)) with false by lia. rewrite IH; auto. intros z Hz. apply Hl. simpl. auto.
Qed.

(** What the line reader takes. *)
Definition fg_take (k : bool) (m : nat) (s : list Z) : list Z :=
  match cut_after CH_LF (firstn m s) with
  | Some t => t
  | None => if k then firstn m s else match cut_after CH_CR (firstn m s) with Some t => t | None => firstn m s end
  end.
Lemma fg_take_prefix k m s : exists r, s = fg_take k m s ++ r /\ (length (fg_take k m s) <= m)%nat /\ (forall y, y = line_of (fg_take k m s) -> y = firstn m (line_of s)).
Proof.
  unfold fg_take. destruct (cut_after CH_LF (firstn m s)) as [t|] eqn:E1.
  - destruct (cut_prefix _ _ _ E1) as (r & E). destruct (prefix_firstn _ _ _ _ E) as (r' & E' & Hl). exists r'. split; [auto|]. split; [auto|].
    intros y ->. rewrite (line_cut 10 _ _ (or_introl eq_refl) E1). apply line_firstn.
  - destruct k.
    + exists (skipn m s). rewrite firstn_skipn. split; [auto|]. split; [apply firstn_le_length|]. intros y ->. apply line_firstn.
    + destruct (cut_after CH_CR (firstn m s)) as [t|] eqn:E2.
      * destruct (cut_prefix _ _ _ E2) as (r & E). destruct (prefix_firstn _ _ _ _ E) as (r' & E' & Hl). exists r'. split; [auto|]. split; [auto|].
        intros y ->. rewrite (line_cut 13 _ _ (or_intror eq_refl) E2). apply line_firstn.
      * exists (skipn m s). rewrite firstn_skipn. split; [auto|]. split; [apply firstn_le_length|]. intros y ->. apply line_firstn.
Qed.

Lemma fgets_cont k b count pre s : s <> [] -> (forall x, In x (pre ++ s) -> x <> 0) -> 1 <= count <= bsz b ->
  exists r b', s = fg_take k (Z.to_nat (count - 1)) s ++ r /\
    sf_fgets b count (cont k pre s) = Ret (Some b', cont k (pre ++ fg_take k (Z.to_nat (count - 1)) s) r) /\
    bsz b' = bsz b /\
    (forall i, (i < length (fg_take k (Z.to_nat (count - 1)) s))%nat -> bdat b' (Z.of_nat i) = nth i (fg_take k (Z.to_nat (count - 1)) s) 0) /\
    bdat b' (Z.of_nat (length (fg_take k (Z.to_nat (count - 1)) s))) = 0.
Proof.
  intros Hs NZ Hc. set (m := Z.to_nat (count - 1)). destruct (fg_take_prefix k m s) as (r & E & Hl & _).
  set (t := fg_take k m s) in *. exists r.
  destruct (strcpy_at t b 0 ltac:(lia) ltac:(lia)) as (b' & E1 & Z1 & _ & G1 & G2). exists b'.
  split; [exact E|]. split.
  2:{ split; [auto|]. split; [intros i Hi; specialize (G1 i Hi); now rewrite Z.add_0_l in G1|now rewrite Z.add_0_l in G2]. }
  unfold sf_fgets. replace (count <? 0) with false by lia. destruct k; unfold cont.
  - destruct s as [|x s']; [congruence|]. rewrite !guard_true by lia.
    fold m. rewrite fgets_take_spec. cbv zeta.
    change (match cut_after CH_LF (firstn m (x :: s')) with Some t0 => t0 | None => firstn m (x :: s') end) with t.
    cbv beta iota. rewrite E1, bind_ret. do 3 f_equal. rewrite E at 1. rewrite skipn_app, Nat.sub_diag, skipn_all. reflexivity.
  - destruct s as [|x s']; [congruence|]. rewrite (m_rd_ok _ _ x) by (try lia; rewrite Nat2Z.id; apply nth_error_mid). rewrite bind_ret.
    assert (x <> 0) by (apply NZ, in_or_app; right; simpl; auto). replace (x =? 0) with false by lia.
    rewrite !guard_true by lia. replace (pre ++ (x :: s') ++ [0]) with ((pre ++ x :: s') ++ [0]) by now rewrite app_assoc.
    rewrite c_str_at_app by (auto; rewrite app_length; lia). rewrite bind_ret.
    rewrite skipn_app, Nat.sub_diag, skipn_all. cbn [app skipn]. fold m.
    change (match cut_after CH_LF (firstn m (x :: s')) with Some t0 => t0 | None => match cut_after CH_CR (firstn m (x :: s')) with Some t1 => t1 | None => firstn m (x :: s') end end) with t.
    rewrite E1, bind_ret. do 3 f_equal; [|rewrite app_length; lia]. rewrite E at 1. now rewrite <- !app_assoc.
Qed.
