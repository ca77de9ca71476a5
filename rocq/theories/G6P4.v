(** * G6P4: validating and reading whole graphs. *)
From Verif Require Import Base BaseP StrBufM StrFileM StrFileSpec GraphRec GraphM GraphSpec DFSSpec RandSpec G6M G6Spec
  GSimp GraphP GraphP2 GraphP3 GraphP4 RandP RandP2 StrFileP G6P G6P2 G6P3.

(** A block holds a text at an offset, with its NUL. *)
Record holds (b : blk) (off : Z) (s : list Z) : Prop := {
  ho_off : 0 <= off; ho_fit : off + Z.of_nat (length s) < bsz b; ho_nz : forall x, In x s -> x <> 0;
  ho_dat : forall i, (i < length s)%nat -> bdat b (off + Z.of_nat i) = nth i s 0;
  ho_nul : bdat b (off + Z.of_nat (length s)) = 0 }.
Lemma holds_str b off s : holds b off s -> blk_str b off = Ret s.
Proof. intros [H1 H2 H3 H4 H5]. apply blk_str_ok; auto. Qed.
Lemma holds_suffix b off p s : holds b off (p ++ s) -> holds b (off + Z.of_nat (length p)) s.
Proof.
  intros [H1 H2 H3 H4 H5]. rewrite app_length in *. constructor; auto.
  - lia.
  - lia.
  - intros x Hx. apply H3, in_or_app. auto.
  - intros i Hi. replace (off + Z.of_nat (length p) + Z.of_nat i) with (off + Z.of_nat (length p + i)) by lia.
    rewrite H4 by lia. rewrite app_nth2 by lia. f_equal. lia.
  - rewrite <- H5. f_equal. lia.
Qed.

Lemma valid_chars_ok b L : forall m q off, 0 <= off -> off + Z.of_nat (length L) <= bsz b ->
  (forall i, (i < length L)%nat -> bdat b (off + Z.of_nat i) = nth i L 0) -> (q + m = length L)%nat ->
  exists r, valid_chars m b (off + Z.of_nat q) = Ret r /\ (r = true <-> forall x, In x (skipn q L) -> 63 <= x <= 126).
Proof.
  induction m as [|m IH]; intros q off H0 H1 H2 H3; cbn [valid_chars].
  - exists true. split; [reflexivity|]. rewrite skipn_all2 by lia. split; [intros _ x []|auto].
  - rewrite b_rd_ok, bind_ret by lia. rewrite H2 by lia.
    destruct (nth_error L q) as [x|] eqn:E; [|apply nth_error_None in E; lia].
    rewrite (nth_error_nth _ _ 0 E). rewrite (skipn_nth _ _ _ E).
    destruct ((x <? 63) || (x >? 126)) eqn:EX.
    + exists false. split; [reflexivity|]. split; [discriminate|]. intros H. specialize (H x (or_introl eq_refl)). lia.
    + replace (off + Z.of_nat q + 1) with (off + Z.of_nat (S q)) by lia.
      destruct (IH (S q) off H0 H1 H2 ltac:(lia)) as (r & E1 & E2). exists r. split; [exact E1|]. rewrite E2.
      split; intros H y Hy; [|apply H; simpl; auto]. destruct Hy as [<-|Hy]; [lia|auto].
Qed.
Lemma land_bit_zero a i : 0 <= i -> (Z.land a (Z.shiftl 1 i) =? 0) = negb (Z.testbit a i).
Proof.
  intros H. destruct (Z.testbit a i) eqn:E; cbn [negb].
  - apply Z.eqb_neq. intros Q. assert (X : Z.testbit (Z.land a (Z.shiftl 1 i)) i = true) by (rewrite Z.land_spec, E, shl1_bit by lia; rewrite Z.eqb_refl; auto).
    rewrite Q, Z.bits_0 in X. discriminate.
  - apply Z.eqb_eq. apply Z.bits_inj'. intros p Hp. rewrite Z.land_spec, shl1_bit, Z.bits_0 by lia.
    destruct (Z.eqb_spec i p) as [<-|]; [now rewrite E|apply andb_false_r].
Qed.
Lemma count_padding_ok byte : forall m i, 0 <= i -> 0 <= count_padding m byte i <= Z.of_nat m /\
  (count_padding m byte i = Z.of_nat m <-> forall j, i <= j < i + Z.of_nat m -> Z.testbit byte j = false).
Proof.
  induction m as [|m IH]; intros i Hi; cbn [count_padding].
  - split; [lia|]. split; [intros _ j; lia|reflexivity].
  - rewrite land_bit_zero by auto. rewrite negb_involutive. destruct (IH (i + 1) ltac:(lia)) as [H1 H2].
    destruct (Z.testbit byte i) eqn:E.
    + split; [lia|]. split; [lia|]. intros H. rewrite (H i) in E by lia. discriminate.
    + split; [lia|]. split.
      * intros H j Hj. destruct (Z.eq_dec j i) as [->|]; [auto|]. apply H2; lia.
      * intros H. assert (count_padding m byte (i + 1) = Z.of_nat m) by (apply H2; intros j Hj; apply H; lia). lia.
Qed.

Lemma nce_pos n : 2 <= n -> 1 <= nce n.
Proof. intros H. pose proof (nce_bounds n ltac:(lia)). pose proof (tri_le 2 n ltac:(lia)). change (tri 2) with 1 in *. lia. Qed.

Lemma validate_ok b off n L : 2 <= n -> n * (n - 1) <= INT_MAX -> holds b off L -> Z.of_nat (length L) = nce n ->
  (wf_body n L /\ _validateGraphEncoding b off n (nce n) = Ret C_OK) \/
  (~ wf_body n L /\ _validateGraphEncoding b off n (nce n) = Ret C_NOTOK).
Proof.
  intros Hn Hf H HL. unfold _validateGraphEncoding. rewrite num_chars, bind_ret by lia.
  rewrite (holds_str _ _ _ H), bind_ret. unfold str_len. rewrite HL, Z.eqb_refl. cbn [negb].
  destruct H as [H1 H2 H3 H4 H5].
  destruct (valid_chars_ok b L (Z.to_nat (nce n)) 0 off H1 ltac:(lia) H4 ltac:(lia)) as (r & E1 & E2).
  replace (off + Z.of_nat 0) with off in E1 by lia. cbn [skipn] in E2. rewrite E1, bind_ret.
  destruct r; cbn [negb].
  2:{ right. split; [|reflexivity]. intros (_ & W & _). apply E2 in W. discriminate. }
  assert (W2 : forall x, In x L -> 63 <= x <= 126) by (apply E2; reflexivity).
  pose proof (nce_bounds n ltac:(lia)) as [NB NB0]. pose proof (nce_pos n Hn) as NP. pose proof (tri2 n) as T2.
  unfold _getExpectedNumPaddingZeroes. rewrite max_edges, bind_ret by lia. unfold imul.
  rewrite guard_true by (unfold int_ok, INT_MAX in *; lia). rewrite !bind_ret.
  rewrite b_rd_ok, bind_ret by lia. set (q := Z.to_nat (nce n - 1)).
  replace (off + nce n - 1) with (off + Z.of_nat q) by lia. rewrite H4 by lia.
  assert (Hx : 63 <= nth q L 0 <= 126) by (apply W2, nth_In; lia). rewrite to_char_id by lia.
  set (pad := nce n * 6 - tri n). destruct (count_padding_ok (nth q L 0 - 63) (Z.to_nat pad) 0 ltac:(lia)) as [_ CP].
  rewrite Z2Nat.id in CP by lia.
  assert (K : forall k, tri n <= k < 6 * nce n -> bitat L k = Z.testbit (nth q L 0 - 63) (6 * nce n - 1 - k)).
  { intros k Hk. unfold bitat. replace (k / 6) with (nce n - 1) by (apply Z.div_unique with (k - 6 * (nce n - 1)); lia).
    replace (k mod 6) with (k - 6 * (nce n - 1)) by (apply Z.mod_unique with (nce n - 1); lia). fold q. f_equal. lia. }
  destruct (Z.eqb_spec (count_padding (Z.to_nat pad) (nth q L 0 - 63) 0) pad) as [E|E]; cbn [negb].
  - left. split; [|reflexivity]. split; [auto|]. split; [auto|]. intros k Hk. rewrite K by auto. apply CP; [auto|lia].
  - right. split; [|reflexivity]. intros (_ & _ & W3). apply E, CP. intros j Hj.
    specialize (W3 (6 * nce n - 1 - j) ltac:(lia)). rewrite K in W3 by lia. rewrite <- W3. f_equal. lia.
Qed.

(** ** The order of a graph *)
Lemma order_lor n : 0 <= n < 262144 ->
  Z.lor (Z.lor (Z.lor 0 (Z.shiftl (n / 4096) 12)) (Z.shiftl (n / 64 mod 64) 6)) (Z.shiftl (n mod 64) 0) = n.
Proof.
  intros H. rewrite Z.lor_0_l, Z.shiftl_0_r. apply Z.bits_inj'. intros p Hp. rewrite !Z.lor_spec.
  rewrite !Z.shiftl_spec by lia. change 64 with (2 ^ 6). change 4096 with (2 ^ 12).
  destruct (Z_lt_le_dec p 6) as [L6|L6].
  - rewrite (Z.testbit_neg_r _ (p - 12)), (Z.testbit_neg_r _ (p - 6)) by lia. rewrite Z.mod_pow2_bits_low by lia. reflexivity.
  - rewrite (Z.mod_pow2_bits_high n 6 p) by lia. rewrite orb_false_r. destruct (Z_lt_le_dec p 12) as [L12|L12].
    + rewrite (Z.testbit_neg_r _ (p - 12)) by lia. rewrite Z.mod_pow2_bits_low, Z.div_pow2_bits by lia.
      cbn [orb]. f_equal. lia.
    + rewrite (Z.mod_pow2_bits_high _ 6 (p - 6)) by lia. rewrite orb_false_r, Z.div_pow2_bits by lia. f_equal. lia.
Qed.
Lemma shl_or_ok m x k : 0 <= x < 64 -> 0 <= k <= 12 -> shl_or m x k = Ret (Z.lor m (Z.shiftl x k)).
Proof.
  intros H1 H2. unfold shl_or. apply guard_true. rewrite Z.shiftl_mul_pow2 by lia.
  assert (0 < 2 ^ k <= 2 ^ 12) by (split; [apply Z.pow_pos_nonneg; lia|apply Z.pow_le_mono_r; lia]).
  change (2 ^ 12) with 4096 in *. unfold int_ok, INT_MAX. nia.
Qed.
Lemma order_parts n : 62 < n <= 100000 ->
  0 <= n / 4096 < 63 /\ 0 <= n / 64 mod 64 < 64 /\ 0 <= n mod 64 < 64.
Proof.
  intros H. split; [split; [apply Z.div_pos|apply Z.div_lt_upper_bound]; lia|].
  split; apply Z.mod_pos_bound; lia.
Qed.

Lemma check_order_ok b n : 2 <= n <= 100000 -> nco n <= bsz b ->
  (forall i, (i < length (g6_order n))%nat -> bdat b (Z.of_nat i) = nth i (g6_order n) 0) -> _checkGraphOrder b n = Ret C_OK.
Proof.
  intros Hn Hb Hd. unfold _checkGraphOrder, nco, g6_order in *. rewrite b_rd_ok, bind_ret by (destruct (n <? 63); lia).
  destruct (Z.leb_spec n 62) as [L|L].
  - specialize (Hd O ltac:(cbn [length]; lia)). change (Z.of_nat 0) with 0 in Hd. cbn [nth] in Hd. rewrite Hd.
    replace (n + 63 =? 126) with false by lia. replace ((n + 63 >? 62) && (n + 63 <? 126)) with true by lia.
    replace (n + 63 - 63 =? n) with true by lia. reflexivity.
  - replace (n <? 63) with false in Hb by lia. destruct (order_parts n ltac:(lia)) as (P1 & P2 & P3).
    pose proof (Hd 0%nat ltac:(cbn [length]; lia)) as D0. pose proof (Hd 1%nat ltac:(cbn [length]; lia)) as D1.
    pose proof (Hd 2%nat ltac:(cbn [length]; lia)) as D2. pose proof (Hd 3%nat ltac:(cbn [length]; lia)) as D3.
    change (Z.of_nat 0) with 0 in D0. change (Z.of_nat 1) with 1 in D1. change (Z.of_nat 2) with 2 in D2. change (Z.of_nat 3) with 3 in D3.
    cbn [nth] in D0, D1, D2, D3. rewrite D0. cbn [Z.eqb Pos.eqb].
    rewrite b_rd_ok, bind_ret by lia. rewrite D1. replace (n / 4096 + 63 =? 126) with false by lia. replace (n / 4096 + 63 >? 126) with false by lia.
    cbn [for_up]. change (1 + 1) with 2. change (2 + 1) with 3.
    rewrite !b_rd_ok by lia. rewrite D1, D2, D3, !bind_ret.
    change (6 * (3 - 1)) with 12. change (6 * (3 - 2)) with 6. change (6 * (3 - 3)) with 0. cbn [bind].
    replace (n / 4096 + 63 - 63) with (n / 4096) by lia. rewrite shl_or_ok by lia. cbn [bind].
    replace (n / 64 mod 64 + 63 - 63) with (n / 64 mod 64) by lia. rewrite shl_or_ok by lia. cbn [bind].
    replace (n mod 64 + 63 - 63) with (n mod 64) by lia. rewrite shl_or_ok by lia. cbn [bind].
    rewrite order_lor by lia. rewrite Z.eqb_refl. reflexivity.
Qed.

Lemma get_order_ok k pre n s : 2 <= n <= 100000 ->
  _getGraphOrder (cont k pre (g6_order n ++ s)) = Ret (cont k (pre ++ g6_order n) s, n, C_OK).
Proof.
  intros Hn. unfold _getGraphOrder, g6_order. destruct (Z.leb_spec n 62) as [L|L]; cbn [app].
  - rewrite getc_cont, bind_ret by lia. cbv beta iota. replace (n + 63 =? 126) with false by lia.
    replace ((n + 63 >? 62) && (n + 63 <? 126)) with true by lia. do 3 f_equal. lia.
  - destruct (order_parts n ltac:(lia)) as (P1 & P2 & P3).
    rewrite getc_cont, bind_ret by lia. cbv beta iota. cbn [Z.eqb Pos.eqb].
    rewrite getc_cont, bind_ret by lia. cbv beta iota. replace (n / 4096 + 63 =? 126) with false by lia.
    rewrite ungetc_cont, bind_ret by (unfold C_EOF; lia). cbv beta iota. cbn [for_down].
    rewrite getc_cont, bind_ret by lia. cbv beta iota. replace (n / 4096 + 63 - 63) with (n / 4096) by lia.
    change (6 * 2) with 12. rewrite shl_or_ok, !bind_ret by lia. cbv beta iota.
    rewrite getc_cont, bind_ret by lia. cbv beta iota. replace (n / 64 mod 64 + 63 - 63) with (n / 64 mod 64) by lia.
    change (6 * (2 - 1)) with 6. rewrite shl_or_ok, !bind_ret by lia. cbv beta iota.
    rewrite getc_cont, bind_ret by lia. cbv beta iota. replace (n mod 64 + 63 - 63) with (n mod 64) by lia.
    change (6 * (2 - 1 - 1)) with 0. rewrite shl_or_ok, !bind_ret by lia. cbv beta iota.
    rewrite order_lor by lia. replace (n >? 100000) with false by lia. rewrite <- !app_assoc. reflexivity.
Qed.

(** ** One graph *)
Record start (g : graph) (n C : Z) : Prop := {
  sr_rep : rep g no_adj; sr_N : gN g = n; sr_stack : gstack g = []; sr_stackCap : 0 <= gstackCap g;
  sr_cap : 4 < gCap g <= C }.
Definition rit (k : bool) (pre s : list Z) (num n : Z) (b : blk) : riter :=
  mkRI (Some (cont k pre s)) num n (nco n) (nce n) (nco n + nce n + 3) (Some b) false.
Definition g_for (num : Z) (g : graph) : graph := if num >? 1 then set_zero_based (gp_ReinitializeGraph g) else g.
Definition ord_for (num n : Z) : list Z := if num =? 1 then [] else g6_order n.

Lemma reinit_start g adj n C : rep g adj -> gN g = n -> 0 <= gstackCap g -> 4 < gCap g <= C ->
  start (set_zero_based (gp_ReinitializeGraph g)) n C.
Proof.
  intros R HN HS HC. destruct (reinit_ok g adj R) as (R' & _ & S' & _ & N' & C' & SC'). unfold set_zero_based.
  constructor; gsimp; auto; try lia. eapply rep_congr; eauto.
Qed.

Lemma decode_ok g n C b off L A : start g n C -> 2 <= n -> n * (n - 1) <= C -> 2 * C <= INT_MAX -> holds b off L -> L = g6_body n A ->
  exists g' adj', _decodeGraph b off n (nce n) g = Ret (g', C_OK) /\ is_graph g' n A /\ ready g' adj' n C /\ giflags g' = giflags g.
Proof.
  intros [S1 S2 S3 S4 S5] Hn HC HI [H1 H2 H3 H4 H5] EL. unfold _decodeGraph, _getExpectedNumPaddingZeroes.
  pose proof (nce_bounds n ltac:(lia)) as [NB NB0]. pose proof (tri2 n) as T2.
  rewrite max_edges, bind_ret by lia. unfold imul. rewrite guard_true by (unfold int_ok, INT_MAX in *; lia). rewrite !bind_ret.
  assert (W : wf_body n L) by (rewrite EL; apply wf_body_of; lia). pose proof W as (W1 & _).
  set (B := fun k => (k <? 6 * nce n) && bitat L k).
  destruct (decode_chars_ok n C (giflags g) L b off HC HI ltac:(lia) W H1 ltac:(lia) H4 (Z.to_nat (nce n)) 0 0 1 g) as (g' & E & D).
  - lia.
  - change (6 * Z.of_nat 0) with 0. apply dec_start; auto.
  - unfold at_pos. change (6 * Z.of_nat 0) with 0. change (tri 1) with 0. lia.
  - replace (off + Z.of_nat 0) with off in E by lia. destruct D as [D1 D2 (adj' & D3 & D4)]. exists g', adj'.
    split; [exact E|]. split; [|auto]. split; [apply (rd_N _ _ _ _ D3)|]. exists adj'. split; [apply (rd_sg _ _ _ _ D3)|].
    intros u v Hu Hv. rewrite D4 by auto. rewrite W1.
    assert (P : 0 <= pidx u v < tri n).
    { unfold pidx. pose proof (tri_lt (v - 1) (u - 1) n). pose proof (tri_nonneg (v - 1)). lia. }
    replace (pidx u v <? 6 * nce n) with true by lia. cbn [andb]. rewrite EL, body_bit_pair by auto. split; [intros H; split; auto; lia|tauto].
Qed.

Lemma firstn_same {A} m (l : list A) : (length l <= m)%nat -> firstn m l = l.
Proof. apply firstn_all2. Qed.
Lemma in_line x s : In x (line_of s) -> In x s.
Proof.
  induction s as [|y s IH]; cbn [line_of]; [auto|]. destruct ((y =? 10) || (y =? 13)); [intros []|]. intros [<-|H]; simpl; auto.
Qed.
Lemma line_prefix s : exists r, s = line_of s ++ r.
Proof.
  induction s as [|y s [r IH]]; cbn [line_of]; [exists []; reflexivity|]. destruct ((y =? 10) || (y =? 13)); [exists (y :: s); reflexivity|].
  exists r. cbn [app]. congruence.
Qed.
Lemma line_fits s : s <> [] -> True -> (length (line_of s) <= length s)%nat.
Proof. intros _ _. destruct (line_prefix s) as [r E]. rewrite E at 2. rewrite app_length. lia. Qed.

(** The rest of the read, once the line is in the buffer *)
Definition after (it : riter) (num : Z) (c : container) (b : blk) (l : list Z) (g : graph) : res (riter * graph * Z) :=
  if negb (str_len l =? (if num =? 1 then 0 else r_nco it) + r_nce it) then Ret (r_set it c b, g, C_NOTOK)
  else
    r <- (if num >? 1 then _checkGraphOrder b (r_order it) else Ret C_OK) ;;
    if negb (r =? C_OK) then Ret (r_set it c b, g, r)
    else
      let off := if num =? 1 then 0 else r_nco it in
      r <- _validateGraphEncoding b off (r_order it) (r_nce it) ;;
      if negb (r =? C_OK) then Ret (r_set it c b, g, r)
      else
        let g := if num >? 1 then set_zero_based (gp_ReinitializeGraph g) else g in
        '(g, r) <- _decodeGraph b off (r_order it) (r_nce it) g ;;
        if negb (r =? C_OK) then Ret (r_set it c b, g, r)
        else Ret (mkRI (Some c) num (r_order it) (r_nco it) (r_nce it) (r_bsize it) (Some b) (r_done it), g, C_OK).

Lemma read_prefix k pre s num n b g : s <> [] -> (forall x, In x (pre ++ s) -> x <> 0) -> 2 <= n <= 100000 -> bsz b = nco n + nce n + 3 ->
  let m := Z.to_nat (nco n + nce n + 2) in
  exists r b1 b2, s = fg_take k m s ++ r /\ bsz b1 = nco n + nce n + 3 /\ holds b1 0 (firstn m (line_of s)) /\
    readGraphUsingG6ReadIterator (rit k pre s num n b) g =
    (if negb (_firstCharIsValid (hd 0 s)) then Ret (r_set (rit k pre s num n b) (cont k (pre ++ fg_take k m s) r) b2, g, C_NOTOK)
     else after (rit k pre s num n b) (num + 1) (cont k (pre ++ fg_take k m s) r) b1 (firstn m (line_of s)) g).
Proof.
  intros Hs NZ Hn Hb m. pose proof (nce_pos n ltac:(lia)) as NP. assert (NC : 1 <= nco n) by (unfold nco; destruct (n <? 63); lia).
  destruct (fgets_cont k b (nco n + nce n + 3) pre s Hs NZ ltac:(lia)) as (r & b2 & E & F & B1 & B2 & B3).
  replace (Z.to_nat (nco n + nce n + 3 - 1)) with m in * by lia.
  destruct (fg_take_prefix k m s) as (r0 & _ & Hl & HL). specialize (HL _ eq_refl). set (t := fg_take k m s) in *.
  assert (T2 : holds b2 0 t).
  { constructor; auto; try lia. intros x Hx. apply NZ. rewrite E. apply in_or_app. right. apply in_or_app. auto. }
  assert (Ht : t <> []).
  { intros Q. destruct s as [|x s']; [congruence|]. unfold t, fg_take in Q. destruct m as [|m'] eqn:Em; [lia|]. cbn [firstn] in Q.
    assert (X : forall d, cut_after d (x :: firstn m' s') <> Some []).
    { intros d. cbn [cut_after]. destruct (x =? d); [discriminate|]. destruct (cut_after d (firstn m' s')); discriminate. }
    destruct (cut_after CH_LF (x :: firstn m' s')) as [z|] eqn:E1; [subst z; now apply (X CH_LF)|].
    destruct k; [discriminate|]. destruct (cut_after CH_CR (x :: firstn m' s')) as [z|] eqn:E2; [subst z; now apply (X CH_CR)|discriminate]. }
  set (b1 := mkBlk (bsz b2) (upd (bdat b2) (Z.of_nat (length (line_of t))) 0)).
  destruct (line_prefix t) as [r1 Er]. assert (Ll : (length (line_of t) <= length t)%nat) by (rewrite Er at 2; rewrite app_length; lia).
  assert (T1 : holds b1 0 (line_of t)).
  { constructor; cbn [b1 bsz bdat].
    - lia.
    - lia.
    - intros x Hx. apply (ho_nz _ _ _ T2), in_line. auto.
    - intros i Hi. rewrite upd_other by lia. rewrite (ho_dat _ _ _ T2) by lia. rewrite Er at 1. now rewrite app_nth1 by auto.
    - rewrite upd_same. reflexivity. }
  exists r, b1, b2. split; [auto|]. split; [cbn [b1 bsz]; lia|]. split; [now rewrite <- HL|].
  set (it := rit k pre s num n b). unfold readGraphUsingG6ReadIterator.
  change (r_done it) with false. change (r_in it) with (Some (cont k pre s)). change (r_buf it) with (Some b).
  change (r_bsize it) with (nco n + nce n + 3). change (r_num it) with num. cbv beta iota zeta.
  rewrite F, bind_ret. cbv beta iota zeta.
  rewrite b_rd_ok, bind_ret by lia. replace (bdat b2 0) with (hd 0 s).
  2:{ destruct t as [|x t'] eqn:Et; [congruence|]. rewrite E. cbn [app hd]. specialize (B2 O ltac:(cbn [length]; lia)). symmetry. exact B2. }
  destruct (negb (_firstCharIsValid (hd 0 s))); [reflexivity|].
  rewrite (holds_str _ _ _ T2), bind_ret, line_len. rewrite b_wr_ok, bind_ret by lia. fold b1.
  rewrite (holds_str _ _ _ T1), bind_ret. rewrite HL. reflexivity.
Qed.

Lemma first_ok x : 63 <= x <= 126 -> _firstCharIsValid x = true.
Proof.
  intros H. unfold _firstCharIsValid, strchr_in. cbn [existsb]. 
  replace (58 =? x) with false by lia. replace (59 =? x) with false by lia. replace (38 =? x) with false by lia.
  try replace (x =? 58) with false by lia. try replace (x =? 59) with false by lia. try replace (x =? 38) with false by lia.
  try replace (x =? 0) with false by lia. reflexivity.
Qed.

Lemma ord_len num n : 0 <= n -> Z.of_nat (length (ord_for num n)) = if num =? 1 then 0 else nco n.
Proof. intros H. unfold ord_for. destruct (num =? 1); [reflexivity|]. apply order_len. Qed.

(** A line that holds a graph *)
Lemma read_line k pre s num n b g C A : (forall x, In x (pre ++ s) -> x <> 0) -> 2 <= n <= 100000 ->
  bsz b = nco n + nce n + 3 -> 0 <= num -> start (g_for (num + 1) g) n C -> n * (n - 1) <= C -> 2 * C <= INT_MAX ->
  line_of s = ord_for (num + 1) n ++ g6_body n A ->
  let m := Z.to_nat (nco n + nce n + 2) in
  exists r b1 g' adj', s = fg_take k m s ++ r /\ bsz b1 = nco n + nce n + 3 /\
    readGraphUsingG6ReadIterator (rit k pre s num n b) g = Ret (rit k (pre ++ fg_take k m s) r (num + 1) n b1, g', C_OK) /\
    is_graph g' n A /\ ready g' adj' n C /\ giflags g' = giflags (g_for (num + 1) g).
Proof.
  intros NZ Hn Hb Hnum ST HC HI EL m.
  pose proof (nce_pos n ltac:(lia)) as NP. assert (NC : 1 <= nco n) by (unfold nco; destruct (n <? 63); lia).
  destruct (wf_body_of n A ltac:(lia)) as (W1 & W2 & W3).
  pose proof (ord_len (num + 1) n ltac:(lia)) as OL. set (O := ord_for (num + 1) n) in *. set (L := g6_body n A) in *.
  assert (OR : forall x, In x O -> 63 <= x <= 126).
  { unfold O, ord_for. destruct (num + 1 =? 1); [intros x []|]. intros x Hx. apply (order_range n); [lia|auto]. }
  assert (Hs : s <> []).
  { intros ->. cbn [line_of] in EL. assert (X : length (O ++ L) = 0%nat) by now rewrite <- EL. rewrite app_length in X. lia. }
  destruct (read_prefix k pre s num n b g Hs NZ Hn Hb) as (r & b1 & b2 & E & B1 & HO & ER). fold m in E, HO, ER.
  assert (Hh : 63 <= hd 0 s <= 126).
  { destruct (line_prefix s) as [z Ez]. rewrite EL in Ez.
    destruct (O ++ L) as [|x t] eqn:Q; [apply (f_equal (@length Z)) in Q; rewrite app_length in Q; cbn [length] in Q; lia|].
    rewrite Ez. cbn [app hd]. assert (X : In x (O ++ L)) by (rewrite Q; simpl; auto). apply in_app_or in X. destruct X; auto. }
  rewrite first_ok in ER by auto. cbn [negb] in ER. rewrite EL in *.
  assert (Lm : (length (O ++ L) <= m)%nat) by (rewrite app_length; destruct (num + 1 =? 1); lia).
  rewrite (firstn_all2 _ Lm) in *.
  pose proof (holds_suffix _ _ _ _ HO) as HS. rewrite Z.add_0_l in HS. rewrite OL in HS.
  assert (NM : n * (n - 1) <= INT_MAX) by (pose proof (sr_cap _ _ _ ST); lia).
  set (off := if num + 1 =? 1 then 0 else nco n) in *.
  destruct (decode_ok (g_for (num + 1) g) n C b1 off L A ST ltac:(lia) HC HI HS eq_refl) as (g' & adj' & D1 & D2 & D3 & D4).
  exists r, b1, g', adj'. split; [auto|]. split; [auto|]. split; [|auto].
  rewrite ER. unfold after, str_len. cbn [rit r_nco r_nce r_order].
  rewrite app_length, Nat2Z.inj_add, OL, W1. fold off. rewrite Z.eqb_refl. cbn [negb].
  assert (CO : (if num + 1 >? 1 then _checkGraphOrder b1 n else Ret C_OK) = Ret C_OK).
  { destruct (num + 1 >? 1) eqn:EN; [|reflexivity]. apply check_order_ok; [auto|lia|]. intros i Hi.
    unfold O, ord_for in HO. replace (num + 1 =? 1) with false in HO by lia.
    pose proof (ho_dat _ _ _ HO i) as X. rewrite Z.add_0_l in X. rewrite X by (rewrite app_length; lia). now rewrite app_nth1. }
  rewrite CO, bind_ret. cbn [C_OK Z.eqb Pos.eqb negb]. cbv zeta.
  destruct (validate_ok b1 off n L ltac:(lia) NM HS W1) as [[_ EV]|[NV _]]; [|exfalso; apply NV, wf_body_of; lia].
  rewrite EV, bind_ret. cbn [C_OK Z.eqb Pos.eqb negb]. fold (g_for (num + 1) g). rewrite D1, bind_ret. reflexivity.
Qed.

(** A first line that holds no graph *)
Lemma read_bad k pre s n b g : (forall x, In x (pre ++ s) -> x <> 0) -> 2 <= n <= 100000 -> n * (n - 1) <= INT_MAX ->
  bsz b = nco n + nce n + 3 -> s <> [] -> (forall A, line_of s <> g6_body n A) ->
  exists it', readGraphUsingG6ReadIterator (rit k pre s 0 n b) g = Ret (it', g, C_NOTOK).
Proof.
  intros NZ Hn NM Hb Hs Hbad. pose proof (nce_pos n ltac:(lia)) as NP. assert (NC : 1 <= nco n) by (unfold nco; destruct (n <? 63); lia).
  set (m := Z.to_nat (nco n + nce n + 2)).
  destruct (read_prefix k pre s 0 n b g Hs NZ Hn Hb) as (r & b1 & b2 & E & B1 & HO & ER). fold m in E, HO, ER. rewrite ER.
  destruct (negb (_firstCharIsValid (hd 0 s))); [eauto|]. unfold after, str_len. cbn [rit r_nco r_nce r_order]. change (0 + 1 =? 1) with true. change (0 + 1 >? 1) with false. cbv beta iota zeta.
  rewrite Z.add_0_l. destruct (Z.eqb_spec (Z.of_nat (length (firstn m (line_of s)))) (nce n)) as [EQ|]; cbn [negb]; [|eauto].
  rewrite bind_ret. change (negb (C_OK =? C_OK)) with false. cbv iota.
  assert (Lm : (length (line_of s) <= m)%nat).
  { destruct (le_lt_dec (length (line_of s)) m) as [|G]; auto. rewrite firstn_length_le in EQ by lia. lia. }
  rewrite (firstn_all2 _ Lm) in *.
  destruct (validate_ok b1 0 n (line_of s) ltac:(lia) NM HO EQ) as [[WF _]|[_ EV]].
  - exfalso. apply (Hbad (mat_from (line_of s))). apply wf_body_is; [lia|auto].
  - rewrite EV, bind_ret. eexists. reflexivity.
Qed.

(** Nothing left to read *)
Lemma read_end k pre num n b g : 0 <= nco n + nce n -> bsz b = nco n + nce n + 3 ->
  readGraphUsingG6ReadIterator (rit k pre [] num n b) g =
  Ret (mkRI (Some (cont k pre [])) num n (nco n) (nce n) (nco n + nce n + 3) (Some b) true, g, C_OK).
Proof.
  intros H Hb. set (it := rit k pre [] num n b). unfold readGraphUsingG6ReadIterator.
  change (r_done it) with false. change (r_in it) with (Some (cont k pre [])). change (r_buf it) with (Some b).
  change (r_bsize it) with (nco n + nce n + 3). cbv beta iota zeta. unfold sf_fgets. replace (nco n + nce n + 3 <? 0) with false by lia.
  destruct k; unfold cont; cbn [app].
  - rewrite !guard_true by lia. replace (nco n + nce n + 3 =? 1) with false by lia. reflexivity.
  - rewrite (m_rd_ok _ _ 0) by (try lia; rewrite Nat2Z.id; apply nth_error_mid). reflexivity.
Qed.
