(** * G6P2: the graph6 writer. *)
From Verif Require Import Base BaseP StrBufM StrFileM GraphRec GraphM GraphSpec DFSSpec RandSpec G6M G6Spec
  GSimp GraphP GraphP2 RandP StrFileP G6P.

Lemma to_char_id x : -128 <= x < 128 -> to_char x = x.
Proof. intros H. unfold to_char. rewrite Z.mod_small by lia. lia. Qed.
Lemma b_rd_ok b i : 0 <= i < bsz b -> b_rd b i = Ret (bdat b i).
Proof. intros H. unfold b_rd, b_inb. apply guard_true. lia. Qed.
Lemma b_wr_ok b i v : 0 <= i < bsz b -> b_wr b i v = Ret (mkBlk (bsz b) (upd (bdat b) i v)).
Proof. intros H. unfold b_wr, b_inb. apply guard_true. lia. Qed.

Lemma blk_str_ok b off s : 0 <= off -> off + Z.of_nat (length s) < bsz b -> (forall x, In x s -> x <> 0) ->
  (forall i, (i < length s)%nat -> bdat b (off + Z.of_nat i) = nth i s 0) -> bdat b (off + Z.of_nat (length s)) = 0 ->
  blk_str b off = Ret s.
Proof.
  intros H0 H1 H2 H3 H4. unfold blk_str. rewrite guard_true by (unfold b_inb; lia). rewrite map_map.
  rewrite (map_seq_split _ (Z.to_nat (bsz b - off)) (length s)) by lia.
  rewrite (map_nth_seq s) by auto. rewrite H4. apply c_str_app. auto.
Qed.

(** ** Sizes *)
Lemma max_edges n : 1 <= n -> n * (n - 1) <= INT_MAX -> _getMaxEdgeCount n = Ret (tri n).
Proof.
  intros H1 H2. unfold _getMaxEdgeCount, imul. rewrite guard_true by (unfold int_ok, INT_MAX in *; nia).
  rewrite bind_ret. rewrite Z.quot_div_nonneg by nia. reflexivity.
Qed.
Lemma num_chars n : 1 <= n -> n * (n - 1) <= INT_MAX -> _getNumCharsForGraphEncoding n = Ret (nce n).
Proof.
  intros H1 H2. unfold _getNumCharsForGraphEncoding. rewrite max_edges, bind_ret by auto. f_equal. unfold nce.
  pose proof (tri_nonneg n ltac:(lia)). rewrite Z.quot_div_nonneg, Z.rem_mod_nonneg by lia.
  pose proof (Z.div_mod (tri n) 6 ltac:(lia)). pose proof (Z.mod_pos_bound (tri n) 6 ltac:(lia)).
  destruct (Z.eqb_spec (tri n mod 6) 0) as [E|E]; cbn [negb].
  - apply Z.div_unique with 5; lia.
  - apply Z.div_unique with (tri n mod 6 - 1); lia.
Qed.
Definition nco (n : Z) : Z := if n <? 63 then 1 else 4.
Lemma order_chars n : 1 <= n <= 100000 -> _getNumCharsForGraphOrder n = nco n.
Proof.
  intros H. unfold _getNumCharsForGraphOrder, nco. destruct (n <? 63) eqn:E.
  - replace (n >? 0) with true by lia. reflexivity.
  - rewrite andb_false_r. replace (n >=? 63) with true by lia. replace (n <=? 100000) with true by lia. reflexivity.
Qed.
Lemma order_len n : Z.of_nat (length (g6_order n)) = nco n.
Proof. unfold g6_order, nco. destruct (Z.leb_spec n 62); replace (n <? 63) with (n <=? 62) by lia; destruct (n <=? 62) eqn:E; try lia; reflexivity. Qed.
Lemma order_range n x : 1 <= n <= 100000 -> In x (g6_order n) -> 63 <= x <= 126.
Proof.
  intros H. unfold g6_order. destruct (Z.leb_spec n 62) as [L|L]; intros Hx; simpl in Hx.
  - lia.
  - pose proof (Z.mod_pos_bound (n / 64) 64 ltac:(lia)). pose proof (Z.mod_pos_bound n 64 ltac:(lia)).
    assert (0 <= n / 4096 < 64) by (split; [apply Z.div_pos|apply Z.div_lt_upper_bound]; lia). lia.
Qed.

(** ** Column offsets *)
Lemma offsets_ok n : 1 <= n -> n * (n - 1) <= INT_MAX ->
  wp (_precomputeColumnOffsets (mkBlk (n + 1) (fun _ => 0)) n)
     (fun o => bsz o = n + 1 /\ forall c, 0 <= c <= n -> bdat o c = tri c).
Proof.
  intros H1 H2. unfold _precomputeColumnOffsets. rewrite b_wr_ok, bind_ret by (cbn [bsz]; lia).
  rewrite b_wr_ok, bind_ret by (cbn [bsz]; lia). cbn [bsz bdat].
  eapply wp_mono. apply (for_up_inv (fun i (o : blk) => bsz o = n + 1 /\ forall c, 0 <= c < i -> bdat o c = tri c)).
  - cbn [bsz bdat]. split; [auto|]. intros c Hc. assert (c = 0 \/ c = 1) as [-> | ->] by lia; reflexivity.
  - intros k o Hk (B1 & B2). rewrite b_rd_ok, bind_ret by lia. rewrite (B2 (k - 1)) by lia.
    assert (T : tri (k - 1) + (k - 1) = tri k) by (rewrite <- tri_S; f_equal; lia).
    unfold iadd. rewrite T, guard_true.
    + rewrite bind_ret, b_wr_ok by lia. apply wp_ret. cbn [bsz bdat]. split; [auto|]. intros c Hc.
      destruct (Z.eq_dec c k) as [->|Hne]; [apply upd_same|]. rewrite upd_other by auto. apply B2. lia.
    + pose proof (tri_nonneg k ltac:(lia)). pose proof (tri_le k n ltac:(lia)). pose proof (tri2 n).
      unfold int_ok, INT_MAX in *. lia.
  - intros o (B1 & B2). split; [auto|]. intros c Hc. apply B2. lia.
Qed.

(** ** Order bytes *)
Lemma land63 x : Z.land x 63 = x mod 64.
Proof. change 63 with (Z.ones 6). rewrite Z.land_ones by lia. reflexivity. Qed.
Lemma write_order_ok n b : 2 <= n <= 100000 -> nco n < bsz b -> (forall i, 0 <= i < bsz b -> bdat b i = 0) ->
  exists b', write_order b n = Ret b' /\ bsz b' = bsz b /\
    (forall i, (i < length (g6_order n))%nat -> bdat b' (Z.of_nat i) = nth i (g6_order n) 0) /\
    (forall i, nco n <= i < bsz b -> bdat b' i = 0).
Proof.
  intros Hn Hb Hz. unfold write_order, nco, g6_order in *.
  destruct (Z.leb_spec n 62) as [L|L].
  - replace (n >? 62) with false by lia. replace ((n >? 1) && (n <? 63)) with true by lia.
    replace (n <? 63) with true in Hb |- * by lia. rewrite to_char_id, b_wr_ok by lia. eexists. split; [reflexivity|].
    cbn [bsz bdat length]. split; [auto|]. split.
    + intros i Hi. assert (i = O) by lia. subst i. apply upd_same.
    + intros i Hi. rewrite upd_other by lia. apply Hz. lia.
  - replace (n >? 62) with true by lia. replace (n <? 63) with false in Hb |- * by lia.
    rewrite b_wr_ok, bind_ret by lia. cbn [for_up]. cbn [Z.sub Z.opp Z.add Z.mul Z.pos_sub Pos.add Pos.succ Pos.mul].
    rewrite !land63, !Z.shiftr_div_pow2 by lia. change (2 ^ (6 * 0)) with 1. change (2 ^ (6 * (0 + 1))) with 64. change (2 ^ (6 * (0 + 1 + 1))) with 4096.
    rewrite Z.div_1_r. pose proof (Z.mod_pos_bound (n / 64) 64 ltac:(lia)). pose proof (Z.mod_pos_bound n 64 ltac:(lia)).
    assert (0 <= n / 4096 < 64) by (split; [apply Z.div_pos|apply Z.div_lt_upper_bound]; lia).
    rewrite (Z.mod_small (n / 4096)) by lia.
    repeat (first [rewrite bind_ret | rewrite to_char_id by lia | rewrite b_wr_ok by (cbn [bsz]; lia) | rewrite b_rd_ok by (cbn [bsz]; lia)
                  | progress cbn [bsz bdat] | rewrite upd_same]).
    eexists. split; [reflexivity|]. cbn [bsz bdat length]. split; [auto|]. split.
    + intros [|[|[|[|i]]]] Hi; try lia; cbn [nth Z.of_nat Pos.of_succ_nat Pos.succ]; repeat first [rewrite upd_same | rewrite upd_other by lia]; rewrite ?to_char_id by (rewrite ?to_char_id by lia; lia); reflexivity.
    + intros i Hi. rewrite !upd_other by lia. apply Hz. lia.
Qed.

(** ** The edges *)
Lemma even_step e : Z.even e = true -> Z.even (e + 2) = true.
Proof. intros H. rewrite Z.even_add, H. reflexivity. Qed.
Lemma even_lt e k : Z.even e = true -> Z.even k = true -> e < k -> e + 2 <= k.
Proof.
  intros He Hk H. apply Z.even_spec in He, Hk. destruct He as [a ->], Hk as [b ->]. lia.
Qed.
Definition ebound (g : graph) : Z := gp_EdgeInUseIndexBound g.
Lemma ebound_le g adj : rep g adj -> ebound g <= gp_EdgeIndexBound g.
Proof. intros R. apply (st_cap _ _ (rep_storage _ _ R)). Qed.

Lemma next_ok g adj : rep g adj -> forall f e, 2 <= e < ebound g -> Z.even e = true -> ebound g - e < Z.of_nat f ->
  exists e', next_in_use f g e = Ret e' /\ e <= e' <= ebound g /\ Z.even e' = true /\
    (forall x, e <= x < e' -> Z.even x = true -> enbr g x = NIL) /\ (e' < ebound g -> enbr g e' <> NIL).
Proof.
  intros R. pose proof (ebound_le g adj R) as HB. pose proof (even_bound g) as HEv.
  induction f as [|f IH]; intros e He Hev Hf; [lia|]. cbn [next_in_use].
  rewrite get_nbr, bind_ret by (unfold inE; lia).
  destruct (Z.eqb_spec (enbr g e) NIL) as [E|E]; cbn [negb].
  - pose proof (even_lt e (ebound g) Hev HEv ltac:(lia)) as H2.
    assert (X : forall x, e <= x < e + 2 -> Z.even x = true -> enbr g x = NIL).
    { intros x Hx Hx2. assert (x = e \/ x = e + 1) as [-> | ->] by lia; [auto|].
      rewrite Z.even_add, Hev in Hx2. discriminate. }
    fold (ebound g). destruct (Z.geb_spec (e + 2) (ebound g)) as [G|G].
    + exists (e + 2). split; [reflexivity|]. split; [lia|]. split; [apply even_step; auto|]. split; [auto|lia].
    + destruct (IH (e + 2)) as (e' & E1 & E2 & E3 & E4 & E5); [lia|apply even_step; auto|lia|].
      exists e'. split; [auto|]. split; [lia|]. split; [auto|]. split; [|auto].
      intros x Hx Hx2. destruct (Z_lt_le_dec x (e + 2)); [apply X; auto; lia|apply E4; auto; lia].
  - exists e. split; [reflexivity|]. split; [lia|]. split; [auto|]. split; [intros x Hx; lia|auto].
Qed.
(** The next edge at or after record e, with its ends. *)
Record edge_at (g : graph) (e e' u v : Z) : Prop := {
  at_le : e <= e'; at_even : Z.even e' = true;
  at_skip : forall x, e <= x < e' -> x < ebound g -> Z.even x = true -> enbr g x = NIL;
  at_end : ebound g <= e' -> u = NIL /\ v = NIL;
  at_in : e' < ebound g -> enbr g e' <> NIL /\ u = enbr g e' /\ v = enbr g (twin e') }.
Lemma next_edge_ok g adj e : rep g adj -> 2 <= e -> Z.even e = true ->
  exists e' u v, _getNextInUseEdge g e = Ret (e', u, v) /\ edge_at g e e' u v.
Proof.
  intros R He Hev. pose proof (ebound_le g adj R) as HB. pose proof (even_bound g) as HEv.
  unfold _getNextInUseEdge. fold (ebound g). destruct (Z.ltb_spec e (ebound g)) as [L|L].
  - destruct (next_ok g adj R (efuel g) e ltac:(lia) Hev) as (e' & E1 & E2 & E3 & E4 & E5).
    { unfold efuel. lia. }
    rewrite E1, bind_ret. destruct (Z.ltb_spec e' (ebound g)) as [L'|L'].
    + rewrite get_nbr, bind_ret by (unfold inE; lia). replace (enbr g e' =? NIL) with false by (specialize (E5 L'); lia). cbn [negb].
      rewrite bind_ret. change (gp_GetTwinArc e') with (twin e').
      rewrite get_nbr by (pose proof (twin_lt_even e' (ebound g) ltac:(lia) HEv ltac:(lia)); pose proof (twin_ge_2 e' ltac:(lia)); unfold inE; lia).
      rewrite bind_ret. do 3 eexists. split; [reflexivity|]. constructor; [lia|auto|intros; apply E4; auto|intros; lia|auto].
    + do 3 eexists. split; [reflexivity|]. constructor; [lia|auto|intros; apply E4; auto|auto|intros; lia].
  - do 3 eexists. split; [reflexivity|]. constructor; [lia|auto|intros; lia|auto|intros; lia].
Qed.

(** Bits set so far: those of the edges below record e. *)
Definition seen (g : graph) (e k : Z) : Prop :=
  exists x, 2 <= x < e /\ x < ebound g /\ Z.even x = true /\ enbr g x <> NIL /\
    k = pidx (Z.min (enbr g x) (enbr g (twin x))) (Z.max (enbr g x) (enbr g (twin x))).
Record enc (g : graph) (n : Z) (b0 b : blk) (e : Z) : Prop := {
  en_size : bsz b = bsz b0;
  en_out : forall i, i < nco n \/ nco n + nce n <= i -> bdat b i = bdat b0 i;
  en_byte : forall q, 0 <= q < nce n -> 0 <= bdat b (nco n + q) < 64;
  en_bits : forall q p, 0 <= q < nce n -> 0 <= p <= 5 ->
     (Z.testbit (bdat b (nco n + q)) p = true <-> seen g e (6 * q + (5 - p))) }.

Lemma lor64 a b : 0 <= a < 64 -> 0 <= b < 64 -> 0 <= Z.lor a b < 64.
Proof.
  intros Ha Hb. assert (0 <= Z.lor a b) by (apply Z.lor_nonneg; lia). split; [auto|].
  destruct (Z.eq_dec (Z.lor a b) 0); [lia|]. change 64 with (2 ^ 6). apply Z.log2_lt_pow2; [lia|].
  rewrite Z.log2_lor by lia. assert (L : forall x, 0 <= x < 64 -> Z.log2 x < 6).
  { intros x Hx. destruct (Z.eq_dec x 0) as [->|]; [reflexivity|]. apply Z.log2_lt_pow2; [lia|]. exact (proj2 Hx). }
  pose proof (L a Ha). pose proof (L b Hb). lia.
Qed.
Lemma shl1_range p : 0 <= p <= 5 -> 0 <= Z.shiftl 1 p < 64.
Proof.
  intros H. rewrite Z.shiftl_1_l. split; [apply Z.pow_nonneg; lia|]. change 64 with (2 ^ 6). apply Z.pow_lt_mono_r; lia.
Qed.
Lemma shl1_bit p q : 0 <= p -> 0 <= q -> Z.testbit (Z.shiftl 1 p) q = (p =? q).
Proof. intros Hp Hq. rewrite Z.shiftl_1_l. destruct (Z.eqb_spec p q) as [->|]; [apply Z.pow2_bits_true; lia|apply Z.pow2_bits_false; lia]. Qed.

Lemma set_bit_ok g n offs b0 b e : 2 <= n -> n * (n - 1) <= INT_MAX ->
  bsz offs = n + 1 -> (forall c, 0 <= c <= n -> bdat offs c = tri c) -> nco n + nce n <= bsz b0 ->
  enc g n b0 b e -> 2 <= e < ebound g -> Z.even e = true -> enbr g e <> NIL ->
  1 <= enbr g e <= n -> 1 <= enbr g (twin e) <= n -> enbr g e <> enbr g (twin e) ->
  exists b', set_edge_bit b offs (nco n) (enbr g e) (enbr g (twin e)) = Ret b' /\ enc g n b0 b' (e + 2).
Proof.
  intros Hn Hf O1 O2 HB EN He Hev Hu0 Hu Hv Hne. set (u := enbr g e) in *. set (v := enbr g (twin e)) in *.
  unfold set_edge_bit. cbv zeta. set (lo := Z.min u v). set (hi := Z.max u v).
  replace (if v - 1 <? u - 1 then (v - 1, u - 1) else (u - 1, v - 1)) with (lo - 1, hi - 1)
    by (unfold lo, hi; destruct (Z.ltb_spec (v - 1) (u - 1)); f_equal; lia).
  assert (Hlo : 1 <= lo < hi) by lia. assert (Hhi : hi <= n) by lia.
  rewrite b_rd_ok, bind_ret by lia. rewrite O2 by lia. unfold iadd. fold (pidx lo hi).
  assert (HP : 0 <= pidx lo hi < tri n).
  { unfold pidx. pose proof (tri_lt (hi - 1) (lo - 1) n). pose proof (tri_nonneg (hi - 1)). lia. }
  pose proof (tri2 n) as T2. pose proof (nce_bounds n ltac:(lia)) as [NB NB0].
  rewrite guard_true by (unfold int_ok, INT_MAX in *; lia). rewrite bind_ret.
  rewrite Z.quot_div_nonneg, Z.rem_mod_nonneg by lia. set (q0 := pidx lo hi / 6). set (m0 := pidx lo hi mod 6).
  pose proof (Z.div_mod (pidx lo hi) 6 ltac:(lia)) as DM. fold q0 m0 in DM.
  pose proof (Z.mod_pos_bound (pidx lo hi) 6 ltac:(lia)) as Hm. fold m0 in Hm.
  assert (Hq : 0 <= q0 < nce n) by lia.
  assert (Hc : 0 < nco n) by (unfold nco; destruct (n <? 63); lia).
  destruct EN as [S1 S2 S3 S4]. rewrite b_rd_ok, bind_ret by lia. pose proof (S3 q0 Hq) as Hx.
  pose proof (lor64 _ _ Hx (shl1_range (5 - m0) ltac:(lia))) as Hl.
  rewrite to_char_id by lia. rewrite b_wr_ok by lia. eexists. split; [reflexivity|].
  assert (SE : forall k, seen g (e + 2) k <-> seen g e k \/ k = pidx lo hi).
  { intros k. split.
    - intros (x & X1 & X2 & X3 & X4 & X5). destruct (Z.eq_dec x e) as [->|N]; [right; exact X5|left].
      exists x. assert (x <> e + 1) by (intros ->; rewrite Z.even_add, Hev in X3; discriminate). repeat split; auto; lia.
    - intros [(x & X1 & X2 & X3 & X4 & X5)| -> ]; [exists x; repeat split; auto; lia|].
      exists e. repeat split; auto; lia. }
  constructor; cbn [bsz bdat].
  - auto.
  - intros i Hi. rewrite upd_other by lia. apply S2. lia.
  - intros q Hq'. destruct (Z.eq_dec q q0) as [->|]; [rewrite upd_same; lia|]. rewrite upd_other by lia. apply S3. auto.
  - intros q p Hq' Hp. rewrite SE. destruct (Z.eq_dec q q0) as [->|Nq].
    + rewrite upd_same, Z.lor_spec, shl1_bit by lia. rewrite orb_true_iff, S4 by auto.
      split; (intros [H|H]; [left; exact H|right]); lia.
    + rewrite upd_other by lia. rewrite S4 by auto. split; [auto|intros [H|H]; [auto|lia]].
Qed.

Lemma simple_edge g adj n e : simple_graph g adj -> gN g = n -> 2 <= e < ebound g -> enbr g e <> NIL ->
  1 <= enbr g e <= n /\ 1 <= enbr g (twin e) <= n /\ enbr g e <> enbr g (twin e) /\
  In e (adj (enbr g (twin e))).
Proof.
  intros (R & [S1 S2] & P) HN He Hu. assert (Hin : In e (adj (enbr g (twin e)))).
  { apply (rep_arc_of _ _ _ _ R). split; [exact He|]. split; auto. }
  pose proof (arc_nbr_primary g adj _ _ R P Hin) as P1. pose proof (P _ _ Hin) as P2. unfold primary in *.
  pose proof (S1 _ _ Hin). repeat split; auto; try lia.
Qed.

Lemma encode_ok g adj n offs b0 : simple_graph g adj -> gN g = n -> 2 <= n -> n * (n - 1) <= INT_MAX ->
  bsz offs = n + 1 -> (forall c, 0 <= c <= n -> bdat offs c = tri c) -> nco n + nce n <= bsz b0 ->
  forall f b e0 e u v, enc g n b0 b e0 -> 2 <= e0 -> edge_at g e0 e u v -> ebound g - e < Z.of_nat f -> (1 <= f)%nat ->
  exists b', encode_edges f g offs (nco n) b e u v = Ret b' /\ enc g n b0 b' (ebound g).
Proof.
  intros SG HN Hn Hfit O1 O2 HB. pose proof SG as (R & _).
  assert (adv : forall b e0 e, 2 <= e0 -> enc g n b0 b e0 -> e0 <= e -> (forall x, e0 <= x < e -> x < ebound g -> Z.even x = true -> enbr g x = NIL) -> enc g n b0 b e).
  { intros b e0 e H2 EN Hle Hsk. destruct EN as [S1 S2 S3 S4]. constructor; auto. intros q p Hq Hp. rewrite S4 by auto.
    unfold seen. split; intros (x & X1 & X2 & X3 & X4 & X5); exists x; repeat split; auto; try lia.
    destruct (Z_lt_le_dec x e0); [auto|]. exfalso. apply X4. apply Hsk; auto; lia. }
  induction f as [|f IH]; intros b e0 e u v EN He0 A Hf Hf1; [lia|]. cbn [encode_edges].
  destruct (Z_lt_le_dec e (ebound g)) as [L|L].
  - destruct (at_in _ _ _ _ _ A L) as (U0 & -> & ->). pose proof (at_le _ _ _ _ _ A) as Hle. pose proof (at_even _ _ _ _ _ A) as Hev.
    destruct (simple_edge g adj n e SG HN ltac:(lia) U0) as (E1 & E2 & E3 & _).
    replace (negb (enbr g e =? NIL) && negb (enbr g (twin e) =? NIL)) with true by (unfold NIL in *; lia).
    assert (EN1 : enc g n b0 b e) by (eapply adv; eauto; apply (at_skip _ _ _ _ _ A)).
    destruct (set_bit_ok g n offs b0 b e Hn Hfit O1 O2 HB EN1 ltac:(lia) Hev U0 E1 E2 E3) as (b' & EB & EN2).
    rewrite EB, bind_ret. unfold _getNextEdge.
    destruct (next_edge_ok g adj (e + 2) R ltac:(lia) (even_step _ Hev)) as (e' & u' & v' & EE & A').
    rewrite EE, bind_ret. cbv beta iota. pose proof (at_le _ _ _ _ _ A') as Hle'.
    apply (IH b' (e + 2) e' u' v' EN2); auto; lia.
  - destruct (at_end _ _ _ _ _ A L) as [-> ->]. cbn [NIL Z.eqb negb andb]. exists b. split; [reflexivity|].
    pose proof (at_le _ _ _ _ _ A) as Hle.
    assert (EN1 : enc g n b0 b e) by (eapply adv; eauto; apply (at_skip _ _ _ _ _ A)).
    destruct EN1 as [S1 S2 S3 S4]. constructor; auto. intros q p Hq Hp. rewrite S4 by auto.
    unfold seen. split; intros (x & X1 & X2 & X3 & X4 & X5); exists x; repeat split; auto; lia.
Qed.

(** All the edges: the bit of a pair says whether it is adjacent. *)
Lemma seen_all g adj n u v : simple_graph g adj -> gN g = n -> 1 <= u < v -> v <= n ->
  (seen g (ebound g) (pidx u v) <-> adjacent g adj u v).
Proof.
  intros SG HN Hu Hv. pose proof SG as (R & _). split.
  - intros (x & X1 & X2 & X3 & X4 & X5). destruct (simple_edge g adj n x SG HN ltac:(lia) X4) as (E1 & E2 & E3 & E4).
    assert (HU : 1 <= Z.min (enbr g x) (enbr g (twin x)) < Z.max (enbr g x) (enbr g (twin x))) by lia.
    destruct (pidx_inj _ _ _ _ Hu HU X5) as [E5 E6].
    destruct (Z_lt_le_dec (enbr g x) (enbr g (twin x))) as [L|L].
    + destruct (rep_twins _ _ R _ _ E4) as [T1 T2]. exists (twin x). rewrite Z.min_l in E5 by lia. rewrite Z.max_r in E6 by lia. subst. auto.
    + exists x. rewrite Z.min_r in E5 by lia. rewrite Z.max_l in E6 by lia. subst. auto.
  - intros (e & H1 & H2). destruct (rep_twins _ _ R _ _ H1) as [T1 T2].
    assert (K : forall x a b, In x (adj a) -> enbr g x = b -> enbr g (twin x) = a -> Z.even x = true -> Z.min a b = u -> Z.max a b = v ->
                seen g (ebound g) (pidx u v)).
    { intros x a b I1 I2 I3 I4 I5 I6. pose proof (st_used _ _ (rep_storage _ _ R) _ _ I1) as Hr. fold (ebound g) in Hr.
      apply (rep_arc_of _ _ _ _ R) in I1. destruct I1 as (J1 & J2 & J3).
      exists x. split; [lia|]. split; [lia|]. split; [auto|]. split; [auto|]. rewrite I2, I3, Z.min_comm, Z.max_comm. congruence. }
    destruct (Z.even e) eqn:Ev.
    + apply (K e u v); auto; lia.
    + apply (K (twin e) v u); [rewrite <- H2; auto|auto|rewrite twin_invol; auto| |lia|lia].
      unfold twin. pose proof (ch_range _ _ (rep_chains _ _ R) _ _ H1). rewrite lxor_1 by lia. rewrite Ev.
      rewrite Z.even_sub, Ev. reflexivity.
Qed.

Lemma testbit_seen g adj n A b0 b : is_graph g n A -> simple_graph g adj -> 2 <= n -> enc g n b0 b (ebound g) ->
  forall q, 0 <= q < nce n -> bdat b (nco n + q) + 63 = nth (Z.to_nat q) (g6_body n A) 0.
Proof.
  intros [HN (adj1 & SG & HA)] _ Hn EN q Hq. pose proof (body_len n A ltac:(lia)) as HL.
  rewrite body_nth by lia. f_equal. apply byte_ext; [apply (en_byte _ _ _ _ _ EN); auto|apply six_range|].
  intros p Hp. rewrite six_bit, nth_skip by auto.
  assert (E : Z.testbit (bdat b (nco n + q)) p = true <-> nth (Z.to_nat (6 * q + (5 - p))) (g6_bits (Z.to_nat n) A) false = true).
  { rewrite (en_bits _ _ _ _ _ EN) by auto. set (k := 6 * q + (5 - p)).
    destruct (Z_lt_le_dec k (tri n)) as [L|L].
    - destruct (tri_dec n k ltac:(lia) ltac:(lia)) as (c & r & Hr & Hc & E).
      replace k with (pidx (r + 1) (c + 1)) by (unfold pidx; replace (c + 1 - 1) with c by lia; lia).
      rewrite (seen_all g adj1 n), bits_pidx by (auto; lia). symmetry. apply HA; lia.
    - rewrite nth_overflow by (pose proof (bits_len A (Z.to_nat n)) as X; rewrite Z2Nat.id in X by lia; lia).
      split; [|discriminate]. intros (x & X1 & X2 & X3 & X4 & X5). exfalso.
      destruct (simple_edge g adj1 n x SG HN ltac:(lia) X4) as (E1 & E2 & E3 & E4). unfold pidx in X5.
      pose proof (tri_lt (Z.max (enbr g x) (enbr g (twin x)) - 1) (Z.min (enbr g x) (enbr g (twin x)) - 1) n ltac:(lia) ltac:(lia)). lia. }
  replace (6 * Z.to_nat q + Z.to_nat (5 - p))%nat with (Z.to_nat (6 * q + (5 - p))) by lia.
  destruct (Z.testbit (bdat b (nco n + q)) p), (nth (Z.to_nat (6 * q + (5 - p))) (g6_bits (Z.to_nat n) A) false); auto; try (symmetry; tauto).
  all: destruct E as [E1 E2]; first [discriminate (E1 eq_refl)|discriminate (E2 eq_refl)].
Qed.

Lemma plus63_ok n b : 0 <= nce n -> 0 <= nco n -> nco n + nce n <= bsz b -> (forall q, 0 <= q < nce n -> 0 <= bdat b (nco n + q) < 64) ->
  wp (for_up (Z.to_nat (nce n)) (nco n) (fun i b => x <- b_rd b i ;; b_wr b i (to_char (x + 63))) b)
     (fun b' => bsz b' = bsz b /\ (forall q, 0 <= q < nce n -> bdat b' (nco n + q) = bdat b (nco n + q) + 63) /\ forall i, i < nco n \/ nco n + nce n <= i -> bdat b' i = bdat b i).
Proof.
  intros H0 H1 H2 H3.
  eapply wp_mono. apply (for_up_inv (fun i (c : blk) => bsz c = bsz b /\ forall x, bdat c x = if (nco n <=? x) && (x <? i) then bdat b x + 63 else bdat b x)).
  - split; [auto|]. intros x. replace ((nco n <=? x) && (x <? nco n)) with false by lia. auto.
  - intros i c Hi (B1 & B2). rewrite b_rd_ok, bind_ret by lia. rewrite B2. replace ((nco n <=? i) && (i <? i)) with false by lia.
    specialize (H3 (i - nco n) ltac:(lia)). replace (nco n + (i - nco n)) with i in H3 by lia.
    rewrite to_char_id, b_wr_ok by lia. apply wp_ret. cbn [bsz bdat]. split; [auto|]. intros x.
    destruct (Z.eq_dec x i) as [->|N].
    + rewrite upd_same. replace ((nco n <=? i) && (i <? i + 1)) with true by lia. auto.
    + rewrite upd_other by auto. rewrite B2. replace (x <? i + 1) with (x <? i) by lia. auto.
  - intros c (B1 & B2). split; [auto|]. split.
    + intros q Hq. rewrite B2. replace ((nco n <=? nco n + q) && (nco n + q <? nco n + Z.of_nat (Z.to_nat (nce n)))) with true by lia. auto.
    + intros i Hi. rewrite B2. replace ((nco n <=? i) && (i <? nco n + Z.of_nat (Z.to_nat (nce n)))) with false by lia. auto.
Qed.

(** Writing one graph through the iterator. *)
Definition wrote (out out' : container) (s : list Z) : Prop := exists r, 0 <= r /\ sf_fputs s out = Ret (r, out').
Lemma write_graph_ok g n A out out' offs b : is_graph g n A -> 2 <= n <= 100000 -> n * (n - 1) <= INT_MAX ->
  bsz offs = n + 1 -> (forall c, 0 <= c <= n -> bdat offs c = tri c) -> bsz b = nco n + nce n + 3 ->
  wrote out out' (g6_order n ++ g6_body n A) ->
  exists b', writeGraphUsingG6WriteIterator (mkWI (Some out) n (nco n) (nce n) (nco n + nce n + 3) (Some b) (Some offs)) g =
    Ret (mkWI (Some out') n (nco n) (nce n) (nco n + nce n + 3) (Some b') (Some offs), C_OK) /\ bsz b' = nco n + nce n + 3.
Proof.
  intros G Hn Hfit O1 O2 HB (r & Hr & W). pose proof G as [HN (adj & SG & HA)]. pose proof SG as (R & _).
  pose proof (nce_bounds n ltac:(lia)) as [NB NB0].
  assert (Hc : 0 < nco n) by (unfold nco; destruct (n <? 63); lia).
  unfold writeGraphUsingG6WriteIterator, _encodeAdjMatAsG6. cbn [w_buf w_offs w_out w_order w_nco w_nce w_bsize].
  replace (gN g =? 0) with false by lia.
  set (bz := mkBlk (bsz b) _). destruct (write_order_ok n bz Hn) as (b1 & E1 & Z1 & G1 & F1).
  { unfold bz. cbn [bsz]. lia. }
  { unfold bz. cbn [bsz bdat]. intros i Hi. replace ((0 <=? i) && (i <? nco n + nce n + 3)) with true by lia. reflexivity. }
  unfold bz in Z1, F1. cbn [bsz] in Z1, F1. rewrite E1, bind_ret. unfold _getFirstEdge. fold (ebound g).
  assert (HBd : 2 <= ebound g).
  { unfold ebound, gp_EdgeInUseIndexBound. pose proof (st_M _ _ (rep_storage _ _ R)). lia. }
  unfold NIL at 1. replace (0 >=? ebound g) with false by lia.
  destruct (next_edge_ok g adj 2 R ltac:(lia) eq_refl) as (e & u & v & E2 & A2). rewrite E2, bind_ret. cbv beta iota.
  rewrite bind_ret. cbn [negb Z.eqb C_OK Pos.eqb].
  assert (EN0 : enc g n b1 b1 2).
  { constructor; auto.
    - intros q Hq. rewrite F1 by lia. lia.
    - intros q p Hq Hp. rewrite F1 by lia. rewrite Z.bits_0. split; [discriminate|]. intros (x & X & _). lia. }
  destruct (encode_ok g adj n offs b1 SG HN ltac:(lia) Hfit O1 O2 ltac:(lia) (efuel g) b1 2 e u v EN0 ltac:(lia) A2) as (b2 & E3 & EN).
  { pose proof (at_le _ _ _ _ _ A2). pose proof (ebound_le g adj R). unfold efuel. lia. }
  { unfold efuel. lia. }
  rewrite E3, bind_ret. pose proof (en_size _ _ _ _ _ EN) as Z2.
  destruct (wp_inv _ _ (plus63_ok n b2 NB0 ltac:(lia) ltac:(lia) (en_byte _ _ _ _ _ EN))) as (b3 & E4 & Z3 & G3 & F3).
  rewrite E4, !bind_ret. cbv beta iota. cbn [negb Z.eqb C_OK Pos.eqb]. unfold _printEncodedGraph. cbn [w_out w_buf].
  pose proof (body_len n A ltac:(lia)) as BL. pose proof (order_len n) as OL.
  assert (NZ : forall x, In x (g6_order n ++ g6_body n A) -> x <> 0).
  { intros x Hx. apply in_app_or in Hx. destruct Hx as [Hx|Hx]; [apply order_range in Hx|apply body_range in Hx]; lia. }
  rewrite (blk_str_ok b3 0 (g6_order n ++ g6_body n A)).
  - rewrite bind_ret. unfold str_len. rewrite app_length. replace (_ =? 0) with false by lia.
    rewrite W, bind_ret. replace (r <? 0) with false by lia. cbn [w_order w_nco w_nce w_bsize w_buf w_offs].
    eexists. split; [reflexivity|]. lia.
  - lia.
  - rewrite app_length. lia.
  - exact NZ.
  - intros i Hi. rewrite app_length in Hi. destruct (Nat.lt_ge_cases i (length (g6_order n))) as [L|L].
    + rewrite app_nth1 by lia. replace (0 + Z.of_nat i) with (Z.of_nat i) by lia. rewrite F3 by lia. rewrite (en_out _ _ _ _ _ EN) by lia. rewrite G1 by lia. reflexivity.
    + rewrite app_nth2 by lia. replace (0 + Z.of_nat i) with (nco n + (Z.of_nat i - nco n)) by lia.
      rewrite G3 by lia. rewrite (testbit_seen g adj n A b1 b2 G SG ltac:(lia) EN) by lia. f_equal. lia.
  - rewrite app_length. rewrite F3, (en_out _ _ _ _ _ EN), F1 by lia. reflexivity.
Qed.

Lemma begin_write_ok g n out out' : 2 <= n <= 100000 -> n * (n - 1) <= INT_MAX -> gN g = n -> wrote out out' g6_head ->
  exists offs b, begin_write (mkWI None 0 0 0 0 None None) out g =
    Ret (mkWI (Some out') n (nco n) (nce n) (nco n + nce n + 3) (Some b) (Some offs), C_OK) /\
    bsz offs = n + 1 /\ (forall c, 0 <= c <= n -> bdat offs c = tri c) /\ bsz b = nco n + nce n + 3.
Proof.
  intros Hn Hf HN (r & Hr & W). unfold begin_write, _beginG6WriteIteration. cbn [w_out w_order w_nco w_nce w_bsize w_buf w_offs].
  change g6_header with g6_head. rewrite W, bind_ret. cbv beta iota. replace (r <? 0) with false by lia. rewrite HN.
  destruct (wp_inv _ _ (offsets_ok n ltac:(lia) Hf)) as (offs & E & O1 & O2). rewrite E, bind_ret.
  rewrite order_chars, num_chars, bind_ret by lia. eexists offs, _. split; [reflexivity|]. auto.
Qed.

Lemma wrote_str s t : (forall x, In x s -> x <> 0) -> exists pos', forall pos, wrote (CStr (s ++ [0]) pos) (CStr ((s ++ t) ++ [0]) (pos + pos')) t.
Proof.
  intros H. exists (Z.of_nat (length t)). intros pos. exists (Z.of_nat (length t)). split; [lia|]. cbn [sf_fputs].
  rewrite c_str_app, bind_ret by auto. now rewrite app_assoc.
Qed.
Lemma wrote_file inp s t : wrote (CFile inp s) (CFile inp (s ++ t)) t.
Proof. exists 1. split; [lia|]. reflexivity. Qed.
Lemma head_nz x : In x g6_head -> x <> 0.
Proof. unfold g6_head. simpl. lia. Qed.

Lemma write_string_ok g n A : is_graph g n A -> 2 <= n <= 100000 -> n * (n - 1) <= INT_MAX ->
  _WriteGraphToG6String g = Ret (Some (g6_text n A ++ [0]), C_OK).
Proof.
  intros G Hn Hf. pose proof G as [HN _]. unfold _WriteGraphToG6String, allocateG6WriteIterator. replace (gN g <=? 0) with false by lia.
  destruct (wrote_str [] g6_head ltac:(intros x [])) as (p1 & W1). cbn [app] in W1.
  destruct (begin_write_ok g n (sf_NewStr [0]) _ Hn Hf HN (W1 0)) as (offs & b & E & O1 & O2 & B).
  rewrite E, bind_ret. cbv beta iota. cbn [negb Z.eqb C_OK Pos.eqb].
  destruct (wrote_str g6_head (g6_order n ++ g6_body n A) head_nz) as (p2 & W2).
  destruct (write_graph_ok g n A _ _ offs b G Hn Hf O1 O2 B (W2 (0 + p1))) as (b' & E2 & _).
  change (62 :: 62 :: 103 :: 114 :: 97 :: 112 :: 104 :: 54 :: 60 :: 60 :: [0]) with (g6_head ++ [0]).
  rewrite E2, bind_ret. cbv beta iota. cbn [negb Z.eqb C_OK Pos.eqb w_out sf_takeTheStr fst]. reflexivity.
Qed.
Lemma write_file_ok g n A : is_graph g n A -> 2 <= n <= 100000 -> n * (n - 1) <= INT_MAX ->
  _WriteGraphToG6File g = Ret (g6_text n A, C_OK).
Proof.
  intros G Hn Hf. pose proof G as [HN _]. unfold _WriteGraphToG6File, allocateG6WriteIterator. replace (gN g <=? 0) with false by lia.
  destruct (begin_write_ok g n (CFile [] []) _ Hn Hf HN (wrote_file [] [] g6_head)) as (offs & b & E & O1 & O2 & B).
  rewrite E, bind_ret. cbv beta iota zeta. cbn [negb Z.eqb C_OK Pos.eqb].
  destruct (write_graph_ok g n A _ _ offs b G Hn Hf O1 O2 B (wrote_file [] ([] ++ g6_head) (g6_order n ++ g6_body n A))) as (b' & E2 & _).
  rewrite E2, bind_ret. cbv beta iota. cbn [w_out]. reflexivity.
Qed.
