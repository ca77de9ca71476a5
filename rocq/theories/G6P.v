(** * G6P: bits, sextets and triangular numbers. *)
From Verif Require Import Base BaseP StrBufM StrFileM GraphRec GraphM GraphSpec DFSSpec RandSpec G6M G6Spec GraphP StrFileP.

Definition tri (c : Z) : Z := c * (c - 1) / 2.
Lemma tri2 c : 2 * tri c = c * (c - 1).
Proof.
  unfold tri. destruct (Z.Even_or_Odd c) as [[k ->]|[k ->]].
  - replace (2 * k * (2 * k - 1)) with (k * (2 * k - 1) * 2) by ring. rewrite Z.div_mul; lia.
  - replace ((2 * k + 1) * (2 * k + 1 - 1)) with ((2 * k + 1) * k * 2) by ring. rewrite Z.div_mul; lia.
Qed.
Lemma tri_S c : tri (c + 1) = tri c + c.
Proof. pose proof (tri2 c). pose proof (tri2 (c + 1)). lia. Qed.
Lemma tri_le c d : 0 <= c <= d -> tri c <= tri d.
Proof.
  intros H. pose proof (tri2 c). pose proof (tri2 d).
  assert (d = c \/ c + 1 <= d) as [-> | L] by lia; [lia|]. nia.
Qed.
Lemma tri_lt c r d : 0 <= r < c -> c < d -> tri c + r < tri d.
Proof. intros H1 H2. pose proof (tri_le (c + 1) d ltac:(lia)). rewrite tri_S in H. lia. Qed.
Lemma tri_nonneg c : 0 <= c -> 0 <= tri c.
Proof. intros H. pose proof (tri_le 0 c ltac:(lia)). change (tri 0) with 0 in *. lia. Qed.
Lemma tri_inj c r d s : 0 <= r < c -> 0 <= s < d -> tri c + r = tri d + s -> c = d /\ r = s.
Proof.
  intros H1 H2 E. destruct (Z.lt_trichotomy c d) as [L|[L|L]].
  - pose proof (tri_lt c r d H1 L). lia.
  - subst. lia.
  - pose proof (tri_lt d s c H2 L). lia.
Qed.
Lemma tri_dec n k : 0 <= n -> 0 <= k < tri n -> exists c r, 0 <= r < c /\ c < n /\ k = tri c + r.
Proof.
  intros Hn. pattern n. apply natlike_ind; [| |exact Hn].
  - change (tri 0) with 0. lia.
  - intros m Hm IH Hk. unfold Z.succ in Hk. rewrite tri_S in Hk. destruct (Z_lt_le_dec k (tri m)) as [L|L].
    + destruct IH as (c & r & H1 & H2 & H3); [lia|]. exists c, r. unfold Z.succ. split; [|split]; lia.
    + exists m, (k - tri m). unfold Z.succ. split; [|split]; lia.
Qed.
(** Position of the pair u, v among the bits. *)
Definition pidx (u v : Z) : Z := tri (v - 1) + (u - 1).
Lemma pidx_inj u v u' v' : 1 <= u < v -> 1 <= u' < v' -> pidx u v = pidx u' v' -> u = u' /\ v = v'.
Proof. intros H1 H2 E. unfold pidx in E. destruct (tri_inj (v - 1) (u - 1) (v' - 1) (u' - 1)); lia. Qed.

Lemma nth_skip {A} (d : A) : forall k l i, nth i (skipn k l) d = nth (k + i) l d.
Proof.
  induction k as [|k IH]; intros l i; [reflexivity|]. destruct l as [|x l]; cbn [skipn].
  - destruct i; destruct (S k + _)%nat; reflexivity.
  - rewrite IH. reflexivity.
Qed.

Lemma bits_S A n : g6_bits (S n) A = g6_bits n A ++ column A n.
Proof. unfold g6_bits. rewrite seq_S, flat_map_app. cbn [flat_map Nat.add]. now rewrite app_nil_r. Qed.
Lemma column_len A n : length (column A n) = n.
Proof. unfold column. now rewrite map_length, seq_length. Qed.
Lemma bits_len A n : Z.of_nat (length (g6_bits n A)) = tri (Z.of_nat n).
Proof.
  induction n as [|n IH]; [reflexivity|]. rewrite bits_S, app_length, column_len.
  replace (Z.of_nat (S n)) with (Z.of_nat n + 1) by lia. rewrite tri_S. lia.
Qed.
Lemma column_nth A n r : (r < n)%nat -> nth r (column A n) false = A (Z.of_nat r + 1) (Z.of_nat n + 1).
Proof.
  intros H. unfold column. set (f := fun r0 : nat => A (Z.of_nat r0 + 1) (Z.of_nat n + 1)).
  rewrite (nth_indep _ false (f O)) by now rewrite map_length, seq_length.
  rewrite (map_nth f). rewrite seq_nth by auto. reflexivity.
Qed.
Lemma bits_nth A n c r : 0 <= r < c -> c < Z.of_nat n -> nth (Z.to_nat (tri c + r)) (g6_bits n A) false = A (r + 1) (c + 1).
Proof.
  induction n as [|n IH]; intros H1 H2; [lia|]. rewrite bits_S. pose proof (bits_len A n) as HL.
  destruct (Z_lt_le_dec c (Z.of_nat n)) as [L|L].
  - rewrite app_nth1 by (pose proof (tri_lt c r _ H1 L); pose proof (tri_nonneg c); lia). apply IH; auto.
  - assert (c = Z.of_nat n) by lia. subst c. pose proof (tri_nonneg (Z.of_nat n)).
    rewrite app_nth2 by lia. rewrite column_nth by lia. f_equal; lia.
Qed.
Lemma bits_pidx A n u v : 1 <= u < v -> v <= n -> nth (Z.to_nat (pidx u v)) (g6_bits (Z.to_nat n) A) false = A u v.
Proof. intros H1 H2. unfold pidx. rewrite bits_nth by lia. f_equal; lia. Qed.

(** ** Sextets *)
Lemma six_range l : 0 <= six l < 64.
Proof. unfold six, b2z. repeat destruct (nth _ _ _); lia. Qed.
Lemma six_bit l p : 0 <= p <= 5 -> Z.testbit (six l) p = nth (Z.to_nat (5 - p)) l false.
Proof.
  intros H. assert (p = 0 \/ p = 1 \/ p = 2 \/ p = 3 \/ p = 4 \/ p = 5) as C by lia.
  unfold six. destruct C as [->|[->|[->|[->|[->| ->]]]]]; cbn [Z.sub Z.to_nat Z.opp Z.add Z.pos_sub Pos.to_nat Pos.iter_op Init.Nat.add Z.succ_double Z.pred_double Z.double Pos.pred_double];
    change (Z.to_nat (5 - 0)) with 5%nat; change (Z.to_nat (5 - 1)) with 4%nat; change (Z.to_nat (5 - 2)) with 3%nat;
    change (Z.to_nat (5 - 3)) with 2%nat; change (Z.to_nat (5 - 4)) with 1%nat; change (Z.to_nat (5 - 5)) with 0%nat;
    destruct (nth 0 l false), (nth 1 l false), (nth 2 l false), (nth 3 l false), (nth 4 l false), (nth 5 l false); reflexivity.
Qed.
Lemma six_firsts l l' : (forall i, (i < 6)%nat -> nth i l false = nth i l' false) -> six l = six l'.
Proof. intros H. unfold six. now rewrite !H by lia. Qed.

Lemma sextets_all : forall m l, (length l <= m)%nat ->
  length (sextets l) = ((length l + 5) / 6)%nat /\
  forall q, (q < length (sextets l))%nat -> nth q (sextets l) 0 = six (skipn (6 * q) l).
Proof.
  induction m as [|m IH]; intros l Hl.
  - destruct l; [|cbn [length] in Hl; lia]. split; [reflexivity|]. cbn [sextets length]. lia.
  - destruct l as [|b0 [|b1 [|b2 [|b3 [|b4 [|b5 l]]]]]];
      try (split; [reflexivity|]; cbn [sextets length]; intros q Hq; assert (q = O) by lia; subst q; reflexivity).
    cbn [length] in Hl. destruct (IH l ltac:(lia)) as [E1 E2]. split.
    + cbn [sextets length]. rewrite E1. replace (S (S (S (S (S (S (length l)))))) + 5)%nat with (length l + 5 + 1 * 6)%nat by lia.
        rewrite Nat.div_add by lia. lia.
    + cbn [sextets length]. intros [|q] Hq; [cbn [nth Nat.mul skipn]; apply six_firsts; intros [|[|[|[|[|[|i]]]]]]; cbn [nth]; auto; lia|].
        cbn [nth]. rewrite E2 by lia. replace (6 * S q)%nat with (6 + 6 * q)%nat by lia. rewrite <- skipn_skipn_add. reflexivity.
Qed.
Lemma sextets_len l : Z.of_nat (length (sextets l)) = (Z.of_nat (length l) + 5) / 6.
Proof. rewrite (proj1 (sextets_all _ l (le_n _))). rewrite Nat2Z.inj_div. f_equal. lia. Qed.
Lemma sextets_nth l q : (q < length (sextets l))%nat -> nth q (sextets l) 0 = six (skipn (6 * q) l).
Proof. apply (sextets_all _ l (le_n _)). Qed.

Definition nce (n : Z) : Z := (tri n + 5) / 6.
Lemma body_len n A : 0 <= n -> Z.of_nat (length (g6_body n A)) = nce n.
Proof. intros H. unfold g6_body. rewrite map_length, sextets_len, bits_len, Z2Nat.id by auto. reflexivity. Qed.
Lemma body_nth n A q : 0 <= n -> (q < length (g6_body n A))%nat ->
  nth q (g6_body n A) 0 = six (skipn (6 * q) (g6_bits (Z.to_nat n) A)) + 63.
Proof.
  intros Hn H. unfold g6_body in *. rewrite map_length in H.
  rewrite (nth_indep _ 0 (0 + 63)) by now rewrite map_length. rewrite (map_nth (fun x => x + 63)).
  rewrite sextets_nth by auto. reflexivity.
Qed.

(** Bytes are equal when their six bits are. *)
Lemma high_bit x p : 0 <= x < 64 -> 6 <= p -> Z.testbit x p = false.
Proof.
  intros H Hp. rewrite Z.testbit_eqb by lia. rewrite Z.div_small; [reflexivity|]. split; [lia|].
  apply Z.lt_le_trans with (2 ^ 6); [lia|]. apply Z.pow_le_mono_r; lia.
Qed.
Lemma byte_ext x y : 0 <= x < 64 -> 0 <= y < 64 -> (forall p, 0 <= p <= 5 -> Z.testbit x p = Z.testbit y p) -> x = y.
Proof.
  intros Hx Hy H. apply Z.bits_inj'. intros p Hp. destruct (Z_le_gt_dec p 5); [apply H; lia|].
  rewrite !high_bit by lia. reflexivity.
Qed.

(** The bit number k of a body of six-bit characters. *)
Definition bitat (L : list Z) (k : Z) : bool := Z.testbit (nth (Z.to_nat (k / 6)) L 0 - 63) (5 - k mod 6).
Lemma body_bit n A k : 0 <= n -> 0 <= k < 6 * nce n -> bitat (g6_body n A) k = nth (Z.to_nat k) (g6_bits (Z.to_nat n) A) false.
Proof.
  intros Hn Hk. unfold bitat. pose proof (body_len n A Hn) as HL.
  assert (k / 6 < nce n) by (apply Z.div_lt_upper_bound; lia). assert (0 <= k / 6) by (apply Z.div_pos; lia).
  rewrite body_nth by lia.
  replace (six (skipn (6 * Z.to_nat (k / 6)) (g6_bits (Z.to_nat n) A)) + 63 - 63) with (six (skipn (6 * Z.to_nat (k / 6)) (g6_bits (Z.to_nat n) A))) by lia.
  pose proof (Z.mod_pos_bound k 6 ltac:(lia)). rewrite six_bit by lia. rewrite nth_skip. f_equal.
  pose proof (Z.div_mod k 6 ltac:(lia)). lia.
Qed.
Lemma body_bit_pair n A u v : 1 <= u < v -> v <= n -> bitat (g6_body n A) (pidx u v) = A u v.
Proof.
  intros H1 H2. assert (0 <= pidx u v < tri n).
  { unfold pidx. pose proof (tri_lt (v - 1) (u - 1) n). pose proof (tri_nonneg (v - 1)). lia. }
  rewrite body_bit; [apply bits_pidx; auto|lia|]. unfold nce. pose proof (Z.div_mod (tri n + 5) 6 ltac:(lia)).
  pose proof (Z.mod_pos_bound (tri n + 5) 6 ltac:(lia)). lia.
Qed.
Lemma body_bit_pad n A k : 0 <= n -> tri n <= k < 6 * nce n -> bitat (g6_body n A) k = false.
Proof.
  intros Hn Hk. pose proof (tri_nonneg n Hn). rewrite body_bit by lia. apply nth_overflow.
  pose proof (bits_len A (Z.to_nat n)) as HL. rewrite Z2Nat.id in HL by auto. lia.
Qed.
Lemma body_range n A x : In x (g6_body n A) -> 63 <= x <= 126.
Proof.
  unfold g6_body. intros H. apply in_map_iff in H. destruct H as (y & <- & H).
  destruct (In_nth _ _ 0 H) as (q & Hq & <-). rewrite sextets_nth by auto. pose proof (six_range (skipn (6 * q) (g6_bits (Z.to_nat n) A))). lia.
Qed.

(** Which lines are the body of a graph of order n. *)
Definition wf_body (n : Z) (L : list Z) : Prop :=
  Z.of_nat (length L) = nce n /\ (forall x, In x L -> 63 <= x <= 126) /\
  forall k, tri n <= k < 6 * nce n -> bitat L k = false.
Definition mat_from (L : list Z) : mat := fun u v => bitat L (pidx u v).
Lemma wf_body_of n A : 0 <= n -> wf_body n (g6_body n A).
Proof.
  intros H. split; [apply body_len; auto|]. split; [intros x; apply body_range|]. intros k Hk. apply body_bit_pad; auto.
Qed.
Lemma nce_bounds n : 0 <= n -> tri n <= 6 * nce n < tri n + 6 /\ 0 <= nce n.
Proof.
  intros H. pose proof (tri_nonneg n H). unfold nce. pose proof (Z.div_mod (tri n + 5) 6 ltac:(lia)).
  pose proof (Z.mod_pos_bound (tri n + 5) 6 ltac:(lia)). pose proof (Z.div_pos (tri n + 5) 6). lia.
Qed.
Lemma wf_body_is n L : 0 <= n -> wf_body n L -> L = g6_body n (mat_from L).
Proof.
  intros Hn (H1 & H2 & H3). pose proof (body_len n (mat_from L) Hn) as HL.
  apply nth_ext with (d := 0) (d' := 0); [lia|]. intros q Hq.
  assert (R1 : 63 <= nth q L 0 <= 126) by (apply H2, nth_In; auto).
  assert (R2 : 63 <= nth q (g6_body n (mat_from L)) 0 <= 126) by (apply (body_range n (mat_from L)), nth_In; lia).
  enough (nth q L 0 - 63 = nth q (g6_body n (mat_from L)) 0 - 63) by lia.
  apply byte_ext; [lia|lia|]. intros p Hp. set (k := 6 * Z.of_nat q + (5 - p)).
  assert (K : forall M, Z.testbit (nth q M 0 - 63) p = bitat M k).
  { intros M. unfold bitat. replace (k / 6) with (Z.of_nat q).
    - replace (k mod 6) with (5 - p); [rewrite Nat2Z.id; f_equal; lia|].
      apply Z.mod_unique with (Z.of_nat q); unfold k; lia.
    - apply Z.div_unique with (5 - p); unfold k; lia. }
  rewrite !K. assert (0 <= k < 6 * nce n) by (unfold k; lia).
  destruct (Z_lt_le_dec k (tri n)) as [Lt|Le].
  - destruct (tri_dec n k Hn ltac:(lia)) as (c & r & Hr & Hc & E).
    replace k with (pidx (r + 1) (c + 1)) by (unfold pidx; replace (c + 1 - 1) with c by lia; lia).
    rewrite body_bit_pair by lia. reflexivity.
  - rewrite H3, body_bit_pad by lia. reflexivity.
Qed.
