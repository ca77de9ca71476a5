(** * DrawP3: rendering. *)
From Coq Require Import ZifyBool.
From Verif Require Import Base BaseP GraphRec GraphM StrBufM GraphSpec GSimp LinkP GraphP GraphP2 GraphP3 GraphP5
  DFSM DFSSpec DFSP DFSP2 RandP2 TestM TestSpec TestP TestP3 DrawM DrawSpec DrawP DrawP2.

(** ** Decimal numbers *)
Lemma digits_ok : forall f n acc, 0 <= n -> (forall x, In x acc -> 48 <= x <= 57) ->
  (forall x, In x (digits f n acc) -> 48 <= x <= 57) /\
  (length acc <= length (digits f n acc))%nat /\ (f <> O -> length acc < length (digits f n acc))%nat.
Proof.
  induction f as [|f IH]; intros n acc Hn HA; cbn [digits].
  - split; [exact HA|]. split; [lia|]. congruence.
  - pose proof (Z.mod_pos_bound n 10 ltac:(lia)) as Mb.
    assert (HB : forall x, In x ((48 + n mod 10) :: acc) -> 48 <= x <= 57). { intros x [<-|Hx]; [lia|apply HA; exact Hx]. }
    destruct (n / 10 =? 0).
    + split; [exact HB|]. cbn [length]. lia.
    + assert (Hd : 0 <= n / 10) by (apply Z.div_pos; lia). destruct (IH (n / 10) _ Hd HB) as (A & B & C).
      split; [exact A|]. cbn [length] in *. lia.
Qed.
Lemma dec_digits n x : 0 <= n -> In x (dec n) -> 48 <= x <= 57.
Proof.
  intros Hn. unfold dec. replace (n <? 0) with false by lia. apply (digits_ok 10 n []); [lia|]. intros y [].
Qed.
Lemma dec_len n : 0 <= n -> (1 <= length (dec n))%nat.
Proof.
  intros Hn. unfold dec. replace (n <? 0) with false by lia.
  destruct (digits_ok 10 n [] Hn) as (_ & _ & K); [intros y []|]. specialize (K ltac:(discriminate)). cbn [length] in K. lia.
Qed.
Lemma dec_short n : 0 <= n <= 99 -> (length (dec n) <= 2)%nat.
Proof.
  intros Hn. unfold dec. replace (n <? 0) with false by lia. cbn [digits].
  destruct (n / 10 =? 0); [cbn; lia|].
  assert (E : n / 10 / 10 = 0). { rewrite Z.div_div by lia. apply Z.div_small. lia. }
  rewrite E. cbn. lia.
Qed.

Section Render.
Variable c : dctx.
Variable off : Z.
Notation N := (gN (dG c)).
Notation M := (gM (dG c)).
Hypothesis HN : 1 <= N.
Hypothesis HM : 0 < M.
Hypothesis HPic : in_picture c.
Hypothesis Hoff : 0 <= off <= 1.
Hypothesis HCap : 2 * M <= gCap (dG c).
Let size := (M + 1) * 2 * N + 1.

Definition is_short : bool := N - off <=? 99.

Definition good (b : blk) : Prop :=
  (forall y, 0 <= y < 2 * N -> cell M b y M = 10) /\
  (forall y x, 0 <= y < 2 * N -> 0 <= x < M -> cell M b y x <> 10 /\ cell M b y x <> 0).
Definition Inv (b : blk) : Prop := bsz b = size /\ (is_short = true -> good b).

Lemma cell_inj y x y' x' : 0 <= x <= M -> 0 <= x' <= M -> y * (M + 1) + x = y' * (M + 1) + x' -> y = y' /\ x = x'.
Proof.
  intros Hx Hx' E. assert (y = y'); [|subst; lia].
  destruct (Z.lt_trichotomy y y') as [K|[K|K]]; [|exact K|]; exfalso; nia.
Qed.
Lemma cell_in y x : 0 <= y < 2 * N -> 0 <= x <= M -> 0 <= y * (M + 1) + x < size - 1.
Proof. intros Hy Hx. unfold size. split; nia. Qed.

Lemma wr_ok b i ch : bsz b = size -> 0 <= i < size -> b_wr b i ch = Ret (mkBlk size (upd (bdat b) i ch)).
Proof. intros E H. unfold b_wr, b_inb. replace ((0 <=? i) && (i <? bsz b)) with true by lia. cbn. rewrite E. reflexivity. Qed.

Lemma wr_inv b y x ch : Inv b -> 0 <= y < 2 * N -> 0 <= x < M -> ch <> 10 -> ch <> 0 ->
  wp (b_wr b (y * (M + 1) + x) ch) (fun b' => Inv b' /\ bdat b' = upd (bdat b) (y * (M + 1) + x) ch).
Proof.
  intros (I1 & I2) Hy Hx N1 N2. pose proof (cell_in y x Hy ltac:(lia)) as CI. rewrite wr_ok by (auto; lia). cbn [wp].
  split; [|reflexivity]. split; [reflexivity|]. intros HS. destruct (I2 HS) as (G1 & G2). split.
  - intros y' Hy'. unfold cell. cbn [bdat]. rewrite upd_other; [apply G1; exact Hy'|].
    intros E. apply cell_inj in E; lia.
  - intros y' x' Hy' Hx'. unfold cell. cbn [bdat]. unfold upd. destruct (_ =? _); [lia|]. apply G2; assumption.
Qed.

(** clearing *)
Definition cleared (k : Z) (b : blk) : Prop := bsz b = size /\
  forall y, 0 <= y < 2 * k -> cell M b y M = 10 /\ forall x, 0 <= x < M -> cell M b y x = 32.

Lemma clear_ok junk : wp (render_clear N M (mkBlk size junk)) (fun b => cleared N b).
Proof.
  unfold render_clear.
  eapply wp_mono; [apply (for_up_inv (fun k b => cleared k b))|].
  - split; [reflexivity|]. intros y Hy; lia.
  - intros k b Hk (B1 & B2). apply wp_bind.
    eapply wp_mono; [apply (for_up_inv (fun j b' => cleared k b' /\ forall x, 0 <= x < j ->
       cell M b' (2 * k) x = 32 /\ cell M b' (2 * k + 1) x = 32))|].
    + split; [split; assumption|]. intros x Hx; lia.
    + intros j b' Hj ((C1 & C2) & C3).
      assert (I0 : 0 <= 2 * k * (M + 1) + j < size - 1) by (apply cell_in; lia).
      assert (I1 : 0 <= (2 * k + 1) * (M + 1) + j < size - 1) by (apply cell_in; lia).
      rewrite wr_ok by (auto; lia). cbn [bind]. rewrite wr_ok by (cbn; auto; lia). cbn [wp bdat].
      assert (D : forall y x, 0 <= x <= M -> cell M (mkBlk size (upd (upd (bdat b') (2 * k * (M + 1) + j) 32) ((2 * k + 1) * (M + 1) + j) 32)) y x =
         if ((y =? 2 * k) || (y =? 2 * k + 1)) && (x =? j) then 32 else cell M b' y x).
      { intros y x Hx. unfold cell. cbn [bdat]. unfold upd.
        destruct (y * (M + 1) + x =? (2 * k + 1) * (M + 1) + j) eqn:E1.
        - apply Z.eqb_eq in E1. apply cell_inj in E1; [|lia|lia]. destruct E1 as (-> & ->). rewrite !Z.eqb_refl, orb_true_r. reflexivity.
        - destruct (y * (M + 1) + x =? 2 * k * (M + 1) + j) eqn:E2.
          + apply Z.eqb_eq in E2. apply cell_inj in E2; [|lia|lia]. destruct E2 as (-> & ->). rewrite !Z.eqb_refl. reflexivity.
          + destruct (((y =? 2 * k) || (y =? 2 * k + 1)) && (x =? j)) eqn:E3; [|reflexivity]. exfalso.
            apply andb_prop in E3. destruct E3 as (E3 & E4). apply Z.eqb_eq in E4. subst x. apply orb_prop in E3.
            destruct E3 as [E3|E3]; apply Z.eqb_eq in E3; subst y; lia. }
      split; [split; [reflexivity|]|].
      * intros y Hy. rewrite D by lia. replace (((y =? 2 * k) || (y =? 2 * k + 1)) && (M =? j)) with false by lia.
        split; [apply C2; exact Hy|]. intros x Hx. rewrite D by lia. replace (((y =? 2 * k) || (y =? 2 * k + 1)) && (x =? j)) with false by lia.
        apply C2; assumption.
      * intros x Hx. rewrite !D by lia. destruct (Z.eq_dec x j) as [->|Ne].
        -- rewrite !Z.eqb_refl, orb_true_r. auto.
        -- replace (x =? j) with false by lia. rewrite !andb_false_r. apply C3. lia.
    + intros b' ((C1 & C2) & C3).
      assert (I0 : 0 <= 2 * k * (M + 1) + M < size - 1) by (apply cell_in; lia).
      assert (I1 : 0 <= (2 * k + 1) * (M + 1) + M < size - 1) by (apply cell_in; lia).
      rewrite wr_ok by (auto; lia). cbn [bind]. rewrite wr_ok by (cbn; auto; lia). cbn [wp bdat].
      assert (D : forall y x, 0 <= x <= M -> cell M (mkBlk size (upd (upd (bdat b') (2 * k * (M + 1) + M) 10) ((2 * k + 1) * (M + 1) + M) 10)) y x =
         if ((y =? 2 * k) || (y =? 2 * k + 1)) && (x =? M) then 10 else cell M b' y x).
      { intros y x Hx. unfold cell. cbn [bdat]. unfold upd.
        destruct (y * (M + 1) + x =? (2 * k + 1) * (M + 1) + M) eqn:E1.
        - apply Z.eqb_eq in E1. apply cell_inj in E1; [|lia|lia]. destruct E1 as (-> & ->). rewrite !Z.eqb_refl, orb_true_r. reflexivity.
        - destruct (y * (M + 1) + x =? 2 * k * (M + 1) + M) eqn:E2.
          + apply Z.eqb_eq in E2. apply cell_inj in E2; [|lia|lia]. destruct E2 as (-> & ->). rewrite !Z.eqb_refl. reflexivity.
          + destruct (((y =? 2 * k) || (y =? 2 * k + 1)) && (x =? M)) eqn:E3; [|reflexivity]. exfalso.
            apply andb_prop in E3. destruct E3 as (E3 & E4). apply Z.eqb_eq in E4. subst x. apply orb_prop in E3.
            destruct E3 as [E3|E3]; apply Z.eqb_eq in E3; subst y; lia. }
      split; [reflexivity|]. intros y Hy. rewrite D by lia.
      destruct (Z_lt_le_dec y (2 * k)) as [Ly|Gy].
      * replace (((y =? 2 * k) || (y =? 2 * k + 1)) && (M =? M)) with false by lia. split; [apply C2; lia|].
        intros x Hx. rewrite D by lia. replace (((y =? 2 * k) || (y =? 2 * k + 1)) && (x =? M)) with false by lia. apply C2; lia.
      * replace (((y =? 2 * k) || (y =? 2 * k + 1)) && (M =? M)) with true by lia. split; [reflexivity|].
        intros x Hx. rewrite D by lia. replace (((y =? 2 * k) || (y =? 2 * k + 1)) && (x =? M)) with false by lia.
        assert (Cy : y = 2 * k \/ y = 2 * k + 1) by lia. destruct Cy as [-> | ->]; apply C3; lia.
  - intros b K. replace (0 + Z.of_nat (Z.to_nat N)) with N in K by lia. exact K.
Qed.

(** vertices *)
Lemma memcpy_bound b i s : bsz b = size -> 0 <= i -> i + Z.of_nat (length s) <= size ->
  wp (memcpy_str b i s) (fun b' => bsz b' = size).
Proof.
  revert b i. induction s as [|ch s IH]; intros b i B Hi Hs; cbn [memcpy_str].
  - exact B.
  - cbn [length] in Hs. rewrite wr_ok by (auto; lia). cbn [bind]. apply IH; cbn; [reflexivity|lia|lia].
Qed.
Lemma memcpy_inv : forall s b y x, Inv b -> 0 <= y < 2 * N -> 0 <= x -> x + Z.of_nat (length s) <= M ->
  (forall ch, In ch s -> ch <> 10 /\ ch <> 0) -> wp (memcpy_str b (y * (M + 1) + x) s) Inv.
Proof.
  induction s as [|ch s IH]; intros b y x I Hy Hx Hs HS; cbn [memcpy_str].
  - exact I.
  - cbn [length] in Hs. destruct (HS ch (or_introl eq_refl)) as (N1 & N2). apply wp_bind.
    eapply wp_mono; [apply (wr_inv b y x ch I Hy); auto; lia|]. intros b' (I' & _).
    rewrite <- Z.add_assoc. apply IH; auto; try lia. intros ch' H. apply HS. right. exact H.
Qed.

Lemma vertex_ok v b : primary (dG c) v -> Inv b -> wp (render_vertex M off c v b) Inv.
Proof.
  intros Hv I. destruct (pic_vertex _ HPic v Hv) as (P1 & P2 & P3). unfold render_vertex, rd_dV.
  unfold primary in Hv. replace (inVI (dG c) v) with true by (symmetry; unfold inVI, gp_PrimaryVertexIndexBound; lia).
  cbn [guard bind]. fold (row c v). set (d := dV c v) in *. set (p := row c v) in *. apply wp_bind.
  eapply wp_mono; [apply (for_up_inv (fun _ b => Inv b)); [exact I|]|].
  { intros x s Hx Is. eapply wp_mono; [apply (wr_inv s (2 * p) x 45 Is); lia|]. intros b' (I' & _). exact I'. }
  clear b I. intros b I. cbn beta in I.
  assert (Q : dstart d <= Z.quot (dstart d + dend d) 2 <= dend d /\ (dstart d < dend d -> Z.quot (dstart d + dend d) 2 < dend d)).
  { rewrite Z.quot_div_nonneg by lia. pose proof (Z.div_mod (dstart d + dend d) 2 ltac:(lia)).
    pose proof (Z.mod_pos_bound (dstart d + dend d) 2 ltac:(lia)). lia. }
  set (Mid := Z.quot (dstart d + dend d) 2) in *. clearbody Mid.
  set (num := dec (v - off)). assert (DC : forall ch, In ch num -> 48 <= ch <= 57) by (intros ch; apply dec_digits; lia).
  pose proof (dec_len (v - off) ltac:(lia)) as DL. fold num in DL.
  destruct ((dend d - dstart d + 1 <? 0) || (Z.of_nat (length num) <=? dend d - dstart d + 1)) eqn:EW.
  - assert (LW : Z.of_nat (length num) <= dend d - dstart d + 1) by lia.
    destruct is_short eqn:ES.
    + pose proof (dec_short (v - off)) as DS. fold num in DS. unfold is_short in ES. specialize (DS ltac:(lia)).
      apply memcpy_inv; auto; try lia. intros ch H. apply DC in H. lia.
    + pose proof (cell_in (2 * p) 0 ltac:(lia) ltac:(lia)) as C0. pose proof (cell_in (2 * p + 1) M ltac:(lia) ltac:(lia)) as C1.
      destruct I as (I1 & _).
      eapply wp_mono; [apply (memcpy_bound b _ num I1); nia|]. intros b' B'. split; [exact B'|]. rewrite ES. discriminate.
  - apply wp_bind. destruct num as [|a num'] eqn:EN; [cbn in DL; lia|]. rewrite <- EN in *.
    assert (A1 : 48 <= hd 0 num <= 57). { rewrite EN. cbn [hd]. apply DC. rewrite EN. left. reflexivity. }
    assert (A2 : 48 <= last num 0 <= 57). { apply DC. apply last_in. rewrite EN. discriminate. }
    eapply wp_mono; [apply (wr_inv b (2 * p) Mid _ I); try lia; destruct (_ =? 2); lia|]. intros b' (I' & _).
    eapply wp_mono; [apply (wr_inv b' (2 * p + 1) Mid _ I'); lia|]. intros b'' (I'' & _). exact I''.
Qed.

(** edges *)
Definition bars (b : blk) (e : Z) (hi : Z) : Prop :=
  (forall y, dstart (dE c e) < y < hi -> cell M b (2 * y) (col c e) = 124) /\
  (forall y, dstart (dE c e) <= y < hi -> cell M b (2 * y + 1) (col c e) = 124).

Lemma bars_keep b b' e hi i : bdat b' = upd (bdat b) i 124 -> bars b e hi -> bars b' e hi.
Proof.
  intros E (A & B). unfold bars, cell in *. rewrite E. unfold upd.
  split; intros y Hy; destruct (_ =? i); auto.
Qed.

Lemma edge_ok k b : 1 <= k <= M -> Inv b -> wp (render_edge M c k b) (fun b' => Inv b' /\ bars b' (2 * k) (dend (dE c (2 * k))) /\
  forall e hi, bars b e hi -> bars b' e hi).
Proof.
  intros Hk I. assert (A : arc (dG c) (2 * k)) by (unfold arc; lia).
  destruct (pic_edge _ HPic _ A) as (P1 & P2 & P3). unfold render_edge, rd_dE.
  replace (inE (dG c) (2 * k)) with true by (symmetry; unfold inE, gp_EdgeIndexBound; lia).
  cbn [guard bind]. fold (col c (2 * k)). set (d := dE c (2 * k)) in *. set (p := col c (2 * k)) in *.
  eapply wp_mono; [apply (for_up_inv (fun j b' => Inv b' /\ bars b' (2 * k) j /\ forall e hi, bars b e hi -> bars b' e hi))|].
  - split; [exact I|]. split; [|auto]. split; intros y Hy; fold d in Hy; lia.
  - intros x s Hx (Is & B1 & B2). apply wp_bind.
    eapply wp_mono with (P := fun s1 => Inv s1 /\ (dstart d < x -> cell M s1 (2 * x) p = 124) /\ forall e hi, bars s e hi -> bars s1 e hi).
    + destruct (dstart d <? x) eqn:E.
      * eapply wp_mono; [apply (wr_inv s (2 * x) p 124 Is); lia|]. intros s1 (I1 & E1). split; [exact I1|]. split.
        -- intros _. unfold cell. rewrite E1. apply upd_same.
        -- intros e hi. apply (bars_keep _ _ _ _ _ E1).
      * cbn. split; [exact Is|]. split; [lia|auto].
    + intros s1 (I1 & C1 & K1). eapply wp_mono; [apply (wr_inv s1 (2 * x + 1) p 124 I1); lia|]. intros s2 (I2 & E2).
      split; [exact I2|]. split.
      * pose proof (bars_keep _ _ _ _ _ E2 (K1 _ _ B1)) as (X & Y). fold p d in X, Y. split; fold p d; intros y Hy.
        -- destruct (Z.eq_dec y x) as [->|Ne]; [|apply X; lia]. unfold cell in *. rewrite E2. unfold upd.
           destruct (_ =? _); [reflexivity|]. apply C1. lia.
        -- destruct (Z.eq_dec y x) as [->|Ne]; [|apply Y; lia]. unfold cell. rewrite E2. apply upd_same.
      * intros e hi Hb. apply (bars_keep _ _ _ _ _ E2). apply K1. apply B2. exact Hb.
  - intros b' (I' & B1 & B2). split; [exact I'|]. split; [|exact B2].
    replace (dstart d + Z.of_nat (Z.to_nat (dend d - dstart d))) with (dend d) in B1 by lia. exact B1.
Qed.

Lemma render_ok junk : gholes (dG c) = [] -> off = (if Z.land (giflags (dG c)) 8 =? 0 then 0 else 1) -> size <= INT_MAX ->
  wp (_RenderToString junk c) (fun o => exists b, o = Some b /\ bsz b = size /\ bdat b (size - 1) = 0 /\
    (N - off <= 99 -> line_structure N M b) /\
    (forall k, 1 <= k <= M -> bars b (2 * k) (dend (dE c (2 * k))))).
Proof.
  intros HH EO HS. unfold _RenderToString. rewrite <- EO.
  assert (IO : forall x, 0 <= x <= size -> int_ok x = true). { intros x Hx. unfold int_ok, INT_MAX in *. lia. }
  unfold imul, iadd.
  rewrite (IO ((M + 1) * 2)) by (unfold size; nia). cbn [guard bind].
  rewrite (IO ((M + 1) * 2 * N)) by (unfold size; nia). cbn [guard bind].
  rewrite (IO ((M + 1) * 2 * N + 1)) by (unfold size; nia). cbn [guard bind]. rewrite HH. fold size.
  apply wp_bind. eapply wp_mono; [apply (clear_ok junk)|]. intros b0 (B1 & B2).
  assert (I0 : Inv b0).
  { split; [exact B1|]. intros _. split; [intros y Hy; apply B2; lia|]. intros y x Hy Hx. destruct (B2 y ltac:(lia)) as (_ & K). rewrite K; lia. }
  apply wp_bind. eapply wp_mono; [apply (for_up_inv (fun _ b => Inv b)); [exact I0|]|].
  { intros k s Hk Is. apply vertex_ok; [unfold primary; lia|exact Is]. }
  intros b1 I1. cbn beta in I1. apply wp_bind.
  assert (B : (gp_EdgeInUseIndexBound (dG c) - 2) / 2 = M).
  { unfold gp_EdgeInUseIndexBound. rewrite HH. cbn [length]. replace (2 + 2 * (M + Z.of_nat 0) - 2) with (M * 2) by lia.
    apply Z.div_mul. lia. }
  rewrite B.
  eapply wp_mono; [apply (for_up_inv (fun k b => Inv b /\ forall j, 1 <= j < k -> bars b (2 * j) (dend (dE c (2 * j)))))|].
  { split; [exact I1|]. intros j Hj; lia. }
  { intros k s Hk (Is & Bs). eapply wp_mono; [apply (edge_ok k s); [lia|exact Is]|]. intros b' (I' & X & Y).
    split; [exact I'|]. intros j Hj. destruct (Z.eq_dec j k) as [->|Ne]; [exact X|]. apply Y. apply Bs. lia. }
  intros b2 (I2 & BR). replace ((M + 1) * 2 * N) with (size - 1) by (unfold size; lia).
  assert (0 < size) by (unfold size; nia).
  rewrite wr_ok by (first [apply I2|lia]). cbn [bind wp]. eexists. split; [reflexivity|]. split; [reflexivity|].
  cbn [bdat]. split; [apply upd_same|].
  assert (CK : forall y x, 0 <= y < 2 * N -> 0 <= x <= M -> cell M (mkBlk size (upd (bdat b2) (size - 1) 0)) y x = cell M b2 y x).
  { intros y x Hy Hx. unfold cell. cbn [bdat]. apply upd_other. pose proof (cell_in y x Hy Hx). lia. }
  split.
  - intros HS99. destruct I2 as (_ & G). destruct G as (G1 & G2); [unfold is_short; lia|].
    split; [reflexivity|]. cbn [bdat]. split; [replace ((M + 1) * 2 * N) with (size - 1) by (unfold size; lia); apply upd_same|].
    split.
    + intros y Hy. rewrite CK by lia. apply G1. exact Hy.
    + intros y x Hy Hx. rewrite CK by lia. apply G2; assumption.
  - intros k Hk. destruct (BR k) as (X & Y); [lia|].
    assert (A : arc (dG c) (2 * k)) by (unfold arc; lia). destruct (pic_edge _ HPic _ A) as (P1 & P2 & P3).
    split; intros y Hy; rewrite CK by lia; [apply X|apply Y]; exact Hy.
Qed.
End Render.
