(** * G6P6: a line of another order in a sequence, and orders over the limit, are rejected. *)
From Verif Require Import Base BaseP StrBufM StrFileM StrFileSpec GraphRec GraphM GraphSpec DFSSpec RandSpec G6M G6Spec
  GSimp GraphP GraphP2 GraphP3 GraphP4 CopyP RandP RandP2 StrFileP G6P G6P2 G6P3 G6P4 G6P5.

(** The iterator delivers the graphs [As] one by one and then fails, leaving the last one. *)
Inductive delivers_then_fails (n : Z) : riter -> graph -> list mat -> Prop :=
| df_fail it g it' : readGraphUsingG6ReadIterator it g = Ret (it', g, C_NOTOK) -> delivers_then_fails n it g []
| df_next it g it' g' A As : readGraphUsingG6ReadIterator it g = Ret (it', g', C_OK) -> r_done it' = false ->
    is_graph g' n A -> delivers_then_fails n it' g' As -> delivers_then_fails n it g (A :: As).

Lemma check_order_bad b n n' : 2 <= n' <= 100000 -> n' <> n -> 4 <= bsz b ->
  (forall i, (i < length (g6_order n'))%nat -> bdat b (Z.of_nat i) = nth i (g6_order n') 0) -> _checkGraphOrder b n = Ret C_NOTOK.
Proof.
  intros Hn Hne Hb Hd. unfold _checkGraphOrder, g6_order in *. rewrite b_rd_ok, bind_ret by lia.
  destruct (Z.leb_spec n' 62) as [L|L].
  - specialize (Hd O ltac:(cbn [length]; lia)). change (Z.of_nat 0) with 0 in Hd. cbn [nth] in Hd. rewrite Hd.
    replace (n' + 63 =? 126) with false by lia. replace ((n' + 63 >? 62) && (n' + 63 <? 126)) with true by lia.
    replace (n' + 63 - 63 =? n) with false by lia. reflexivity.
  - destruct (order_parts n' ltac:(lia)) as (P1 & P2 & P3).
    pose proof (Hd 0%nat ltac:(cbn [length]; lia)) as D0. pose proof (Hd 1%nat ltac:(cbn [length]; lia)) as D1.
    pose proof (Hd 2%nat ltac:(cbn [length]; lia)) as D2. pose proof (Hd 3%nat ltac:(cbn [length]; lia)) as D3.
    change (Z.of_nat 0) with 0 in D0. change (Z.of_nat 1) with 1 in D1. change (Z.of_nat 2) with 2 in D2. change (Z.of_nat 3) with 3 in D3.
    cbn [nth] in D0, D1, D2, D3. rewrite D0. cbn [Z.eqb Pos.eqb].
    rewrite b_rd_ok, bind_ret by lia. rewrite D1. replace (n' / 4096 + 63 =? 126) with false by lia. replace (n' / 4096 + 63 >? 126) with false by lia.
    cbn [for_up]. change (1 + 1) with 2. change (2 + 1) with 3.
    rewrite !b_rd_ok by lia. rewrite D1, D2, D3, !bind_ret.
    change (6 * (3 - 1)) with 12. change (6 * (3 - 2)) with 6. change (6 * (3 - 3)) with 0. cbn [bind].
    replace (n' / 4096 + 63 - 63) with (n' / 4096) by lia. rewrite shl_or_ok by lia. cbn [bind].
    replace (n' / 64 mod 64 + 63 - 63) with (n' / 64 mod 64) by lia. rewrite shl_or_ok by lia. cbn [bind].
    replace (n' mod 64 + 63 - 63) with (n' mod 64) by lia. rewrite shl_or_ok by lia. cbn [bind].
    rewrite order_lor by lia. replace (n' =? n) with false by lia. reflexivity.
Qed.

Lemma line_app_in W u : (forall y, In y W -> y <> 10 /\ y <> 13) -> line_of (W ++ u) = W ++ line_of u.
Proof.
  induction W as [|w W IH]; intros H; [reflexivity|]. cbn [app line_of]. destruct (H w (or_introl eq_refl)) as [H1 H2].
  replace ((w =? 10) || (w =? 13)) with false by lia. f_equal. apply IH. intros y Hy. apply H. now right.
Qed.

Lemma read_other k pre u num n n' b g : (forall x, In x (pre ++ g6_order n' ++ u) -> x <> 0) -> 2 <= n <= 100000 -> 2 <= n' <= 100000 -> n' <> n ->
  bsz b = nco n + nce n + 3 -> 1 <= num ->
  exists it', readGraphUsingG6ReadIterator (rit k pre (g6_order n' ++ u) num n b) g = Ret (it', g, C_NOTOK).
Proof.
  intros NZ Hn Hn' Hne Hb Hnum. pose proof (nce_pos n ltac:(lia)) as NP. assert (NC : 1 <= nco n) by (unfold nco; destruct (n <? 63); lia).
  set (s := g6_order n' ++ u) in *. set (m := Z.to_nat (nco n + nce n + 2)).
  assert (L4 : (1 <= length (g6_order n') <= 4)%nat) by (unfold g6_order; destruct (n' <=? 62); cbn [length]; lia).
  assert (Hs : s <> []) by (unfold s; destruct (g6_order n'); [cbn [length] in L4; lia|discriminate]).
  destruct (read_prefix k pre s num n b g Hs NZ Hn Hb) as (r & b1 & b2 & E & B1 & HO & ER). fold m in E, HO, ER. rewrite ER.
  assert (Hh : 63 <= hd 0 s <= 126).
  { apply (order_range n'); [lia|]. unfold s. destruct (g6_order n'); [cbn [length] in L4; lia|now left]. }
  rewrite first_ok by auto. cbn [negb]. unfold after, str_len. cbn [rit r_nco r_nce r_order].
  replace (num + 1 =? 1) with false by lia. replace (num + 1 >? 1) with true by lia. cbv beta iota zeta.
  destruct (negb (_ =? _)); [eauto|].
  rewrite (check_order_bad b1 n n'); auto; [cbn; eauto|lia|].
  intros i Hi. assert (EL : line_of s = g6_order n' ++ line_of u).
  { apply line_app_in. intros y Hy. apply (order_range n') in Hy; lia. }
  pose proof (ho_dat _ _ _ HO i) as X. rewrite Z.add_0_l in X. rewrite EL, firstn_app, (firstn_all2 (g6_order n')) in X by lia.
  rewrite X by (rewrite app_length; lia). now rewrite app_nth1.
Qed.

Lemma fail_rest k n n' u C : 2 <= n <= 100000 -> n * (n - 1) <= C -> 2 * C <= INT_MAX -> 2 <= n' <= 100000 -> n' <> n -> (forall x, In x u -> x <> 0) ->
  forall As pre num b g adj,
  (forall x, In x pre -> x <> 0) -> 1 <= num -> bsz b = nco n + nce n + 3 -> ready g adj n C ->
  delivers_then_fails n (rit k pre (lines n As ++ g6_order n' ++ u) num n b) g As.
Proof.
  intros Hn HC HI Hn' Hne Hu. assert (NC : 1 <= nco n) by (unfold nco; destruct (n <? 63); lia). pose proof (nce_pos n ltac:(lia)) as NP.
  assert (TZ : forall x, In x (g6_order n' ++ u) -> x <> 0).
  { intros x Hx. apply in_app_or in Hx. destruct Hx as [Hx|Hx]; [apply order_range in Hx; lia|auto]. }
  set (t := g6_order n' ++ u) in *.
  induction As as [|A As IH]; intros pre num b g adj Hp Hnum Hb RD; cbn [lines].
  - cbn [app]. destruct (read_other k pre u num n n' b g) as (it' & E); auto; [|eapply df_fail; exact E].
    intros x Hx. apply in_app_or in Hx. destruct Hx; auto.
  - rewrite <- !app_assoc. cbn [app]. set (s := g6_order n ++ g6_body n A ++ 10 :: lines n As ++ t).
    assert (NZ : forall x, In x (pre ++ s) -> x <> 0).
    { intros x Hx. apply in_app_or in Hx. destruct Hx as [Hx|Hx]; [auto|]. unfold s in Hx.
      assert (Ht : In x (lines n (A :: As)) \/ In x t).
      { cbn [lines]. rewrite !in_app_iff in *. destruct Hx as [Hx|[Hx|[Hx|Hx]]]; auto.
        - left. right. right. now left.
        - apply in_app_iff in Hx. destruct Hx as [Hx|Hx]; [left; right; right; now right|auto]. }
      destruct Ht as [Ht|Ht]; [apply (lines_nz n (A :: As)); [lia|exact Ht]|auto]. }
    assert (EW : s = (g6_order n ++ g6_body n A) ++ 10 :: lines n As ++ t) by (unfold s; now rewrite <- app_assoc).
    assert (WR : forall y, In y (g6_order n ++ g6_body n A) -> y <> 10 /\ y <> 13).
    { intros y Hy. apply in_app_or in Hy. destruct Hy as [Hy|Hy]; [apply order_range in Hy; lia|apply (body_lines n A); [lia|auto]]. }
    destruct (read_line k pre s num n b g C A) as (r & b1 & g' & adj' & Es & B1 & ER & IG & RD' & _); auto.
    + lia.
    + unfold g_for. replace (num + 1 >? 1) with true by lia. destruct RD as [R1 R2 R3 R4]. eapply reinit_start; eauto. apply R1.
    + unfold ord_for. replace (num + 1 =? 1) with false by lia. rewrite EW. apply line_app_eol; auto.
    + set (m := Z.to_nat (nco n + nce n + 2)) in *.
      assert (ET : fg_take k m s = (g6_order n ++ g6_body n A) ++ [10]).
      { rewrite EW. apply take_line; [intros y Hy; apply WR; auto|]. rewrite app_length. pose proof (order_len n). pose proof (body_len n A ltac:(lia)). lia. }
      rewrite ET in *. assert (Er : r = lines n As ++ t).
      { rewrite EW in Es. rewrite <- !app_assoc in Es. cbn [app] in Es. do 2 apply app_inv_head in Es. congruence. }
      subst r. eapply df_next; [exact ER|reflexivity|exact IG|]. eapply IH; eauto; [|lia].
      intros x Hx. apply in_app_or in Hx. destruct Hx as [Hx|Hx]; [auto|]. apply NZ. apply in_or_app. right. rewrite EW.
      apply in_app_or in Hx. apply in_or_app. destruct Hx as [Hx|Hx]; [auto|]. right. destruct Hx as [<-|[]]. simpl. auto.
Qed.

Lemma fail_all k h n n' u A As g : h = [] \/ h = g6_head -> readable g n -> n * (n - 1) <= INT_MAX ->
  2 <= n' <= 100000 -> n' <> n -> (forall x, In x u -> x <> 0) ->
  exists it g0, _beginG6ReadIteration allocateG6ReadIterator (cont k [] (h ++ lines n (A :: As) ++ g6_order n' ++ u)) g = Ret (it, g0, C_OK) /\
    delivers_then_fails n it g0 (A :: As).
Proof.
  intros Hh Hr NM Hn' Hne Hu. assert (Hn : 2 <= n <= 100000) by (destruct Hr as [[_ ?]|(_ & _ & ? & _)]; lia). cbn [lines]. rewrite <- !app_assoc. cbn [app].
  assert (NC : 1 <= nco n) by (unfold nco; destruct (n <? 63); lia). pose proof (nce_pos n ltac:(lia)) as NP.
  assert (TZ : forall x, In x (g6_order n' ++ u) -> x <> 0).
  { intros x Hx. apply in_app_or in Hx. destruct Hx as [Hx|Hx]; [apply order_range in Hx; lia|auto]. }
  set (t := g6_order n' ++ u) in *. set (s := g6_body n A ++ 10 :: lines n As ++ t).
  destruct (begin_ok k h s g n Hh Hr NM) as (C & g0 & b & E & B1 & S0 & C1 & C2). exists (rit k (h ++ g6_order n) s 0 n b), g0. split; [exact E|].
  assert (NZ : forall x, In x ((h ++ g6_order n) ++ s) -> x <> 0).
  { rewrite <- app_assoc. apply text_nz; auto; [lia|]. intros x [<-|Hx]; [lia|]. apply in_app_or in Hx. destruct Hx as [Hx|Hx]; [apply (lines_nz n As); [lia|auto]|auto]. }
  destruct (read_line k (h ++ g6_order n) s 0 n b g0 C A) as (r & b1 & g' & adj' & Es & B1' & ER & IG & RD' & _); auto.
  - lia.
  - unfold ord_for. cbn [Z.add Z.eqb Pos.eqb app]. apply line_app_eol; auto. apply body_lines. lia.
  - set (m := Z.to_nat (nco n + nce n + 2)) in *.
    assert (ET : fg_take k m s = g6_body n A ++ [10]).
    { apply take_line; [intros y Hy; apply (body_lines n A); [lia|auto]|]. pose proof (body_len n A ltac:(lia)). lia. }
    rewrite ET in *. assert (Er : r = lines n As ++ t).
    { unfold s in Es. rewrite <- app_assoc in Es. cbn [app] in Es. apply app_inv_head in Es. congruence. }
    subst r. eapply df_next; [exact ER|reflexivity|exact IG|]. eapply fail_rest; eauto; [|lia].
    intros x Hx. apply NZ. apply in_app_or in Hx. apply in_or_app. destruct Hx as [Hx|Hx]; [auto|right]. unfold s.
    apply in_app_or in Hx. apply in_or_app. destruct Hx as [Hx|Hx]; [auto|]. right. destruct Hx as [<-|[]]. simpl. auto.
Qed.

Lemma lor_parts x y z : 0 <= x < 64 -> 0 <= y < 64 -> 0 <= z < 64 ->
  Z.lor (Z.lor (Z.lor 0 (Z.shiftl x 12)) (Z.shiftl y 6)) (Z.shiftl z 0) = 4096 * x + 64 * y + z.
Proof.
  intros Hx Hy Hz. set (n := 4096 * x + 64 * y + z).
  assert (E1 : n / 4096 = x) by (unfold n; symmetry; apply (Z.div_unique _ _ _ (64 * y + z)); lia).
  assert (E2 : n / 64 = 64 * x + y) by (unfold n; symmetry; apply (Z.div_unique _ _ _ z); lia).
  assert (E3 : n / 64 mod 64 = y) by (rewrite E2; symmetry; apply (Z.mod_unique _ _ x); lia).
  assert (E4 : n mod 64 = z) by (unfold n; symmetry; apply (Z.mod_unique _ _ (64 * x + y)); lia).
  apply Z.bits_inj'. intros p Hp. rewrite !Z.lor_spec, Z.bits_0, Z.shiftl_0_r, !Z.shiftl_spec by lia. cbn [orb].
  rewrite <- E1, <- E3, <- E4 at 1. change 4096 with (2 ^ 12). change 64 with (2 ^ 6).
  destruct (Z.ltb_spec p 6).
  - rewrite (Z.testbit_neg_r _ (p - 12)), (Z.testbit_neg_r _ (p - 6)) by lia. cbn [orb]. now rewrite Z.mod_pow2_bits_low by lia.
  - rewrite (Z.mod_pow2_bits_high n 6 p) by lia. rewrite orb_false_r. destruct (Z.ltb_spec p 12).
    + rewrite (Z.testbit_neg_r _ (p - 12)) by lia. cbn [orb]. rewrite Z.mod_pow2_bits_low, Z.div_pow2_bits by lia. f_equal. lia.
    + rewrite (Z.mod_pow2_bits_high _ 6 (p - 6)) by lia. rewrite orb_false_r, Z.div_pow2_bits by lia. f_equal. lia.
Qed.
Lemma get_order_big k pre x y z s : 63 <= x < 126 -> 63 <= y <= 126 -> 63 <= z <= 126 ->
  4096 * (x - 63) + 64 * (y - 63) + (z - 63) > 100000 ->
  exists c n, _getGraphOrder (cont k pre (126 :: x :: y :: z :: s)) = Ret (c, n, C_NOTOK).
Proof.
  intros Hx Hy Hz Hb. unfold _getGraphOrder. rewrite getc_cont, bind_ret by lia. cbv beta iota. cbn [Z.eqb Pos.eqb].
  rewrite getc_cont, bind_ret by lia. cbv beta iota. replace (x =? 126) with false by lia.
  rewrite ungetc_cont, bind_ret by (unfold C_EOF; lia). cbv beta iota. cbn [for_down].
  rewrite getc_cont, bind_ret by lia. cbv beta iota.
  change (6 * 2) with 12. rewrite shl_or_ok, !bind_ret by lia. cbv beta iota.
  rewrite getc_cont, bind_ret by lia. cbv beta iota.
  change (6 * (2 - 1)) with 6. rewrite shl_or_ok, !bind_ret by lia. cbv beta iota.
  rewrite getc_cont, bind_ret by lia. cbv beta iota.
  change (6 * (2 - 1 - 1)) with 0. rewrite shl_or_ok, !bind_ret by lia. cbv beta iota.
  rewrite lor_parts by lia. replace (_ >? 100000) with true by lia. eauto.
Qed.
Lemma begin_big k h x y z s g : h = [] \/ h = g6_head -> 63 <= x < 126 -> 63 <= y <= 126 -> 63 <= z <= 126 ->
  4096 * (x - 63) + 64 * (y - 63) + (z - 63) > 100000 ->
  exists it, _beginG6ReadIteration allocateG6ReadIterator (cont k [] (h ++ 126 :: x :: y :: z :: s)) g = Ret (it, g, C_NOTOK).
Proof.
  intros Hh Hx Hy Hz Hb. unfold _beginG6ReadIteration. destruct Hh as [-> | ->].
  - cbn [app]. rewrite getc_cont, bind_ret by lia. cbv beta iota. change (126 =? C_EOF) with false. cbv iota.
    rewrite ungetc_cont, bind_ret by (unfold C_EOF; lia). cbv beta iota. rewrite Z.eqb_refl. cbn [negb]. change (126 =? 62) with false. cbv iota. rewrite bind_ret. cbv beta iota.
    change (negb (C_OK =? C_OK)) with false. cbv iota. rewrite getc_cont, bind_ret by lia. cbv beta iota. rewrite ungetc_cont, bind_ret by (unfold C_EOF; lia). cbv beta iota.
    rewrite Z.eqb_refl. cbn [negb]. rewrite first_ok by lia. cbn [negb].
    destruct (get_order_big k [] x y z s Hx Hy Hz Hb) as (c & n & ->). rewrite bind_ret. cbv beta iota. eexists. reflexivity.
  - change (g6_head ++ 126 :: x :: y :: z :: s) with (62 :: tl g6_head ++ 126 :: x :: y :: z :: s). rewrite getc_cont, bind_ret by lia. cbv beta iota. change (62 =? C_EOF) with false. cbv iota.
    rewrite ungetc_cont, bind_ret by (unfold C_EOF; lia). cbv beta iota. rewrite Z.eqb_refl. cbn [negb].
    change (62 =? 62) with true. cbv iota. change (62 :: tl g6_head ++ 126 :: x :: y :: z :: s) with (g6_head ++ 126 :: x :: y :: z :: s). rewrite header_ok, bind_ret. cbv beta iota.
    change (negb (C_OK =? C_OK)) with false. cbv iota. rewrite getc_cont, bind_ret by lia. cbv beta iota. rewrite ungetc_cont, bind_ret by (unfold C_EOF; lia). cbv beta iota.
    rewrite Z.eqb_refl. cbn [negb]. rewrite first_ok by lia. cbn [negb].
    destruct (get_order_big k ([] ++ g6_head) x y z s Hx Hy Hz Hb) as (c & n & ->). rewrite bind_ret. cbv beta iota. eexists. reflexivity.
Qed.
