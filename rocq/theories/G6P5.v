(** * G6P5: starting to read, whole texts, and several graphs in a row. *)
From Verif Require Import Base BaseP StrBufM StrFileM StrFileSpec GraphRec GraphM GraphSpec DFSSpec RandSpec G6M G6Spec
  GSimp GraphP GraphP2 GraphP3 GraphP4 CopyP RandP RandP2 StrFileP G6P G6P2 G6P3 G6P4.

Lemma getc_any k pre x s : x <> 0 -> sf_getc (cont k pre (x :: s)) = Ret (x, cont k (pre ++ [x]) s).
Proof. apply getc_cont. Qed.

Lemma header_ok k pre s : _processAndCheckHeader (cont k pre (g6_head ++ s)) = Ret (cont k (pre ++ g6_head) s, C_OK).
Proof.
  unfold _processAndCheckHeader, g6_head. cbn [app get_chars].
  do 10 (rewrite getc_cont by lia; cbn [bind]; rewrite <- ?app_assoc; cbn [app]). reflexivity.
Qed.

Lemma readable_start g n : readable g n -> exists C g0,
  (if gN g =? 0 then gp_InitGraph g n else if negb (gN g =? n) then (g, C_NOTOK) else (gp_ReinitializeGraph g, C_OK)) = (g0, C_OK) /\
  start (set_zero_based g0) n C /\ n * (n - 1) <= C /\ 2 * C <= INT_MAX.
Proof.
  intros [(-> & Hn)|((adj & R) & HN & Hn & HS & HC & RM)].
  - destruct (new_graph_ok n ltac:(lia)) as (g & E & R & H1 & H2 & H3). exists (Z.max (6 * n) (n * (n - 1))), g.
    change (gN gp_New =? 0) with true. cbv iota. split; [auto|].
    assert (HS : gstack g = []).
    { unfold gp_InitGraph in E. replace (n <=? 0) with false in E by lia. change (negb (gN gp_New =? 0)) with false in E. cbv iota in E.
      assert (Q : g = fst (_InitGraph gp_New n)) by now rewrite E. rewrite Q. reflexivity. }
    split; [|unfold INT_MAX; nia]. rewrite HS in H3. cbn [length] in H3. unfold set_zero_based.
    constructor; gsimp; auto; try lia. eapply rep_congr; eauto.
  - exists (Z.max (gCap g) (n * (n - 1))), (gp_ReinitializeGraph g). rewrite HN. replace (n =? 0) with false by lia. rewrite Z.eqb_refl. cbn [negb].
    split; [auto|]. unfold room in RM. split; [|lia]. eapply reinit_start; eauto. lia.
Qed.

Lemma begin_ok k h s g n : h = [] \/ h = g6_head -> readable g n -> n * (n - 1) <= INT_MAX ->
  exists C g0 b, _beginG6ReadIteration allocateG6ReadIterator (cont k [] (h ++ g6_order n ++ s)) g =
    Ret (rit k (h ++ g6_order n) s 0 n b, g0, C_OK) /\ bsz b = nco n + nce n + 3 /\
    start g0 n C /\ n * (n - 1) <= C /\ 2 * C <= INT_MAX.
Proof.
  intros Hh Hr NM. assert (Hn : 2 <= n <= 100000) by (destruct Hr as [[_ ?]|(_ & _ & ? & _)]; lia).
  destruct (readable_start g n Hr) as (C & g0 & E0 & S0 & C1 & C2). exists C, (set_zero_based g0), (mkBlk (nco n + nce n + 3) (fun _ => 0)).
  split; [|auto]. unfold _beginG6ReadIteration.
  assert (HO : exists o os, g6_order n = o :: os /\ 63 <= o <= 126).
  { pose proof (order_len n) as OL. destruct (g6_order n) as [|o os] eqn:Eo.
    - cbn [length] in OL. unfold nco in OL. destruct (n <? 63); lia.
    - exists o, os. split; [auto|]. apply (order_range n); [lia|]. rewrite Eo. simpl; auto. }
  destruct HO as (o & os & Eo & Ho).
  assert (HX : exists x xs, h ++ g6_order n ++ s = x :: xs /\ 62 <= x <= 126 /\
     (if x =? 62 then _processAndCheckHeader (cont k [] (x :: xs)) else Ret (cont k [] (x :: xs), C_OK)) = Ret (cont k h (g6_order n ++ s), C_OK)).
  { destruct Hh as [-> | ->].
    - exists o, (os ++ s). rewrite Eo. cbn [app]. split; [auto|]. split; [lia|]. replace (o =? 62) with false by lia. reflexivity.
    - unfold g6_head. exists 62. eexists. cbn [app]. split; [reflexivity|]. split; [lia|]. cbn [Z.eqb Pos.eqb].
      exact (header_ok k [] (g6_order n ++ s)). }
  destruct HX as (x & xs & Ex & Rx & Hx). rewrite Ex, getc_cont, bind_ret by lia. cbv beta iota.
  replace (x =? C_EOF) with false by (unfold C_EOF; lia). rewrite ungetc_cont, bind_ret by (unfold C_EOF; lia). cbv beta iota.
  rewrite Z.eqb_refl. cbn [negb]. rewrite Hx, bind_ret. cbv beta iota. change (negb (C_OK =? C_OK)) with false. cbv iota.
  rewrite Eo. cbn [app]. rewrite getc_cont, bind_ret by lia. cbv beta iota. rewrite ungetc_cont, bind_ret by (unfold C_EOF; lia). cbv beta iota.
  rewrite Z.eqb_refl. cbn [negb]. rewrite first_ok by lia. cbn [negb].
  change (o :: os ++ s) with ((o :: os) ++ s). rewrite <- Eo. rewrite get_order_ok, bind_ret by lia. cbv beta iota.
  change (negb (C_OK =? C_OK)) with false. cbv iota.
  rewrite E0. cbv beta iota zeta. change (negb (C_OK =? C_OK)) with false. cbv iota.
  rewrite num_chars, bind_ret by lia. rewrite order_chars by lia. reflexivity.
Qed.

(** ** Reading one graph *)
Lemma body_lines n A : 0 <= n -> forall x, In x (g6_body n A) -> x <> 10 /\ x <> 13.
Proof. intros Hn x Hx. apply body_range in Hx; lia. Qed.

Lemma text_nz n A rest : 1 <= n <= 100000 -> (forall x, In x rest -> x <> 0) -> forall h, h = [] \/ h = g6_head ->
  forall x, In x (h ++ g6_order n ++ g6_body n A ++ rest) -> x <> 0.
Proof.
  intros Hn Hr h Hh x Hx. apply in_app_or in Hx. destruct Hx as [Hx|Hx].
  - destruct Hh as [-> | ->]; [destruct Hx|]. unfold g6_head in Hx. simpl in Hx. lia.
  - apply in_app_or in Hx. destruct Hx as [Hx|Hx]; [apply order_range in Hx; lia|].
    apply in_app_or in Hx. destruct Hx as [Hx|Hx]; [apply body_range in Hx; lia|auto].
Qed.

Lemma read_with_ok k h g n A rest : h = [] \/ h = g6_head -> readable g n -> n * (n - 1) <= INT_MAX -> line_of rest = [] -> (forall x, In x rest -> x <> 0) ->
  exists g', read_graph_with (_beginG6ReadIteration allocateG6ReadIterator (cont k [] (h ++ g6_order n ++ g6_body n A ++ rest)) g) = Ret (g', C_OK) /\
    is_graph g' n A.
Proof.
  intros Hh Hr NM HL HZ. assert (Hn : 2 <= n <= 100000) by (destruct Hr as [[_ ?]|(_ & _ & ? & _)]; lia).
  destruct (begin_ok k h (g6_body n A ++ rest) g n Hh Hr NM) as (C & g0 & b & E & B1 & S0 & C1 & C2).
  unfold read_graph_with. rewrite E, bind_ret. cbv beta iota. change (negb (C_OK =? C_OK)) with false. cbv iota.
  destruct (read_line k (h ++ g6_order n) (g6_body n A ++ rest) 0 n b g0 C A) as (r & b1 & g' & adj' & _ & _ & ER & IG & _); auto.
  - rewrite <- app_assoc. apply text_nz; auto; lia.
  - lia.
  - unfold ord_for. cbn [Z.add Z.eqb Pos.eqb app]. destruct rest as [|x rest']; [rewrite app_nil_r; apply line_whole, body_lines; lia|].
    apply line_app_eol; [apply body_lines; lia|]. cbn [line_of] in HL. destruct ((x =? 10) || (x =? 13)) eqn:Q; [lia|discriminate].
  - rewrite ER, bind_ret. cbv beta iota zeta. eauto.
Qed.

(** ** Several graphs *)
Lemma cut_at d W z : (forall y, In y W -> y <> d) -> cut_after d (W ++ d :: z) = Some (W ++ [d]).
Proof.
  induction W as [|w W IH]; intros H; cbn [app cut_after]; [now rewrite Z.eqb_refl|].
  replace (w =? d) with false by (specialize (H w (or_introl eq_refl)); lia). rewrite IH; [reflexivity|]. intros y Hy. apply H. simpl. auto.
Qed.
Lemma take_line k m W rest : (forall y, In y W -> y <> 10) -> (length W < m)%nat -> fg_take k m (W ++ 10 :: rest) = W ++ [10].
Proof.
  intros H Hm. unfold fg_take. replace (firstn m (W ++ 10 :: rest)) with (W ++ 10 :: firstn (m - length W - 1) rest).
  - change CH_LF with 10. rewrite cut_at by auto. reflexivity.
  - rewrite firstn_app. rewrite (firstn_all2 (n:=m) W) by lia. f_equal. destruct (m - length W)%nat as [|j] eqn:Ej; [lia|]; replace (S j - 1)%nat with j by lia. reflexivity.
Qed.

Fixpoint lines (n : Z) (As : list mat) : list Z :=
  match As with
  | [] => []
  | A :: As' => g6_order n ++ g6_body n A ++ 10 :: lines n As'
  end.
Lemma lines_nz n As x : 1 <= n <= 100000 -> In x (lines n As) -> x <> 0.
Proof.
  intros Hn. induction As as [|A As IH]; cbn [lines]; [intros []|]. intros Hx. apply in_app_or in Hx.
  destruct Hx as [Hx|Hx]; [apply order_range in Hx; lia|]. apply in_app_or in Hx.
  destruct Hx as [Hx|[<-|Hx]]; [apply body_range in Hx; lia|lia|auto].
Qed.

Inductive delivers (n : Z) : riter -> graph -> list mat -> Prop :=
| dl_end it g it' : readGraphUsingG6ReadIterator it g = Ret (it', g, C_OK) -> r_done it' = true -> delivers n it g []
| dl_next it g it' g' A As : readGraphUsingG6ReadIterator it g = Ret (it', g', C_OK) -> r_done it' = false ->
    is_graph g' n A -> delivers n it' g' As -> delivers n it g (A :: As).

Lemma deliver_rest k n C : 2 <= n <= 100000 -> n * (n - 1) <= C -> 2 * C <= INT_MAX -> forall As pre num b g adj,
  (forall x, In x pre -> x <> 0) -> 1 <= num -> bsz b = nco n + nce n + 3 -> ready g adj n C ->
  delivers n (rit k pre (lines n As) num n b) g As.
Proof.
  intros Hn HC HI. assert (NC : 1 <= nco n) by (unfold nco; destruct (n <? 63); lia). pose proof (nce_pos n ltac:(lia)) as NP.
  induction As as [|A As IH]; intros pre num b g adj Hp Hnum Hb RD; cbn [lines].
  - eapply dl_end; [apply read_end; [lia|auto]|reflexivity].
  - set (s := g6_order n ++ g6_body n A ++ 10 :: lines n As).
    assert (NZ : forall x, In x (pre ++ s) -> x <> 0).
    { intros x Hx. apply in_app_or in Hx. destruct Hx as [Hx|Hx]; [auto|]. apply (lines_nz n (A :: As)); [lia|exact Hx]. }
    assert (EW : s = (g6_order n ++ g6_body n A) ++ 10 :: lines n As) by (unfold s; now rewrite <- app_assoc).
    assert (WR : forall y, In y (g6_order n ++ g6_body n A) -> y <> 10 /\ y <> 13).
    { intros y Hy. apply in_app_or in Hy. destruct Hy as [Hy|Hy]; [apply order_range in Hy; lia|apply (body_lines n A); [lia|auto]]. }
    destruct (read_line k pre s num n b g C A) as (r & b1 & g' & adj' & Es & B1 & ER & IG & RD' & _); auto.
    + lia.
    + unfold g_for. replace (num + 1 >? 1) with true by lia. destruct RD as [R1 R2 R3 R4]. eapply reinit_start; eauto. apply R1.
    + unfold ord_for. replace (num + 1 =? 1) with false by lia. rewrite EW. apply line_app_eol; auto.
    + set (m := Z.to_nat (nco n + nce n + 2)) in *.
      assert (ET : fg_take k m s = (g6_order n ++ g6_body n A) ++ [10]).
      { rewrite EW. apply take_line; [intros y Hy; apply WR; auto|]. rewrite app_length. pose proof (order_len n). pose proof (body_len n A ltac:(lia)). lia. }
      rewrite ET in *. assert (Er : r = lines n As).
      { rewrite EW in Es. rewrite <- !app_assoc in Es. cbn [app] in Es. do 2 apply app_inv_head in Es. congruence. }
      subst r. eapply dl_next; [exact ER|reflexivity|exact IG|]. eapply IH; eauto; [|lia].
      intros x Hx. apply in_app_or in Hx. destruct Hx as [Hx|Hx]; [auto|]. apply NZ. apply in_or_app. right. rewrite EW.
      apply in_app_or in Hx. apply in_or_app. destruct Hx as [Hx|Hx]; [auto|]. right. destruct Hx as [<-|[]]. simpl. auto.
Qed.

Lemma deliver_all k h n A As g : h = [] \/ h = g6_head -> readable g n -> n * (n - 1) <= INT_MAX ->
  exists it g0, _beginG6ReadIteration allocateG6ReadIterator (cont k [] (h ++ lines n (A :: As))) g = Ret (it, g0, C_OK) /\
    delivers n it g0 (A :: As).
Proof.
  intros Hh Hr NM. assert (Hn : 2 <= n <= 100000) by (destruct Hr as [[_ ?]|(_ & _ & ? & _)]; lia). cbn [lines].
  assert (NC : 1 <= nco n) by (unfold nco; destruct (n <? 63); lia). pose proof (nce_pos n ltac:(lia)) as NP.
  set (s := g6_body n A ++ 10 :: lines n As).
  destruct (begin_ok k h s g n Hh Hr NM) as (C & g0 & b & E & B1 & S0 & C1 & C2). exists (rit k (h ++ g6_order n) s 0 n b), g0. split; [exact E|].
  assert (NZ : forall x, In x ((h ++ g6_order n) ++ s) -> x <> 0).
  { rewrite <- app_assoc. apply text_nz; auto; [lia|]. intros x [<-|Hx]; [lia|]. apply (lines_nz n As); [lia|auto]. }
  destruct (read_line k (h ++ g6_order n) s 0 n b g0 C A) as (r & b1 & g' & adj' & Es & B1' & ER & IG & RD' & _); auto.
  - lia.
  - unfold ord_for. cbn [Z.add Z.eqb Pos.eqb app]. apply line_app_eol; auto. apply body_lines. lia.
  - set (m := Z.to_nat (nco n + nce n + 2)) in *.
    assert (ET : fg_take k m s = g6_body n A ++ [10]).
    { apply take_line; [intros y Hy; apply (body_lines n A); [lia|auto]|]. pose proof (body_len n A ltac:(lia)). lia. }
    rewrite ET in *. assert (Er : r = lines n As).
    { unfold s in Es. rewrite <- app_assoc in Es. cbn [app] in Es. apply app_inv_head in Es. congruence. }
    subst r. eapply dl_next; [exact ER|reflexivity|exact IG|]. eapply deliver_rest; eauto; [|lia].
    intros x Hx. apply NZ. apply in_app_or in Hx. apply in_or_app. destruct Hx as [Hx|Hx]; [auto|right]. unfold s.
    apply in_app_or in Hx. apply in_or_app. destruct Hx as [Hx|Hx]; [auto|]. right. destruct Hx as [<-|[]]. simpl. auto.
Qed.
