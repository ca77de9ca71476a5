(** * Thm_AppAll: the test of all graphs in a graph6 file by the planarity program. *)
From Coq Require Import ZifyBool Permutation.
From Verif Require Import Base BaseP GraphRec GraphM GraphSpec GSimp LinkP GraphP GraphP2 GraphP3 GraphP4 GraphP5 GraphEx CopySpec CopyP Thm_Copy RandSpec DFSM DFSSpec TestM EmbM EmbedSpec StrBufM StrFileM G6M G6Spec G6P G6P2 G6P3 G6P4 G6P5 G6P6 Thm_G6 ObsSpec PlanSpec OutSpec Thm_Embed Thm_Planar Thm_Outer RoomP AppM Thm_App.
From Verif Require ReadyP Thm_Read.

(** ** What reading leaves *)
Lemma read_keeps it g it' g' r : r_num it >= 1 -> ReadyP.ready (gp_ReinitializeGraph g) -> readGraphUsingG6ReadIterator it g = Ret (it', g', r) ->
  r = C_OK -> r_done it' = false -> ReadyP.ready g'.
Proof.
  intros Hn Rd E Hr Hd. unfold readGraphUsingG6ReadIterator in E. destruct (r_done it) eqn:D0; [injection E as _ _ <-; discriminate|].
  destruct (r_in it) as [c|]; [|injection E as _ _ <-; discriminate]. destruct (r_buf it) as [b|]; [|injection E as _ _ <-; discriminate].
  destruct (sf_fgets b (r_bsize it) c) as [[t c1]| |]; cbn [bind] in E; try discriminate.
  destruct t as [b1|]; [|injection E as <- _ _; discriminate]. cbv zeta in E.
  destruct (b_rd b1 0) as [x| |]; cbn [bind] in E; try discriminate. destruct (negb (_firstCharIsValid x)); [injection E as _ _ <-; discriminate|].
  destruct (blk_str b1 0) as [s| |]; cbn [bind] in E; try discriminate. destruct (b_wr b1 (cspn_eol s) 0) as [b2| |]; cbn [bind] in E; try discriminate.
  destruct (blk_str b2 0) as [s2| |]; cbn [bind] in E; try discriminate. replace (r_num it + 1 >? 1) with true in E by lia. replace (r_num it + 1 =? 1) with false in E by lia.
  destruct (negb (_ =? _)); [injection E as _ _ <-; discriminate|]. destruct (_checkGraphOrder _ _) as [r1| |]; cbn [bind] in E; try discriminate.
  destruct (negb (r1 =? C_OK)) eqn:E1; [injection E as _ _ <-; rewrite Hr in E1; discriminate|].
  destruct (_validateGraphEncoding _ _ _ _) as [r2| |]; cbn [bind] in E; try discriminate. destruct (negb (r2 =? C_OK)) eqn:E2; [injection E as _ _ <-; rewrite Hr in E2; discriminate|].
  pose proof (ReadyP._decodeGraph_D b2 I (r_nco it) I (r_order it) I (r_nce it) I _ (ReadyP.set_zero_based_D _ Rd)) as D.
  destruct (_decodeGraph _ _ _ _ _) as [[g1 r3]| |]; cbn [bind] in E; try discriminate.
  destruct (negb (r3 =? C_OK)) eqn:E3; [injection E as _ _ <-; rewrite Hr in E3; discriminate|]. injection E as _ <- _. exact (proj1 D).
Qed.
Lemma fail_num it g it' g' r : readGraphUsingG6ReadIterator it g = Ret (it', g', r) -> r <> C_OK -> r_num it' = r_num it.
Proof.
  intros E Hr. unfold readGraphUsingG6ReadIterator in E. destruct (r_done it) eqn:D0; [injection E as <- _ _; reflexivity|].
  destruct (r_in it) as [c|]; [|injection E as <- _ _; reflexivity]. destruct (r_buf it) as [b|]; [|injection E as <- _ _; reflexivity].
  destruct (sf_fgets b (r_bsize it) c) as [[t c1]| |]; cbn [bind] in E; try discriminate.
  destruct t as [b1|]; [|injection E as <- _ _; reflexivity]. cbv zeta in E.
  destruct (b_rd b1 0) as [x| |]; cbn [bind] in E; try discriminate. destruct (negb (_firstCharIsValid x)); [injection E as <- _ _; reflexivity|].
  destruct (blk_str b1 0) as [s| |]; cbn [bind] in E; try discriminate. destruct (b_wr b1 (cspn_eol s) 0) as [b2| |]; cbn [bind] in E; try discriminate.
  destruct (blk_str b2 0) as [s2| |]; cbn [bind] in E; try discriminate.
  destruct (negb (_ =? _ + _)); [injection E as <- _ _; reflexivity|]. match type of E with bind ?m _ = _ => destruct m as [r1| |]; cbn [bind] in E; try discriminate end.
  destruct (negb (r1 =? C_OK)) eqn:E1; [injection E as <- _ _; reflexivity|].
  destruct (_validateGraphEncoding _ _ _ _) as [r2| |]; cbn [bind] in E; try discriminate. destruct (negb (r2 =? C_OK)) eqn:E2; [injection E as <- _ _; reflexivity|].
  destruct (_decodeGraph _ _ _ _ _) as [[g1 r3]| |]; cbn [bind] in E; try discriminate.
  destruct (negb (r3 =? C_OK)) eqn:E3; [injection E as <- _ _; reflexivity|]. injection E as _ _ <-. elim Hr. reflexivity.
Qed.
Lemma begin_flags content it g : begin_read_file allocateG6ReadIterator content gp_New = Ret (it, g, C_OK) -> giflags g = 8.
Proof.
  unfold begin_read_file, _beginG6ReadIteration. intros E.
  destruct (sf_getc _) as [[x c]| |]; cbn [bind] in E; try discriminate. destruct (x =? C_EOF); [discriminate|].
  destruct (sf_ungetc _ _) as [[y c1]| |]; cbn [bind] in E; try discriminate. destruct (negb _); [discriminate|].
  match type of E with bind ?m _ = _ => destruct m as [[c2 r]| |]; cbn [bind] in E; try discriminate end.
  destruct (negb (r =? C_OK)) eqn:E1; [replace r with C_OK in E1 by congruence; discriminate|].
  destruct (sf_getc _) as [[x1 c3]| |]; cbn [bind] in E; try discriminate. destruct (sf_ungetc _ _) as [[y1 c4]| |]; cbn [bind] in E; try discriminate.
  destruct (negb (y1 =? x1)); [discriminate|]. destruct (negb (_firstCharIsValid x1)); [discriminate|].
  destruct (_getGraphOrder _) as [[[c5 n] r1]| |]; cbn [bind] in E; try discriminate. destruct (negb (r1 =? C_OK)) eqn:E2; [replace r1 with C_OK in E2 by congruence; discriminate|].
  change (gN gp_New =? 0) with true in E. cbv iota in E. unfold gp_InitGraph in E. destruct (n <=? 0); [discriminate|]. change (negb (gN gp_New =? 0)) with false in E. cbv iota in E.
  change (snd (_InitGraph gp_New n)) with C_OK in E. unfold _InitGraph in E. cbv zeta in E. cbn [negb Z.eqb Pos.eqb C_OK] in E.
  destruct (_getNumCharsForGraphEncoding n) as [m| |]; cbn [bind] in E; try discriminate. injection E as _ <-. reflexivity.
Qed.

(** ** One line *)
Record held (n C : Z) (num : Z) (g : graph) : Prop := {
  hd_start : start (g_for (num + 1) g) n C; hd_ready : 1 <= num -> ReadyP.ready (gp_ReinitializeGraph g); hd_ready0 : num = 0 -> ReadyP.ready g; hd_flags : num = 0 -> giflags g = 8;
  hd_num : 0 <= num }.
Lemma held_used n C num g A : 2 <= n -> rep g A -> caps (fit_room n C) g -> 1 <= num -> held n C num g.
Proof.
  intros Hn R (EN & HC & HS) Hm. constructor; try lia.
  - unfold g_for. replace (num + 1 >? 1) with true by lia. eapply reinit_start; eauto; lia.
  - intros _. unfold gp_ReinitializeGraph. replace (gN g <=? 0) with false by lia. unfold _ReinitializeGraph, _InitIsolatorContext, _InitEdges, _InitVertices, lists_reset.
    constructor; try reflexivity; cbn; lia.
Qed.
(** The copy, empty. *)
Record spare (n C : Z) (o : graph) : Prop := { sp_rep : exists A, rep o A; sp_stack : gstack o = []; sp_caps : caps (fit_room n C) o }.


(** The graph made of a line: the graph of the matrix, with its verdict. *)
Definition line_graph (flags n : Z) (A : mat) (gb : graph * bool) : Prop :=
  exists adj, rep (fst gb) adj /\ simple (fst gb) adj /\ primary_edges (fst gb) adj /\ gN (fst gb) = n /\
    (forall u v, 1 <= u < v -> v <= n -> (A u v = true <-> adjacent (fst gb) adj u v)) /\
    (snd gb = true <-> tested_for flags (fst gb) adj).
Lemma read_next n C num pre rest b g A : 2 <= n <= 32768 -> n * (n - 1) <= C -> 2 * C <= INT_MAX -> bsz b = nco n + nce n + 3 ->
  (forall x, In x (pre ++ (ord_for (num + 1) n ++ g6_body n A) ++ 10 :: rest) -> x <> 0) -> held n C num g ->
  exists pre' b' g' adj, (forall x, In x (pre' ++ rest) -> x <> 0) /\ bsz b' = nco n + nce n + 3 /\
    readGraphUsingG6ReadIterator (rit true pre ((ord_for (num + 1) n ++ g6_body n A) ++ 10 :: rest) num n b) g = Ret (rit true pre' rest (num + 1) n b', g', C_OK) /\
    rep g' adj /\ simple g' adj /\ primary_edges g' adj /\ gN g' = n /\ (forall u v, 1 <= u < v -> v <= n -> (A u v = true <-> adjacent g' adj u v)) /\
    giflags g' = 8 /\ ReadyP.ready g' /\ gstack g' = [] /\ caps (fit_room n C) g'.
Proof.
  intros Hn HC HI Hb NZ [S0 R0 R00 F0 N0]. assert (NC : 1 <= nco n) by (unfold nco; destruct (n <? 63); lia). pose proof (nce_pos n ltac:(lia)) as NP.
  set (O := ord_for (num + 1) n) in *. set (s := (O ++ g6_body n A) ++ 10 :: rest) in *.
  assert (LO : Z.of_nat (length O) <= nco n).
  { unfold O, ord_for. destruct (num + 1 =? 1); [cbn [length]; lia|]. rewrite (order_len n). lia. }
  assert (WR : forall y, In y (O ++ g6_body n A) -> y <> 10 /\ y <> 13).
  { intros y Hy. apply in_app_or in Hy. destruct Hy as [Hy|Hy]; [|apply (body_lines n A); [lia|auto]].
    unfold O, ord_for in Hy. destruct (num + 1 =? 1); [destruct Hy|]. apply order_range in Hy; lia. }
  destruct (read_line true pre s num n b g C A) as (r & b1 & g' & adj' & Es & B1 & ER & (IN & adj & (IR & IS & IP) & IA) & RD & FL); auto; [lia|unfold s, O; apply line_app_eol; auto|].
  set (m := Z.to_nat (nco n + nce n + 2)) in *.
  assert (ET : fg_take true m s = (O ++ g6_body n A) ++ [10]).
  { apply take_line; [intros y Hy; apply WR; auto|]. rewrite app_length. pose proof (body_len n A ltac:(lia)). lia. }
  rewrite ET in *. assert (Er : r = rest).
  { unfold s in Es. rewrite <- !app_assoc in Es. do 2 apply app_inv_head in Es. cbn [app] in Es. congruence. }
  subst r. exists (pre ++ (O ++ g6_body n A) ++ [10]), b1, g', adj.
  assert (Rd : ReadyP.ready g').
  { destruct (Z.eq_dec num 0) as [->|Hz].
    - pose proof (ReadyP.readGraphUsingG6ReadIterator_D (rit true pre s 0 n b) I g (R00 eq_refl)) as D. rewrite ER in D. exact (proj2 (proj1 D)).
    - refine (read_keeps _ g _ g' C_OK _ (R0 ltac:(lia)) ER eq_refl eq_refl). cbn. lia. }
  split; [intros x Hx; apply NZ; unfold s; rewrite <- !app_assoc in *; exact Hx|]. split; [exact B1|]. split; [exact ER|]. do 5 (split; [assumption|]).
  split; [rewrite FL; unfold g_for; destruct (num + 1 >? 1) eqn:Q; [|apply F0; lia]|].
  { pose proof (GraphSpec.st_N _ _ (rep_storage _ _ (sr_rep _ _ _ S0))) as N1. unfold g_for in N1. rewrite Q in N1.
    unfold gp_ReinitializeGraph, set_zero_based in *. destruct (gN g <=? 0) eqn:Q0; [exfalso; revert N1; gsimp; lia|reflexivity]. }
  split; [exact Rd|]. destruct RD as [_ _ R3 R4 R5]. split; [exact R3|]. split; [exact IN|]. split; [exact R5|]. apply (ReadyP.rd_room _ Rd). lia.
Qed.

(** ** One round *)
Lemma test_round_ok n C flags g adj o : 2 <= n <= 32768 -> flags = EMBEDFLAGS_PLANAR \/ flags = EMBEDFLAGS_OUTERPLANAR ->
  rep g adj -> simple g adj -> primary_edges g adj -> gN g = n -> giflags g = 8 -> ReadyP.ready g -> gstack g = [] -> caps (fit_room n C) g -> spare n C o ->
  exists h o' r, test_round flags g o = Ret (h, o', r) /\ (forall num, 1 <= num -> held n C num h) /\ spare n C o' /\
    (r = C_OK /\ tested_for flags g adj \/ r = C_NONEMBEDDABLE /\ ~ tested_for flags g adj).
Proof.
  intros Hn F R S P EN Fl Rd Sk Cg [(A0 & R0) Sk0 C0]. pose proof Cg as (_ & HC & HS). pose proof C0 as (EN0 & HC0 & HS0).
  destruct (C14_copy_graph o A0 g adj R0) as [_ Cp]; [rewrite Sk0; cbn [length]; lia|exact R|lia|].
  destruct (Cp ltac:(congruence)) as (c & X2 & Sc & _ & Rc).
  pose proof (copy_fit n C o g c C_OK ltac:(lia) C0 Cg Sk X2) as Cc.
  destruct (Thm_Read.ready_fit g adj Rd R) as [U E].
  destruct (C55_embed_is_planar g adj flags R P S U E) as (h & r & X3 & _).
  pose proof (embed_fit n C g flags h r Cg X3) as Ch.
  destruct (round_check g adj c flags h r R P U E (or_intror Fl) S F Rc Sc X3) as (h' & o' & A & X4 & Rh & Ro & D).
  destruct (check_caps (fit_room n C) h c r h' o' r Ch Cc X4) as [Ch' Co'].
  exists h', (gp_ReinitializeGraph o'), r. split; [|split; [intros num Hm; apply (held_used n C num h' A); auto; lia|split; [|exact D]]].
  - unfold test_round. rewrite X2. cbn [bind]. rewrite X3. cbn [bind]. rewrite X4. cbn [bind]. rewrite Z.eqb_refl. cbn [negb]. cbv zeta.
    destruct D as [[-> _]|[-> _]]; reflexivity.
  - pose proof (reinit_ok o' adj Ro) as (R' & _ & St & _ & N' & Cp' & Sc'). cbv zeta in *. constructor; [eauto|exact St|].
    unfold caps. rewrite N', Cp', Sc'. exact Co'.
Qed.

(** ** The lines, and what follows them *)
Definition count (b : bool) (gs : list (graph * bool)) : Z := Z.of_nat (length (filter (fun gb => Bool.eqb (snd gb) b) gs)).
Lemma count_cons b g c gs : count b ((g, c) :: gs) = (if Bool.eqb c b then 1 else 0) + count b gs.
Proof. unfold count. cbn [filter snd]. destruct (Bool.eqb c b); cbn [length]; lia. Qed.
Lemma loop_lines n C flags tail : 2 <= n <= 32768 -> n * (n - 1) <= C -> 2 * C <= INT_MAX -> flags = EMBEDFLAGS_PLANAR \/ flags = EMBEDFLAGS_OUTERPLANAR ->
  forall As fuel pre num b g o x y, 1 <= num -> bsz b = nco n + nce n + 3 -> (forall z, In z (pre ++ lines n As ++ tail) -> z <> 0) ->
  held n C num g -> spare n C o -> (length As < fuel)%nat ->
  exists gs pre' b' g' o', Forall2 (line_graph flags n) As gs /\ bsz b' = nco n + nce n + 3 /\ (forall z, In z (pre' ++ tail) -> z <> 0) /\
    test_all_loop fuel flags (rit true pre (lines n As ++ tail) num n b) g o x y =
    test_all_loop (fuel - length As) flags (rit true pre' tail (num + Z.of_nat (length As)) n b') g' o' (x + count true gs) (y + count false gs).
Proof.
  intros Hn HC HI F. induction As as [|A As IH]; intros fuel pre num b g o x y Hm Hb NZ Hg Ho Hf.
  - exists [], pre, b, g, o. split; [constructor|]. split; [exact Hb|]. split; [exact NZ|]. cbn [lines app length]. unfold count. cbn [filter length].
    rewrite !Z.add_0_r, Nat.sub_0_r. reflexivity.
  - assert (EL : lines n (A :: As) ++ tail = (ord_for (num + 1) n ++ g6_body n A) ++ 10 :: lines n As ++ tail).
    { unfold ord_for. replace (num + 1 =? 1) with false by lia. cbn [lines]. rewrite <- !app_assoc. reflexivity. }
    rewrite EL in *. destruct (read_next n C num pre (lines n As ++ tail) b g A Hn HC HI Hb NZ Hg) as (pre1 & b1 & g1 & adj & NZ1 & B1 & ER & R & S & P & N1 & HA & Fl & Rd & Sk & Cg).
    destruct (test_round_ok n C flags g1 adj o Hn F R S P N1 Fl Rd Sk Cg Ho) as (h & o1 & r & ET & Hh & Ho1 & D).
    destruct fuel as [|fuel]; [cbn [length] in Hf; lia|].
    assert (Rt : forall x y, exists gs pre' b' g' o', Forall2 (line_graph flags n) As gs /\ bsz b' = nco n + nce n + 3 /\ (forall z, In z (pre' ++ tail) -> z <> 0) /\
      test_all_loop fuel flags (rit true pre1 (lines n As ++ tail) (num + 1) n b1) h o1 x y =
      test_all_loop (fuel - length As) flags (rit true pre' tail (num + 1 + Z.of_nat (length As)) n b') g' o' (x + count true gs) (y + count false gs)).
    { intros x' y'. apply IH; auto; [lia|apply Hh; lia|cbn [length] in Hf; lia]. }
    assert (En : num + Z.of_nat (length (A :: As)) = num + 1 + Z.of_nat (length As)) by (cbn [length]; lia). rewrite En. cbn [length Nat.sub].
    cbn [test_all_loop]. rewrite ER. cbn [bind]. cbn [negb Z.eqb Pos.eqb C_OK r_done rit]. rewrite ET. cbn [bind].
    destruct D as [[-> D]|[-> D]].
    + destruct (Rt (x + 1) y) as (gs & pre' & b' & g' & o' & FA & B' & NZ' & EE). exists ((g1, true) :: gs), pre', b', g', o'.
      split; [constructor; [exists adj; cbn [fst snd]; do 5 (split; [assumption|]); tauto|exact FA]|]. split; [exact B'|]. split; [exact NZ'|].
      rewrite !count_cons. cbn [Bool.eqb]. cbn [Z.eqb Pos.eqb C_OK]. rewrite EE. f_equal; lia.
    + destruct (Rt x (y + 1)) as (gs & pre' & b' & g' & o' & FA & B' & NZ' & EE). exists ((g1, false) :: gs), pre', b', g', o'.
      split; [constructor; [exists adj; cbn [fst snd]; do 5 (split; [assumption|]); split; [discriminate|intros Q; elim (D Q)]|exact FA]|]. split; [exact B'|]. split; [exact NZ'|].
      rewrite !count_cons. cbn [Bool.eqb]. cbn [Z.eqb Pos.eqb C_OK C_NONEMBEDDABLE]. rewrite EE. f_equal; lia.
Qed.

(** ** The whole file *)
Lemma start_more g n C C' : start g n C -> C <= C' -> start g n C'.
Proof. intros [] H. constructor; auto. lia. Qed.
Lemma make_spare n C : 1 <= n -> 6 * n <= C -> exists o, gp_InitGraph gp_New n = (o, C_OK) /\ spare n C o.
Proof.
  intros Hn HC. destruct (idle_make n Hn) as (o & E & [(_ & EN & EC & ES) R St]). unfold MakeGraph in E. destruct (gp_InitGraph gp_New n) as [o' r].
  destruct (r =? C_OK) eqn:Er; [|discriminate]. injection E as <-. exists o'. split; [f_equal; lia|]. constructor; eauto. unfold caps, fit_room. rewrite EC, ES. lia.
Qed.
Lemma test_file n h A As tail flags fuel : 2 <= n <= 32768 -> h = [] \/ h = g6_head -> (forall x, In x tail -> x <> 0) ->
  flags = EMBEDFLAGS_PLANAR \/ flags = EMBEDFLAGS_OUTERPLANAR -> (S (length As) < fuel)%nat ->
  exists gs pre b g o, Forall2 (line_graph flags n) (A :: As) gs /\ bsz b = nco n + nce n + 3 /\ (forall z, In z (pre ++ tail) -> z <> 0) /\
    testAllGraphs fuel flags (h ++ lines n (A :: As) ++ tail) =
    test_all_loop (fuel - S (length As)) flags (rit true pre tail (1 + Z.of_nat (length As)) n b) g o (count true gs) (count false gs).
Proof.
  intros Hn Hh HT F Hf. assert (NM : n * (n - 1) <= INT_MAX) by (unfold INT_MAX; nia).
  set (s := g6_body n A ++ 10 :: lines n As ++ tail).
  assert (ES : h ++ lines n (A :: As) ++ tail = h ++ g6_order n ++ s) by (unfold s; cbn [lines]; rewrite <- !app_assoc; reflexivity). rewrite ES.
  destruct (begin_ok true h s gp_New n Hh (or_introl (conj eq_refl Hn)) NM) as (C0 & g0 & b & E & B1 & S0 & C1 & C2).
  set (C := Z.max C0 (6 * n)). apply (start_more _ _ _ C) in S0; [|lia]. assert (HC : n * (n - 1) <= C) by lia. assert (HI : 2 * C <= INT_MAX) by (unfold C, INT_MAX in *; lia).
  destruct (make_spare n C ltac:(lia) ltac:(lia)) as (o & EO & SO).
  assert (EB : begin_read_file allocateG6ReadIterator (h ++ g6_order n ++ s) gp_New = Ret (rit true (h ++ g6_order n) s 0 n b, g0, C_OK)) by exact E.
  assert (H0 : held n C 0 g0).
  { constructor; try lia; [exact S0| |]; intros _; [|exact (begin_flags _ _ _ EB)].
    pose proof (ReadyP.begin_read_file_D allocateG6ReadIterator I (h ++ g6_order n ++ s) I gp_New ReadyP.new_D) as D. rewrite EB in D. exact (proj2 (proj1 D)). }
  assert (NZ : forall x, In x ((h ++ g6_order n) ++ s) -> x <> 0).
  { rewrite <- app_assoc. apply text_nz; auto; [lia|]. intros x [<-|Hx]; [lia|]. apply in_app_or in Hx. destruct Hx as [Hx|Hx]; [apply (lines_nz n As); [lia|auto]|auto]. }
  destruct (read_next n C 0 (h ++ g6_order n) (lines n As ++ tail) b g0 A Hn HC HI B1 NZ H0) as (pre1 & b1 & g1 & adj & NZ1 & B1' & ER & R & Sg & P & N1 & HA & Fl & Rd & Sk & Cg).
  change ((ord_for (0 + 1) n ++ g6_body n A) ++ 10 :: lines n As ++ tail) with s in ER.
  destruct (test_round_ok n C flags g1 adj o Hn F R Sg P N1 Fl Rd Sk Cg SO) as (k & o1 & r & ET & Hh1 & Ho1 & D).
  destruct fuel as [|fuel]; [lia|].
  destruct (loop_lines n C flags tail Hn HC HI F As fuel pre1 1 b1 k o1 (if r =? C_OK then 1 else 0) (if r =? C_OK then 0 else 1)) as (gs & pre' & b' & g' & o' & FA & B' & NZ' & EE); auto; try lia; [apply Hh1; lia|].
  exists ((g1, r =? C_OK) :: gs), pre', b', g', o'. split; [|split; [exact B'|split; [exact NZ'|]]].
  - constructor; [|exact FA]. exists adj. cbn [fst snd]. do 5 (split; [assumption|]). destruct D as [[-> D]|[-> D]]; cbn; [tauto|]. split; [discriminate|intros Q; elim (D Q)].
  - unfold testAllGraphs. rewrite EB. cbn [bind]. cbn [negb Z.eqb Pos.eqb C_OK r_order rit]. rewrite EO. cbn [negb Z.eqb Pos.eqb C_OK].
    cbn [test_all_loop]. change (0 + 1) with 1 in ER. rewrite ER. cbn [bind]. cbn [negb Z.eqb Pos.eqb C_OK r_done rit]. rewrite ET. cbn [bind]. rewrite !count_cons.
    replace (S fuel - S (length As))%nat with (fuel - length As)%nat by lia.
    destruct D as [[-> D]|[-> D]]; cbn [Z.eqb Pos.eqb C_OK C_NONEMBEDDABLE Bool.eqb Z.add] in *; exact EE.
Qed.

(** ** C68 *)
(** A file of graph6 lines, all of the same order, with or without the header: the program tests every graph in it,
    finds no error, and counts as embeddable exactly the planar (outerplanar) ones. *)
Theorem C68_test_all_graphs :
  forall n head A As flags fuel, 2 <= n <= 32768 -> head = [] \/ head = g6_head -> flags = EMBEDFLAGS_PLANAR \/ flags = EMBEDFLAGS_OUTERPLANAR ->
    (S (length As) < fuel)%nat ->
    exists gs, Forall2 (line_graph flags n) (A :: As) gs /\
      testAllGraphs fuel flags (head ++ lines n (A :: As)) = Ret (C_OK, mkStats (Z.of_nat (length (A :: As))) (count true gs) (count false gs) false).
Proof.
  intros n h A As flags fuel Hn Hh F Hf. destruct (test_file n h A As [] flags fuel Hn Hh (fun x Q => match Q with end) F Hf) as (gs & pre & b & g & o & FA & Hb & _ & E).
  exists gs. split; [exact FA|]. rewrite app_nil_r in E. rewrite E. destruct (fuel - S (length As))%nat as [|m] eqn:Em; [lia|]. cbn [test_all_loop].
  pose proof (nce_pos n ltac:(lia)) as NP. assert (NC : 1 <= nco n) by (unfold nco; destruct (n <? 63); lia).
  rewrite read_end by (auto; lia). cbn [bind negb Z.eqb Pos.eqb C_OK r_done r_num]. do 4 f_equal. cbn [length]. lia.
Qed.

(** A line of another order ends the test with an error, after the graphs before it have been tested and counted. *)
Theorem C68_other_order :
  forall n n' head A As u flags fuel, 2 <= n <= 32768 -> 2 <= n' <= 100000 -> n' <> n -> (forall x, In x u -> x <> 0) -> head = [] \/ head = g6_head ->
    flags = EMBEDFLAGS_PLANAR \/ flags = EMBEDFLAGS_OUTERPLANAR -> (S (length As) < fuel)%nat ->
    exists gs, Forall2 (line_graph flags n) (A :: As) gs /\
      testAllGraphs fuel flags (head ++ lines n (A :: As) ++ g6_order n' ++ u) = Ret (C_NOTOK, mkStats (Z.of_nat (length (A :: As))) (count true gs) (count false gs) true).
Proof.
  intros n n' h A As u flags fuel Hn Hn' Hne Hu Hh F Hf.
  assert (TZ : forall x, In x (g6_order n' ++ u) -> x <> 0).
  { intros x Hx. apply in_app_or in Hx. destruct Hx as [Hx|Hx]; [apply order_range in Hx; lia|auto]. }
  destruct (test_file n h A As (g6_order n' ++ u) flags fuel Hn Hh TZ F Hf) as (gs & pre & b & g & o & FA & Hb & NZ & E).
  exists gs. split; [exact FA|]. rewrite E. destruct (fuel - S (length As))%nat as [|m] eqn:Em; [lia|]. cbn [test_all_loop].
  destruct (read_other true pre u (1 + Z.of_nat (length As)) n n' b g) as (it' & ER); auto; try lia.
  rewrite ER. cbn [bind negb Z.eqb Pos.eqb C_OK C_NOTOK]. rewrite (fail_num _ _ _ _ _ ER) by discriminate. cbn [r_num rit]. do 4 f_equal. cbn [length]. lia.
Qed.

(** K5, a path and the empty graph, then a graph of four vertices. *)
Definition k5_mat : mat := fun _ _ => true.
Definition path_mat : mat := fun u v => v =? u + 1.
Definition none_mat : mat := fun _ _ => false.
Definition three : list mat := [k5_mat; path_mat; none_mat].
Example test_all_case :
  lines 5 three = [68; 126; 123; 10; 68; 104; 67; 10; 68; 63; 63; 10] /\
  testAllGraphs 5 EMBEDFLAGS_PLANAR (g6_head ++ lines 5 three) = Ret (C_OK, mkStats 3 2 1 false) /\
  testAllGraphs 5 EMBEDFLAGS_OUTERPLANAR (lines 5 three ++ g6_order 4 ++ [126; 10]) = Ret (C_NOTOK, mkStats 3 2 1 true).
Proof. repeat split; vm_compute; reflexivity. Qed.

Definition Thm_AppAll_all := (@C68_test_all_graphs, @C68_other_order, @test_all_case).
Print Assumptions Thm_AppAll_all.
