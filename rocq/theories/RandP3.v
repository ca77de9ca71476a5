(** * RandP3: proofs about gp_CreateRandomGraphEx: edge counts and termination. *)
From Coq Require Import ZifyBool.
From Verif Require Import Base BaseP GraphRec GraphM GraphSpec GSimp LinkP GraphP GraphP2 GraphP3 GraphP4 GraphP5 MoveP DFSSpec DFSP RandM RandSpec RandP RandP2.

Section Tri.
Variable g0 : graph.
Notation N := (gN g0).

Lemma tri_len g adj dep done : tri g0 g adj dep done -> 1 <= N -> Z.of_nat (length done) <= N - 1.
Proof.
  intros T HN. pose proof (nodup_range_length done 2 (N + 1) (t_nodup _ _ _ _ _ T)) as L.
  specialize (L ltac:(intros x Hx; pose proof (t_done _ _ _ _ _ T x Hx); lia)). lia.
Qed.

(** One attempt to add an edge. *)
Lemma tri_add_edge g adj dep done u v : tri g0 g adj dep done -> 1 <= u <= N -> 1 <= v <= N ->
  (gM g < gCap g0 / 2 /\ exists g' adj', gp_AddEdge g u 1 v 1 = Ret (g', C_OK) /\ tri g0 g' adj' dep done /\ gM g' = gM g + 1 /\ forall x, par g' x = par g x) \/
  (gM g = gCap g0 / 2 /\ gp_AddEdge g u 1 v 1 = Ret (g, C_NONEMBEDDABLE)).
Proof.
  intros T Hu Hv. pose proof (t_rep _ _ _ _ _ T) as R.
  assert (Pu : primary g u) by (unfold primary; rewrite (t_N _ _ _ _ _ T); lia).
  assert (Pv : primary g v) by (unfold primary; rewrite (t_N _ _ _ _ _ T); lia).
  pose proof (rep_holes_len _ _ R) as HL. rewrite (t_cap _ _ _ _ _ T) in HL.
  destruct (Z_lt_le_dec (gM g) (gCap g0 / 2)) as [L|L].
  - left. split; [auto|].
    destruct (add_edge_in g adj u 1 v 1 R (prim_vertex _ _ Pu) (prim_vertex _ _ Pv)) as (g' & a & E & A); try (right; reflexivity).
    { rewrite (t_cap _ _ _ _ _ T). auto. }
    exists g', (adj_insert adj u NIL 1 v NIL 1 a). split; [auto|]. split; [exact (tri_add _ _ _ _ _ _ _ _ _ _ T Pu Pv A)|].
    pose proof (ad_frame _ _ _ _ _ _ _ A) as F. split; [apply F|]. intros x. unfold par. now rewrite (if_VI _ _ F).
  - right. split; [lia|]. apply (add_edge_full g adj); auto; try (apply prim_vertex; auto); try (right; reflexivity).
    rewrite (t_cap _ _ _ _ _ T). auto.
Qed.

Definition climb_post (g : graph) (dep : Z -> Z) (done : list Z) (v : Z) (x : graph * Z * Z * Z * Z) : Prop :=
  let '(g', r, v', p', c') := x in
  exists adj',
  (r = C_NOTOK /\ tri g0 g' adj' dep done /\ gM g' = gCap g0 / 2 /\ gM g <= gM g' /\ gM g' + 1 <= gM g + Z.max 0 (dep v - 2)) \/
  (r = C_OK /\ p' = NIL /\ v' = 1 /\ tri g0 g' adj' dep done /\ gM g' = gM g + Z.max 0 (dep v - 2)) \/
  (r = C_OK /\ 1 <= p' <= N /\ v' <> 1 /\ 1 <= v' <= N /\ par g' v' = p' /\ p' < c' <= N /\ par g' c' = p' /\ ~ In c' done /\
   tri g0 g' adj' (upd dep c' (dep p' + 1)) (c' :: done) /\ dep p' <= dep v - 1 /\ ((v' = v /\ dep p' = dep v - 1) \/ (v' < v /\ dep p' < dep v - 1)) /\
   (p' = 1 <-> dep p' = 0) /\
   gM g' = gM g + if p' =? 1 then Z.max 0 (dep v - 2) else dep v - 1 - dep p').

Lemma climb_ok last : 1 <= last <= N -> forall n g adj dep done v p c, tri g0 g adj dep done -> 1 <= v <= N ->
  p = par g v -> (v = 1 \/ p <> NIL) -> p < Z.of_nat n ->
  wp (climb n g 1 last v p c) (climb_post g dep done v).
Proof.
  intros HL. induction n as [|n IH]; intros g adj dep done v p c T Hv Hp HP Hn.
  { exfalso. destruct HP as [->|HP].
    - destruct (Z.eq_dec p NIL) as [E|E]; [unfold NIL in *; lia|].
      rewrite Hp in E. destruct (t_par _ _ _ _ _ T 1 Hv E) as (Q & _). lia.
    - rewrite Hp in HP. destruct (t_par _ _ _ _ _ T v Hv HP) as (Q & _). lia. }
  cbn [climb]. destruct (Z.eqb_spec p NIL) as [E|E].
  - apply wp_ret. unfold climb_post. exists adj. right. left. destruct HP as [->|HP]; [|contradiction].
    do 4 (split; [auto|]). rewrite (t_dep1 _ _ _ _ _ T). lia.
  - assert (E' : par g v <> NIL) by congruence.
    destruct (t_par _ _ _ _ _ T v Hv E') as (Q1 & Q2 & Q3 & Q4 & Q5). rewrite <- Hp in *.
    assert (PP : p = 1 \/ par g p <> NIL) by auto.
    assert (DP : p = 1 <-> dep p = 0).
    { split; [intros ->; apply T|]. intros D. destruct PP as [|PP]; [auto|].
      destruct (t_par _ _ _ _ _ T p ltac:(lia) PP) as (_ & D' & _). pose proof (t_dep _ _ _ _ _ T _ D'). lia. }
    assert (D0 : 0 <= dep p).
    { destruct PP as [->|PP]; [rewrite (t_dep1 _ _ _ _ _ T); lia|].
      destruct (t_par _ _ _ _ _ T p ltac:(lia) PP) as (_ & D' & _). pose proof (t_dep _ _ _ _ _ T _ D'). lia. }
    destruct (child_ok g0 g adj dep done p T ltac:(lia) PP) as [EC|(g1 & c1 & adj1 & EC & T1 & C1 & C2 & C3 & C4 & C5)].
    + rewrite EC, bind_ret. change (negb (NIL =? NIL)) with false. cbv iota zeta.
      unfold gp_GetVertexParent, rd_vi. rewrite guard_true, bind_ret.
      2: { unfold inVI, gp_PrimaryVertexIndexBound. rewrite (t_N _ _ _ _ _ T). lia. }
      change (viParent (gVI g) p) with (par g p).
      assert (Hpp : par g p <> NIL -> 1 <= par g p < p /\ dep p = dep (par g p) + 1).
      { intros H. destruct (t_par _ _ _ _ _ T p ltac:(lia) H) as (A1 & _ & _ & A4 & _). auto. }
      assert (Hlt : par g p < Z.of_nat n) by (destruct (Z.eq_dec (par g p) NIL) as [X|X]; [rewrite X; unfold NIL; lia|specialize (Hpp X); lia]).
      destruct (negb (par g p =? NIL) && negb (par g p =? 1)) eqn:EB.
      * assert (X : par g p <> NIL /\ par g p <> 1) by (unfold NIL in *; lia). destruct X as [X1 X2].
        destruct (Hpp X1) as [X3 X4].
        assert (DP2 : 1 <= dep (par g p)).
        { destruct (t_par _ _ _ _ _ T p ltac:(lia) X1) as (_ & _ & [A3|A3] & _); [contradiction|].
          destruct (t_par _ _ _ _ _ T (par g p) ltac:(lia) A3) as (_ & D' & _). exact (t_dep _ _ _ _ _ T _ D'). }
        destruct (tri_add_edge g adj dep done last (par g p) T HL ltac:(lia)) as [(L & g2 & adj2 & E2 & T2 & M2 & P2)|(L & E2)].
        -- rewrite E2, bind_ret. cbn [negb C_OK Z.eqb Pos.eqb].
           eapply wp_mono; [apply (IH g2 adj2 dep done p (par g p) NIL T2)|].
           ++ lia.
           ++ symmetry. apply P2.
           ++ auto.
           ++ auto.
           ++ intros [[[[g' r] v'] p'] c'] (adj' & H). unfold climb_post. exists adj'.
              destruct H as [(H1 & H2 & H3 & H4 & H5)|[(H1 & H2 & H3 & H4 & H5)|(H1 & H2 & H3 & H4 & H5 & H6 & H7 & H8 & H9 & H10 & H11 & H12 & H13)]].
              ** left. split; [auto|]. split; [auto|]. lia.
              ** right. left. do 4 (split; [auto|]). lia.
              ** right. right. do 9 (split; [auto|]). split; [lia|]. split; [|split; [auto|]].
                 { right. lia. }
                 destruct (Z.eqb_spec p' 1); lia.
        -- rewrite E2, bind_ret. change (negb (C_NONEMBEDDABLE =? C_OK)) with true. cbv iota. apply wp_ret.
           unfold climb_post. exists adj. left. split; [auto|]. split; [auto|]. lia.
      * assert (D1 : dep p <= 1).
        { destruct (Z.eq_dec (par g p) NIL) as [X|X].
          - destruct PP as [->|PP]; [rewrite (t_dep1 _ _ _ _ _ T); lia|contradiction].
          - destruct (Hpp X) as [X3 X4]. assert (Y : par g p = 1) by (unfold NIL in *; lia). rewrite Y, (t_dep1 _ _ _ _ _ T) in X4. lia. }
        eapply wp_mono; [apply (IH g adj dep done p (par g p) NIL T)|].
        -- lia.
        -- auto.
        -- auto.
        -- auto.
        -- intros [[[[g' r] v'] p'] c'] (adj' & H). unfold climb_post. exists adj'.
           destruct H as [(H1 & H2 & H3 & H4 & H5)|[(H1 & H2 & H3 & H4 & H5)|(H1 & H2 & H3 & H4 & H5 & H6 & H7 & H8 & H9 & H10 & H11 & H12 & H13)]].
           ** left. split; [auto|]. split; [auto|]. lia.
           ** right. left. do 4 (split; [auto|]). lia.
           ** right. right. do 9 (split; [auto|]). split; [lia|]. split; [right; lia|]. split; [auto|].
              assert (0 <= dep p').
              { pose proof (t_dep _ _ _ _ _ H9 c' ltac:(simpl; auto)) as X. rewrite upd_same in X. lia. }
              destruct (Z.eqb_spec p' 1); lia.
    + rewrite EC, bind_ret. rewrite (eqb_false_neq c1 NIL) by (unfold NIL; lia). cbn [negb]. apply wp_ret.
      unfold climb_post. exists adj1. right. right. split; [auto|]. split; [lia|]. split; [lia|]. split; [lia|].
      split; [rewrite C5 by (intros ->; auto); auto|]. split; [lia|]. split; [auto|]. split; [auto|]. split; [auto|].
      split; [lia|]. split; [left; lia|]. split; [auto|]. rewrite C4. destruct (Z.eqb_spec p 1); lia.
Qed.

(** How the edge count grows with the number of vertices reached. *)
Definition counted (g : graph) (dep : Z -> Z) (done : list Z) (v last : Z) : Prop :=
  let n := Z.of_nat (length done) in
  (last = v /\ gM g = N - 1 + 2 * n - dep v - 1 /\ (2 <= dep v \/ n = 1)) \/
  (last <> v /\ dep v = 1 /\ gM g = N - 1 + 2 * n - 3).

Definition tri_post (g : graph) (x : graph * Z) : Prop :=
  exists adj dep done, tri g0 (fst x) adj dep done /\ gM g <= gM (fst x) <= 3 * N - 6 /\
    (snd x = C_OK \/ (snd x = C_NOTOK /\ gM (fst x) = gCap g0 / 2 /\ gM (fst x) < 3 * N - 6)).

Lemma counted_le g adj dep done v last : tri g0 g adj dep done -> 3 <= N -> par g v <> NIL -> 1 <= v <= N ->
  counted g dep done v last -> gM g <= 3 * N - 6.
Proof.
  intros T H3 HP Hv C. pose proof (tri_len _ _ _ _ T ltac:(lia)).
  destruct (t_par _ _ _ _ _ T v Hv HP) as (_ & D & _). pose proof (t_dep _ _ _ _ _ T _ D).
  unfold counted in C. lia.
Qed.

Lemma tri_post_le g g' x : gM g <= gM g' -> tri_post g' x -> tri_post g x.
Proof. intros H (adj & dep & done & A & B & C). exists adj, dep, done. split; [auto|]. split; [lia|auto]. Qed.

Lemma triangulate_ok M : 3 <= N -> forall n g adj dep done v last, tri g0 g adj dep done -> 1 <= v <= N -> In last done ->
  par g v <> NIL -> counted g dep done v last -> N - 1 - Z.of_nat (length done) + 2 <= Z.of_nat n ->
  wp (triangulate n g 1 last v M) (tri_post g).
Proof.
  intros H3. induction n as [|n IH]; intros g adj dep done v last T Hv Hd HP C Hn.
  { pose proof (tri_len _ _ _ _ T ltac:(lia)). lia. }
  pose proof (counted_le _ _ _ _ _ _ T H3 HP Hv C) as HM.
  assert (Hl : 1 <= last <= N) by (pose proof (t_done _ _ _ _ _ T _ Hd); lia).
  destruct (t_par _ _ _ _ _ T v Hv HP) as (Q1 & Q2 & Q3 & Q4 & Q5). pose proof (t_dep _ _ _ _ _ T _ Q2) as DV.
  cbn [triangulate]. rewrite (eqb_false_neq v 1) by lia. cbn [negb andb].
  destruct (gM g <? M).
  2: { apply wp_ret. exists adj, dep, done. cbn [fst snd]. split; [auto|]. split; [lia|auto]. }
  destruct (child_ok g0 g adj dep done v T Hv (or_intror HP)) as [EC|(g1 & c & adj1 & EC & T1 & C1 & C2 & C3 & C4 & C5)].
  - (* no child: climb *)
    rewrite EC, bind_ret. change (negb (NIL =? NIL)) with false. cbv iota.
    unfold gp_GetVertexParent, rd_vi. rewrite guard_true, bind_ret.
    2: { unfold inVI, gp_PrimaryVertexIndexBound. rewrite (t_N _ _ _ _ _ T). lia. }
    change (viParent (gVI g) v) with (par g v).
    apply wp_bind. eapply wp_mono; [apply (climb_ok last Hl _ g adj dep done v (par g v) NIL T)|].
    + auto.
    + auto.
    + auto.
    + rewrite (t_N _ _ _ _ _ T). lia.
    + pose proof (tri_len _ _ _ _ T ltac:(lia)) as HL0.
      intros [[[[g' r] v'] p'] c'] (adj' & H).
      destruct H as [(H1 & H2 & H3' & H4 & H5)|[(H1 & H2 & H3' & H4 & H5)|(H1 & H2 & H3' & H4 & H5 & H6 & H7 & H8 & H9 & H10 & H11 & H12 & H13)]].
      * rewrite H1. change (negb (C_NOTOK =? C_OK)) with true. cbv iota. apply wp_ret.
        exists adj', dep, done. cbn [fst snd]. split; [auto|].
        assert (gM g' < 3 * N - 6) by (unfold counted in C; lia). split; [lia|]. right. auto.
      * rewrite H1, H2, H3'. cbn [negb C_OK Z.eqb Pos.eqb NIL].
        assert (gM g' <= 3 * N - 6) by (unfold counted in C; lia).
        destruct n as [|n]; [lia|]. cbn [triangulate Z.eqb Pos.eqb negb andb]. apply wp_ret.
        exists adj', dep, done. cbn [fst snd]. split; [auto|]. split; [lia|auto].
      * pose proof (tri_len _ _ _ _ H9 ltac:(lia)) as HL. cbn [length] in HL.
        assert (D0 : 0 <= dep p').
        { pose proof (t_dep _ _ _ _ _ H9 c' ltac:(simpl; auto)) as X. rewrite upd_same in X. lia. }
        rewrite H1. cbn [negb C_OK Z.eqb Pos.eqb]. rewrite (eqb_false_neq p' NIL) by (unfold NIL; lia).
        destruct (Z.eqb_spec p' 1) as [Hp|Hp].
        -- (* c' is a child of the root *)
           assert (Dp : dep p' = 0) by (apply H12; auto).
           destruct (tri_add_edge g' adj' _ _ v' c' H9 ltac:(lia) ltac:(lia)) as [(L & g2 & adj2 & E2 & T2 & M2 & P2)|(L & E2)].
           2: { rewrite E2, bind_ret. change (negb (C_NONEMBEDDABLE =? C_OK)) with true. cbv iota. apply wp_ret.
                exists adj', (upd dep c' (dep p' + 1)), (c' :: done). cbn [fst snd]. split; [auto|].
                assert (gM g' < 3 * N - 6) by (unfold counted in C; lia). split; [lia|]. right. auto. }
           rewrite E2, bind_ret. cbn [negb C_OK Z.eqb Pos.eqb].
           destruct (Z.eqb_spec v' last) as [Hvl|Hvl]; cbn [negb].
           ++ rewrite bind_ret. cbn [negb C_OK Z.eqb Pos.eqb].
              eapply wp_mono; [apply (IH g2 adj2 (upd dep c' (dep p' + 1)) (c' :: done) c' last T2)|].
              ** lia.
              ** simpl; auto.
              ** rewrite P2, H7. unfold NIL. lia.
              ** right. split; [intros ->; auto|]. rewrite upd_same. split; [lia|]. cbn [length]. unfold counted in C. lia.
              ** cbn [length]. lia.
              ** intros x. apply tri_post_le. lia.
           ++ destruct (tri_add_edge g2 adj2 _ _ last c' T2 Hl ltac:(lia)) as [(L3 & g3 & adj3 & E3 & T3 & M3 & P3)|(L3 & E3)].
              2: { rewrite E3, bind_ret. change (negb (C_NONEMBEDDABLE =? C_OK)) with true. cbv iota. apply wp_ret.
                   exists adj2, (upd dep c' (dep p' + 1)), (c' :: done). cbn [fst snd]. split; [auto|].
                   assert (gM g2 < 3 * N - 6) by (unfold counted in C; lia). split; [lia|]. right. auto. }
              rewrite E3, bind_ret. cbn [negb C_OK Z.eqb Pos.eqb].
              eapply wp_mono; [apply (IH g3 adj3 (upd dep c' (dep p' + 1)) (c' :: done) c' last T3)|].
              ** lia.
              ** simpl; auto.
              ** rewrite P3, P2, H7. unfold NIL. lia.
              ** right. split; [intros ->; auto|]. rewrite upd_same. split; [lia|]. cbn [length]. unfold counted in C. lia.
              ** cbn [length]. lia.
              ** intros x. apply tri_post_le. lia.
        -- assert (Dp : 1 <= dep p').
           { destruct (Z.eq_dec (dep p') 0) as [X|X]; [apply H12 in X; contradiction|lia]. }
           destruct (tri_add_edge g' adj' _ _ last c' H9 ltac:(lia) ltac:(lia)) as [(L & g2 & adj2 & E2 & T2 & M2 & P2)|(L & E2)].
           2: { rewrite E2, bind_ret. change (negb (C_NONEMBEDDABLE =? C_OK)) with true. cbv iota. apply wp_ret.
                exists adj', (upd dep c' (dep p' + 1)), (c' :: done). cbn [fst snd]. split; [auto|].
                assert (gM g' < 3 * N - 6) by (unfold counted in C; lia). split; [lia|]. right. auto. }
           rewrite E2, bind_ret. cbn [negb C_OK Z.eqb Pos.eqb].
           destruct (tri_add_edge g2 adj2 _ _ 1 c' T2 ltac:(lia) ltac:(lia)) as [(L3 & g3 & adj3 & E3 & T3 & M3 & P3)|(L3 & E3)].
           2: { rewrite E3, bind_ret. change (negb (C_NONEMBEDDABLE =? C_OK)) with true. cbv iota. apply wp_ret.
                exists adj2, (upd dep c' (dep p' + 1)), (c' :: done). cbn [fst snd]. split; [auto|].
                assert (gM g2 < 3 * N - 6) by (unfold counted in C; lia). split; [lia|]. right. auto. }
           rewrite E3, bind_ret. cbn [negb C_OK Z.eqb Pos.eqb].
           eapply wp_mono; [apply (IH g3 adj3 (upd dep c' (dep p' + 1)) (c' :: done) c' c' T3)|].
           ** lia.
           ** simpl; auto.
           ** rewrite P3, P2, H7. unfold NIL. lia.
           ** left. split; [auto|]. rewrite upd_same. cbn [length]. unfold counted in C. lia.
           ** cbn [length]. lia.
           ** intros x. apply tri_post_le. lia.
  - pose proof (tri_len _ _ _ _ T1 ltac:(lia)) as HL. cbn [length] in HL.
    rewrite EC, bind_ret. rewrite (eqb_false_neq c NIL) by (unfold NIL; lia). cbn [negb].
    set (dep' := upd dep c (dep v + 1)) in *.
    assert (Hstep : forall g2 adj2, tri g0 g2 adj2 dep' (c :: done) -> (forall x, par g2 x = par g1 x) ->
       gM g2 + 1 = N - 1 + 2 * (Z.of_nat (length done) + 1) - (dep v + 1) - 1 -> gM g <= gM g2 ->
       wp ('(g, r) <- gp_AddEdge g2 1 1 c 1 ;;
           if negb (r =? C_OK) then Ret (g, C_NOTOK) else triangulate n g 1 c c M) (tri_post g)).
    { intros g2 adj2 T2 P2 M2 Hle.
      destruct (tri_add_edge g2 adj2 _ _ 1 c T2 ltac:(lia) ltac:(lia)) as [(L3 & g3 & adj3 & E3 & T3 & M3 & P3)|(L3 & E3)].
      2: { rewrite E3, bind_ret. change (negb (C_NONEMBEDDABLE =? C_OK)) with true. cbv iota. apply wp_ret.
           exists adj2, dep', (c :: done). cbn [fst snd]. split; [auto|].
           split; [lia|]. right. split; [auto|]. lia. }
      rewrite E3, bind_ret. cbn [negb C_OK Z.eqb Pos.eqb].
      eapply wp_mono; [apply (IH g3 adj3 dep' (c :: done) c c T3)|].
      - lia.
      - simpl; auto.
      - rewrite P3, P2, C2. unfold NIL. lia.
      - left. split; [auto|]. unfold dep'. rewrite upd_same. cbn [length]. lia.
      - cbn [length]. lia.
      - intros x. apply tri_post_le. lia. }
    destruct (Z.eqb_spec last v) as [Hlv|Hlv]; cbn [negb].
    + rewrite bind_ret. cbn [negb C_OK Z.eqb Pos.eqb]. apply (Hstep g1 adj1); auto; unfold counted in C; lia.
    + destruct (tri_add_edge g1 adj1 _ _ last c T1 Hl ltac:(lia)) as [(L3 & g3 & adj3 & E3 & T3 & M3 & P3)|(L3 & E3)].
      2: { rewrite E3, bind_ret. change (negb (C_NONEMBEDDABLE =? C_OK)) with true. cbv iota. apply wp_ret.
           exists adj1, dep', (c :: done). cbn [fst snd]. split; [auto|].
           assert (gM g1 < 3 * N - 6) by (unfold counted in C; lia). split; [lia|]. right. split; [auto|]. lia. }
      rewrite E3, bind_ret. cbn [negb C_OK Z.eqb Pos.eqb]. apply (Hstep g3 adj3); auto; unfold counted in C; lia.
Qed.
End Tri.
