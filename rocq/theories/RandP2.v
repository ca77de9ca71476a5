(** * RandP2: proofs about gp_CreateRandomGraphEx: the typed tree and _getUnprocessedChild. *)
From Coq Require Import ZifyBool.
From Verif Require Import Base BaseP GraphRec GraphM GraphSpec GSimp LinkP GraphP GraphP2 GraphP3 GraphP4 GraphP5 MoveP DFSSpec DFSP RandM RandSpec RandP.

(** ** Changes that keep the lists *)
Lemma rep_congr g g' adj : rep g adj -> gN g' = gN g -> gM g' = gM g -> gCap g' = gCap g ->
  vfirst g' = vfirst g -> vlast g' = vlast g -> enext g' = enext g -> eprev g' = eprev g -> enbr g' = enbr g ->
  gholes g' = gholes g -> gholesCap g' = gholesCap g -> rep g' adj.
Proof.
  intros [[C1 C2 C3 C4 C5 C6 C7] T [S1 S2 S3 S4 S5 S6 S7 S8 S9]] EN EM EC E1 E2 E3 E4 E5 E6 E7.
  constructor; [|intros v e H; rewrite E5; apply T; auto|]; constructor;
    unfold is_vertex, gp_EdgeIndexBound, gp_EdgeInUseIndexBound in *; rewrite ?EN, ?EM, ?EC, ?E1, ?E2, ?E3, ?E4, ?E5, ?E6, ?E7 in *; auto.
Qed.
Lemma connected_same g g' adj adj' r w : (forall v e, In e (adj v) -> In e (adj' v)) -> enbr g' = enbr g ->
  connected g adj r w -> connected g' adj' r w.
Proof.
  intros I E. induction 1 as [|w e _ IH He]; [constructor|]. rewrite <- E. apply conn_step with w; auto.
Qed.

(** ** The typed tree *)
Record ttree (g0 g : graph) (adj : Z -> list Z) (v : Z) : Prop := {
  tt_tree : tree_inv g0 g adj v;
  tt_arc : forall w e, In e (adj w) -> eflags g e = 4;
  tt_free : forall e, 2 <= e < gp_EdgeIndexBound g -> (forall w, ~ In e (adj w)) -> eflags g e = 0;
  tt_small : forall w e f, In e (adj w) -> In f (adj w) -> enbr g e < w -> enbr g f < w -> e = f }.

Lemma hd_unique (l : list Z) a : In a l -> (forall x, In x l -> x = a) -> hd NIL l = a.
Proof. destruct l as [|x l]; [intros []|]. intros _ H. cbn [hd]. apply H. simpl; auto. Qed.

Lemma tree_eflags g0 g adj v f : tree_inv g0 g adj v -> tree_inv g0 (set_eflags g f) adj v.
Proof.
  intros T. constructor; try apply T.
  - apply rep_congr with g; try reflexivity. apply T.
  - intros w Hw. apply connected_same with g adj; auto. apply T. auto.
Qed.

Definition tree_mark (g : graph) (a : Z) : res graph :=
  g <- gp_SetEdgeType g a EDGE_TYPE_RANDOMTREE ;;
  g <- gp_SetEdgeType g (gp_GetTwinArc a) EDGE_TYPE_RANDOMTREE ;;
  g <- gp_ClearEdgeVisited g a ;;
  gp_ClearEdgeVisited g (gp_GetTwinArc a).
Lemma tree_mark_ok g a : inE g a = true -> inE g (twin a) = true -> eflags g a = 0 -> eflags g (twin a) = 0 ->
  exists f, tree_mark g a = Ret (set_eflags g f) /\ f a = 4 /\ f (twin a) = 4 /\ forall x, x <> a -> x <> twin a -> f x = eflags g x.
Proof.
  intros I1 I2 F1 F2. unfold tree_mark, gp_SetEdgeType, gp_ClearEdgeVisited. change (gp_GetTwinArc a) with (twin a).
  pose proof (twin_ne a) as TN.
  rewrite rd_eflags_ok, bind_ret by auto. rewrite wr_eflags_ok, bind_ret by auto.
  rewrite rd_eflags_ok, bind_ret by auto. rewrite wr_eflags_ok, bind_ret by auto.
  rewrite rd_eflags_ok, bind_ret by auto. rewrite wr_eflags_ok, bind_ret by auto.
  rewrite rd_eflags_ok, bind_ret by auto. rewrite wr_eflags_ok by auto. gsimp.
  eexists. split; [reflexivity|]. unfold upd.
  rewrite !Z.eqb_refl, !(eqb_false_neq _ _ TN), !(eqb_false_neq _ _ (not_eq_sym TN)), ?Z.eqb_refl, F1, F2.
  split; [reflexivity|]. split; [reflexivity|]. intros x H1 H2. now rewrite !eqb_false_neq by auto.
Qed.

Lemma ttree_step g0 g adj v u g' adj' a f :
  ttree g0 g adj v -> 1 <= u < v -> v <= gN g0 -> added g g' adj adj' u v a ->
  f a = 4 -> f (twin a) = 4 -> (forall x, x <> a -> x <> twin a -> f x = eflags g' x) ->
  ttree g0 (set_eflags g' f) adj' (v + 1).
Proof.
  intros T Hu Hv A Fa Ft Fo. pose proof (ad_frame _ _ _ _ _ _ _ A) as F. pose proof (tt_tree _ _ _ _ T) as T0.
  pose proof (tree_inv_step _ _ _ _ _ _ _ _ T0 Hu Hv A) as T1.
  assert (Old : forall w e, In e (adj w) -> f e = eflags g e).
  { intros w e H. rewrite Fo, (if_eflags _ _ F); auto; intros ->; apply (ad_fresh _ _ _ _ _ _ _ A) in H; auto. }
  constructor.
  - apply tree_eflags. auto.
  - intros w e H. gsimp. apply (ad_in _ _ _ _ _ _ _ A) in H. destruct H as [H|[[-> _]|[-> _]]]; auto.
    rewrite (Old _ _ H). eapply tt_arc; eauto.
  - intros e He N. gsimp. rewrite Fo.
    + rewrite (if_eflags _ _ F). apply (tt_free _ _ _ _ T).
      * unfold gp_EdgeIndexBound in *. gsimp_in He. rewrite (if_cap _ _ F) in He. auto.
      * intros w H. apply (N w), (ad_in _ _ _ _ _ _ _ A). auto.
    + intros ->. apply (N u), (ad_in _ _ _ _ _ _ _ A). auto.
    + intros ->. apply (N v), (ad_in _ _ _ _ _ _ _ A). auto.
  - intros w e e' He He'. gsimp.
    assert (Nv : forall e, ~ In e (adj v)) by (intros x Hx; pose proof (ti_low _ _ _ _ T0 _ _ Hx); lia).
    destruct (added_nbr _ _ _ _ _ _ _ _ _ A He) as [[H1 E1]|[(-> & -> & E1)|(-> & Hw & E1)]];
    destruct (added_nbr _ _ _ _ _ _ _ _ _ A He') as [[H2 E2]|[(-> & Hw2 & E2)|(-> & Hw2 & E2)]]; subst; rewrite ?E1, ?E2; intros; auto; try lia.
    + eapply (tt_small _ _ _ _ T); eauto.
    + destruct (Nv _ H1).
    + destruct (Nv _ H2).
Qed.

Lemma typed_tree_ok rnd g0 : stream_ok rnd -> gN g0 <= INT_MAX -> gN g0 - 1 <= gCap g0 / 2 -> forall n k g adj v,
  ttree g0 g adj v -> 2 <= v -> v + Z.of_nat n = gN g0 + 1 ->
  exists g' adj', typed_tree_edges n rnd k g v = Ret (g', (k + n)%nat, C_OK) /\ ttree g0 g' adj' (gN g0 + 1).
Proof.
  intros St HN Hcap. induction n as [|n IH]; intros k g adj v T Hv Hn; cbn [typed_tree_edges].
  - exists g, adj. replace (k + 0)%nat with k by lia. split; [auto|]. replace (gN g0 + 1) with v by lia. auto.
  - pose proof (tt_tree _ _ _ _ T) as T0. rewrite random_ok by (auto; lia). rewrite bind_ret.
    pose proof (pick_range (rnd k) 1 (v - 1) ltac:(lia)) as HP. set (u := pick _ _ _) in *.
    destruct (add_edge_in g adj u 0 v 0) as (g' & a & E & A).
    + apply T0.
    + unfold is_vertex. rewrite (ti_N _ _ _ _ T0). lia.
    + unfold is_vertex. rewrite (ti_N _ _ _ _ T0). lia.
    + left; auto.
    + left; auto.
    + rewrite (ti_M _ _ _ _ T0), (ti_cap _ _ _ _ T0). lia.
    + set (adj' := adj_insert adj u NIL 0 v NIL 0 a) in *. pose proof (ad_frame _ _ _ _ _ _ _ A) as F.
      rewrite E, bind_ret. cbn [negb C_OK Z.eqb Pos.eqb].
      pose proof (tree_inv_step _ _ _ _ u _ _ a T0 ltac:(lia) ltac:(lia) A) as T1.
      assert (Ha : In a (adj' u)) by (apply (ad_in _ _ _ _ _ _ _ A); auto).
      rewrite (neighbor_rec_ok g' adj').
      2: apply A.
      2: { unfold is_vertex. rewrite (ti_N _ _ _ _ T1). lia. }
      2: { unfold NIL. lia. }
      rewrite bind_ret. rewrite (hd_unique _ a).
      2: { apply filter_In. split; auto. rewrite (ad_a _ _ _ _ _ _ _ A). apply Z.eqb_refl. }
      2: { intros x Hx. apply filter_In in Hx. destruct Hx as [Hx Q]. apply (ti_simple _ _ _ _ T1) with u; auto.
           rewrite (ad_a _ _ _ _ _ _ _ A). lia. }
      destruct (ad_bnd _ _ _ _ _ _ _ A) as [B1 B2].
      assert (EB : gp_EdgeIndexBound g' = gp_EdgeIndexBound g) by (unfold gp_EdgeIndexBound; now rewrite (if_cap _ _ F)).
      assert (FR := ad_fresh _ _ _ _ _ _ _ A).
      destruct (tree_mark_ok g' a) as (f & Em & Fa & Ft & Fo).
      * apply inE_true. lia.
      * apply inE_true. lia.
      * rewrite (if_eflags _ _ F). apply (tt_free _ _ _ _ T); auto. intros w. apply FR.
      * rewrite (if_eflags _ _ F). apply (tt_free _ _ _ _ T); auto. intros w. apply FR.
      * pose proof (ttree_step g0 g adj v u g' adj' a f T ltac:(lia) ltac:(lia) A Fa Ft Fo) as T2.
        destruct (IH (S k) _ _ (v + 1) T2 ltac:(lia) ltac:(lia)) as (g2 & adj2 & E2 & T3).
        exists g2, adj2. split; [|exact T3].
        unfold tree_mark in Em.
        destruct (gp_SetEdgeType g' a _) as [h1| |]; cbn [bind] in Em |- *; try discriminate.
        destruct (gp_SetEdgeType h1 _ _) as [h2| |]; cbn [bind] in Em |- *; try discriminate.
        destruct (gp_ClearEdgeVisited h2 a) as [h3| |]; cbn [bind] in Em |- *; try discriminate.
        rewrite Em. cbn [bind]. rewrite E2. f_equal. f_equal. f_equal. lia.
Qed.

(** ** While the planar edges are being added *)
(** [done] lists the vertices reached so far (root excluded); [dep] is their depth in the tree. *)
Record tri (g0 g : graph) (adj : Z -> list Z) (dep : Z -> Z) (done : list Z) : Prop := {
  t_rep : rep g adj; t_N : gN g = gN g0; t_cap : gCap g = gCap g0; t_prim : primary_edges g adj;
  t_conn : forall w, 1 <= w <= gN g0 -> connected g adj 1 w;
  t_ne : forall w, 1 <= w <= gN g0 -> exists e, In e (adj w);
  t_free : forall e, 2 <= e < gp_EdgeIndexBound g -> (forall w, ~ In e (adj w)) -> eflags g e = 0;
  t_flags : forall w e, In e (adj w) -> eflags g e = 0 \/ eflags g e = 4 \/ eflags g e = 5;
  t_sym : forall w e, In e (adj w) -> eflags g (twin e) = eflags g e;
  t_loop : forall w e, In e (adj w) -> eflags g e <> 0 -> enbr g e <> w;
  t_small : forall w e f, In e (adj w) -> In f (adj w) -> eflags g e <> 0 -> eflags g f <> 0 ->
              enbr g e < w -> enbr g f < w -> e = f;
  t_par : forall w, 1 <= w <= gN g0 -> par g w <> NIL -> 1 <= par g w < w /\ In w done /\
            (par g w = 1 \/ par g (par g w) <> NIL) /\ dep w = dep (par g w) + 1 /\
            forall e, In e (adj w) -> eflags g e <> 0 -> enbr g e < w -> eflags g e = 5;
  t_done : forall w, In w done -> 2 <= w <= gN g0 /\ par g w <> NIL;
  t_nodup : NoDup done;
  t_dep1 : dep 1 = 0;
  t_dep : forall w, In w done -> 1 <= dep w }.

Lemma tri_start g0 g adj : empty_graph g0 -> 2 <= gN g0 -> ttree g0 g adj (gN g0 + 1) -> tri g0 g adj (fun _ => 0) [].
Proof.
  intros Eg H2 T. pose proof (tt_tree _ _ _ _ T) as T0. pose proof (ti_rep _ _ _ _ T0) as R.
  assert (NP : forall w, 1 <= w <= gN g0 -> par g w = NIL).
  { intros w Hw. unfold par. rewrite (ti_VI _ _ _ _ T0). apply Eg. auto. }
  constructor; try apply T0; auto.
  - intros w Hw. apply T0. lia.
  - assert (X : forall w, connected g adj 1 w -> w <> 1 -> exists e, In e (adj w)).
    { intros w C Hn. destruct C as [|x e C He]; [lia|]. destruct (rep_twins _ _ R _ _ He) as [_ T2]. eauto. }
    assert (Y : forall w, connected g adj 1 w -> w <> 1 -> exists e, In e (adj 1)).
    { clear -T. induction 1 as [|x e C IH He]; intros Hn; [lia|]. destruct (Z.eq_dec x 1) as [->|Hx]; eauto. }
    intros w Hw. destruct (Z.eq_dec w 1) as [->|Hn].
    + apply (Y 2); [apply T0; lia|lia].
    + apply X; auto. apply T0. lia.
  - apply T.
  - intros w e H. right. left. eapply tt_arc; eauto.
  - intros w e H. destruct (rep_twins _ _ R _ _ H) as [_ T2]. rewrite (tt_arc _ _ _ _ T _ _ H). eapply tt_arc; eauto.
  - intros w e H _. apply (ti_simple _ _ _ _ T0). auto.
  - intros w e f He Hf _ _. apply (tt_small _ _ _ _ T); auto.
  - intros w Hw Hn. rewrite NP in Hn by auto. congruence.
  - intros w [].
  - constructor.
  - intros w [].
Qed.

Lemma tri_add g0 g adj dep done g' adj' u v a : tri g0 g adj dep done -> primary g u -> primary g v ->
  added g g' adj adj' u v a -> tri g0 g' adj' dep done.
Proof.
  intros T Pu Pv A. pose proof (ad_frame _ _ _ _ _ _ _ A) as F.
  pose proof (ad_fresh _ _ _ _ _ _ _ A) as Fr. destruct (ad_bnd _ _ _ _ _ _ _ A) as [B1 B2].
  assert (Za : eflags g a = 0) by (apply (t_free _ _ _ _ _ T); auto; intros w; apply Fr).
  assert (Zt : eflags g (twin a) = 0) by (apply (t_free _ _ _ _ _ T); auto; intros w; apply Fr).
  assert (EF : eflags g' = eflags g) by apply F.
  assert (Old : forall w e, In e (adj' w) -> eflags g e <> 0 -> In e (adj w) /\ enbr g' e = enbr g e).
  { intros w e He Hf. destruct (added_nbr _ _ _ _ _ _ _ _ _ A He) as [H|[(-> & _)|(-> & _)]]; [auto| |]; contradiction. }
  assert (PE : forall w, par g' w = par g w) by (intros w; unfold par; now rewrite (if_VI _ _ F)).
  constructor; rewrite ?EF.
  - apply A.
  - rewrite (if_N _ _ F). apply T.
  - rewrite (if_cap _ _ F). apply T.
  - exact (primary_added _ _ _ _ _ _ _ (t_prim _ _ _ _ _ T) Pu Pv A).
  - intros w Hw. eapply connected_added; [exact A|]. apply T. auto.
  - intros w Hw. destruct (t_ne _ _ _ _ _ T w Hw) as [e He]. exists e. apply (ad_in _ _ _ _ _ _ _ A). auto.
  - intros e He N. unfold gp_EdgeIndexBound in *. rewrite (if_cap _ _ F) in He. apply (t_free _ _ _ _ _ T); auto.
    intros w H. apply (N w), (ad_in _ _ _ _ _ _ _ A). auto.
  - intros w e H. apply (ad_in _ _ _ _ _ _ _ A) in H. destruct H as [H|[[-> _]|[-> _]]]; auto. eapply t_flags; eauto.
  - intros w e H. apply (ad_in _ _ _ _ _ _ _ A) in H. destruct H as [H|[[-> _]|[-> _]]]; rewrite ?twin_invol, ?Za, ?Zt; auto. eapply t_sym; eauto.
  - intros w e H Hf. destruct (Old _ _ H Hf) as [H1 ->]. eapply t_loop; eauto.
  - intros w e f He Hf N1 N2. destruct (Old _ _ He N1) as [H1 ->]. destruct (Old _ _ Hf N2) as [H2 ->]. eapply t_small; eauto.
  - intros w Hw. rewrite !PE. intros Hn. destruct (t_par _ _ _ _ _ T w Hw Hn) as (P1 & P2 & P3 & P4 & P5).
    split; [auto|]. split; [auto|]. split; [auto|]. split; [auto|]. intros e He N1. destruct (Old _ _ He N1) as [H1 ->]. auto.
  - intros w Hw. rewrite PE. apply T. auto.
  - apply T.
  - apply T.
  - apply T.
Qed.

(** ** _getUnprocessedChild *)
Definition child_marked (g : graph) (e c v : Z) : graph :=
  set_eflags g (upd (upd (eflags g) e 5) (twin e) 5).

Lemma child_ok g0 g adj dep done v : tri g0 g adj dep done -> 1 <= v <= gN g0 -> (v = 1 \/ par g v <> NIL) ->
  _getUnprocessedChild g v = Ret (g, NIL) \/
  exists g' c adj', _getUnprocessedChild g v = Ret (g', c) /\ tri g0 g' adj' (upd dep c (dep v + 1)) (c :: done) /\
    v < c <= gN g0 /\ par g' c = v /\ ~ In c done /\ gM g' = gM g /\ forall x, x <> c -> par g' x = par g x.
Proof.
  intros T Hv HP. pose proof (t_rep _ _ _ _ _ T) as R. pose proof (rep_chains _ _ R) as C.
  destruct (t_ne _ _ _ _ _ T v Hv) as [e0 He0].
  assert (Vv : is_vertex g v) by (unfold is_vertex; rewrite (t_N _ _ _ _ _ T); lia).
  destruct (adj v) as [|e l] eqn:EA; [destruct He0|]. clear e0 He0.
  assert (He : In e (adj v)) by (rewrite EA; simpl; auto).
  destruct (rep_twins _ _ R _ _ He) as [Tn Tin].
  pose proof (ch_range _ _ C _ _ He) as Be. pose proof (ch_range _ _ C _ _ Tin) as Bt.
  unfold _getUnprocessedChild. rewrite (first_ok g adj) by auto. rewrite bind_ret, EA. cbn [hd].
  change (gp_GetTwinArc e) with (twin e). cbv zeta.
  rewrite get_nbr, bind_ret by (apply inE_true; lia). set (c := enbr g e) in *.
  unfold gp_GetEdgeType, gp_GetEdgeVisited. rewrite !rd_eflags_ok by (apply inE_true; lia). rewrite !bind_ret.
  destruct (t_flags _ _ _ _ _ T _ _ He) as [Q|[Q|Q]]; rewrite Q.
  { left. reflexivity. }
  2: { left. reflexivity. }
  change (Z.land 4 EDGE_TYPE_MASK =? EDGE_TYPE_NOTDEFINED) with false. cbv iota.
  change (negb (Z.land 4 EDGE_VISITED_MASK =? 0)) with false. cbv iota.
  assert (Pc : primary g c) by (eapply arc_nbr_primary; eauto; apply T).
  unfold primary in Pc. rewrite (t_N _ _ _ _ _ T) in Pc.
  assert (Hcv : c <> v) by (apply (t_loop _ _ _ _ _ T); auto; lia).
  assert (Hc : v < c).
  { destruct (Z_lt_le_dec c v) as [L|L]; [|lia]. exfalso. destruct HP as [HP|HP]; [lia|].
    destruct (t_par _ _ _ _ _ T v Hv HP) as (_ & _ & _ & _ & P5). specialize (P5 e He ltac:(lia) L). lia. }
  assert (Qt : eflags g (twin e) = 4) by (rewrite (t_sym _ _ _ _ _ T _ _ He); auto).
  assert (NPc : par g c = NIL).
  { destruct (Z.eq_dec (par g c) NIL) as [|N]; [auto|]. exfalso.
    destruct (t_par _ _ _ _ _ T c Pc N) as (_ & _ & _ & _ & P5). specialize (P5 _ Tin ltac:(lia) ltac:(lia)). lia. }
  assert (ND : ~ In c done) by (intros H; apply (t_done _ _ _ _ _ T) in H; destruct H as [_ H]; auto).
  right. unfold gp_SetEdgeVisited. rewrite rd_eflags_ok, bind_ret by (apply inE_true; lia).
  rewrite wr_eflags_ok, bind_ret by (apply inE_true; lia).
  rewrite rd_eflags_ok, bind_ret by (apply inE_true; unfold gp_EdgeIndexBound in *; gsimp; lia).
  rewrite wr_eflags_ok, bind_ret by (apply inE_true; unfold gp_EdgeIndexBound in *; gsimp; lia). gsimp.
  pose proof (twin_ne e) as TN. rewrite (upd_other _ _ _ _ TN), Q, Qt.
  change (Z.lor 4 EDGE_VISITED_MASK) with 5.
  set (fl := upd (upd (eflags g) e 5) (twin e) 5) in *.
  assert (Fl : forall x, fl x = if (x =? e) || (x =? twin e) then 5 else eflags g x).
  { intros x. unfold fl, upd. destruct (Z.eqb_spec x e), (Z.eqb_spec x (twin e)); reflexivity. }
  match goal with |- context [gp_MoveArcToLast ?h v e] => set (g1 := h) end.
  assert (G1 : g1 = set_eflags g fl) by reflexivity. clearbody g1. subst g1.
  set (g1 := set_eflags g fl) in *.
  assert (R1 : rep g1 adj) by (apply rep_congr with g; auto).
  destruct (wp_inv _ _ (move_last_ok g1 adj v e [] l (rep_chains _ _ R1) EA)) as (g2 & E2 & F2 & C2). cbn [app] in C2.
  rewrite E2, bind_ret.
  assert (R2 : rep g2 (upd adj v (l ++ [e]))).
  { apply (rep_permute g1 g2 adj); auto. intros x. rewrite EA, in_app_iff. simpl. tauto. }
  set (adj2 := upd adj v (l ++ [e])) in *.
  assert (I2 : forall w x, In x (adj2 w) <-> In x (adj w)).
  { intros w x. unfold adj2, upd. destruct (Z.eqb_spec w v) as [->|]; [|tauto]. rewrite EA, in_app_iff. simpl. tauto. }
  assert (Tin2 : In (twin e) (adj2 c)) by (apply I2; auto).
  apply in_split in Tin2. destruct Tin2 as (m1 & m2 & EM).
  destruct (wp_inv _ _ (move_last_ok g2 adj2 c (twin e) m1 m2 (rep_chains _ _ R2) EM)) as (g3 & E3 & F3 & C3).
  rewrite E3, bind_ret.
  assert (R3 : rep g3 (upd adj2 c (m1 ++ m2 ++ [twin e]))).
  { apply (rep_permute g2 g3 adj2); auto. intros x. rewrite EM, !in_app_iff. simpl. tauto. }
  set (adj3 := upd adj2 c (m1 ++ m2 ++ [twin e])) in *.
  assert (I3 : forall w x, In x (adj3 w) <-> In x (adj w)).
  { intros w x. rewrite <- I2. unfold adj3, upd. destruct (Z.eqb_spec w c) as [->|]; [|tauto]. rewrite EM, !in_app_iff. simpl. tauto. }
  pose proof (frame_links_trans _ _ _ F2 F3) as F.
  assert (N3 : gN g3 = gN g) by (rewrite (fl_N _ _ F); reflexivity).
  unfold gp_SetVertexParent. rewrite guard_true.
  2: { unfold inVI, gp_PrimaryVertexIndexBound. rewrite N3, (t_N _ _ _ _ _ T). lia. }
  rewrite bind_ret.
  set (g4 := set_gVI g3 _).
  assert (P4 : forall x, par g4 x = if x =? c then v else par g x).
  { intros x. unfold g4, par, upd. gsimp. cbn [viParent set_viParent]. rewrite (fl_VI _ _ F). reflexivity. }
  assert (B4 : enbr g4 = enbr g) by (unfold g4; gsimp; rewrite (fl_enbr _ _ F); reflexivity).
  assert (L4 : eflags g4 = fl) by (unfold g4; gsimp; rewrite (fl_eflags _ _ F); reflexivity).
  assert (TT : forall w x, In x (adj w) -> fl (twin x) = fl x).
  { intros w x Hx. rewrite !Fl. rewrite (t_sym _ _ _ _ _ T _ _ Hx).
    destruct (Z.eqb_spec x e) as [->|H1].
    - rewrite (proj2 (Z.eqb_eq (twin e) (twin e)) eq_refl), orb_true_r. reflexivity.
    - destruct (Z.eqb_spec x (twin e)) as [->|H2].
      + rewrite twin_invol, Z.eqb_refl. reflexivity.
      + assert (M1 : twin x <> e) by (intros H; apply H2; apply twin_eq_iff in H; auto).
        assert (M2 : twin x <> twin e) by (intros H; apply H1; apply twin_eq_iff in H; rewrite twin_invol in H; auto).
        now rewrite (eqb_false_neq _ _ M1), (eqb_false_neq _ _ M2). }
  assert (FZ : forall x, fl x <> 0 -> eflags g x <> 0).
  { intros x. rewrite Fl. destruct (Z.eqb_spec x e) as [->|]; [intros _; lia|]. destruct (Z.eqb_spec x (twin e)) as [->|]; [intros _; lia|]. auto. }
  exists g4, c, adj3. split; [reflexivity|]. split; [|].
  - constructor; rewrite ?B4, ?L4.
    + apply rep_congr with g3; auto.
    + change (gN g4) with (gN g3). rewrite N3. apply T.
    + change (gCap g4) with (gCap g3). rewrite (fl_cap _ _ F). apply T.
    + intros w x H. unfold primary. change (gN g4) with (gN g3). rewrite N3. apply I3 in H. exact (t_prim _ _ _ _ _ T _ _ H).
    + intros w Hw. apply connected_same with g adj; auto; [intros; apply I3; auto|]. apply T. auto.
    + intros w Hw. destruct (t_ne _ _ _ _ _ T w Hw) as [x Hx]. exists x. apply I3. auto.
    + intros x Hx N. rewrite Fl. rewrite !eqb_false_neq.
      * cbn [orb]. apply (t_free _ _ _ _ _ T).
        -- unfold gp_EdgeIndexBound in *. change (gCap g4) with (gCap g3) in Hx. rewrite (fl_cap _ _ F) in Hx. exact Hx.
        -- intros w H. apply (N w), I3. auto.
      * intros ->. apply (N c), I3. auto.
      * intros ->. apply (N v), I3. auto.
    + intros w x H. apply I3 in H. rewrite Fl. destruct (_ || _); auto. eapply t_flags; eauto.
    + intros w x H. apply I3 in H. eapply TT; eauto.
    + intros w x H Hf. apply I3 in H. eapply t_loop; eauto.
    + intros w x y Hx Hy H1 H2. apply I3 in Hx. apply I3 in Hy. eapply t_small; eauto.
    + intros w Hw. rewrite !P4. destruct (Z.eqb_spec w c) as [->|Hwc].
      * intros _. rewrite (eqb_false_neq v c) by lia. split; [lia|]. split; [simpl; auto|]. split; [tauto|].
        rewrite upd_same, upd_other by lia. split; [auto|].
        intros x Hx H1 H2. apply I3 in Hx. assert (x = twin e).
        { apply (t_small _ _ _ _ _ T c); auto; try lia. }
        subst x. rewrite Fl, Z.eqb_refl, orb_true_r. reflexivity.
      * intros Hn. destruct (t_par _ _ _ _ _ T w Hw Hn) as (Q1 & Q2 & Q3 & Q4 & Q5).
        assert (Hpc : par g w <> c).
        { intros E. destruct Q3 as [Q3|Q3]; [lia|]. rewrite E in Q3. auto. }
        rewrite (eqb_false_neq _ _ Hpc). split; [auto|]. split; [simpl; auto|]. split; [auto|].
        rewrite !upd_other by auto. split; [auto|].
        intros x Hx H1 H2. apply I3 in Hx. specialize (Q5 x Hx (FZ _ H1) H2). rewrite Fl, Q5. destruct (_ || _); auto.
    + intros w Hw. rewrite P4. destruct Hw as [<-|Hw].
      * rewrite Z.eqb_refl. unfold NIL. lia.
      * destruct (t_done _ _ _ _ _ T w Hw) as [D1 D2]. split; [auto|]. destruct (w =? c); [unfold NIL; lia|auto].
    + constructor; auto. apply T.
    + rewrite upd_other by lia. apply T.
    + intros w Hw. unfold upd. destruct (Z.eqb_spec w c) as [->|Hwc].
      * assert (0 <= dep v); [|lia]. destruct HP as [->|HP]; [rewrite (t_dep1 _ _ _ _ _ T); lia|].
        destruct (t_par _ _ _ _ _ T v Hv HP) as (_ & D & _). pose proof (t_dep _ _ _ _ _ T v D). lia.
      * destruct Hw as [Hw|Hw]; [congruence|]. apply (t_dep _ _ _ _ _ T). auto.
  - split; [lia|]. split; [rewrite P4, Z.eqb_refl; auto|]. split; [auto|]. split.
    + change (gM g4) with (gM g3). rewrite (fl_M _ _ F). reflexivity.
    + intros x Hx. rewrite P4, (eqb_false_neq _ _ Hx). reflexivity.
Qed.
