(** * IsoX: the walk that marks the X-Y path, on a cycle with non-crossing chords. *)
From Coq Require Import ZifyBool Permutation.
From Verif Require Import Base BaseP GraphRec GraphM GraphSpec GSimp LinkP GraphP GraphP2 GraphP6 GraphP7 ListM DFSM DFSSpec DFSP TestM TestP EmbM EmbSpec EmbP FaceP FanP IsoM IsoP1 IsoO2.

(** ** Hiding and restoring, when flags and stack have changed in between *)
Lemma hide_internal_ok2 g adj v a mid b :
  chains g adj -> twins_ok g adj -> no_loops g adj -> adj v = a :: mid ++ [b] ->
  Z.of_nat (length (gstack g)) + Z.of_nat (length mid) <= gstackCap g ->
  exists g1, _HideInternalEdges g v = Ret (set_gstack g1 (rev mid ++ gstack g), C_OK) /\ chains g1 (adj_without adj mid) /\ twins_ok g1 (adj_without adj mid) /\ frame_links g g1 /\
    forall h, eq_links h g1 -> gN h = gN g -> gCap h = gCap g -> (forall x, enbr h x = enbr g x) ->
    exists h', _RestoreInternalEdges (set_gstack h (rev mid ++ gstack g)) (Z.of_nat (length (gstack g))) = Ret (set_gstack h' (gstack g), C_OK) /\ eq_links h' g /\ frame_links h h'.
Proof.
  intros C T L E Hs.
  assert (Vv : is_vertex g v) by (apply (ch_isvertex _ _ _ a C); rewrite E; simpl; auto).
  assert (Nd : NoDup (a :: mid ++ [b])) by (rewrite <- E; apply C).
  assert (D : distinct_edges adj mid).
  { apply (distinct_incl adj (adj v)).
    - apply NoDup_cons_iff in Nd. destruct Nd as [_ Nd]. exact (NoDup_app_l _ _ Nd).
    - rewrite E. intros x Hx. simpl. rewrite in_app_iff. auto.
    - intros e He Ht. assert (In e (adj v)) by (rewrite E; simpl; rewrite in_app_iff; auto).
      apply (L v e H). destruct (T _ _ Ht) as [X _]. now rewrite twin_invol in X.
    - intros e He. eauto. }
  destruct (hide_internal_loop_ok v a b mid (efuel g) g adj (gstack g) C T L E) as (g1 & H1 & H2).
  { pose proof (adj_len_chains _ _ v C) as HL. rewrite E in HL. cbn [length] in HL. rewrite app_length in HL. lia. }
  { lia. }
  assert (Eg : set_gstack g (gstack g) = g) by (destruct g; reflexivity). rewrite Eg in H2.
  pose proof (hide_all_ok mid g adj C T D) as W. rewrite H1 in W. cbn [wp] in W.
  destruct W as (C1 & T1 & F1 & U).
  exists g1.
  assert (Ia : 2 <= a < gp_EdgeIndexBound g) by (apply (ch_range _ _ C v); rewrite E; simpl; auto).
  split; [|split; [exact C1|split; [exact T1|split; [exact F1|]]]].
  - unfold _HideInternalEdges.
    rewrite get_first, bind_ret by (apply inV_true; unfold is_vertex, gp_VertexIndexBound in *; lia).
    rewrite get_last, bind_ret by (apply inV_true; unfold is_vertex, gp_VertexIndexBound in *; lia).
    rewrite (ch_first _ _ C v Vv), (ch_last _ _ C v Vv), E. cbn [hd].
    replace (a :: mid ++ [b]) with ((a :: mid) ++ [b]) by reflexivity. rewrite last_snoc.
    assert (Nab : a <> b).
    { intros ->. apply NoDup_cons_iff in Nd. apply (proj1 Nd). rewrite in_app_iff. simpl; auto. }
    rewrite eqb_false_neq by auto. rewrite get_next, bind_ret by (apply inE_true; lia).
    destruct (chains_links g adj v [] a (mid ++ [b]) C E) as [_ ->].
    replace (hd NIL (mid ++ [b])) with (hd b mid) by (destruct mid; reflexivity).
    rewrite H2. reflexivity.
  - intros h EL HN HC Hnb. destruct (wp_inv _ _ (U h EL HN HC Hnb)) as (h' & R & EL' & F').
    exists h'. split; [|split; auto]. unfold _RestoreInternalEdges, _RestoreHiddenEdges. gsimp.
    rewrite restore_hidden_ok.
    + rewrite R. reflexivity.
    + rewrite app_length. lia.
    + intros e He. apply in_rev in He. assert (In e (adj v)) by (rewrite E; simpl; rewrite in_app_iff; auto).
      pose proof (ch_range _ _ C _ _ H). unfold NIL. lia.
Qed.

(** ** The walk *)
Section Walk.
Variables (k : graph) (A : Z -> list Z) (R X W : Z) (M1 M2 : list Z).
Local Notation L := (X :: M1 ++ W :: M2).
Local Notation nb := (enbr k).
Local Notation n := (fun z => map (enbr k) (A z)).
Hypothesis C : chains k A.
Hypothesis T : twins_ok k A.
Hypothesis Nd : NoDup (R :: L).
Hypothesis Nc : nocross n (R :: L).
Hypothesis Cv : cover n L W.
Variables (ea eb : Z).
Hypothesis HR : A R = [ea; eb].
Hypothesis Ea : nb ea = X.
Hypothesis Hend : nb eb = last L NIL /\ M2 <> [].
Hypothesis HX : exists A2, A X = A2 ++ [twin ea] /\ A2 <> [] /\ sub (map nb A2) (M1 ++ W :: M2).
Hypothesis HZ : forall L1 z L2, L = L1 ++ z :: L2 -> L1 <> [] -> L2 <> [] -> exists A2 A1, A z = A2 ++ A1 /\ A2 <> [] /\ sub (map nb A2) L2 /\ sub (map nb A1) L1.
(** the types *)
Variable T0 : Z -> Z.
Hypothesis TR : T0 R = 0.
Hypothesis TX : forall z, In z (X :: M1) -> T0 z = OBS_LOW_RXW \/ T0 z = OBS_HIGH_RXW.
Hypothesis TY : forall z, In z M2 -> T0 z = OBS_LOW_RYW \/ T0 z = OBS_HIGH_RYW.
Variables (S0 : list Z) (g0 : graph) (F0 : Z -> Z).
Hypothesis Cap : Z.of_nat (length S0) + 4 <= gstackCap k.
Hypothesis Bd : gp_EdgeInUseIndexBound g0 <= gp_EdgeIndexBound k.

Definition mk (Fv Fe : Z -> Z) (S : list Z) : graph := set_gstack (set_eflags (set_vflags k Fv) Fe) S.
Lemma mk_push Fv Fe S x : Z.of_nat (length S) < gstackCap k -> stk_push (mk Fv Fe S) x = Ret (mk Fv Fe (x :: S)).
Proof. intros H. unfold stk_push. rewrite guard_true by (cbn [mk]; unfold mk; gsimp; lia). reflexivity. Qed.
Lemma mk_pop Fv Fe S x : stk_pop (mk Fv Fe (x :: S)) = Ret (mk Fv Fe S, x).
Proof. reflexivity. Qed.
Lemma V_in x e : In e (A x) -> inV k x = true.
Proof. intros H. pose proof (ch_isvertex _ _ _ e C H) as V. apply inV_true. unfold is_vertex, gp_VertexIndexBound in *. lia. Qed.
Lemma E_in x e : In e (A x) -> inE k e = true.
Proof. intros H. pose proof (ch_range _ _ C _ _ H). apply inE_true. lia. Qed.
Lemma mk_type Fv Fe S x : inV k x = true -> gp_GetVertexObstructionType (mk Fv Fe S) x = Ret (Z.land (Fv x) VERTEX_OBSTRUCTIONTYPE_MASK).
Proof. intros H. unfold gp_GetVertexObstructionType, rd_vflags. rewrite guard_true by exact H. reflexivity. Qed.
Lemma mk_vis Fv Fe S x : inV k x = true -> gp_GetVertexVisited (mk Fv Fe S) x = Ret (Z.land (Fv x) VERTEX_VISITED_MASK).
Proof. intros H. unfold gp_GetVertexVisited, rd_vflags. rewrite guard_true by exact H. reflexivity. Qed.
Lemma mk_set Fv Fe S x : inV k x = true -> gp_SetVertexVisited (mk Fv Fe S) x = Ret (mk (upd Fv x (Z.lor (Fv x) VERTEX_VISITED_MASK)) Fe S).
Proof. intros H. unfold gp_SetVertexVisited, rd_vflags, wr_vflags. rewrite guard_true by exact H. cbn [bind]. rewrite guard_true by exact H. reflexivity. Qed.
Lemma mk_clr Fv Fe S x : inV k x = true -> gp_ClearVertexVisited (mk Fv Fe S) x = Ret (mk (upd Fv x (Z.ldiff (Fv x) VERTEX_VISITED_MASK)) Fe S).
Proof. intros H. unfold gp_ClearVertexVisited, rd_vflags, wr_vflags. rewrite guard_true by exact H. cbn [bind]. rewrite guard_true by exact H. reflexivity. Qed.
Lemma mk_eclr Fv Fe S x : inE k x = true -> gp_ClearEdgeVisited (mk Fv Fe S) x = Ret (mk Fv (upd Fe x (Z.ldiff (Fe x) EDGE_VISITED_MASK)) S).
Proof. intros H. unfold gp_ClearEdgeVisited, rd_eflags, wr_eflags. rewrite guard_true by exact H. cbn [bind]. rewrite guard_true by exact H. reflexivity. Qed.
Lemma mk_eset Fv Fe S x : inE k x = true -> gp_SetEdgeVisited (mk Fv Fe S) x = Ret (mk Fv (upd Fe x (Z.lor (Fe x) EDGE_VISITED_MASK)) S).
Proof. intros H. unfold gp_SetEdgeVisited, rd_eflags, wr_eflags. rewrite guard_true by exact H. cbn [bind]. rewrite guard_true by exact H. reflexivity. Qed.
(** The arc before one that is not the first. *)
Lemma mk_prev Fv Fe S z A2 e A1 : A z = A2 ++ e :: A1 -> A2 <> [] -> gp_GetPrevArcCircular (mk Fv Fe S) e = Ret (last A2 NIL).
Proof.
  intros E N2. unfold gp_GetPrevArcCircular. rewrite get_prev by (apply (E_in z); rewrite E; apply in_app_iff; right; now left). cbn [bind].
  destruct (chains_links k A z A2 e A1 C E) as [E1 _]. change (eprev (mk Fv Fe S) e) with (eprev k e). rewrite E1.
  rewrite eqb_false_neq; [reflexivity|]. destruct (list_snoc A2) as [->|(l & y & ->)]; [congruence|]. rewrite last_snoc. assert (Hy : In y (A z)) by (rewrite E, !in_app_iff; left; right; now left).
  pose proof (ch_range _ _ C _ _ Hy). unfold NIL. lia.
Qed.
Lemma mk_nbr Fv Fe S x e : In e (A x) -> gp_GetNeighbor (mk Fv Fe S) e = Ret (nb e).
Proof. intros H. rewrite get_nbr by (exact (E_in x e H)). reflexivity. Qed.

(** What is known at a vertex [z] on the side of X, reached by [e]: no chord passes over [z], and the
    arcs before [e] are those to later vertices of the cycle. *)
Definition under (z : Z) : Prop := forall a b, In a L -> In b L -> idx L a < idx L z -> idx L z < idx L b -> In b (n a) -> False.
Record at_z (z e : Z) (L1 L2 A2 A1 : list Z) : Prop := {
  z_L : L = L1 ++ z :: L2; z_x : In z (X :: M1); z_A : A z = A2 ++ e :: A1; z_ne : A2 <> []; z_sub : sub (map nb A2) L2;
  z_all : forall y, In y L2 -> In y (n z) -> In y (map nb A2); z_u : under z }.
Lemma NdL : NoDup L.
Proof. pose proof Nd as Q. apply NoDup_cons_iff in Q. apply Q. Qed.
Lemma RL : ~ In R L.
Proof. pose proof Nd as Q. apply NoDup_cons_iff in Q. apply Q. Qed.
Lemma idxR y : In y L -> idx (R :: L) y = 1 + idx L y.
Proof. intros H. apply idx_tl. intros ->. now apply RL. Qed.
Lemma idxL L1 z L2 y : L = L1 ++ z :: L2 -> In y L -> (In y L1 <-> idx L y < idx L z) /\ (In y L2 <-> idx L z < idx L y).
Proof. intros E Hy. pose proof NdL as Q. rewrite E in Q, Hy |- *. now apply idx_split. Qed.
Lemma in_n x y : In y (n x) <-> exists e, In e (A x) /\ nb e = y.
Proof. rewrite in_map_iff. split; intros (e & H1 & H2); exists e; auto. Qed.
Lemma n_sym x y : In y (n x) -> In x (n y).
Proof. rewrite !in_n. intros (e & He & <-). destruct (T _ _ He) as [T1 T2]. eauto. Qed.

Lemma step_z z e L1 L2 A2 A1 : at_z z e L1 L2 A2 A1 -> let e' := last A2 NIL in
  In e' (A z) /\ In (nb e') L2 /\ In (nb e') L /\ nb e' <> W /\ (In (nb e') (X :: M1) -> exists L1' L2' A2' A1', at_z (nb e') (twin e') L1' L2' A2' A1' /\ (length L2' < length L2)%nat).
Proof.
  intros I e'. destruct (list_snoc A2) as [Q|(B & y & EB)]; [now apply (z_ne _ _ _ _ _ _ I) in Q|]. assert (Ey : e' = y) by (unfold e'; now rewrite EB, last_snoc). clearbody e'. subst y.
  assert (H1 : In e' (A z)) by (rewrite (z_A _ _ _ _ _ _ I), EB, !in_app_iff; left; right; now left).
  pose proof (z_sub _ _ _ _ _ _ I) as Sb. rewrite EB, map_app in Sb. cbn [map] in Sb.
  assert (H2 : In (nb e') L2) by (apply (sub_in _ _ _ Sb), in_app_iff; right; now left).
  pose proof (z_L _ _ _ _ _ _ I) as EL. assert (HL2 : forall y, In y L2 -> In y L) by (intros y Hy; rewrite EL, in_app_iff; right; now right).
  assert (Hz : In z L) by (rewrite EL, in_app_iff; right; now left). pose proof (HL2 _ H2) as HfL. set (f := nb e') in *.
  assert (Ifz : idx L z < idx L f) by now apply (idxL _ _ _ f EL HfL).
  destruct (sub_split _ _ _ _ Sb) as (M & M' & EM & SM & _).
  assert (Far : forall y, In y L -> In y (n z) -> idx L z < idx L y -> idx L y <= idx L f).
  { intros y Hy Hn Hi. assert (Hy2 : In y L2) by now apply (idxL _ _ _ y EL Hy). pose proof (z_all _ _ _ _ _ _ I y Hy2 Hn) as Q. rewrite EB, map_app, in_app_iff in Q. cbn [map In] in Q.
    assert (EL' : L = (L1 ++ z :: M) ++ f :: M') by (rewrite EL, EM, <- app_assoc; reflexivity).
    destruct Q as [Q|[Q|[]]]; [|fold f in Q; subst; lia]. apply Z.lt_le_incl. apply (idxL _ _ _ y EL' Hy). rewrite in_app_iff. right. right. now apply (sub_in _ _ _ SM). }
  assert (Uf : under f).
  { intros a b Ha Hb I1 I2 Hn. destruct (Z.lt_trichotomy (idx L a) (idx L z)) as [Q|[Q|Q]].
    - apply (z_u _ _ _ _ _ _ I a b); auto; lia.
    - apply idx_inj in Q; auto. subst a. specialize (Far b Hb Hn). lia.
    - apply (Nc z a f b); [right; assumption..| | | | |exact Hn]; rewrite ?idxR by assumption; try lia. apply in_n. exists e'. auto. }
  assert (NW : f <> W). { intros ->. destruct Cv as (x & y & X1 & X2 & X3 & X4 & X5). apply (Uf x y); auto. }
  split; [auto|]. split; [auto|]. split; [auto|]. split; [auto|]. intros Hx.
  set (L1' := L1 ++ z :: M). assert (EL' : L = L1' ++ f :: M') by (unfold L1'; rewrite EL, EM, <- app_assoc; reflexivity).
  assert (HW : In W M').
  { apply (idxL _ _ _ W EL'); [right; apply in_app_iff; right; now left|]. apply (idxL (X :: M1) W M2 f); [reflexivity|auto|exact Hx]. }
  destruct (HZ L1' f M' EL') as (A2' & A1' & E' & N2' & S2' & S1'); [unfold L1'; destruct L1; discriminate|intros Q; rewrite Q in HW; destruct HW|].
  destruct (T _ _ H1) as [T1 T2]. fold f in T2.
  assert (Dj : forall y, In y L1' -> In y M' -> False).
  { intros y Q1 Q2. pose proof NdL as Q. rewrite EL' in Q. apply (NoDup_app_disj _ _ y Q Q1). now right. }
  assert (HA1 : In (twin e') A1').
  { rewrite E', in_app_iff in T2. destruct T2 as [T2|T2]; [exfalso|auto]. apply (Dj z); [unfold L1'; rewrite in_app_iff; right; now left|]. apply (sub_in _ _ _ S2'). rewrite <- T1. now apply in_map. }
  apply in_split in HA1. destruct HA1 as (q1 & q2 & EA1).
  assert (q1 = []).
  { destruct q1 as [|y q1]; [reflexivity|exfalso]. rewrite EA1, map_app in S1'. cbn [map] in S1'. rewrite T1 in S1'. destruct (sub_split _ _ _ _ S1') as (l1 & l2 & El & Sl & _).
    assert (Hy : In (nb y) l1) by (apply (sub_in _ _ _ Sl); now left).
    assert (ELz : L = l1 ++ z :: l2 ++ f :: M') by (rewrite EL', El, <- app_assoc; reflexivity).
    assert (HyL : In (nb y) L) by (rewrite ELz; apply in_app_iff; now left).
    apply (z_u _ _ _ _ _ _ I (nb y) f HyL HfL); [now apply (idxL _ _ _ _ ELz HyL)|auto|]. apply n_sym, in_n. exists y. split; [|auto]. rewrite E', EA1, in_app_iff. right. now left. }
  subst q1. cbn [app] in EA1. exists L1', M', A2', q2. split; [|rewrite EM, app_length; cbn [length]; lia].
  constructor; auto; [now rewrite E', EA1|]. intros y Hy Hn. rewrite E', map_app, in_app_iff in Hn. destruct Hn as [Hn|Hn]; [auto|exfalso]. apply (Dj y); [now apply (sub_in _ _ _ S1')|auto].
Qed.
Lemma start_z : exists L1 L2 A2 A1, at_z X (twin ea) L1 L2 A2 A1 /\ (length L2 < length L)%nat.
Proof.
  destruct HX as (A2 & E & N2 & S2). exists [], (M1 ++ W :: M2), A2, []. split; [|cbn [length]; lia]. constructor; auto; [now left|..].
  - intros y Hy Hn. rewrite E, map_app, in_app_iff in Hn. cbn [map In] in Hn. destruct Hn as [Hn|[Hn|[]]]; [auto|exfalso]. destruct (T R ea) as [T1 _]; [rewrite HR; now left|]. apply RL. rewrite T1 in Hn. subst y. now right.
  - intros a b Ha _ I1 _ _. rewrite idx_hd in I1. pose proof (idx_nn L a). lia.
Qed.

Lemma marked_set F ME e : marked g0 F0 F ME -> let F1 := upd F e (Z.lor (F e) EDGE_VISITED_MASK) in marked g0 F0 (upd F1 (twin e) (Z.lor (F1 (twin e)) EDGE_VISITED_MASK)) (e :: ME).
Proof.
  intros M F1. assert (Q1 : forall x, Z.land (F1 x) EDGE_TYPE_MASK = Z.land (F x) EDGE_TYPE_MASK).
  { intros x. unfold F1, upd. destruct (Z.eqb_spec x e) as [->|]; [now apply land_lor_1|reflexivity]. }
  constructor.
  - intros x. rewrite <- (m_ty _ _ _ _ M x), <- Q1. unfold upd at 1. destruct (Z.eqb_spec x (twin e)) as [->|]; [now apply land_lor_1|reflexivity].
  - intros x Hx. cbn [In]. unfold upd at 1. destruct (Z.eqb_spec x (twin e)) as [->|N1].
    + rewrite twin_invol. split; [auto|]. intros _. apply land1_lor.
    + unfold F1, upd. destruct (Z.eqb_spec x e) as [->|N2]; [split; [auto|]; intros _; apply land1_lor|]. rewrite (m_vis _ _ _ _ M x Hx).
      assert (e <> twin x) by (intros ->; now rewrite twin_invol in N1). split; intros [Q|Q]; auto; destruct Q as [Q|Q]; auto; congruence.
Qed.

(** The flags while the walk stands at [z]. *)
Record flags (Fv Fe : Z -> Z) (z : Z) : Prop := {
  f_vis : forall x, In x (R :: L) -> Z.land (Fv x) VERTEX_VISITED_MASK <> 0 <-> x = z;
  f_ty : forall x, In x (R :: L) -> Z.land (Fv x) VERTEX_OBSTRUCTIONTYPE_MASK = T0 x;
  f_mk : marked g0 F0 Fe [] }.
Lemma lor_other f : Z.land (Z.lor f VERTEX_VISITED_MASK) VERTEX_OBSTRUCTIONTYPE_MASK = Z.land f VERTEX_OBSTRUCTIONTYPE_MASK.
Proof. apply land_lor_1. reflexivity. Qed.
Lemma mk_pop_unmark Fv Fe z e x : In e (A x) -> inV k z = true -> z <> NIL ->
  _PopAndUnmarkVerticesAndEdges (mk Fv Fe (z :: e :: S0)) NIL (Z.of_nat (length S0)) =
  Ret (mk (upd Fv z (Z.ldiff (Fv z) VERTEX_VISITED_MASK)) (let F1 := upd Fe e (Z.ldiff (Fe e) EDGE_VISITED_MASK) in upd F1 (twin e) (Z.ldiff (F1 (twin e)) EDGE_VISITED_MASK)) S0).
Proof.
  intros He Vz Nz. unfold _PopAndUnmarkVerticesAndEdges. change (gstack (mk Fv Fe (z :: e :: S0))) with (z :: e :: S0). cbn [length]. cbn [pop_unmark].
  unfold stk_size. change (gstack (mk Fv Fe (z :: e :: S0))) with (z :: e :: S0). cbn [length]. replace (_ <=? _) with false by lia. rewrite mk_pop. cbn [bind]. rewrite eqb_false_neq by auto.
  rewrite mk_pop. cbn [bind]. rewrite mk_clr by auto. cbn [bind]. rewrite mk_eclr by (now apply (E_in x)). cbn [bind]. rewrite twin_eq. rewrite mk_eclr by (apply (E_in (nb e)); now apply (T x e)). cbn [bind].
  match goal with |- (if ?c then _ else _) = _ => replace c with true end; [reflexivity|]. symmetry. unfold mk. gsimp. apply Z.leb_refl.
Qed.

Lemma xy_ok m : forall Fv Fe z e L1 L2 A2 A1, at_z z e L1 L2 A2 A1 -> flags Fv Fe z -> (length L2 < m)%nat ->
  exists Fv' Fe' S' px py e', xy_loop m (mk Fv Fe (z :: e :: S0)) W (Z.of_nat (length S0)) z e z = Ret (mk Fv' Fe' (S' ++ S0), px, py) /\
    In px (X :: M1) /\ In py M2 /\ In e' (A px) /\ nb e' = py /\ marked g0 F0 Fe' [e'].
Proof.
  induction m as [|m IH]; intros Fv Fe z e L1 L2 A2 A1 I Fl Hm; [lia|]. cbn [xy_loop].
  destruct (step_z _ _ _ _ _ _ I) as (H1 & H2 & H3 & H4 & H5). set (e' := last A2 NIL) in *. destruct (T _ _ H1) as [T1 T2].
  assert (Hz : In z L) by (rewrite (z_L _ _ _ _ _ _ I), in_app_iff; right; now left).
  assert (He : In e (A z)) by (rewrite (z_A _ _ _ _ _ _ I), in_app_iff; right; now left).
  pose proof (V_in _ _ H1) as Vz. pose proof (V_in _ _ T2) as Vf.
  assert (Nzf : nb e' <> z). { intros Q. assert (idx L z < idx L (nb e')) by (apply (idxL _ _ _ _ (z_L _ _ _ _ _ _ I)); auto). rewrite Q in *. lia. }
  rewrite mk_type by auto. cbn [bind]. rewrite (f_ty _ _ _ Fl z) by (now right).
  assert (TZ : is_RYW (T0 z) = false) by (destruct (TX z (z_x _ _ _ _ _ _ I)) as [-> | ->]; reflexivity). rewrite TZ.
  rewrite (mk_prev _ _ _ z A2 e A1 (z_A _ _ _ _ _ _ I) (z_ne _ _ _ _ _ _ I)). cbn [bind]. fold e'. rewrite (mk_nbr _ _ _ z) by auto. cbn [bind]. rewrite twin_eq. rewrite mk_vis by auto. cbn [bind].
  assert (Vis : Z.land (Fv (nb e')) VERTEX_VISITED_MASK = 0). { destruct (Z.eq_dec (Z.land (Fv (nb e')) VERTEX_VISITED_MASK) 0) as [Q|Q]; [auto|exfalso]. apply (f_vis _ _ _ Fl) in Q; [auto|now right]. }
  rewrite Vis. change (negb (0 =? 0)) with false. cbv iota. rewrite eqb_false_neq by auto. rewrite mk_type by auto. cbn [bind]. rewrite (f_ty _ _ _ Fl) by (now right).
  assert (Cs : In (nb e') (X :: M1) \/ In (nb e') M2). { cbn [In] in H3 |- *. rewrite in_app_iff in H3. cbn [In] in H3. destruct H3 as [|[|[|]]]; auto. congruence. }
  destruct Cs as [Cs|Cs].
  - assert (TF : is_RXW (T0 (nb e')) = true /\ is_RYW (T0 (nb e')) = false) by (destruct (TX _ Cs) as [-> | ->]; split; reflexivity). destruct TF as [-> ->].
    rewrite (mk_pop_unmark _ _ _ _ z He Vz) by (pose proof (ch_isvertex _ _ _ _ C H1) as Q; unfold is_vertex, NIL in *; lia). cbn [bind].
    rewrite mk_push by lia. cbn [bind]. rewrite mk_push by (cbn [length]; lia). cbn [bind]. rewrite mk_set by auto. cbn [bind]. rewrite Z.eqb_refl. cbn [negb bind].
    destruct (H5 Cs) as (L1' & L2' & A2' & A1' & I' & Hl). apply (IH _ _ _ _ L1' L2' A2' A1' I'); [|lia]. constructor.
    + intros x Hx. unfold upd at 1. destruct (Z.eqb_spec x (nb e')) as [->|Q]; [split; [auto|intros _; apply land1_lor]|]. unfold upd. destruct (Z.eqb_spec x z) as [->|Q2].
      * split; [|congruence]. intros Q3. exfalso. apply Q3. apply land1_ldiff.
      * rewrite (f_vis _ _ _ Fl x Hx). split; [congruence|contradiction].
    + intros x Hx. rewrite <- (f_ty _ _ _ Fl x Hx). unfold upd at 1. destruct (Z.eqb_spec x (nb e')) as [->|Q].
      * rewrite lor_other. unfold upd. now rewrite eqb_false_neq by auto.
      * unfold upd. destruct (Z.eqb_spec x z) as [->|Q2]; [|reflexivity]. apply ldiff_other. reflexivity.
    + cbv zeta. apply marked_clear, marked_clear. apply Fl.
  - assert (TF : is_RXW (T0 (nb e')) = false /\ is_RYW (T0 (nb e')) = true) by (destruct (TY _ Cs) as [-> | ->]; split; reflexivity). destruct TF as [-> ->]. cbn [bind].
    rewrite mk_push by (cbn [length]; lia). cbn [bind]. rewrite mk_push by (cbn [length]; lia). cbn [bind]. rewrite mk_set by auto. cbn [bind]. rewrite eqb_false_neq by auto. cbn [negb].
    rewrite mk_eset by (now apply (E_in (nb e'))). cbn [bind]. rewrite twin_invol. rewrite mk_eset by (now apply (E_in z)). cbn [bind].
    pose proof (marked_set _ _ (twin e') (f_mk _ _ _ Fl)) as MS. cbv zeta in MS. rewrite twin_invol in MS.
    do 2 eexists. exists [nb e'; twin e'; z; e], z, (nb e'), e'. split; [reflexivity|]. split; [apply (z_x _ _ _ _ _ _ I)|]. split; [auto|]. split; [auto|]. split; [auto|].
    eapply marked_mem; [exact MS|]. intros x. cbn [In]. assert (Q1 : e' = twin x <-> twin e' = x) by (split; [intros ->|intros <-]; now rewrite twin_invol).
    assert (Q2 : twin e' = twin x <-> e' = x) by (split; [intros Q|now intros ->]; now apply twin_inj). rewrite Q1, Q2. tauto.
Qed.
Lemma L_len : (length L < efuel k)%nat.
Proof.
  assert (H : forall z, In z L -> A z <> []).
  { intros z Hz Ez. destruct (in_split _ _ Hz) as (L1 & L2 & E). destruct L1 as [|u L1].
    - injection E as <- _. destruct HX as (A2 & E2 & N2 & _). rewrite Ez in E2. destruct A2; discriminate.
    - destruct L2 as [|w L2]; [|destruct (HZ (u :: L1) z (w :: L2) E) as (A2 & A1 & E2 & N2 & _); [discriminate..|]; rewrite Ez in E2; destruct A2; [congruence|discriminate]].
      assert (Hy : In z (map nb [eb])).
      { destruct Hend as [Hl _]. cbn [map]. left. rewrite Hl. rewrite E. change ((u :: L1) ++ [z]) with ((u :: L1) ++ [z]). now rewrite last_snoc. }
      cbn [map In] in Hy. destruct Hy as [Hy|[]]. destruct (T R eb) as [_ T2]; [rewrite HR; cbn; auto|]. rewrite Hy, Ez in T2. destruct T2. }
  assert (K : forall l, NoDup l -> (forall z, In z l -> A z <> []) -> NoDup (map (fun z => hd NIL (A z)) l)).
  { induction l as [|z l IH]; intros N H'; cbn [map]; constructor; apply NoDup_cons_iff in N; destruct N as [N1 N2].
    - rewrite in_map_iff. intros (y & E & Hy). apply N1. assert (Hy1 : In (hd NIL (A y)) (A y)) by (apply hd_in; apply H'; now right). assert (Hz1 : In (hd NIL (A z)) (A z)) by (apply hd_in; apply H'; now left).
      rewrite E in Hy1. now rewrite (ch_disj _ _ C z y _ Hz1 Hy1).
    - apply IH; auto. intros; apply H'; now right. }
  specialize (K L NdL H). unfold efuel. apply Nat.lt_succ_r. rewrite <- (map_length (fun z => hd NIL (A z)) L). rewrite <- (zrange_length 0 (Z.to_nat (gp_EdgeIndexBound k))). apply NoDup_incl_length; [exact K|].
  intros e He. apply in_map_iff in He. destruct He as (z & <- & Hz). apply in_zrange. assert (Hz1 : In (hd NIL (A z)) (A z)) by (apply hd_in; auto). pose proof (ch_range _ _ C _ _ Hz1). lia.
Qed.
Lemma xy_start Fv Fe : (forall x, In x (R :: L) -> Z.land (Fv x) VERTEX_VISITED_MASK = 0) -> (forall x, In x (R :: L) -> Z.land (Fv x) VERTEX_OBSTRUCTIONTYPE_MASK = T0 x) -> marked g0 F0 Fe [] ->
  exists Fv' Fe' S' px py e', xy_loop (efuel k) (mk Fv Fe S0) W (Z.of_nat (length S0)) R eb NIL = Ret (mk Fv' Fe' (S' ++ S0), px, py) /\
    In px (X :: M1) /\ In py M2 /\ In e' (A px) /\ nb e' = py /\ marked g0 F0 Fe' [e'].
Proof.
  intros V0 Ty M. pose proof L_len as Ln. destruct (efuel k) as [|m] eqn:Em; [lia|]. cbn [xy_loop].
  assert (Hea : In ea (A R)) by (rewrite HR; now left). pose proof (V_in _ _ Hea) as VR. destruct (T _ _ Hea) as [T1 T2]. rewrite Ea in T2. pose proof (V_in _ _ T2) as VX.
  assert (NW : X <> W). { pose proof NdL as Q. apply NoDup_cons_iff in Q. intros ->. apply (proj1 Q), in_app_iff. right. now left. }
  rewrite mk_type by auto. cbn [bind]. rewrite Ty by (now left). rewrite TR. change (is_RYW 0) with false. cbv iota.
  rewrite (mk_prev _ _ _ R [ea] eb []) by (auto; discriminate). cbn [bind last]. rewrite (mk_nbr _ _ _ R) by auto. cbn [bind]. rewrite Ea. rewrite mk_vis by auto. cbn [bind]. rewrite V0 by (right; now left).
  change (negb (0 =? 0)) with false. cbv iota. rewrite eqb_false_neq by auto. rewrite mk_type by auto. cbn [bind]. rewrite Ty by (right; now left).
  assert (TF : is_RXW (T0 X) = true /\ is_RYW (T0 X) = false) by (destruct (TX X (or_introl eq_refl)) as [-> | ->]; split; reflexivity). destruct TF as [-> ->].
  assert (PU : _PopAndUnmarkVerticesAndEdges (mk Fv Fe S0) NIL (Z.of_nat (length S0)) = Ret (mk Fv Fe S0)).
  { unfold _PopAndUnmarkVerticesAndEdges. cbn [pop_unmark]. unfold stk_size. change (gstack (mk Fv Fe S0)) with S0. now rewrite Z.leb_refl. }
  rewrite PU. cbn [bind]. rewrite mk_push by lia. cbn [bind]. rewrite mk_push by (cbn [length]; lia). cbn [bind]. rewrite mk_set by auto. cbn [bind]. rewrite Z.eqb_refl. cbn [negb bind]. rewrite twin_eq.
  destruct start_z as (L1 & L2 & A2 & A1 & I & Hl). apply (xy_ok m _ _ _ _ L1 L2 A2 A1 I); [|lia]. constructor; [..|auto].
  - intros x Hx. unfold upd. destruct (Z.eqb_spec x X) as [->|Q]; [split; [auto|intros _; apply land1_lor]|]. rewrite (V0 x Hx). split; [congruence|contradiction].
  - intros x Hx. rewrite <- (Ty x Hx). unfold upd. destruct (Z.eqb_spec x X) as [->|Q]; [apply lor_other|reflexivity].
Qed.
End Walk.
