(** * IsoP4: deleting the unmarked edges. *)
From Coq Require Import ZifyBool Permutation Sorted.
From Verif Require Import Base BaseP GraphRec GraphM GraphSpec GSimp LinkP GraphP GraphP2 GraphP3 ListM ListSpec ListP DFSM DFSSpec DFSP TestM TestSpec TestP TestP2 TestP3 EmbM EmbSpec EmbP EmbP2 EmbP3 FaceP GeoP GeoP2 EmbInv EmbStep EmbTree EmbWalk EmbJoin EmbDown EmbStor IsoM IsoP1 IsoP2 IsoP3.

Section Del.
Variables (k : graph) (A0 : Z -> list Z).
Hypothesis R0 : rep k A0.
Hypothesis NL : forall x e, In e (A0 x) -> ~ In (twin e) (A0 x).
Local Notation mk e := (Z.land (eflags k e) EDGE_VISITED_MASK <> 0).
Hypothesis Sym : forall x e, In e (A0 x) -> mk e <-> mk (twin e).

(** From [k] the edges in [D] have been deleted. *)
Record del (h : graph) (A : Z -> list Z) (D : Z -> Prop) : Prop := {
  dl_rep : rep h A;
  dl_in : forall x e, In e (A x) <-> In e (A0 x) /\ ~ D e;
  dl_rec : forall x e, In e (A x) -> enbr h e = enbr k e /\ eflags h e = eflags k e;
  dl_N : gN h = gN k; dl_cap : gCap h = gCap k; dl_VI : gVI h = gVI k; dl_vindex : vindex h = vindex k; dl_stack : gstack h = gstack k;
  dl_stackCap : gstackCap h = gstackCap k; dl_iflags : giflags h = giflags k; dl_embed : gembed h = gembed k }.
Lemma del_0 : del k A0 (fun _ => False).
Proof. constructor; auto. intros x e. tauto. Qed.
Lemma del_ext h A D D' : del h A D -> (forall x e, In e (A0 x) -> D e <-> D' e) -> del h A D'.
Proof. intros [] H. constructor; auto. intros x e. rewrite dl_in0. split; intros [Q1 Q2]; (split; [auto|]); rewrite (H x e Q1) in *; auto. Qed.

Lemma del_list_ok v : is_vertex k v -> forall n h A D l0 l, del h A D -> A v = l0 ++ l -> (length l < n)%nat ->
  exists h' A', delete_unmarked_loop n h (hd NIL l) = Ret h' /\ del h' A' (fun e => D e \/ ~ mk e /\ (In e l \/ In (twin e) l)).
Proof.
  intros Vv. induction n as [|n IH]; intros h A D l0 l I El Hn; [lia|]. destruct l as [|e l]; cbn [hd delete_unmarked_loop].
  - rewrite Z.eqb_refl. exists h, A. split; [reflexivity|]. eapply del_ext; [exact I|]. intros x e _. cbn [In]. tauto.
  - pose proof (dl_rep _ _ _ I) as R. pose proof (rep_chains _ _ R) as C. assert (He : In e (A v)) by (rewrite El; apply in_app_iff; right; now left).
    pose proof (ch_range _ _ C _ _ He) as Re. rewrite eqb_false_neq by (unfold NIL; lia). unfold gp_GetEdgeVisited. rewrite rd_eflags_ok by (apply inE_true; lia). cbn [bind]. rewrite (proj2 (dl_rec _ _ _ I _ _ He)).
    pose proof (proj1 (dl_in _ _ _ I _ _) He) as [He0 _].
    assert (Vh : is_vertex h v) by (unfold is_vertex in *; rewrite (dl_N _ _ _ I); auto).
    destruct (Z.eqb_spec (Z.land (eflags k e) EDGE_VISITED_MASK) 0) as [Q|Q]; cbn [negb].
    + assert (Hu : in_use h e) by (apply (rep_in_use _ _ _ R); eauto).
      pose proof (delete_edge_ok h A e 0 R Hu (or_introl eq_refl)) as W. destruct (gp_DeleteEdge h e 0) as [[h1 e1]| |]; cbn [wp] in W; try contradiction. cbn [fst snd] in W. cbn [bind].
      destruct W as (R1 & F1 & N1 & _). destruct (rep_twins _ _ R _ _ He) as [T1 T2]. rewrite T1 in N1.
      assert (E1 : e1 = hd NIL l).
      { destruct N1 as (m1 & m2 & Em & ->). change (0 =? 0) with true. cbv iota. pose proof (ch_nodup _ _ C v) as Nd. rewrite Em in Nd. rewrite El in Em. symmetry in Em. destruct (NoDup_split_unique _ _ _ _ _ Nd Em) as [_ ->]. reflexivity. }
      rewrite E1. set (D1 := fun x => D x \/ x = e \/ x = twin e).
      assert (I1 : del h1 (adj_remove A e) D1).
      { constructor; rewrite ?(df_N _ _ _ F1), ?(df_cap _ _ _ F1), ?(df_VI _ _ _ F1), ?(df_vindex _ _ _ F1), ?(df_stack _ _ _ F1), ?(df_stackCap _ _ _ F1), ?(df_iflags _ _ _ F1), ?(df_embed _ _ _ F1); try apply I; auto.
        - intros x y. rewrite in_adj_remove, (dl_in _ _ _ I). unfold D1. tauto.
        - intros x y Hy. apply in_adj_remove in Hy. destruct Hy as (Hy & Y1 & Y2). rewrite (df_enbr _ _ _ F1), (df_eflags _ _ _ F1). rewrite (eqb_false_neq _ _ Y1), (eqb_false_neq _ _ Y2). cbn [orb]. apply (dl_rec _ _ _ I _ _ Hy). }
      assert (Nd : NoDup (A v)) by (apply (ch_nodup _ _ C)). rewrite El in Nd. apply NoDup_mid in Nd. destruct Nd as [_ Ne].
      assert (NT : ~ In (twin e) (A v)) by (intros K; apply (dl_in _ _ _ I) in K; destruct K as [K _]; exact (NL _ _ He0 K)).
      assert (El1 : adj_remove A e v = l0 ++ l).
      { rewrite adj_remove_rem, El. unfold rem. rewrite !filter_app. cbn [filter]. rewrite Z.eqb_refl. cbn [negb].
        assert (FF : forall m, (forall y, In y m -> y <> e /\ y <> twin e) -> filter (fun x => negb (x =? twin e)) (filter (fun x => negb (x =? e)) m) = m).
        { induction m as [|y m IHm]; intros K; [reflexivity|]. cbn [filter]. destruct (K y) as [K1 K2]; [now left|]. rewrite (eqb_false_neq _ _ K1). cbn [negb filter]. rewrite (eqb_false_neq _ _ K2). cbn [negb]. f_equal. apply IHm. intros; apply K; now right. }
        rewrite !FF; auto; intros y Hy; (split; intros ->; [apply Ne|apply NT; rewrite El]); apply in_app_iff; auto. right. now right. }
      destruct (IH h1 (adj_remove A e) D1 l0 l I1 El1 ltac:(cbn [length] in Hn; lia)) as (h' & A' & W & I'). exists h', A'. split; [exact W|]. eapply del_ext; [exact I'|].
      intros x y Hy. unfold D1. cbn [In]. assert (Sy : y = e \/ y = twin e -> ~ mk y).
      { intros [-> | ->]; [congruence|]. rewrite <- (Sym _ _ He0). congruence. }
      assert (TY : e = twin y <-> y = twin e) by (split; intros ->; now rewrite twin_invol). assert (TE : e = y <-> y = e) by (split; auto). tauto.
    + assert (Wn : gp_GetNextArc h e = Ret (hd NIL l)).
      { rewrite get_next by (apply inE_true; lia). f_equal. pose proof (ch_linked _ _ C v Vh) as L. rewrite El in L. apply linked_mid in L. tauto. }
      rewrite Wn. cbn [bind].
      destruct (IH h A D (l0 ++ [e]) l I ltac:(now rewrite <- app_assoc) ltac:(cbn [length] in Hn; lia)) as (h' & A' & W & I'). exists h', A'. split; [exact W|]. eapply del_ext; [exact I'|].
      intros x y Hy. cbn [In]. assert (TY : e = twin y -> mk y) by (intros ->; apply (Sym _ _ Hy); auto). assert (TE : e = y -> mk y) by (intros ->; auto). tauto.
Qed.
Lemma del_all_ok : forall n x h A D, 0 <= x -> x + Z.of_nat n = gN k -> del h A D -> (forall y e, In e (A0 y) -> D e <-> ~ mk e /\ (exists z, 1 <= z <= x /\ (In e (A0 z) \/ In (twin e) (A0 z)))) ->
  exists h' A', for_up n (x + 1) (fun v g => e <- gp_GetFirstArc g v ;; delete_unmarked_loop (efuel g) g e) h = Ret h' /\
    del h' A' (fun e => ~ mk e /\ (exists z, 1 <= z <= gN k /\ (In e (A0 z) \/ In (twin e) (A0 z)))).
Proof.
  induction n as [|n IH]; intros x h A D Hx Hn I E.
  - exists h, A. split; [reflexivity|]. replace (gN k) with x by lia. eapply del_ext; [exact I|]. exact E.
  - cbn [for_up]. assert (Vk : is_vertex k (x + 1)) by (unfold is_vertex; lia). assert (Vh : is_vertex h (x + 1)) by (unfold is_vertex in *; rewrite (dl_N _ _ _ I); auto).
    pose proof (rep_chains _ _ (dl_rep _ _ _ I)) as C. rewrite get_first by (unfold is_vertex in Vh; apply inV_true; auto; unfold is_vertex; lia). cbn [bind]. rewrite (ch_first _ _ C _ Vh).
    destruct (del_list_ok (x + 1) Vk (efuel h) h A D [] (A (x + 1)) I eq_refl (adj_len_chains _ _ _ C)) as (h1 & A1 & W1 & I1). rewrite W1. cbn [bind].
    apply (IH (x + 1) h1 A1 _ ltac:(lia) ltac:(lia) I1). intros y e He. rewrite (E y e He). rewrite !(dl_in _ _ _ I). split.
    + intros [[Q1 (z & Hz & Q2)]|[Q1 [[Q2 _]|[Q2 _]]]]; (split; [auto|]); [exists z; split; [lia|auto]|exists (x + 1); split; [lia|auto]|exists (x + 1); split; [lia|auto]].
    + intros [Q1 (z & Hz & Q2)]. destruct (Z.eq_dec z (x + 1)) as [->|Nz]; [|left; split; [auto|]; exists z; split; [lia|auto]].
      destruct (Z.le_gt_cases 1 y) as [Hy|Hy]; [|exfalso; apply (ch_isvertex _ _ _ _ (rep_chains _ _ R0)) in He; unfold is_vertex in He; lia].
      assert (De : (exists z, 1 <= z <= x /\ (In e (A0 z) \/ In (twin e) (A0 z))) \/ ~ (exists z, 1 <= z <= x /\ (In e (A0 z) \/ In (twin e) (A0 z)))).
      { destruct (rep_twins _ _ R0 _ _ He) as [T1 T2]. destruct (Z.le_gt_cases y x) as [L1|L1]; [left; exists y; auto|]. destruct (Z.le_gt_cases (enbr k e) x) as [L2|L2].
        - left. exists (enbr k e). split; [|auto]. apply (ch_isvertex _ _ _ _ (rep_chains _ _ R0)) in T2. unfold is_vertex in T2. lia.
        - right. intros (z & Hz' & [K|K]); [pose proof (ch_disj _ _ (rep_chains _ _ R0) _ _ _ He K); lia|pose proof (ch_disj _ _ (rep_chains _ _ R0) _ _ _ T2 K); lia]. }
      destruct De as [De|De]; [left; auto|]. right. split; [auto|]. destruct Q2 as [Q2|Q2]; [left|right]; (split; [auto|]).
      * rewrite (E y e He). tauto.
      * rewrite (E _ _ Q2). rewrite twin_invol. intros [_ (z & Hz' & K)]. apply De. exists z. tauto.
Qed.
(** Exactly the marked edges are left. *)
Lemma del_unmarked : (forall x, gN k < x -> A0 x = []) -> 1 <= gN k ->
  exists h A, for_up (Z.to_nat (gN k)) 1 (fun v g => e <- gp_GetFirstArc g v ;; delete_unmarked_loop (efuel g) g e) k = Ret h /\ del h A (fun e => ~ mk e).
Proof.
  intros Hv HN. destruct (del_all_ok (Z.to_nat (gN k)) 0 k A0 (fun _ => False) ltac:(lia) ltac:(lia) del_0) as (h & A & W & I).
  - intros y e He. split; [tauto|]. intros [_ (z & Hz & _)]. lia.
  - exists h, A. split; [exact W|]. eapply del_ext; [exact I|]. intros x e He. cbv beta. split; [tauto|]. intros Q. split; [auto|]. exists x. split; [|auto].
    pose proof (ch_isvertex _ _ _ _ (rep_chains _ _ R0) He) as V. unfold is_vertex in V. destruct (Z.le_gt_cases x (gN k)); [lia|]. rewrite Hv in He by lia. destruct He.
Qed.
End Del.

Section Finish.
Variables (g0 : graph) (kids : Z -> list Z).
Hypothesis St : static g0 kids.
Local Notation N := (gN g0).
Local Notation p := (viParent (gVI g0)).
Local Notation prim := (prim (gN g0)).
Local Notation pof := (pof g0).
Local Notation stor := (stor g0).
Local Notation rpv := (rpv g0).
Local Notation fwok := (fwok g0).
Local Notation marked := (marked g0).
Variable a : est.
Local Notation s := (eV a).
Hypothesis G : geob N p s.
Hypothesis FW : fwok a.
Hypothesis S0 : stor a.
Definition noloop (a : est) : Prop := forall e, arc a e -> pof (nb (eV a) e) <> pof (nb (eV a) (twin e)).
Hypothesis NL : noloop a.

(** What is left: the edges of [ME], with their ends in the input graph. *)
Record leaves (b : est) (ME : list Z) (h : graph) (A : Z -> list Z) : Prop := {
  lv_rep : rep h A;
  lv_in : forall x e, In e (A x) <-> arc b e /\ x = pof (nb (eV b) (twin e)) /\ (In e ME \/ In (twin e) ME);
  lv_nbr : forall x e, In e (A x) -> enbr h e = pof (nb (eV b) e);
  lv_virt : forall x, N < x -> A x = [];
  lv_N : gN h = N; lv_cap : gCap h = gCap g0; lv_parent : viParent (gVI h) = p;
  lv_vindex : forall x, 1 <= x <= N -> vindex h x = vindex g0 x;
  lv_stackCap : gstackCap h = gstackCap g0; lv_iflags : giflags h = giflags g0; lv_embed : gembed h = gembed g0 }.

(** Embedding what is left and deleting what is not marked. *)
Lemma finish_tail stk g2 j2 F0 F2 ME : rpv g2 (setfl j2 F2) stk -> flat g0 a j2 -> marked F0 F2 ME -> exists h A, _DeleteUnmarkedVerticesAndEdges g2 = Ret h /\ leaves a ME h A.
Proof.
  intros H2 Fl2 M2. pose proof (so_N _ _ S0) as HN.
  unfold _DeleteUnmarkedVerticesAndEdges. pose proof (rpv_N g0 _ _ _ H2) as KN.
  destruct (add_all_ok g0 kids St a FW stk F2 (Z.to_nat (gN g2)) 0 g2 j2 ltac:(lia) ltac:(rewrite KN; lia) H2 Fl2) as (g3 & j3 & W3 & H3 & Fl3 & E4).
  { intros x Px Hx. unfold GeoP.prim in Px. lia. }
  pose proof (flat_rep g0 a g3 j3 F2 stk H3 Fl3 E4 S0) as R3. pose proof (rpv_N g0 _ _ _ H3) as KN3.
  assert (Arc : forall e, arc a e <-> exists x, In e (adj (eV j3) x)).
  { intros e. split; [|intros (x & Hx); apply (fl_adj _ _ _ Fl3 _ _ Hx)]. intros He. destruct (fl_all _ _ _ Fl3 e He) as [K|(u & K)]; [auto|]. rewrite E4 in K. destruct K as [[]|[]]. }
  assert (EF : forall e, eflags g3 e = F2 e) by (intros e; rewrite (r_fl _ _ _ _ H3); reflexivity).
  assert (MV : forall e, arc a e -> Z.land (eflags g3 e) EDGE_VISITED_MASK <> 0 <-> In e ME \/ In (twin e) ME).
  { intros e He. rewrite EF. apply (m_vis _ _ _ _ M2). now apply (so_used _ _ S0). }
  destruct (del_unmarked g3 (adj (eV j3)) R3) as (h & A & W4 & I4).
  - intros x e He K. destruct (fl_adj _ _ _ Fl3 _ _ He) as (Q3 & _ & Q4 & _ & _). destruct (fl_adj _ _ _ Fl3 _ _ K) as (_ & _ & Q5 & _ & _). rewrite twin_invol in Q5. apply (NL e Q3). congruence.
  - intros x e He. rewrite !MV; [rewrite twin_invol; tauto|..].
    + apply Arc. destruct (fl_adj _ _ _ Fl3 _ _ He) as (_ & _ & _ & _ & K). eauto.
    + apply Arc. eauto.
  - intros x Hx. destruct (adj (eV j3) x) as [|e l] eqn:E; [auto|]. exfalso. destruct (fl_adj _ _ _ Fl3 x e) as (_ & K & _); [rewrite E; now left|]. unfold GeoP.prim in K. lia.
  - lia.
  - exists h, A. change (for_up (Z.to_nat (gN g2)) 1) with (for_up (A := graph) (Z.to_nat (gN g2)) (0 + 1)). rewrite W3. cbn [bind]. split; [exact W4|].
    pose proof (r_keeps _ _ _ _ H3) as K3. constructor; rewrite ?(dl_N _ _ _ _ _ I4), ?(dl_cap _ _ _ _ _ I4), ?(dl_VI _ _ _ _ _ I4), ?(dl_vindex _ _ _ _ _ I4), ?(dl_stackCap _ _ _ _ _ I4), ?(dl_iflags _ _ _ _ _ I4), ?(dl_embed _ _ _ _ _ I4).
    + apply I4.
    + intros x e. rewrite (dl_in _ _ _ _ _ I4). split.
      * intros [K1 K2]. destruct (fl_adj _ _ _ Fl3 _ _ K1) as (K3' & _ & K4 & _). split; [auto|]. split; [auto|]. rewrite <- (MV e K3'). auto.
      * intros (K1 & -> & K2). destruct (proj1 (Arc e) K1) as (x & Hx). destruct (fl_adj _ _ _ Fl3 _ _ Hx) as (_ & _ & <- & _). split; [auto|]. rewrite (MV e K1). tauto.
    + intros x e He. rewrite (proj1 (dl_rec _ _ _ _ _ I4 _ _ He)). apply (dl_in _ _ _ _ _ I4) in He. destruct He as [He _]. rewrite (r_nb _ _ _ _ H3). apply (fl_adj _ _ _ Fl3 _ _ He).
    + intros x Hx. destruct (A x) as [|e l] eqn:E; [auto|]. exfalso. assert (K : In e (A x)) by (rewrite E; now left). apply (dl_in _ _ _ _ _ I4) in K. destruct K as [K _]. destruct (fl_adj _ _ _ Fl3 _ _ K) as (_ & Q & _). unfold GeoP.prim in Q. lia.
    + apply (k_N _ _ K3).
    + apply (k_cap _ _ K3).
    + apply (k_parent _ _ K3).
    + intros x Hx. apply (k_index _ _ K3 x Hx).
    + apply (k_stackCap _ _ K3).
    + apply (k_iflags _ _ K3).
    + apply (k_embed _ _ K3).
Qed.
Lemma finish_ok b stk g v d F0 F ME : rpv g (setfl b F) stk -> marked F0 F ME ->
  (forall x e, In e (adj (eV b) x) <-> In e (adj s x)) -> (forall e, nb (eV b) e = nb s e) -> (forall u f, In f (fw b u) <-> In f (fw a u)) ->
  (exists f, In f (fw a v) /\ nb s f = d) ->
  exists g' h A f, ('(g1, ret) <- _JoinBicomps g ;; if negb (ret =? C_OK) then Ret (g1, C_NOTOK) else g2 <- _AddAndMarkEdge g1 v d ;; Ret (g2, C_OK)) = Ret (g', C_OK) /\
    _DeleteUnmarkedVerticesAndEdges g' = Ret h /\ leaves a (f :: ME) h A /\ In f (fw a v) /\ nb s f = d.
Proof.
  intros H M E1 E2 E3 Hd. pose proof (so_N _ _ S0) as HN.
  destruct (join_all g0 kids St a G FW (setfl b F) stk g H) as (g1 & j & W1 & H1 & Fl1 & Q1 & Q2); cbn [setfl set_V v_fl eV adj nb fw]; auto; [lia|].
  rewrite W1. cbn [bind C_OK Z.eqb Pos.eqb negb]. cbn [setfl set_V v_fl eV fl fw] in Q1, Q2.
  assert (H1' : rpv g1 (setfl j F) stk).
  { unfold IsoP1.rpv in *. eapply (rp_ext _ _ _ _ (v_fl (eV j) F) (fw j) (prl j) (pe j) (fpc j) (vis j) H1); auto. cbn [v_fl fl]. intros x. now rewrite Q1. }
  assert (Fj : exists f, In f (fw j v) /\ nb s f = d) by (destruct Hd as (f & Hf & Ef); exists f; rewrite Q2, E3; auto).
  destruct (add_mark_ok g0 kids St a FW j stk g1 v d F0 F ME H1' Fl1 M Fj) as (g2 & j2 & F2 & f & W2 & H2 & Fl2 & M2 & Hf & Ef). rewrite W2. cbn [bind].
  destruct (finish_tail stk g2 j2 F0 F2 (f :: ME) H2 Fl2 M2) as (h & A & W3 & Lv). exists g2, h, A, f. auto.
Qed.
(** The same for several edges. *)
Fixpoint add_list (g : graph) (Es : list (Z * Z)) : res graph := match Es with [] => Ret g | (u, d) :: Es => g <- _AddAndMarkEdge g u d ;; add_list g Es end.
Lemma add_list_ok stk F0 : forall Es g j F ME, rpv g (setfl j F) stk -> flat g0 a j -> marked F0 F ME -> NoDup Es -> (forall u d, In (u, d) Es -> exists f, In f (fw j u) /\ nb s f = d) ->
  exists g' j' F' fs, add_list g Es = Ret g' /\ rpv g' (setfl j' F') stk /\ flat g0 a j' /\ marked F0 F' (fs ++ ME) /\ Forall2 (fun e f => In f (fw a (fst e)) /\ nb s f = snd e) Es fs.
Proof.
  induction Es as [|[u d] Es IH]; intros g j F ME H Fl M Nd He; cbn [add_list].
  - exists g, j, F, []. auto.
  - apply NoDup_cons_iff in Nd. destruct Nd as [Nd1 Nd2]. destruct (add_mark_ok2 g0 kids St a FW j stk g u d F0 F ME H Fl M (He u d (or_introl eq_refl))) as (g1 & j1 & F1 & f & E1 & H1 & Fl1 & M1 & Hf & Ef & Kp). rewrite E1. cbn [bind].
    destruct (IH g1 j1 F1 (f :: ME) H1 Fl1 M1 Nd2) as (g' & j' & F' & fs & E & H' & Fl' & M' & Fa).
    { intros u' d' Hi. destruct (He u' d' (or_intror Hi)) as (f' & Q1 & Q2). exists f'. split; [|auto]. apply Kp; [auto|]. intros [-> Q]. apply Nd1. rewrite Q, Q2 in *. exact Hi. }
    exists g', j', F', (f :: fs). split; [exact E|]. split; [auto|]. split; [auto|]. split; [|constructor; auto]. eapply marked_mem; [exact M'|]. intros e. cbn [app In]. rewrite !in_app_iff. cbn [In]. tauto.
Qed.
Lemma finish_list_ok b stk g Es F0 F ME : rpv g (setfl b F) stk -> marked F0 F ME ->
  (forall x e, In e (adj (eV b) x) <-> In e (adj s x)) -> (forall e, nb (eV b) e = nb s e) -> (forall u f, In f (fw b u) <-> In f (fw a u)) ->
  NoDup Es -> (forall u d, In (u, d) Es -> exists f, In f (fw a u) /\ nb s f = d) ->
  exists g1 g2 h A fs, _JoinBicomps g = Ret (g1, C_OK) /\ add_list g1 Es = Ret g2 /\ _DeleteUnmarkedVerticesAndEdges g2 = Ret h /\ leaves a (fs ++ ME) h A /\ Forall2 (fun e f => In f (fw a (fst e)) /\ nb s f = snd e) Es fs.
Proof.
  intros H M E1 E2 E3 Nd Hd. pose proof (so_N _ _ S0) as HN.
  destruct (join_all g0 kids St a G FW (setfl b F) stk g H) as (g1 & j & W1 & H1 & Fl1 & Q1 & Q2); cbn [setfl set_V v_fl eV adj nb fw]; auto; [lia|].
  cbn [setfl set_V v_fl eV fl fw] in Q1, Q2.
  assert (H1' : rpv g1 (setfl j F) stk).
  { unfold IsoP1.rpv in *. eapply (rp_ext _ _ _ _ (v_fl (eV j) F) (fw j) (prl j) (pe j) (fpc j) (vis j) H1); auto. cbn [v_fl fl]. intros x. now rewrite Q1. }
  destruct (add_list_ok stk F0 Es g1 j F ME H1' Fl1 M Nd) as (g2 & j2 & F2 & fs & W2 & H2 & Fl2 & M2 & Fa).
  { intros u d Hi. destruct (Hd u d Hi) as (f & Hf & Ef). exists f. rewrite Q2, E3. auto. }
  destruct (finish_tail stk g2 j2 F0 F2 _ H2 Fl2 M2) as (h & A & W3 & Lv). exists g1, g2, h, A, fs. auto 10.
Qed.
End Finish.
