(** * IsoP1: the marks of the isolator, and the steps that move edges but not their ends. *)
From Coq Require Import ZifyBool Permutation Sorted.
From Verif Require Import Base BaseP GraphRec GraphM GraphSpec GSimp LinkP GraphP GraphP2 GraphP3 ListM ListSpec ListP DFSM DFSSpec DFSP TestM TestSpec TestP TestP2 TestP3 EmbM EmbSpec EmbP EmbP2 EmbP3 FaceP GeoP GeoP2 EmbInv EmbStep EmbTree EmbWalk EmbJoin EmbDown EmbStor IsoM.

(** ** Bits of the flags *)
Lemma land_lor_1 f m : Z.land m 1 = 0 -> Z.land (Z.lor f EDGE_VISITED_MASK) m = Z.land f m.
Proof.
  intros H. rewrite Z.land_lor_distr_l. unfold EDGE_VISITED_MASK. rewrite (Z.land_comm 1 m), H. apply Z.lor_0_r.
Qed.
Lemma land_ldiff_1 f m : Z.land m 1 = 0 -> Z.land (Z.ldiff f EDGE_VISITED_MASK) m = Z.land f m.
Proof.
  intros H. apply Z.bits_inj'. intros n Hn. rewrite !Z.land_spec, Z.ldiff_spec. unfold EDGE_VISITED_MASK.
  destruct (Z.testbit 1 n) eqn:E; [|now rewrite andb_true_r]. assert (Q : Z.testbit (Z.land m 1) n = false) by (rewrite H; apply Z.bits_0).
  rewrite Z.land_spec, E, andb_true_r in Q. rewrite Q. now rewrite !andb_false_r.
Qed.
Lemma land1_lor f : Z.land (Z.lor f EDGE_VISITED_MASK) EDGE_VISITED_MASK <> 0.
Proof. unfold EDGE_VISITED_MASK. rewrite Z.land_lor_distr_l. intros H. apply Z.lor_eq_0_iff in H. destruct H as [_ H]. discriminate. Qed.
Lemma land1_ldiff f : Z.land (Z.ldiff f EDGE_VISITED_MASK) EDGE_VISITED_MASK = 0.
Proof.
  unfold EDGE_VISITED_MASK. apply Z.bits_inj'. intros n Hn. rewrite Z.land_spec, Z.ldiff_spec, Z.bits_0. destruct (Z.testbit 1 n); [cbn; now rewrite andb_false_r|now rewrite andb_false_r].
Qed.

Section Iso.
Variables (g0 : graph) (kids : Z -> list Z).
Hypothesis St : static g0 kids.
Local Notation N := (gN g0).
Local Notation p := (viParent (gVI g0)).
Local Notation prim := (prim (gN g0)).
Local Notation isroot := (isroot (gN g0)).
Local Notation geo := (geo (gN g0) (viParent (gVI g0))).
Local Notation anc := (ancestor (viParent (gVI g0))).
Local Notation act := (act g0).
Local Notation pof := (pof g0).
Local Notation sedge := (sedge g0).
Local Notation stor := (stor g0).

(** The state, whatever the flags of the vertices are. *)
Definition rpv (g : graph) (a : est) (stk : list Z) : Prop := rp (set_vflags g0 (vflags g)) g a stk.
Lemma rpv_any F g a stk : rp (set_vflags g0 F) g a stk -> rpv g a stk.
Proof.
  intros H. unfold rpv. pose proof (r_keeps _ _ _ _ H) as K. destruct H. constructor; auto. destruct K. constructor; auto.
  intros x Hx. destruct (k_index x Hx). auto.
Qed.
Lemma rpv_of g a stk : rp g0 g a stk -> rpv g a stk.
Proof.
  intros H. unfold rpv. pose proof (r_keeps _ _ _ _ H) as K. destruct H. constructor; auto. destruct K. constructor; auto.
  intros x Hx. destruct (k_index x Hx). auto.
Qed.
Lemma rpv_vflags g a stk F : rpv g a stk -> rpv (set_vflags g F) a stk.
Proof. intros H. unfold rpv in *. pose proof (r_keeps _ _ _ _ H) as K. destruct H. constructor; gsimp; auto; try (eapply chains_same; eauto; reflexivity). destruct K. constructor; gsimp; auto. intros x Hx. destruct (k_index x Hx). auto. Qed.
Lemma rpv_N g a stk : rpv g a stk -> gN g = N.
Proof. intros H. apply (k_N _ _ (r_keeps _ _ _ _ H)). Qed.
Lemma rpv_stackcap g a stk : rpv g a stk -> gstackCap g = gstackCap g0.
Proof. intros H. apply (k_stackCap _ _ (r_keeps _ _ _ _ H)). Qed.
Lemma rpv_cap g a stk : rpv g a stk -> gp_EdgeIndexBound g = gp_EdgeIndexBound g0.
Proof. intros H. unfold gp_EdgeIndexBound. now rewrite (k_cap _ _ (r_keeps _ _ _ _ H)). Qed.
Lemma rpv_parent g a stk : rpv g a stk -> viParent (gVI g) = p.
Proof. intros H. apply (k_parent _ _ (r_keeps _ _ _ _ H)). Qed.
Lemma rpv_inuse g a stk : rpv g a stk -> gp_EdgeInUseIndexBound g = gp_EdgeInUseIndexBound g0.
Proof. intros H. unfold gp_EdgeInUseIndexBound. now rewrite (k_M _ _ (r_keeps _ _ _ _ H)), (k_holes _ _ (r_keeps _ _ _ _ H)). Qed.

Lemma rpv_wr_vflags g a stk x F : rpv g a stk -> 1 <= x <= 2 * N -> exists g', wr_vflags g x F = Ret g' /\ rpv g' a stk /\ vflags g' = upd (vflags g) x F.
Proof.
  intros H Hx. unfold wr_vflags. rewrite guard_true by (eapply inV_ok; [exact H|exact Hx]). eexists. split; [reflexivity|]. split; [now apply rpv_vflags|reflexivity].
Qed.
Lemma rd_vflags_rpv g a stk x : rpv g a stk -> 1 <= x <= 2 * N -> rd_vflags g x = Ret (vflags g x).
Proof. intros H Hx. unfold rd_vflags. apply guard_true. eapply inV_ok; [exact H|exact Hx]. Qed.
Lemma set_vmark g a stk x : rpv g a stk -> 1 <= x <= 2 * N -> exists g', gp_SetVertexVisited g x = Ret g' /\ rpv g' a stk.
Proof. intros H Hx. unfold gp_SetVertexVisited. rewrite (rd_vflags_rpv _ _ _ _ H Hx). cbn [bind]. destruct (rpv_wr_vflags _ _ _ x (Z.lor (vflags g x) VERTEX_VISITED_MASK) H Hx) as (g' & E & H' & _). eauto. Qed.

(** ** Marked edges *)
Definition setfl (a : est) (F : Z -> Z) : est := set_V a (v_fl (eV a) F).
Definition ty (a : est) (e : Z) : Z := Z.land (fl (eV a) e) EDGE_TYPE_MASK.
(** The edges in [ME] and no others are marked; the rest of the flags is as in [F0]. *)
Record marked (F0 F : Z -> Z) (ME : list Z) : Prop := {
  m_ty : forall e, Z.land (F e) EDGE_TYPE_MASK = Z.land (F0 e) EDGE_TYPE_MASK;
  m_vis : forall e, 2 <= e < gp_EdgeInUseIndexBound g0 -> Z.land (F e) EDGE_VISITED_MASK <> 0 <-> In e ME \/ In (twin e) ME }.
Lemma marked_mem F0 F M M' : marked F0 F M -> (forall e, In e M' \/ In (twin e) M' <-> In e M \/ In (twin e) M) -> marked F0 F M'.
Proof. intros [A C] H. constructor; [auto|]. intros e He. rewrite (C e He). symmetry. apply H. Qed.
Lemma set_emark g a stk e : rpv g a stk -> 2 <= e < gp_EdgeIndexBound g0 ->
  exists g', gp_SetEdgeVisited g e = Ret g' /\ rpv g' (setfl a (upd (fl (eV a)) e (Z.lor (fl (eV a) e) EDGE_VISITED_MASK))) stk /\ vflags g' = vflags g.
Proof.
  intros H He. unfold gp_SetEdgeVisited. assert (IE : inE g e = true) by (eapply inE_ok; [exact H|exact He]).
  rewrite rd_eflags_ok by auto. cbn [bind]. rewrite wr_eflags_ok by auto. eexists. split; [reflexivity|]. split; [|reflexivity]. unfold rpv in *. rewrite (r_fl _ _ _ _ H). gsimp. rpz H.
  intros z. unfold setfl, set_V, v_fl. cbn [eV fl]. unfold upd. destruct (z =? e); auto.
Qed.
Lemma setfl_setfl a F F' : setfl (setfl a F) F' = setfl a F'.
Proof. reflexivity. Qed.
Lemma mark_edge g a stk F0 F ME e : rpv g (setfl a F) stk -> marked F0 F ME -> 2 <= e < gp_EdgeIndexBound g0 -> 2 <= twin e < gp_EdgeIndexBound g0 ->
  exists g' F', (g1 <- gp_SetEdgeVisited g e ;; gp_SetEdgeVisited g1 (gp_GetTwinArc e)) = Ret g' /\ rpv g' (setfl a F') stk /\ marked F0 F' (e :: ME) /\ vflags g' = vflags g.
Proof.
  intros H M He Ht. destruct (set_emark _ _ _ e H He) as (g1 & E1 & H1 & V1). rewrite E1. cbn [bind]. rewrite twin_eq.
  destruct (set_emark _ _ _ (twin e) H1 Ht) as (g2 & E2 & H2 & V2). exists g2. eexists. split; [exact E2|]. split; [exact H2|]. split; [|congruence].
  cbn [setfl set_V v_fl eV fl]. set (F1 := upd F e _). assert (Q1 : forall x, Z.land (F1 x) EDGE_TYPE_MASK = Z.land (F x) EDGE_TYPE_MASK).
  { intros x. unfold F1, upd. destruct (Z.eqb_spec x e) as [->|]; [now apply land_lor_1|reflexivity]. }
  constructor.
  - intros x. rewrite <- (m_ty _ _ _ M x), <- Q1. unfold upd at 1. destruct (Z.eqb_spec x (twin e)) as [->|]; [now apply land_lor_1|reflexivity].
  - intros x Hx. cbn [In]. unfold upd at 1. destruct (Z.eqb_spec x (twin e)) as [->|N1].
    + rewrite twin_invol. split; [auto|]. intros _. apply land1_lor.
    + unfold F1, upd. destruct (Z.eqb_spec x e) as [->|N2]; [split; [auto|]; intros _; apply land1_lor|]. rewrite (m_vis _ _ _ M x Hx).
      assert (twin x <> e) by (intros Q; apply N1; now rewrite <- Q, twin_invol). split; intros [Q|Q]; auto; destruct Q as [Q|Q]; auto; congruence.
Qed.

(** ** Arcs to parents *)
Definition ptypes (a : est) : Prop := forall e, arc a e -> ty a e = EDGE_TYPE_CHILD <-> ty a (twin e) = EDGE_TYPE_PARENT.
Lemma arc_twin a e : geob N p (eV a) -> arc a e -> arc a (twin e).
Proof.
  intros G [(x & Hx)|(u & [Hu|Hu])]; [left|right; exists u; rewrite twin_invol; auto|right; exists u; auto].
  exists (nb (eV a) e). apply (g_twins _ _ _ G _ _ Hx).
Qed.
Lemma sedge_ptypes a b : sedge a b -> ptypes a -> ptypes b.
Proof. intros E P e He. apply (se_arc _ _ _ E) in He. unfold ty in *. rewrite !(se_fl _ _ _ E). now apply P. Qed.
Section Parent.
Variable a : est.
Local Notation s := (eV a).
Hypothesis G : geob N p s.
Hypothesis PT : ptypes a.
Lemma parent_ex z : prim z -> p z <> NIL -> exists e, In e (adj s z) /\ ty a e = EDGE_TYPE_PARENT.
Proof.
  intros Pz Nz. destruct (g_child _ _ _ G z Pz Nz) as (e & C1 & C2 & C3). destruct (g_twins _ _ _ G _ _ C3) as [T1 T2]. exists (twin e). split; [now rewrite C2 in T2|].
  apply (PT e); [left; eauto|exact C1].
Qed.
Lemma parent_un z e : In e (adj s z) -> ty a e = EDGE_TYPE_PARENT -> prim z /\ p z <> NIL /\ (nb s e = N + z \/ nb s e = p z) /\ pof (nb s e) = p z /\ prim (p z) /\ p z < z.
Proof.
  intros He Ht. destruct (g_twins _ _ _ G _ _ He) as [T1 T2]. assert (C : childarc s (twin e)).
  { apply (PT (twin e)); [left; eauto|now rewrite twin_invol]. }
  destruct (g_childu _ _ _ G _ _ T2 C) as (P1 & P2 & P3). rewrite T1 in *. destruct (st_p _ _ St z P1 P2) as [P4 P5]. split; [auto|]. split; [auto|]. split; [auto|]. split; [|auto].
  unfold EmbJoin.pof. unfold GeoP.prim in *. destruct P3 as [-> | ->].
  - replace (N + z <=? N) with false by lia. f_equal. lia.
  - now replace (p z <=? N) with true by lia.
Qed.

(** The tree arcs from d up to its ancestor u. *)
Fixpoint ups (u d : Z) (l : list Z) : Prop :=
  match l with
  | [] => d = u
  | e :: l' => d <> u /\ In e (adj s d) /\ ty a e = EDGE_TYPE_PARENT /\ ups u (p d) l'
  end.

Lemma ups_arc u l : forall d, ups u d l -> forall e, In e l -> exists x, In e (adj s x) /\ ty a e = EDGE_TYPE_PARENT.
Proof. induction l as [|y l IH]; intros d H e He; [destruct He|]. destruct H as (H1 & H2 & H3 & H4). destruct He as [<-|He]; eauto. Qed.
End Parent.

(** ** The path in the tree *)
Section Path.
Variable a : est.
Local Notation s := (eV a).
Hypothesis G : geob N p s.
Hypothesis PT : ptypes a.
Variable b : est.
Hypothesis Eadj : forall x e, In e (adj (eV b) x) <-> In e (adj s x).
Hypothesis Enb : forall e, nb (eV b) e = nb s e.
Variable F0 : Z -> Z.
Hypothesis E0 : forall e, Z.land (F0 e) EDGE_TYPE_MASK = ty a e.

Lemma parent_arc_ok g F ME stk z : rpv g (setfl b F) stk -> marked F0 F ME -> forall l l0 n, adj (eV b) z = l0 ++ l -> (length l < n)%nat ->
  exists e, parent_arc_loop n g (hd NIL l) = Ret e /\ (e = NIL /\ (forall x, In x l -> ty a x <> EDGE_TYPE_PARENT) \/ In e l /\ ty a e = EDGE_TYPE_PARENT).
Proof.
  intros H M. induction l as [|y l IH]; intros l0 n El Hn; (destruct n as [|n]; [cbn [length] in Hn; lia|]); cbn [parent_arc_loop hd].
  - exists NIL. split; [reflexivity|]. left. split; [auto|]. intros x [].
  - assert (Hy : In y (adj (eV b) z)) by (rewrite El; apply in_app_iff; right; now left). assert (Hy' : In y (adj (eV (setfl b F)) z)) by exact Hy.
    rewrite eqb_false_neq by (eapply rp_ne; [exact H|exact Hy']). rewrite (rp_type _ _ _ _ _ _ H Hy'). cbn [bind setfl set_V v_fl eV fl]. rewrite (m_ty _ _ _ M), E0.
    destruct (Z.eqb_spec (ty a y) EDGE_TYPE_PARENT) as [Q|Q].
    + exists y. split; [reflexivity|]. right. split; [now left|auto].
    + rewrite (rp_next _ _ _ _ z l0 y l H El). cbn [bind]. destruct (IH (l0 ++ [y]) n) as (e & W & R); [rewrite El, <- app_assoc; auto|cbn [length] in Hn; lia|].
      exists e. split; [exact W|]. destruct R as [[-> R]|[R1 R2]]; [left; split; [auto|]; intros x [<-|Hx]; auto|right; split; [now right|auto]].
Qed.

Lemma mark_dfs_ok stk u : prim u -> forall n d g F ME, rpv g (setfl b F) stk -> marked F0 F ME ->
  (prim d /\ anc u d /\ (2 * Z.to_nat d < n)%nat) \/ (exists z, d = N + z /\ prim z /\ p z <> NIL /\ anc u (p z) /\ (2 * Z.to_nat (p z) + 1 < n)%nat) ->
  exists g' F' l, mark_dfs_loop n g u d = Ret (g', C_OK) /\ rpv g' (setfl b F') stk /\ marked F0 F' (l ++ ME) /\ ups a u (pof d) l.
Proof.
  intros Pu. induction n as [|n IH]; intros d g F ME H M Hd; [exfalso; destruct Hd as [(_ & _ & Hd)|(z & _ & _ & _ & _ & Hd)]; lia|]. cbn [mark_dfs_loop]. pose proof (rpv_N _ _ _ H) as KN.
  destruct Hd as [(Pd & Ad & Hn)|(z & -> & Pz & Nz & Az & Hn)].
  - destruct (Z.eqb_spec d u) as [->|Ne].
    { exists g, F, []. split; [reflexivity|]. split; [auto|]. split; [exact M|]. cbn [ups]. unfold EmbJoin.pof, GeoP.prim in *. now replace (u <=? N) with true by lia. }
    destruct (anc_up g0 _ _ Ad ltac:(auto)) as [Nd Aup]. rewrite eqb_false_neq by (unfold GeoP.prim, NIL in *; lia).
    replace (gp_IsVirtualVertex g d) with false by (unfold gp_IsVirtualVertex, GeoP.prim in *; lia).
    assert (Vd : 1 <= d <= 2 * N) by (unfold GeoP.prim in *; lia).
    rewrite (rp_first _ _ _ _ _ H Vd). cbn [bind setfl set_V v_fl eV adj]. pose proof (adj_len_chains _ _ d (r_chains _ _ _ _ H)) as Le. cbn [setfl set_V v_fl eV adj] in Le.
    destruct (parent_arc_ok g F ME stk d H M (adj (eV b) d) [] (efuel g) eq_refl Le) as (e & W & R). rewrite W. cbn [bind].
    destruct (parent_ex a G PT d Pd Nd) as (e' & He' & Te'). apply Eadj in He'. destruct R as [[_ R]|[He Te]]; [elim (R e' He' Te')|].
    assert (He2 : In e (adj (eV (setfl b F)) d)) by exact He. rewrite eqb_false_neq by (eapply rp_ne; [exact H|exact He2]). apply Eadj in He.
    destruct (parent_un a G PT d e He Te) as (_ & _ & Cn & Cp & Pp & Lp). pose proof (g_twins _ _ _ G _ _ He) as [T1 T2].
    assert (Re : 2 <= e < gp_EdgeIndexBound g0) by (rewrite <- (rpv_cap _ _ _ H); apply (ch_range _ _ (r_chains _ _ _ _ H) d e He2)).
    assert (Rt : 2 <= twin e < gp_EdgeIndexBound g0) by (rewrite <- (rpv_cap _ _ _ H); eapply (ch_range _ _ (r_chains _ _ _ _ H)); apply Eadj; exact T2).
    rewrite get_nbr by (apply inE_true; rewrite (rpv_cap _ _ _ H); lia). cbn [bind]. rewrite (r_nb _ _ _ _ H). cbn [setfl set_V v_fl eV nb]. rewrite Enb.
    rewrite eqb_false_neq by (unfold GeoP.prim, NIL in *; destruct Cn as [-> | ->]; lia).
    destruct (mark_edge g b stk F0 F ME e H M Re Rt) as (g2 & F2 & W2 & H2 & M2 & V2).
    destruct (gp_SetEdgeVisited g e) as [g1| |] eqn:E1; cbn [bind] in W2; try discriminate. cbn [bind]. rewrite W2. cbn [bind].
    destruct (set_vmark g2 _ stk (nb s e) H2) as (g3 & W3 & H3); [unfold GeoP.prim in *; destruct Cn as [-> | ->]; lia|]. rewrite W3. cbn [bind].
    destruct (IH (nb s e) g3 F2 (e :: ME) H3 M2) as (g' & F' & l & W4 & H4 & M4 & U4).
    + destruct Cn as [-> | ->].
      * right. exists d. split; [auto|]. split; [auto|]. split; [auto|]. split; [auto|]. unfold GeoP.prim in *. lia.
      * left. split; [auto|]. split; [auto|]. unfold GeoP.prim in *. lia.
    + exists g', F', (e :: l). split; [exact W4|]. split; [auto|]. split; [|rewrite Cp in U4; replace (pof d) with d; [cbn [ups]; auto|]].
      * eapply marked_mem; [exact M4|]. intros x. cbn [In app]. rewrite !in_app_iff. cbn [In]. tauto.
      * unfold EmbJoin.pof, GeoP.prim in *. now replace (d <=? N) with true by lia.
  - destruct (st_p _ _ St z Pz Nz) as [Pp Lp].
    rewrite eqb_false_neq by (unfold GeoP.prim in *; lia). rewrite eqb_false_neq by (unfold GeoP.prim, NIL in *; lia).
    replace (gp_IsVirtualVertex g (N + z)) with true by (unfold gp_IsVirtualVertex, GeoP.prim in *; lia).
    unfold gp_GetPrimaryVertexFromRoot, gp_GetDFSChildFromRoot, gp_GetVertexParent. rewrite KN. replace (N + z - N) with z by lia.
    rewrite vi_ok by (unfold GeoP.prim in Pz; lia). cbn [bind]. rewrite (rpv_parent _ _ _ H).
    destruct (set_vmark g _ stk (p z) H) as (g3 & W3 & H3); [unfold GeoP.prim in *; lia|]. rewrite W3. cbn [bind].
    destruct (IH (p z) g3 F ME H3 M) as (g' & F' & l & W4 & H4 & M4 & U4); [left; split; [auto|]; split; [auto|lia]|].
    exists g', F', l. split; [exact W4|]. split; [auto|]. split; [auto|]. replace (pof (N + z)) with (pof (p z)); [auto|].
    unfold EmbJoin.pof, GeoP.prim in *. replace (N + z <=? N) with false by lia. replace (p z <=? N) with true by lia. f_equal. lia.
Qed.
Lemma mark_path_ok stk u d g F ME : prim u -> rpv g (setfl b F) stk -> marked F0 F ME ->
  prim d /\ anc u d \/ (exists z, d = N + z /\ prim z /\ p z <> NIL /\ anc u (p z)) ->
  exists g' F' l, _MarkDFSPath g u d = Ret (g', C_OK) /\ rpv g' (setfl b F') stk /\ marked F0 F' (l ++ ME) /\ ups a u (pof d) l.
Proof.
  intros Pu H M Hd. unfold _MarkDFSPath. pose proof (rpv_N _ _ _ H) as KN. set (d' := pof d).
  assert (W : (if gp_IsVirtualVertex g d then gp_GetPrimaryVertexFromRoot g d else Ret d) = Ret d' /\ prim d' /\ anc u d').
  { destruct Hd as [[Pd Ad]|(z & -> & Pz & Nz & Az)].
    - unfold d', EmbJoin.pof, gp_IsVirtualVertex, GeoP.prim in *. replace (d <=? N) with true by lia.
      replace (gN g <? d) with false by lia. auto.
    - unfold gp_GetPrimaryVertexFromRoot, gp_GetDFSChildFromRoot, gp_GetVertexParent. rewrite KN. replace (N + z - N) with z by lia.
      replace (gp_IsVirtualVertex g (N + z)) with true by (unfold gp_IsVirtualVertex, GeoP.prim in *; lia).
      rewrite vi_ok by (unfold GeoP.prim in Pz; lia). rewrite (rpv_parent _ _ _ H). destruct (st_p _ _ St z Pz Nz) as [Pp Lp].
      unfold d', EmbJoin.pof. replace (N + z <=? N) with false by (unfold GeoP.prim in *; lia). replace (N + z - N) with z by lia. auto. }
  destruct W as (W & Pd & Ad). rewrite W. cbn [bind]. destruct (set_vmark g _ stk d' H) as (g1 & W1 & H1); [unfold GeoP.prim in *; lia|]. rewrite W1. cbn [bind].
  destruct (mark_dfs_ok stk u Pu (S (S (Z.to_nat (2 * gN g1)))) d' g1 F ME H1 M) as (g' & F' & l & W2 & H2 & M2 & U2).
  - left. split; [auto|]. split; [auto|]. rewrite (rpv_N _ _ _ H1). unfold GeoP.prim in *. lia.
  - exists g', F', l. split; [exact W2|]. split; [auto|]. split; [auto|]. replace (pof d') with d' in U2; [auto|]. clearbody d'; unfold EmbJoin.pof, GeoP.prim in *; now replace (d' <=? N) with true by lia.
Qed.
End Path.
End Iso.
