(** * IsoP2: the isolator joins all components, adds the forward arcs and deletes what is unmarked. *)
From Coq Require Import ZifyBool Permutation Sorted.
From Verif Require Import Base BaseP GraphRec GraphM GraphSpec GSimp LinkP GraphP GraphP2 GraphP3 ListM ListSpec ListP DFSM DFSSpec DFSP TestM TestSpec TestP TestP2 TestP3 EmbM EmbSpec EmbP EmbP2 EmbP3 FaceP GeoP GeoP2 EmbInv EmbStep EmbTree EmbWalk EmbJoin EmbDown EmbStor IsoM IsoP1.

Section Iso2.
Variables (g0 : graph) (kids : Z -> list Z).
Hypothesis St : static g0 kids.
Local Notation N := (gN g0).
Local Notation p := (viParent (gVI g0)).
Local Notation prim := (prim (gN g0)).
Local Notation isroot := (isroot (gN g0)).
Local Notation anc := (ancestor (viParent (gVI g0))).
Local Notation pof := (pof g0).
Local Notation sedge := (sedge g0).
Local Notation stor := (stor g0).
Local Notation rpv := (rpv g0).
Local Notation fwok := (fwok g0).
Local Notation marked := (marked g0).

Variable a : est.
Local Notation s := (eV a).
Hypothesis G : geob N p s.
Hypothesis FW : fwok a.

(** Every arc is at the primary vertex it belongs to, or still in a list of forward arcs. *)
Record flat (j : est) : Prop := {
  fl_adj : forall x e, In e (adj (eV j) x) -> arc a e /\ prim x /\ x = pof (nb s (twin e)) /\ nb (eV j) e = pof (nb s e) /\ In (twin e) (adj (eV j) (nb (eV j) e));
  fl_all : forall e, arc a e -> (exists x, In e (adj (eV j) x)) \/ exists u, In e (fw j u) \/ In (twin e) (fw j u);
  fl_fw : forall u f, In f (fw j u) -> In f (fw a u);
  fl_fwnb : forall u f, In f (fw j u) -> nb (eV j) f = nb s f;
  fl_tw : forall u f x, In f (fw j u) -> ~ In (twin f) (adj (eV j) x);
  fl_out : forall e, ~ arc a e -> nb (eV j) e = nb s e;
  fl_par : forall z, prim z -> p z <> NIL -> adj (eV j) z <> [] /\ adj (eV j) (p z) <> [] }.

Lemma pof_prim x : prim x -> pof x = x.
Proof. unfold EmbJoin.pof, GeoP.prim. intros H. now replace (x <=? N) with true by lia. Qed.
Lemma root_prim R : isroot R -> adj s R <> [] -> prim (R - N) /\ p (R - N) <> NIL /\ prim (p (R - N)).
Proof.
  intros HR Na. assert (Pz : prim (R - N)) by (unfold GeoP.isroot, GeoP.prim in *; lia). split; [auto|].
  assert (p (R - N) <> NIL). { intros E. destruct (g_B0 _ _ _ G _ Pz E) as (_ & _ & Q). replace (N + (R - N)) with R in Q by lia. contradiction. }
  split; [auto|]. apply (st_p _ _ St _ Pz H).
Qed.
Lemma pof_ok x e : In e (adj s x) -> prim (pof x).
Proof.
  intros He. pose proof (g_out _ _ _ G _ _ He) as Rx. unfold EmbJoin.pof. destruct (Z.leb_spec x N); [unfold GeoP.prim; lia|].
  apply root_prim; [unfold GeoP.isroot; lia|]. intros Q. rewrite Q in He. destruct He.
Qed.

(** ** Joining the components *)
Definition pk (k : Z) (x : Z) : Z := if (N <? x) && (x <=? N + k) then p (x - N) else x.
Lemma pk_full x : 1 <= x <= 2 * N -> pk N x = pof x.
Proof. intros H. unfold pk, EmbJoin.pof. destruct (Z.leb_spec x N); [now replace (N <? x) with false by lia|now replace ((N <? x) && (x <=? N + N)) with true by lia]. Qed.
Record joined (b j : est) (k : Z) : Prop := {
  jn_adj : forall x e, In e (adj (eV j) x) <-> exists u, In e (adj s u) /\ pk k u = x;
  jn_nb : forall u e, In e (adj s u) -> nb (eV j) e = pk k (nb s e);
  jn_out : forall e, (forall u, ~ In e (adj s u)) -> nb (eV j) e = nb s e;
  jn_fl : fl (eV j) = fl (eV b); jn_fw : fw j = fw b; jn_pe : pe j = pe b; jn_prl : prl j = prl b }.

Lemma join_loop2 b stk : forall n k g j, 0 <= k -> k + Z.of_nat n = N -> rpv g j stk -> joined b j k ->
  exists g' j', for_up n (N + k + 1) join_step g = Ret g' /\ rpv g' j' stk /\ joined b j' N.
Proof.
  induction n as [|n IH]; intros k g j Hk Hn H J.
  - exists g, j. split; [reflexivity|]. replace k with N in J by lia. auto.
  - cbn [for_up]. set (R := N + k + 1). assert (HR : 1 <= R <= 2 * N) by (unfold R; lia). pose proof (rpv_N g0 _ _ _ H) as KN.
    assert (AR : forall e, In e (adj (eV j) R) <-> In e (adj s R)).
    { intros e. rewrite (jn_adj _ _ _ J). unfold pk. split.
      - intros (u & Hu & E). assert (u = R); [|now subst u]. destruct (Z.ltb_spec N u), (Z.leb_spec u (N + k)); cbn [andb] in E; auto. exfalso.
        destruct (root_prim u) as (_ & _ & Q); [pose proof (g_out _ _ _ G _ _ Hu); unfold GeoP.isroot; lia|intros Q; rewrite Q in Hu; destruct Hu|]. unfold GeoP.prim, R in *. lia.
      - intros He. exists R. split; [auto|]. unfold R. now replace ((N <? N + k + 1) && (N + k + 1 <=? N + k)) with false by lia. }
    unfold join_step, gp_VirtualVertexInUse. rewrite (rp_first _ _ _ _ R H HR). cbn [bind].
    destruct (adj (eV j) R) as [|e0 l0] eqn:EA.
    + cbn [hd]. change (negb (NIL =? NIL)) with false. cbv iota. cbn [bind]. replace (R + 1) with (N + (k + 1) + 1) by (unfold R; lia). apply (IH (k + 1) g j); [lia|lia|auto|].
      assert (PP : forall u e, In e (adj s u) -> pk (k + 1) u = pk k u).
      { intros u e He. unfold pk. destruct (Z.eq_dec u R) as [->|]; [apply AR in He; destruct He|]. unfold R in *. now replace (u <=? N + (k + 1)) with (u <=? N + k) by lia. }
      destruct J. constructor; auto.
      * intros x e. rewrite jn_adj0. split; intros (u & Hu & E); exists u; (split; [auto|]); rewrite <- E; [|symmetry]; eapply PP; eauto.
      * intros u e He. rewrite (jn_nb0 _ _ He). symmetry. destruct (g_twins _ _ _ G _ _ He) as [_ T2]. eapply PP. exact T2.
    + assert (He0 : In e0 (adj (eV j) R)) by (rewrite EA; now left). cbn [hd].
      rewrite eqb_false_neq by (eapply rp_ne; [exact H|exact He0]). cbn [negb]. cbv iota. pose proof (proj1 (AR e0) ltac:(now left)) as Hs0.
      destruct (root_prim R) as (Pz & Nz & Pp); [unfold GeoP.isroot, R; lia|intros Q; rewrite Q in Hs0; destruct Hs0|]. set (P := p (R - N)) in *.
      unfold gp_GetPrimaryVertexFromRoot, gp_GetVertexParent, gp_GetDFSChildFromRoot. rewrite vi_ok by (rewrite KN; unfold GeoP.prim in Pz; lia). cbn [bind]. rewrite (rpv_parent g0 _ _ _ H), KN. fold P.
      rewrite <- EA in AR. destruct (merge_rp _ g j stk P 0 R H) as (g1 & W1 & H1); auto.
      * cbn [set_vflags gN]. unfold GeoP.prim in Pp. lia.
      * cbn [set_vflags gN]. unfold R. lia.
      * unfold GeoP.prim, R in *. lia.
      * rewrite EA. discriminate.
      * intros e He. apply AR in He. destruct (g_twins _ _ _ G _ _ He) as [T1 T2]. rewrite (jn_nb _ _ _ J _ _ T2), T1. unfold pk, R. now replace ((N <? N + k + 1) && (N + k + 1 <=? N + k)) with false by lia.
      * rewrite W1. cbn [bind]. replace (R + 1) with (N + (k + 1) + 1) by (unfold R; lia).
        eapply (IH (k + 1) g1); [lia|lia|eapply rpv_any; exact H1|].
        assert (PR : forall u, u <> R -> pk (k + 1) u = pk k u) by (intros u Hu; unfold pk, R in *; now replace (u <=? N + (k + 1)) with (u <=? N + k) by lia).
        assert (PR2 : pk (k + 1) R = P) by (unfold pk, R, P; now replace ((N <? N + k + 1) && (N + k + 1 <=? N + (k + 1))) with true by lia).
        assert (PR3 : pk k R = R) by (unfold pk, R; now replace ((N <? N + k + 1) && (N + k + 1 <=? N + k)) with false by lia).
        destruct J. constructor; cbn [set_V eV adj nb fl fw pe prl]; auto.
        -- intros x e. unfold merged_lists. change (0 =? 0) with true. cbv iota. unfold upd.
           assert (NPR : P <> R) by (unfold GeoP.prim, R in *; lia).
           destruct (Z.eqb_spec x P) as [->|N1].
           { rewrite in_app_iff, AR, jn_adj0. split.
             - intros [Q|(u & Q & E)]; [exists R; auto|exists u; split; [auto|]]. rewrite PR; auto. intros ->. congruence.
             - intros (u & Q & E). destruct (Z.eq_dec u R) as [->|Nu]; [auto|]. right. exists u. split; [auto|]. now rewrite PR in E. }
           destruct (Z.eqb_spec x R) as [->|N2].
           { split; [intros []|]. intros (u & Q & E). destruct (Z.eq_dec u R) as [->|Nu]; [congruence|]. rewrite PR in E by auto.
             assert (Q2 : In e (adj s R)); [|pose proof (g_disj _ _ _ G _ _ _ Q Q2); contradiction]. apply AR. apply jn_adj0. eauto. }
           rewrite jn_adj0. split; intros (u & Q & E); exists u; (split; [auto|]); (destruct (Z.eq_dec u R) as [->|Nu]; [congruence|]); [now rewrite PR|now rewrite PR in E].
        -- intros u e He. destruct (g_twins _ _ _ G _ _ He) as [T1 T2]. destruct (inb_spec (twin e) (adj (eV j) R)) as [Q|Q].
           ++ apply AR in Q. rewrite (g_disj _ _ _ G _ _ _ T2 Q). auto.
           ++ rewrite (jn_nb0 _ _ He). symmetry. apply PR. intros E. apply Q, AR. now rewrite <- E.
        -- intros e He. destruct (inb_spec (twin e) (adj (eV j) R)) as [Q|Q]; [|auto]. exfalso. apply AR in Q. destruct (g_twins _ _ _ G _ _ Q) as [_ T2]. rewrite twin_invol in T2. exact (He _ T2).
Qed.
Lemma joined_flat b j : joined b j N -> (forall u f, In f (fw b u) <-> In f (fw a u)) -> flat j.
Proof.
  intros J EF. assert (RG : forall x e, In e (adj s x) -> 1 <= x <= 2 * N) by (intros x e; apply (g_out _ _ _ G)).
  constructor.
  - intros x e He. apply (jn_adj _ _ _ J) in He. destruct He as (u & Hu & E). rewrite pk_full in E by eauto. destruct (g_twins _ _ _ G _ _ Hu) as [T1 T2].
    split; [left; eauto|]. split; [rewrite <- E; eapply pof_ok; eauto|]. split; [now rewrite T1|]. rewrite (jn_nb _ _ _ J _ _ Hu), pk_full by eauto. split; [auto|].
    apply (jn_adj _ _ _ J). exists (nb s e). split; [auto|]. apply pk_full. eauto.
  - intros e [(x & Hx)|(u & Hu)]; [left|right; exists u; rewrite (jn_fw _ _ _ J), !EF; auto]. exists (pof x). apply (jn_adj _ _ _ J). exists x. split; [auto|]. apply pk_full. eauto.
  - intros u f. rewrite (jn_fw _ _ _ J). apply EF.
  - intros u f. rewrite (jn_fw _ _ _ J), EF. intros Hf. apply (jn_out _ _ _ J). intros x. apply (fo_free _ _ FW _ _ x Hf).
  - intros u f x. rewrite (jn_fw _ _ _ J), EF. intros Hf Q. apply (jn_adj _ _ _ J) in Q. destruct Q as (y & Hy & _). destruct (fo_free _ _ FW _ _ y Hf). contradiction.
  - intros e He. apply (jn_out _ _ _ J). intros u Hu. apply He. left. eauto.
  - intros z Pz Nz. destruct (g_child _ _ _ G z Pz Nz) as (e & C1 & C2 & C3). destruct (g_twins _ _ _ G _ _ C3) as [T1 T2]. rewrite C2 in T2.
    destruct (st_p _ _ St z Pz Nz) as [Pp _]. split; intros Q.
    + assert (K : In (twin e) (adj (eV j) z)) by (apply (jn_adj _ _ _ J); exists z; split; [auto|]; rewrite pk_full by eauto; now apply pof_prim). rewrite Q in K. destruct K.
    + assert (K : In e (adj (eV j) (p z))); [|rewrite Q in K; destruct K]. apply (jn_adj _ _ _ J). eexists. split; [exact C3|]. rewrite pk_full by eauto.
      destruct (adj s (N + z)); [now apply pof_prim|]. unfold EmbJoin.pof. unfold GeoP.prim in Pz. replace (N + z <=? N) with false by lia. f_equal. lia.
Qed.
Lemma join_all b stk g : rpv g b stk -> (forall x e, In e (adj (eV b) x) <-> In e (adj s x)) -> (forall e, nb (eV b) e = nb s e) -> (forall u f, In f (fw b u) <-> In f (fw a u)) -> 0 <= N ->
  exists g' j, _JoinBicomps g = Ret (g', C_OK) /\ rpv g' j stk /\ flat j /\ fl (eV j) = fl (eV b) /\ fw j = fw b.
Proof.
  intros H E1 E2 E3 HN. unfold _JoinBicomps. rewrite (rpv_N g0 _ _ _ H). destruct (join_loop2 b stk (Z.to_nat N) 0 g b ltac:(lia) ltac:(lia) H) as (g' & j & W & H' & J).
  - assert (P0 : forall x, pk 0 x = x) by (intros x; unfold pk; now replace ((N <? x) && (x <=? N + 0)) with false by lia).
    constructor; auto.
    + intros x e. rewrite E1. split; [intros He; exists x; auto|intros (u & Hu & <-); now rewrite P0].
    + intros u e He. now rewrite P0.
  - replace (N + 0 + 1) with (N + 1) in W by lia. rewrite W. cbn [bind]. exists g', j. split; [reflexivity|]. split; [auto|]. split; [eapply joined_flat; eauto|]. destruct J. auto.
Qed.
End Iso2.
