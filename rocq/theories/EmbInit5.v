(** * EmbInit5: the whole of the initialisation, and the embedder. *)
From Coq Require Import ZifyBool Permutation Sorted.
From Verif Require Import Base BaseP GraphRec GraphM GraphSpec GSimp LinkP GraphP GraphP2 GraphP4 GraphP5 ListM ListSpec ListP DFSM DFSSpec DFSP DFSP2 DFSP3 DFSP4 TestM TestSpec EmbedSpec EmbM EmbSpec EmbP FaceP GeoP EmbInv EmbInit EmbInit2 EmbInit3 EmbInit4.

Lemma empty_holds c heads : lcprev c NIL = NIL -> (forall i, heads i = NIL) -> holds (mkCl c heads) (fun _ => []).
Proof.
  intros H1 H2. constructor; cbn [cl_c cl_heads]; auto.
  - intros i. exact Logic.I.
  - constructor.
  - intros i x [].
  - intros i j x [].
Qed.

Section Init5.
Variables (g0 : graph) (adj : Z -> list Z).
Hypotheses (R0 : rep g0 adj) (P0 : primary_edges g0 adj) (Sm : simple_adj g0 adj) (U0 : unsearched g0 adj) (E0 : embed_ready g0 adj).
Local Notation N := (gN g0).

Lemma search_ok : exists g1 gd g ord ta F kd,
  _ClearVertexVisitedFlags (stk_clear g0) false = Ret g1 /\ gN g1 = N /\
  einit_forest_loop (S (Z.to_nat N)) g1 1 1 = Ret g /\
  dinv g0 gd adj [] ord ta N /\ irel g0 adj gd g [] ord ta F kd /\ Z.of_nat (length ord) = N.
Proof.
  pose proof (cap_nonneg _ _ R0) as Hc. pose proof U0 as [U1 U2 U3 U4 U5]. pose proof (GraphSpec.st_N _ _ (rep_storage _ _ R0)) as HN.
  destruct (clear_visited_ok (stk_clear g0)) as (f & E & Hf); [unfold stk_clear; gsimp; lia|].
  unfold stk_clear in *. gsimp_in Hf.
  set (g1 := set_vflags (set_gstack g0 []) f) in *.
  assert (F1 : dfs_frame g0 g1).
  { constructor; try reflexivity.
    - intros v Hv. split; [reflexivity|split; [|reflexivity]]. unfold g1. gsimp. rewrite Hf.
      replace ((1 <=? v) && (v <=? gN g0)) with false by (unfold primary in Hv; lia). reflexivity.
    - intros v. unfold g1. gsimp. rewrite Hf. destruct ((1 <=? v) && (v <=? gN g0)); [apply ldiff_ldiff_mask|reflexivity].
    - exists (viParent (gVI g0)). unfold g1. gsimp. destruct (gVI g0); reflexivity. }
  assert (Un : forall v, primary g0 v -> visited g1 v = false).
  { intros v [Hv1 Hv2]. unfold visited, g1. gsimp. rewrite Hf. replace ((1 <=? v) && (v <=? gN g0)) with true by lia.
    now rewrite visited_ldiff. }
  assert (D : dinv g0 g1 adj [] [] (fun _ => NIL) (1 - 1)).
  { constructor.
    - exact F1.
    - reflexivity.
    - constructor.
    - intros e [].
    - constructor.
    - intros v. split; [intros []|]. intros [Hv Hu]. rewrite (Un v Hv) in Hu. discriminate.
    - intros l1 v l2 El. destruct l1; discriminate.
    - intros v Hv _. apply U2. exact Hv.
    - intros v [].
    - intros u e He Ht. pose proof (U3 u e He) as Ht'. change (etype g1 e) with (etype g0 e) in Ht. rewrite Ht' in Ht. discriminate.
    - intros u e He Hn. destruct (arc_primary _ _ R0 P0 _ _ He) as [Pu Pn]. destruct (arc_twin _ _ R0 _ _ He) as (_ & He' & _).
      apply es_new; auto; [apply (U3 u e He)|apply (U3 _ _ He')].
    - intros u e He _. apply (U3 u e He).
    - constructor.
    - intros u v d [].
    - intros e u v [].
    - intros v []. }
  assert (AL : forall u, al adj g1 u = adj u).
  { intros u. unfold al. apply filter_true. intros x Hx. change (etype g1 x) with (etype g0 x). now rewrite (U3 u x Hx). }
  assert (Vt : forall x, N < x -> adj x = []).
  { intros x Hx. destruct (adj x) as [|e l] eqn:E'; [reflexivity|]. destruct (P0 x e); [rewrite E'; now left|lia]. }
  assert (I : irel g0 adj g1 g1 [] [] (fun _ => NIL) (fun _ => []) (fun _ => [])).
  { constructor; try reflexivity.
    - constructor; try reflexivity. unfold g1. gsimp. destruct (gX g0); reflexivity.
    - intros u x _ [].
    - constructor.
      + pose proof (rep_chains _ _ R0) as C. destruct C. constructor; intros; rewrite ?AL in *; auto.
        * unfold view. gsimp. unfold g1. gsimp. destruct (v <=? gN g0) eqn:E1; [auto|]. rewrite Vt by lia. reflexivity.
        * unfold view. gsimp. unfold g1. gsimp. destruct (v <=? gN g0) eqn:E1; [auto|]. rewrite Vt by lia. reflexivity.
        * eapply ch_disj; eauto.
        * eapply ch_range; eauto.
      + intros u Pu. apply E0. exact Pu.
      + intros u. split.
      + intros u x. split; [intros []|]. intros [H1 H2]. change (etype g1 x) with (etype g0 x) in H2. rewrite (U3 u x H1) in H2. discriminate.
      + intros u. constructor.
    - constructor.
    - apply empty_holds; [apply E0|]. intros i. unfold sdcheads. destruct ((1 <=? i) && (i <=? gN g1)) eqn:E1; [|reflexivity].
      apply (er_sdc _ _ E0). unfold g1 in E1. gsimp_in E1. split; lia.
    - intros u c. split; [intros []|]. intros (v & [] & _).
    - constructor.
    - intros v [].
    - intros x Hx _. pose proof (rep_chains _ _ R0) as C. destruct C. split.
      + change (vfirst g0 x = NIL). rewrite ch_first by (unfold is_vertex; lia). now rewrite Vt by lia.
      + change (vlast g0 x = NIL). rewrite ch_last by (unfold is_vertex; lia). now rewrite Vt by lia.
    - intros v [].
    - intros v e [].
    - intros v []. }
  destruct (eforest_loop_ok g0 adj R0 P0 Sm Hc U4 U5 (S (Z.to_nat N)) g1 g1 [] _ 1 _ _ D I ltac:(lia) ltac:(intros; lia) ltac:(lia)) as (gd & g & ord & ta & F & kd & H1 & H2 & H3 & H4).
  exists g1, gd, g, ord, ta, F, kd. split; [exact E|]. split; [reflexivity|]. auto.
Qed.

Lemma sorted_ext {X} (R R' : X -> X -> Prop) l : (forall a b, In a l -> In b l -> R a b -> R' a b) -> StronglySorted R l -> StronglySorted R' l.
Proof.
  induction l as [|x l IH]; intros H S; [constructor|]. apply StronglySorted_inv in S. destruct S as [S1 S2]. constructor.
  - apply IH; auto. intros a b Ha Hb. apply H; now right.
  - rewrite Forall_forall in *. intros y Hy. apply H; auto; [now left|now right].
Qed.
Lemma land_inv x y : Z.ldiff x EDGE_TYPE_MASK = Z.ldiff y EDGE_TYPE_MASK -> Z.land x EDGEFLAG_INVERTED_MASK = Z.land y EDGEFLAG_INVERTED_MASK.
Proof.
  intros E. assert (H : forall z, Z.land z EDGEFLAG_INVERTED_MASK = Z.land (Z.ldiff z EDGE_TYPE_MASK) EDGEFLAG_INVERTED_MASK).
  { intros z. apply Z.bits_inj'. intros n Hn. rewrite !Z.land_spec, Z.ldiff_spec.
    assert (B : Z.testbit EDGE_TYPE_MASK n && Z.testbit EDGEFLAG_INVERTED_MASK n = false) by (rewrite <- Z.land_spec; apply Z.bits_0).
    destruct (Z.testbit EDGE_TYPE_MASK n), (Z.testbit EDGEFLAG_INVERTED_MASK n), (Z.testbit z n); try reflexivity; discriminate. }
  now rewrite H, E, <- H.
Qed.

Lemma ready_ok gd g ord ta F kd : dinv g0 gd adj [] ord ta N -> irel g0 adj gd g [] ord ta F kd -> Z.of_nat (length ord) = N ->
  exists gS gf A hp, gp_SortVertices (set_giflags g (Z.lor (giflags g) FLAGS_DFSNUMBERED)) = Ret (gS, C_OK) /\
    ready gf gS A (fun x => F (hp x)) (fun x => kd (hp x)) (fun x => ta (hp x)) /\
    gN gf = N /\ gM gf = gM g0 /\ gembed gS = gembed g0 /\ giflags gS = Z.lxor (Z.lor (giflags g0) FLAGS_DFSNUMBERED) FLAGS_SORTEDBYDFI /\
    (forall x, primary g0 x -> primary g0 (hp x) /\ vindex gS x = hp x) /\
    (forall x y, primary g0 x -> primary g0 y -> hp x = hp y -> x = y) /\
    (forall x, A x = adj (hp x)) /\
    (forall v e, In e (adj v) -> primary g0 (enbr gf e) /\ vindex gS (enbr gf e) = enbr g0 e).
Proof.
  intros D I L. pose proof (rep_storage _ _ R0) as So. pose proof (ir_fr _ _ _ _ _ _ _ _ _ I) as Fr. pose proof (di_frame _ _ _ _ _ _ _ D) as Fd.
  pose proof (dinv_forest g0 gd adj ord ta R0 P0 D L) as Df0. pose proof (frame_rep g0 gd adj R0 Fd) as Rd0.
  set (gF := set_giflags g (Z.lor (giflags g) FLAGS_DFSNUMBERED)). set (gdF := set_giflags gd (Z.lor (giflags gd) FLAGS_DFSNUMBERED)).
  assert (Rd : rep gdF adj) by (apply (frame_rep g0 gdF adj R0); destruct Fd; constructor; auto).
  assert (Nd : gN gdF = N) by apply (dff_N _ _ Fd).
  assert (PN : forall v, primary gdF v <-> primary g0 v) by (intros v; unfold primary; now rewrite Nd).
  assert (Pd : primary_edges gdF adj) by (intros v e He; apply PN; now apply (P0 v e)).
  assert (Df : dfs_forest gdF adj (par gdF) (vindex gdF)).
  { destruct Df0; constructor; auto. intros v Hv. destruct (df_roots v Hv) as (r & C1 & C2 & C3 & C4). exists r. do 2 (split; [auto|]).
    assert (CN : forall r v, connected gdF adj r v <-> connected gd adj r v).
    { intros a b. split; (induction 1 as [|x e H IH He]; [constructor|]).
      - exact (conn_step gd adj a x e IH He).
      - exact (conn_step gdF adj a x e IH He). }
    rewrite CN. split; [auto|]. intros r' H1 H2 H3. rewrite CN in H3. auto. }
  assert (Num : numbering gdF (vindex gdF)) by (split; [apply Df|apply Df]).
  assert (Pok : parents_ok gdF) by (intros v Hv Hp; now apply (df_parent _ _ _ _ Df)).
  assert (SL : forall x, Z.land (Z.lor x FLAGS_DFSNUMBERED) FLAGS_DFSNUMBERED <> 0).
  { intros x E. assert (B : Z.testbit (Z.land (Z.lor x FLAGS_DFSNUMBERED) FLAGS_DFSNUMBERED) 0 = false) by (rewrite E; reflexivity).
    rewrite Z.land_spec, Z.lor_spec in B. change (Z.testbit FLAGS_DFSNUMBERED 0) with true in B. rewrite orb_true_r in B. discriminate. }
  assert (Sd : searched gdF) by apply SL.
  destruct (sort_ok gdF adj Rd Pd Sd Num Pok) as (gf & A & Ef & RLf & If & Rf & Pf & Af).
  assert (NF : gN gF = N) by apply (if_N _ _ Fr).
  assert (PF : forall v, primary gF v <-> primary g0 v) by (intros v; unfold primary; now rewrite NF).
  assert (EBF : gp_EdgeInUseIndexBound gF = gp_EdgeInUseIndexBound g0).
  { unfold gp_EdgeInUseIndexBound, gF. gsimp. now rewrite (if_M _ _ Fr), (if_holes _ _ Fr). }
  assert (EBd : gp_EdgeInUseIndexBound gdF = gp_EdgeInUseIndexBound g0).
  { unfold gp_EdgeInUseIndexBound, gdF. gsimp. now rewrite (dff_M _ _ Fd), (dff_holes _ _ Fd). }
  assert (NbF : enbr gF = enbr g0) by apply (if_enbr _ _ Fr).
  assert (Nbd : enbr gdF = enbr g0) by apply (dff_enbr _ _ Fd).
  assert (IxF : vindex gF = vindex gd) by apply (ir_ix _ _ _ _ _ _ _ _ _ I).
  assert (PaF : forall v, par gF v = par gd v).
  { intros v. unfold par, gF. gsimp. now rewrite (ir_par _ _ _ _ _ _ _ _ _ I). }
  destruct (sort_raw gF) as (gS & hp & ES & SB).
  { rewrite NF. apply (GraphSpec.st_N _ _ So). }
  { unfold gF. gsimp. rewrite (if_M _ _ Fr). apply (GraphSpec.st_M _ _ So). }
  { rewrite EBF. unfold gp_EdgeIndexBound, gF. gsimp. rewrite (if_cap _ _ Fr). apply (GraphSpec.st_cap _ _ So). }
  { intros e. rewrite EBF, NbF, !PF. apply (pair_nil g0 adj e R0 P0). }
  { apply SL. }
  { rewrite IxF. split; intros v; [rewrite !PF|intros w; rewrite !PF]; rewrite <- !PN; apply Num. }
  { intros v. rewrite PF, PaF. intros Hv Hp. apply PF, PN. apply Pok; [apply PN|]; auto. }
  pose proof (sb_rel _ _ _ SB) as RLS. rewrite IxF in *.
  assert (Ph : forall x, primary g0 x -> primary g0 (hp x) /\ vindex gd (hp x) = x).
  { intros x Hx. destruct (sb_hp _ _ _ SB x) as [B1 B2]; [now apply PF|]. rewrite IxF in B2. split; [now apply PF|exact B2]. }
  assert (Hi : forall v, primary g0 v -> hp (vindex gd v) = v).
  { intros v Hv. rewrite <- IxF. apply (sb_h _ _ _ SB). now apply PF. }
  assert (Ho : forall x, ~ primary g0 x -> hp x = x).
  { intros x Hx. apply (sb_out _ _ _ SB). now rewrite PF. }
  assert (Pi : forall v, primary g0 v -> primary g0 (vindex gd v)) by (intros v Hv; apply PN; apply (proj1 Num); now apply PN).
  assert (Inj : forall v w, primary g0 v -> primary g0 w -> vindex gd v = vindex gd w -> v = w).
  { intros v w Hv Hw. apply (proj2 Num); now apply PN. }
  assert (Nil : forall v, primary g0 v -> v <> NIL) by (intros v []; unfold NIL; lia).
  assert (Nf : gN gf = N) by (rewrite (rl_N _ _ _ RLf); exact Nd).
  assert (Pnf : forall v, primary gf v <-> primary g0 v) by (intros v; unfold primary; now rewrite Nf).
  assert (NS : gN gS = N) by (rewrite (rl_N _ _ _ RLS); exact NF).
  assert (AE : forall x, A x = adj (hp x)).
  { intros x. destruct (Z_le_dec 1 x), (Z_le_dec x N).
    1:{ destruct (Ph x) as [B1 B2]; [now split|]. rewrite <- B2 at 1. apply Af. now apply PN. }
    all: assert (Np : ~ primary g0 x) by (intros []; lia); rewrite Ho by auto;
      destruct (A x) as [|e ll] eqn:E1; [|exfalso; apply Np; apply Pnf; apply (Pf x e); rewrite E1; now left];
      destruct (adj x) as [|e ll] eqn:E2; [reflexivity|exfalso; apply Np; apply (P0 x e); rewrite E2; now left]. }
  assert (Arc : forall v e, In e (adj v) -> primary g0 v /\ primary g0 (enbr g0 e) /\ enbr gf e = vindex gd (enbr g0 e)).
  { intros v e He. destruct (arc_primary _ _ R0 P0 _ _ He) as [H1 H2]. do 2 (split; [auto|]).
    rewrite (rl_enbr _ _ _ RLf), Nbd by (rewrite EBd; apply (GraphSpec.st_used _ _ So _ _ He)). now rewrite (eqb_false_neq _ _ (Nil _ H2)). }
  assert (EqN : forall e, enbr gS e = enbr gf e).
  { intros e. destruct (Z_le_dec 2 e), (Z_lt_dec e (gp_EdgeInUseIndexBound g0)).
    1:{ rewrite (rl_enbr _ _ _ RLS), (rl_enbr _ _ _ RLf) by (rewrite ?EBF, ?EBd; lia). now rewrite NbF, Nbd. }
    all: rewrite (rl_unused _ _ _ RLS), (rl_unused _ _ _ RLf) by (rewrite ?EBF, ?EBd; lia); now rewrite NbF, Nbd. }
  assert (EqP : forall v, primary g0 v -> par gS v = par gf v /\ par gf v = if par gd (hp v) =? NIL then NIL else vindex gd (par gd (hp v))).
  { intros v Hv. destruct (Ph v Hv) as [B1 B2]. rewrite <- B2 at 1 2 3. rewrite (rl_parent _ _ _ RLS) by now apply PF.
    change (vindex gd) with (vindex gdF). rewrite (rl_parent _ _ _ RLf) by now apply PN. rewrite PaF. split; reflexivity. }
  assert (Pp : forall v, primary g0 v -> par gd v <> NIL -> primary g0 (par gd v)).
  { intros v Hv Hp. apply PN. apply (Pok v); [now apply PN|exact Hp]. }
  assert (TyS : forall u x, In x (adj u) -> etype gS x = etype gd x).
  { intros u x Hx. rewrite <- (ir_to _ _ _ _ _ _ _ _ _ I u x Hx ltac:(intros [[] _]) ltac:(intros [[] _])). unfold etype. rewrite (rl_eflags _ _ _ RLS). reflexivity. }
  assert (TyE : forall x, etype gS x = etype g x) by (intros x; unfold etype; rewrite (rl_eflags _ _ _ RLS); reflexivity).
  assert (TyF : forall x, etype gf x = etype gd x) by (intros x; unfold etype; rewrite (rl_eflags _ _ _ RLf); reflexivity).
  pose proof (ir_lnk _ _ _ _ _ _ _ _ _ I) as Lk.
  assert (AL : forall u, al A gS u = al adj g (hp u)).
  { intros u. unfold al. rewrite AE. apply filter_ext. intros x. now rewrite TyE. }
  assert (InO : forall v, primary g0 v -> In v ord) by (intros v Hv; apply (all_in g0 gd adj ord ta D L v Hv)).
  exists gS, gf, A, hp. split; [exact ES|]. split; [|].
  { constructor.
    - exact Rf.
    - exact Pf.
    - apply (relabelled_forest gdF adj gf A); auto.
    - split.
      + intros u e He. rewrite AE in He. destruct (Arc _ _ He) as (B1 & B2 & ->). intros E. apply (proj1 Sm _ _ He).
        rewrite <- E, Hi by auto. reflexivity.
      + intros u e e' He He'. rewrite AE in He, He'. destruct (Arc _ _ He) as (B1 & B2 & ->). destruct (Arc _ _ He') as (B3 & B4 & ->).
        intros E. apply Inj in E; auto. apply (proj2 Sm _ _ _ He He' E).
    - now rewrite NS, Nf.
    - rewrite (rl_M _ _ _ RLS), (rl_M _ _ _ RLf). unfold gF, gdF. gsimp. now rewrite (if_M _ _ Fr), (dff_M _ _ Fd).
    - rewrite (rl_cap _ _ _ RLS), (rl_cap _ _ _ RLf). unfold gF, gdF. gsimp. now rewrite (if_cap _ _ Fr), (dff_cap _ _ Fd).
    - rewrite (rl_holes _ _ _ RLS), (rl_holes _ _ _ RLf). unfold gF, gdF. gsimp. now rewrite (if_holes _ _ Fr), (dff_holes _ _ Fd).
    - rewrite (rl_holesCap _ _ _ RLS), (rl_holesCap _ _ _ RLf). unfold gF, gdF. gsimp. now rewrite (if_holesCap _ _ Fr), (dff_holesCap _ _ Fd).
    - exact EqN.
    - intros v Hv. apply Pnf in Hv. apply (EqP v Hv).
    - intros u x Hx. rewrite AE in Hx. now rewrite (TyS _ _ Hx), TyF.
    - destruct Lk as [[c1 c2 c3 c4 c5 c6 c7] k2 k3 k4 k5]. constructor.
      + assert (Hv' : forall x, is_vertex g0 x <-> is_vertex g0 (hp x)).
        { intros x. destruct (Z_le_dec 1 x), (Z_le_dec x N).
          1: destruct (Ph x) as [[] _]; [split; auto|]. 1: unfold is_vertex; lia.
          all: rewrite Ho; [reflexivity|intros [H1 H2]; lia]. }
        assert (Le : forall x, (hp x <=? N) = (x <=? N)).
        { intros x. destruct (Z_le_dec 1 x), (Z_le_dec x N).
          1: destruct (Ph x) as [[] _]; [split; auto|]; lia.
          all: rewrite Ho; [reflexivity|intros [H1 H2]; lia]. }
        assert (IsV : forall x, is_vertex (view g) x <-> is_vertex g0 x) by (intros x; unfold is_vertex, view; gsimp; now rewrite (if_N _ _ Fr)).
        assert (IsV' : forall x, is_vertex (view gS) x <-> is_vertex g0 x) by (intros x; unfold is_vertex, view; gsimp; now rewrite NS).
        constructor.
        * intros v Hv. rewrite AL. rewrite <- c1 by (apply IsV, (proj1 (Hv' v)), IsV', Hv). unfold view. gsimp. rewrite NS, (if_N _ _ Fr), Le, (sb_first _ _ _ SB). reflexivity.
        * intros v Hv. rewrite AL. rewrite <- c2 by (apply IsV, (proj1 (Hv' v)), IsV', Hv). unfold view. gsimp. rewrite NS, (if_N _ _ Fr), Le, (sb_last _ _ _ SB). reflexivity.
        * intros v Hv. rewrite AL. unfold view. gsimp. rewrite (rl_enext _ _ _ RLS), (rl_eprev _ _ _ RLS). apply c3. apply IsV, (proj1 (Hv' v)), IsV', Hv.
        * intros v Hv. rewrite AL. apply c4. intros Hv2. apply Hv. apply IsV', (proj2 (Hv' v)), IsV, Hv2.
        * intros v. rewrite AL. apply c5.
        * intros v w e. rewrite !AL. intros H1 H2. apply (sb_inj _ _ _ SB). apply (c6 _ _ e H1 H2).
        * intros v e. rewrite AL. intros He. pose proof (c7 _ _ He) as B. unfold gp_EdgeIndexBound, view in *. gsimp. gsimp_in B.
          rewrite (rl_cap _ _ _ RLS). unfold gF. gsimp. exact B.
      + intros u Hu. apply Pnf in Hu. destruct (sb_vi _ _ _ SB u) as (_ & _ & _ & _ & _ & _ & _ & ->). apply k2. apply (Ph u Hu).
      + intros u. rewrite (rl_enext _ _ _ RLS), (rl_eprev _ _ _ RLS). apply k3.
      + intros u f. rewrite AE, TyE. apply k4.
      + intros u. apply k5.
    - intros u. cbv beta. apply (sorted_ext (fun a b => vindex gd (enbr g0 a) < vindex gd (enbr g0 b))); [|apply (ir_srt _ _ _ _ _ _ _ _ _ I)].
      intros a b Ha Hb. apply (lk_in _ _ _ _ Lk) in Ha, Hb. destruct (Arc _ _ (proj1 Ha)) as (_ & _ & ->). destruct (Arc _ _ (proj1 Hb)) as (_ & _ & ->). auto.
    - pose proof (ir_kids _ _ _ _ _ _ _ _ _ I) as [h1 h2 h3 h4 h5 h6]. cbn [cl_c cl_heads] in *.
      assert (ESd : sdl gS = sdl g).
      { unfold sdl, gp_PrimaryVertexIndexBound. rewrite NS, (rl_X _ _ _ RLS). unfold gF. gsimp. now rewrite (if_N _ _ Fr). }
      constructor; cbn [cl_c cl_heads]; rewrite ?ESd; auto.
      + intros i. rewrite <- h1. unfold sdcheads. rewrite NS, (if_N _ _ Fr). destruct (sb_vi _ _ _ SB i) as (_ & _ & _ & _ & _ & _ & -> & _).
        destruct ((1 <=? i) && (i <=? N)) eqn:E1.
        * destruct (Ph i) as [[] _]; [split; lia|]. replace ((1 <=? hp i) && (hp i <=? N)) with true by lia. reflexivity.
        * rewrite Ho by (intros []; lia). now rewrite E1.
      + intros i x. apply h4.
      + intros i j x H1 H2. apply (sb_inj _ _ _ SB). apply (h5 _ _ x H1 H2).
    - intros u c. cbv beta. rewrite (ir_kid _ _ _ _ _ _ _ _ _ I). rewrite !Pnf. split.
      + intros (v & Hv & <- & Hp & Hn). apply (di_ord _ _ _ _ _ _ _ D) in Hv. destruct Hv as [Pv _].
        assert (Pu : primary g0 (hp u)) by (rewrite <- Hp; apply Pp; [auto|congruence]).
        assert (Pu2 : primary g0 u).
        { destruct (Z_le_dec 1 u), (Z_le_dec u N); [now split| | |]; rewrite Ho in Pu by (intros []; lia); exact Pu. }
        split; [now apply Pi|]. split; [exact Pu2|]. rewrite (proj2 (EqP _ (Pi v Pv))), Hi, Hp by auto. rewrite (eqb_false_neq _ _ Hn). apply (Ph u Pu2).
      + intros (Pc & Pu & E). destruct (Ph c Pc) as [B1 B2]. exists (hp c). split; [now apply InO|]. split; [exact B2|].
        rewrite (proj2 (EqP c Pc)) in E. destruct (Z.eqb_spec (par gd (hp c)) NIL) as [E1|E1]; [exfalso; apply (Nil u Pu); congruence|].
        rewrite <- E, Hi by (now apply Pp). auto.
    - intros u. apply (ir_ksort _ _ _ _ _ _ _ _ _ I).
    - intros v Hv Hp. apply Pnf in Hv. destruct (Ph v Hv) as [B1 B2]. rewrite (proj2 (EqP v Hv)) in Hp |- *.
      destruct (Z.eqb_spec (par gd (hp v)) NIL) as [E1|E1]; [congruence|]. pose proof (Pp _ B1 E1) as Pq.
      destruct (di_par _ _ _ _ _ _ _ D (hp v) (InO _ B1) E1) as (C1 & C2 & C3 & C4 & C5). rewrite AE, Hi by auto.
      destruct (ir_vt1 _ _ _ _ _ _ _ _ _ I (hp v) (InO _ B1) E1) as [D1 D2]. rewrite B2 in D1, D2.
      assert (Nv : ~ primary gF (N + v)) by (rewrite PF; intros []; destruct Hv; lia).
      destruct (rl_virtual _ _ _ RLS _ Nv) as (V1 & V2 & _). rewrite Nf, V1, V2, (Z.add_comm N v).
      split; [exact C3|]. split; [rewrite (proj2 (proj2 (Arc _ _ C3))); rewrite C4; exact B2|]. split; [rewrite TyF; exact C5|]. split; assumption.
    - intros v Hv Hp. apply Pnf in Hv. destruct (Ph v Hv) as [B1 B2]. rewrite (proj2 (EqP v Hv)) in Hp.
      assert (Nv : ~ primary gF (N + v)) by (rewrite PF; intros []; destruct Hv; lia).
      destruct (rl_virtual _ _ _ RLS _ Nv) as (V1 & V2 & _). rewrite Nf, V1, V2.
      apply (ir_vt2 _ _ _ _ _ _ _ _ _ I); [destruct Hv; lia|]. intros w Hw Hpw E.
      apply (di_ord _ _ _ _ _ _ _ D) in Hw. destruct Hw as [Pw _].
      assert (w = hp v) by (apply Inj; auto; lia). subst w. rewrite (eqb_false_neq _ _ Hpw) in Hp. apply (Nil _ (Pi _ (Pp _ Pw Hpw)) Hp).
    - intros v e He Ht. rewrite AE in He. destruct (Arc _ _ He) as (B1 & B2 & ->). destruct (sb_vi _ _ _ SB v) as (-> & _).
      apply (ir_la2 _ _ _ _ _ _ _ _ _ I _ _ (InO _ B1) He). now rewrite <- TyE, (TyS _ _ He), <- TyF.
    - intros v Hv. apply Pnf in Hv. destruct (Ph v Hv) as [B1 B2]. destruct (sb_vi _ _ _ SB v) as (-> & _).
      destruct (ir_la3 _ _ _ _ _ _ _ _ _ I (hp v) (InO _ B1)) as [Q|(e & He & Ht & Q)].
      + left. etransitivity; [exact Q|exact B2].
      + right. exists e. rewrite AE. split; [exact He|]. split; [now rewrite TyF, <- (TyS _ _ He), TyE|]. rewrite (proj2 (proj2 (Arc _ _ He))). exact Q.
    - intros x. destruct (sb_vi _ _ _ SB x) as (_ & _ & _ & -> & _). unfold gF. gsimp. rewrite (if_pe _ _ Fr). apply (er_pe _ _ E0).
    - apply empty_holds.
      + unfold brl. cbn [lcprev]. rewrite (rl_X _ _ _ RLS). unfold gF. gsimp. rewrite (if_X _ _ Fr). gsimp. apply (er_brl _ _ E0).
      + intros i. unfold prlheads. rewrite NS. destruct ((1 <=? i) && (i <=? N)) eqn:E1; [|reflexivity].
        destruct (sb_vi _ _ _ SB i) as (_ & _ & _ & _ & -> & _). unfold gF. gsimp. rewrite (if_pr _ _ Fr). apply (er_pr _ _ E0). apply Ph. split; lia.
    - intros u e He. rewrite AE in He. rewrite (rl_eflags _ _ _ RLS). unfold gF. gsimp. rewrite (land_inv _ _ (if_fl _ _ Fr e)). apply (er_inv _ _ E0 _ _ He).
    - rewrite (rl_stack _ _ _ RLS). unfold gF. gsimp. rewrite (ir_stk _ _ _ _ _ _ _ _ _ I). reflexivity.
    - rewrite (rl_cap _ _ _ RLf), (rl_stackCap _ _ _ RLS). unfold gF, gdF. gsimp. rewrite (dff_cap _ _ Fd), (if_stackCap _ _ Fr). apply (us_room _ _ U0). }
  split; [exact Nf|]. split; [rewrite (rl_M _ _ _ RLf); apply (dff_M _ _ Fd)|].
  split; [rewrite (rl_embed _ _ _ RLS); apply (if_embed _ _ Fr)|].
  split; [rewrite (sb_if _ _ _ SB); unfold gF; gsimp; now rewrite (if_if _ _ Fr)|].
  assert (Bk : forall x, primary g0 x -> vindex gS x = hp x).
  { intros x Hx. destruct (Ph x Hx) as [B1 B2]. rewrite <- B2 at 1. apply (rl_back _ _ _ RLS). now apply PF. }
  split; [intros x Hx; split; [apply (Ph x Hx)|now apply Bk]|]. split; [intros x y _ _; apply (sb_inj _ _ _ SB)|]. split; [exact AE|].
  intros v e He. destruct (Arc _ _ He) as (B1 & B2 & ->). split; [now apply Pi|]. rewrite Bk by now apply Pi. now apply Hi.
Qed.
End Init5.
