(** * EmbInit4: the state in which the initialisation leaves the graph to the main loop. *)
From Coq Require Import ZifyBool Permutation Sorted.
From Verif Require Import Base BaseP GraphRec GraphM GraphSpec GSimp LinkP GraphP GraphP2 GraphP4 GraphP5 ListM ListSpec ListP DFSM DFSSpec DFSP DFSP2 TestM TestSpec TestP TestP3 EmbM EmbSpec EmbP FaceP GeoP EmbInv EmbStep EmbTree EmbWalk EmbFan EmbUp EmbJoin EmbDown PlV3 EmbLoop EmbFin PlanSpec EmbC1 EmbC2 EmbC3 EmbC4 EmbInit EmbInit2 EmbInit3 EmbU.

(** [gS] is the graph after the search and the sorting, [gf] the same graph with all links and
    marks of a depth-first search in place, renumbered. *)
Record ready (gf gS : graph) (A F kids : Z -> list Z) (t : Z -> Z) : Prop := {
  q_rep : rep gf A; q_prim : primary_edges gf A; q_forest : dfs_forest gf A (par gf) (fun v => v); q_simple : simple_adj gf A;
  q_N : gN gS = gN gf; q_M : gM gS = gM gf; q_cap : gCap gS = gCap gf; q_holes : gholes gS = gholes gf; q_holesCap : gholesCap gS = gholesCap gf;
  q_enbr : forall e, enbr gS e = enbr gf e;
  q_par : forall v, primary gf v -> viParent (gVI gS) v = par gf v;
  q_ty : forall u x, In x (A u) -> etype gS x = etype gf x;
  q_lnk : lnk gf A gS F;
  q_srt : forall u, StronglySorted (fun a b => enbr gf a < enbr gf b) (F u);
  q_kids : kids_ok gS kids;
  q_kid : forall u c, In c (kids u) <-> primary gf c /\ primary gf u /\ par gf c = u;
  q_ksort : forall u, StronglySorted Z.lt (kids u);
  q_t : forall v, primary gf v -> par gf v <> NIL -> In (t v) (A (par gf v)) /\ enbr gf (t v) = v /\ etype gf (t v) = EDGE_TYPE_CHILD /\
    vfirst gS (gN gf + v) = t v /\ vlast gS (gN gf + v) = t v;
  q_vt2 : forall v, primary gf v -> par gf v = NIL -> vfirst gS (gN gf + v) = NIL /\ vlast gS (gN gf + v) = NIL;
  q_la : forall v e, In e (A v) -> etype gf e = EDGE_TYPE_BACK -> viLeast (gVI gS) v <= enbr gf e;
  q_lax : forall v, primary gf v -> viLeast (gVI gS) v = v \/ exists e, In e (A v) /\ etype gf e = EDGE_TYPE_BACK /\ viLeast (gVI gS) v = enbr gf e;
  q_pe : forall x, viPertEdge (gVI gS) x = NIL;
  q_pr : holds (mkCl (brl gS) (prlheads gS)) (fun _ => []);
  q_fl : forall u e, In e (A u) -> Z.land (eflags gS e) EDGEFLAG_INVERTED_MASK = 0;
  q_stk : gstack gS = []; q_room : 2 * gCap gf <= gstackCap gS }.

Section Ready.
Variables (gf gS : graph) (A F kids : Z -> list Z) (t : Z -> Z).
Hypothesis Q : ready gf gS A F kids t.
Local Notation N := (gN gf).
Local Notation pf := (par gf).

Definition tree (x : Z) : Prop := primary gf x /\ pf x <> NIL.
Lemma tree_tarc x : tree x <-> tarc gS x.
Proof.
  unfold tree, tarc, primary. rewrite (q_N _ _ _ _ _ _ Q). split; intros [H1 H2]; (split; [auto|]).
  - now rewrite (q_par _ _ _ _ _ _ Q) by auto.
  - rewrite (q_par _ _ _ _ _ _ Q) in H2 by auto. auto.
Qed.
Lemma pf_lt x : tree x -> primary gf (pf x) /\ pf x < x.
Proof. intros [H1 H2]. apply (df_parent _ _ _ _ (q_forest _ _ _ _ _ _ Q) x H1 H2). Qed.
Lemma t_facts x : tree x -> In (t x) (A (pf x)) /\ enbr gf (t x) = x /\ etype gf (t x) = EDGE_TYPE_CHILD /\ In (twin (t x)) (A x) /\ enbr gf (twin (t x)) = pf x /\ etype gf (twin (t x)) = EDGE_TYPE_PARENT.
Proof.
  intros [H1 H2]. destruct (q_t _ _ _ _ _ _ Q x H1 H2) as (B1 & B2 & B3 & _). destruct (arc_twin gf A (q_rep _ _ _ _ _ _ Q) _ _ B1) as (_ & B4 & B5 & B6).
  rewrite B2 in B4. do 5 (split; [assumption|]).
  destruct (df_edges _ _ _ _ (q_forest _ _ _ _ _ _ Q) _ _ B1) as [(C1 & C2 & _)|[(C1 & _)|[(C1 & _)|(C1 & _)]]]; try (rewrite B3 in C1; discriminate); [|exact C2].
  apply (proj1 (q_simple _ _ _ _ _ _ Q) _ _ B1).
Qed.
Lemma t_inj x y : tree x -> tree y -> t x = t y -> x = y.
Proof. intros H1 H2 E. destruct (t_facts _ H1) as (_ & E1 & _), (t_facts _ H2) as (_ & E2 & _). congruence. Qed.
Lemma t_tw x y : tree x -> tree y -> t x <> twin (t y).
Proof. intros H1 H2 E. destruct (t_facts _ H1) as (_ & _ & E1 & _), (t_facts _ H2) as (_ & _ & _ & _ & _ & E2). rewrite E, E2 in E1. discriminate. Qed.
(** The far end of every child arc is its tree child. *)
Lemma child_t u e : In e (A u) -> etype gf e = EDGE_TYPE_CHILD -> tree (enbr gf e) /\ e = t (enbr gf e).
Proof.
  intros He Ht. destruct (arc_primary gf A (q_rep _ _ _ _ _ _ Q) (q_prim _ _ _ _ _ _ Q) _ _ He) as [Pu Pe].
  destruct (df_edges _ _ _ _ (q_forest _ _ _ _ _ _ Q) _ _ He) as [(C1 & C2 & C3)|[(C1 & _)|[(C1 & _)|(C1 & _)]]]; try (rewrite Ht in C1; discriminate).
  { apply (proj1 (q_simple _ _ _ _ _ _ Q) _ _ He). }
  assert (Tw : tree (enbr gf e)) by (split; [auto|]; rewrite C3; destruct Pu; unfold NIL; lia). split; [exact Tw|].
  destruct (t_facts _ Tw) as (B1 & B2 & _). rewrite C3 in B1. apply (proj2 (q_simple _ _ _ _ _ _ Q) u); auto.
Qed.

Definition adj0 (x : Z) : list Z :=
  if (1 <=? x) && (x <=? N) then (if pf x =? NIL then [] else [twin (t x)])
  else if (N <? x) && (x <=? 2 * N) then (if pf (x - N) =? NIL then [] else [t (x - N)]) else [].
Lemma adj0_in x e : In e (adj0 x) <-> (tree x /\ e = twin (t x)) \/ (exists c, x = N + c /\ tree c /\ e = t c).
Proof.
  unfold adj0. destruct ((1 <=? x) && (x <=? N)) eqn:E1; [|destruct ((N <? x) && (x <=? 2 * N)) eqn:E2].
  - destruct (Z.eqb_spec (pf x) NIL) as [E3|E3].
    + split; [intros []|]. intros [[[_ H] _]|(c & -> & [[] _] & _)]; [congruence|lia].
    + split.
      * intros [<-|[]]. left. split; [split; [split; lia|auto]|reflexivity].
      * intros [[_ ->]|(c & -> & [[] _] & _)]; [now left|lia].
  - destruct (Z.eqb_spec (pf (x - N)) NIL) as [E3|E3].
    + split; [intros []|]. intros [[[[] _] _]|(c & -> & [_ H] & _)]; [lia|]. replace (N + c - N) with c in E3 by lia. congruence.
    + split.
      * intros [<-|[]]. right. exists (x - N). split; [lia|]. split; [split; [split; lia|auto]|reflexivity].
      * intros [[[[] _] _]|(c & -> & _ & ->)]; [lia|]. left. f_equal. lia.
  - split; [intros []|]. intros [[[[] _] _]|(c & -> & [[] _] & _)]; lia.
Qed.
Lemma adj0_v x : tree x -> adj0 x = [twin (t x)].
Proof. intros [[H1 H2] H3]. unfold adj0. replace ((1 <=? x) && (x <=? N)) with true by lia. now rewrite (eqb_false_neq _ _ H3). Qed.
Lemma adj0_r x : tree x -> adj0 (N + x) = [t x].
Proof.
  intros [[H1 H2] H3]. unfold adj0. replace ((1 <=? N + x) && (N + x <=? N)) with false by lia. replace ((N <? N + x) && (N + x <=? 2 * N)) with true by lia.
  replace (N + x - N) with x by lia. now rewrite (eqb_false_neq _ _ H3).
Qed.
Lemma adj0_no x : primary gf x -> pf x = NIL -> adj0 x = [] /\ adj0 (N + x) = [].
Proof.
  intros [H1 H2] H3. unfold adj0. replace ((1 <=? x) && (x <=? N)) with true by lia. replace ((1 <=? N + x) && (N + x <=? N)) with false by lia. replace ((N <? N + x) && (N + x <=? 2 * N)) with true by lia.
  replace (N + x - N) with x by lia. rewrite H3. auto.
Qed.

Lemma anc_pf h c w : (forall v, primary gf v -> viParent (gVI h) v = pf v) -> primary gf w -> ancestor (viParent (gVI h)) c w <-> ancestor pf c w.
Proof.
  intros E Pw. split; intros H.
  - revert Pw. induction H as [|w Hn H IH]; intros Pw; [constructor|]. rewrite E in * by auto. constructor 2; [auto|]. apply IH. apply (pf_lt w). split; auto.
  - revert Pw. induction H as [|w Hn H IH]; intros Pw; [constructor|]. constructor 2; rewrite E by auto; [auto|]. apply IH. apply (pf_lt w). split; auto.
Qed.
Lemma anc_le c w : primary gf w -> ancestor pf c w -> c <= w.
Proof. intros Pw H. revert Pw. induction H as [|w Hn H IH]; intros Pw; [lia|]. destruct (pf_lt w) as [P L]; [split; auto|]. specialize (IH P). lia. Qed.

Lemma fw_arc u f : In f (F u) <-> In f (A u) /\ etype gf f = EDGE_TYPE_FORWARD.
Proof. rewrite (lk_in _ _ _ _ (q_lnk _ _ _ _ _ _ Q)). split; intros [H1 H2]; (split; [auto|]); [rewrite <- (q_ty _ _ _ _ _ _ Q u) by auto|rewrite (q_ty _ _ _ _ _ _ Q u) by auto]; auto. Qed.
Lemma fw_facts u f : In f (F u) -> primary gf u /\ primary gf (enbr gf f) /\ enbr gf (twin f) = u /\ In (twin f) (A (enbr gf f)) /\ etype gf (twin f) = EDGE_TYPE_BACK /\ ancestor pf u (enbr gf f) /\ u <> enbr gf f.
Proof.
  intros H. apply fw_arc in H. destruct H as [H1 H2]. destruct (arc_twin gf A (q_rep _ _ _ _ _ _ Q) _ _ H1) as (_ & B4 & B5 & B6).
  destruct (arc_primary gf A (q_rep _ _ _ _ _ _ Q) (q_prim _ _ _ _ _ _ Q) _ _ H1) as [Pu Pe]. pose proof (proj1 (q_simple _ _ _ _ _ _ Q) _ _ H1) as Ne.
  destruct (df_edges _ _ _ _ (q_forest _ _ _ _ _ _ Q) _ _ H1 Ne) as [(C1 & _)|[(C1 & _)|[(C1 & C2 & C3)|(C1 & _)]]]; try (rewrite H2 in C1; discriminate). auto 10.
Qed.
Lemma fw_not_t u f x : In f (F u) -> tree x -> f <> t x /\ f <> twin (t x) /\ twin f <> t x /\ twin f <> twin (t x).
Proof.
  intros Hf Hx. pose proof Hf as Hf'. apply fw_arc in Hf'. destruct Hf' as [_ T1]. destruct (fw_facts _ _ Hf) as (_ & _ & _ & _ & T2 & _). destruct (t_facts _ Hx) as (_ & _ & T3 & _ & _ & T4).
  split; [|split; [|split]]; intros E; rewrite E in *; first [rewrite T1 in T3; discriminate|rewrite T1 in T4; discriminate|rewrite T2 in T3; discriminate|rewrite T2 in T4; discriminate].
Qed.

Definition V0 (h : graph) : gv := mkGV (enbr h) (eflags h) (ext0 (gX h)) (ext1 (gX h)) adj0 (fun _ => false) (fun R => [R - N]) (fun z => if pf z =? NIL then NIL else N + z).
Definition a0 (h : graph) : est := mkE (V0 h) F (fun _ => []) (viPertEdge (gVI h)) (viFPChild (gVI h)) (viVisited (gVI h)).

Lemma start_ok : exists h, for_down (Z.to_nat (gN gS)) (gN gS) einit_vertex gS = Ret h /\
  static h kids /\ rp h h (a0 h) [] /\ (forall EE : Z -> Z -> Prop, (forall x y, adjacent gf A x y -> EE x y) -> einv h kids EE N (a0 h)) /\ stor h (a0 h) /\
  (forall e, arc (a0 h) e <-> exists v, In e (A v)) /\ (forall e, (exists v, In e (A v)) -> pof h (enbr h e) = enbr gf e) /\
  gN h = N /\ vindex h = vindex gS /\ gM h = gM gf /\ gembed h = gembed gS /\ giflags h = giflags gS /\ eflags h = eflags gS /\ (forall v, primary gf v -> viParent (gVI h) v = pf v).
Proof.
  pose proof (q_rep _ _ _ _ _ _ Q) as R. pose proof (rep_storage _ _ R) as So. pose proof (q_forest _ _ _ _ _ _ Q) as Df.
  assert (Tr : forall x, tree x -> 2 <= t x < gp_EdgeInUseIndexBound gf /\ 2 <= twin (t x) < gp_EdgeInUseIndexBound gf).
  { intros x Hx. destruct (t_facts _ Hx) as (B1 & _ & _ & B4 & _). split; [apply (st_used _ _ So _ _ B1)|apply (st_used _ _ So _ _ B4)]. }
  destruct (vloop_ok gS kids t (q_kids _ _ _ _ _ _ Q)) as (h & Eh & I).
  { rewrite (q_N _ _ _ _ _ _ Q). apply So. }
  { intros u c Hc. apply (q_kid _ _ _ _ _ _ Q) in Hc. destruct Hc as (Pc & Pu & E). rewrite (q_N _ _ _ _ _ _ Q).
    assert (Tc : tree c) by (split; [auto|]; rewrite E; destruct Pu; unfold NIL; lia). destruct (pf_lt _ Tc). destruct Pc. lia. }
  { intros x Hx. apply tree_tarc in Hx. destruct (Tr x Hx). pose proof (GraphSpec.st_cap _ _ So). unfold inE. unfold gp_EdgeIndexBound in *. rewrite (q_cap _ _ _ _ _ _ Q). lia. }
  { intros x y Hx Hy. apply t_inj; now apply tree_tarc. }
  { intros x y Hx Hy. apply t_tw; now apply tree_tarc. }
  { intros x Hx. apply tree_tarc in Hx. rewrite (q_N _ _ _ _ _ _ Q). destruct Hx as [H1 H2]. destruct (q_t _ _ _ _ _ _ Q x H1 H2) as (_ & _ & _ & B). exact B. }
  exists h. split; [exact Eh|].
  pose proof (v_N _ _ _ _ _ I) as EN. rewrite (q_N _ _ _ _ _ _ Q) in EN.
  assert (Par : forall v, primary gf v -> viParent (gVI h) v = pf v).
  { intros v Hv. rewrite (v_VI _ _ _ _ _ I). gsimp. now apply (q_par _ _ _ _ _ _ Q). }
  assert (Done : forall x, tree x -> vfirst h x = twin (t x) /\ vlast h x = twin (t x) /\ enext h (t x) = NIL /\ eprev h (t x) = NIL /\
     enext h (twin (t x)) = NIL /\ eprev h (twin (t x)) = NIL /\ enbr h (twin (t x)) = N + x /\
     ext0 (gX h) x = N + x /\ ext1 (gX h) x = N + x /\ ext0 (gX h) (N + x) = x /\ ext1 (gX h) (N + x) = x).
  { intros x Hx. pose proof (v_done _ _ _ _ _ I x) as D. rewrite (q_N _ _ _ _ _ _ Q) in D. apply D; [destruct Hx as [[] _]; lia|now apply tree_tarc]. }
  assert (Nb : forall e, (forall x, tree x -> e <> twin (t x)) -> enbr h e = enbr gf e).
  { intros e He. rewrite (v_nb _ _ _ _ _ I), (q_enbr _ _ _ _ _ _ Q); [reflexivity|]. intros x _ Hx. apply He. now apply tree_tarc. }
  assert (NbF : forall u f, In f (F u) -> enbr h f = enbr gf f /\ enbr h (twin f) = u).
  { intros u f Hf. destruct (fw_facts _ _ Hf) as (_ & _ & E & _). rewrite <- E. split; apply Nb; intros x Hx; apply (fw_not_t u f x Hf Hx). }
  assert (NbT : forall x, tree x -> enbr h (t x) = x).
  { intros x Hx. rewrite Nb by (intros y Hy; now apply t_tw). apply (t_facts x Hx). }
  assert (Cap : gCap h = gCap gf) by (rewrite (v_cap _ _ _ _ _ I); apply (q_cap _ _ _ _ _ _ Q)).
  assert (Ty : forall u e, In e (A u) -> Z.land (eflags h e) EDGE_TYPE_MASK = etype gf e).
  { intros u e He. rewrite (v_eflags _ _ _ _ _ I). exact (q_ty _ _ _ _ _ _ Q u e He). }
  assert (Bound : gp_EdgeInUseIndexBound h = gp_EdgeInUseIndexBound gf /\ gp_EdgeIndexBound h = gp_EdgeIndexBound gf).
  { unfold gp_EdgeInUseIndexBound, gp_EdgeIndexBound. rewrite (v_M _ _ _ _ _ I), (v_holes _ _ _ _ _ I), (q_M _ _ _ _ _ _ Q), (q_holes _ _ _ _ _ _ Q), Cap. auto. }
  destruct Bound as [Bd1 Bd2].
  assert (PP : forall x, GeoP.prim (gN h) x <-> primary gf x) by (intros x; unfold GeoP.prim, primary; rewrite EN; tauto).
  assert (Anc : forall c w, primary gf w -> ancestor (viParent (gVI h)) c w <-> ancestor pf c w) by (intros c w; now apply anc_pf).
  assert (KT : forall u c, In c (kids u) -> tree c /\ pf c = u).
  { intros u c Hc. apply (q_kid _ _ _ _ _ _ Q) in Hc. destruct Hc as (Pc & Pu & E). split; [split; [auto|]|auto]. rewrite E. destruct Pu. unfold NIL. lia. }
  assert (St : static h kids).
  { constructor.
    - intros z Pz. rewrite PP in *. rewrite Par by auto. intros Hz. apply pf_lt. split; auto.
    - unfold kids_ok. replace (sdl h) with (sdl gS); [replace (sdcheads h) with (sdcheads gS); [apply Q|]|].
      + unfold sdcheads. rewrite (v_N _ _ _ _ _ I), (v_VI _ _ _ _ _ I). reflexivity.
      + unfold sdl, gp_PrimaryVertexIndexBound. rewrite (v_N _ _ _ _ _ I), (v_X _ _ _ _ _ I). reflexivity.
    - intros u c. rewrite !PP, (q_kid _ _ _ _ _ _ Q). split; intros (H1 & H2 & H3); rewrite Par in * by auto; auto.
    - apply Q.
    - intros c c' w Pc Pc' E Hn L Pw Hw. rewrite PP in *. rewrite !Par in * by auto. apply Anc in Hw; [|auto].
      destruct (Z_lt_le_dec w c') as [|L']; [assumption|exfalso].
      pose proof (df_preorder _ _ _ _ Df c c' w Pc Pc' Pw Hw ltac:(cbv beta; lia)) as Hc.
      inversion Hc as [E'|? Hn' Ha]; [lia|]. rewrite <- E in Ha. destruct (pf_lt c) as [P1 L1]; [split; auto|]. pose proof (anc_le _ _ P1 Ha). lia.
    - rewrite EN. pose proof (GraphSpec.st_N _ _ So). lia.
    - rewrite Cap, (v_stackCap _ _ _ _ _ I). apply Q. }
  split; [exact St|].
  assert (ArcI : forall e, arc (a0 h) e <-> exists v, In e (A v)).
  { intros e. unfold arc, a0. cbn [eV fw V0 adj]. split.
    - intros [(x & Hx)|(u & [Hu|Hu])].
      + apply adj0_in in Hx. destruct Hx as [[Tx ->]|(c & _ & Tc & ->)]; [exists x; apply (t_facts x Tx)|exists (pf c); apply (t_facts c Tc)].
      + exists u. now apply fw_arc.
      + destruct (fw_facts _ _ Hu) as (_ & _ & _ & H & _). rewrite tw_tw in H. eexists. exact H.
    - intros (v & Hv). destruct (arc_twin gf A R _ _ Hv) as (_ & B4 & B5 & B6).
      destruct (df_edges _ _ _ _ Df _ _ Hv (proj1 (q_simple _ _ _ _ _ _ Q) _ _ Hv)) as [(C1 & C2 & _)|[(C1 & C2 & _)|[(C1 & C2 & _)|(C1 & C2 & _)]]].
      + destruct (child_t _ _ Hv C1) as [Tx E]. left. exists (N + enbr gf e). rewrite (adj0_r _ Tx). left. symmetry. exact E.
      + destruct (child_t _ _ B4 C2) as [Tx E]. rewrite B6 in *. left. exists v. rewrite adj0_v by auto. left. rewrite <- E. apply tw_tw.
      + right. exists v. left. apply fw_arc. auto.
      + right. exists (enbr gf e). right. apply fw_arc. auto. }
  assert (Low : forall c w, primary gf w -> ancestor pf c w -> viLow (gVI h) c <= viLow (gVI h) w).
  { intros c w Pw H. revert Pw. induction H as [|w Hn H IH]; intros Pw; [lia|]. destruct (pf_lt w) as [P1 L1]; [split; auto|]. specialize (IH P1).
    destruct (v_info _ _ _ _ _ I (pf w)) as (_ & _ & _ & J & _); [rewrite (q_N _ _ _ _ _ _ Q); destruct P1; lia|].
    specialize (J w). rewrite (q_kid _ _ _ _ _ _ Q) in J. specialize (J (conj Pw (conj P1 eq_refl))). lia. }
  assert (Least : viLeast (gVI h) = viLeast (gVI gS)) by (rewrite (v_VI _ _ _ _ _ I); reflexivity).
  assert (BackF : forall x, primary gf x -> viLeast (gVI h) x < x -> exists f, In f (F (viLeast (gVI h) x)) /\ enbr h f = x).
  { intros x Px L. rewrite Least in *. destruct (q_lax _ _ _ _ _ _ Q x Px) as [E|(e & He & Te & E)]; [lia|]. rewrite E.
    destruct (arc_twin gf A R _ _ He) as (_ & B4 & B5 & B6).
    assert (Hf : In (twin e) (F (enbr gf e))).
    { apply fw_arc. split; [exact B4|].
      destruct (df_edges _ _ _ _ Df _ _ He (proj1 (q_simple _ _ _ _ _ _ Q) _ _ He)) as [(C1 & _)|[(C1 & _)|[(C1 & _)|(_ & C2 & _)]]]; try (rewrite Te in C1; discriminate). exact C2. }
    exists (twin e). split; [exact Hf|]. rewrite (proj1 (NbF _ _ Hf)). exact B6. }
  assert (LowX : forall n d, primary gf d -> N - d < Z.of_nat n -> exists w, primary gf w /\ ancestor pf d w /\ viLow (gVI h) d = viLeast (gVI h) w).
  { induction n as [|n IH]; intros d Pd Hn; [destruct Pd; lia|].
    destruct (v_info _ _ _ _ _ I d) as (_ & _ & _ & _ & [J|(c & Hc & J)]); [rewrite (q_N _ _ _ _ _ _ Q); destruct Pd; lia| |].
    - exists d. split; [exact Pd|]. split; [constructor|]. now rewrite Least.
    - destruct (KT _ _ Hc) as [Tc Ec]. pose proof (pf_lt c Tc) as [_ Lc]. destruct (IH c (proj1 Tc) ltac:(lia)) as (w & Pw & Aw & Ew).
      exists w. split; [exact Pw|]. split; [|congruence]. rewrite Ec in Lc. clear - Aw Ec Tc.
      induction Aw as [|w Hn Hw IHw]; [constructor 2; [apply Tc|rewrite Ec; constructor]|constructor 2; auto]. }
  assert (FwTree : forall u f, In f (F u) -> tree (enbr gf f)).
  { intros u f Hf. destruct (fw_facts _ _ Hf) as (_ & Pe & _ & _ & _ & Ha & Ne). split; [auto|]. inversion Ha; [congruence|auto]. }
  assert (Xa : forall x e, In e (adj0 x) -> exists u, In e (A u)).
  { intros x e Hx. apply ArcI. left. exists x. exact Hx. }
  assert (Ch : forall x e, In e (adj0 x) -> childarc (V0 h) e -> exists c, tree c /\ e = t c /\ x = N + c).
  { intros x e Hx Hc. pose proof Hx as Hx'. apply adj0_in in Hx. destruct Hx as [[Tx ->]|(c & -> & Tc & ->)]; [exfalso|eauto].
    destruct (t_facts x Tx) as (_ & _ & _ & B & _ & T). unfold childarc in Hc. cbn [V0 fl] in Hc. rewrite (Ty x) in Hc by auto. rewrite T in Hc. discriminate. }
  assert (ChT : forall x, tree x -> childarc (V0 h) (t x)).
  { intros x Hx. destruct (t_facts x Hx) as (B & _ & T & _). unfold childarc. cbn [V0 fl]. now rewrite (Ty _ _ B). }
  assert (Nd0 : forall v, NoDup (adj0 v)).
  { intros v. unfold adj0. destruct ((1 <=? v) && (v <=? N)); [destruct (pf v =? NIL); repeat constructor; auto|]. destruct ((N <? v) && (v <=? 2 * N)); [|constructor]. destruct (pf (v - N) =? NIL); repeat constructor; auto. }
  assert (Dj0 : forall v w e, In e (adj0 v) -> In e (adj0 w) -> v = w).
  { intros v w e Hv Hw. apply adj0_in in Hv. apply adj0_in in Hw. destruct Hv as [[Tv ->]|(c & -> & Tc & ->)], Hw as [[Tw E]|(c' & -> & Tc' & E)].
    - apply t_inj; auto. now apply tw_inj.
    - exfalso. now apply (t_tw c' v).
    - exfalso. now apply (t_tw c w).
    - f_equal. now apply t_inj. }
  split; [|split; [|split; [|split; [|split]]]].
  - constructor; cbn [a0 eV fw prl pe fpc vis V0 adj nb fl GeoP.e0 GeoP.e1]; auto.
    + apply keeps_refl.
    + rewrite Cap. apply So.
    + constructor; auto.
      * intros v Hv. unfold is_vertex, gp_VertexIndexBound in Hv. rewrite EN in Hv. destruct (Z_le_dec v N) as [L|L].
        -- destruct (Z.eq_dec (pf v) NIL) as [E|E].
           ++ rewrite (proj1 (adj0_no v ltac:(split; lia) E)). cbn [hd]. apply (v_root _ _ _ _ _ I v); [rewrite (q_N _ _ _ _ _ _ Q); lia|lia|]. rewrite (q_par _ _ _ _ _ _ Q) by (split; lia). exact E.
           ++ assert (Tx : tree v) by (split; [split; lia|auto]). rewrite (adj0_v v Tx). cbn [hd]. apply (Done v Tx).
        -- replace v with (N + (v - N)) by lia. rewrite (proj1 (v_virt _ _ _ _ _ I (N + (v - N)) ltac:(rewrite (q_N _ _ _ _ _ _ Q); lia))). destruct (Z.eq_dec (pf (v - N)) NIL) as [E|E].
           ++ rewrite (proj2 (adj0_no (v - N) ltac:(split; lia) E)). cbn [hd]. apply (q_vt2 _ _ _ _ _ _ Q (v - N)); [split; lia|auto].
           ++ assert (Tx : tree (v - N)) by (split; [split; lia|auto]). rewrite (adj0_r (v - N) Tx). cbn [hd]. destruct Tx as [T1 T2]. apply (q_t _ _ _ _ _ _ Q (v - N) T1 T2).
      * intros v Hv. unfold is_vertex, gp_VertexIndexBound in Hv. rewrite EN in Hv. destruct (Z_le_dec v N) as [L|L].
        -- destruct (Z.eq_dec (pf v) NIL) as [E|E].
           ++ rewrite (proj1 (adj0_no v ltac:(split; lia) E)). cbn [last]. apply (v_root _ _ _ _ _ I v); [rewrite (q_N _ _ _ _ _ _ Q); lia|lia|]. rewrite (q_par _ _ _ _ _ _ Q) by (split; lia). exact E.
           ++ assert (Tx : tree v) by (split; [split; lia|auto]). rewrite (adj0_v v Tx). cbn [last]. apply (Done v Tx).
        -- replace v with (N + (v - N)) by lia. rewrite (proj2 (v_virt _ _ _ _ _ I (N + (v - N)) ltac:(rewrite (q_N _ _ _ _ _ _ Q); lia))). destruct (Z.eq_dec (pf (v - N)) NIL) as [E|E].
           ++ rewrite (proj2 (adj0_no (v - N) ltac:(split; lia) E)). cbn [last]. apply (q_vt2 _ _ _ _ _ _ Q (v - N)); [split; lia|auto].
           ++ assert (Tx : tree (v - N)) by (split; [split; lia|auto]). rewrite (adj0_r (v - N) Tx). cbn [last]. destruct Tx as [T1 T2]. apply (q_t _ _ _ _ _ _ Q (v - N) T1 T2).
      * intros v _. assert (L1 : forall e, In e (adj0 v) -> enext h e = NIL /\ eprev h e = NIL).
        { intros e He. apply adj0_in in He. destruct He as [[Tx ->]|(c & _ & Tx & ->)]; destruct (Done _ Tx) as (_ & _ & D1 & D2 & D3 & D4 & _); auto. }
        assert (L2 : adj0 v = [] \/ exists e, adj0 v = [e]).
        { unfold adj0. destruct ((1 <=? v) && (v <=? N)); [destruct (pf v =? NIL); eauto|]. destruct ((N <? v) && (v <=? 2 * N)); [destruct (pf (v - N) =? NIL); eauto|auto]. }
        destruct L2 as [->|(e & Ee)]; [exact Logic.I|]. rewrite Ee in *. destruct (L1 e (or_introl eq_refl)) as [E1 E2]. cbn [linked hd]. auto.
      * intros v Hv. unfold is_vertex, gp_VertexIndexBound in Hv. rewrite EN in Hv. unfold adj0. replace ((1 <=? v) && (v <=? N)) with false by lia. now replace ((N <? v) && (v <=? 2 * N)) with false by lia.
      * intros v e He. destruct (Xa _ _ He) as (u & Hu). rewrite Bd2. apply (ch_range _ _ (rep_chains _ _ R) _ _ Hu).
    + intros u Hu. rewrite (v_VI _ _ _ _ _ I). gsimp. apply (lk_hd _ _ _ _ (q_lnk _ _ _ _ _ _ Q)). rewrite EN in Hu. exact Hu.
    + intros u Hu. destruct (F u) as [|f l] eqn:E; [reflexivity|exfalso]. apply Hu. rewrite EN. apply (fw_facts u f). rewrite E. now left.
    + intros u. pose proof (lk_ring _ _ _ _ (q_lnk _ _ _ _ _ _ Q) u) as Ri. unfold ring in *. eapply linked_ext; [|exact Ri].
      intros f Hf. apply (v_nx _ _ _ _ _ I). intros x _ Hx. apply tree_tarc in Hx. destruct (fw_not_t u f x Hf Hx) as (N1 & N2 & _). auto.
    + apply (lk_nd _ _ _ _ (q_lnk _ _ _ _ _ _ Q)).
    + intros u f Hf. apply fw_arc in Hf. rewrite Bd2. apply (ch_range _ _ (rep_chains _ _ R) _ _ (proj1 Hf)).
    + intros u u' f Hf Hf'. apply fw_arc in Hf. apply fw_arc in Hf'. apply (ch_disj _ _ (rep_chains _ _ R) _ _ f); tauto.
    + intros u x f Hf Hx. apply adj0_in in Hx. destruct Hx as [[Tx ->]|(c & _ & Tx & ->)]; destruct (fw_not_t u _ _ Hf Tx) as (N1 & N2 & _); congruence.
    + replace (brl h) with (brl gS); [replace (prlheads h) with (prlheads gS); [apply Q|]|].
      * unfold prlheads. rewrite (v_N _ _ _ _ _ I), (v_VI _ _ _ _ _ I). reflexivity.
      * unfold brl, gp_PrimaryVertexIndexBound, gp_VertexIndexBound. rewrite ?(v_N _ _ _ _ _ I), (v_X _ _ _ _ _ I). reflexivity.
    + rewrite (v_stk _ _ _ _ _ I). apply Q.
  - assert (HM : forall EE : Z -> Z -> Prop, (forall x y, adjacent gf A x y -> EE x y) -> EmbU.emore h EE N (a0 h)).
    { intros EE HE. constructor; cbn [a0 eV V0 nb fw].
      * intros u f Hf. rewrite (proj1 (NbF _ _ Hf)). apply fw_arc in Hf. split; [apply HE; exists f; split; [apply Hf|reflexivity]|]. apply (ch_nonnil _ _ _ _ (rep_chains _ _ R) (proj1 Hf)).
      * intros x Px _ L. rewrite PP in Px. now apply BackF.
      * intros d Pd _ L. rewrite PP in Pd. destruct (LowX (S (Z.to_nat N)) d Pd) as (w & Pw & Aw & Ew); [destruct Pd; lia|].
        pose proof (anc_le _ _ Pw Aw). destruct (BackF w Pw ltac:(lia)) as (f & Hf & Ef). exists f. rewrite Ew, Ef. split; [exact Hf|]. now apply Anc.
      * intros d (Pd & Hp & _). rewrite PP in Pd. rewrite Par in Hp by auto. assert (Td : tree d) by (split; auto). destruct (t_facts d Td) as (B1 & B2 & _ & B4 & B5 & _).
        exists [d]. split.
        -- constructor.
           ++ discriminate.
           ++ rewrite Par by auto. cbn [app EmbC1.lnk]. split; [apply HE; exists (t d); auto|]. split; [apply HE; exists (twin (t d)); auto|exact Logic.I].
           ++ repeat constructor; auto.
           ++ intros y [<-|[]]. split; [now apply PP|]. cbn [a0 eV V0 GeoP.B]. now rewrite (eqb_false_neq _ _ Hp), EN.
        -- cbn [a0 eV V0 X]. rewrite EN. replace (N + d - N) with d by lia. repeat constructor.
      * intros d _. left. cbn [a0 eV V0 X length]. lia. }
    intros EE HE. constructor.
    + constructor.
      * constructor; cbn [a0 eV V0 adj nb fl GeoP.o GeoP.B].
        -- intros v e He. apply adj0_in in He. destruct He as [[Tx ->]|(c & -> & Tx & ->)]; destruct (Done _ Tx) as (_ & _ & _ & _ & _ & _ & D & _).
           ++ rewrite tw_tw, D, (NbT _ Tx), (adj0_r _ Tx). split; [auto|now left].
           ++ rewrite D, (NbT _ Tx), (adj0_v _ Tx). split; [auto|now left].
        -- exact Nd0.
        -- exact Dj0.
        -- intros v e He. destruct (Xa _ _ He) as (u & Hu). apply (ch_range _ _ (rep_chains _ _ R) _ _ Hu).
        -- intros v e He. rewrite EN. apply adj0_in in He. destruct He as [[[[] _] _]|(c & -> & [[] _] & _)]; lia.
        -- intros z Pz. rewrite PP in Pz. rewrite Par, EN by auto. intros Hz _. now rewrite (eqb_false_neq _ _ Hz).
        -- intros z Pz. rewrite PP in Pz. rewrite !Par, EN by auto. intros Hz E. rewrite (adj0_r z) in E by (split; auto). discriminate.
        -- intros z Pz. rewrite PP in Pz. rewrite !Par, EN by auto. intros Hz. rewrite Hz. split; [reflexivity|]. now apply adj0_no.
        -- intros x e He _. unfold invarc. cbn [a0 eV V0 fl]. destruct (Xa _ _ He) as (u & Hu). rewrite (v_eflags _ _ _ _ _ I), (q_fl _ _ _ _ _ _ Q u e Hu). reflexivity.
        -- intros z Pz. rewrite PP in Pz. rewrite !Par, EN by auto. intros Hz. assert (Tx : tree z) by (split; auto). exists (t z). split; [apply (ChT z Tx)|]. split; [now apply NbT|].
           rewrite (adj0_r z Tx). rewrite (adj0_r z Tx). now left.
        -- intros x e He Hc. cbv zeta. destruct (Ch x e He Hc) as (c & Tc & -> & ->). rewrite (NbT _ Tc), EN. destruct Tc as [T1 T2]. rewrite Par by auto. split; [exact T1|auto].
        -- intros x y e e' He He' Hc Hc' E. destruct (Ch x e He Hc) as (c & Tc & -> & ->), (Ch y e' He' Hc') as (c' & Tc' & -> & ->). rewrite (NbT _ Tc), (NbT _ Tc') in E. congruence.
      * cbn [a0 eV]. intros Rt HR Na _. unfold GeoP.isroot in HR. rewrite EN in *. cbn [V0 adj] in Na.
        assert (Tc : tree (Rt - N)).
        { split; [split; lia|]. intros E. apply Na. replace Rt with (N + (Rt - N)) by lia. apply adj0_no; [split; lia|auto]. }
        set (c := Rt - N) in *. assert (ER : Rt = N + c) by (unfold c; lia). clearbody c. subst Rt.
        destruct (Done c Tc) as (_ & _ & _ & _ & _ & _ & D & X1 & X2 & X3 & X4).
        constructor; cbn [V0 X]; replace (N + c - N) with c by lia; cbn [hd].
        -- exists [t c], [[twin (t c)]], []. constructor; cbn [V0 X].
           ++ apply (pc_vperm _ _ [N + c; c]).
              ** cbn [concat app]. apply pc_edge; unfold rot; cbn [V0 adj nb GeoP.o]; [destruct Tc as [[] _]; lia|now apply adj0_r|now apply adj0_v|now apply NbT|exact D].
              ** unfold vsof. constructor. apply NoDup_Permutation; [repeat constructor; auto|apply mem_nodup|]. intros z. rewrite in_mem. cbn [V0 GeoP.B]. split.
                 --- intros [<-|[]]. destruct Tc as [[] T2]. rewrite (eqb_false_neq _ _ T2). unfold GeoP.prim. lia.
                 --- intros [Pz E]. destruct (pf z =? NIL); [unfold NIL in E; destruct Tc as [[] _]; lia|]. left. lia.
           ++ split; [discriminate|]. unfold rot. cbn [V0 GeoP.o adj]. now rewrite adj0_r.
           ++ constructor; [|constructor]. split; [discriminate|]. unfold rot. cbn [V0 GeoP.o adj]. now rewrite adj0_v.
           ++ cbn [linked hd]. unfold en, ep. cbn [V0 GeoP.o GeoP.e0 GeoP.e1]. auto.
           ++ unfold ep. cbn [V0 GeoP.o GeoP.e1 last]. exact X4.
           ++ discriminate.
           ++ repeat constructor; auto.
           ++ intros x [<-|[]]. destruct Tc as [[] T2]. cbn [V0 GeoP.B]. rewrite (eqb_false_neq _ _ T2). unfold GeoP.prim. lia.
           ++ intros x Hx. apply in_vsof in Hx. cbn [V0 GeoP.B adj] in *. destruct Hx as [->|[Pz E]]; [rewrite adj0_r by auto; discriminate|].
              destruct (Z.eqb_spec (pf x) NIL) as [E'|E']; [unfold NIL in E; destruct Tc as [[] _]; lia|]. rewrite adj0_v by (split; auto). discriminate.
        -- unfold en. cbn [V0 GeoP.o GeoP.e0]. exact X3.
        -- unfold ep. cbn [V0 GeoP.o GeoP.e1]. exact X2.
        -- reflexivity.
      * unfold GeoP.isroot, NIL. pose proof (GraphSpec.st_N _ _ So). lia.
    + constructor; cbn [a0 eV V0 adj nb fw].
      * intros u f Hf. destruct (NbF _ _ Hf) as [E1 _]. rewrite E1. destruct (fw_facts _ _ Hf) as (Pu & Pe & _ & _ & _ & Ha & Ne).
        destruct (via_of h kids St u (enbr gf f)) as (c & Hc); [now apply PP|now apply PP|now apply Anc|auto|]. exists c. split; [exact Hc|]. intros ->.
        destruct Hc as (_ & E & _). rewrite Par in E by auto. pose proof (FwTree _ _ Hf) as Tx. destruct (t_facts _ Tx) as (B1 & B2 & _). rewrite E in B1.
        apply fw_arc in Hf as Hf'. pose proof (proj2 (q_simple _ _ _ _ _ _ Q) u f _ (proj1 Hf') B1 ltac:(now rewrite B2)) as Eq. apply (proj1 (fw_not_t u f _ Hf Tx)). exact Eq.
      * intros u f Hf. apply (NbF _ _ Hf).
      * intros u f x Hf. split; intros Hx; apply adj0_in in Hx; destruct Hx as [[Tx E]|(c & _ & Tx & E)]; destruct (fw_not_t u _ _ Hf Tx) as (N1 & N2 & N3 & N4); congruence.
      * intros u u' f Hf Hf'. apply fw_arc in Hf'. destruct (fw_facts _ _ Hf) as (_ & _ & _ & _ & T & _). rewrite T in Hf'. destruct Hf'; discriminate.
      * intros u f Hf. pose proof Hf as Hf'. apply fw_arc in Hf'. destruct Hf' as [B1 T1]. destruct (fw_facts _ _ Hf) as (_ & _ & _ & B2 & T2 & _). unfold childarc. cbn [a0 eV V0 fl].
        rewrite (Ty _ _ B1), (Ty _ _ B2), T1, T2. split; discriminate.
      * intros u. assert (S1 : StronglySorted (fun a b => enbr gf a < enbr gf b) (F u)) by apply Q. assert (S2 : forall f, In f (F u) -> enbr h f = enbr gf f) by (intros f Hf; apply (NbF _ _ Hf)).
        induction S1 as [|a l Hl IHl Ha]; constructor; [apply IHl; intros f Hf; apply S2; now right|]. rewrite Forall_forall in *. intros b Hb. rewrite !S2 by (cbn; auto). now apply Ha.
      * intros u f Hf. destruct (NbF _ _ Hf) as [-> _]. rewrite Least. destruct (fw_facts _ _ Hf) as (_ & _ & E & B & T & _). pose proof (q_la _ _ _ _ _ _ Q _ _ B T) as L1. rewrite E in L1. exact L1.
      * intros u f c Hf Pc. destruct (NbF _ _ Hf) as [-> _]. destruct (fw_facts _ _ Hf) as (_ & Pe & E & B & T & _). rewrite Anc by auto. intros Ha.
        pose proof (Low _ _ Pe Ha). pose proof (q_la _ _ _ _ _ _ Q _ _ B T) as L1. rewrite E in L1.
        destruct (v_info _ _ _ _ _ I (enbr gf f)) as (_ & _ & J & _); [rewrite (q_N _ _ _ _ _ _ Q); destruct Pe; lia|]. lia.
    + intros w Pw. rewrite PP in Pw. exists [], (kids w). split; [reflexivity|]. split; [|intros c []]. cbn [a0 fpc].
      destruct (v_info _ _ _ _ _ I w) as (_ & J & _); [rewrite (q_N _ _ _ _ _ _ Q); destruct Pw; lia|]. exact J.
    + intros x. cbn [a0 pe]. rewrite (v_VI _ _ _ _ _ I). gsimp. apply (q_pe _ _ _ _ _ _ Q).
    + reflexivity.
    + intros y Py. pose proof Py as Py'. rewrite PP in Py. rewrite Par by auto. intros Hn _. split; [auto|]. rewrite Par, EN by auto. split; [auto|]. cbn [a0 eV V0 adj]. rewrite adj0_r by (split; auto). discriminate.
    + intros u f Lu Hf. cbn [a0 eV V0 nb X GeoP.B fw] in *. destruct (NbF _ _ Hf) as [-> _]. pose proof (FwTree _ _ Hf) as Tx. destruct (fw_facts _ _ Hf) as (Pu & Pe & _ & _ & _ & Ha & _). split.
      * rewrite (eqb_false_neq _ _ (proj2 Tx)). left. lia.
      * intros c (Pc & Hc & _) Hw. rewrite PP in Pc. rewrite Par in * by auto. intros L. rewrite Anc in Hw by auto.
        destruct (pf_lt c ltac:(split; auto)) as [Pp Lp].
        assert (Hpw : ancestor pf (pf c) (enbr gf f)).
        { clear - Hw Hc. induction Hw as [|w Hn Hw IH]; [constructor 2; [auto|constructor]|]. constructor 2; auto. }
        assert (Hup : ancestor pf u (pf c)).
        { clear - Ha Hpw L Pe Q. revert Pe Ha. induction Hpw as [|w Hn Hw IH]; intros Pe Ha; [auto|].
          inversion Ha as [E|w' Hn' Ha' E]; [|apply IH; [apply (pf_lt w); split; auto|auto]]. subst. exfalso.
          pose proof (anc_le (pf c) (pf w) ltac:(apply (pf_lt w); split; auto) Hw) as L1. destruct (pf_lt w ltac:(split; auto)). lia. }
        assert (Np : pf (pf c) <> NIL) by (inversion Hup; [lia|auto]).
        rewrite (eqb_false_neq _ _ Np). left. lia.
    + split; [intros _; split|].
      * intros y Py Hy. rewrite PP in Py. rewrite Par in Hy by auto. cbn [a0 eV V0 X GeoP.B]. rewrite (eqb_false_neq _ _ Hy). left. lia.
      * intros c (Pc & Hc & _). rewrite PP in Pc. rewrite Par in Hc by auto. assert (Tx : tree c) by (split; auto). rewrite EN. destruct (Done c Tx) as (_ & _ & _ & _ & _ & _ & D & _).
        cbn [a0 eV V0 X]. replace (N + c - N) with c by lia. apply cfan_one; unfold nbrs, rot; cbn [a0 eV V0 adj nb GeoP.o].
        -- rewrite (adj0_r c Tx). cbn [map]. now rewrite (NbT c Tx).
        -- rewrite (adj0_v c Tx). cbn [map]. now rewrite D.
      * intros Rt HR Na _. unfold GeoP.isroot in HR. rewrite EN in *. cbn [a0 eV V0 adj] in Na.
        assert (Tc : tree (Rt - N)).
        { split; [split; lia|]. intros E. apply Na. replace Rt with (N + (Rt - N)) by lia. apply adj0_no; [split; lia|auto]. }
        set (c := Rt - N) in *. assert (ER : Rt = N + c) by (unfold c; lia). clearbody c. subst Rt. destruct (Done c Tc) as (_ & _ & _ & _ & _ & _ & D & _).
        exists [t c; twin (t c)]. rewrite <- EN. apply (oface_edge h (eV (a0 h)) (gN h + c) c); rewrite ?EN; cbn [a0 eV V0 adj nb GeoP.o GeoP.B]; auto; [now apply adj0_r|now apply adj0_v| |].
        -- destruct Tc as [_ T2]. now rewrite (eqb_false_neq _ _ T2).
        -- apply PP. apply Tc.
    + intros u Hu. cbn [a0 fw]. destruct (F u) as [|f l] eqn:E; [reflexivity|exfalso]. destruct (fw_facts u f) as ([] & _); [rewrite E; now left|]. lia.
    + right. cbn [a0 fw vis]. split.
      * destruct (F N) as [|f l] eqn:E; [reflexivity|exfalso]. destruct (fw_facts N f) as (_ & Pe & _ & _ & _ & Ha & Ne); [rewrite E; now left|]. pose proof (anc_le _ _ Pe Ha). destruct Pe. lia.
      * intros x Px. rewrite PP in Px. destruct (v_info _ _ _ _ _ I x) as (J & _); [rewrite (q_N _ _ _ _ _ _ Q); destruct Px; lia|]. rewrite J, (q_N _ _ _ _ _ _ Q). lia.
    + intros _. now apply HM.
    + apply HM. intros x y _. exact Logic.I.
  - constructor; rewrite ?Bd1, ?Bd2.
    + rewrite EN. apply So.
    + rewrite (v_M _ _ _ _ _ I), (q_M _ _ _ _ _ _ Q). apply So.
    + apply So.
    + rewrite Cap, (v_holesCap _ _ _ _ _ I), (q_holesCap _ _ _ _ _ _ Q). apply So.
    + intros e He. apply ArcI in He. destruct He as (v & Hv). apply (st_used _ _ So _ _ Hv).
    + intros x Hx. rewrite (v_holes _ _ _ _ _ I), (q_holes _ _ _ _ _ _ Q) in Hx. destruct (st_holes _ _ So x Hx) as (H1 & H2 & H3). split; [auto|]. cbn [a0 eV V0 nb].
      assert (NT : forall y, tree y -> pf y <> NIL) by (intros y [_ Hy]; exact Hy).
      rewrite !Nb; auto; intros y Hy E; destruct (t_facts y Hy) as (_ & _ & _ & _ & E2 & _); apply (NT y Hy); congruence.
    + intros x Hx. rewrite (v_holes _ _ _ _ _ I), (q_holes _ _ _ _ _ _ Q) in Hx. destruct (st_holes _ _ So x Hx) as (H1 & H2 & H3). rewrite !ArcI.
      split; intros (v & Hv); destruct (arc_twin gf A R _ _ Hv) as (_ & _ & E1 & E2); destruct (q_prim _ _ _ _ _ _ Q _ _ Hv) as [Pv _]; [rewrite H3 in E2|rewrite tw_tw, H2 in E2]; unfold NIL in E2; lia.
    + rewrite (v_holes _ _ _ _ _ I), (q_holes _ _ _ _ _ _ Q). apply So.
    + intros e He. rewrite (v_holes _ _ _ _ _ I), (q_holes _ _ _ _ _ _ Q). destruct (st_cover _ _ So e He) as [H|H]; [left; apply ArcI; eauto|auto].
  - exact ArcI.
  - intros e (v & Hv). unfold pof. rewrite EN.
    assert (Pe : primary gf (enbr gf e)) by (apply (arc_primary gf A R (q_prim _ _ _ _ _ _ Q) _ _ Hv)).
    destruct (arc_twin gf A R _ _ Hv) as (_ & B4 & B5 & B6).
    destruct (Z.eq_dec (etype gf e) EDGE_TYPE_PARENT) as [T|T].
    + destruct (df_edges _ _ _ _ Df _ _ Hv (proj1 (q_simple _ _ _ _ _ _ Q) _ _ Hv)) as [(C1 & _)|[(C1 & C2 & C3)|[(C1 & _)|(C1 & _)]]]; try (rewrite T in C1; discriminate).
      destruct (child_t _ _ B4 C2) as [Tx E]. rewrite B6 in *. assert (E' : e = twin (t v)) by (rewrite <- E; symmetry; apply tw_tw).
      assert (E3 : enbr h e = N + v) by (rewrite E'; apply (Done v Tx)). rewrite E3. destruct Tx as [[T1 T2] T3]. replace (N + v <=? N) with false by lia. replace (N + v - N) with v by lia. rewrite (Par v (conj T1 T2)). exact C3.
    + rewrite Nb; [|intros x Hx E; destruct (t_facts x Hx) as (_ & _ & _ & _ & _ & T'); rewrite E in T; contradiction]. destruct Pe. now replace (enbr gf e <=? N) with true by lia.
  - split; [exact EN|]. split; [apply (v_vindex _ _ _ _ _ I)|]. split; [rewrite (v_M _ _ _ _ _ I); exact (q_M _ _ _ _ _ _ Q)|]. split; [apply (v_embed _ _ _ _ _ I)|]. split; [apply (v_if _ _ _ _ _ I)|]. split; [apply (v_eflags _ _ _ _ _ I)|exact Par].
Qed.
End Ready.
