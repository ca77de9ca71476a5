(** * IsoT: the outerplanar isolator leaves a subdivision of K2,3 or K4. *)
From Coq Require Import ZifyBool Permutation.
From Verif Require Import Base BaseP GraphRec GraphM GraphSpec GSimp LinkP GraphP GraphP2 GraphP3 ListM ListSpec DFSM DFSSpec DFSP TestM TestSpec TestP ObsSpec EmbM EmbSpec EmbP EmbP2 FaceP GeoP EmbInv EmbStep EmbTree EmbWalk EmbOrient EmbJoin EmbDown EmbDown3 EmbFan EmbStor FanP IsoM IsoP1 IsoP2 IsoP3 IsoP4 IsoO IsoO2 IsoX IsoX2 IsoX3 IsoX4 IsoK IsoI IsoF.

Lemma first_split (f : Z -> bool) l : (exists x, In x l /\ f x = true) -> exists l1 w l2, l = l1 ++ w :: l2 /\ f w = true /\ forall x, In x l1 -> f x = false.
Proof.
  induction l as [|y l IH]; intros (x & Hx & Fx); [destruct Hx|]. destruct (f y) eqn:E.
  - exists [], y, l. split; [auto|]. split; [auto|]. intros z [].
  - destruct IH as (l1 & w & l2 & -> & Fw & F1); [destruct Hx as [->|Hx]; [congruence|eauto]|]. exists (y :: l1), w, l2. split; [auto|]. split; [auto|]. intros z [<-|Hz]; auto.
Qed.
Definition pertb (a : est) (y : Z) : bool := negb (pe a y =? NIL) || negb (isnil (prl a y)).
(** What the isolator leaves: some of the edges, forming an obstruction. *)
Definition isolated (g0 : graph) (a : est) (h : graph) : Prop :=
  exists ME A, leaves g0 a ME h A /\ (bipartite_subdivision h A 2 3 \/ complete_subdivision h A 4).

Section Iso.
Variables (g0 : graph) (kids : Z -> list Z).
Hypothesis St : static g0 kids.
Local Notation N := (gN g0).
Local Notation p := (viParent (gVI g0)).
Local Notation prim := (prim (gN g0)).
Local Notation anc := (ancestor (viParent (gVI g0))).
Local Notation geo := (geo (gN g0) (viParent (gVI g0))).
Local Notation act := (act g0).
Local Notation rp := (rp g0).
Local Notation rpv := (rpv g0).

Lemma fw_anc a v : fwok g0 a -> forall f, In f (fw a v) -> prim (nb (eV a) f) /\ anc v (nb (eV a) f).
Proof.
  intros Fo f Hf. destruct (fo_via _ _ Fo v f Hf) as (c & (P1 & P2 & P3 & P4 & P5) & _). split; [auto|]. apply (anc_trans _ _ c); [|auto]. apply anc_step; rewrite P2; [unfold GeoP.prim, NIL in *; lia|constructor].
Qed.

(** The component R is mirrored as it is linked. *)
Lemma iso_core a d v g stk stk0 R0 : let s := eV a in let R := N + d in
  geo NIL [] s -> fwok g0 a -> peok v a -> prlok g0 v a -> act s d -> (forall y, prim y -> p y <> NIL -> In y (X s (B s y))) -> cfan (nbrs s) R (X s R) -> o s R = false ->
  noloop g0 a -> ptypes a -> stor g0 a -> prim v -> anc v (p d) ->
  pertb a (hd NIL (X s R)) = false -> pertb a (last (X s R) NIL) = false -> (exists w, In w (X s R) /\ pertb a w = true) ->
  (p d = v -> forall w, In w (X s R) -> pe a w <> NIL -> cover (nbrs s) (X s R) w) ->
  rp g a stk -> (stk = [] /\ stk0 = [] /\ R0 = R) \/ (exists y, stk = y :: R :: stk0) ->
  Z.of_nat (length stk0) + 2 * Z.of_nat (length (mem N s R)) <= gstackCap g0 -> (p d = v -> Z.of_nat (length stk0) + Z.of_nat (length (adj s R)) + 4 <= gstackCap g0) ->
  exists h, _IsolateOuterplanarObstruction g v R0 = Ret (h, C_OK) /\ isolated g0 a h.
Proof.
  intros s R G Fo Pe Pr Ad Ou Fs Oz NLp PT So Hv Avp P1 P2 P3 Cv H Hs Cap Cap2. subst s R.
  set (L := X (eV a) (N + d)) in *. destruct (L_facts g0 kids St a d G Ad) as (Ne & Nd & PL). fold L in Ne, Nd, PL.
  pose proof (proj1 Ad) as Pd. pose proof (proj1 (proj2 Ad)) as Npd. destruct (Hp g0 kids St d Pd Npd) as [Ppd Lpd].
  assert (Av : anc v d) by (now apply anc_step). assert (Nvd : v <> d) by (pose proof (anc_le _ _ St _ _ Ppd Avp); lia).
  destruct (first_split (pertb a) L P3) as (l1 & w & l2 & EL & Pw & F1).
  destruct l1 as [|x M1]; [rewrite EL in P1; cbn [app hd] in P1; congruence|].
  destruct (list_snoc l2) as [->|(M2 & y & ->)]; [rewrite EL, last_snoc in P2; congruence|]. cbn [app] in EL.
  assert (Iw : In w L) by (rewrite EL; right; apply in_app_iff; right; now left).
  assert (Hpr : forall z e, In z L -> In e (prl a z) -> prim e) by (intros z e _ He; destruct (Pr z e He) as (_ & _ & (A1 & _) & _); exact A1).
  unfold _IsolateOuterplanarObstruction.
  destruct (clear_ok g0 g a stk H) as (g1 & F & E1 & H1 & Mk1 & V1 & Iv1); [apply So|apply So|]. rewrite E1. cbn [bind]. clear E1.
  destruct (init_ok g0 kids St a d G Ad Ou Fs Oz (pertb a) x w M1 (M2 ++ [y])) with (g := g1) (F := F) (stk := stk) (stk0 := stk0) (R0 := R0) as (g2 & b & D & F2 & E2 & Cx); auto.
  { destruct M2; discriminate. }
  rewrite E2. cbn [bind]. clear E2. rewrite Z.eqb_refl. cbn [negb]. destruct Cx as [H2 Tu DT Mk2 V2 TR TX TY].
  pose proof (rpv_N g0 _ _ _ H2) as KN. pose proof (rpv_parent g0 _ _ _ H2) as Kp.
  unfold gp_GetPrimaryVertexFromRoot, gp_GetVertexParent, gp_GetDFSChildFromRoot. pose proof Pd as Pd'. unfold GeoP.prim in Pd'. rewrite vi_ok by lia. cbn [bind]. rewrite Kp, KN. replace (N + d - N) with d by lia.
  pose proof (fw_anc a v Fo) as Fv. destruct (PL w Iw) as (Ww & Bw & Aw & _). assert (Avw : anc v w) by (now apply (anc_trans _ _ d)).
  assert (EF : fw (setfl b F2) = fw a) by (cbn [setfl set_V fw]; apply (tu_fw _ _ _ Tu)). assert (EN : nb (eV (setfl b F2)) = nb (eV a)) by (cbn [setfl set_V v_fl eV nb]; apply (tu_nb _ _ _ Tu)).
  assert (EP : pe (setfl b F2) = pe a) by (cbn [setfl set_V pe]; apply (tu_pe _ _ _ Tu)). assert (ER : prl (setfl b F2) = prl a) by (cbn [setfl set_V prl]; apply (tu_prl _ _ _ Tu)).
  assert (Hroot : gp_GetVertexPertinentRootsList g2 w = Ret (hd NIL (prl a w))) by (rewrite (roots_hd_rpv g0 _ _ _ w H2 Ww), ER; reflexivity).
  (* the edge found *)
  set (minorA := negb (p d =? v)).
  assert (exists f minorB, (if minorA then Ret false else h <- gp_GetVertexPertinentRootsList g2 w ;; Ret (negb (h =? NIL))) = Ret minorB /\
    (if minorB then s <- gp_GetVertexLastPertinentRootChild g2 w ;; _FindUnembeddedEdgeToSubtree g2 v s else _FindUnembeddedEdgeToCurVertex g2 v w) = Ret (Some (nb (eV a) f)) /\
    In f (fw a v) /\ anc w (nb (eV a) f) /\ (nb (eV a) f = w \/ exists d', In d' (prl a w) /\ anc d' (nb (eV a) f)) /\ (minorB = true -> exists d', In d' (prl a w) /\ anc d' (nb (eV a) f)) /\
    (minorB = false -> p d = v -> pe a w <> NIL /\ nb (eV a) f = w)) as (f & minorB & E1 & E2 & If & Af & Hf & HB & HE).
  { assert (Fc : exists f, _FindUnembeddedEdgeToCurVertex g2 v w = Ret (Some (nb (eV a) f)) /\ In f (fw a v) /\ anc w (nb (eV a) f) /\ (pe a w <> NIL -> nb (eV a) f = w) /\ (nb (eV a) f = w \/ exists d', In d' (prl a w) /\ anc d' (nb (eV a) f))).
    { destruct (find_cur_ok g0 kids St g2 (setfl b F2) stk0 v w H2 Hv Ww Avw) as (f & Q); rewrite ?EF, ?EN, ?EP, ?ER in *; eauto.
      - intros e He. destruct (Pr w e He) as (Q1 & _ & (Q3 & _) & Q4). auto.
      - unfold pertb in Pw. apply orb_true_iff in Pw. destruct Pw as [Q|Q]; [left; lia|right; destruct (prl a w); [discriminate|discriminate]]. }
    destruct minorA eqn:EA.
    - destruct Fc as (f & Q1 & Q2 & Q3 & Q4 & Q5). exists f, false. split; [reflexivity|]. split; [exact Q1|]. split; [auto|]. split; [auto|]. split; [auto|]. split; [discriminate|]. intros _ Q. unfold minorA in EA. rewrite Q, Z.eqb_refl in EA. discriminate.
    - rewrite Hroot. cbn [bind]. rewrite (roots_hd g0) by (intros e; now apply Hpr). destruct (prl a w) as [|h0 t0] eqn:El.
      + destruct Fc as (f & Q1 & Q2 & Q3 & Q4 & Q5). exists f, false. split; [reflexivity|]. split; [exact Q1|]. split; [auto|]. split; [auto|]. split; [auto|]. split; [discriminate|].
        intros _ _. unfold pertb in Pw. rewrite El in Pw. cbn [isnil negb] in Pw. rewrite orb_false_r in Pw. assert (pe a w <> NIL) by lia. auto.
      + assert (Nn : prl (setfl b F2) w <> []) by (rewrite ER, El; discriminate). assert (Il : In (last (h0 :: t0) NIL) (prl a w)) by (rewrite El; apply last_In; discriminate). destruct (Pr w _ Il) as (Q1 & Q2 & (Q3 & Q3' & _) & Q4).
        assert (Avl : anc v (last (h0 :: t0) NIL)) by (apply anc_step; [auto|]; rewrite Q1; auto).
        destruct (find_subtree_ok g0 kids St g2 (setfl b F2) stk0 v (last (h0 :: t0) NIL) H2 Hv Q3 Avl) as (f & T1 & T2 & T3); rewrite ?EF, ?EN in *; auto.
        exists f, true. cbn [isnil negb]. split; [reflexivity|]. rewrite (last_root_ok g0 _ _ _ w H2 Ww Nn), ER, El. cbn [bind]. split; [exact T1|]. split; [auto|].
        assert (Awl : anc w (last (h0 :: t0) NIL)) by (apply anc_step; [auto|]; rewrite Q1; constructor). split; [now apply (anc_trans _ _ (last (h0 :: t0) NIL))|].
        rewrite <- El in *. split; [right; eauto|]. split; [eauto|discriminate]. }
  rewrite E1. cbn [bind]. rewrite E2. cbn [bind]. clear E1 E2. set (dw := nb (eV a) f) in *. assert (Pdw : prim dw) by (now apply Fv).
  pose proof (tu_same a D b Tu) as Sm. pose proof (tu_tw g0 a G D b Tu) as Tw. pose proof (tu_fan g0 kids St a d G Ad Ou Fs D b Tu DT) as Fn. fold L in Fn. pose proof (L_rng g0 kids St a d G Ad) as Rg. fold L in Rg.
  (* the X-Y path *)
  assert (exists g3 F3 XE, (if minorA || minorB then Ret (g2, true) else '(g, ret, _, py) <- _MarkHighestXYPath g2 (N + d) w ;; Ret (g, (ret =? C_OK) && negb (py =? NIL))) = Ret (g3, true) /\
    rpv g3 (setfl b F3) stk0 /\ marked g0 (fl (eV a)) F3 XE /\
    (XE = [] /\ minorA || minorB = true \/ minorA || minorB = false /\ exists px py e, XE = [e] /\ In px (x :: M1) /\ In py (M2 ++ [y]) /\ In e (adj (eV b) px) /\ nb (eV b) e = py)) as (g3 & F3 & XE & E3 & H3 & Mk3 & HX).
  { destruct (minorA || minorB) eqn:EM.
    - exists g2, F2, []. split; [reflexivity|]. split; [auto|]. split; [auto|]. auto.
    - apply orb_false_iff in EM. destruct EM as [EA EB]. assert (Epv : p d = v) by (unfold minorA in EA; lia). destruct (HE EB Epv) as [HE1 HE2].
      destruct (xy_path_ok g0 b (N + d) x w M1 (M2 ++ [y]) Tw (tu_loop g0 a G NLp D b Tu)) with (g := g2) (F := F2) (F0 := fl (eV a)) (stk := stk0) as (g3 & F3 & px & py & e & Q1 & Q2 & Q3 & Q4 & Q5 & Q6 & Q7); rewrite <- ?EL; auto.
      + destruct M2; discriminate.
      + apply (cover_mono (nbrs (eV a))); [|apply Cv; auto]. intros x' y' Hx' Hy'. rewrite (tu_nb _ _ _ Tu), (tu_adj _ _ _ Tu). unfold EmbOrient.dlist. rewrite DT; [exact Hy'|]. apply (vs_L g0 kids St a d G Ad Ou). now right.
      + assert (Ea : length (adj (eV b) (N + d)) = length (adj (eV a) (N + d))).
        { rewrite (tu_adj _ _ _ Tu). unfold EmbOrient.dlist, rot. destruct (D (N + d)); [|reflexivity]. destruct (o (eV a) (N + d)); [apply rev_length|reflexivity]. }
        rewrite Ea. auto.
      + apply So.
      + exists g3, F3, [e]. rewrite Q1. cbn [bind]. rewrite Z.eqb_refl. assert (Npy : py <> NIL). { assert (In py L) by (rewrite EL; right; apply in_app_iff; right; now right). destruct (PL py H0) as [Q _]. unfold GeoP.prim, NIL in *. lia. }
        rewrite eqb_false_neq by auto. split; [reflexivity|]. split; [auto|]. split; [auto|]. right. split; [auto|]. exists px, py, e. auto. }
  rewrite E3. cbn [bind negb]. clear E3.
  (* marking *)
  unfold isolate_minor.
  assert (LenL : Z.of_nat (length L) <= 2 * N).
  { apply NoDup_cons_iff in Nd. destruct Nd as [_ Q]. assert (length L <= length (zrange 1 (Z.to_nat N)))%nat; [|rewrite zrange_length in H0; lia].
    apply NoDup_incl_length; [auto|]. intros z Hz. destruct (PL z Hz) as [Q1 _]. unfold GeoP.prim in Q1. apply in_zrange. lia. }
  destruct (face_marked g0 b (N + d) L Tw Nd Rg (fan_rims g0 b (N + d) L Tw Nd Rg Fn Ne) g3 F3 (fl (eV a)) XE stk0 H3 Mk3 LenL) as (g4 & F4 & E4 & H4 & Mk4). rewrite E4. cbn [bind]. clear E4. change (map _ (N + d :: rev L)) with (rim g0 a d b) in Mk4.
  pose proof (g_base _ _ _ _ _ G) as G0. assert (Nb : forall e, nb (eV b) e = nb (eV a) e) by (intros e; now rewrite (tu_nb _ _ _ Tu)).
  assert (exists g5 F5 la, (if minorA then _MarkDFSPath g4 v (N + d) else Ret (g4, C_OK)) = Ret (g5, C_OK) /\ rpv g5 (setfl b F5) stk0 /\ marked g0 (fl (eV a)) F5 (la ++ rim g0 a d b ++ XE) /\
    (minorA = false /\ la = [] \/ minorA = true /\ ups g0 a v (p d) la)) as (g5 & F5 & la & E5 & H5 & Mk5 & HA).
  { destruct minorA eqn:EA; [|exists g4, F4, []; split; [reflexivity|]; split; [exact H4|]; split; [exact Mk4|left; auto]].
    destruct (mark_path_ok g0 kids St a G0 PT b Sm Nb (fl (eV a)) ltac:(reflexivity) stk0 v (N + d) g4 F4 (rim g0 a d b ++ XE) Hv H4 Mk4) as (g5 & F5 & la & Q1 & Q2 & Q3 & Q4); [right; exists d; auto|].
    exists g5, F5, la. split; [auto|]. split; [auto|]. split; [auto|]. right. split; [auto|]. now rewrite (pof_R g0 a d Ad) in Q4. }
  rewrite E5. cbn [bind]. rewrite Z.eqb_refl. cbn [negb]. clear E5.
  destruct (mark_path_ok g0 kids St a G0 PT b Sm Nb (fl (eV a)) ltac:(reflexivity) stk0 w dw g5 F5 _ Ww H5 Mk5) as (g6 & F6 & lb & E6 & H6 & Mk6 & Ub); [left; auto|]. rewrite (pof_prim g0 dw Pdw) in Ub.
  rewrite E6. cbn [bind]. rewrite Z.eqb_refl. cbn [negb]. clear E6.
  destruct (finish_ok g0 kids St a G0 Fo So NLp b stk0 g6 v dw (fl (eV a)) F6 _ H6 Mk6 Sm Nb) as (g7 & h & A & f' & E7 & E8 & Lv & If' & Ef'); [intros u e; now rewrite (tu_fw _ _ _ Tu)|exists f; auto|].
  rewrite E7. cbn [bind]. rewrite Z.eqb_refl. cbn [negb]. rewrite E8. cbn [bind]. exists h. split; [reflexivity|]. exists (f' :: lb ++ la ++ rim g0 a d b ++ XE), A. split; [exact Lv|].
  assert (Af' : arc a f') by (right; exists v; auto). assert (Sf' : src g0 a f' = v) by (unfold src; rewrite (fo_twin _ _ Fo v f' If'); now apply pof_prim). assert (Df' : dst g0 a f' = dw) by (unfold dst; rewrite Ef'; now apply pof_prim).
  destruct HA as [[EA ->]|[EA Ua]].
  - cbn [app] in Lv. assert (Epv : p d = v) by (unfold minorA in EA; lia). destruct HX as [[-> EM]|[EM (px & py & e & -> & Q4 & Q5 & Q6 & Q7)]].
    + rewrite EA in EM. cbn [orb] in EM. subst minorB. destruct (HB eq_refl) as (d' & D1 & D2). destruct (Pr w d' D1) as (D3 & _ & D4 & _). left. rewrite app_nil_r in Lv.
      apply (sub_B g0 kids St a d G Ad Ou Fs PT D b Tu DT v f' Av Nvd x y w M1 M2 EL Af' Sf' h A lb dw d'); auto.
    + rewrite EA in EM. cbn [orb] in EM. destruct (HE EM Epv) as [_ Edw]. rewrite Edw in Ub. assert (lb = []) as ->. { destruct lb as [|e0 lb]; [auto|]. cbn [ups] in Ub. destruct Ub as [Q _]. congruence. }
      right. destruct (in_split _ _ Q4) as (A1 & B1 & S1). destruct (in_split _ _ Q5) as (A2 & B2 & S2).
      apply (sub_E g0 kids St a d G Ad Ou Fs D b Tu DT v f' Av Nvd w Af' Sf' h A A1 px B1 A2 py B2 e); auto; [|congruence]. change (L = A1 ++ px :: B1 ++ w :: A2 ++ py :: B2). rewrite EL, S2. change (x :: M1 ++ w :: A2 ++ py :: B2) with ((x :: M1) ++ w :: A2 ++ py :: B2). rewrite S1, <- app_assoc. reflexivity.
  - assert (XE = []) as ->. { destruct HX as [[Q _]|[Q _]]; [auto|]. rewrite EA in Q. discriminate. } rewrite app_nil_r in Lv.
    assert (Nv : p d <> v) by (unfold minorA in EA; lia). left. destruct Hf as [Hf|(d' & D1 & D2)].
    + apply (sub_A g0 kids St a d G Ad Ou Fs PT D b Tu DT v f' Hv Av Nvd x y w M1 M2 EL Af' Sf' h A la lb dw 0); auto.
    + destruct (Pr w d' D1) as (D3 & _ & D4 & _). apply (sub_A g0 kids St a d G Ad Ou Fs PT D b Tu DT v f' Hv Av Nvd x y w M1 M2 EL Af' Sf' h A la lb dw d'); auto.
Qed.
End Iso.
