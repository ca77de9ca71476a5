(** * IsoKD: isolating the nonplanarity minors C, D and E. *)
From Coq Require Import ZifyBool Permutation.
From Verif Require Import Base BaseP GraphRec GraphM GraphSpec GSimp LinkP GraphP GraphP2 GraphP3 ListM ListSpec DFSM DFSSpec DFSP TestM TestSpec TestP TestP3 ObsSpec EmbM EmbSpec EmbP EmbP2 FaceP GeoP EmbInv EmbStep EmbTree EmbWalk EmbOrient EmbJoin EmbDown EmbDown3 EmbFan EmbStor FanP IsoM IsoKM IsoP1 IsoP2 IsoP3 IsoP4 IsoO IsoO2 IsoX IsoX2 IsoX3 IsoX4 PlV PlV3 PlI IsoKI IsoKU IsoK IsoKK IsoKA IsoI IsoF IsoT IsoKP IsoKB IsoKZ IsoKC.

Section KD.
Variables (g0 : graph) (kids : Z -> list Z).
Hypothesis St : static g0 kids.
Local Notation N := (gN g0).
Local Notation p := (viParent (gVI g0)).
Local Notation prim := (prim (gN g0)).
Local Notation anc := (ancestor (viParent (gVI g0))).
Local Notation geo := (geo (gN g0) (viParent (gVI g0))).
Local Notation act := (act g0).
Local Notation rpv := (rpv g0).
Local Notation marked := (marked g0).
Local Notation vsof := (vsof (gN g0)).
Local Notation pof := (pof g0).
Variables (a : est) (d : Z) (L : list Z).
Local Notation s := (eV a).
Local Notation R := (gN g0 + d).
Hypothesis G : geo NIL [] s.
Hypothesis Ad : act s d.
Hypothesis LW : Lw g0 s R L.
Hypothesis FW : fwok g0 a.
Hypothesis PT : ptypes a.
Hypothesis SO : stor g0 a.
Hypothesis NL : noloop g0 a.
Local Notation G0 := (g_base _ _ _ _ _ G).
Local Notation src := (IsoF.src g0 a).
Local Notation dst := (IsoF.dst g0 a).
Local Notation con ME := (con (IsoF.src g0 a) (IsoF.dst g0 a) (ok a ME)).
Local Notation con0 ME := (con0 (IsoF.src g0 a) (IsoF.dst g0 a) (ok a ME)).
Local Notation way := (way g0 a).
Let FA := K_facts g0 kids St a d L G Ad LW.
Variables (D : Z -> bool) (b : est) (f : Z -> Z) (stk : list Z).
Hypothesis Tu : turned a D b.
Hypothesis DT : forall x, In x (vsof s R) -> D x = true.
Local Notation b' := (setfp b f).
Local Notation lst := (lst b).
Local Ltac dsj H := first [exact H|left; dsj H|right; dsj H].
Local Ltac djt H := lazymatch type of H with _ \/ _ => destruct H as [H|H]; [djt H|djt H] | False => destruct H | _ => dsj H end.
Local Ltac incm := let e := fresh "e" in let H := fresh "H" in intros e; repeat (cbn [In app map]; rewrite ?map_app, ?in_app_iff); intros H; djt H.
Local Notation sym ME := (con_sym src dst (ok a ME) (src_twin g0 a) (dst_twin g0 a) (ok_twin g0 a G ME)).

Lemma segm g F ME l1 u m w l2 : R :: L ++ [R] = l1 ++ u :: m ++ l2 -> m <> [] -> last m NIL = w -> rpv g (setfl b' F) stk -> marked (fl s) F ME ->
  exists g' F', _MarkPathAlongBicompExtFace g u w = Ret g' /\ rpv g' (setfl b' F') stk /\ marked (fl s) F' (map lst m ++ ME).
Proof.
  intros E Ne Ew H M. destruct (list_snoc m) as [Q|(k & z & ->)]; [congruence|]. rewrite last_snoc in Ew. subst z. rewrite <- app_assoc in E. exact (seg_mark g0 kids St a d L G Ad LW D b Tu DT f (fl s) stk g F ME l1 u k w l2 E H M).
Qed.
(** the X-Y path *)
Variables (px py : Z) (pa : list Z).
Hypothesis CH : achain a px pa py.
Hypothesis NEp : pa <> [].
Hypothesis NDp : NoDup (px :: map (nb s) pa).
Hypothesis INp : forall e, In e (removelast pa) -> In (nb s e) (mem N s R) /\ nb s e <> R /\ ~ In (nb s e) L.
Hypothesis Ipx : In px L.
Hypothesis Ipy : In py L.
Local Notation Q := (map (nb s) (removelast pa)).
Lemma primL z : In z L -> prim z /\ B s z = R.
Proof. intros H. destruct (proj2 FA z H) as (P1 & P2 & _). auto. Qed.
Lemma q_in z : In z Q -> prim z /\ B s z = R /\ ~ In z L.
Proof. intros H. apply in_map_iff in H. destruct H as (e & <- & He). destruct (INp e He) as (P1 & _ & P2). apply in_mem in P1. tauto. Qed.
Lemma q_con ME : incl pa ME -> con ME px Q py pa.
Proof. intros I. apply (ach_in g0 a G ME pa px py CH NEp I); [now apply primL|now apply primL|]. intros e He. apply q_in. now apply in_map. Qed.
Lemma lq_nd : NoDup (L ++ Q).
Proof.
  apply NoDup_app_intro.
  - destruct FA as [Nd _]. now apply NoDup_cons_iff in Nd.
  - apply NoDup_cons_iff in NDp. destruct NDp as [_ Nd]. rewrite <- (rl_map a). clear - Nd. revert Nd. generalize (map (nb s) pa) as l. intros l. induction l as [|q l IH]; intros Nd; [constructor|]. destruct l as [|q2 l]; [constructor|]. change (removelast (q :: q2 :: l)) with (q :: removelast (q2 :: l)). apply NoDup_cons_iff in Nd. constructor; [|now apply IH]. intros H. apply (proj1 Nd). revert H. clear. generalize (q2 :: l) as k. induction k as [|z k IH]; [intros []|]. destruct k as [|z2 k]; [intros []|]. change (removelast (z :: z2 :: k)) with (z :: removelast (z2 :: k)). intros [H|H]; [now left|right; auto].
  - intros z Z1 Z2. now apply (q_in z).
Qed.
Lemma lq_in z : In z (L ++ Q) -> prim z /\ B s z = R.
Proof. intros H. apply in_app_iff in H. destruct H as [H|H]; [now apply primL|]. destruct (q_in z H) as (P1 & P2 & _). auto. Qed.

Variables (Px Py Pw Pz : Z -> Prop).
(** ** Minors with two ways to ancestors *)
Lemma base2 g F MF i : rpv g (setfl b' F) stk -> marked (fl s) F MF -> In (ix i) L -> In (iy i) L -> In (iw i) L -> ix i <> iy i -> ix i <> iw i -> iw i <> iy i ->
  way Px (ix i) (iux i) (idx i) -> way Py (iy i) (iuy i) (idy i) -> way Pw (iw i) (iv i) (idw i) -> iv i = p d -> idz i = NIL -> iux i < p d -> iuy i < p d ->
  exists g' h A ME Jx Jy Jw I0 K lx ly lw t0 t2 mx mn, finish_minor g i (Z.min (iux i) (iuy i)) R = Ret (g', C_OK) /\ _DeleteUnmarkedVerticesAndEdges g' = Ret h /\ leaves g0 a ME h A /\ incl MF ME /\
    con ME (ix i) Jx (iux i) lx /\ con ME (iy i) Jy (iuy i) ly /\ con ME (iw i) Jw (p d) lw /\ con ME (p d) I0 mx t0 /\ con0 ME mx K mn t2 /\ (iux i = mx /\ iuy i = mn \/ iux i = mn /\ iuy i = mx) /\
    (forall C, NoDup C -> (forall z, In z C -> prim z /\ B s z = R) -> NoDup ((p d :: I0 ++ K ++ [mn]) ++ C ++ Jx ++ Jy ++ Jw)) /\ incl ME (MF ++ (t0 ++ t2) ++ lx ++ ly ++ lw).
Proof.
  intros H M Ix Iy Iw Nxy Nxw Nwy Wx Wy Ww Ev Ez Lx Ly. destruct (way_prim g0 kids St a FW _ _ _ _ Wx) as (Pdx & Pux & _). destruct (way_prim g0 kids St a FW _ _ _ _ Wy) as (Pdy & Puy & _). destruct (pd_facts g0 kids St a d Ad) as [Ppd Lpd].
  pose proof (way_up g0 kids St a d L G Ad LW FW _ _ _ _ Ix Wx ltac:(lia)) as Ux. pose proof (way_up g0 kids St a d L G Ad LW FW _ _ _ _ Iy Wy ltac:(lia)) as Uy.
  set (mn := Z.min (iux i) (iuy i)). set (mx := Z.max (iux i) (iuy i)).
  assert (HM : (iux i = mx /\ iuy i = mn \/ iux i = mn /\ iuy i = mx) /\ mn <= mx < p d) by (unfold mx, mn; lia). destruct HM as [HM Lm].
  assert (Pmn : prim mn /\ anc mn (p d)) by (destruct HM as [[_ <-]|[<- _]]; auto). assert (Pmx : prim mx /\ anc mx (p d)) by (destruct HM as [[<- _]|[_ <-]]; auto). destruct Pmn as [Pmn Umn], Pmx as [Pmx Umx].
  assert (Amn : anc mn mx) by (apply (anc_total _ _ St _ _ (p d)); auto; lia).
  destruct (base g0 kids St a d L G Ad LW FW PT SO NL D b f stk Tu Px Py Pw Pz g F MF i mn R H M Ix Iy Iw Nxy Nxw Nwy Wx Wy Ww Ev (or_introl Ez) Pmn (or_intror (conj eq_refl Umn))) as (g' & h & A & ME & tl & Jx & Jy & Jw & Jz & lx & ly & lw & lz & T1 & T2 & K).
  pose proof (lg_u _ _ _ _ _ _ _ _ _ _ _ _ _ _ _ _ _ _ _ K) as U. rewrite (pof_R g0 a d Ad) in U.
  destruct (tree2 g0 kids St a d L G Ad LW PT ME mn mx tl Pmn Pmx ltac:(lia) Amn Umx U (lg_t _ _ _ _ _ _ _ _ _ _ _ _ _ _ _ _ _ _ _ K)) as (I0 & K0 & t0 & t2 & Et & C0 & C2 & Nd & Lt).
  destruct (lg_z _ _ _ _ _ _ _ _ _ _ _ _ _ _ _ _ _ _ _ K) as [(_ & -> & ->)|[Cz _]]; [|congruence].
  exists g', h, A, ME, Jx, Jy, Jw, I0, K0, lx, ly, lw, t0, t2, mx, mn. destruct K as [K1 K2 K3 K4 K5 K6 K7 K8 K9 K10]. rewrite Ev in K8. rewrite Et, !app_nil_r in K4. split; [auto|]. split; [auto|]. split; [auto|]. split; [auto|]. split; [auto|]. split; [auto|]. split; [auto|]. split; [auto|]. split; [auto|]. split; [auto|]. split; [|exact K4].
    intros C NC HC. specialize (K10 _ C Nd Lt NC HC). rewrite app_nil_r in K10. exact K10.
Qed.

(** Minor C, with px above x. *)
Lemma iso_C g F i x w y B0 B1 A1 : rpv g (setfl b' F) stk -> marked (fl s) F pa -> ir i = R -> ix i = x -> iy i = y -> iw i = w -> ipx i = px -> ipy i = py ->
  vtype g px = OBS_HIGH_RXW ->
  (exists A2 C0 C1, L = B0 ++ px :: B1 ++ x :: A1 ++ w :: A2 ++ y :: C0 ++ py :: C1 /\ vtype g py = OBS_HIGH_RYW) \/ (exists C0 C1 A3, L = B0 ++ px :: B1 ++ x :: A1 ++ w :: C0 ++ py :: C1 ++ A3 /\ last (py :: C1) NIL = y /\ vtype g py <> OBS_HIGH_RYW) ->
  way Px x (iux i) (idx i) -> way Py y (iuy i) (idy i) -> way Pw w (iv i) (idw i) -> iv i = p d -> idz i = NIL -> iux i < p d -> iuy i < p d ->
  exists g' h, _IsolateMinorC g i = Ret (g', C_OK) /\ _DeleteUnmarkedVerticesAndEdges g' = Ret h /\ kisolated g0 a h.
Proof.
  intros H M Er Ex Ey Ew Epx Epy Tx Cs Wx Wy Ww Ev Ez Lx Ly. unfold _IsolateMinorC. rewrite Epx, Epy, Ex, Ey, Er. unfold gp_GetVertexObstructionType.
  assert (Rg : forall z, In z L -> 1 <= z <= 2 * N) by (intros z Hz; destruct (primL z Hz) as [Q1 _]; unfold GeoP.prim in Q1; lia).
  rewrite (rd_vflags_rpv g0 _ _ _ _ H (Rg px Ipx)). cbn [bind]. fold (vtype g px). rewrite Tx, Z.eqb_refl. rewrite (rd_vflags_rpv g0 _ _ _ _ H (Rg py Ipy)). cbn [bind]. fold (vtype g py).
  pose proof lq_nd as NdQ. destruct Cs as [(A2 & C0 & C1 & EL & Ty)|(C0 & C1 & A3 & EL & Hy & Ty)].
  - rewrite Ty, Z.eqb_refl. assert (IL : forall z, z = x \/ z = w \/ z = y -> In z L) by (intros z Hz; rewrite EL; repeat (rewrite in_app_iff; cbn [In]); intuition).
    assert (NdL : NoDup L) by (now apply NoDup_app_l in NdQ). rewrite EL in NdQ, NdL.
    assert (Ne : x <> y /\ x <> w /\ w <> y). { clear - NdL. apply NoDup_app_r, NoDup_cons_iff in NdL. destruct NdL as [_ NdL]. apply NoDup_app_r, NoDup_cons_iff in NdL. destruct NdL as [N1 NdL]. apply NoDup_app_r, NoDup_cons_iff in NdL. destruct NdL as [N2 NdL]. split; [|split]; intros ->; [apply N1|apply N1|apply N2]; repeat (rewrite in_app_iff; cbn [In]); tauto. }
    destruct Ne as (Nxy & Nxw & Nwy).
    destruct (segm g F pa [] R (B0 ++ px :: B1 ++ x :: A1 ++ w :: A2 ++ y :: C0 ++ [py]) py (C1 ++ [R])) as (g1 & F1 & E1 & H1 & M1); [rewrite EL; cbn [app]; repeat (rewrite <- ?app_assoc; cbn [app]); reflexivity|destruct B0; discriminate|change (B0 ++ px :: B1 ++ x :: A1 ++ w :: A2 ++ y :: C0 ++ [py]) with (B0 ++ (px :: B1) ++ (x :: A1) ++ (w :: A2) ++ (y :: C0) ++ [py]); rewrite !app_assoc; apply last_snoc|exact H|exact M|]. rewrite E1. cbn [bind].
    destruct (base2 g1 F1 _ i H1 M1) as (g' & h & A & ME & Jx & Jy & Jw & I0 & K & lx & ly & lw & t0 & t2 & mx & mn & T1 & T2 & Lv & IM & Cx & Cy & Cw & Ct & Ck & HM & ND & Cov); rewrite ?Ex, ?Ey, ?Ew; auto.
    exists g', h. split; [exact T1|]. split; [exact T2|]. exists ME, A. split; [exact Lv|]. left. destruct (leaves_in g0 a h A ME Lv) as (K1 & K2 & _).
    rewrite Ex in Cx. rewrite Ey in Cy. rewrite Ew in Cw.
    assert (J : forall k, incl k (map lst (B0 ++ px :: B1 ++ x :: A1 ++ w :: A2 ++ y :: C0 ++ [py]) ++ pa) -> incl k ME) by (intros k Hk e He; auto).
    assert (D0 : con ME (p d) B0 px (map lst (B0 ++ [px]))) by (apply (seg_from g0 kids St a d L G Ad LW D b Tu DT ME B0 px _ EL); apply J; incm).
    assert (D1 : con ME px B1 x (map lst (B1 ++ [x]))) by (apply (seg_in g0 kids St a d L G Ad LW D b Tu DT ME B0 px B1 x _ EL); apply J; incm).
    assert (D2 : con ME x A1 w (map lst (A1 ++ [w]))) by (apply (seg_in g0 kids St a d L G Ad LW D b Tu DT ME (B0 ++ px :: B1) x A1 w (A2 ++ y :: C0 ++ py :: C1)); [rewrite EL; repeat (rewrite <- ?app_assoc; cbn [app]); reflexivity|apply J; incm]).
    assert (D3 : con ME w A2 y (map lst (A2 ++ [y]))) by (apply (seg_in g0 kids St a d L G Ad LW D b Tu DT ME (B0 ++ px :: B1 ++ x :: A1) w A2 y (C0 ++ py :: C1)); [rewrite EL; repeat (rewrite <- ?app_assoc; cbn [app]); reflexivity|apply J; incm]).
    assert (D4 : con ME y C0 py (map lst (C0 ++ [py]))) by (apply (seg_in g0 kids St a d L G Ad LW D b Tu DT ME (B0 ++ px :: B1 ++ x :: A1 ++ w :: A2) y C0 py C1); [rewrite EL; repeat (rewrite <- ?app_assoc; cbn [app]); reflexivity|apply J; incm]).
    assert (Dq : con ME px Q py pa) by (apply q_con, J; incm). pose proof (con_app _ _ _ _ _ _ _ _ _ _ D4 (sym ME _ _ _ _ Dq)) as D5.
    refine (asm_C src dst (ok a ME) (src_twin g0 a) (dst_twin g0 a) (ok_twin g0 a G ME) h A K1 K2 (p d) x y px w mx mn (iux i) (iuy i) _ _ _ _ _ _ _ _ _ _ _ _ _ _ _ _ _ _ _ _ D0 D1 D2 D5 D3 Cx Cy Cw Ct Ck HM _ _).
    + apply ND; [subl|]. intros z Hz. apply lq_in. rewrite EL. repeat (cbn [In app] in Hz; rewrite ?in_app_iff in Hz). repeat (cbn [In app]; rewrite ?in_app_iff). djt Hz.
    + apply (cov_of g0 a ME h A _ Lv). eapply incl_tran; [exact Cov|]. incm.
  - rewrite (eqb_false_neq _ _ Ty). assert (Iy : In y L). { rewrite EL. assert (Q1 : In y (py :: C1)) by (rewrite <- Hy; apply last_in; discriminate). repeat (rewrite in_app_iff; cbn [In]). cbn [In] in Q1. tauto. }
    assert (IL : forall z, z = x \/ z = w -> In z L) by (intros z Hz; rewrite EL; repeat (rewrite in_app_iff; cbn [In]); intuition).
    assert (NdL : NoDup L) by (now apply NoDup_app_l in NdQ). rewrite EL in NdQ, NdL.
    assert (Ne : x <> y /\ x <> w /\ w <> y). { clear - NdL Hy. assert (Q1 : In y (py :: C1)) by (rewrite <- Hy; apply last_in; discriminate). apply NoDup_app_r, NoDup_cons_iff in NdL. destruct NdL as [_ NdL]. apply NoDup_app_r, NoDup_cons_iff in NdL. destruct NdL as [N1 NdL]. apply NoDup_app_r, NoDup_cons_iff in NdL. destruct NdL as [N2 NdL]. split; [|split]; intros Q2; [apply N1; rewrite Q2|apply N1; rewrite Q2|apply N2; rewrite Q2]; repeat (rewrite in_app_iff; cbn [In]); cbn [In] in Q1; tauto. }
    destruct Ne as (Nxy & Nxw & Nwy).
    destruct (segm g F pa [] R (B0 ++ px :: B1 ++ x :: A1 ++ w :: C0 ++ py :: C1) y (A3 ++ [R])) as (g1 & F1 & E1 & H1 & M1); [rewrite EL; cbn [app]; repeat (rewrite <- ?app_assoc; cbn [app]); reflexivity|destruct B0; discriminate| |exact H|exact M|].
    { rewrite <- Hy. change (B0 ++ px :: B1 ++ x :: A1 ++ w :: C0 ++ py :: C1) with (B0 ++ (px :: B1) ++ (x :: A1) ++ (w :: C0) ++ py :: C1). rewrite !app_assoc. destruct (list_snoc (py :: C1)) as [Q1|(k & z & ->)]; [discriminate|]. rewrite app_assoc, !last_snoc. reflexivity. }
    rewrite E1. cbn [bind].
    destruct (base2 g1 F1 _ i H1 M1) as (g' & h & A & ME & Jx & Jy & Jw & I0 & K & lx & ly & lw & t0 & t2 & mx & mn & T1 & T2 & Lv & IM & Cx & Cy & Cw & Ct & Ck & HM & ND & Cov); rewrite ?Ex, ?Ey, ?Ew; auto.
    exists g', h. split; [exact T1|]. split; [exact T2|]. exists ME, A. split; [exact Lv|]. left. destruct (leaves_in g0 a h A ME Lv) as (K1 & K2 & _).
    rewrite Ex in Cx. rewrite Ey in Cy. rewrite Ew in Cw.
    assert (J : forall k, incl k (map lst (B0 ++ px :: B1 ++ x :: A1 ++ w :: C0 ++ py :: C1) ++ pa) -> incl k ME) by (intros k Hk e He; auto).
    assert (D0 : con ME (p d) B0 px (map lst (B0 ++ [px]))) by (apply (seg_from g0 kids St a d L G Ad LW D b Tu DT ME B0 px _ EL); apply J; incm).
    assert (D1 : con ME px B1 x (map lst (B1 ++ [x]))) by (apply (seg_in g0 kids St a d L G Ad LW D b Tu DT ME B0 px B1 x _ EL); apply J; incm).
    assert (D2 : con ME x A1 w (map lst (A1 ++ [w]))) by (apply (seg_in g0 kids St a d L G Ad LW D b Tu DT ME (B0 ++ px :: B1) x A1 w (C0 ++ py :: C1 ++ A3)); [rewrite EL; repeat (rewrite <- ?app_assoc; cbn [app]); reflexivity|apply J; incm]).
    assert (D3 : con ME w C0 py (map lst (C0 ++ [py]))) by (apply (seg_in g0 kids St a d L G Ad LW D b Tu DT ME (B0 ++ px :: B1 ++ x :: A1) w C0 py (C1 ++ A3)); [rewrite EL; repeat (rewrite <- ?app_assoc; cbn [app]); reflexivity|apply J; incm]).
    assert (D4 : con0 ME y C1 py (map lst C1)) by (apply (seg0y g0 kids St a d L G Ad LW D b Tu DT ME (B0 ++ px :: B1 ++ x :: A1 ++ w :: C0) py C1 y A3); [rewrite EL; repeat (rewrite <- ?app_assoc; cbn [app]); reflexivity|exact Hy|apply J; incm]).
    assert (Dq : con ME px Q py pa) by (apply q_con, J; incm).
    destruct (ext src dst (ok a ME) _ _ _ _ _ _ _ (sym ME _ _ _ _ Cy) D4) as (Jq & Cq & Pq). apply (sym ME) in Cq.
    refine (asm_C src dst (ok a ME) (src_twin g0 a) (dst_twin g0 a) (ok_twin g0 a G ME) h A K1 K2 (p d) x py px w mx mn (iux i) (iuy i) _ _ _ _ _ _ _ _ _ _ _ _ _ _ _ _ _ _ _ _ D0 D1 D2 (sym ME _ _ _ _ Dq) D3 Cx Cq Cw Ct Ck HM _ _).
    + assert (ND' := ND (B0 ++ px :: B1 ++ x :: A1 ++ w :: C0 ++ py :: C1 ++ Q)). assert (N1 : NoDup (B0 ++ px :: B1 ++ x :: A1 ++ w :: C0 ++ py :: C1 ++ Q)) by subl. specialize (ND' N1). clear N1 ND. assert (N2 := ND' (fun z Hz => lq_in z ltac:(rewrite EL; repeat (cbn [In app] in Hz; rewrite ?in_app_iff in Hz); repeat (cbn [In app]; rewrite ?in_app_iff); djt Hz))). clear ND'. subl.
    + apply (cov_of g0 a ME h A _ Lv). eapply incl_tran; [exact Cov|]. incm.
Qed.
End KD.
