(** * IsoKF: isolating the nonplanarity minor E. *)
From Coq Require Import ZifyBool Permutation.
From Verif Require Import Base BaseP GraphRec GraphM GraphSpec GSimp LinkP GraphP GraphP2 GraphP3 ListM ListSpec DFSM DFSSpec DFSP TestM TestSpec TestP TestP3 ObsSpec EmbM EmbSpec EmbP EmbP2 FaceP GeoP EmbInv EmbStep EmbTree EmbWalk EmbOrient EmbJoin EmbDown EmbDown3 EmbFan EmbStor FanP IsoM IsoKM IsoP1 IsoP2 IsoP3 IsoP4 IsoO IsoO2 IsoX IsoX2 IsoX3 IsoX4 PlV PlV3 PlI IsoKI IsoKU IsoK IsoKK IsoKA IsoI IsoF IsoT IsoKP IsoKB IsoKZ IsoKC IsoKD IsoKZ2 IsoKE.

Section KF.
Variables (g0 : graph) (kids : Z -> list Z).
Hypothesis St : static g0 kids.
Local Notation N := (gN g0).
Local Notation p := (viParent (gVI g0)).
Local Notation prim := (prim (gN g0)).
Local Notation anc := (ancestor (viParent (gVI g0))).
Local Notation geo := (geo (gN g0) (viParent (gVI g0))).
Local Notation act := (act g0).
Local Notation rpv := (rpv g0).
Local Notation marked := (marked g0).
Local Notation vsof := (vsof (gN g0)).
Local Notation pof := (pof g0).
Variables (a : est) (d : Z) (L : list Z).
Local Notation s := (eV a).
Local Notation R := (gN g0 + d).
Hypothesis G : geo NIL [] s.
Hypothesis Ad : act s d.
Hypothesis LW : Lw g0 s R L.
Hypothesis FW : fwok g0 a.
Hypothesis PT : ptypes a.
Hypothesis SO : stor g0 a.
Hypothesis NL : noloop g0 a.
Local Notation G0 := (g_base _ _ _ _ _ G).
Local Notation src := (IsoF.src g0 a).
Local Notation dst := (IsoF.dst g0 a).
Local Notation con ME := (con (IsoF.src g0 a) (IsoF.dst g0 a) (ok a ME)).
Local Notation con0 ME := (con0 (IsoF.src g0 a) (IsoF.dst g0 a) (ok a ME)).
Local Notation way := (way g0 a).
Let FA := K_facts g0 kids St a d L G Ad LW.
Variables (D : Z -> bool) (b : est) (f : Z -> Z) (stk : list Z).
Hypothesis Tu : turned a D b.
Hypothesis DT : forall x, In x (vsof s R) -> D x = true.
Local Notation b' := (setfp b f).
Local Notation lst := (lst b).
Local Ltac dsj H := first [exact H|left; dsj H|right; dsj H].
Local Ltac djt H := lazymatch type of H with _ \/ _ => destruct H as [H|H]; [djt H|djt H] | False => destruct H | _ => dsj H end.
Local Ltac incm := let e := fresh "e" in let H := fresh "H" in intros e; repeat (cbn [In app map]; rewrite ?map_app, ?in_app_iff); intros H; djt H.
Local Notation sym ME := (con_sym src dst (ok a ME) (src_twin g0 a) (dst_twin g0 a) (ok_twin g0 a G ME)).


Variables (px py : Z) (pa : list Z).
Hypothesis CH : achain a px pa py.
Hypothesis NEp : pa <> [].
Hypothesis NDp : NoDup (px :: map (nb s) pa).
Hypothesis INp : forall e, In e (removelast pa) -> In (nb s e) (mem N s R) /\ nb s e <> R /\ ~ In (nb s e) L.
Hypothesis Ipx : In px L.
Hypothesis Ipy : In py L.
Local Notation Q := (map (nb s) (removelast pa)).
Variables (Px Py Pw Pz : Z -> Prop).
Let segm := IsoKD.segm g0 kids St a d L G Ad LW D b f stk Tu DT.
Let primL := IsoKD.primL g0 kids St a d L G Ad LW.
Let qin := IsoKD.q_in g0 kids St a d L G Ad LW f pa INp.
Let qcon := IsoKD.q_con g0 kids St a d L G Ad LW f px py pa CH NEp INp Ipx Ipy.
Let lqnd := IsoKD.lq_nd g0 kids St a d L G Ad LW f px pa NDp INp.
Let lqin := IsoKD.lq_in g0 kids St a d L G Ad LW f pa INp.
Let segin := seg_in g0 kids St a d L G Ad LW D b Tu DT.
Let segfrom := seg_from g0 kids St a d L G Ad LW D b Tu DT.
Let segto := seg_to g0 kids St a d L G Ad LW D b Tu DT.
Let sg0x := seg0x g0 kids St a d L G Ad LW D b Tu DT.
Let sg0y := seg0y g0 kids St a d L G Ad LW D b Tu DT.

Local Notation pre := (IsoKE.pre g0 a).
Variables (x w y : Z) (A0 D0 D1 C0 C1 A3 : list Z).
Hypothesis EL : L = A0 ++ D0 ++ px :: D1 ++ w :: C0 ++ py :: C1 ++ A3.
Hypothesis Hx : hd NIL (D0 ++ [px]) = x.
Hypothesis Hy : last (py :: C1) NIL = y.
Local Ltac asr := cbn [app]; repeat (rewrite <- ?app_assoc; cbn [app]).
Let frame := IsoKE.frame g0 kids St a d L G Ad LW f px py pa NDp INp Px Py Pw Pz x w y A0 D0 D1 C0 C1 A3 EL Hx Hy.

Variable (i : icx).
Hypothesis Er : ir i = R.
Hypothesis Ex : ix i = x.
Hypothesis Ey : iy i = y.
Hypothesis Ew : iw i = w.
Hypothesis Epx : ipx i = px.
Hypothesis Epy : ipy i = py.
Hypothesis Wx : way Px x (iux i) (idx i).
Hypothesis Wy : way Py y (iuy i) (idy i).
Hypothesis Ww : way Pw w (iv i) (idw i).
Hypothesis Wz : way Pz w (iuz i) (idz i).
Hypothesis Ev : iv i = p d.
Hypothesis Lx : iux i < p d.
Hypothesis Ly : iuy i < p d.
Hypothesis Lz : iuz i < p d.
Hypothesis DJ : forall c, Pw c -> Pz c -> False.

Lemma ancs : (prim (iux i) /\ anc (iux i) (p d)) /\ (prim (iuy i) /\ anc (iuy i) (p d)) /\ (prim (iuz i) /\ anc (iuz i) (p d)) /\ idz i <> NIL.
Proof.
  destruct frame as (T & K1 & ED & EK & EL2 & Nxw & Nwy & Nxy & IL).
  destruct (way_prim g0 kids St a FW _ _ _ _ Wx) as (Pdx & Pux & _). destruct (way_prim g0 kids St a FW _ _ _ _ Wy) as (Pdy & Puy & _). destruct (way_prim g0 kids St a FW _ _ _ _ Wz) as (Pdz & Puz & _).
  pose proof (way_up g0 kids St a d L G Ad LW FW _ _ _ _ (IL x ltac:(tauto)) Wx ltac:(lia)) as Ux. pose proof (way_up g0 kids St a d L G Ad LW FW _ _ _ _ (IL y ltac:(tauto)) Wy ltac:(lia)) as Uy. pose proof (way_up g0 kids St a d L G Ad LW FW _ _ _ _ (IL w ltac:(tauto)) Wz ltac:(lia)) as Uz.
  split; [auto|]. split; [auto|]. split; [auto|]. unfold GeoP.prim in Pdz. unfold NIL. lia.
Qed.
Lemma atot u v : prim u -> prim v -> anc u (p d) -> anc v (p d) -> u <= v -> anc u v.
Proof. intros. apply (anc_total _ _ St _ _ (p d)); auto. exact (proj1 (pd_facts g0 kids St a d Ad)). Qed.
Lemma mx_of u v : prim u /\ anc u (p d) -> prim v /\ anc v (p d) -> (prim (Z.max u v) /\ anc (Z.max u v) (p d)) /\ (prim (Z.min u v) /\ anc (Z.min u v) (p d)).
Proof. intros H1 H2. destruct (Z.max_spec u v) as [[_ ->]|[_ ->]], (Z.min_spec u v) as [[_ ->]|[_ ->]]; auto. Qed.

Lemma base3 g F MF top bot : rpv g (setfl b' F) stk -> marked (fl s) F MF -> prim top -> prim bot /\ anc top bot \/ bot = R /\ anc top (p d) ->
  exists g' h A ME tl Jx Jy Jw Jz lx ly lw lz, finish_minor g i top bot = Ret (g', C_OK) /\ _DeleteUnmarkedVerticesAndEdges g' = Ret h /\ leaves g0 a ME h A /\ incl MF ME /\ incl tl ME /\ ups g0 a top (pof bot) tl /\
    con ME x Jx (iux i) lx /\ con ME y Jy (iuy i) ly /\ con ME w Jw (p d) lw /\ con ME w Jz (iuz i) lz /\
    (forall T C, NoDup T -> (forall z, In z T -> z < d) -> NoDup C -> (forall z, In z C -> prim z /\ B s z = R) -> NoDup (T ++ C ++ Jx ++ Jy ++ Jw ++ Jz)) /\ incl ME (MF ++ tl ++ lx ++ ly ++ lw ++ lz).
Proof.
  intros H M Pt Hb. destruct frame as (T & K1 & ED & EK & EL2 & Nxw & Nwy & Nxy & IL). destruct ancs as (_ & _ & _ & Nz).
  destruct (base g0 kids St a d L G Ad LW FW PT SO NL D b f stk Tu Px Py Pw Pz g F MF i top bot H M) as (g' & h & A & ME & tl & Jx & Jy & Jw & Jz & lx & ly & lw & lz & T1 & T2 & K); rewrite ?Ex, ?Ey, ?Ew; auto 7; try (right; split; [exact Wz|split; [exact Lz|exact DJ]]).
  destruct K as [V1 V2 V3 V4 V5 V6 V7 V8 V9 V10]. destruct V9 as [[V9 _]|[_ V9]]; [congruence|]. rewrite Ex in V6. rewrite Ey in V7. rewrite Ew in V8, V9. rewrite Ev in V8.
  exists g', h, A, ME, tl, Jx, Jy, Jw, Jz, lx, ly, lw, lz. split; [auto|]. split; [auto|]. split; [auto|]. split; [auto|]. split; [auto|]. split; [auto|]. split; [auto|]. split; [auto|]. split; [auto|]. split; [auto|]. split; auto.
Qed.

(** Minor E3. *)
Lemma iso_E3 g F : rpv g (setfl b' F) stk -> marked (fl s) F pa -> iuz i < Z.max (iux i) (iuy i) -> iux i <> iuy i ->
  exists g' h, _IsolateMinorE3 g i = Ret (g', C_OK) /\ _DeleteUnmarkedVerticesAndEdges g' = Ret h /\ kisolated g0 a h.
Proof.
  intros H M Lzm Nu. unfold _IsolateMinorE3. rewrite Ex, Ey, Er, Ew, Epx, Epy.
  destruct frame as (T & K1' & ED & EK & EL2 & Nxw & Nwy & Nxy & IL). destruct ancs as (Ax & Ay & Az & Nz). pose proof lqnd as NdQ.
  destruct (Z.ltb_spec (iux i) (iuy i)) as [C|C].
  - destruct (segm g F pa [] R (A0 ++ x :: T) px (D1 ++ w :: C0 ++ K1' ++ y :: A3 ++ [R])) as (g1 & F1 & E1 & H1 & M1); [rewrite EL2; asr; reflexivity|destruct A0; discriminate|rewrite <- ED, app_assoc; apply last_snoc|exact H|exact M|]. rewrite E1. cbn [bind].
    destruct (segm g1 F1 (map lst (A0 ++ x :: T) ++ pa) (R :: A0 ++ x :: T ++ D1) w (C0 ++ K1' ++ [y]) y (A3 ++ [R])) as (g2 & F2 & E2 & H2 & M2); [rewrite EL2; asr; reflexivity|destruct C0; [destruct K1'|]; discriminate|rewrite !app_assoc; apply last_snoc|exact H1|exact M1|]. rewrite E2. cbn [bind].
    set (mx := Z.max (iux i) (iuz i)). set (mn := Z.min (iux i) (iuz i)). destruct (mx_of _ _ Ax Az) as [[Pmx Umx] [Pmn Umn]]. fold mx mn in Pmx, Umx, Pmn, Umn.
    replace (MIN3 (iux i) (iuy i) (iuz i)) with mn by (unfold MIN3, mn; lia).
    destruct (base3 g2 F2 _ mn R H2 M2 Pmn (or_intror (conj eq_refl Umn))) as (g' & h & A & ME & tl & Jx & Jy & Jw & Jz & lx & ly & lw & lz & T1 & T2 & Lv & IM & It & U & Cx & Cy & Cw & Cz & ND & Cov).
    rewrite (pof_R g0 a d Ad) in U.
    destruct (tree3 g0 kids St a d L G Ad LW PT ME mn mx (iuy i) tl Pmn Pmx (proj1 Ay) ltac:(unfold mx; lia) Ly ltac:(apply atot; auto; unfold mn, mx; lia) ltac:(apply atot; [auto|apply Ay|auto|apply Ay|unfold mx; lia]) (proj2 Ay) U It) as (I0 & I1 & K & t0 & t1 & t2 & Et & Ct & Cm & Ck & Ndt & Ltd).
    exists g', h. split; [exact T1|]. split; [exact T2|]. exists ME, A. split; [exact Lv|]. left. destruct (leaves_in g0 a h A ME Lv) as (K1 & K2 & _).
    rewrite <- EK in Cov, IM.
    assert (J : forall k, incl k (map lst (C0 ++ py :: C1) ++ map lst (A0 ++ x :: T) ++ pa) -> incl k ME) by (intros k Hk e He; auto).
    assert (P0 : con ME (p d) A0 x (map lst (A0 ++ [x]))) by (apply (segfrom ME A0 x _ EL2); apply J; incm).
    assert (P1 : con0 ME x D0 px (map lst T)). { replace T with (List.tl (D0 ++ [px])) by now rewrite ED. apply (sg0x ME A0 x D0 px _ EL Hx). rewrite ED. apply J. cbn [List.tl]. incm. }
    assert (P2 : con ME w C0 py (map lst (C0 ++ [py]))) by (apply (segin ME (A0 ++ D0 ++ px :: D1) w C0 py (C1 ++ A3)); [rewrite EL; asr; reflexivity|apply J; incm]).
    assert (P3 : con0 ME y C1 py (map lst C1)) by (apply (sg0y ME (A0 ++ D0 ++ px :: D1 ++ w :: C0) py C1 y A3); [rewrite EL; asr; reflexivity|exact Hy|apply J; incm]).
    assert (Dq : con ME px Q py pa) by (apply qcon, J; incm). destruct (pre ME _ _ _ _ _ _ _ P1 Dq) as (B1 & CB & PB).
    destruct (ext src dst (ok a ME) _ _ _ _ _ _ _ (sym ME _ _ _ _ Cy) P3) as (Jy' & Cy' & PJ). apply (sym ME) in Cy'.
    refine (asm_E3 src dst (ok a ME) (src_twin g0 a) (dst_twin g0 a) (ok_twin g0 a G ME) h A K1 K2 (p d) x py w (iuy i) mx mn (iux i) (iuz i) _ _ _ _ _ _ _ _ _ _ _ _ _ _ _ _ _ _ _ _ P0 CB P2 Cx Cy' Cw Cz Ct Cm Ck _ _ _).
    + unfold mx, mn. lia.
    + rewrite EL in NdQ. assert (N1 : NoDup (A0 ++ D0 ++ px :: w :: C0 ++ py :: C1 ++ Q)) by subl. assert (N2 := ND _ _ Ndt Ltd N1 (fun z Hz => lqin z ltac:(rewrite EL; repeat (cbn [In app] in Hz; rewrite ?in_app_iff in Hz); repeat (cbn [In app]; rewrite ?in_app_iff); djt Hz))). clear N1 ND Ndt NdQ. subl.
    + apply (cov_of g0 a ME h A _ Lv). eapply incl_tran; [exact Cov|]. rewrite Et. incm.
  - destruct (segm g F pa (R :: A0) x (T ++ D1 ++ [w]) w (C0 ++ K1' ++ y :: A3 ++ [R])) as (g1 & F1 & E1 & H1 & M1); [rewrite EL2; asr; reflexivity|destruct T; [destruct D1|]; discriminate|rewrite app_assoc; apply last_snoc|exact H|exact M|]. rewrite E1. cbn [bind].
    destruct (segm g1 F1 (map lst (T ++ D1 ++ [w]) ++ pa) (R :: A0 ++ D0 ++ px :: D1 ++ w :: C0) py (C1 ++ A3 ++ [R]) R []) as (g2 & F2 & E2 & H2 & M2); [rewrite EL; asr; reflexivity|destruct C1; [destruct A3|]; discriminate|rewrite !app_assoc; apply last_snoc|exact H1|exact M1|]. rewrite E2. cbn [bind].
    set (mx := Z.max (iuy i) (iuz i)). set (mn := Z.min (iuy i) (iuz i)). destruct (mx_of _ _ Ay Az) as [[Pmx Umx] [Pmn Umn]]. fold mx mn in Pmx, Umx, Pmn, Umn.
    replace (MIN3 (iux i) (iuy i) (iuz i)) with mn by (unfold MIN3, mn; lia).
    destruct (base3 g2 F2 _ mn R H2 M2 Pmn (or_intror (conj eq_refl Umn))) as (g' & h & A & ME & tl & Jx & Jy & Jw & Jz & lx & ly & lw & lz & T1 & T2 & Lv & IM & It & U & Cx & Cy & Cw & Cz & ND & Cov).
    rewrite (pof_R g0 a d Ad) in U.
    destruct (tree3 g0 kids St a d L G Ad LW PT ME mn mx (iux i) tl Pmn Pmx (proj1 Ax) ltac:(unfold mx; lia) Lx ltac:(apply atot; auto; unfold mn, mx; lia) ltac:(apply atot; [auto|apply Ax|auto|apply Ax|unfold mx; lia]) (proj2 Ax) U It) as (I0 & I1 & K & t0 & t1 & t2 & Et & Ct & Cm & Ck & Ndt & Ltd).
    exists g', h. split; [exact T1|]. split; [exact T2|]. exists ME, A. split; [exact Lv|]. left. destruct (leaves_in g0 a h A ME Lv) as (K1 & K2 & _).
    assert (J : forall k, incl k (map lst (C1 ++ A3 ++ [R]) ++ map lst (T ++ D1 ++ [w]) ++ pa) -> incl k ME) by (intros k Hk e He; auto).
    assert (P0 : con ME y A3 (p d) (map lst (A3 ++ [R]))) by (apply (segto ME (A0 ++ x :: T ++ D1 ++ w :: C0 ++ K1') y A3); [rewrite EL2; asr; reflexivity|apply J; incm]).
    assert (P1 : con0 ME x D0 px (map lst T)). { replace T with (List.tl (D0 ++ [px])) by now rewrite ED. apply (sg0x ME A0 x D0 px _ EL Hx). rewrite ED. apply J. cbn [List.tl]. incm. }
    assert (P2 : con ME px D1 w (map lst (D1 ++ [w]))) by (apply (segin ME (A0 ++ D0) px D1 w (C0 ++ py :: C1 ++ A3)); [rewrite EL; asr; reflexivity|apply J; incm]).
    assert (P3 : con0 ME y C1 py (map lst C1)) by (apply (sg0y ME (A0 ++ D0 ++ px :: D1 ++ w :: C0) py C1 y A3); [rewrite EL; asr; reflexivity|exact Hy|apply J; incm]).
    assert (Dq : con ME px Q py pa) by (apply qcon, J; incm). destruct (pre ME _ _ _ _ _ _ _ P3 (sym ME _ _ _ _ Dq)) as (B1 & CB & PB).
    destruct (ext src dst (ok a ME) _ _ _ _ _ _ _ (sym ME _ _ _ _ Cx) P1) as (Jx' & Cx' & PJ). apply (sym ME) in Cx'.
    refine (asm_E3 src dst (ok a ME) (src_twin g0 a) (dst_twin g0 a) (ok_twin g0 a G ME) h A K1 K2 (p d) y px w (iux i) mx mn (iuy i) (iuz i) _ _ _ _ _ _ _ _ _ _ _ _ _ _ _ _ _ _ _ _ (sym ME _ _ _ _ P0) CB (sym ME _ _ _ _ P2) Cy Cx' Cw Cz Ct Cm Ck _ _ _).
    + unfold mx, mn. lia.
    + rewrite EL in NdQ. assert (N1 : NoDup (D0 ++ px :: D1 ++ w :: py :: C1 ++ A3 ++ Q)) by subl. assert (N2 := ND _ _ Ndt Ltd N1 (fun z Hz => lqin z ltac:(rewrite EL; repeat (cbn [In app] in Hz; rewrite ?in_app_iff in Hz); repeat (cbn [In app]; rewrite ?in_app_iff); djt Hz))). clear N1 ND Ndt NdQ. subl.
    + apply (cov_of g0 a ME h A _ Lv). eapply incl_tran; [exact Cov|]. rewrite Et. incm.
Qed.

Lemma low1 : iuz i <= Z.max (iux i) (iuy i) -> iuz i = Z.max (iux i) (iuy i) \/ iux i = iuy i ->
  lower1 (iux i) (iuy i) (iuz i) (MAX3 (iux i) (iuy i) (iuz i)) (MIN3 (iux i) (iuy i) (iuz i)).
Proof. unfold lower1, MAX3, MIN3. lia. Qed.
Lemma m3 : (prim (MAX3 (iux i) (iuy i) (iuz i)) /\ anc (MAX3 (iux i) (iuy i) (iuz i)) (p d)) /\ (prim (MIN3 (iux i) (iuy i) (iuz i)) /\ anc (MIN3 (iux i) (iuy i) (iuz i)) (p d)) /\ MAX3 (iux i) (iuy i) (iuz i) < p d /\ MIN3 (iux i) (iuy i) (iuz i) <= MAX3 (iux i) (iuy i) (iuz i).
Proof.
  destruct ancs as (Ax & Ay & Az & Nz). unfold MAX3, MIN3. destruct (mx_of _ _ Ay Az) as [V1 V2]. destruct (mx_of _ _ Ax V1) as [V3 _]. destruct (mx_of _ _ Ax V2) as [_ V4]. split; [exact V3|]. split; [exact V4|]. lia.
Qed.

(** Minor E4. *)
Lemma iso_E4 g F : rpv g (setfl b' F) stk -> marked (fl s) F pa -> lower1 (iux i) (iuy i) (iuz i) (MAX3 (iux i) (iuy i) (iuz i)) (MIN3 (iux i) (iuy i) (iuz i)) -> x <> px \/ y <> py ->
  exists g' h, _IsolateMinorE4 g i = Ret (g', C_OK) /\ _DeleteUnmarkedVerticesAndEdges g' = Ret h /\ kisolated g0 a h.
Proof.
  intros H M Lo Hn. unfold _IsolateMinorE4. rewrite Ex, Er, Ew, Epx, Epy.
  destruct frame as (T & K1' & ED & EK & EL2 & Nxw & Nwy & Nxy & IL). destruct m3 as ([Pmx Umx] & [Pmn Umn] & Lmx & Lmn). pose proof lqnd as NdQ.
  destruct (ancs) as (Ax & Ay & Az & Nz).
  set (mx := MAX3 (iux i) (iuy i) (iuz i)) in *. set (mn := MIN3 (iux i) (iuy i) (iuz i)) in *.
  assert (Hb : prim mx /\ anc mn mx \/ mx = R /\ anc mn (p d)) by (left; split; [auto|apply atot; auto]).
  destruct (Z.eqb_spec px x) as [C|C]; cbn [negb].
  - assert (ND0 : D0 = []). { destruct D0 as [|q k]; [reflexivity|]. cbn in Hx. subst q. pose proof NdQ as V. rewrite EL in V. apply NoDup_app_l in V. apply NoDup_app_r in V. cbn [app] in V. apply NoDup_cons_iff in V. exfalso. apply (proj1 V). rewrite C, in_app_iff. cbn [In]. tauto. }
    assert (EC : exists C1', C1 = C1' ++ [y]). { destruct C1 as [|q k] eqn:V; [cbn in Hy; exfalso; destruct Hn; congruence|]. rewrite <- V in *. destruct (list_snoc C1) as [V2|(k' & q' & V2)]; [congruence|]. exists k'. rewrite V2. f_equal. f_equal. rewrite <- Hy, V2. change (py :: k' ++ [q']) with ((py :: k') ++ [q']). now rewrite last_snoc. }
    destruct EC as [C1' EC]. assert (EL3 : L = A0 ++ px :: D1 ++ w :: C0 ++ py :: C1' ++ y :: A3) by (rewrite EL, ND0, EC; asr; reflexivity).
    destruct (segm g F pa [] R (A0 ++ [px]) px (D1 ++ w :: C0 ++ py :: C1' ++ y :: A3 ++ [R])) as (g1 & F1 & E1 & H1 & M1); [rewrite EL3; asr; reflexivity|destruct A0; discriminate|apply last_snoc|exact H|exact M|]. rewrite E1. cbn [bind].
    destruct (segm g1 F1 (map lst (A0 ++ [px]) ++ pa) (R :: A0 ++ px :: D1) w (C0 ++ py :: C1' ++ y :: A3 ++ [R]) R []) as (g2 & F2 & E2 & H2 & M2); [rewrite EL3; asr; reflexivity|destruct C0; discriminate| |exact H1|exact M1|].
    { change (C0 ++ py :: C1' ++ y :: A3 ++ [R]) with (C0 ++ (py :: C1') ++ (y :: A3) ++ [R]). rewrite !app_assoc. apply last_snoc. } rewrite E2. cbn [bind].
    destruct (base3 g2 F2 _ mn mx H2 M2 Pmn Hb) as (g' & h & A & ME & tl & Jx & Jy & Jw & Jz & lx & ly & lw & lz & T1 & T2 & Lv & IM & It & U & Cx & Cy & Cw & Cz & ND & Cov).
    rewrite (pof_prim g0 mx Pmx) in U. destruct (tree1 g0 kids St a d L G Ad LW PT ME mn mx tl Pmn Pmx Lmx U It) as (K & Ck & Ndt & Ltd).
    exists g', h. split; [exact T1|]. split; [exact T2|]. exists ME, A. split; [exact Lv|]. left. destruct (leaves_in g0 a h A ME Lv) as (K1 & K2 & _).
    assert (J : forall k, incl k (map lst (C0 ++ py :: C1' ++ y :: A3 ++ [R]) ++ map lst (A0 ++ [px]) ++ pa) -> incl k ME) by (intros k Hk e He; auto).
    assert (P0 : con ME (p d) A0 px (map lst (A0 ++ [px]))) by (apply (segfrom ME A0 px _ EL3); apply J; incm).
    assert (P2 : con ME w C0 py (map lst (C0 ++ [py]))) by (apply (segin ME (A0 ++ px :: D1) w C0 py (C1' ++ y :: A3)); [rewrite EL3; asr; reflexivity|apply J; incm]).
    assert (P3 : con ME py C1' y (map lst (C1' ++ [y]))) by (apply (segin ME (A0 ++ px :: D1 ++ w :: C0) py C1' y A3); [rewrite EL3; asr; reflexivity|apply J; incm]).
    assert (P4 : con ME y A3 (p d) (map lst (A3 ++ [R]))) by (apply (segto ME (A0 ++ px :: D1 ++ w :: C0 ++ py :: C1') y A3); [rewrite EL3; asr; reflexivity|apply J; incm]).
    assert (Dq : con ME px Q py pa) by (apply qcon, J; incm). rewrite <- C in Cx.
    refine (asm_E4 src dst (ok a ME) (src_twin g0 a) (dst_twin g0 a) (ok_twin g0 a G ME) h A K1 K2 (p d) y w px py mx mn (iuy i) (iux i) (iuz i) _ _ _ _ _ _ _ _ _ _ _ _ _ _ _ _ _ _ _ _ (sym ME _ _ _ _ P4) (sym ME _ _ _ _ P3) (sym ME _ _ _ _ P2) Dq (sym ME _ _ _ _ P0) Cy Cx Cz Cw Ck _ _ _).
    + unfold lower1 in *. tauto.
    + rewrite EL3 in NdQ. assert (N1 : NoDup (A0 ++ px :: w :: C0 ++ py :: C1' ++ y :: A3 ++ Q)) by subl. assert (N2 := ND _ _ Ndt Ltd N1 (fun z Hz => lqin z ltac:(rewrite EL3; repeat (cbn [In app] in Hz; rewrite ?in_app_iff in Hz); repeat (cbn [In app]; rewrite ?in_app_iff); djt Hz))). clear N1 ND Ndt NdQ. subl.
    + apply (cov_of g0 a ME h A _ Lv). eapply incl_tran; [exact Cov|]. incm.
  - assert (ED0 : exists D0', D0 = x :: D0') by (destruct D0 as [|q k]; [cbn in Hx; congruence|cbn in Hx; subst q; eauto]). destruct ED0 as [D0' ED0].
    assert (EL3 : L = A0 ++ x :: D0' ++ px :: D1 ++ w :: C0 ++ py :: C1 ++ A3) by (rewrite EL, ED0; asr; reflexivity).
    destruct (segm g F pa [] R (A0 ++ x :: D0' ++ px :: D1 ++ [w]) w (C0 ++ py :: C1 ++ A3 ++ [R])) as (g1 & F1 & E1 & H1 & M1); [rewrite EL3; asr; reflexivity|destruct A0; discriminate| |exact H|exact M|].
    { change (A0 ++ x :: D0' ++ px :: D1 ++ [w]) with (A0 ++ (x :: D0') ++ (px :: D1) ++ [w]). rewrite !app_assoc. apply last_snoc. } rewrite E1. cbn [bind].
    destruct (segm g1 F1 (map lst (A0 ++ x :: D0' ++ px :: D1 ++ [w]) ++ pa) (R :: A0 ++ x :: D0' ++ px :: D1 ++ w :: C0) py (C1 ++ A3 ++ [R]) R []) as (g2 & F2 & E2 & H2 & M2); [rewrite EL3; asr; reflexivity|destruct C1; [destruct A3|]; discriminate|rewrite !app_assoc; apply last_snoc|exact H1|exact M1|]. rewrite E2. cbn [bind].
    destruct (base3 g2 F2 _ mn mx H2 M2 Pmn Hb) as (g' & h & A & ME & tl & Jx & Jy & Jw & Jz & lx & ly & lw & lz & T1 & T2 & Lv & IM & It & U & Cx & Cy & Cw & Cz & ND & Cov).
    rewrite (pof_prim g0 mx Pmx) in U. destruct (tree1 g0 kids St a d L G Ad LW PT ME mn mx tl Pmn Pmx Lmx U It) as (K & Ck & Ndt & Ltd).
    exists g', h. split; [exact T1|]. split; [exact T2|]. exists ME, A. split; [exact Lv|]. left. destruct (leaves_in g0 a h A ME Lv) as (K1 & K2 & _).
    assert (J : forall k, incl k (map lst (C1 ++ A3 ++ [R]) ++ map lst (A0 ++ x :: D0' ++ px :: D1 ++ [w]) ++ pa) -> incl k ME) by (intros k Hk e He; auto).
    assert (P0 : con ME (p d) A0 x (map lst (A0 ++ [x]))) by (apply (segfrom ME A0 x _ EL3); apply J; incm).
    assert (P1 : con ME x D0' px (map lst (D0' ++ [px]))) by (apply (segin ME A0 x D0' px _ EL3); apply J; incm).
    assert (P2 : con ME px D1 w (map lst (D1 ++ [w]))) by (apply (segin ME (A0 ++ x :: D0') px D1 w (C0 ++ py :: C1 ++ A3)); [rewrite EL3; asr; reflexivity|apply J; incm]).
    assert (P3 : con0 ME y C1 py (map lst C1)) by (apply (sg0y ME (A0 ++ D0 ++ px :: D1 ++ w :: C0) py C1 y A3); [rewrite EL; asr; reflexivity|exact Hy|apply J; incm]).
    assert (P4 : con ME y A3 (p d) (map lst (A3 ++ [R]))) by (apply (segto ME (A0 ++ x :: T ++ D1 ++ w :: C0 ++ K1') y A3); [rewrite EL2; asr; reflexivity|apply J; incm]).
    assert (Dq : con ME px Q py pa) by (apply qcon, J; incm). destruct (pre ME _ _ _ _ _ _ _ P3 (sym ME _ _ _ _ Dq)) as (B1 & CB & PB).
    refine (asm_E4 src dst (ok a ME) (src_twin g0 a) (dst_twin g0 a) (ok_twin g0 a G ME) h A K1 K2 (p d) x w y px mx mn (iux i) (iuy i) (iuz i) _ _ _ _ _ _ _ _ _ _ _ _ _ _ _ _ _ _ _ _ P0 P1 P2 CB P4 Cx Cy Cz Cw Ck Lo _ _).
    + rewrite EL3 in NdQ. assert (N1 : NoDup (A0 ++ x :: D0' ++ px :: D1 ++ w :: py :: C1 ++ A3 ++ Q)) by subl. assert (N2 := ND _ _ Ndt Ltd N1 (fun z Hz => lqin z ltac:(rewrite EL3; repeat (cbn [In app] in Hz; rewrite ?in_app_iff in Hz); repeat (cbn [In app]; rewrite ?in_app_iff); djt Hz))). clear N1 ND Ndt NdQ. subl.
    + apply (cov_of g0 a ME h A _ Lv). eapply incl_tran; [exact Cov|]. incm.
Qed.

(** Minor E5: a subdivision of K5. *)
Lemma iso_E5 g F : rpv g (setfl b' F) stk -> marked (fl s) F pa -> lower1 (iux i) (iuy i) (iuz i) (MAX3 (iux i) (iuy i) (iuz i)) (MIN3 (iux i) (iuy i) (iuz i)) -> x = px -> y = py ->
  exists g1 g' h, _MarkPathAlongBicompExtFace g R R = Ret g1 /\ finish_minor g1 i (MIN3 (iux i) (iuy i) (iuz i)) R = Ret (g', C_OK) /\ _DeleteUnmarkedVerticesAndEdges g' = Ret h /\ kisolated g0 a h.
Proof.
  intros H M Lo Nx Ny.
  destruct frame as (T & K1' & ED & EK & EL2 & Nxw & Nwy & Nxy & IL). destruct m3 as ([Pmx Umx] & [Pmn Umn] & Lmx & Lmn). pose proof lqnd as NdQ.
  set (mx := MAX3 (iux i) (iuy i) (iuz i)) in *. set (mn := MIN3 (iux i) (iuy i) (iuz i)) in *.
  assert (T0 : D0 = []). { destruct D0 as [|q k]; [reflexivity|]. cbn in Hx. subst q. pose proof NdQ as V. rewrite EL in V. apply NoDup_app_l in V. apply NoDup_app_r in V. cbn [app] in V. apply NoDup_cons_iff in V. exfalso. apply (proj1 V). rewrite Nx, in_app_iff. cbn [In]. tauto. }
  assert (C10 : C1 = []). { destruct C1 as [|q k] eqn:V; [reflexivity|]. exfalso. rewrite <- V in *. assert (V2 : In py C1). { destruct (list_snoc C1) as [V2|(k' & q' & V2)]; [congruence|]. rewrite V2, in_app_iff. right. left. rewrite <- Ny, <- Hy, V2. change (py :: k' ++ [q']) with ((py :: k') ++ [q']). now rewrite last_snoc. }
    pose proof NdQ as V3. rewrite EL in V3. apply NoDup_app_l, NoDup_app_r, NoDup_app_r, NoDup_cons_iff in V3. destruct V3 as [_ V3]. apply NoDup_app_r, NoDup_cons_iff in V3. destruct V3 as [_ V3]. apply NoDup_app_r, NoDup_cons_iff in V3. apply (proj1 V3). rewrite in_app_iff. tauto. }
  assert (EL3 : L = A0 ++ x :: D1 ++ w :: C0 ++ y :: A3) by (rewrite EL, T0, C10, Nx, Ny; asr; reflexivity).
  destruct (segm g F pa [] R (L ++ [R]) R []) as (g1 & F1 & E1 & H1 & M1); [cbn [app]; now rewrite app_nil_r|destruct L; discriminate|apply last_snoc|exact H|exact M|].
  destruct (base3 g1 F1 _ mn R H1 M1 Pmn (or_intror (conj eq_refl Umn))) as (g' & h & A & ME & tl & Jx & Jy & Jw & Jz & lx & ly & lw & lz & T1 & T2 & Lv & IM & It & U & Cx & Cy & Cw & Cz & ND & Cov).
  rewrite (pof_R g0 a d Ad) in U. destruct (tree2 g0 kids St a d L G Ad LW PT ME mn mx tl Pmn Pmx Lmx ltac:(apply atot; auto) Umx U It) as (I0 & K & t0 & t2 & Et & Ct & Ck & Ndt & Ltd).
  exists g1, g', h. split; [exact E1|]. split; [exact T1|]. split; [exact T2|]. exists ME, A. split; [exact Lv|]. right. destruct (leaves_in g0 a h A ME Lv) as (K1 & K2 & _). rewrite EL3 in IM, Cov.
  assert (J : forall k, incl k (map lst ((A0 ++ x :: D1 ++ w :: C0 ++ y :: A3) ++ [R]) ++ pa) -> incl k ME) by (intros k Hk e He; auto).
  assert (P0 : con ME (p d) A0 x (map lst (A0 ++ [x]))) by (apply (segfrom ME A0 x _ EL3); apply J; incm).
  assert (P1 : con ME x D1 w (map lst (D1 ++ [w]))) by (apply (segin ME A0 x D1 w _ EL3); apply J; incm).
  assert (P2 : con ME w C0 y (map lst (C0 ++ [y]))) by (apply (segin ME (A0 ++ x :: D1) w C0 y A3); [rewrite EL3; asr; reflexivity|apply J; incm]).
  assert (P4 : con ME y A3 (p d) (map lst (A3 ++ [R]))) by (apply (segto ME (A0 ++ x :: D1 ++ w :: C0) y A3); [rewrite EL3; asr; reflexivity|apply J; incm]).
  assert (Dq : con ME px Q py pa) by (apply qcon, J; incm). rewrite <- Nx, <- Ny in Dq.
  refine (asm_E src dst (ok a ME) (src_twin g0 a) (dst_twin g0 a) (ok_twin g0 a G ME) h A K1 K2 (p d) x w y mx mn (iux i) (iuy i) (iuz i) _ _ _ _ _ _ _ _ _ _ _ _ _ _ _ _ _ _ _ _ _ _ P0 P1 P2 P4 Dq Cx Cy Cz Cw Ct Ck Lo _ _).
  - rewrite EL3 in NdQ. assert (N2 := ND _ _ Ndt Ltd NdQ (fun z Hz => lqin z ltac:(rewrite EL3; exact Hz))). clear ND Ndt NdQ. subl.
  - apply (cov_of g0 a ME h A _ Lv). eapply incl_tran; [exact Cov|]. rewrite Et. incm.
Qed.
End KF.
