(** * IsoKC: the pieces shared by the nonplanarity minors C, D and E. *)
From Coq Require Import ZifyBool Permutation.
From Verif Require Import Base BaseP GraphRec GraphM GraphSpec GSimp LinkP GraphP GraphP2 GraphP3 ListM ListSpec DFSM DFSSpec DFSP TestM TestSpec TestP TestP3 ObsSpec EmbM EmbSpec EmbP EmbP2 FaceP GeoP EmbInv EmbStep EmbTree EmbWalk EmbOrient EmbJoin EmbDown EmbDown3 EmbFan EmbStor FanP IsoM IsoKM IsoP1 IsoP2 IsoP3 IsoP4 IsoO IsoO2 IsoX IsoX2 IsoX3 IsoX4 PlV PlV3 PlI IsoKI IsoKU IsoK IsoKK IsoKA IsoI IsoF IsoT IsoKP IsoKB IsoKZ.

Section KC.
Variables (g0 : graph) (kids : Z -> list Z).
Hypothesis St : static g0 kids.
Local Notation N := (gN g0).
Local Notation p := (viParent (gVI g0)).
Local Notation prim := (prim (gN g0)).
Local Notation anc := (ancestor (viParent (gVI g0))).
Local Notation geo := (geo (gN g0) (viParent (gVI g0))).
Local Notation act := (act g0).
Local Notation rpv := (rpv g0).
Local Notation marked := (marked g0).
Local Notation vsof := (vsof (gN g0)).
Local Notation pof := (pof g0).
Variables (a : est) (d : Z) (L : list Z).
Local Notation s := (eV a).
Local Notation R := (gN g0 + d).
Hypothesis G : geo NIL [] s.
Hypothesis Ad : act s d.
Hypothesis LW : Lw g0 s R L.
Hypothesis FW : fwok g0 a.
Hypothesis PT : ptypes a.
Hypothesis SO : stor g0 a.
Hypothesis NL : noloop g0 a.
Local Notation G0 := (g_base _ _ _ _ _ G).
Local Notation src := (IsoF.src g0 a).
Local Notation dst := (IsoF.dst g0 a).
Local Notation con ME := (con (IsoF.src g0 a) (IsoF.dst g0 a) (ok a ME)).
Local Notation con0 ME := (con0 (IsoF.src g0 a) (IsoF.dst g0 a) (ok a ME)).
Local Notation ups := (ups g0 a).
Local Notation below := (below g0).
Local Notation way := (way g0 a).
Let FA := K_facts g0 kids St a d L G Ad LW.

(** ** The part of the tree above the root *)
Lemma tree1 ME mn mx tl : prim mn -> prim mx -> mx < p d -> ups mn mx tl -> incl tl ME ->
  exists K, con0 ME mx K mn tl /\ NoDup (p d :: K ++ [mn]) /\ forall z, In z (p d :: K ++ [mn]) -> z < d.
Proof.
  intros Pn Px Lx U I. destruct (pd_facts g0 kids St a d Ad) as [Pp Lp]. destruct (ups_con0 g0 kids St a d L G Ad LW PT ME mn mx tl Pn Px U I) as (C & Nd & B). exists (map src tl). split; [auto|].
  assert (Lt : forall z, In z (map src tl ++ [mn]) -> z < p d). { intros z Hz. apply in_app_iff in Hz. destruct Hz as [Hz|[<-|[]]]; [destruct (B z Hz) as (_ & _ & _ & Q); pose proof (anc_le _ _ St _ _ Px Q); lia|]. assert (A : anc mn mx) by (apply (ups_pth g0 kids St a G PT tl mn tl Pn mx Px U (incl_refl _))). pose proof (anc_le _ _ St _ _ Px A). lia. }
  split; [constructor; [intros Q; pose proof (Lt _ Q); lia|auto]|]. intros z [<-|Hz]; [lia|]. specialize (Lt z Hz). lia.
Qed.
Lemma tree2 ME mn mx tl : prim mn -> prim mx -> mx < p d -> anc mn mx -> anc mx (p d) -> ups mn (p d) tl -> incl tl ME ->
  exists I0 K t0 t2, tl = t0 ++ t2 /\ con ME (p d) I0 mx t0 /\ con0 ME mx K mn t2 /\ NoDup (p d :: I0 ++ K ++ [mn]) /\ forall z, In z (p d :: I0 ++ K ++ [mn]) -> z < d.
Proof.
  intros Pn Px Lx A1 A2 U I. destruct (pd_facts g0 kids St a d Ad) as [Pp Lp]. destruct (ups_split g0 kids St a mn mx Pn Px A1 tl (p d) Pp A2 U) as (t0 & t2 & Et & V0 & V2).
  destruct (ups_con g0 kids St a G PT ME mx (p d) t0 Px Pp ltac:(lia) V0) as (I0 & E0 & C0); [intros e He; apply I; rewrite Et; apply in_app_iff; auto|].
  destruct (ups_con0 g0 kids St a d L G Ad LW PT ME mn mx t2 Pn Px V2) as (C2 & _); [intros e He; apply I; rewrite Et; apply in_app_iff; auto|].
  exists I0, (map src t2), t0, t2. split; [auto|]. split; [auto|]. split; [auto|]. assert (Q : p d :: I0 ++ map src t2 ++ [mn] = map src tl ++ [mn]) by (rewrite Et, map_app, E0; cbn [app]; rewrite <- app_assoc; reflexivity). rewrite Q.
  split; [apply (ups_con0 g0 kids St a d L G Ad LW PT ME mn (p d) tl Pn Pp U I)|]. intros z Hz. exact (tree_lt g0 kids St a d L G Ad LW PT mn (p d) tl z Pn Pp Lp U Hz).
Qed.
Lemma tree3 ME mn mx hi tl : prim mn -> prim mx -> prim hi -> mx < hi -> hi < p d -> anc mn mx -> anc mx hi -> anc hi (p d) -> ups mn (p d) tl -> incl tl ME ->
  exists I0 I1 K t0 t1 t2, tl = t0 ++ t1 ++ t2 /\ con ME (p d) I0 hi t0 /\ con ME hi I1 mx t1 /\ con0 ME mx K mn t2 /\ NoDup (p d :: I0 ++ hi :: I1 ++ K ++ [mn]) /\ forall z, In z (p d :: I0 ++ hi :: I1 ++ K ++ [mn]) -> z < d.
Proof.
  intros Pn Px Ph Lx Lh A1 A2 A3 U I. destruct (pd_facts g0 kids St a d Ad) as [Pp Lp]. destruct (ups_split g0 kids St a mn hi Pn Ph (anc_trans _ _ mx _ A1 A2) tl (p d) Pp A3 U) as (t0 & t12 & Et & V0 & V12). destruct (ups_split g0 kids St a mn mx Pn Px A1 t12 hi Ph A2 V12) as (t1 & t2 & Et2 & V1 & V2). subst t12.
  destruct (ups_con g0 kids St a G PT ME hi (p d) t0 Ph Pp ltac:(lia) V0) as (I0 & E0 & C0); [intros e He; apply I; rewrite Et, !in_app_iff; auto|].
  destruct (ups_con g0 kids St a G PT ME mx hi t1 Px Ph ltac:(lia) V1) as (I1 & E1 & C1); [intros e He; apply I; rewrite Et, !in_app_iff; auto|].
  destruct (ups_con0 g0 kids St a d L G Ad LW PT ME mn mx t2 Pn Px V2) as (C2 & _); [intros e He; apply I; rewrite Et, !in_app_iff; auto|].
  exists I0, I1, (map src t2), t0, t1, t2. split; [auto|]. split; [auto|]. split; [auto|]. split; [auto|]. assert (Q : p d :: I0 ++ hi :: I1 ++ map src t2 ++ [mn] = map src tl ++ [mn]) by (rewrite Et, !map_app, E0, E1; cbn [app]; rewrite <- !app_assoc; cbn [app]; rewrite <- ?app_assoc; reflexivity). rewrite Q.
  split; [apply (ups_con0 g0 kids St a d L G Ad LW PT ME mn (p d) tl Pn Pp U I)|]. intros z Hz. exact (tree_lt g0 kids St a d L G Ad LW PT mn (p d) tl z Pn Pp Lp U Hz).
Qed.

(** ** A path of arcs inside the component *)
Lemma ach_con ME : forall l u w, achain a u l w -> l <> [] -> incl l ME -> con ME (pof u) (map pof (removelast (map (nb s) l))) (pof w) l.
Proof.
  assert (K : forall u e, In e (adj s u) -> In e ME -> con ME (pof u) [] (pof (nb s e)) [e]).
  { intros u e He Hm. destruct (g_twins _ _ _ G0 _ _ He) as [Q _]. change (pof (nb s e)) with (dst e). replace (pof u) with (src e) by (unfold IsoF.src; now rewrite Q). apply con_edge. split; [left; eauto|auto]. }
  induction l as [|e l IH]; intros u w C Ne I; [congruence|]. destruct C as [C1 C2]. destruct l as [|e2 l]; [cbn in C2; subst w; cbn; apply K; [auto|apply I; now left]|].
  change (removelast (map (nb s) (e :: e2 :: l))) with (nb s e :: removelast (map (nb s) (e2 :: l))). cbn [map].
  apply (con_perm _ _ _ (pof u) (pof (nb s e) :: [] ++ map pof (removelast (map (nb s) (e2 :: l)))) _ (pof w) ([e] ++ e2 :: l)); [reflexivity|apply incl_refl|]. apply con_app; [apply K; [auto|apply I; now left]|]. apply IH; [auto|discriminate|intros q Hq; apply I; now right].
Qed.
Lemma rl_map l : removelast (map (nb s) l) = map (nb s) (removelast l).
Proof. induction l as [|e l IH]; [reflexivity|]. destruct l as [|e2 l]; [reflexivity|]. change (removelast (map (nb s) (e :: e2 :: l))) with (nb s e :: removelast (map (nb s) (e2 :: l))). change (removelast (e :: e2 :: l)) with (e :: removelast (e2 :: l)). cbn [map] in *. now rewrite IH. Qed.
Lemma ach_in ME l u w : achain a u l w -> l <> [] -> incl l ME -> prim u -> (prim w) -> (forall e, In e (removelast l) -> prim (nb s e)) -> con ME u (map (nb s) (removelast l)) w l.
Proof.
  intros C Ne I Pu Pw Pi. pose proof (ach_con ME l u w C Ne I) as Q. rewrite (pof_prim g0 u Pu), (pof_prim g0 w Pw), rl_map in Q. replace (map pof (map (nb s) (removelast l))) with (map (nb s) (removelast l)) in Q; [exact Q|].
  rewrite map_map. apply map_ext_in. intros e He. symmetry. apply (pof_prim g0). now apply Pi.
Qed.
Lemma ach_to ME l u : achain a u l R -> l <> [] -> incl l ME -> prim u -> (forall e, In e (removelast l) -> prim (nb s e)) -> con ME u (map (nb s) (removelast l)) (p d) l.
Proof.
  intros C Ne I Pu Pi. pose proof (ach_con ME l u R C Ne I) as Q. rewrite (pof_prim g0 u Pu), (pof_R g0 a d Ad), rl_map in Q. replace (map pof (map (nb s) (removelast l))) with (map (nb s) (removelast l)) in Q; [exact Q|].
  rewrite map_map. apply map_ext_in. intros e He. symmetry. apply (pof_prim g0). now apply Pi.
Qed.
Lemma ach_app l1 : forall u t l2 w, achain a u (l1 ++ t :: l2) w -> achain a u (l1 ++ [t]) (nb s t) /\ achain a (nb s t) l2 w.
Proof. induction l1 as [|e l1 IH]; intros u t l2 w C; cbn [app IsoKZ.achain] in *; destruct C as [C1 C2]; [auto|]. destruct (IH _ _ _ _ C2). auto. Qed.

Section Ctx.
Variables (D : Z -> bool) (b : est) (f : Z -> Z) (stk : list Z).
Hypothesis Tu : turned a D b.
Hypothesis DT : forall x, In x (vsof s R) -> D x = true.
Local Notation b' := (setfp b f).
Local Notation lst := (lst b).
Let E0 : forall e, Z.land (fl s e) EDGE_TYPE_MASK = ty a e := fun e => eq_refl.

(** ** Pieces of the external face that may be empty *)
Lemma seg0x ME l1 x D0 px l2 : L = l1 ++ D0 ++ px :: l2 -> hd NIL (D0 ++ [px]) = x -> incl (map lst (tl (D0 ++ [px]))) ME -> con0 ME x D0 px (map lst (tl (D0 ++ [px]))).
Proof.
  intros E Ex I. destruct D0 as [|q D0]; [left; cbn in *; auto|]. cbn [app hd tl] in *. subst q. right. exists D0. split; [|reflexivity]. apply (seg_in g0 kids St a d L G Ad LW D b Tu DT ME l1 x D0 px l2 E I).
Qed.
Lemma seg0y ME l1 py C1 y l2 : L = l1 ++ py :: C1 ++ l2 -> last (py :: C1) NIL = y -> incl (map lst C1) ME -> con0 ME y C1 py (map lst C1).
Proof.
  intros E Ey I. destruct (list_snoc C1) as [->|(k & z & ->)]; [left; cbn in *; auto|]. change (py :: k ++ [z]) with ((py :: k) ++ [z]) in Ey. rewrite last_snoc in Ey. subst z. right. exists k. split; [|symmetry; apply Permutation_cons_append].
  apply (con_sym src dst (ok a ME) (src_twin g0 a) (dst_twin g0 a) (ok_twin g0 a G ME)). rewrite <- app_assoc in E. apply (seg_in g0 kids St a d L G Ad LW D b Tu DT ME l1 py k y l2 E I).
Qed.

(** ** The end common to all minors *)
Record legs (i : icx) (MF : list Z) (top bot : Z) (h : graph) (A : Z -> list Z) (ME tl Jx Jy Jw Jz lx ly lw lz : list Z) : Prop := {
  lg_lv : leaves g0 a ME h A; lg_f : incl MF ME; lg_t : incl tl ME; lg_cov : incl ME (MF ++ tl ++ lx ++ ly ++ lw ++ lz);
  lg_u : ups top (pof bot) tl;
  lg_x : con ME (ix i) Jx (iux i) lx; lg_y : con ME (iy i) Jy (iuy i) ly; lg_w : con ME (iw i) Jw (iv i) lw;
  lg_z : idz i = NIL /\ Jz = [] /\ lz = [] \/ idz i <> NIL /\ con ME (iw i) Jz (iuz i) lz;
  lg_nd : forall T C, NoDup T -> (forall z, In z T -> z < d) -> NoDup C -> (forall z, In z C -> prim z /\ B s z = R) -> NoDup (T ++ C ++ Jx ++ Jy ++ Jw ++ Jz) }.
Variables (Px Py Pw Pz : Z -> Prop).
Local Ltac inc := let e := fresh "e" in intros e; repeat (cbn [In app]; rewrite ?in_app_iff); tauto.
Lemma base g F MF i top bot : rpv g (setfl b' F) stk -> marked (fl s) F MF -> In (ix i) L -> In (iy i) L -> In (iw i) L -> ix i <> iy i -> ix i <> iw i -> iw i <> iy i ->
  way Px (ix i) (iux i) (idx i) -> way Py (iy i) (iuy i) (idy i) -> way Pw (iw i) (iv i) (idw i) -> iv i = p d ->
  idz i = NIL \/ (way Pz (iw i) (iuz i) (idz i) /\ iuz i < p d /\ forall c, Pw c -> Pz c -> False) ->
  prim top -> (prim bot /\ anc top bot) \/ bot = R /\ anc top (p d) ->
  exists g' h A ME tl Jx Jy Jw Jz lx ly lw lz, finish_minor g i top bot = Ret (g', C_OK) /\ _DeleteUnmarkedVerticesAndEdges g' = Ret h /\ legs i MF top bot h A ME tl Jx Jy Jw Jz lx ly lw lz.
Proof.
  intros H M Ix Iy Iw Nxy Nxw Nwy Wx Wy Ww Ev Wz Pt Hb. destruct (way_prim g0 kids St a FW _ _ _ _ Wx) as (Pdx & Pux & _). destruct (way_prim g0 kids St a FW _ _ _ _ Wy) as (Pdy & Puy & _). destruct (way_prim g0 kids St a FW _ _ _ _ Ww) as (Pdw & Pv & _).
  pose proof (ways_ne g0 kids St a d L G Ad LW FW) as WN. pose proof (way_dj g0 kids St a d L G Ad LW FW) as WD. pose proof (leaf_in g0 kids St a d L G Ad LW FW) as WL.
  destruct (fin_ok g0 kids St a d L G Ad LW FW PT D b Tu f (fl s) stk SO NL E0 g F MF i top bot H M Pt Hb) as (g' & h & A & tl & lx & ly & lw & lz & fx & fy & fw0 & fz & T1 & T2 & Lv' & U1 & U2 & U3 & U4 & Hfx & Hfy & Hfw & Hz).
  { eapply (way_to g0 kids St a d L G Ad LW FW); eauto. } { eapply (way_to g0 kids St a d L G Ad LW FW); eauto. } { eapply (way_to g0 kids St a d L G Ad LW FW); eauto. } { destruct Wz as [Wz|(Wz & _)]; [auto|]. right. eapply (way_to g0 kids St a d L G Ad LW FW); eauto. }
  { pose proof (WN _ _ _ _ _ _ _ _ Ix Iy Nxy Wx Wy). pose proof (WN _ _ _ _ _ _ _ _ Ix Iw Nxw Wx Ww). pose proof (WN _ _ _ _ _ _ _ _ Iw Iy Nwy Ww Wy). unfold dzl. destruct Wz as [Wz|(Wz & Lz & _)].
    - rewrite Wz, Z.eqb_refl. repeat constructor; cbn [In]; intuition congruence.
    - pose proof (WN _ _ _ _ _ _ _ _ Ix Iw Nxw Wx Wz). pose proof (WN _ _ _ _ _ _ _ _ Iw Iy Nwy Wz Wy). assert (iv i <> iuz i) by lia. destruct (idz i =? NIL); repeat constructor; cbn [In]; intuition congruence. }
  set (ME := tl ++ (fx :: lx) ++ (fy :: ly) ++ (fw0 :: lw) ++ (fz ++ lz) ++ MF) in Lv'.
  destruct (leg_piece g0 kids St a d L G Ad LW FW PT ME Px (ix i) (iux i) (idx i) fx lx Ix Wx U2 Hfx) as (C3 & N3 & B3); [unfold ME; inc|]. destruct (leg_piece g0 kids St a d L G Ad LW FW PT ME Py (iy i) (iuy i) (idy i) fy ly Iy Wy U3 Hfy) as (C4 & N4 & B4); [unfold ME; inc|]. destruct (leg_piece g0 kids St a d L G Ad LW FW PT ME Pw (iw i) (iv i) (idw i) fw0 lw Iw Ww U4 Hfw) as (C5 & N5 & B5); [unfold ME; inc|].
  exists g', h, A, ME, tl, (map src lx), (map src ly), (map src lw), (map src lz), (fx :: lx), (fy :: ly), (fw0 :: lw), (fz ++ lz). split; [exact T1|]. split; [exact T2|].
  destruct Hz as [(Hz & -> & ->)|(Nz & U5 & fz0 & -> & Hfz)].
  - constructor; auto; [unfold ME; inc|unfold ME; inc|unfold ME; inc|]. intros T C NT HT NC HC. cbn [map]. rewrite app_nil_r. apply (master g0 kids St a d G Ad); auto.
    + apply NoDup_app_intro; [auto|apply NoDup_app_intro; [auto|auto|]|].
      * intros q Q1 Q2. exact (WD _ _ _ _ _ _ _ _ q Iy Iw (not_eq_sym Nwy) Wy Ww (B4 q Q1) (B5 q Q2)).
      * intros q Q1 Q2. apply in_app_iff in Q2. destruct Q2 as [Q2|Q2]; [exact (WD _ _ _ _ _ _ _ _ q Ix Iy Nxy Wx Wy (B3 q Q1) (B4 q Q2))|exact (WD _ _ _ _ _ _ _ _ q Ix Iw Nxw Wx Ww (B3 q Q1) (B5 q Q2))].
    + intros z Hz'. rewrite !in_app_iff in Hz'. destruct Hz' as [Hz'|[Hz'|Hz']]; [exact (WL _ _ _ _ z Ix Wx (B3 z Hz'))|exact (WL _ _ _ _ z Iy Wy (B4 z Hz'))|exact (WL _ _ _ _ z Iw Ww (B5 z Hz'))].
  - destruct Wz as [Wz|(Wz & Lz & Dz)]; [congruence|]. destruct (way_prim g0 kids St a FW _ _ _ _ Wz) as (Pdz & Puz & _).
    destruct (leg_piece g0 kids St a d L G Ad LW FW PT ME Pz (iw i) (iuz i) (idz i) fz0 lz Iw Wz U5 Hfz) as (C6 & N6 & B6); [unfold ME; inc|].
    constructor; auto; [unfold ME; inc|unfold ME; inc|unfold ME; inc|]. intros T C NT HT NC HC. apply (master g0 kids St a d G Ad); auto.
    + destruct (proj2 FA _ Iw) as (Pw0 & _). apply NoDup_app_intro; [auto|apply NoDup_app_intro; [auto|apply NoDup_app_intro; [auto|auto|]|]|].
      * intros q Q1 Q2. destruct Ww as [Ww _], Wz as [Wz _]. exact (leg_dj2 g0 kids St a Pw Pz (iw i) (idw i) (idz i) q Pw0 Pdw Pdz Ww Wz Dz (B5 q Q1) (B6 q Q2)).
      * intros q Q1 Q2. apply in_app_iff in Q2. destruct Q2 as [Q2|Q2]; [exact (WD _ _ _ _ _ _ _ _ q Iy Iw (not_eq_sym Nwy) Wy Ww (B4 q Q1) (B5 q Q2))|exact (WD _ _ _ _ _ _ _ _ q Iy Iw (not_eq_sym Nwy) Wy Wz (B4 q Q1) (B6 q Q2))].
      * intros q Q1 Q2. rewrite !in_app_iff in Q2. destruct Q2 as [Q2|[Q2|Q2]]; [exact (WD _ _ _ _ _ _ _ _ q Ix Iy Nxy Wx Wy (B3 q Q1) (B4 q Q2))|exact (WD _ _ _ _ _ _ _ _ q Ix Iw Nxw Wx Ww (B3 q Q1) (B5 q Q2))|exact (WD _ _ _ _ _ _ _ _ q Ix Iw Nxw Wx Wz (B3 q Q1) (B6 q Q2))].
    + intros z Hz'. rewrite !in_app_iff in Hz'. destruct Hz' as [Hz'|[Hz'|[Hz'|Hz']]]; [exact (WL _ _ _ _ z Ix Wx (B3 z Hz'))|exact (WL _ _ _ _ z Iy Wy (B4 z Hz'))|exact (WL _ _ _ _ z Iw Ww (B5 z Hz'))|exact (WL _ _ _ _ z Iw Wz (B6 z Hz'))].
Qed.
End Ctx.
End KC.
