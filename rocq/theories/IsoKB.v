(** * IsoKB: isolating the nonplanarity minors A and B. *)
From Coq Require Import ZifyBool Permutation.
From Verif Require Import Base BaseP GraphRec GraphM GraphSpec GSimp LinkP GraphP GraphP2 GraphP3 ListM ListSpec DFSM DFSSpec DFSP TestM TestSpec TestP TestP3 ObsSpec EmbM EmbSpec EmbP EmbP2 FaceP GeoP EmbInv EmbStep EmbTree EmbWalk EmbOrient EmbJoin EmbDown EmbDown3 EmbFan EmbStor FanP IsoM IsoKM IsoP1 IsoP2 IsoP3 IsoP4 IsoO IsoO2 IsoX IsoX2 IsoX3 IsoX4 PlV PlV3 PlI IsoKI IsoKU IsoK IsoKK IsoKA IsoI IsoF IsoT IsoKP.

(** What the isolator leaves: some of the edges, forming a subdivision of K3,3 or K5. *)
Definition kisolated (g0 : graph) (a : est) (h : graph) : Prop :=
  exists ME A, leaves g0 a ME h A /\ (bipartite_subdivision h A 3 3 \/ complete_subdivision h A 5).

Lemma order3_of x y z : exists hi md lo, order3 x y z hi md lo /\ hi = MAX3 x y z /\ lo = MIN3 x y z /\ lo <= md <= hi.
Proof.
  unfold order3, MAX3, MIN3. destruct (Z_le_dec x y), (Z_le_dec y z), (Z_le_dec x z); try lia.
  - exists z, y, x. lia.
  - exists y, z, x. lia.
  - exists y, x, z. lia.
  - exists z, x, y. lia.
  - exists x, z, y. lia.
  - exists x, y, z. lia.
Qed.

Section KB.
Variables (g0 : graph) (kids : Z -> list Z).
Hypothesis St : static g0 kids.
Local Notation N := (gN g0).
Local Notation p := (viParent (gVI g0)).
Local Notation prim := (prim (gN g0)).
Local Notation anc := (ancestor (viParent (gVI g0))).
Local Notation geo := (geo (gN g0) (viParent (gVI g0))).
Local Notation act := (act g0).
Local Notation rpv := (rpv g0).
Local Notation marked := (marked g0).
Local Notation vsof := (vsof (gN g0)).
Local Notation pof := (pof g0).
Variables (a : est) (d : Z) (L : list Z).
Local Notation s := (eV a).
Local Notation R := (gN g0 + d).
Hypothesis G : geo NIL [] s.
Hypothesis Ad : act s d.
Hypothesis LW : Lw g0 s R L.
Hypothesis FW : fwok g0 a.
Hypothesis PT : ptypes a.
Hypothesis SO : stor g0 a.
Hypothesis NL : noloop g0 a.
Local Notation G0 := (g_base _ _ _ _ _ G).
Local Notation src := (IsoF.src g0 a).
Local Notation dst := (IsoF.dst g0 a).
Local Notation con ME := (con (IsoF.src g0 a) (IsoF.dst g0 a) (ok a ME)).
Local Notation con0 ME := (con0 (IsoF.src g0 a) (IsoF.dst g0 a) (ok a ME)).
Local Notation ups := (ups g0 a).
Local Notation below := (below g0).
Let FA := K_facts g0 kids St a d L G Ad LW.

(** A way from z through a separated child with property P and an unembedded edge to u. *)
Definition way (P : Z -> Prop) (z u t : Z) : Prop := leg g0 a P z t /\ exists f, In f (fw a u) /\ nb s f = t.
Lemma way_prim P z u t : way P z u t -> prim t /\ prim u /\ anc u t.
Proof. intros (_ & f & Hf & <-). destruct (fw_prim g0 kids St a FW u f Hf) as (P1 & P2 & P3 & _). auto. Qed.
Lemma way_to P z u t : In z L -> way P z u t -> wayto g0 a z u t.
Proof. intros Hz W. destruct (way_prim _ _ _ _ W) as (P1 & P2 & P3). destruct W as [W1 W2]. destruct (proj2 FA z Hz) as (Pz & _). split; [auto|]. split; [auto|]. split; [now apply (leg_anc g0 a P)|auto]. Qed.
Lemma pd_facts : prim (p d) /\ p d < d.
Proof. apply (Hp g0 kids St); apply Ad. Qed.
Lemma pd_anc z : In z L -> anc (p d) z.
Proof. intros Hz. destruct (proj2 FA z Hz) as (P1 & _ & P3 & _). apply (anc_trans _ _ d); [|auto]. apply anc_step; [apply Ad|constructor]. Qed.
Lemma way_up P z u t : In z L -> way P z u t -> u <= p d -> anc u (p d).
Proof.
  intros Hz W Lu. destruct (way_prim _ _ _ _ W) as (P1 & P2 & P3). destruct (proj2 FA z Hz) as (Pz & _). destruct pd_facts as [Q1 Q2]. apply (anc_total _ _ St _ _ t); auto. apply (anc_trans _ _ z); [now apply pd_anc|]. apply (leg_anc g0 a P z t Pz). apply W.
Qed.
Lemma ways_ne P P' z z' u u' t t' : In z L -> In z' L -> z <> z' -> way P z u t -> way P' z' u' t' -> t <> t'.
Proof.
  intros Hz Hz' Ne W W' <-. destruct (way_prim _ _ _ _ W) as (P1 & _). destruct (proj2 FA z Hz) as (Pz & Bz & _). destruct (proj2 FA z' Hz') as (Pz' & Bz' & _). destruct W as [W _], W' as [W' _].
  pose proof (leg_anc g0 a P z t Pz W) as A1. pose proof (leg_anc g0 a P' z' t Pz' W') as A2.
  assert (K : forall P z z', In z L -> In z' L -> z < z' -> prim z -> prim z' -> leg g0 a P z t -> anc z t -> anc z' t -> False).
  { clear - St FA G Ad LW P1. intros P z z' Hz Hz' Lt Pz Pz' W A1 A2. apply (leg_dj0 g0 kids St a d L G Ad LW P z t z' z'); auto; [|constructor]. split; [auto|]. split; [apply (anc_total _ _ St _ _ t); auto; lia|]. split; [lia|auto]. }
  destruct (Z_lt_dec z z'); [apply (K P z z'); auto|apply (K P' z' z); auto; lia].
Qed.
(** the parts of a way, once marked *)
Lemma leg_piece ME P z u t f l : In z L -> way P z u t -> ups z t l -> In f (fw a u) /\ nb s f = t -> incl (f :: l) ME -> con ME z (map src l) u (f :: l) /\ NoDup (map src l) /\ (forall q, In q (map src l) -> below z t q).
Proof.
  intros Hz W U [F1 F2] I. destruct (way_prim _ _ _ _ W) as (P1 & _). destruct (proj2 FA z Hz) as (Pz & _). split; [now apply (leg_con g0 kids St a d L G Ad LW FW PT ME z t u f l)|].
  destruct (ups_con0 g0 kids St a d L G Ad LW PT ME z t l Pz P1 U (fun e He => I e (or_intror He))) as (_ & Nd & B). split; [now apply NoDup_app_l in Nd|]. exact B.
Qed.
Lemma tree_lt u t l z : prim u -> prim t -> t < d -> ups u t l -> In z (map src l ++ [u]) -> z < d.
Proof.
  intros Pu Pt Lt U Hz. destruct (ups_con0 g0 kids St a d L G Ad LW PT l u t l Pu Pt U (incl_refl _)) as (_ & _ & B). apply in_app_iff in Hz. destruct Hz as [Hz|[<-|[]]].
  - destruct (B z Hz) as (_ & _ & _ & Q). pose proof (anc_le _ _ St _ _ Pt Q). lia.
  - assert (anc u t) by (apply (ups_pth g0 kids St a G PT l u l Pu t Pt U (incl_refl _))). pose proof (anc_le _ _ St _ _ Pt H). lia.
Qed.
Lemma leaf_in P z u t q : In z L -> way P z u t -> below z t q -> prim q /\ R < B s q /\ d < q.
Proof. intros Hz W Bq. destruct (way_prim _ _ _ _ W) as (P1 & _). apply (leg_out g0 kids St a d L G Ad LW P z t q); auto. apply W. Qed.
Lemma way_dj P P' z z' u u' t t' q : In z L -> In z' L -> z <> z' -> way P z u t -> way P' z' u' t' -> below z t q -> below z' t' q -> False.
Proof. intros Hz Hz' Ne W W'. destruct (way_prim _ _ _ _ W) as (P1 & _). destruct (way_prim _ _ _ _ W') as (P1' & _). apply (leg_dj g0 kids St a d L G Ad LW P P' z t z' t' q); auto; [apply W|apply W']. Qed.

Lemma ups_uniq u : forall l t l', prim t -> ups u t l -> ups u t l' -> l = l'.
Proof.
  induction l as [|e l IH]; intros t l' Pt U U'.
  - cbn [IsoP1.ups] in U. subst t. destruct l' as [|e' l']; [auto|]. cbn [IsoP1.ups] in U'. destruct U' as [Q _]. congruence.
  - destruct l' as [|e' l']; [cbn [IsoP1.ups] in U, U'; destruct U; congruence|]. cbn [IsoP1.ups] in U, U'. destruct U as (_ & U1 & U2 & U3), U' as (_ & V1 & V2 & V3). f_equal.
    + rewrite <- (twin_invol e), <- (twin_invol e'). f_equal. destruct (g_twins _ _ _ G0 _ _ U1) as [T1 T2]. destruct (g_twins _ _ _ G0 _ _ V1) as [T1' T2'].
      assert (C : forall x, In x (adj s t) -> ty a x = EDGE_TYPE_PARENT -> childarc s (twin x)) by (intros x Hx Tx; apply (PT (twin x)); [apply (arc_twin g0 _ _ G0); left; eauto|now rewrite twin_invol]).
      apply (g_childq _ _ _ G0 (nb s e) (nb s e')); auto. congruence.
    + destruct (parent_step g0 kids St a G PT t e Pt U1 U2) as (_ & _ & Np & _). apply (IH (p t)); auto. now apply (Hp g0 kids St).
Qed.
Lemma on_path u t l q : prim u -> prim t -> prim q -> ups u t l -> anc u q -> anc q t -> In q (map src l ++ [u]).
Proof.
  intros Pu Pt Pq U A1 A2. destruct (ups_split g0 kids St a u q Pu Pq A1 l t Pt A2 U) as (l1 & l2 & -> & V1 & V2). rewrite map_app, !in_app_iff. destruct l2 as [|e l2]; [cbn [IsoP1.ups] in V2; right; now left|].
  left. right. left. cbn [IsoP1.ups] in V2. destruct V2 as (_ & V3 & V4 & _). now apply (parent_step g0 kids St a G PT q e Pq).
Qed.
(** Where two ways down part. *)
Lemma fork w t2 l2 : prim w -> prim t2 -> ups w t2 l2 -> forall l1 t1, prim t1 -> ups w t1 l1 ->
  exists b, prim b /\ anc w b /\ anc b t1 /\ anc b t2 /\ forall q, below b t1 q -> below b t2 q -> False.
Proof.
  intros Pw P2 U2. assert (A2 : anc w t2) by (apply (ups_pth g0 kids St a G PT l2 w l2 Pw t2 P2 U2 (incl_refl _))).
  induction l1 as [|e l1 IH]; intros t1 P1 U1.
  - cbn [IsoP1.ups] in U1. subst t1. exists w. split; [auto|]. split; [constructor|]. split; [constructor|]. split; [auto|]. intros q (Q1 & Q2 & Q3 & Q4) _. apply Q3. pose proof (anc_le _ _ St _ _ Pw Q4). pose proof (anc_le _ _ St _ _ Q1 Q2). lia.
  - destruct (in_dec Z.eq_dec t1 (map src l2 ++ [w])) as [I|I].
    + assert (A : anc t1 t2 /\ anc w t1).
      { apply in_app_iff in I. destruct I as [I|[<-|[]]]; [|split; [auto|constructor]]. destruct (ups_con0 g0 kids St a d L G Ad LW PT l2 w t2 l2 Pw P2 U2 (incl_refl _)) as (_ & _ & Q). destruct (Q t1 I) as (_ & Q2 & _ & Q4). auto. }
      exists t1. split; [auto|]. split; [apply A|]. split; [constructor|]. split; [apply A|]. intros q (Q1 & Q2 & Q3 & Q4) _. apply Q3. pose proof (anc_le _ _ St _ _ P1 Q4). pose proof (anc_le _ _ St _ _ Q1 Q2). lia.
    + cbn [IsoP1.ups] in U1. destruct U1 as (Ne & V1 & V2 & V3). destruct (parent_step g0 kids St a G PT t1 e P1 V1 V2) as (_ & _ & Np & _). destruct (Hp g0 kids St t1 P1 Np) as [Pp Lp].
      destruct (IH (p t1) Pp V3) as (b & B1 & B2 & B3 & B4 & B5). exists b. split; [auto|]. split; [auto|]. split; [now apply anc_step|]. split; [auto|].
      intros q (Q1 & Q2 & Q3 & Q4) Bq. destruct (Z.eq_dec q t1) as [->|Nq].
      * apply I. apply (on_path w t2 l2 t1); auto; [now apply (anc_trans _ _ b)|apply Bq].
      * destruct (anc_up g0 q t1 Q4 Nq) as [_ K]. apply (B5 q); [|auto]. split; auto.
Qed.

Section Ctx.
Variables (D : Z -> bool) (b : est) (f : Z -> Z) (stk : list Z).
Hypothesis Tu : turned a D b.
Hypothesis DT : forall x, In x (vsof s R) -> D x = true.
Local Notation b' := (setfp b f).
Local Notation lst := (lst b).
Variables (x w y : Z) (A0 A1 A2 A3 : list Z).
Hypothesis EL : L = A0 ++ x :: A1 ++ w :: A2 ++ y :: A3.
Variables (Px Py Pw : Z -> Prop).
Let E0 : forall e, Z.land (fl s e) EDGE_TYPE_MASK = ty a e := fun e => eq_refl.
Lemma in_xwy : In x L /\ In w L /\ In y L /\ x <> w /\ w <> y /\ x <> y /\ NoDup L.
Proof.
  destruct FA as [Nd _]. apply NoDup_cons_iff in Nd. destruct Nd as [_ Nd]. assert (Nd' := Nd). rewrite EL in Nd'.
  assert (I : forall z, z = x \/ z = w \/ z = y -> In z L) by (intros z Hz; rewrite EL; repeat (rewrite in_app_iff; cbn [In]); intuition).
  assert (Q : forall q, (cnt (A0 ++ x :: A1 ++ w :: A2 ++ y :: A3) q <= 1)%nat) by (apply cn_nd; auto).
  split; [auto|]. split; [auto|]. split; [auto|]. assert (C : forall z, c1 z z = 1%nat) by (intros z; unfold c1; destruct (Z.eq_dec z z); congruence).
  split; [|split; [|split; [|auto]]]; intros E.
  - specialize (Q w). subst x. cnorm. rewrite !C in Q. lia.
  - specialize (Q w). subst y. cnorm. rewrite !C in Q. lia.
  - specialize (Q x). subst y. cnorm. rewrite !C in Q. lia.
Qed.
Let Ix : In x L := proj1 in_xwy.
Let Iw : In w L := proj1 (proj2 in_xwy).
Let Iy : In y L := proj1 (proj2 (proj2 in_xwy)).
Let Nxw : x <> w := proj1 (proj2 (proj2 (proj2 in_xwy))).
Let Nwy : w <> y := proj1 (proj2 (proj2 (proj2 (proj2 in_xwy)))).
Let Nxy : x <> y := proj1 (proj2 (proj2 (proj2 (proj2 (proj2 in_xwy))))).
Let NdL : NoDup L := proj2 (proj2 (proj2 (proj2 (proj2 (proj2 in_xwy))))).
Lemma inL z : In z (A0 ++ x :: A1 ++ w :: A2 ++ y :: A3) -> prim z /\ B s z = R.
Proof. rewrite <- EL. intros H. destruct (proj2 FA z H) as (P1 & P2 & _). auto. Qed.

(** The whole external face, in pieces. *)
Lemma face_all g F ME : rpv g (setfl b' F) stk -> marked (fl s) F ME ->
  exists g' F', _MarkPathAlongBicompExtFace g R R = Ret g' /\ rpv g' (setfl b' F') stk /\ marked (fl s) F' ((map lst (A0 ++ [x]) ++ map lst (A1 ++ [w]) ++ map lst (A2 ++ [y]) ++ map lst (A3 ++ [R])) ++ ME).
Proof.
  intros H M. destruct (seg_mark g0 kids St a d L G Ad LW D b Tu DT f (fl s) stk g F ME [] R L R [] eq_refl H M) as (g' & F' & E & H' & M'). exists g', F'. split; [exact E|]. split; [auto|]. rewrite EL in M'.
  rewrite <- !map_app. eapply eq_rect; [exact M'|]. f_equal. f_equal. repeat (rewrite <- ?app_assoc; cbn [app]). reflexivity.
Qed.
Lemma face_cons ME : incl (map lst (A0 ++ [x]) ++ map lst (A1 ++ [w]) ++ map lst (A2 ++ [y]) ++ map lst (A3 ++ [R])) ME ->
  con ME (p d) A0 x (map lst (A0 ++ [x])) /\ con ME x A1 w (map lst (A1 ++ [w])) /\ con ME w A2 y (map lst (A2 ++ [y])) /\ con ME y A3 (p d) (map lst (A3 ++ [R])).
Proof.
  intros I. assert (J : forall k, incl k (map lst (A0 ++ [x]) ++ map lst (A1 ++ [w]) ++ map lst (A2 ++ [y]) ++ map lst (A3 ++ [R])) -> incl k ME) by (intros k Hk e He; auto).
  split; [|split; [|split]].
  - apply (seg_from g0 kids St a d L G Ad LW D b Tu DT ME A0 x _ EL). apply J. intros e. rewrite !in_app_iff. tauto.
  - apply (seg_in g0 kids St a d L G Ad LW D b Tu DT ME A0 x A1 w _ EL). apply J. intros e. rewrite !in_app_iff. tauto.
  - apply (seg_in g0 kids St a d L G Ad LW D b Tu DT ME (A0 ++ x :: A1) w A2 y A3); [rewrite EL; repeat (rewrite <- ?app_assoc; cbn [app]); reflexivity|]. apply J. intros e. rewrite !in_app_iff. tauto.
  - apply (seg_to g0 kids St a d L G Ad LW D b Tu DT ME (A0 ++ x :: A1 ++ w :: A2) y A3); [rewrite EL; repeat (rewrite <- ?app_assoc; cbn [app]); reflexivity|]. apply J. intros e. rewrite !in_app_iff. tauto.
Qed.
Local Ltac inc := let e := fresh "e" in intros e; repeat (cbn [In app]; rewrite ?in_app_iff); tauto.

(** Minor A; also minor E2, with an ancestor of v instead of v. *)
Lemma iso_A g F i : rpv g (setfl b' F) stk -> marked (fl s) F [] -> ir i = R -> ix i = x -> iy i = y -> iw i = w -> idz i = NIL ->
  way Px x (iux i) (idx i) -> way Py y (iuy i) (idy i) -> way Pw w (iv i) (idw i) -> iux i < iv i -> iuy i < iv i -> iv i < p d ->
  exists g' h, _IsolateMinorA g i = Ret (g', C_OK) /\ _DeleteUnmarkedVerticesAndEdges g' = Ret h /\ kisolated g0 a h.
Proof.
  intros H M Er Ex Ey Ew Ez Wx Wy Ww Lx Ly Lv. unfold _IsolateMinorA. rewrite Er. destruct (face_all g F [] H M) as (g1 & F1 & E1 & H1 & M1). rewrite E1. cbn [bind]. clear E1.
  destruct (way_prim _ _ _ _ Wx) as (Pdx & Pux & _). destruct (way_prim _ _ _ _ Wy) as (Pdy & Puy & _). destruct (way_prim _ _ _ _ Ww) as (Pdw & Pv & _). destruct pd_facts as [Ppd Lpd].
  pose proof (way_up _ _ _ _ Ix Wx ltac:(lia)) as Ux. pose proof (way_up _ _ _ _ Iy Wy ltac:(lia)) as Uy. pose proof (way_up _ _ _ _ Iw Ww ltac:(lia)) as Uw.
  set (mn := Z.min (iux i) (iuy i)). set (mx := Z.max (iux i) (iuy i)).
  assert (HM : (iux i = mx /\ iuy i = mn \/ iux i = mn /\ iuy i = mx) /\ mn <= mx < iv i) by (unfold mx, mn; lia). destruct HM as [HM Lm].
  assert (Pmn : prim mn /\ anc mn (p d)) by (destruct HM as [[_ <-]|[<- _]]; auto). assert (Pmx : prim mx /\ anc mx (p d)) by (destruct HM as [[<- _]|[_ <-]]; auto). destruct Pmn as [Pmn Umn], Pmx as [Pmx Umx].
  assert (Amn : anc mn mx) by (apply (anc_total _ _ St _ _ (p d)); auto; lia). assert (Amx : anc mx (iv i)) by (apply (anc_total _ _ St _ _ (p d)); auto; lia).
  destruct (fin_ok g0 kids St a d L G Ad LW FW PT D b Tu f (fl s) stk SO NL E0 g1 F1 _ i mn R H1 M1 Pmn (or_intror (conj eq_refl Umn))) as (g' & h & A & tl & lx & ly & lw & lz & fx & fy & fw0 & fz & T1 & T2 & Lv' & U1 & U2 & U3 & U4 & Hfx & Hfy & Hfw & Hz); rewrite ?Ex, ?Ey, ?Ew in *.
  { eapply way_to; eauto. } { eapply way_to; eauto. } { eapply way_to; eauto. } { auto. }
  { unfold dzl. rewrite Ez, Z.eqb_refl. pose proof (ways_ne _ _ _ _ _ _ _ _ Ix Iy Nxy Wx Wy). pose proof (ways_ne _ _ _ _ _ _ _ _ Ix Iw Nxw Wx Ww). pose proof (ways_ne _ _ _ _ _ _ _ _ Iw Iy Nwy Ww Wy).
    repeat constructor; cbn [In]; intuition congruence. }
  exists g', h. split; [exact T1|]. split; [exact T2|]. destruct Hz as [(_ & -> & ->)|[Q _]]; [|congruence]. set (ME := tl ++ (fx :: lx) ++ (fy :: ly) ++ (fw0 :: lw) ++ _) in Lv'. exists ME, A. split; [exact Lv'|]. left.
  destruct (leaves_in g0 a h A ME Lv') as (K1 & K2 & _). rewrite (pof_R g0 a d Ad) in U1.
  destruct (ups_split g0 kids St a mn (iv i) Pmn Pv (anc_trans _ _ mx _ Amn Amx) tl (p d) Ppd Uw U1) as (t0 & t12 & Et & V0 & V12). destruct (ups_split g0 kids St a mn mx Pmn Pmx Amn t12 (iv i) Pv Amx V12) as (t1 & t2 & Et2 & V1 & V2).
  assert (It : incl tl ME) by (unfold ME; inc). subst t12. rewrite Et in It.
  destruct (ups_con g0 kids St a G PT ME (iv i) (p d) t0 Pv Ppd ltac:(lia) V0) as (I0 & EI0 & C0); [intros e He; apply It; rewrite !in_app_iff; auto|].
  destruct (ups_con g0 kids St a G PT ME mx (iv i) t1 Pmx Pv ltac:(lia) V1) as (I1 & EI1 & C1); [intros e He; apply It; rewrite !in_app_iff; auto|].
  destruct (ups_con0 g0 kids St a d L G Ad LW PT ME mn mx t2 Pmn Pmx V2) as (C2 & _ & _); [intros e He; apply It; rewrite !in_app_iff; auto|].
  destruct (leg_piece ME Px x (iux i) (idx i) fx lx Ix Wx U2 Hfx) as (C3 & N3 & B3); [unfold ME; inc|]. destruct (leg_piece ME Py y (iuy i) (idy i) fy ly Iy Wy U3 Hfy) as (C4 & N4 & B4); [unfold ME; inc|]. destruct (leg_piece ME Pw w (iv i) (idw i) fw0 lw Iw Ww U4 Hfw) as (C5 & N5 & B5); [unfold ME; inc|].
  destruct (face_cons ME) as (D0 & D1 & D2 & D3); [unfold ME; inc|].
  refine (asm_A src dst (ok a ME) (src_twin g0 a) (dst_twin g0 a) (ok_twin g0 a G ME) h A K1 K2 (p d) x w y (iv i) mx mn (iux i) (iuy i) A0 A1 A2 A3 _ _ _ I0 I1 _ _ _ _ _ _ _ _ _ _ _ D0 D1 D2 D3 C3 C4 C5 C0 C1 C2 HM _ _).
  - apply (master g0 kids St a d G Ad).
    + destruct (ups_con0 g0 kids St a d L G Ad LW PT tl mn (p d) tl Pmn Ppd U1 (incl_refl _)) as (_ & Nd & _). rewrite Et, !map_app, EI0, EI1, <- !app_assoc in Nd. exact Nd.
    + rewrite <- EL. exact NdL.
    + apply NoDup_app_intro; [auto|apply NoDup_app_intro; [auto|auto|]|].
      * intros q Q1 Q2. exact (way_dj _ _ _ _ _ _ _ _ q Iy Iw (not_eq_sym Nwy) Wy Ww (B4 q Q1) (B5 q Q2)).
      * intros q Q1 Q2. apply in_app_iff in Q2. destruct Q2 as [Q2|Q2]; [exact (way_dj _ _ _ _ _ _ _ _ q Ix Iy Nxy Wx Wy (B3 q Q1) (B4 q Q2))|exact (way_dj _ _ _ _ _ _ _ _ q Ix Iw Nxw Wx Ww (B3 q Q1) (B5 q Q2))].
    + intros z Hz. apply (tree_lt mn (p d) tl z Pmn Ppd Lpd U1). rewrite Et, !map_app, EI0, EI1, <- !app_assoc. exact Hz.
    + apply inL.
    + intros z Hz. rewrite !in_app_iff in Hz. destruct Hz as [Hz|[Hz|Hz]]; [exact (leaf_in _ _ _ _ z Ix Wx (B3 z Hz))|exact (leaf_in _ _ _ _ z Iy Wy (B4 z Hz))|exact (leaf_in _ _ _ _ z Iw Ww (B5 z Hz))].
  - apply (cov_of g0 a ME h A _ Lv'). unfold ME. rewrite Et. inc.
Qed.

(** Minor B *)
Variable c : Z.
Lemma iso_B g F i : rpv g (setfl b' F) stk -> marked (fl s) F [] -> ir i = R -> ix i = x -> iy i = y -> iw i = w ->
  way Px x (iux i) (idx i) -> way Py y (iuy i) (idy i) -> way (fun z => z = c) w (iv i) (idw i) -> way (fun z => z = c) w (iuz i) (idz i) -> idw i <> w -> idz i <> w -> iv i = p d -> iux i < iv i -> iuy i < iv i -> iuz i < iv i ->
  exists g' h, _IsolateMinorB g i = Ret (g', C_OK) /\ _DeleteUnmarkedVerticesAndEdges g' = Ret h /\ kisolated g0 a h.
Proof.
  intros H M Er Ex Ey Ew Wx Wy Ww Wz Nw Nz Ev Lx Ly Lz. unfold _IsolateMinorB. rewrite Er. destruct (face_all g F [] H M) as (g1 & F1 & E1 & H1 & M1). rewrite E1. cbn [bind]. clear E1.
  destruct (way_prim _ _ _ _ Wx) as (Pdx & Pux & _). destruct (way_prim _ _ _ _ Wy) as (Pdy & Puy & _). destruct (way_prim _ _ _ _ Ww) as (Pdw & Pv & _). destruct (way_prim _ _ _ _ Wz) as (Pdz & Puz & _). destruct pd_facts as [Ppd Lpd].
  pose proof (way_up _ _ _ _ Ix Wx ltac:(lia)) as Ux. pose proof (way_up _ _ _ _ Iy Wy ltac:(lia)) as Uy. pose proof (way_up _ _ _ _ Iw Wz ltac:(lia)) as Uz.
  destruct (order3_of (iux i) (iuy i) (iuz i)) as (hi & md & lo & O3 & Ehi & Elo & Lo). rewrite <- Ehi, <- Elo.
  assert (HM : (prim hi /\ anc hi (p d)) /\ (prim md /\ anc md (p d)) /\ (prim lo /\ anc lo (p d)) /\ hi < p d).
  { assert (K : forall z, z = iux i \/ z = iuy i \/ z = iuz i -> prim z /\ anc z (p d)) by (intros z [->|[->| ->]]; auto). split; [|split; [|split]]; [apply K; unfold order3 in O3; clear - O3; intuition..|]. unfold order3 in O3. clear - O3 Ev Lx Ly Lz. lia. }
  destruct HM as ((Phi & Uhi) & (Pmd & Umd) & (Plo & Ulo) & Lhi).
  assert (Amd : anc md hi) by (apply (anc_total _ _ St _ _ (p d)); auto; lia). assert (Alo : anc lo md) by (apply (anc_total _ _ St _ _ (p d)); auto; lia).
  assert (Nn : idz i <> NIL) by (unfold GeoP.prim, NIL in *; lia).
  destruct (fin_ok g0 kids St a d L G Ad LW FW PT D b Tu f (fl s) stk SO NL E0 g1 F1 _ i lo hi H1 M1 Plo (or_introl (conj Phi (anc_trans _ _ md _ Alo Amd)))) as (g' & h & A & tl & lx & ly & lw & lz & fx & fy & fw0 & fz & T1 & T2 & Lv' & U1 & U2 & U3 & U4 & Hfx & Hfy & Hfw & Hz); rewrite ?Ex, ?Ey, ?Ew in *.
  { eapply way_to; eauto. } { eapply way_to; eauto. } { eapply way_to; eauto. } { right. eapply way_to; eauto. }
  { unfold dzl. rewrite eqb_false_neq by auto. pose proof (ways_ne _ _ _ _ _ _ _ _ Ix Iy Nxy Wx Wy). pose proof (ways_ne _ _ _ _ _ _ _ _ Ix Iw Nxw Wx Ww). pose proof (ways_ne _ _ _ _ _ _ _ _ Iw Iy Nwy Ww Wy).
    pose proof (ways_ne _ _ _ _ _ _ _ _ Ix Iw Nxw Wx Wz). pose proof (ways_ne _ _ _ _ _ _ _ _ Iw Iy Nwy Wz Wy). assert (iv i <> iuz i) by lia. repeat constructor; cbn [In]; intuition congruence. }
  exists g', h. split; [exact T1|]. split; [exact T2|]. destruct Hz as [(Q & _)|(_ & U5 & fz0 & -> & Hfz)]; [congruence|]. set (ME := tl ++ (fx :: lx) ++ (fy :: ly) ++ (fw0 :: lw) ++ _) in Lv'. exists ME, A. split; [exact Lv'|]. left.
  destruct (leaves_in g0 a h A ME Lv') as (K1 & K2 & _). rewrite (pof_prim g0 hi Phi) in U1.
  destruct (ups_split g0 kids St a lo md Plo Pmd Alo tl hi Phi Amd U1) as (t1 & t2 & Et & V1 & V2).
  assert (It : incl tl ME) by (unfold ME; inc). rewrite Et in It.
  destruct (ups_con0 g0 kids St a d L G Ad LW PT ME md hi t1 Pmd Phi V1) as (C1 & _ & _); [intros e He; apply It; rewrite !in_app_iff; auto|].
  destruct (ups_con0 g0 kids St a d L G Ad LW PT ME lo md t2 Plo Pmd V2) as (C2 & _ & _); [intros e He; apply It; rewrite !in_app_iff; auto|].
  destruct (leg_piece ME Px x (iux i) (idx i) fx lx Ix Wx U2 Hfx) as (C3 & N3 & B3); [unfold ME; inc|]. destruct (leg_piece ME Py y (iuy i) (idy i) fy ly Iy Wy U3 Hfy) as (C4 & N4 & B4); [unfold ME; inc|].
  destruct (face_cons ME) as (D0 & D1 & D2 & D3); [unfold ME; inc|].
  (* where the two ways from w part *)
  destruct (proj2 FA w Iw) as (Pw0 & _). destruct (fork w (idz i) lz Pw0 Pdz U5 lw (idw i) Pdw U4) as (bb & Pb & Awb & Ab1 & Ab2 & Dj).
  destruct (ups_split g0 kids St a w bb Pw0 Pb Awb lw (idw i) Pdw Ab1 U4) as (k1 & kb & Ek1 & Vk1 & Vkb). destruct (ups_split g0 kids St a w bb Pw0 Pb Awb lz (idz i) Pdz Ab2 U5) as (k2 & kb' & Ek2 & Vk2 & Vkb').
  assert (kb' = kb) by (now apply (ups_uniq w kb' bb kb)). subst kb'.
  assert (Cb : anc c bb /\ act s c /\ p c = w).
  { destruct Ww as [[Q|(c1 & X1 & X2 & X3 & ->)] _]; [congruence|]. destruct Wz as [[Q|(c2 & Y1 & Y2 & Y3 & ->)] _]; [congruence|]. split; [|auto]. pose proof (proj1 X1) as Pc.
    destruct (Z_le_dec c bb) as [Q|Q]; [apply (anc_total _ _ St _ _ (idw i)); auto|]. exfalso. assert (Abc : anc bb c) by (apply (anc_total _ _ St _ _ (idw i)); auto; lia).
    apply (Dj c); (split; [auto|]; split; [auto|]; split; [lia|auto]). }
  destruct Cb as (Cb & Ac & Ec). assert (Nbw : bb <> w). { intros ->. pose proof (anc_le _ _ St _ _ Pw0 Cb). destruct Ac as (Q1 & Q2 & _). destruct (Hp g0 kids St c Q1 Q2). lia. }
  assert (Iw1 : incl (fw0 :: k1 ++ kb) ME) by (unfold ME; rewrite Ek1; inc). assert (Iw2 : incl (fz0 :: k2 ++ kb) ME) by (unfold ME; rewrite Ek2; inc).
  destruct (ups_con g0 kids St a G PT ME w bb kb Pw0 Pb Nbw Vkb) as (Jb & EJb & C5); [intros e He; apply Iw1; right; apply in_app_iff; auto|].
  apply (con_sym src dst (ok a ME) (src_twin g0 a) (dst_twin g0 a) (ok_twin g0 a G ME)) in C5.
  assert (C6 : con ME bb (map src k1) (p d) (fw0 :: k1)) by (rewrite <- Ev; destruct Hfw as [Hf1 Hf2]; apply (leg_con g0 kids St a d L G Ad LW FW PT ME bb (idw i)); auto; intros e [He|He]; apply Iw1; [now left|right; apply in_app_iff; auto]).
  assert (C7 : con ME bb (map src k2) (iuz i) (fz0 :: k2)) by (destruct Hfz as [Hf1 Hf2]; apply (leg_con g0 kids St a d L G Ad LW FW PT ME bb (idz i)); auto; intros e [He|He]; apply Iw2; [now left|right; apply in_app_iff; auto]).
  destruct (ups_con0 g0 kids St a d L G Ad LW PT lw w (idw i) lw Pw0 Pdw U4 (incl_refl _)) as (_ & Ndw & Bw). destruct (ups_con0 g0 kids St a d L G Ad LW PT lz w (idz i) lz Pw0 Pdz U5 (incl_refl _)) as (_ & Ndz & Bz).
  apply NoDup_app_l in Ndw, Ndz. rewrite Ek1, map_app, EJb in Ndw, Bw. rewrite Ek2, map_app, EJb in Ndz, Bz.
  assert (B1 : forall q, In q (map src k1) -> below bb (idw i) q) by (apply (ups_con0 g0 kids St a d L G Ad LW PT k1 bb (idw i) k1 Pb Pdw Vk1 (incl_refl _))).
  assert (B2 : forall q, In q (map src k2) -> below bb (idz i) q) by (apply (ups_con0 g0 kids St a d L G Ad LW PT k2 bb (idz i) k2 Pb Pdz Vk2 (incl_refl _))).
  assert (BJ : forall q, In q (Jb ++ bb :: map src k1 ++ map src k2) -> below w (idw i) q \/ below w (idz i) q).
  { intros q Hq. repeat (rewrite in_app_iff in Hq; cbn [In] in Hq). destruct Hq as [Hq|[Hq|[Hq|Hq]]]; [left; apply Bw|left; apply Bw|left; apply Bw|right; apply Bz]; apply in_app_iff; cbn [In]; auto. }
  refine (asm_B src dst (ok a ME) (src_twin g0 a) (dst_twin g0 a) (ok_twin g0 a G ME) h A K1 K2 (p d) x w y bb hi md lo (iux i) (iuy i) (iuz i) A0 A1 A2 A3 _ _ Jb _ _ _ _ _ _ _ _ _ _ _ _ _ _ _ D0 D1 D2 D3 C3 C4 C5 C6 C7 C1 C2 O3 _ _).
  - apply (master g0 kids St a d G Ad).
    + destruct (ups_con0 g0 kids St a d L G Ad LW PT tl lo hi tl Plo Phi U1 (incl_refl _)) as (_ & Nd & B). rewrite Et, map_app, <- app_assoc in Nd. rewrite Et, map_app in B. constructor; [|exact Nd].
      intros Q. rewrite app_assoc, in_app_iff in Q. destruct Q as [Q|[Q|[]]]; [|lia]. destruct (B _ Q) as (_ & _ & _ & Q4). pose proof (anc_le _ _ St _ _ Phi Q4). lia.
    + rewrite <- EL. exact NdL.
    + assert (NJ : NoDup (Jb ++ bb :: map src k1 ++ map src k2)).
      { assert (X : NoDup (map src k1 ++ map src k2)) by (apply NoDup_app_intro; [now apply NoDup_app_l in Ndw|now apply NoDup_app_l in Ndz|]; intros q Q1 Q2; apply (Dj q); auto).
        apply NoDup_app_intro; [apply NoDup_app_r, NoDup_cons_iff in Ndw; apply Ndw| |].
        - constructor; [|auto]. intros Q. apply in_app_iff in Q. destruct Q as [Q|Q]; [apply (NoDup_app_disj _ _ bb Ndw Q)|apply (NoDup_app_disj _ _ bb Ndz Q)]; now left.
        - intros q Q1 Q2. destruct Q2 as [<-|Q2]; [apply NoDup_app_r, NoDup_cons_iff in Ndw; tauto|]. apply in_app_iff in Q2. destruct Q2 as [Q2|Q2]; [apply (NoDup_app_disj _ _ q Ndw Q2)|apply (NoDup_app_disj _ _ q Ndz Q2)]; now right. }
      apply NoDup_app_intro; [auto|apply NoDup_app_intro; [auto|auto|]|].
      * intros q Q1 Q2. destruct (BJ q Q2) as [Q3|Q3]; [exact (way_dj _ _ _ _ _ _ _ _ q Iy Iw (not_eq_sym Nwy) Wy Ww (B4 q Q1) Q3)|exact (way_dj _ _ _ _ _ _ _ _ q Iy Iw (not_eq_sym Nwy) Wy Wz (B4 q Q1) Q3)].
      * intros q Q1 Q2. apply in_app_iff in Q2. destruct Q2 as [Q2|Q2]; [exact (way_dj _ _ _ _ _ _ _ _ q Ix Iy Nxy Wx Wy (B3 q Q1) (B4 q Q2))|]. destruct (BJ q Q2) as [Q3|Q3]; [exact (way_dj _ _ _ _ _ _ _ _ q Ix Iw Nxw Wx Ww (B3 q Q1) Q3)|exact (way_dj _ _ _ _ _ _ _ _ q Ix Iw Nxw Wx Wz (B3 q Q1) Q3)].
    + intros z [<-|Hz]; [exact Lpd|]. apply (tree_lt lo hi tl z Plo Phi ltac:(lia) U1). rewrite Et, map_app, <- app_assoc. exact Hz.
    + apply inL.
    + intros z Hz. rewrite in_app_iff in Hz. destruct Hz as [Hz|Hz]; [exact (leaf_in _ _ _ _ z Ix Wx (B3 z Hz))|]. rewrite in_app_iff in Hz. destruct Hz as [Hz|Hz]; [exact (leaf_in _ _ _ _ z Iy Wy (B4 z Hz))|]. destruct (BJ z Hz) as [Q3|Q3]; [exact (leaf_in _ _ _ _ z Iw Ww Q3)|exact (leaf_in _ _ _ _ z Iw Wz Q3)].
  - apply (cov_of g0 a ME h A _ Lv'). unfold ME. rewrite Et, Ek1, Ek2. inc.
Qed.
End Ctx.
End KB.
