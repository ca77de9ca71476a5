(** * IsoKE: isolating the nonplanarity minors C (second form), D and E. *)
From Coq Require Import ZifyBool Permutation.
From Verif Require Import Base BaseP GraphRec GraphM GraphSpec GSimp LinkP GraphP GraphP2 GraphP3 ListM ListSpec DFSM DFSSpec DFSP TestM TestSpec TestP TestP3 ObsSpec EmbM EmbSpec EmbP EmbP2 FaceP GeoP EmbInv EmbStep EmbTree EmbWalk EmbOrient EmbJoin EmbDown EmbDown3 EmbFan EmbStor FanP IsoM IsoKM IsoP1 IsoP2 IsoP3 IsoP4 IsoO IsoO2 IsoX IsoX2 IsoX3 IsoX4 PlV PlV3 PlI IsoKI IsoKU IsoK IsoKK IsoKA IsoI IsoF IsoT IsoKP IsoKB IsoKZ IsoKC IsoKD IsoKZ2.

Section KE.
Variables (g0 : graph) (kids : Z -> list Z).
Hypothesis St : static g0 kids.
Local Notation N := (gN g0).
Local Notation p := (viParent (gVI g0)).
Local Notation prim := (prim (gN g0)).
Local Notation anc := (ancestor (viParent (gVI g0))).
Local Notation geo := (geo (gN g0) (viParent (gVI g0))).
Local Notation act := (act g0).
Local Notation rpv := (rpv g0).
Local Notation marked := (marked g0).
Local Notation vsof := (vsof (gN g0)).
Local Notation pof := (pof g0).
Variables (a : est) (d : Z) (L : list Z).
Local Notation s := (eV a).
Local Notation R := (gN g0 + d).
Hypothesis G : geo NIL [] s.
Hypothesis Ad : act s d.
Hypothesis LW : Lw g0 s R L.
Hypothesis FW : fwok g0 a.
Hypothesis PT : ptypes a.
Hypothesis SO : stor g0 a.
Hypothesis NL : noloop g0 a.
Local Notation G0 := (g_base _ _ _ _ _ G).
Local Notation src := (IsoF.src g0 a).
Local Notation dst := (IsoF.dst g0 a).
Local Notation con ME := (con (IsoF.src g0 a) (IsoF.dst g0 a) (ok a ME)).
Local Notation con0 ME := (con0 (IsoF.src g0 a) (IsoF.dst g0 a) (ok a ME)).
Local Notation way := (way g0 a).
Let FA := K_facts g0 kids St a d L G Ad LW.
Variables (D : Z -> bool) (b : est) (f : Z -> Z) (stk : list Z).
Hypothesis Tu : turned a D b.
Hypothesis DT : forall x, In x (vsof s R) -> D x = true.
Local Notation b' := (setfp b f).
Local Notation lst := (lst b).
Local Ltac dsj H := first [exact H|left; dsj H|right; dsj H].
Local Ltac djt H := lazymatch type of H with _ \/ _ => destruct H as [H|H]; [djt H|djt H] | False => destruct H | _ => dsj H end.
Local Ltac incm := let e := fresh "e" in let H := fresh "H" in intros e; repeat (cbn [In app map]; rewrite ?map_app, ?in_app_iff); intros H; djt H.
Local Notation sym ME := (con_sym src dst (ok a ME) (src_twin g0 a) (dst_twin g0 a) (ok_twin g0 a G ME)).


Variables (px py : Z) (pa : list Z).
Hypothesis CH : achain a px pa py.
Hypothesis NEp : pa <> [].
Hypothesis NDp : NoDup (px :: map (nb s) pa).
Hypothesis INp : forall e, In e (removelast pa) -> In (nb s e) (mem N s R) /\ nb s e <> R /\ ~ In (nb s e) L.
Hypothesis Ipx : In px L.
Hypothesis Ipy : In py L.
Local Notation Q := (map (nb s) (removelast pa)).
Variables (Px Py Pw Pz : Z -> Prop).
Let segm := IsoKD.segm g0 kids St a d L G Ad LW D b f stk Tu DT.
Let primL := IsoKD.primL g0 kids St a d L G Ad LW.
Let qin := IsoKD.q_in g0 kids St a d L G Ad LW f pa INp.
Let qcon := IsoKD.q_con g0 kids St a d L G Ad LW f px py pa CH NEp INp Ipx Ipy.
Let lqnd := IsoKD.lq_nd g0 kids St a d L G Ad LW f px pa NDp INp.
Let lqin := IsoKD.lq_in g0 kids St a d L G Ad LW f pa INp.
Let segin := seg_in g0 kids St a d L G Ad LW D b Tu DT.
Let segfrom := seg_from g0 kids St a d L G Ad LW D b Tu DT.
Let segto := seg_to g0 kids St a d L G Ad LW D b Tu DT.
Let sg0x := seg0x g0 kids St a d L G Ad LW D b Tu DT.
Let sg0y := seg0y g0 kids St a d L G Ad LW D b Tu DT.

Lemma pre ME u K m l1 J w l2 : con0 ME u K m l1 -> con ME m J w l2 -> exists I, con ME u I w (l1 ++ l2) /\ Permutation (u :: I) (K ++ m :: J).
Proof.
  intros [(-> & -> & ->)|(I & H & P)] H2; [exists J; split; [exact H2|reflexivity]|]. exists (m :: I ++ J). split; [eapply con_app; eauto|]. perml.
Qed.

Variables (x w y : Z) (A0 D0 D1 C0 C1 A3 : list Z).
Hypothesis EL : L = A0 ++ D0 ++ px :: D1 ++ w :: C0 ++ py :: C1 ++ A3.
Local Ltac asr := cbn [app]; repeat (rewrite <- ?app_assoc; cbn [app]).

Lemma nd3 (l k1 k2 k3 k4 : list Z) u v z : NoDup l -> l = k1 ++ u :: k2 ++ v :: k3 ++ z :: k4 -> u <> v /\ v <> z /\ u <> z.
Proof.
  intros Nd ->. apply NoDup_app_r, NoDup_cons_iff in Nd. destruct Nd as [N1 Nd]. apply NoDup_app_r, NoDup_cons_iff in Nd. destruct Nd as [N2 _].
  split; [|split]; intros ->; [apply N1|apply N2|apply N1]; repeat (rewrite in_app_iff; cbn [In]); tauto.
Qed.
Lemma NdL : NoDup L.
Proof. pose proof lqnd as H. now apply NoDup_app_l in H. Qed.

(** Minor C, with px between x and w. *)
Lemma iso_C2 g F i E0 E1 : rpv g (setfl b' F) stk -> marked (fl s) F pa -> ir i = R -> ix i = x -> iy i = y -> iw i = w -> ipx i = px -> ipy i = py ->
  vtype g px <> OBS_HIGH_RXW -> hd NIL (D0 ++ [px]) = x -> C0 = E0 ++ y :: E1 ->
  way Px x (iux i) (idx i) -> way Py y (iuy i) (idy i) -> way Pw w (iv i) (idw i) -> iv i = p d -> idz i = NIL -> iux i < p d -> iuy i < p d ->
  exists g' h, _IsolateMinorC g i = Ret (g', C_OK) /\ _DeleteUnmarkedVerticesAndEdges g' = Ret h /\ kisolated g0 a h.
Proof.
  intros H M Er Ex Ey Ew Epx Epy Tx Hx EC Wx Wy Ww Ev Ez Lx Ly. unfold _IsolateMinorC. rewrite Epx, Epy, Ex, Ey, Er. unfold gp_GetVertexObstructionType.
  assert (Rg : forall z, In z L -> 1 <= z <= 2 * N) by (intros z Hz; destruct (primL z Hz) as [Q1 _]; unfold GeoP.prim in Q1; lia).
  rewrite (rd_vflags_rpv g0 _ _ _ _ H (Rg px Ipx)). cbn [bind]. fold (vtype g px). rewrite (eqb_false_neq _ _ Tx).
  pose proof lqnd as NdQ. pose proof NdL as NL0. subst C0. set (C2 := C1 ++ A3) in EL.
  assert (ED : exists T, D0 ++ [px] = x :: T) by (destruct (D0 ++ [px]) as [|q k] eqn:Q1; [destruct D0; discriminate|cbn in Hx; subst q; eauto]). destruct ED as [T ED].
  assert (EL2 : L = A0 ++ x :: T ++ D1 ++ w :: E0 ++ y :: E1 ++ py :: C2). { rewrite EL. change (x :: T ++ D1 ++ w :: E0 ++ y :: E1 ++ py :: C2) with ((x :: T) ++ D1 ++ w :: E0 ++ y :: E1 ++ py :: C2). rewrite <- ED. asr. reflexivity. }
  destruct (nd3 L A0 (T ++ D1) E0 (E1 ++ py :: C2) x w y NL0) as (Nxw & Nwy & Nxy); [rewrite EL2; asr; reflexivity|].
  assert (IL : forall z, z = x \/ z = w \/ z = y -> In z L) by (intros z Hz; rewrite EL2; repeat (rewrite in_app_iff; cbn [In]); intuition).
  destruct (segm g F pa (R :: A0) x (T ++ D1 ++ w :: E0 ++ y :: E1 ++ py :: C2 ++ [R]) R []) as (g1 & F1 & E1' & H1 & M1); [rewrite EL2; asr; reflexivity|destruct T; [destruct D1|]; discriminate| |exact H|exact M|].
  { change (T ++ D1 ++ w :: E0 ++ y :: E1 ++ py :: C2 ++ [R]) with (T ++ D1 ++ (w :: E0) ++ (y :: E1) ++ (py :: C2) ++ [R]). rewrite !app_assoc. apply last_snoc. }
  rewrite E1'. cbn [bind].
  destruct (base2 g0 kids St a d L G Ad LW FW PT SO NL D b f stk Tu Px Py Pw Pz g1 F1 _ i H1 M1) as (g' & h & A & ME & Jx & Jy & Jw & I0 & K & lx & ly & lw & t0 & t2 & mx & mn & T1 & T2 & Lv & IM & Cx & Cy & Cw & Ct & Ck & HM & ND & Cov); rewrite ?Ex, ?Ey, ?Ew; auto.
  exists g', h. split; [exact T1|]. split; [exact T2|]. exists ME, A. split; [exact Lv|]. left. destruct (leaves_in g0 a h A ME Lv) as (K1 & K2 & _).
  rewrite Ex in Cx. rewrite Ey in Cy. rewrite Ew in Cw.
  assert (J : forall k, incl k (map lst (T ++ D1 ++ w :: E0 ++ y :: E1 ++ py :: C2 ++ [R]) ++ pa) -> incl k ME) by (intros k Hk e He; auto).
  assert (P0 : con0 ME x D0 px (map lst T)). { replace T with (List.tl (D0 ++ [px])) by now rewrite ED. apply (sg0x ME A0 x D0 px _ EL Hx). rewrite ED. apply J. cbn [List.tl]. incm. }
  assert (P1 : con ME px D1 w (map lst (D1 ++ [w]))) by (apply (segin ME (A0 ++ D0) px D1 w (E0 ++ y :: E1 ++ py :: C2)); [rewrite EL; asr; reflexivity|apply J; incm]).
  assert (P2 : con ME w E0 y (map lst (E0 ++ [y]))) by (apply (segin ME (A0 ++ D0 ++ px :: D1) w E0 y (E1 ++ py :: C2)); [rewrite EL; asr; reflexivity|apply J; incm]).
  assert (P3 : con ME y E1 py (map lst (E1 ++ [py]))) by (apply (segin ME (A0 ++ D0 ++ px :: D1 ++ w :: E0) y E1 py C2); [rewrite EL; asr; reflexivity|apply J; incm]).
  assert (P4 : con ME py C2 (p d) (map lst (C2 ++ [R]))) by (apply (segto ME (A0 ++ D0 ++ px :: D1 ++ w :: E0 ++ y :: E1) py C2); [rewrite EL; asr; reflexivity|apply J; incm]).
  assert (Dq : con ME px Q py pa) by (apply qcon, J; incm).
  destruct (ext src dst (ok a ME) _ _ _ _ _ _ _ (sym ME _ _ _ _ Cx) P0) as (Jq & Cq & Pq). apply (sym ME) in Cq.
  refine (asm_C src dst (ok a ME) (src_twin g0 a) (dst_twin g0 a) (ok_twin g0 a G ME) h A K1 K2 (p d) y px py w mx mn (iuy i) (iux i) _ _ _ _ _ _ _ _ _ _ _ _ _ _ _ _ _ _ _ _ (sym ME _ _ _ _ P4) (sym ME _ _ _ _ P3) (sym ME _ _ _ _ P2) Dq (sym ME _ _ _ _ P1) Cy Cq Cw Ct Ck _ _ _).
  - tauto.
  - assert (N2 := ND (D0 ++ px :: D1 ++ w :: E0 ++ y :: E1 ++ py :: C2 ++ Q)). rewrite EL in NdQ. assert (N1 : NoDup (D0 ++ px :: D1 ++ w :: E0 ++ y :: E1 ++ py :: C2 ++ Q)) by subl. specialize (N2 N1). clear N1 ND NL0.
    assert (N3 := N2 (fun z Hz => lqin z ltac:(rewrite EL; repeat (cbn [In app] in Hz; rewrite ?in_app_iff in Hz); repeat (cbn [In app]; rewrite ?in_app_iff); djt Hz))). clear N2. subl.
  - apply (cov_of g0 a ME h A _ Lv). eapply incl_tran; [exact Cov|]. incm.
Qed.

Hypothesis Hx : hd NIL (D0 ++ [px]) = x.
Hypothesis Hy : last (py :: C1) NIL = y.
Lemma frame : exists T K1, D0 ++ [px] = x :: T /\ py :: C1 = K1 ++ [y] /\ L = A0 ++ x :: T ++ D1 ++ w :: C0 ++ K1 ++ y :: A3 /\ x <> w /\ w <> y /\ x <> y /\ (forall z, z = x \/ z = w \/ z = y -> In z L).
Proof.
  assert (ED : exists T, D0 ++ [px] = x :: T) by (destruct (D0 ++ [px]) as [|q k] eqn:Q1; [destruct D0; discriminate|cbn in Hx; subst q; eauto]). destruct ED as [T ED].
  destruct (list_snoc (py :: C1)) as [Q1|(K1 & y' & EK)]; [discriminate|]. assert (y' = y) by (rewrite <- Hy, EK; now rewrite last_snoc). subst y'. exists T, K1.
  assert (EL2 : L = A0 ++ x :: T ++ D1 ++ w :: C0 ++ K1 ++ y :: A3).
  { rewrite EL. change (x :: T ++ D1 ++ w :: C0 ++ K1 ++ y :: A3) with ((x :: T) ++ D1 ++ w :: C0 ++ K1 ++ [y] ++ A3). rewrite <- ED, (app_assoc K1 [y]), <- EK. asr. reflexivity. }
  split; [exact ED|]. split; [exact EK|]. split; [exact EL2|].
  destruct (nd3 L A0 (T ++ D1) (C0 ++ K1) A3 x w y NdL) as (Nxw & Nwy & Nxy); [rewrite EL2; asr; reflexivity|]. split; [exact Nxw|]. split; [exact Nwy|]. split; [exact Nxy|].
  intros z Hz; rewrite EL2; repeat (rewrite in_app_iff; cbn [In]); intuition.
Qed.

(** Minor D. *)
Lemma iso_D g F i z Zp : rpv g (setfl b' F) stk -> marked (fl s) F (Zp ++ pa) -> zpathf g0 a d L px pa z Zp -> ir i = R -> ix i = x -> iy i = y -> iw i = w ->
  way Px x (iux i) (idx i) -> way Py y (iuy i) (idy i) -> way Pw w (iv i) (idw i) -> iv i = p d -> idz i = NIL -> iux i < p d -> iuy i < p d ->
  exists g' h, _IsolateMinorD g i = Ret (g', C_OK) /\ _DeleteUnmarkedVerticesAndEdges g' = Ret h /\ kisolated g0 a h.
Proof.
  intros H M [(q1 & t & q2 & Epa & Nq2 & Ezt) Zch Znd Zin] Er Ex Ey Ew Wx Wy Ww Ev Ez Lx Ly. unfold _IsolateMinorD. rewrite Ex, Ey, Er.
  destruct frame as (T & K1' & ED & EK & EL2 & Nxw & Nwy & Nxy & IL).
  assert (EQ : Q = map (nb s) q1 ++ z :: map (nb s) (removelast q2)). { rewrite Epa, removelast_app by discriminate. change (t :: q2) with ([t] ++ q2). rewrite removelast_app by assumption. rewrite !map_app. cbn [map app]. now rewrite Ezt. }
  assert (Iz : In z Q) by (rewrite EQ, in_app_iff; cbn [In]; tauto). destruct (qin z Iz) as (Pz1 & Bz & NLz).
  assert (NEz : Zp <> []). { intros ->. cbn [achain] in Zch. unfold GeoP.prim in Pz1. destruct (pd_facts g0 kids St a d Ad) as [Ppd Lpd]. unfold GeoP.prim in Ppd. lia. }
  assert (Z1p : forall e, In e (removelast Zp) -> prim (nb s e) /\ B s (nb s e) = R /\ ~ In (nb s e) L /\ ~ In (nb s e) (px :: map (nb s) pa)).
  { intros e He. destruct (Zin e He) as (V1 & V2 & V3 & V4). apply in_mem in V1. tauto. }
  set (Z1 := map (nb s) (removelast Zp)) in *.
  assert (Z1i : forall q, In q Z1 -> prim q /\ B s q = R /\ ~ In q L /\ ~ In q Q).
  { intros q Hq. unfold Z1 in Hq. apply in_map_iff in Hq. destruct Hq as (e & <- & He). destruct (Z1p e He) as (V1 & V2 & V3 & V4). split; [auto|]. split; [auto|]. split; [auto|]. intros V5. apply V4. right. rewrite <- (rl_map a) in V5. destruct (list_snoc (map (nb s) pa)) as [V6|(k & z' & V6)]; [destruct pa; [congruence|discriminate]|]. rewrite V6 in *. rewrite removelast_last in V5. rewrite in_app_iff. tauto. }
  assert (NdZ : NoDup (L ++ Q ++ Z1)).
  { rewrite app_assoc. apply NoDup_app_intro; [exact lqnd| |intros q V1 V2; destruct (Z1i q V2) as (_ & _ & V3 & V4); rewrite in_app_iff in V1; tauto].
    unfold Z1. rewrite <- (rl_map a). destruct (list_snoc (map (nb s) Zp)) as [V6|(k & z' & V6)]; [destruct Zp; [congruence|discriminate]|]. rewrite V6 in *. rewrite removelast_last. now apply NoDup_app_l in Znd. }
  destruct (segm g F (Zp ++ pa) (R :: A0) x (T ++ D1 ++ w :: C0 ++ K1' ++ [y]) y (A3 ++ [R])) as (g1 & F1 & E1' & H1 & M1); [rewrite EL2; asr; reflexivity|destruct T; [destruct D1|]; discriminate| |exact H|exact M|].
  { change (T ++ D1 ++ w :: C0 ++ K1' ++ [y]) with (T ++ D1 ++ (w :: C0) ++ K1' ++ [y]). rewrite !app_assoc. apply last_snoc. }
  rewrite E1'. cbn [bind].
  destruct (base2 g0 kids St a d L G Ad LW FW PT SO NL D b f stk Tu Px Py Pw Pz g1 F1 _ i H1 M1) as (g' & h & A & ME & Jx & Jy & Jw & I0 & K & lx & ly & lw & t0 & t2 & mx & mn & T1 & T2 & Lv & IM & Cx & Cy & Cw & Ct & Ck & HM & ND & Cov); rewrite ?Ex, ?Ey, ?Ew; auto.
  exists g', h. split; [exact T1|]. split; [exact T2|]. exists ME, A. split; [exact Lv|]. left. destruct (leaves_in g0 a h A ME Lv) as (K1 & K2 & _).
  rewrite Ex in Cx. rewrite Ey in Cy. rewrite Ew in Cw. rewrite <- EK in Cov, IM.
  assert (J : forall k, incl k (map lst (T ++ D1 ++ w :: C0 ++ py :: C1) ++ Zp ++ pa) -> incl k ME) by (intros k Hk e He; auto).
  assert (P0 : con0 ME x D0 px (map lst T)). { replace T with (List.tl (D0 ++ [px])) by now rewrite ED. apply (sg0x ME A0 x D0 px _ EL Hx). rewrite ED. apply J. cbn [List.tl]. incm. }
  assert (P1 : con ME px D1 w (map lst (D1 ++ [w]))) by (apply (segin ME (A0 ++ D0) px D1 w (C0 ++ py :: C1 ++ A3)); [rewrite EL; asr; reflexivity|apply J; incm]).
  assert (P2 : con ME w C0 py (map lst (C0 ++ [py]))) by (apply (segin ME (A0 ++ D0 ++ px :: D1) w C0 py (C1 ++ A3)); [rewrite EL; asr; reflexivity|apply J; incm]).
  assert (P3 : con0 ME y C1 py (map lst C1)) by (apply (sg0y ME (A0 ++ D0 ++ px :: D1 ++ w :: C0) py C1 y A3); [rewrite EL; asr; reflexivity|exact Hy|apply J; incm]).
  pose proof CH as CH'. rewrite Epa in CH'. destruct (ach_app a q1 px t q2 py CH') as [CHa CHb]. rewrite <- Ezt in CHa, CHb.
  assert (Pq : forall q, In q (map (nb s) q1) \/ In q (map (nb s) (removelast q2)) -> prim q) by (intros q Hq; apply qin; rewrite EQ, in_app_iff; cbn [In]; tauto).
  assert (Q1c : con ME px (map (nb s) q1) z (q1 ++ [t])). { replace q1 with (removelast (q1 ++ [t])) at 1 by apply removelast_last. apply (ach_in g0 a G ME (q1 ++ [t]) px z CHa); [destruct q1; discriminate| |now apply primL|exact Pz1|]. { apply J. rewrite Epa. incm. } rewrite removelast_last. intros e He. apply Pq. left. now apply in_map. }
  assert (Q2c : con ME z (map (nb s) (removelast q2)) py q2). { apply (ach_in g0 a G ME q2 z py CHb Nq2); [|exact Pz1|now apply primL|]. { apply J. rewrite Epa. incm. } intros e He. apply Pq. right. now apply in_map. }
  assert (Zc : con ME z Z1 (p d) Zp). { apply (ach_to g0 a d G Ad ME Zp z Zch NEz); [apply J; incm|exact Pz1|]. intros e He. now apply Z1p. }
  destruct (ext src dst (ok a ME) _ _ _ _ _ _ _ (sym ME _ _ _ _ Cx) P0) as (Jx' & Cx' & PJx). apply (sym ME) in Cx'.
  destruct (ext src dst (ok a ME) _ _ _ _ _ _ _ (sym ME _ _ _ _ Cy) P3) as (Jy' & Cy' & PJy). apply (sym ME) in Cy'.
  refine (asm_D src dst (ok a ME) (src_twin g0 a) (dst_twin g0 a) (ok_twin g0 a G ME) h A K1 K2 (p d) px py w z mx mn (iux i) (iuy i) _ _ _ _ _ _ _ _ _ _ _ _ _ _ _ _ _ _ _ _ P1 P2 Q1c Q2c Zc Cx' Cy' Cw Ct Ck HM _ _).
  - assert (N2 := ND (D0 ++ px :: D1 ++ w :: C0 ++ py :: C1 ++ Q ++ Z1)). rewrite EL in NdZ. assert (N1 : NoDup (D0 ++ px :: D1 ++ w :: C0 ++ py :: C1 ++ Q ++ Z1)) by subl. specialize (N2 N1). clear N1 ND.
    assert (N3 : NoDup ((p d :: I0 ++ K ++ [mn]) ++ (D0 ++ px :: D1 ++ w :: C0 ++ py :: C1 ++ Q ++ Z1) ++ Jx ++ Jy ++ Jw)).
    { apply N2. intros q Hq. destruct (in_dec Z.eq_dec q Z1) as [V|V]; [destruct (Z1i q V) as (V1 & V2 & _); auto|]. apply lqin. rewrite EL. repeat (rewrite in_app_iff in *; cbn [In] in *). tauto. }
    clear N2. clear NdZ. rewrite EQ in N3. clear Znd. subl.
  - apply (cov_of g0 a ME h A _ Lv). eapply incl_tran; [exact Cov|]. rewrite Epa. incm.
Qed.
End KE.
