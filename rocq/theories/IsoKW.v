(** * IsoKW: the isolator of Kuratowski subgraphs as a whole. *)
From Coq Require Import ZifyBool Permutation Sorting.Sorted.
From Verif Require Import Base BaseP GraphRec GraphM GraphSpec GSimp LinkP GraphP GraphP2 GraphP3 ListM ListSpec DFSM DFSSpec DFSP TestM TestSpec TestP TestP3 ObsSpec EmbM0 EmbM EmbSpec EmbP EmbP2 FaceP GeoP EmbInv EmbStep EmbTree EmbWalk EmbOrient EmbJoin EmbDown EmbDown3 EmbFan EmbStor EmbUp FanP IsoM IsoKM IsoP1 IsoP2 IsoP3 IsoP4 IsoO IsoO2 IsoX IsoX2 IsoX3 IsoX4 PlV PlV3 NcP PlI IsoKI IsoKU IsoK IsoKK IsoKA IsoI IsoF IsoT IsoKP IsoKB IsoKZ IsoKC IsoKD IsoKZ2 IsoKE IsoKF.

Lemma reset_typ g0 b g F stk z t : rpv g0 g (setfl b F) stk -> 1 <= z <= 2 * gN g0 -> Z.land t VERTEX_OBSTRUCTIONTYPE_MASK = t ->
  exists g', gp_ResetVertexObstructionType g z t = Ret g' /\ rpv g0 g' (setfl b F) stk /\ forall x, vtype g' x = if x =? z then t else vtype g x.
Proof.
  intros H Hz T2. unfold gp_ResetVertexObstructionType. rewrite (rd_vflags_rpv g0 _ _ _ z H Hz). cbn [bind]. destruct (rpv_wr_vflags g0 _ _ _ z (Z.lor (Z.ldiff (vflags g z) VERTEX_OBSTRUCTIONTYPE_MASK) t) H Hz) as (g' & E & H' & V).
  exists g'. split; [exact E|]. split; [auto|]. intros x. unfold vtype. rewrite V. unfold upd. destruct (Z.eqb_spec x z) as [->|]; [|reflexivity]. rewrite Z.land_lor_distr_l, T2, ldiff_self. reflexivity.
Qed.
Lemma clear_v g0 b g F F0 ME stk : rpv g0 g (setfl b F) stk -> marked g0 F0 F ME -> gp_EdgeInUseIndexBound g0 <= gp_EdgeIndexBound g0 -> 1 <= gN g0 ->
  exists g' F', _ClearVisitedFlags g = Ret g' /\ rpv g0 g' (setfl b F') stk /\ marked g0 F0 F' [].
Proof.
  intros H M B1 B2. destruct (clear_ok (set_vflags g0 (vflags g)) g (setfl b F) stk H B1 B2) as (g' & F' & E & H' & [M1 M2] & _). exists g', F'. split; [exact E|]. split; [exact H'|].
  constructor; [|exact M2]. intros e. rewrite M1. apply (m_ty _ _ _ _ M).
Qed.

Section KW.
Variables (g0 : graph) (kids : Z -> list Z).
Hypothesis St : static g0 kids.
Local Notation N := (gN g0).
Local Notation p := (viParent (gVI g0)).
Local Notation low := (viLow (gVI g0)).
Local Notation least := (viLeast (gVI g0)).
Local Notation prim := (prim (gN g0)).
Local Notation anc := (ancestor (viParent (gVI g0))).
Local Notation geo := (geo (gN g0) (viParent (gVI g0))).
Local Notation act := (act g0).
Local Notation rpv := (rpv g0).
Local Notation marked := (marked g0).
Local Notation vsof := (vsof (gN g0)).
Variables (a : est) (v d : Z) (L : list Z).
Local Notation s := (eV a).
Local Notation R := (gN g0 + d).
Hypothesis G : geo NIL [] s.
Hypothesis Ad : act s d.
Hypothesis LW : Lw g0 s R L.
Hypothesis FW : fwok g0 a.
Hypothesis PT : ptypes a.
Hypothesis SO : stor g0 a.
Hypothesis NL : noloop g0 a.
Hypothesis Pe : peok v a.
Hypothesis Pr : prlok g0 v a.
Hypothesis Po : prlord g0 v a.
Hypothesis Pv : prim v.
Hypothesis Avp : anc v (p d).
Hypothesis Cl : forall x, prim x -> least x < v -> least x < x -> exists f, In f (fw a (least x)) /\ nb s f = x.
Hypothesis Cw : forall d, prim d -> low d < v -> low d < d -> exists f, In f (fw a (low d)) /\ anc d (nb s f).
Local Notation futp := (futp g0 a v).
Local Notation fpo := (fpo g0 kids a v).
Local Notation way := (way g0 a).
Let FA := K_facts g0 kids St a d L G Ad LW.
Local Ltac asr := cbn [app]; repeat (rewrite <- ?app_assoc; cbn [app]).

(** future pertinence, decided *)
Definition fpb (w : Z) : bool := (least w <? v) || existsb (fun c => negb (isnil (adj s (N + c))) && (low c <? v)) (kids w).
Lemma fpb_ok w : prim w -> fpb w = true <-> futp w.
Proof.
  intros Pw. unfold fpb, IsoKI.futp. rewrite orb_true_iff, Z.ltb_lt, existsb_exists. split; (intros [H|H]; [now left|right]).
  - destruct H as (c & Hc & H). apply andb_true_iff in H. destruct H as [H1 H2]. apply (st_kid _ _ St) in Hc. destruct Hc as (Hc1 & _ & Hc2). exists c. split; [|split; [auto|lia]]. split; [auto|]. split; [rewrite Hc2; unfold GeoP.prim, NIL in *; lia|]. destruct (adj s (N + c)); [discriminate|discriminate].
  - destruct H as (c & (H1 & H2 & H3) & H4 & H5). exists c. split; [apply (st_kid _ _ St); auto|]. destruct (adj s (N + c)); [congruence|]. cbn [isnil negb andb]. lia.
Qed.
Lemma vL z : In z L -> prim z /\ v < z /\ anc v z.
Proof.
  intros Hz. destruct (proj2 FA z Hz) as (P1 & _ & P3 & _). destruct (pd_facts g0 kids St a d Ad) as [Q1 Q2]. pose proof (anc_le _ _ St _ _ Q1 Avp). pose proof (anc_le _ _ St _ _ P1 P3). split; [auto|]. split; [lia|].
  apply (anc_trans _ _ d); [|auto]. apply anc_step; [apply Ad|auto].
Qed.

Section Ctx.
Variables (x w y : Z) (A0 A1 A2 A3 : list Z).
Hypothesis EL : L = A0 ++ x :: A1 ++ w :: A2 ++ y :: A3.
Hypothesis Fx : futp x.
Hypothesis Fy : futp y.
Hypothesis Pw : pertb a w = true.
Variables (D : Z -> bool) (b : est) (stk : list Z).
Hypothesis Tu : turned a D b.
Hypothesis DT : forall x, In x (vsof s R) -> D x = true.
Local Notation b' f := (setfp b f).
Lemma ixwy z : z = x \/ z = w \/ z = y -> In z L.
Proof. intros Hz; rewrite EL; repeat (rewrite in_app_iff; cbn [In]); intuition. Qed.

Definition Pz c := low c < v.
Definition Pp c := In c (prl a w).
Lemma anc_leg g f F z : rpv g (setfl (b' f) F) stk -> fpo f -> In z L -> futp z -> exists u t, _FindUnembeddedEdgeToAncestor g z = Ret (Some (u, t)) /\ way Pz z u t /\ u < v.
Proof.
  intros H Fo Iz Fz. destruct (vL z Iz) as (P1 & P2 & _).
  destruct (find_anc_ok g0 kids St a v FW Cl Cw g (setfl (b' f) F) stk H) with (z := z) as (e & u & E & F1 & F2 & F3); auto.
  - cbn [setfl setfp set_V fw]. apply (tu_fw _ _ _ Tu).
  - cbn [setfl setfp set_V v_fl eV nb]. apply (tu_nb _ _ _ Tu).
  - intros c. apply (Kt_act g0 a D b Tu).
  - exists u, (nb s e). split; [exact E|]. split; [|auto]. split; [exact F3|]. eauto.
Qed.
Lemma fwv f : In f (fw a v) -> prim (nb s f) /\ anc v (nb s f).
Proof. apply (fw_anc g0 a v FW). Qed.
Lemma cur_leg g f F : rpv g (setfl (b' f) F) stk -> exists t, _FindUnembeddedEdgeToCurVertex g v w = Ret (Some t) /\ way Pp w v t.
Proof.
  intros H. destruct (vL w (ixwy w ltac:(tauto))) as (P1 & P2 & P3).
  assert (EF : fw (setfl (b' f) F) = fw a) by (cbn [setfl setfp set_V fw]; apply (tu_fw _ _ _ Tu)). assert (EN : nb (eV (setfl (b' f) F)) = nb s) by (cbn [setfl setfp set_V v_fl eV nb]; apply (tu_nb _ _ _ Tu)).
  assert (EP : pe (setfl (b' f) F) = pe a) by (cbn [setfl setfp set_V pe]; apply (tu_pe _ _ _ Tu)). assert (ER : prl (setfl (b' f) F) = prl a) by (cbn [setfl setfp set_V prl]; apply (tu_prl _ _ _ Tu)).
  destruct (find_cur_ok g0 kids St g (setfl (b' f) F) stk v w H Pv P1 P3) as (e & E & F1 & F2 & F3 & F4); rewrite ?EF, ?EN, ?EP, ?ER in *.
  - apply fwv.
  - apply Pe.
  - intros c Hc. destruct (Pr w c Hc) as (Q1 & _ & (Q3 & _) & Q4). auto.
  - unfold pertb in Pw. apply orb_true_iff in Pw. destruct Pw as [Q|Q]; [left; lia|right; destruct (prl a w); discriminate].
  - exists (nb s e). split; [exact E|]. split; [|eauto]. destruct F4 as [F4|(c & C1 & C2)]; [now left|]. right. exists c. destruct (Pr w c C1) as (Q1 & _ & Q3 & _). auto.
Qed.
Lemma sub_leg g f F u c : rpv g (setfl (b' f) F) stk -> prim u -> anc u c -> prim c -> p c = w -> act s c -> (exists e, In e (fw a u) /\ anc c (nb s e)) ->
  exists t, _FindUnembeddedEdgeToSubtree g u c = Ret (Some t) /\ way (fun z => z = c) w u t /\ t <> w.
Proof.
  intros H Pu Au Pc Ec Ac He.
  assert (EF : fw (setfl (b' f) F) = fw a) by (cbn [setfl setfp set_V fw]; apply (tu_fw _ _ _ Tu)). assert (EN : nb (eV (setfl (b' f) F)) = nb s) by (cbn [setfl setfp set_V v_fl eV nb]; apply (tu_nb _ _ _ Tu)).
  destruct (find_subtree_ok g0 kids St g (setfl (b' f) F) stk u c H Pu Pc Au) as (e & E & F1 & F2); rewrite ?EF, ?EN in *; [apply (fw_anc g0 a u FW)|exact He|].
  exists (nb s e). split; [exact E|]. split.
  - split; [right; exists c; auto|eauto].
  - destruct (fw_anc g0 a u FW e F1) as [Q1 _]. pose proof (anc_le _ _ St _ _ Q1 F2). destruct (Hp g0 kids St c Pc) as [_ Q2]; [apply Ac|]. lia.
Qed.
Lemma ictx g f F t px py z : rpv g (setfl (b' f) F) stk -> fpo f -> t = MinorA \/ t = MinorC \/ t = MinorD ->
  exists ux uy dx dy dw, _InitializeIsolatorContext g t v R x y w px py z = Ret (Some (mkIC v R x y w px py z ux uy NIL dx dy dw NIL)) /\
    way Pz x ux dx /\ way Pz y uy dy /\ way Pp w v dw /\ ux < v /\ uy < v.
Proof.
  intros H Fo Ht. destruct (anc_leg g f F x H Fo (ixwy x ltac:(tauto)) Fx) as (ux & dx & E1 & W1 & L1). destruct (anc_leg g f F y H Fo (ixwy y ltac:(tauto)) Fy) as (uy & dy & E2 & W2 & L2). destruct (cur_leg g f F H) as (dw & E3 & W3).
  exists ux, uy, dx, dy, dw. unfold _InitializeIsolatorContext. rewrite E1. cbn [bind]. rewrite E2. cbn [bind]. split; [|auto]. destruct Ht as [-> | [-> | ->]]; rewrite E3; reflexivity.
Qed.
Lemma ictxE g f F px py z : rpv g (setfl (b' f) F) stk -> fpo f -> In z L -> futp z ->
  exists ux uy uz dx dy dw dz, _InitializeIsolatorContext g MinorE v R x y w px py z = Ret (Some (mkIC v R x y w px py z ux uy uz dx dy dw dz)) /\
    way Pz x ux dx /\ way Pz y uy dy /\ way Pp w v dw /\ way Pz z uz dz /\ ux < v /\ uy < v /\ uz < v.
Proof.
  intros H Fo Iz Fz. destruct (anc_leg g f F x H Fo (ixwy x ltac:(tauto)) Fx) as (ux & dx & E1 & W1 & L1). destruct (anc_leg g f F y H Fo (ixwy y ltac:(tauto)) Fy) as (uy & dy & E2 & W2 & L2). destruct (cur_leg g f F H) as (dw & E3 & W3).
  destruct (anc_leg g f F z H Fo Iz Fz) as (uz & dz & E4 & W4 & L4).
  exists ux, uy, uz, dx, dy, dw, dz. unfold _InitializeIsolatorContext. rewrite E1. cbn [bind]. rewrite E2. cbn [bind]. rewrite E3. cbn [bind]. rewrite E4. cbn [bind]. auto 10.
Qed.
Lemma ictxB g f F c : rpv g (setfl (b' f) F) stk -> fpo f -> p d = v -> prl a w <> [] -> c = last (prl a w) NIL -> low c < v ->
  exists ux uy uz dx dy dw dz, _InitializeIsolatorContext g MinorB v R x y w NIL NIL NIL = Ret (Some (mkIC v R x y w NIL NIL NIL ux uy uz dx dy dw dz)) /\
    way Pz x ux dx /\ way Pz y uy dy /\ way (fun z => z = c) w v dw /\ way (fun z => z = c) w uz dz /\ dw <> w /\ dz <> w /\ ux < v /\ uy < v /\ uz < v.
Proof.
  intros H Fo Ep Ne Ec Lc. destruct (anc_leg g f F x H Fo (ixwy x ltac:(tauto)) Fx) as (ux & dx & E1 & W1 & L1). destruct (anc_leg g f F y H Fo (ixwy y ltac:(tauto)) Fy) as (uy & dy & E2 & W2 & L2).
  destruct (vL w (ixwy w ltac:(tauto))) as (P1 & P2 & P3).
  assert (ER : prl (setfl (b' f) F) = prl a) by (cbn [setfl setfp set_V prl]; apply (tu_prl _ _ _ Tu)).
  assert (Ic : In c (prl a w)) by (rewrite Ec; now apply last_In). destruct (Pr w c Ic) as (Q1 & Q2 & Q3 & Q4). pose proof (proj1 Q3) as Pc. destruct (Hp g0 kids St c Pc (proj1 (proj2 Q3))) as [_ Lpc].
  assert (Awc : anc w c) by (apply anc_step; [apply Q3|]; rewrite Q1; constructor).
  destruct (sub_leg g f F v c H Pv (anc_trans _ _ _ _ P3 Awc) Pc Q1 Q3 Q4) as (dw & E3 & W3 & N3).
  destruct (Cw c Pc Lc ltac:(lia)) as (e & He1 & He2). destruct (fw_anc g0 a _ FW e He1) as [B1 B2].
  assert (Pu : prim (low c)) by (apply (fw_prim g0 kids St a FW _ _ He1)). assert (Au : anc (low c) c) by (apply (anc_total _ _ St _ _ (nb s e)); auto; lia).
  destruct (sub_leg g f F (low c) c H Pu Au Pc Q1 Q3 (ex_intro _ e (conj He1 He2))) as (dz & E4 & W4 & N4).
  exists ux, uy, (low c), dx, dy, dw, dz. unfold _InitializeIsolatorContext. rewrite E1. cbn [bind]. rewrite E2. cbn [bind].
  rewrite (last_root_ok g0 g _ stk w H P1) by (rewrite ER; exact Ne). rewrite ER. cbn [bind]. rewrite <- Ec. unfold gp_GetVertexLowpoint. pose proof Pc as Pc'. unfold GeoP.prim in Pc'. rewrite vi_ok by (rewrite (rpv_N g0 _ _ _ H); lia). cbn [bind]. rewrite (k_low _ _ (r_keeps _ _ _ _ H)). cbn [set_vflags gVI]. rewrite E3. cbn [bind]. rewrite E4. cbn [bind].
  split; [reflexivity|]. auto 12.
Qed.

(** the search below the X-Y path *)
Lemma fpb_loop py F z : futp z -> In z L -> z <> py -> forall M m g f, rpv g (setfl (b' f) F) stk -> fpo f -> (forall f, walk g0 (b' f) 1 (M ++ [z])) -> incl M L -> (forall q, In q M -> ~ futp q /\ q <> py) -> (length M < m)%nat ->
  exists g' f', fp_below_loop m g v py (hd NIL (M ++ [z])) 1 = Ret (g', z) /\ rpv g' (setfl (b' f') F) stk /\ fpo f' /\ vflags g' = vflags g.
Proof.
  clear x w y A0 A1 A2 A3 EL Fx Fy Pw. intros Fz Iz Nz. induction M as [|q M IH]; intros m g f H Fo Wk IM HM Hm; (destruct m as [|m]; [cbn [length] in *; lia|]); cbn [app hd fp_below_loop].
  - rewrite (eqb_false_neq _ _ Nz). destruct (vL z Iz) as (P1 & _). destruct (fpc_rpv g0 kids St a v g _ stk z H (Kt_act g0 a D b Tu) Fo P1) as (g' & f' & E & H' & Fo' & V & r & Er & Hr). rewrite E. cbn [bind]. rewrite Er. cbn [bind]. rewrite (proj2 Hr Fz). exists g', f'. auto.
  - destruct (HM q (or_introl eq_refl)) as [A1' A2']. rewrite (eqb_false_neq _ _ A2'). assert (Iq : In q L) by (apply IM; now left). destruct (vL q Iq) as (P1 & _).
    destruct (fpc_rpv g0 kids St a v g _ stk q H (Kt_act g0 a D b Tu) Fo P1) as (g' & f' & E & H' & Fo' & V & r & Er & Hr). rewrite E. cbn [bind]. rewrite Er. cbn [bind].
    destruct r; [exfalso; tauto|]. assert (Nx : nxt g0 (b' f') 1 q (hd NIL (M ++ [z]))) by (specialize (Wk f'); destruct M as [|z' M]; cbn [app walk] in Wk; apply Wk). rewrite (Nx g' F stk H'). cbn [bind].
    destruct (IH m g' f' H' Fo') as (g2 & f2 & E2 & H2 & Fo2 & V2).
    + intros f0. specialize (Wk f0). apply (walk_r g0 _ 1 [q]) in Wk. exact Wk.
    + intros u Hu. apply IM. now right.
    + intros u Hu. apply HM. now right.
    + cbn [length] in Hm. lia.
    + exists g2, f2. rewrite E2. split; [reflexivity|]. split; [auto|]. split; [auto|]. congruence.
Qed.
Lemma below_ok px py La Lm Lb g f F : L = La ++ px :: Lm ++ py :: Lb -> (exists z, In z Lm /\ futp z) -> rpv g (setfl (b' f) F) stk -> fpo f ->
  exists g' f' z, _FindFuturePertinenceBelowXYPath g v px py = Ret (g', z) /\ In z Lm /\ futp z /\ rpv g' (setfl (b' f') F) stk /\ fpo f' /\ vflags g' = vflags g.
Proof.
  clear x w y A0 A1 A2 A3 EL Fx Fy Pw. intros E Hz H Fo. assert (Hz' : exists z, In z Lm /\ fpb z = true). { destruct Hz as (z & Z1 & Z2). exists z. split; [auto|]. apply fpb_ok; [|auto]. apply vL. rewrite E. repeat (rewrite in_app_iff; cbn [In]). tauto. }
  destruct (first_split fpb Lm Hz') as (M & z & M2 & EM & Z1 & Z2). pose proof (K_rng g0 kids St a d L G Ad LW) as Rg.
  assert (Wf : forall f, walk g0 (b' f) 1 (R :: L ++ [R])) by (intros f1; apply (walk_fwd g0 (b' f1) R L Rg); apply (Kt_rims g0 a d L G Ad LW D b Tu DT)).
  assert (EL' : R :: L ++ [R] = (R :: La ++ [px]) ++ (M ++ [z]) ++ M2 ++ py :: Lb ++ [R]) by (rewrite E, EM; asr; reflexivity).
  assert (Wk : forall f, walk g0 (b' f) 1 (M ++ [z])) by (intros f1; specialize (Wf f1); rewrite EL' in Wf; apply walk_r, walk_l in Wf; exact Wf).
  assert (Nx : nxt g0 (b' f) 1 px (hd NIL (M ++ [z]))).
  { specialize (Wf f). replace (R :: L ++ [R]) with ((R :: La) ++ px :: (M ++ [z]) ++ M2 ++ py :: Lb ++ [R]) in Wf by (rewrite EL'; asr; reflexivity). apply walk_r in Wf. destruct M; cbn [app walk] in Wf; apply Wf. }
  unfold _FindFuturePertinenceBelowXYPath. rewrite (Nx g F stk H). cbn [bind].
  assert (NdL : NoDup L) by (destruct FA as [Nd _]; now apply NoDup_cons_iff in Nd). assert (IL : forall q, In q (M ++ z :: M2) -> In q L) by (intros q Hq; rewrite E, EM; repeat (rewrite in_app_iff in *; cbn [In] in *); tauto).
  assert (Npy : ~ In py (M ++ z :: M2)). { rewrite E, EM in NdL. apply NoDup_app_r, NoDup_cons_iff in NdL. destruct NdL as [_ NdL]. intros Q. apply (NoDup_app_disj _ _ py NdL Q). now left. }
  assert (Iz : In z L) by (apply IL; rewrite in_app_iff; cbn [In]; tauto). pose proof (K_len g0 kids St a d L G Ad LW) as KL. assert (LM : (length M <= length L)%nat) by (rewrite E, EM; repeat (cbn [length]; rewrite ?app_length); lia).
  destruct (fpb_loop py F z) with (M := M) (m := S (S (Z.to_nat (2 * gN g)))) (g := g) (f := f) as (g' & f' & E1 & H1 & Fo1 & V1); auto.
  - apply fpb_ok; [now apply vL|auto].
  - intros ->. apply Npy. rewrite in_app_iff. cbn [In]. tauto.
  - intros q Hq. apply IL. rewrite in_app_iff. tauto.
  - intros q Hq. split; [|intros ->; apply Npy; rewrite in_app_iff; tauto]. intros Q. apply fpb_ok in Q; [|apply vL, IL; rewrite in_app_iff; tauto]. rewrite (Z2 q Hq) in Q. discriminate.
  - rewrite (rpv_N g0 _ _ _ H). lia.
  - exists g', f', z. split; [exact E1|]. split; [rewrite EM, in_app_iff; cbn [In]; tauto|]. split; [apply fpb_ok; [now apply vL|auto]|auto].
Qed.

(** ** Minors C, D and E *)
Lemma get_type g f F z : rpv g (setfl (b' f) F) stk -> In z L -> gp_GetVertexObstructionType g z = Ret (vtype g z).
Proof. intros H Hz. destruct (vL z Hz) as [Q _]. clear - Q H. unfold GeoP.prim in Q. unfold gp_GetVertexObstructionType. rewrite (rd_vflags_rpv g0 _ _ _ z H) by lia. reflexivity. Qed.
Definition done (g : graph) (t : minor) (px py z : Z) : Prop := exists i g' h, _InitializeIsolatorContext g t v R x y w px py z = Ret (Some i) /\
  (match t with MinorA => _IsolateMinorA g i | MinorB => _IsolateMinorB g i | MinorC => _IsolateMinorC g i | MinorD => _IsolateMinorD g i | MinorE => _IsolateMinorE g i end) = Ret (g', C_OK) /\
  _DeleteUnmarkedVerticesAndEdges g' = Ret h /\ kisolated g0 a h.

Section Big.
Hypothesis Ep : p d = v.
Hypothesis NB : forall c, In c (prl a w) -> ~ low c < v.
Variables (px py : Z) (pa : list Z).
Hypothesis XP : xypath g0 a d L x y A0 A1 A2 A3 px py pa.
Lemma ipx' : In px L.
Proof. pose proof (xp_x _ _ _ _ _ _ _ _ _ _ _ _ _ XP) as Q. rewrite EL. repeat (rewrite in_app_iff in *; cbn [In] in * ). tauto. Qed.
Lemma ipy' : In py L.
Proof. pose proof (xp_y _ _ _ _ _ _ _ _ _ _ _ _ _ XP) as Q. rewrite EL. repeat (rewrite in_app_iff in *; cbn [In] in * ). tauto. Qed.
Local Notation xch := (xp_ch _ _ _ _ _ _ _ _ _ _ _ _ _ XP).
Local Notation xne := (xp_ne _ _ _ _ _ _ _ _ _ _ _ _ _ XP).
Local Notation xnd := (xp_nd _ _ _ _ _ _ _ _ _ _ _ _ _ XP).
Local Notation xin := (xp_in _ _ _ _ _ _ _ _ _ _ _ _ _ XP).

Lemma doC g f F : rpv g (setfl (b' f) F) stk -> marked (fl s) F pa -> fpo f ->
  (forall z, In z A0 -> vtype g z = OBS_HIGH_RXW) -> (forall z, In z (x :: A1) -> vtype g z = OBS_LOW_RXW) -> (forall z, In z (A2 ++ [y]) -> vtype g z = OBS_LOW_RYW) -> (forall z, In z A3 -> vtype g z = OBS_HIGH_RYW) ->
  vtype g px = OBS_HIGH_RXW \/ vtype g py = OBS_HIGH_RYW -> done g MinorC px py NIL.
Proof.
  intros H M Fo T1 T2 T3 T4 T5. destruct (ictx g f F MinorC px py NIL H Fo ltac:(tauto)) as (ux & uy & dx & dy & dw & Ei & W1 & W2 & W3 & L1 & L2).
  exists (mkIC v R x y w px py NIL ux uy NIL dx dy dw NIL). enough (Q : exists g' h, _IsolateMinorC g (mkIC v R x y w px py NIL ux uy NIL dx dy dw NIL) = Ret (g', C_OK) /\ _DeleteUnmarkedVerticesAndEdges g' = Ret h /\ kisolated g0 a h) by (destruct Q as (g' & h & Q); exists g', h; auto).
  pose proof (xp_x _ _ _ _ _ _ _ _ _ _ _ _ _ XP) as Qx. pose proof (xp_y _ _ _ _ _ _ _ _ _ _ _ _ _ XP) as Qy. apply in_app_iff in Qx. destruct Qx as [Qx|Qx].
  - destruct (in_split _ _ Qx) as (B0 & B1 & EB).
    refine (iso_C g0 kids St a d L G Ad LW FW PT SO NL D b f stk Tu DT px py pa xch xne xnd xin ipx' ipy' Pz Pz Pp Pz g F (mkIC v R x y w px py NIL ux uy NIL dx dy dw NIL) x w y B0 B1 A1 H M eq_refl eq_refl eq_refl eq_refl eq_refl eq_refl (T1 _ Qx) _ W1 W2 W3 (eq_sym Ep) eq_refl _ _); [|rewrite Ep; exact L1|rewrite Ep; exact L2].
    assert (Qy' : In py (A2 ++ [y]) \/ In py A3) by (rewrite in_app_iff in *; cbn [In] in *; tauto). destruct Qy' as [Q|Q].
    + right. destruct (in_split _ _ Q) as (C0 & C1 & EC). exists C0, C1, A3. split; [|split].
      * rewrite EL, EB. replace (A2 ++ y :: A3) with ((A2 ++ [y]) ++ A3) by (asr; reflexivity). rewrite EC. asr. reflexivity.
      * rewrite <- (last_snoc A2 y NIL). rewrite EC. symmetry. apply last_app_ne. discriminate.
      * rewrite (T3 _ Q). discriminate.
    + left. destruct (in_split _ _ Q) as (C0 & C1 & EC). exists A2, C0, C1. split; [|apply T4; auto]. rewrite EL, EB, EC. asr. reflexivity.
  - destruct (in_split _ _ Qx) as (D0 & D1 & ED). assert (N1 : vtype g px <> OBS_HIGH_RXW) by (rewrite (T2 _ Qx); discriminate). destruct T5 as [T5|T5]; [congruence|].
    assert (Q : In py A3). { assert (Qy' : In py (A2 ++ [y]) \/ In py A3) by (rewrite in_app_iff in *; cbn [In] in *; tauto). destruct Qy' as [Q|Q]; [|auto]. rewrite (T3 _ Q) in T5. discriminate. }
    destruct (in_split _ _ Q) as (C0 & C1 & EC).
    refine (iso_C2 g0 kids St a d L G Ad LW FW PT SO NL D b f stk Tu DT px py pa xch xne xnd xin ipx' ipy' Pz Pz Pp Pz x w y A0 D0 D1 (A2 ++ y :: C0) C1 [] _ g F (mkIC v R x y w px py NIL ux uy NIL dx dy dw NIL) A2 C0 H M eq_refl eq_refl eq_refl eq_refl eq_refl eq_refl N1 _ eq_refl W1 W2 W3 (eq_sym Ep) eq_refl _ _); [| |rewrite Ep; exact L1|rewrite Ep; exact L2].
    + rewrite EL, EC. change (x :: A1 ++ w :: A2 ++ y :: C0 ++ py :: C1) with ((x :: A1) ++ w :: A2 ++ y :: C0 ++ py :: C1). rewrite ED. asr. now rewrite app_nil_r.
    + destruct D0; cbn [app hd] in *; congruence.
Qed.

Section Low.
Variables (D0 D1 C0 C1 : list Z).
Hypothesis EX : x :: A1 = D0 ++ px :: D1.
Hypothesis EY : A2 ++ [y] = C0 ++ py :: C1.
Lemma EL2 : L = A0 ++ D0 ++ px :: D1 ++ w :: C0 ++ py :: C1 ++ A3.
Proof.
  rewrite EL. change (x :: A1 ++ w :: A2 ++ y :: A3) with ((x :: A1) ++ w :: A2 ++ y :: A3). rewrite EX. replace (A2 ++ y :: A3) with ((A2 ++ [y]) ++ A3) by (asr; reflexivity). rewrite EY. asr. reflexivity.
Qed.
Lemma HX2 : hd NIL (D0 ++ [px]) = x.
Proof. destruct D0; cbn [app hd] in *; congruence. Qed.
Lemma HY2 : last (py :: C1) NIL = y.
Proof. rewrite <- (last_snoc A2 y NIL). rewrite EY. symmetry. apply last_app_ne. discriminate. Qed.

Lemma doD g f F z Zp : rpv g (setfl (b' f) F) stk -> marked (fl s) F (Zp ++ pa) -> fpo f -> zpathf g0 a d L px pa z Zp -> done g MinorD px py z.
Proof.
  intros H M Fo Hz. destruct (ictx g f F MinorD px py z H Fo ltac:(tauto)) as (ux & uy & dx & dy & dw & Ei & W1 & W2 & W3 & L1 & L2).
  exists (mkIC v R x y w px py z ux uy NIL dx dy dw NIL).
  destruct (iso_D g0 kids St a d L G Ad LW FW PT SO NL D b f stk Tu DT px py pa xch xne xnd xin ipx' ipy' Pz Pz Pp Pz x w y A0 D0 D1 C0 C1 A3 EL2 HX2 HY2 g F (mkIC v R x y w px py z ux uy NIL dx dy dw NIL) z Zp H M Hz eq_refl eq_refl eq_refl eq_refl W1 W2 W3 (eq_sym Ep) eq_refl) as (g' & h & Q);
    [cbn [iux]; lia|cbn [iuy]; lia|exists g', h; auto].
Qed.

Lemma doE g f F z : rpv g (setfl (b' f) F) stk -> marked (fl s) F pa -> fpo f -> In z (D1 ++ w :: C0) -> futp z ->
  (forall z, In z (x :: A1) -> vtype g z = OBS_LOW_RXW) -> (forall z, In z (A2 ++ [y]) -> vtype g z = OBS_LOW_RYW) -> gp_EdgeInUseIndexBound g0 <= gp_EdgeIndexBound g0 -> done g MinorE px py z.
Proof.
  intros H M Fo Iz Fz T1 T2 Bd. assert (IzL : In z L) by (rewrite EL2; repeat (rewrite in_app_iff in *; cbn [In] in * ); tauto).
  destruct (ictxE g f F px py z H Fo IzL Fz) as (ux & uy & uz & dx & dy & dw & dz & Ei & W1 & W2 & W3 & W4 & L1 & L2 & L3).
  set (i := mkIC v R x y w px py z ux uy uz dx dy dw dz) in *. exists i. enough (Q : exists g' h, _IsolateMinorE g i = Ret (g', C_OK) /\ _DeleteUnmarkedVerticesAndEdges g' = Ret h /\ kisolated g0 a h) by (destruct Q as (g' & h & Q); exists g', h; auto).
  assert (Tpx : vtype g px = OBS_LOW_RXW) by (apply T1; rewrite EX, in_app_iff; cbn [In]; tauto). assert (Tpy : vtype g py = OBS_LOW_RYW) by (apply T2; rewrite EY, in_app_iff; cbn [In]; tauto).
  destruct (vL px ipx') as [Rx _]. destruct (vL py ipy') as [Ry _]. unfold GeoP.prim in Rx, Ry.
  unfold _IsolateMinorE. change (iz i) with z. change (iw i) with w. destruct (Z.eqb_spec z w) as [Ezw|Nzw]; cbn [negb].
  - (* z = w *)
    subst z. change (iux i) with ux. change (iuy i) with uy. change (iuz i) with uz. destruct (Z.ltb_spec (Z.max ux uy) uz) as [Cm|Cm].
    + (* E2 *)
      unfold _IsolateMinorE2. destruct (clear_v g0 _ g F _ pa stk H M Bd ltac:(lia)) as (g1 & F1 & E1 & H1 & M1). rewrite E1. cbn [bind].
      refine (iso_A g0 kids St a d L G Ad LW FW PT SO NL D b f stk Tu DT x w y A0 A1 A2 A3 EL Pz Pz Pz g1 F1 (mkIC uz R x y w px py NIL ux uy NIL dx dy dz NIL) H1 M1 eq_refl eq_refl eq_refl eq_refl eq_refl W1 W2 W4 _ _ _); cbn [iux iuy iv]; change (iux i) with ux; change (iuy i) with uy; change (iuz i) with uz; lia.
    + assert (DJ : forall c, Pp c -> Pz c -> False) by (intros c Q1 Q2; exact (NB c Q1 Q2)).
      destruct ((uz <? Z.max ux uy) && negb (ux =? uy)) eqn:Q3.
      * (* E3 *)
        refine (iso_E3 g0 kids St a d L G Ad LW FW PT SO NL D b f stk Tu DT px py pa xch xne xnd xin ipx' ipy' Pz Pz Pp Pz x w y A0 D0 D1 C0 C1 A3 EL2 HX2 HY2 i eq_refl eq_refl eq_refl eq_refl eq_refl eq_refl W1 W2 W3 W4 (eq_sym Ep) _ _ _ DJ g F H M _ _); change (iux i) with ux; change (iuy i) with uy; change (iuz i) with uz; lia.
      * assert (Lo : lower1 (iux i) (iuy i) (iuz i) (MAX3 (iux i) (iuy i) (iuz i)) (MIN3 (iux i) (iuy i) (iuz i))) by (apply low1; change (iux i) with ux; change (iuy i) with uy; change (iuz i) with uz; lia).
        change (ix i) with x. change (iy i) with y. change (ipx i) with px. change (ipy i) with py. destruct (negb (x =? px) || negb (y =? py)) eqn:Q4.
        -- refine (iso_E4 g0 kids St a d L G Ad LW FW PT SO NL D b f stk Tu DT px py pa xch xne xnd xin ipx' ipy' Pz Pz Pp Pz x w y A0 D0 D1 C0 C1 A3 EL2 HX2 HY2 i eq_refl eq_refl eq_refl eq_refl eq_refl eq_refl W1 W2 W3 W4 (eq_sym Ep) _ _ _ DJ g F H M Lo _); change (iux i) with ux; change (iuy i) with uy; change (iuz i) with uz; lia.
        -- destruct (iso_E5 g0 kids St a d L G Ad LW FW PT SO NL D b f stk Tu DT px py pa xch xne xnd xin ipx' ipy' Pz Pz Pp Pz x w y A0 D0 D1 C0 C1 A3 EL2 HX2 HY2 i) with (g := g) (F := F) as (g1 & g' & h & Q5 & Q6 & Q7); auto; try (change (iux i) with ux; change (iuy i) with uy; change (iuz i) with uz; lia).
           change (ir i) with R. rewrite Q5. cbn [bind]. exists g', h. auto.
  - (* E1 *)
    unfold _IsolateMinorE1. change (iz i) with z. rewrite (get_type g f F z H IzL). cbn [bind]. apply in_app_iff in Iz. cbn [In] in Iz. destruct Iz as [Iz|[Iz|Iz]]; [|congruence|].
    + assert (Tz : vtype g z = OBS_LOW_RXW) by (apply T1; rewrite EX, in_app_iff; cbn [In]; tauto). rewrite Tz, Z.eqb_refl. change (ipx i) with px.
      destruct (reset_typ g0 _ g F stk px OBS_HIGH_RXW H ltac:(lia) eq_refl) as (g1 & E1 & H1 & V1). rewrite E1. cbn [bind]. destruct (in_split _ _ Iz) as (D2 & D3 & ED).
      refine (iso_C g0 kids St a d L G Ad LW FW PT SO NL D b f stk Tu DT px py pa xch xne xnd xin ipx' ipy' Pz Pz Pp Pz g1 F (mkIC v R z y w px py NIL uz uy NIL dz dy dw NIL) z w y (A0 ++ D0) D2 D3 H1 M eq_refl eq_refl eq_refl eq_refl eq_refl eq_refl _ _ W4 W2 W3 (eq_sym Ep) eq_refl _ _); [now rewrite V1, Z.eqb_refl| |cbn [iux]; change (iuz i) with uz; lia|cbn [iuy]; change (iuy i) with uy; lia].
      right. exists C0, C1, A3. split; [rewrite EL2, ED; asr; reflexivity|]. split; [apply HY2|]. rewrite V1. destruct (py =? px); [discriminate|rewrite Tpy; discriminate].
    + assert (Tz : vtype g z = OBS_LOW_RYW) by (apply T2; rewrite EY, in_app_iff; cbn [In]; tauto). rewrite Tz. change (OBS_LOW_RYW =? OBS_LOW_RXW) with false. cbn iota. rewrite Z.eqb_refl. change (ipy i) with py.
      destruct (reset_typ g0 _ g F stk py OBS_HIGH_RYW H ltac:(lia) eq_refl) as (g1 & E1 & H1 & V1). rewrite E1. cbn [bind]. destruct (in_split _ _ Iz) as (D2 & D3 & ED).
      refine (iso_C2 g0 kids St a d L G Ad LW FW PT SO NL D b f stk Tu DT px py pa xch xne xnd xin ipx' ipy' Pz Pz Pp Pz x w z A0 D0 D1 C0 C1 A3 EL2 g1 F (mkIC v R x z w px py NIL ux uz NIL dx dz dw NIL) D2 D3 H1 M eq_refl eq_refl eq_refl eq_refl eq_refl eq_refl _ HX2 ED W1 W4 W3 (eq_sym Ep) eq_refl _ _); [|cbn [iux]; change (iux i) with ux; lia|cbn [iuy]; change (iuz i) with uz; lia].
      rewrite V1. destruct (px =? py); [discriminate|rewrite Tpx; discriminate].
Qed.
End Low.
End Big.
End Ctx.

(** ** The isolator *)
Local Notation flsof Fs := (map (fun F => rev (tl (map (PlV.src s) F))) Fs).
Definition pwf (Om : list Z) : Prop := forall La w Lb, L = La ++ w :: Lb -> In w Om -> (exists x, In x La /\ futp x) -> (exists x, In x Lb /\ futp x) -> pertb a w = true ->
  pe a w = NIL /\ exists c, In c (prl a w) /\ low c < v.
Definition exff (fl : list Z) : Prop := forall l1 a1 mid b1 l2 La Lm Lb, fl = l1 ++ a1 :: mid ++ b1 :: l2 -> (forall x, In x mid -> ~ In x L) -> L = La ++ a1 :: Lm ++ b1 :: Lb ->
  (exists x, In x (La ++ [a1]) /\ futp x) -> (exists x, In x (b1 :: Lb) /\ futp x) -> (exists x, In x Lm /\ pertb a x = true) -> exists x, In x Lm /\ futp x.

Lemma chain_end : forall pa z t, achain a z pa t -> pa <> [] -> map (nb s) pa = map (nb s) (removelast pa) ++ [t].
Proof.
  induction pa as [|e pa IH]; intros z t H Nn; [congruence|]. cbn [achain] in H. destruct H as [H1 H2]. destruct pa as [|e' pa].
  - cbn [achain] in H2. cbn [map removelast app]. now rewrite H2.
  - change (removelast (e :: e' :: pa)) with (e :: removelast (e' :: pa)). cbn [map app]. f_equal. apply (IH (nb s e)); [auto|discriminate].
Qed.
Lemma ord_last x l : StronglySorted (fun d d' => low d < v -> low d' < v) l -> l <> [] -> ~ low (last l x) < v -> forall c, In c l -> ~ low c < v.
Proof.
  induction 1 as [|c l Hs IH Hc]; intros Nn Hl e He; [congruence|]. destruct l as [|c' l]; [destruct He as [<-|[]]; exact Hl|]. change (last (c :: c' :: l) x) with (last (c' :: l) x) in Hl. destruct He as [<-|He]; [|apply IH; auto; discriminate].
  intros Q. apply Hl. rewrite Forall_forall in Hc. apply Hc; [apply last_In; discriminate|exact Q].
Qed.

Theorem kiso x w y A0 A1 A2 A3 Fs g stk stk0 R0 : L = A0 ++ x :: A1 ++ w :: A2 ++ y :: A3 ->
  (forall z, In z (A0 ++ A3) -> pertb a z = false /\ ~ futp z) -> futp x -> futp y -> (forall z, In z A1 -> pertb a z = false) -> pertb a w = true ->
  o s R = false -> fpo (fpc a) ->
  (p d = v -> Forall2 (iface N s R) (tl (rot s R)) Fs /\ nc (concat (flsof Fs)) /\ pwf (concat (flsof Fs)) /\ forall fl, In fl (flsof Fs) -> exff fl) ->
  rp g0 g a stk -> (stk = [] /\ stk0 = [] /\ R0 = R) \/ (exists y, stk = y :: R :: stk0) ->
  Z.of_nat (length stk0) + Z.of_nat (length (adj s R)) + 2 * Z.of_nat (length (mem N s R)) + 2 <= gstackCap g0 ->
  exists h, _IsolateKuratowskiSubgraph g v R0 = Ret (h, C_OK) /\ kisolated g0 a h.
Proof.
  intros EL I03 Fx Fy I1 Pw Oz Fo0 HF H Hs Cap. unfold _IsolateKuratowskiSubgraph.
  assert (Bd : gp_EdgeInUseIndexBound g0 <= gp_EdgeIndexBound g0) by apply SO. assert (B1 : 1 <= N) by apply SO.
  destruct (clear_ok g0 g a stk H Bd B1) as (g1 & F & E1 & H1 & Mk1 & V1 & Iv1). rewrite E1. cbn [bind]. clear E1.
  assert (Hpr : forall z e, In z L -> In e (prl a z) -> prim e) by (intros z e _ He; destruct (Pr z e He) as (_ & _ & (Q1 & _) & _); exact Q1).
  assert (InL : forall z, In z (A0 ++ A3) -> In z L) by (intros z Hz; rewrite EL; repeat (rewrite in_app_iff in *; cbn [In] in * ); tauto).
  assert (Ixy : In x L /\ In w L /\ In y L) by (rewrite EL; repeat (rewrite in_app_iff; cbn [In]); tauto). destruct Ixy as (Ix & Iw & Iy).
  destruct (kinit_ok g0 kids St a v d L G Ad LW fpb) with (pt := pertb a) (x := x) (w := w) (y := y) (A0 := A0) (A1 := A1) (A2 := A2) (A3 := A3) (g := g1) (F := F) (stk := stk) (stk0 := stk0) (R0 := R0) as (g2 & b & f & D & F2 & E2 & Cx); auto; try lia.
  { intros z Hz. apply fpb_ok. now apply vL. }
  { intros z Hz. destruct (I03 z Hz) as [Q1 Q2]. split; [auto|]. destruct (fpb z) eqn:Q3; [|reflexivity]. exfalso. apply Q2, fpb_ok; [apply vL; auto|auto]. }
  { apply fpb_ok; [now apply vL|auto]. }
  { apply fpb_ok; [now apply vL|auto]. }
  rewrite E2. cbn [bind]. clear E2. rewrite Z.eqb_refl. cbn [negb]. destruct Cx as [H2 Tu DT Fo2 Mk2 V2 Thx Tlx Tly Thy T0].
  enough (Q : exists g3 t px py z, choose_minor g2 v R x y w = Ret (g3, Some (t, (px, py, z))) /\ done x w y g3 t px py z).
  { destruct Q as (g3 & t & px & py & z & Q1 & (i & g' & h & Q2 & Q3 & Q4 & Q5)). rewrite Q1. cbn [bind]. rewrite Q2. cbn [bind]. exists h. split; [|exact Q5]. rewrite Q3. cbn [bind]. rewrite Z.eqb_refl. cbn [negb]. rewrite Q4. reflexivity. }
  pose proof (rpv_N g0 _ _ _ H2) as KN. pose proof (rpv_parent g0 _ _ _ H2) as Kp.
  unfold choose_minor, gp_GetPrimaryVertexFromRoot, gp_GetVertexParent, gp_GetDFSChildFromRoot. pose proof (proj1 Ad) as Pd'. unfold GeoP.prim in Pd'. rewrite vi_ok by lia. cbn [bind]. rewrite Kp, KN. replace (N + d - N) with d by lia.
  destruct (vL w Iw) as (Ww & Lvw & Avw).
  destruct (Z.eqb_spec (p d) v) as [Ep|Np]; cbn [negb].
  2:{ (* A *)
    exists g2, MinorA, NIL, NIL, NIL. split; [reflexivity|]. destruct (ictx x w y A0 A1 A2 A3 EL Fx Fy Pw D b stk0 Tu g2 f F2 MinorA NIL NIL NIL H2 Fo2 ltac:(tauto)) as (ux & uy & dx & dy & dw & Ei & W1 & W2 & W3 & L1 & L2).
    set (i := mkIC v R x y w NIL NIL NIL ux uy NIL dx dy dw NIL) in *. destruct (pd_facts g0 kids St a d Ad) as [Q1 _].
    destruct (iso_A g0 kids St a d L G Ad LW FW PT SO NL D b f stk0 Tu DT x w y A0 A1 A2 A3 EL Pz Pz (Pp w) g2 F2 i H2 Mk2 eq_refl eq_refl eq_refl eq_refl eq_refl W1 W2 W3 L1 L2) as (g' & h & Q).
    - change (v < p d). pose proof (anc_le _ _ St _ _ Q1 Avp). lia.
    - exists i, g', h. auto. }
  destruct (HF Ep) as (HFs & Hnc & Hpw & Hex).
  assert (ER : prl (setfl (setfp b f) F2) = prl a) by (cbn [setfl setfp set_V prl]; apply (tu_prl _ _ _ Tu)).
  rewrite (roots_hd_rpv g0 _ _ _ w H2 Ww), ER. cbn [bind].
  assert (HB : exists r, (if hd NIL (prl a w) =? NIL then Ret false else s <- gp_GetVertexLastPertinentRootChild g2 w ;; l <- gp_GetVertexLowpoint g2 s ;; Ret (l <? v)) = Ret r /\
    if r then prl a w <> [] /\ low (last (prl a w) NIL) < v else forall c, In c (prl a w) -> ~ low c < v).
  { destruct (prl a w) as [|c0 l0] eqn:El; cbn [hd]; [exists false; split; [reflexivity|]; intros c []|]. assert (C0 : prim c0) by (apply (Hpr w c0 Iw); rewrite El; now left). unfold GeoP.prim in C0.
    rewrite eqb_false_neq by (unfold NIL; lia). rewrite (last_root_ok g0 g2 _ stk0 w H2 Ww) by (rewrite ER, El; discriminate). rewrite ER, El. cbn [bind]. set (c := last (c0 :: l0) NIL). assert (Ic : In c (prl a w)) by (rewrite El; apply last_In; discriminate).
    pose proof (Hpr w c Iw Ic) as Pc. unfold GeoP.prim in Pc. unfold gp_GetVertexLowpoint. rewrite vi_ok by lia. cbn [bind]. rewrite (k_low _ _ (r_keeps _ _ _ _ H2)). cbn [set_vflags gVI].
    exists (low c <? v). split; [reflexivity|]. destruct (Z.ltb_spec (low c) v) as [Q|Q]; [split; [discriminate|exact Q]|]. apply (ord_last NIL); [rewrite <- El; apply Po|discriminate|fold c; lia]. }
  destruct HB as (r & Er & Hr). rewrite Er. cbn [bind]. destruct r.
  { (* B *)
    destruct Hr as [Hr1 Hr2]. exists g2, MinorB, NIL, NIL, NIL. split; [reflexivity|]. destruct (ictxB x w y A0 A1 A2 A3 EL Fx Fy Pw D b stk0 Tu g2 f F2 _ H2 Fo2 Ep Hr1 eq_refl Hr2) as (ux & uy & uz & dx & dy & dw & dz & Ei & W1 & W2 & W3 & W4 & N3 & N4 & L1 & L2 & L3).
    set (i := mkIC v R x y w NIL NIL NIL ux uy uz dx dy dw dz) in *.
    destruct (iso_B g0 kids St a d L G Ad LW FW PT SO NL D b f stk0 Tu DT x w y A0 A1 A2 A3 EL Pz Pz Pz _ g2 F2 i H2 Mk2 eq_refl eq_refl eq_refl eq_refl W1 W2 W3 W4 N3 N4 (eq_sym Ep) L1 L2 L3) as (g' & h & Q).
    exists i, g', h. auto. }
  assert (NW : ~ In w (concat (flsof Fs))).
  { intros Q. destruct (Hpw (A0 ++ x :: A1) w (A2 ++ y :: A3)) as (_ & c & Q1 & Q2); auto.
    - rewrite EL. asr. reflexivity.
    - exists x. split; [rewrite in_app_iff; cbn [In]; tauto|auto].
    - exists y. split; [rewrite in_app_iff; cbn [In]; tauto|auto].
    - exact (Hr c Q1 Q2). }
  assert (Lf : forall x e, In e (adj s x) -> nb s e <> x) by (intros q e He Q; apply (NL e); [left; eauto|]; rewrite (proj1 (g_twins _ _ _ (g_base _ _ _ _ _ G) q e He)), Q; reflexivity).
  destruct (kxyz g0 kids St a d L G Ad LW SO D b Tu DT Lf f stk0 Fs HFs Hnc x w y A0 A1 A2 A3 EL NW g2 F2 H2 Mk2 V2 Thx Tlx Tly Thy T0 Cap) as (g3 & F3 & px & py & pa & E3 & H3 & Mk3 & V3 & XP & HZ).
  rewrite E3. cbn [bind]. rewrite Z.eqb_refl. cbn [negb orb]. pose proof (ipx' x w y A0 A1 A2 A3 EL px py pa XP) as Ipx. pose proof (ipy' x w y A0 A1 A2 A3 EL px py pa XP) as Ipy.
  destruct (vL py Ipy) as [Ry _]. unfold GeoP.prim in Ry. rewrite eqb_false_neq by (unfold NIL; lia).
  rewrite (get_type b stk0 g3 f F3 px H3 Ipx), (get_type b stk0 g3 f F3 py H3 Ipy). cbn [bind].
  assert (Shx : forall z, In z A0 -> vtype g3 z = OBS_HIGH_RXW) by (intros z Hz; rewrite V3; auto). assert (Slx : forall z, In z (x :: A1) -> vtype g3 z = OBS_LOW_RXW) by (intros z Hz; rewrite V3; auto).
  assert (Sly : forall z, In z (A2 ++ [y]) -> vtype g3 z = OBS_LOW_RYW) by (intros z Hz; rewrite V3; auto). assert (Shy : forall z, In z A3 -> vtype g3 z = OBS_HIGH_RYW) by (intros z Hz; rewrite V3; auto).
  destruct ((vtype g3 px =? OBS_HIGH_RXW) || (vtype g3 py =? OBS_HIGH_RYW)) eqn:TC.
  { exists g3, MinorC, px, py, NIL. split; [reflexivity|]. apply (doC x w y A0 A1 A2 A3 EL Fx Fy Pw D b stk0 Tu DT Ep px py pa XP g3 f F3 H3 Mk3 Fo2 Shx Slx Sly Shy). apply orb_true_iff in TC. rewrite !Z.eqb_eq in TC. exact TC. }
  apply orb_false_iff in TC. rewrite !Z.eqb_neq in TC. destruct TC as [TC1 TC2].
  assert (Qx : In px (x :: A1)). { pose proof (xp_x _ _ _ _ _ _ _ _ _ _ _ _ _ XP) as Q. apply in_app_iff in Q. destruct Q as [Q|Q]; [|exact Q]. exfalso. apply TC1. auto. }
  assert (Qy : In py (A2 ++ [y])). { pose proof (xp_y _ _ _ _ _ _ _ _ _ _ _ _ _ XP) as Q. assert (Q' : In py (A2 ++ [y]) \/ In py A3) by (rewrite in_app_iff in *; cbn [In] in *; tauto). destruct Q' as [Q'|Q']; [exact Q'|]. exfalso. apply TC2. auto. }
  destruct (in_split _ _ Qx) as (D0 & D1 & EX). destruct (in_split _ _ Qy) as (C0 & C1 & EY).
  destruct HZ as [[EZ HZ]|(g4 & F4 & z & Zp & EZ & H4 & Mk4 & V4 & Hz)]; rewrite EZ; cbn [bind]; rewrite Z.eqb_refl; cbn [negb].
  - (* E *)
    change (NIL =? NIL) with true. cbn [negb]. destruct HZ as (FF & k1 & k2 & IFF & EFF). pose proof (EL2 x w y A0 A1 A2 A3 EL px py D0 D1 C0 C1 EX EY) as EL'.
    destruct (below_ok D b stk0 Tu DT px py (A0 ++ D0) (D1 ++ w :: C0) (C1 ++ A3) g3 f F3) as (g4 & f4 & z & E4 & Iz & Fz & H4 & Fo4 & V4); auto.
    + rewrite EL'. asr. reflexivity.
    + rewrite (chain_end pa px py (xp_ch _ _ _ _ _ _ _ _ _ _ _ _ _ XP) (xp_ne _ _ _ _ _ _ _ _ _ _ _ _ _ XP)) in EFF. rewrite <- app_assoc in EFF. cbn [app] in EFF.
      apply (Hex _ (in_map (fun F => rev (tl (map (PlV.src s) F))) Fs FF IFF) k1 px (map (nb s) (removelast pa)) py k2 (A0 ++ D0) (D1 ++ w :: C0) (C1 ++ A3) EFF).
      * intros q Hq. apply in_map_iff in Hq. destruct Hq as (e & <- & He). apply (xp_in _ _ _ _ _ _ _ _ _ _ _ _ _ XP e He).
      * rewrite EL'. asr. reflexivity.
      * exists x. split; [|auto]. rewrite <- (HX2 x A1 px D0 D1 EX). rewrite <- app_assoc. apply in_app_iff. right. destruct D0; cbn [app hd In]; auto.
      * exists y. split; [|auto]. rewrite <- (HY2 y A2 py C0 C1 EY). change (py :: C1 ++ A3) with ((py :: C1) ++ A3). apply in_app_iff. left. apply last_In. discriminate.
      * exists w. split; [rewrite in_app_iff; cbn [In]; tauto|auto].
    + rewrite E4. cbn [bind]. assert (Rz : prim z) by (apply vL; rewrite EL'; repeat (rewrite in_app_iff in *; cbn [In] in * ); tauto). unfold GeoP.prim in Rz. rewrite eqb_false_neq by (unfold NIL; lia). cbn [negb].
      exists g4, MinorE, px, py, z. split; [reflexivity|].
      apply (doE x w y A0 A1 A2 A3 EL Fx Fy Pw D b stk0 Tu DT Ep Hr px py pa XP D0 D1 C0 C1 EX EY g4 f4 F3 z H4 Mk3 Fo4 Iz Fz); auto; intros q Hq; unfold vtype; rewrite V4; [apply Slx|apply Sly]; auto.
  - (* D *)
    assert (Rz : prim z). { destruct (zf_at _ _ _ _ _ _ _ _ Hz) as (q1 & t & q2 & Eq & Nq & ->). destruct (xp_in _ _ _ _ _ _ _ _ _ _ _ _ _ XP t) as (Q1 & Q2 & Q3); [rewrite Eq; rewrite removelast_app by discriminate; apply in_app_iff; right; destruct q2; [congruence|now left]|].
      apply in_mem in Q1. tauto. }
    unfold GeoP.prim in Rz. rewrite eqb_false_neq by (unfold NIL; lia). cbn [negb]. exists g4, MinorD, px, py, z. split; [reflexivity|].
    apply (doD x w y A0 A1 A2 A3 EL Fx Fy Pw D b stk0 Tu DT Ep px py pa XP D0 D1 C0 C1 EX EY g4 f F4 z Zp H4 Mk4 Fo2 Hz).
Qed.
End KW.
