(** * EmbLoop: the walk down of a child, the step of a vertex and the main loop of the embedder. *)
From Coq Require Import ZifyBool Permutation Sorted.
From Verif Require Import Base BaseP GraphRec GraphM GraphSpec GSimp LinkP GraphP GraphP2 ListM ListSpec ListP DFSM DFSSpec DFSP TestM TestP EmbM EmbSpec EmbP FaceP GeoP GeoP2 EmbInv EmbStep EmbTree EmbWalk EmbFan EmbUp EmbJoin EmbDown PlanSpec EmbC1 EmbC2 EmbC3 EmbC4 EmbDown2 EmbDown3 EmbDown4 IsoM IsoKM IsoT IsoB FanP PlV PlV3 NcP PlI PlI2 IsoKB IsoKV EmbU.

Section Loop.
Variables (g0 : graph) (kids : Z -> list Z).
Hypothesis St : static g0 kids.
Local Notation N := (gN g0).
Local Notation p := (viParent (gVI g0)).
Local Notation prim := (prim (gN g0)).
Local Notation isroot := (isroot (gN g0)).
Local Notation geo := (geo (gN g0) (viParent (gVI g0))).
Local Notation anc := (ancestor (viParent (gVI g0))).
Local Notation via := (via g0).
Local Notation act := (act g0).
Local Notation fsim := (fsim g0).
Local Notation wrel := (wrel g0).
Local Notation rp := (rp g0).
Local Notation dinv := (dinv g0 kids).
Local Notation drel := (drel g0).
(** The edges of the graph, for what is claimed about the answer NONEMBEDDABLE. *)
Variable EE : Z -> Z -> Prop.
Local Notation guard := (guard g0 EE).
Local Notation cinv := (cinv g0 EE).
Local Notation cinvU := (EmbC3.cinv g0 anye).
Local Notation emore := (EmbU.emore g0 EE).
Local Notation fine := (fine g0).
Local Notation sided := (sided g0 kids EE).
Local Notation res_ok := (res_ok g0 kids EE).

Lemma ss_app_r {A} (R : A -> A -> Prop) l1 l2 : StronglySorted R (l1 ++ l2) -> StronglySorted R l2.
Proof. induction l1 as [|x l1 IH]; [auto|]. intros S. apply StronglySorted_inv in S. apply IH, S. Qed.
(** ** One side *)
Lemma side_ok two v c g a : prim v -> prim c -> p c = v -> rp g a [] -> dinv v c a -> act (eV a) c ->
  (2 <= length (X (eV a) (N + c)))%nat \/ o (eV a) (N + c) = false /\ prl a (hd NIL (X (eV a) (N + c))) <> [] ->
  pe a (last (X (eV a) (N + c)) NIL) = NIL -> (opl g0 = true -> pe a (hd NIL (X (eV a) (N + c))) = NIL /\ covers g0 c a) -> (two = true -> opl g0 = true -> prl a (last (X (eV a) (N + c)) NIL) = []) -> (guard -> cinv v c a /\ fine v a [] (X (eV a) (N + c)) /\ (two = true -> Gd g0 v c a)) ->
  cinvU v c a /\ (two = true -> Gd g0 v c a) /\ (opl g0 = false -> PI g0 v c a) ->
  res_ok two v c a (walkdown_side g v (N + c) (b2z (o (eV a) (N + c)))).
Proof.
  intros Hv Hc Ec H D Ac HL Pl Oc Lr Mo (U1 & U2 & U3). pose proof (d_geo _ _ _ _ _ D) as G. destruct (full_of g0 _ _ G Ac) as [HR F]. destruct (X_facts g0 _ _ F) as (Xne & Xnd & Xin).
  destruct (X_root g0 _ _ F) as [En Ep]. pose proof (f_ep _ _ _ F) as Fp. pose proof (f_one _ _ _ F) as Fo. destruct (X (eV a) (N + c)) as [|W Q] eqn:EX; [congruence|]. cbn [hd] in *.
  destruct (Xin W (or_introl eq_refl)) as [PW BW]. assert (RX : 1 <= N + c <= 2 * N) by (unfold GeoP.isroot in HR; lia). assert (WX : 1 <= W <= 2 * N) by (unfold GeoP.prim in PW; lia).
  unfold walkdown_side. rewrite (rp_ext_get _ _ _ _ _ _ H RX (b2z_01 _)).
  replace (if b2z (o (eV a) (N + c)) =? 0 then e0 (eV a) (N + c) else e1 (eV a) (N + c)) with W by (unfold en in En; destruct (o (eV a) (N + c)); cbn [b2z Z.eqb]; congruence).
  cbn [bind]. rewrite (rp_ext_get _ _ _ _ _ _ H WX (or_intror eq_refl)). cbn [bind Z.eqb].
  replace (if e1 (eV a) W =? N + c then 1 else 0) with (b2z (negb (o (eV a) W))).
  2:{ destruct (X_links g0 _ _ [] W Q F EX) as [_ L]. unfold en, ep in *. destruct (o (eV a) W) eqn:Eo; cbn [negb b2z].
      - destruct Q as [|q Q]; cbn [hd] in L.
        + destruct HL as [HL|[HL _]]; [cbn [length] in HL; lia|]. specialize (Fo eq_refl). congruence.
        + destruct (Xin q) as [Pq _]; [right; now left|]. rewrite L, eqb_false_neq; [reflexivity|]. unfold GeoP.prim, GeoP.isroot in *. lia.
      - rewrite Fp, Z.eqb_refl. reflexivity. }
  rewrite (k_N _ _ (r_keeps _ _ _ _ H)). apply (wloop_ok g0 kids St EE two v c Hv Hc Ec _ g a W [] [] Q); [exact H| |].
  - constructor; auto.
    + split; auto.
    + intros x [].
    + intros _. rewrite EX. destruct HL as [HL|[_ HL]]; auto.
    + rewrite EX. auto.
    + intros Eo. destruct (Oc Eo) as [O1 O2]. split; [auto|]. split; [intros z R []|auto].
    + rewrite EX. exact Lr.
    + intros Gu. destruct (Mo Gu) as (M1 & M2 & M3). split; [auto|]. split; [exact M2|]. split; [intros x []|auto].
    + split; [auto|]. split; [intros x []|]. split; [auto|]. split; [intros z y []|auto].
  - pose proof (mu_bound g0 a (N + c) [] (bot W [] :: Q)). lia.
Qed.

Lemma dinv_k v k c a : dinv v k a -> k <= c -> dinv v c a.
Proof. intros [] L. constructor; auto. intros y H1 H2 H3. apply d_act; auto. lia. Qed.
Lemma stk_clear_id g : gstack g = [] -> stk_clear g = g.
Proof. destruct g. cbn. intros ->. reflexivity. Qed.
Lemma fw_next v c c' f a : fwok g0 a -> In f (fw a v) -> via v c (nb (eV a) f) -> via v c' (nb (eV a) (hd NIL (fw a v))) -> c' <= c.
Proof.
  intros F Hf V V'. destruct (Z.le_gt_cases c' c) as [|L]; [auto|exfalso]. pose proof V as (V1 & V2 & V3 & V4 & V5). pose proof V' as (W1 & W2 & W3 & W4 & W5).
  pose proof (st_sub _ _ St c c' (nb (eV a) f) V1 W1 ltac:(congruence) ltac:(rewrite V2; apply (prim_ne g0); auto) ltac:(lia) V4 V5) as Lt.
  pose proof (via_lt g0 kids St _ _ _ V') as [_ L']. pose proof (fo_sorted _ _ F v) as S. destruct (fw a v) as [|e l]; [contradiction|]. cbn [hd] in *.
  destruct Hf as [<-|Hf]; [lia|]. apply StronglySorted_inv in S. destruct S as [_ S]. rewrite Forall_forall in S. specialize (S f Hf). lia.
Qed.

(** ** The walk down below one child *)
Lemma walkdown_ok v c l1 l2 g a k : prim v -> kids v = l1 ++ c :: l2 -> rp g a [] -> dinv v k a -> k < c -> prl a c <> [] ->
  (forall f c', In f (fw a v) -> via v c' (nb (eV a) f) -> In c' (c :: l2)) -> (guard -> cinv v NIL a) -> cinvU v NIL a -> good g0 a ->
  exists g' x, _WalkDown g v (N + c) = Ret (g', x) /\ (x = C_NONEMBEDDABLE /\ ~ guard /\ isol g0 a g' \/ x = C_OK /\ exists b, rp g' b [] /\ dinv v c b /\ drel v c a b /\ (guard -> cinv v NIL b) /\ cinvU v NIL b /\
     forall f c', In f (fw b v) -> via v c' (nb (eV b) f) -> In c' l2).
Proof.
  intros Hv Ek H D Lk Hp Hd Mo Un Gd0. assert (Kc : In c (kids v)) by (rewrite Ek; apply in_app_iff; right; now left). pose proof Kc as Kc'. apply (st_kid _ _ St) in Kc'. destruct Kc' as (Hc & _ & Ec).
  assert (Nv : p c <> NIL) by (rewrite Ec; apply (prim_ne g0); auto). destruct (EmbTree.Hp g0 kids St c Hc Nv) as [_ Lc]. rewrite Ec in Lc.
  assert (Ac : act (eV a) c).
  { apply (d_act _ _ _ _ _ D); auto. left. rewrite Ec. destruct (Z.eq_dec (p v) NIL) as [E|E]; [rewrite E; unfold GeoP.prim, NIL in *; lia|]. apply (EmbTree.Hp g0 kids St v Hv E). }
  assert (Ay : forall y, prim y -> p y = c -> act (eV a) y) by (intros y Py Ey; apply (d_act _ _ _ _ _ D); auto; [rewrite Ey; apply (prim_ne g0); auto|]; right; rewrite Ey; auto).
  assert (XL : X (eV a) (N + c) = [c]) by (apply (lone_X g0 kids St); [apply (d_geo _ _ _ _ _ D)|auto|exact Ay]).
  assert (PEc : pe a c = NIL).
  { destruct (Z.eq_dec (pe a c) NIL) as [|Ne]; [auto|exfalso]. destruct (d_pe _ _ _ _ _ D c Ne) as [P1 P2]. destruct (fo_via _ _ (d_fw _ _ _ _ _ D) _ _ P1) as (c' & V & Nc). rewrite P2 in V, Nc.
    apply Nc. apply (via_unique g0 kids St v c' c c V). apply mkvia; auto. constructor. }
  pose proof (dinv_k v k c a D ltac:(lia)) as Dc. unfold _WalkDown. rewrite (stk_clear_id g (r_stack _ _ _ _ H)). unfold gp_GetDFSChildFromRoot. rewrite (k_N _ _ (r_keeps _ _ _ _ H)).
  replace (N + c - N) with c by lia. cbv zeta.
  destruct (orient g0 a [] g c (N + c) false H (d_geo _ _ _ _ _ Dc) Ac (or_introl eq_refl)) as (V & H1 & S1 & G1 & O1 & _ & _).
  assert (D1 : dinv v c (set_V a V)).
  { apply dinv_V; auto; [apply (fs_nb _ _ S1)|apply (fs_fl _ _ S1)|apply (fs_adj _ _ S1)| |apply (fsim_outer g0 kids St (eV a)); [apply (d_geo _ _ _ _ _ Dc)|apply (d_out _ _ _ _ _ Dc)|auto]]. apply (fsim_keep g0 v a); [apply (d_keep _ _ _ _ _ Dc)|auto|auto]. }
  assert (R1 : drel v c a (set_V a V)) by (apply drel_V; [apply (fs_nb _ _ S1)|apply (fs_fl _ _ S1)|apply (fs_adj _ _ S1)]).
  assert (A1 : act V c) by (apply (fsim_act _ _ _ _ S1); auto).
  assert (X1 : X V (N + c) = [c]) by (destruct (fs_X _ _ S1 (N + c)) as [-> | ->]; rewrite XL; reflexivity).
  destruct (side_ok false v c g (set_V a V) Hv Hc Ec H1 D1 A1) as (g1 & x1 & W1 & Q1); [| | | | | |exact (good_sedge g0 a _ (dr_edge _ _ _ _ _ R1) Gd0)|].
  { right. cbn [set_V eV prl]. rewrite X1. auto. }
  { cbn [set_V eV pe]. rewrite X1. auto. }
  { intros _. cbn [set_V eV pe]. rewrite X1. split; [exact PEc|]. intros w. cbn [set_V eV pe]. rewrite X1. intros [<-|[]] Nw. congruence. }
  { discriminate. }
  { intros Gu. split; [|split; [|discriminate]].
    - apply (cinv_sim g0 EE v c a); auto; [apply (gd_sym _ _ Gu)|]. apply cinv_any. auto.
    - cbn [set_V eV]. rewrite X1. intros x w y Hs. apply sub_len in Hs. cbn [length] in Hs. lia. }
  { split; [|split; [discriminate|]].
    - apply (cinv_sim g0 anye v c a); auto using anye_sym. apply cinv_any. auto.
    - intros _. apply (lone_PI g0 kids St v c (set_V a V)); [exact G1|apply (d_out _ _ _ _ _ D1)|exact (good_sedge g0 a _ (dr_edge _ _ _ _ _ R1) Gd0)|exact A1|]. intros y Py Ey. apply (fsim_act _ _ _ _ S1). auto. }
  cbn [set_V eV] in W1. rewrite O1 in W1. cbn [b2z] in W1. rewrite W1. cbn [bind].
  destruct Q1 as [(-> & Ng & Is)|(-> & b & H2 & S2)]; [exists g1, C_NONEMBEDDABLE; split; [reflexivity|]; left; split; [auto|]; split; [auto|]; exact (isol_sedge g0 a _ g1 (dr_edge _ _ _ _ _ R1) Is)|]. cbn [C_OK Z.eqb negb].
  pose proof (sd_act _ _ _ _ _ _ _ _ S2) as A2. pose proof (sd_inv _ _ _ _ _ _ _ _ S2) as D2.
  destruct (orient g0 b [] g1 c (N + c) true H2 (d_geo _ _ _ _ _ D2) A2 (or_introl eq_refl)) as (V2 & H3 & S3 & G3 & O3 & _ & _).
  assert (D3 : dinv v c (set_V b V2)).
  { apply dinv_V; auto; [apply (fs_nb _ _ S3)|apply (fs_fl _ _ S3)|apply (fs_adj _ _ S3)| |apply (fsim_outer g0 kids St (eV b)); [apply (d_geo _ _ _ _ _ D2)|apply (d_out _ _ _ _ _ D2)|auto]]. apply (fsim_keep g0 v b); [apply (d_keep _ _ _ _ _ D2)|auto|auto]. }
  assert (R3 : drel v c b (set_V b V2)) by (apply drel_V; [apply (fs_nb _ _ S3)|apply (fs_fl _ _ S3)|apply (fs_adj _ _ S3)]).
  assert (A3 : act V2 c) by (apply (fsim_act _ _ _ _ S3); auto).
  assert (XR : X V2 (N + c) = rev (X (eV b) (N + c))).
  { destruct (fs_X _ _ S3 (N + c)) as [EX|EX]; [exfalso|auto]. destruct (full_of g0 _ _ (d_geo _ _ _ _ _ D2) A2) as [_ F2]. destruct (full_of g0 _ _ G3 A3) as [_ F3].
    destruct (X_root g0 _ _ F2) as [_ E2]. destruct (X_root g0 _ _ F3) as [E3 _]. destruct (X_facts g0 _ _ F2) as (_ & Nd & _).
    pose proof (sd_len _ _ _ _ _ _ _ _ S2) as Le. pose proof (sd_o _ _ _ _ _ _ _ _ S2) as So. cbn [set_V eV] in So. unfold en, ep in *. rewrite O3 in E3. rewrite So, O1 in E2.
    rewrite (fs_e1 _ _ S3), EX in E3. rewrite E3 in E2. destruct (X (eV b) (N + c)) as [|x l]; [cbn [length] in Le; lia|]. destruct l as [|y l]; [cbn [length] in Le; lia|]. cbn [hd] in E2.
    apply NoDup_cons_iff in Nd. apply (proj1 Nd). rewrite E2. change (last (x :: y :: l) NIL) with (last (y :: l) NIL). apply last_in. discriminate. }
  assert (R3' : drel v c a (set_V b V2)).
  { apply (drel_trans g0 v c a (set_V a V)); [auto|]. apply (drel_trans g0 v c _ b); [apply (sd_rel _ _ _ _ _ _ _ _ S2)|auto]. }
  destruct (side_ok true v c g1 (set_V b V2) Hv Hc Ec H3 D3 A3) as (g2 & x2 & W2 & Q2); [| | | | | |exact (good_sedge g0 a _ (dr_edge _ _ _ _ _ R3') Gd0)|].
  { left. cbn [set_V eV]. pose proof (sd_len _ _ _ _ _ _ _ _ S2). destruct (fs_X _ _ S3 (N + c)) as [-> | ->]; rewrite ?rev_length; auto. }
  { cbn [set_V eV pe]. destruct (fs_X _ _ S3 (N + c)) as [-> | ->]; [apply (sd_last _ _ _ _ _ _ _ _ S2)|]. rewrite last_rev. apply (sd_hd _ _ _ _ _ _ _ _ S2). }
  { intros Eo. split; [|apply (covers_sim g0 c b V2 (d_geo _ _ _ _ _ D2) A2 (sd_cov _ _ _ _ _ _ _ _ S2 Eo) S3)]. cbn [set_V eV pe]. rewrite XR, hd_rev. apply (sd_last _ _ _ _ _ _ _ _ S2). }
  { intros _ Eo. cbn [set_V eV prl]. rewrite XR, last_rev. apply (sd_hdr _ _ _ _ _ _ _ _ S2 Eo). }
  { intros Gu. destruct (sd_more _ _ _ _ _ _ _ _ S2 Gu) as (M1 & M2 & M3). pose proof (fun y => fsim_act g0 _ _ y S3) as Ea. pose proof (fs_nb _ _ S3) as En.
    assert (HV : forall y, vat g0 v (set_V b V2) [] y <-> vat g0 v b [] y) by (intros y; apply vat_same; auto). assert (HT : forall y, tat g0 v (set_V b V2) [] y <-> tat g0 v b [] y) by (intros y; apply tat_same; auto).
    split; [apply (cinv_sim g0 EE v c b); auto; apply (gd_sym _ _ Gu)|]. split.
    - cbn [set_V eV]. rewrite XR. apply fine_rev. apply (fine_same g0 b (set_V b V2)); auto.
    - intros _. unfold Gd, short, NV, NT. rewrite HV, HT. cbn [set_V eV fw]. rewrite XR, last_rev, rev_length, En. exact M3. }
  { destruct (sd_u _ _ _ _ _ _ _ _ S2) as (M1 & M3 & M4). pose proof (fun y => fsim_act g0 _ _ y S3) as Ea. pose proof (fs_nb _ _ S3) as En.
    assert (HV : forall y, vat g0 v (set_V b V2) [] y <-> vat g0 v b [] y) by (intros y; apply vat_same; auto). assert (HT : forall y, tat g0 v (set_V b V2) [] y <-> tat g0 v b [] y) by (intros y; apply tat_same; auto).
    split; [apply (cinv_sim g0 anye v c b); auto using anye_sym|]. split.
    - intros _. unfold Gd, short, NV, NT. rewrite HV, HT. cbn [set_V eV fw]. rewrite XR, last_rev, rev_length, En. exact M3.
    - intros Eo. apply (PI_sim g0 v c b (set_V b V2)); auto; [apply (d_geo _ _ _ _ _ D2)|apply (act_root g0 _ _ A2)|apply A2]. }
  cbn [set_V eV] in W2. rewrite O3 in W2. cbn [b2z] in W2. rewrite W2. cbn [bind].
  destruct Q2 as [(-> & Ng & Is)|(-> & d & H4 & S4)]; [exists g2, C_NONEMBEDDABLE; split; [reflexivity|]; left; split; [auto|]; split; [auto|]; exact (isol_sedge g0 a _ g2 (dr_edge _ _ _ _ _ R3') Is)|]. cbn [C_OK Z.eqb negb].
  pose proof (sd_inv _ _ _ _ _ _ _ _ S4) as D4.
  assert (Rd : drel v c a d).
  { apply (drel_trans g0 v c a (set_V a V)); [auto|]. apply (drel_trans g0 v c _ b); [apply (sd_rel _ _ _ _ _ _ _ _ S2)|]. apply (drel_trans g0 v c _ (set_V b V2)); [auto|apply (sd_rel _ _ _ _ _ _ _ _ S4)]. }
  assert (Hd' : forall f c', In f (fw d v) -> via v c' (nb (eV d) f) -> In c' (c :: l2)).
  { intros f c' Hf Vf. apply (Hd f c'); [now apply (dr_fwv _ _ _ _ _ Rd)|]. now rewrite <- (dr_nb _ _ _ _ _ Rd v f Hf). }
  assert (Srt : forall c', In c' l2 -> c < c').
  { intros c' Hc'. pose proof (st_sorted _ _ St v) as S. rewrite Ek in S. apply ss_app_r in S. apply StronglySorted_inv in S. destruct S as [_ S]. rewrite Forall_forall in S. auto. }
  pose proof (k_N _ _ (r_keeps _ _ _ _ H4)) as KN. unfold GeoP.prim in Hv. unfold gp_GetVertexFwdArcList. rewrite vi_ok by lia. cbn [bind]. rewrite (r_fwhd _ _ _ _ H4 v) by lia.
  assert (Fin : (forall f, In f (fw d v) -> ~ via v c (nb (eV d) f)) -> exists b0, rp g2 b0 [] /\ dinv v c b0 /\ drel v c a b0 /\ (guard -> cinv v NIL b0) /\ cinvU v NIL b0 /\ forall f c', In f (fw b0 v) -> via v c' (nb (eV b0) f) -> In c' l2).
  { intros Hn. exists d. split; [auto|]. split; [auto|]. split; [auto|].
    split; [intros Gu; destruct (sd_more _ _ _ _ _ _ _ _ S4 Gu) as (M1 & _ & _ & M3); exact (cinv_restore g0 EE v c d M1 M3)|].
    split; [destruct (sd_u _ _ _ _ _ _ _ _ S4) as (M1 & M2 & _); apply (cinv_restore g0 anye v c d M1); cbn [finU] in M2; destruct M2 as [[[M2 _] [M3 _]]|[_ M2]]; [|exact M2]; right; right; unfold uact; rewrite Ec; auto|].
    intros f c' Hf Vf. destruct (Hd' f c' Hf Vf) as [<-|]; [|auto]. elim (Hn f Hf Vf). }
  destruct (fw d v) as [|e le] eqn:Ef; cbn [hd].
  { cbn [NIL Z.eqb]. exists g2, C_OK. split; [reflexivity|]. right. split; [reflexivity|]. apply Fin. intros f []. }
  pose proof (r_fwrange _ _ _ _ H4 v e ltac:(rewrite Ef; now left)) as Re. rewrite eqb_false_neq by (unfold NIL; lia).
  rewrite get_nbr by (unfold inE; lia). cbn [bind]. rewrite (r_nb _ _ _ _ H4).
  destruct (fo_via _ _ (d_fw _ _ _ _ _ D4) v e ltac:(rewrite Ef; now left)) as (ce & Ve & Nce).
  pose proof (Hd' e ce ltac:(now left) Ve) as Ice. pose proof (via_lt g0 kids St _ _ _ Ve) as Lce.
  assert (Lo : forall f, In f (e :: le) -> via v c (nb (eV d) f) -> ce = c).
  { intros f Hf Vf. rewrite <- Ef in Hf. assert (ce <= c) by (apply (fw_next v c ce f d (d_fw _ _ _ _ _ D4) Hf Vf); rewrite Ef; cbn [hd]; auto). destruct Ice as [|Ice]; [auto|]. specialize (Srt ce Ice). lia. }
  destruct Ice as [<-|Ice].
  - (* the component of c is blocked *)
    replace (c <? nb (eV d) e) with true by lia. rewrite (next_child _ _ _ _ kids v c l1 l2 H4 (st_kids _ _ St)) by (auto; lia). cbn [bind].
    assert (E : (hd NIL l2 =? NIL) || (nb (eV d) e <? hd NIL l2) = true).
    { destruct l2 as [|c2 l2]; [reflexivity|]. cbn [hd]. apply orb_true_iff. right. assert (K2 : In c2 (kids v)) by (rewrite Ek; apply in_app_iff; right; right; now left). apply (st_kid _ _ St) in K2. destruct K2 as (P2 & _ & E2).
      destruct Ve as (V1' & V2' & V3' & V4' & V5'). pose proof (st_sub _ _ St c c2 (nb (eV d) e) V1' P2 ltac:(congruence) Nv (Srt c2 (or_introl eq_refl)) V4' V5'). lia. }
    rewrite E. pose proof (sd_act _ _ _ _ _ _ _ _ S4) as A4. pose proof (good_sedge g0 a d (dr_edge _ _ _ _ _ Rd) Gd0) as Gd4.
    pose proof (d_geo _ _ _ _ _ D4) as G4.
    assert (L2 : (2 <= length (mem N (eV d) (N + c)))%nat).
    { destruct (full_of g0 _ _ G4 A4) as [_ F4]. destruct (X_facts g0 _ _ F4) as (_ & Xnd & Xin). pose proof (sd_len _ _ _ _ _ _ _ _ S4) as Le.
      enough (length (X (eV d) (N + c)) <= length (mem N (eV d) (N + c)))%nat by lia. apply NoDup_incl_length; [auto|]. intros z Hz. destruct (Xin z Hz) as [Z1 Z2]. unfold mem. apply filter_In.
      split; [unfold GeoP.prim in Z1; apply in_zrange; lia|]. rewrite Z2. lia. }
    destruct (block_ok g0 v d d g2 [] (N + c) (N + c) H4) as (g3 & W3 & I3); [congruence| | |].
    { intros Eo g3 H5. rewrite Z.eqb_refl in H5. pose proof (sd_hdr _ _ _ _ _ _ _ _ S4 Eo) as P1. pose proof (sd_lastr _ _ _ _ _ _ _ _ S4 eq_refl Eo) as P2.
      pose proof (sd_hd _ _ _ _ _ _ _ _ S4) as P3. pose proof (sd_last _ _ _ _ _ _ _ _ S4) as P4.
      pose proof (mem_cap g0 kids St g3 d [] NIL [] c [] H5 G4 A4 ltac:(constructor) ltac:(intros ? [])) as MC. pose proof (adj_cap g0 g3 d [] NIL [] (N + c) H5 G4 (proj2 (proj2 A4))) as AC. pose proof (st_cap _ _ St) as SC.
      cbn [length] in *. apply (iso_ok g0 kids St v c d c g3 [] [] (N + c)); auto.
      - rewrite Ec. constructor.
      - intros [Q|Q]; congruence.
      - intros [Q|Q]; congruence.
      - apply (pert_in g0 kids St v c d c e); auto; [lia|rewrite Ef; now left|apply Ve|unfold NIL; lia].
      - intros _. exact (sd_cov _ _ _ _ _ _ _ _ S4 Eo).
      - cbn [length]. lia.
      - cbn [length]. lia. }
    { intros Eo g3 H5. rewrite Z.eqb_refl in H5. destruct (sd_u _ _ _ _ _ _ _ _ S4) as (U1 & U2 & U3).
      pose proof (mem_cap g0 kids St g3 d [] NIL [] c [] H5 G4 A4 ltac:(constructor) ltac:(intros ? [])) as MC. pose proof (adj_cap2 g0 g3 d [] NIL [] (N + c) H5 G4 (proj1 Gd4) (proj2 (proj2 A4))) as AC. pose proof (st_cap _ _ St) as SC.
      assert (Ie : In e (fw d v)) by (rewrite Ef; now left).
      cbn [finU] in U2. destruct U2 as [[U2 U4]|[U2 _]]; [|exfalso; apply (U2 e Ie); apply Ve].
      cbn [length] in *. apply (kiso_ok g0 kids St v c d c g3 [] [] (N + c)); auto.
      - rewrite Ec. constructor.
      - destruct (lift_X g0 kids St anye d v c D4 U1 c v e) as (w & Hw & Lw); auto; [lia|apply Ve|]. exists w. split; [auto|]. exists e. auto.
      - cbn [length]. lia. }
    rewrite W3. exists g3, C_NONEMBEDDABLE. split; [reflexivity|]. left. split; [auto|]. split; [|exact (isol_sedge g0 a d g3 (dr_edge _ _ _ _ _ Rd) I3)].
    intros Gu. destruct (sd_more _ _ _ _ _ _ _ _ S4 Gu) as (_ & _ & M2 & _). apply (M2 e); [rewrite Ef; now left|]. apply Ve.
  - assert (K : exists b0, rp g2 b0 [] /\ dinv v c b0 /\ drel v c a b0 /\ (guard -> cinv v NIL b0) /\ cinvU v NIL b0 /\ forall f c', In f (fw b0 v) -> via v c' (nb (eV b0) f) -> In c' l2).
    { apply Fin. intros f Hf Vf. specialize (Lo f Hf Vf). specialize (Srt ce Ice). lia. }
    destruct (c <? nb (eV d) e); [|exists g2, C_OK; split; [reflexivity|auto]]. rewrite (next_child _ _ _ _ kids v c l1 l2 H4 (st_kids _ _ St)) by (auto; lia). cbn [bind].
    assert (E : (hd NIL l2 =? NIL) || (nb (eV d) e <? hd NIL l2) = false).
    { destruct l2 as [|c2 l2]; [contradiction|]. cbn [hd]. assert (K2 : In c2 (kids v)) by (rewrite Ek; apply in_app_iff; right; right; now left). apply (st_kid _ _ St) in K2. destruct K2 as (P2 & _).
      assert (c2 <= ce). { destruct Ice as [<-|Ice]; [lia|]. pose proof (st_sorted _ _ St v) as S. rewrite Ek in S. apply ss_app_r in S. apply StronglySorted_inv in S. destruct S as [S _]. apply StronglySorted_inv in S. destruct S as [_ S]. rewrite Forall_forall in S. specialize (S ce Ice). lia. }
      unfold GeoP.prim, NIL in *. lia. }
    rewrite E. exists g2, C_OK. split; [reflexivity|auto].
Qed.

(** ** All the children of a vertex *)
Lemma walkdowns_ok v : prim v -> forall n l1 l2 g a k, kids v = l1 ++ l2 -> (length l2 < n)%nat -> rp g a [] -> dinv v k a -> (forall c, In c l2 -> k < c) ->
  (forall f c', In f (fw a v) -> via v c' (nb (eV a) f) -> In c' l2) -> (forall f, In f (fw a v) -> exists c, via v c (nb (eV a) f) /\ prl a c <> []) -> (guard -> cinv v NIL a) -> cinvU v NIL a -> good g0 a ->
  exists g' x, walkdowns_loop n g v (hd NIL l2) = Ret (g', x) /\ (x = C_NONEMBEDDABLE /\ ~ guard /\ isol g0 a g' \/ x = C_OK /\ exists b k', rp g' b [] /\ dinv v k' b /\ (guard -> cinv v NIL b) /\ cinvU v NIL b /\
     fw b v = [] /\ (forall u, u <> v -> fw b u = fw a u) /\ vis b = vis a /\ sedge g0 a b).
Proof.
  intros Hv. induction n as [|n IH]; intros l1 l2 g a k Ek Hn H D Hk Hd Hc Mo Un Gd0; [lia|]. destruct l2 as [|c l2]; cbn [hd walkdowns_loop].
  - cbn [NIL Z.eqb]. exists g, C_OK. split; [reflexivity|]. right. split; [reflexivity|]. exists a, k. split; [auto|]. split; [auto|]. split; [auto|]. split; [auto|]. split; [|split; [auto|split; [auto|apply sedge_refl]]].
    destruct (fw a v) as [|f l] eqn:Ef; [auto|exfalso]. destruct (Hc f (or_introl eq_refl)) as (c & V & _). apply (Hd f c (or_introl eq_refl) V).
  - assert (Kc : In c (kids v)) by (rewrite Ek; apply in_app_iff; right; now left). apply (st_kid _ _ St) in Kc. destruct Kc as (Pc & _ & Ec). rewrite eqb_false_neq by (apply (prim_ne g0); auto).
    rewrite (roots_head _ _ _ _ _ H) by (unfold GeoP.prim in Pc; lia). cbn [bind]. rewrite (roots_hd g0) by (intros d; apply (prl_prim g0 kids v k a c d D)).
    assert (Srt : forall c', In c' l2 -> c < c').
    { intros c' Hc'. pose proof (st_sorted _ _ St v) as S. rewrite Ek in S. apply ss_app_r in S. apply StronglySorted_inv in S. destruct S as [_ S]. rewrite Forall_forall in S. auto. }
    assert (Ek2 : kids v = (l1 ++ [c]) ++ l2) by (rewrite Ek, <- app_assoc; reflexivity). cbn [length] in Hn. unfold gp_GetRootFromDFSChild. rewrite (k_N _ _ (r_keeps _ _ _ _ H)). replace (c + N) with (N + c) by lia.
    destruct (prl a c) as [|d l] eqn:Ep; cbn [isnil negb].
    + cbn [bind C_OK Z.eqb negb]. rewrite (next_child _ _ _ _ kids v c l1 l2 H (st_kids _ _ St)) by (auto; unfold GeoP.prim in Hv; lia). cbn [bind].
      apply (IH (l1 ++ [c]) l2 g a k); auto; [lia|intros; apply Hk; now right|]. intros f c' Hf Vf. destruct (Hd f c' Hf Vf) as [<-|]; [|auto]. exfalso. destruct (Hc f Hf) as (c2 & V2 & Np).
      rewrite <- (via_unique g0 kids St v c c2 _ Vf V2) in Np. congruence.
    + destruct (walkdown_ok v c l1 l2 g a k Hv Ek H D (Hk c (or_introl eq_refl)) ltac:(congruence) Hd Mo Un Gd0) as (g1 & x & W1 & Q). rewrite W1. cbn [bind].
      destruct Q as [(-> & Ng & Is)|(-> & b & H1 & D1 & R1 & Mo1 & Un1 & Hd1)]; [exists g1, C_NONEMBEDDABLE; split; [reflexivity|auto]|]. cbn [C_OK Z.eqb negb].
      rewrite (next_child _ _ _ _ kids v c l1 l2 H1 (st_kids _ _ St)) by (auto; unfold GeoP.prim in Hv; lia). cbn [bind].
      destruct (IH (l1 ++ [c]) l2 g1 b c Ek2 ltac:(lia) H1 D1 Srt Hd1) as (g2 & x & W2 & Q).
      { intros f Hf. pose proof (dr_fwv _ _ _ _ _ R1 f Hf) as Hfa. destruct (Hc f Hfa) as (c2 & V2 & Np). rewrite (dr_nb _ _ _ _ _ R1 v f Hf). exists c2. split; [auto|].
        assert (I2 : In c2 l2) by (apply (Hd1 f); [auto|rewrite (dr_nb _ _ _ _ _ R1 v f Hf); auto]). specialize (Srt c2 I2).
        destruct (prl a c2) as [|d2 m] eqn:E2; [congruence|]. assert (In d2 (prl b c2)) as I3.
        { apply (dr_prl _ _ _ _ _ R1); [rewrite E2; now left|]. intros A. destruct (anc_up g0 _ _ A ltac:(lia)) as [_ A']. destruct V2 as (V1 & V2 & _). rewrite V2 in A'.
          pose proof (anc_le g0 kids St _ _ Hv A'). destruct (EmbTree.Hp g0 kids St c Pc ltac:(rewrite Ec; apply (prim_ne g0); auto)). lia. }
        intros E. rewrite E in I3. destruct I3. }
      { exact Mo1. }
      { exact Un1. }
      { exact (good_sedge g0 a b (dr_edge _ _ _ _ _ R1) Gd0). }
      exists g2, x. split; [exact W2|]. destruct Q as [(Q1 & Q2 & Is)|(-> & e & k' & K1 & K2 & Mo2 & Un2 & K3 & K4 & K5 & K6)]; [left; split; [auto|]; split; [auto|]; exact (isol_sedge g0 a b g2 (dr_edge _ _ _ _ _ R1) Is)|]. right. split; [auto|]. exists e, k'. split; [auto|]. split; [auto|]. split; [auto|]. split; [auto|]. split; [auto|].
      split; [intros u Hu; rewrite K4, (dr_fw _ _ _ _ _ R1); auto|]. split; [rewrite K5; apply (dr_vis _ _ _ _ _ R1)|]. exact (sedge_trans _ _ _ _ (dr_edge _ _ _ _ _ R1) K6).
Qed.

(** ** One vertex *)
Record einv (v : Z) (a : est) : Prop := {
  ei_geo : geo NIL [] (eV a); ei_fw : fwok g0 a; ei_fpc : fpcok g0 kids v a; ei_pe : forall x, pe a x = NIL; ei_prl : forall x, prl a x = [];
  ei_act : actok g0 v v a; ei_keep : keep g0 (v + 1) a; ei_out : outer g0 (eV a); ei_done : forall u, v < u -> fw a u = []; ei_vis : (forall x, prim x -> v < vis a x) \/ fw a v = [] /\ forall x, prim x -> v <= vis a x;
  ei_more : guard -> emore v a; ei_u : EmbU.emore g0 anye v a }.
Lemma sedge_fsim a b : fsim (eV a) (eV b) -> fw b = fw a -> sedge g0 a b.
Proof.
  intros S E. constructor; rewrite ?(fs_nb _ _ S), ?(fs_fl _ _ S); auto. intros e. unfold arc. rewrite E, (fs_adj _ _ S). tauto.
Qed.
Lemma step_ok v g a : prim v -> rp g a [] -> einv v a -> good g0 a ->
  exists g' x, embed_step g v = Ret (g', x) /\ (x = C_NONEMBEDDABLE /\ ~ guard /\ isol g0 a g' \/ x = C_OK /\ exists b, rp g' b [] /\ einv (v - 1) b /\ fw b v = [] /\ sedge g0 a b).
Proof.
  intros Hv H I Gd0. pose proof Hv as Hv'. unfold GeoP.prim in Hv'. pose proof (k_N _ _ (r_keeps _ _ _ _ H)) as KN. unfold embed_step, gp_GetVertexFwdArcList. rewrite vi_ok by lia. cbn [bind]. rewrite (r_fwhd _ _ _ _ H v) by lia.
  assert (U0 : upst g0 v a).
  { constructor; try apply I. - intros z c Hc. rewrite (ei_prl _ _ I) in Hc. destruct Hc. - intros z c Hc. rewrite (ei_prl _ _ I) in Hc. destruct Hc. - intros z. rewrite (ei_prl _ _ I). constructor. }
  assert (P0 : peok v a) by (intros x Hx; rewrite (ei_pe _ _ I) in Hx; congruence).
  assert (exists g1 b, walkups_loop (efuel g) g v (hd NIL (fw a v)) = Ret g1 /\ rp g1 b [] /\ upst g0 v b /\ wrel v a b /\ peok v b /\
            (forall f, In f (fw b v) -> (exists c, via v c (nb (eV b) f) /\ prl b c <> []) /\ recd g0 v b (nb (eV b) f) /\ pe b (nb (eV b) f) = f) /\ forall x, prim x -> v <= vis b x) as (g1 & b & W1 & H1 & U1 & R1 & P1 & C1 & V1).
  { destruct (ei_vis _ _ I) as [Vi|[Ef Vi]].
    - destruct (walkups_ok g0 kids St v Hv (efuel g) [] (fw a v) g a [] H U0) as (g1 & b & K1 & K2 & K3 & K4 & K5 & K6); auto.
      + intros x Px E. specialize (Vi x Px). lia.
      + pose proof (r_fwnd _ _ _ _ H v) as Nd. assert (Ic : incl (fw a v) (zrange 2 (Z.to_nat (gCap g)))).
        { intros f Hf. pose proof (r_fwrange _ _ _ _ H v f Hf). unfold gp_EdgeIndexBound in *. apply in_zrange. lia. }
        pose proof (NoDup_incl_length Nd Ic) as L. rewrite zrange_length in L. unfold efuel, gp_EdgeIndexBound. lia.
      + intros f [].
      + exists g1, b. do 6 (split; [auto|]). intros x Px. destruct (wr_vis _ _ _ _ K4 x) as [E|E]; rewrite E; [specialize (Vi x Px); lia|lia].
    - rewrite Ef. cbn [hd]. exists g, a. split; [reflexivity|]. split; [auto|]. split; [auto|]. split; [constructor; auto; apply fsim_refl|]. split; [auto|]. split; [rewrite Ef; intros f []|exact Vi]. }
  rewrite W1. cbn [bind]. destruct (reset_roots_ok _ _ _ _ v H1 Hv') as (g2 & W2 & H2). rewrite W2. cbn [bind]. set (d := set_prl b (upd (prl b) v [])) in *.
  rewrite (kids_head _ _ _ _ kids v H2 (st_kids _ _ St) Hv'). cbn [bind]. rewrite (k_N _ _ (r_keeps _ _ _ _ H2)).
  pose proof (wr_sim _ _ _ _ R1) as S1. pose proof (wr_fw _ _ _ _ R1) as F1.
  assert (Dd : dinv v v d).
  { constructor.
    - apply (us_geo _ _ _ U1).
    - apply (fsim_via_fwok g0 b); [apply (us_fw _ _ _ U1)|apply fsim_refl|auto].
    - intros w Hw. destruct (ei_fpc _ _ I w Hw) as (l1 & l2 & K1 & K2 & K3). exists l1, l2. split; [auto|]. split; [cbn [d set_prl fpc]; rewrite (wr_fpc _ _ _ _ R1); auto|]. intros c Hc. cbn [d set_prl eV]. rewrite (fsim_act _ _ _ _ S1). auto.
    - exact P1.
    - intros z c. cbn [d set_prl prl eV fw]. unfold upd. destruct (Z.eqb_spec z v); [intros []|]. apply (us_prl _ _ _ U1).
    - cbn [d set_prl prl]. apply upd_same.
    - apply (us_act _ _ _ U1).
    - intros u f Hu. cbn [d set_prl eV fw]. apply (us_keep _ _ _ U1). lia.
    - apply (fsim_outer g0 kids St (eV a)); [apply (ei_geo _ _ I)|apply (ei_out _ _ I)|exact S1].
    - intros f Hf. cbn [d set_prl eV fw pe] in *. destruct (C1 f Hf) as (_ & Rc & Pe). split; [auto|]. intros y Ay An Ly. cbn [d set_prl prl eV] in *. rewrite upd_other; [apply (Rc y Ay An Ly)|]. lia. }
  assert (Sd : sedge g0 a d) by (apply sedge_fsim; [exact S1|exact F1]).
  destruct (walkdowns_ok v Hv (S (S (Z.to_nat N))) [] (kids v) g2 d v) as (g3 & x & W3 & Q); auto.
  - pose proof (kids_len g0 kids St v). lia.
  - intros c Hc. apply (st_kid _ _ St) in Hc. destruct Hc as (Pc & _ & Ec). destruct (EmbTree.Hp g0 kids St c Pc ltac:(rewrite Ec; apply (prim_ne g0); auto)). lia.
  - intros f c' _ (K1 & K2 & K3 & _). apply (st_kid _ _ St). auto.
  - intros f Hf. cbn [d set_prl eV fw prl] in *. destruct (C1 f Hf) as ((c & Vc & Nc) & _). exists c. split; [auto|]. rewrite upd_other; [auto|]. pose proof (via_lt g0 kids St _ _ _ Vc). lia.
  - intros Gu. apply (emore_cinv g0 EE v a); [apply (ei_more _ _ I Gu)|apply (gd_sym _ _ Gu)|exact S1|exact F1| | | |].
    + intros f Hf. cbn [d set_prl eV fw pe] in *. destruct (C1 f Hf) as (_ & Rc & Pe). split; [auto|]. intros y Ay An Ly. cbn [d set_prl prl eV] in *. rewrite upd_other; [apply (Rc y Ay An Ly)|]. lia.
    + intros z. cbn [d set_prl prl]. unfold upd. destruct (z =? v); [constructor|apply (us_ord _ _ _ U1)].
    + intros u f Hu. cbn [d set_prl eV fw]. apply (us_keep _ _ _ U1). lia.
    + intros u Hu. cbn [d set_prl fw]. rewrite F1. apply (ei_done _ _ I). lia.
  - apply (emore_cinv g0 anye v a); [apply (ei_u _ _ I)|exact anye_sym|exact S1|exact F1| | | |].
    + intros f Hf. cbn [d set_prl eV fw pe] in *. destruct (C1 f Hf) as (_ & Rc & Pe). split; [auto|]. intros y Ay An Ly. cbn [d set_prl prl eV] in *. rewrite upd_other; [apply (Rc y Ay An Ly)|]. lia.
    + intros z. cbn [d set_prl prl]. unfold upd. destruct (z =? v); [constructor|apply (us_ord _ _ _ U1)].
    + intros u f Hu. cbn [d set_prl eV fw]. apply (us_keep _ _ _ U1). lia.
    + intros u Hu. cbn [d set_prl fw]. rewrite F1. apply (ei_done _ _ I). lia.
  - exact (good_sedge g0 a d Sd Gd0).
  - exists g3, x. split; [exact W3|]. destruct Q as [(Q1 & Q2 & Is)|(-> & e & k' & K1 & K2 & Mo2 & Un2 & K3 & K4 & K5 & K6)]; [left; split; [auto|]; split; [auto|]; exact (isol_sedge g0 a d g3 Sd Is)|]. right. split; [auto|]. exists e. split; [auto|].
    assert (FE : forall u, v <= u -> fw e u = []).
    { intros u Hu. destruct (Z.eq_dec u v) as [->|Ne]; [auto|]. rewrite K4 by auto. cbn [d set_prl fw]. rewrite F1. apply (ei_done _ _ I). lia. }
    split; [|split; [auto|]].
    + constructor.
      * apply (d_geo _ _ _ _ _ K2).
      * apply (d_fw _ _ _ _ _ K2).
      * intros w Hw. destruct (d_fpc _ _ _ _ _ K2 w Hw) as (l1 & l2 & J1 & J2 & J3). exists l1, l2. split; [auto|]. split; [auto|]. intros c Hc. destruct (J3 c Hc); [auto|]. right. lia.
      * intros y. destruct (Z.eq_dec (pe e y) NIL) as [|Ne]; [auto|]. destruct (d_pe _ _ _ _ _ K2 y Ne) as [J _]. rewrite K3 in J. destruct J.
      * intros y. destruct (prl e y) as [|c l] eqn:E; [auto|]. destruct (d_prl _ _ _ _ _ K2 y c) as (_ & _ & _ & f & J & _); [rewrite E; now left|]. rewrite K3 in J. destruct J.
      * intros y J1 J2 J3. apply (d_act _ _ _ _ _ K2 y J1 J2). lia.
      * replace (v - 1 + 1) with v by lia. apply (d_keep _ _ _ _ _ K2).
      * apply (d_out _ _ _ _ _ K2).
      * intros u Hu. apply FE. lia.
      * left. intros y Py. rewrite K5. cbn [d set_prl vis]. specialize (V1 y Py). lia.
      * intros Gu. apply cinv_emore. auto.
      * apply cinv_emore. auto.
    + exact (sedge_trans g0 a d e Sd K6).
Qed.

(** ** All the vertices *)
Lemma eloop_ok n : forall v g a, v = Z.of_nat n -> v <= N -> rp g a [] -> einv v a -> good g0 a ->
  exists g' x, embed_loop n g v = Ret (g', x) /\ (x = C_NONEMBEDDABLE /\ ~ guard /\ isol g0 a g' \/ x = C_OK /\ exists b, rp g' b [] /\ einv 0 b /\ (forall u, fw b u = []) /\ sedge g0 a b).
Proof.
  induction n as [|n IH]; intros v g a Ev Lv H I Gd0; cbn [embed_loop].
  - exists g, C_OK. split; [reflexivity|]. right. split; [reflexivity|]. exists a. subst v. split; [auto|]. split; [auto|]. split; [|apply sedge_refl].
    intros u. destruct (Z_lt_dec 0 u); [now apply (ei_done _ _ I)|]. apply (r_fwout _ _ _ _ H). lia.
  - assert (Pv : prim v) by (unfold GeoP.prim; lia). destruct (step_ok v g a Pv H I Gd0) as (g1 & x & W1 & Q). rewrite W1. cbn [bind].
    destruct Q as [(-> & Ng & Is)|(-> & b & H1 & I1 & _ & S1)]; [exists g1, C_NONEMBEDDABLE; split; [reflexivity|auto]|]. cbn [C_OK Z.eqb negb].
    destruct (IH (v - 1) g1 b ltac:(lia) ltac:(lia) H1 I1 (good_sedge g0 a b S1 Gd0)) as (g2 & x & W2 & Q). exists g2, x. split; [exact W2|]. destruct Q as [(Q1 & Q2 & Is)|(-> & d & K1 & K2 & K3 & K4)]; [left; split; [auto|]; split; [auto|]; exact (isol_sedge g0 a b g2 S1 Is)|]. right. split; [auto|].
    exists d. split; [auto|]. split; [auto|]. split; [auto|]. exact (sedge_trans _ _ _ _ S1 K4).
Qed.
End Loop.
