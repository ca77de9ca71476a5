(** * PlV3: the external face of a component while the components of a descent are merged into it. *)
From Coq Require Import ZifyBool Permutation.
From Verif Require Import Base BaseP GraphRec GraphM GraphSpec GSimp LinkP GraphP GraphP2 ListM ListSpec ListP DFSM DFSSpec TestSpec TestP TestP3 EmbM EmbSpec EmbP FaceP FanP GeoP GeoP2 EmbInv EmbStep EmbTree EmbWalk EmbFan EmbUp EmbJoin PlV PlV2.

Section V3.
Variables (g0 : graph) (kids : Z -> list Z).
Hypothesis St : static g0 kids.
Local Notation N := (gN g0).
Local Notation p := (viParent (gVI g0)).
Local Notation prim := (prim (gN g0)).
Local Notation isroot := (isroot (gN g0)).
Local Notation geo := (geo (gN g0) (viParent (gVI g0))).
Local Notation geob := (geob (gN g0) (viParent (gVI g0))).
Local Notation act := (act g0).
Local Notation fsim := (fsim g0).
Local Notation vsof := (vsof (gN g0)).
Local Notation inc := (inc (gN g0)).
Local Notation oface := (oface (gN g0)).
Local Notation iface := (iface (gN g0)).
Local Notation ov := (ov (gN g0)).
Local Notation chain := (chain g0).

(** The vertices of the external face of the component of R, from its root on. *)
Definition Lw (s : gv) (R : Z) (L : list Z) : Prop := exists F, oface s R F /\ tl (map (src s) F) = L.
Definition ofx (T : Z) (s : gv) : Prop := forall D, isroot D -> adj s D <> [] -> D <> T -> exists F, oface s D F.
Lemma Lw_uniq s R L L' : Lw s R L -> Lw s R L' -> L = L'.
Proof. intros (F & O & <-) (F' & O' & <-). now rewrite (oface_uniq _ _ _ _ _ O O'). Qed.
Lemma closed_of C xs s R : geo C xs s -> isroot R -> adj s R <> [] -> forall x f, In x (vsof s R) -> In f (adj s x) -> In (nb s f) (vsof s R).
Proof. intros G HR NR x f Hx Hf. apply (arc_comp N p _ _ _ _ _ _ G HR NR Hx Hf). Qed.
Lemma X_sub s R F : geob s -> full N s R -> isroot R -> oface s R F -> sub (X s R) (tl (map (src s) F)).
Proof.
  intros G [(pre & segs & FS & H) _ _ _] HR O. pose proof (h_pc _ _ _ _ _ _ _ H) as Pc. pose proof (h_pre _ _ _ _ _ _ _ H) as [Hp1 Hp2].
  assert (E : F = pre ++ concat segs).
  { apply (fclosed_uniq (stp s)); [apply O|apply (pc_closed _ _ _ _ Pc); now left|rewrite (of_hd _ _ _ _ O), hd_app; auto|apply O|]. pose proof (pc_nodup _ _ _ _ Pc) as Nd. cbn [concat] in Nd. now apply NoDup_app_l in Nd. }
  rewrite E. destruct pre as [|q pre]; [congruence|]. cbn [app map tl]. rewrite map_app. change (X s R) with ([] ++ X s R). apply sub_app; [constructor|].
  pose proof (h_segs _ _ _ _ _ _ _ H) as Sg. pose proof (h_in _ _ _ _ _ _ _ H) as Hi. pose proof (h_arcs _ _ _ _ _ _ _ H) as Ha.
  assert (K : forall x, In x (X s R) -> adj s x <> []) by (intros x Hx; apply Ha, in_vsof; right; now apply Hi). clear - Sg K G.
  revert K. induction Sg as [|x l xs segs S1 Sg IH]; intros K; [constructor|]. cbn [concat]. rewrite map_app. change (x :: xs) with ([x] ++ xs). apply sub_app; [|apply IH; intros; apply K; now right].
  destruct S1 as [Nl Hl]. destruct l as [|e l]; [congruence|]. cbn [hd] in Hl. cbn [map]. replace (src s e) with x; [apply sub_take; constructor|]. symmetry. apply (arc_src _ _ _ _ _ G). rewrite Hl. apply in_rot, hd_in, rot_ne, K. now left.
Qed.

(** ** Descents *)
Fixpoint lc (a : est) (Root : Z) (fr : list (Z * Z)) : Prop :=
  match fr with
  | [] => True
  | (z, R) :: r => isroot R /\ adj (eV a) R <> [] /\ prim z /\ B (eV a) z = hd Root (map snd r) /\ ~ In R (Root :: map snd r) /\ In z (X (eV a) (B (eV a) z)) /\ lc a Root r
  end.
Lemma chain_lc a C xs Root c P Q : Root = N + c -> isroot Root -> prim c -> geo C xs (eV a) -> forall fr W, prim W -> chain a Root W fr P Q -> lc a Root fr.
Proof.
  intros ER HR Pc G. induction fr as [|[z R] fr IH]; intros W PW Ch; [exact I|]. pose proof (chain_lt g0 kids St _ _ _ _ _ _ _ G HR W Ch) as (L1 & L2 & L3).
  cbn [EmbJoin.chain] in Ch. destruct Ch as (C1 & (l & C2) & (d & D1 & D2 & D3 & D4) & C4). destruct (L3 z R (or_introl eq_refl)) as (Pz & HRR & Bz). pose proof (chain_top g0 _ _ _ _ _ _ _ _ G HR C4) as Tp.
  cbn [lc]. split; [auto|]. split; [rewrite D1; apply D2|]. split; [auto|]. split; [auto|]. split; [|split].
  - intros [E|E].
    + specialize (L1 R (or_introl eq_refl)). lia.
    + cbn [map snd] in L2. apply NoDup_cons_iff in L2. tauto.
  - rewrite Tp. destruct fr as [|[z' R'] fr]; cbn [map snd hd].
    + destruct C4 as [_ ->]. apply in_app_iff. right. now left.
    + destruct C4 as (_ & (l' & ->) & _). now left.
  - now apply (IH z).
Qed.
Fixpoint comb (a : est) (fr : list (Z * Z)) (U2 V2 U V : list Z) : Prop :=
  match fr with
  | [] => U = U2 /\ V = V2
  | (z, _) :: r => exists U1 V1, Lw (eV a) (B (eV a) z) (U1 ++ z :: V1) /\ comb a r (U1 ++ z :: U2) (V2 ++ z :: V1) U V
  end.
Lemma comb_ext a b fr : (forall z R, In (z, R) fr -> B (eV b) z = B (eV a) z) -> (forall z R L, In (z, R) fr -> Lw (eV b) (B (eV a) z) L -> Lw (eV a) (B (eV a) z) L) ->
  forall U2 V2 U V, comb b fr U2 V2 U V -> comb a fr U2 V2 U V.
Proof.
  induction fr as [|[z R] fr IH]; intros HB HL U2 V2 U V K; [exact K|]. destruct K as (U1 & V1 & K1 & K2). rewrite (HB z R (or_introl eq_refl)) in K1.
  exists U1, V1. split; [eapply HL; [now left|exact K1]|]. apply IH; auto; [intros; eapply HB; right; eauto|intros; eapply HL; [right; eauto|auto]].
Qed.
Lemma lc_low a Root fr : lc a Root fr -> forall z R, In (z, R) fr -> In (B (eV a) z) (Root :: map snd fr) /\ B (eV a) z <> hd Root (map snd fr) /\ prim z.
Proof.
  induction fr as [|[z R] fr IH]; intros H z' R' Hi; [destruct Hi|]. cbn [lc] in H. destruct H as (H1 & H2 & H3 & H4 & H5 & H6 & H7). cbn [map snd hd]. destruct Hi as [E|Hi].
  - injection E as <- <-. split; [|split; [|auto]].
    + rewrite H4. destruct fr as [|[z2 R2] fr]; cbn [map snd hd In]; auto.
    + rewrite H4. intros E. apply H5. rewrite <- E. destruct fr as [|[z2 R2] fr]; cbn [map snd hd In]; auto.
  - destruct (IH H7 z' R' Hi) as (I1 & I2 & I3). split; [|split; [|auto]].
    + destruct I1 as [I1|I1]; [now left|right; now right].
    + intros E. apply H5. now rewrite <- E.
Qed.

Lemma mseq_ov Root : isroot Root -> forall fr a b W pre2 suf2,
  lc a Root fr -> mseq g0 kids a fr b -> adj (eV a) Root <> [] -> ofx (hd Root (map snd fr)) (eV a) -> ov (eV a) (hd Root (map snd fr)) pre2 suf2 -> src (eV a) (hd NIL suf2) = W ->
  exists pre suf, ov (eV b) Root pre suf /\ src (eV b) (hd NIL suf) = W /\
    comb a fr (tl (map (src (eV a)) pre2)) (map (src (eV a)) suf2) (tl (map (src (eV b)) pre)) (map (src (eV b)) suf) /\ ofx Root (eV b) /\
    (forall r F, iface (eV a) Root r F -> In r (adj (eV a) Root) -> r <> hd NIL (rot (eV a) Root) -> iface (eV b) Root r F /\ map (src (eV b)) F = map (src (eV a)) F) /\ rot (eV b) Root = rot (eV a) Root.
Proof.
  intros HR. induction fr as [|[z R] fr IH]; intros a b W pre2 suf2 Lc Ms NR Ox V EW.
  - cbn [mseq] in Ms. subst b. cbn [map hd] in *. exists pre2, suf2. split; [auto|]. split; [auto|]. split; [split; auto|]. split; [auto|]. split; [auto|reflexivity].
  - cbn [mseq] in Ms. destruct Ms as (xs & a1 & G & M & Ms). pose proof (lc_low a Root _ Lc) as Low. cbn [lc] in Lc. destruct Lc as (H1 & H2 & H3 & H4 & H5 & H6 & H7). cbn [map snd hd] in *. set (C' := B (eV a) z) in *. pose proof (g_base _ _ _ _ _ G) as G0.
    assert (IC : In C' (Root :: map snd fr)) by (rewrite H4; destruct fr as [|[z2 R2] fr]; cbn [map snd hd In]; auto).
    assert (NCR : C' <> R) by (intros E; rewrite E in IC; contradiction). assert (RR : Root <> R) by (intros E; apply H5; now left).
    assert (Hall : forall a fr, lc a Root fr -> forall D, In D (map snd fr) -> isroot D /\ adj (eV a) D <> []).
    { clear. intros a fr. induction fr as [|[z R] fr IH]; intros H D Hd; [destruct Hd|]. cbn [lc] in H. cbn [map snd In] in Hd. destruct Hd as [<-|Hd]; [tauto|]. apply IH; tauto. }
    assert (HC : isroot C' /\ adj (eV a) C' <> []) by (destruct IC as [<-|IC]; [auto|now apply (Hall a fr)]). destruct HC as [HC NC].
    pose proof (g_full _ _ _ _ _ G C' HC NC NCR) as Fu. destruct (Ox C' HC NC NCR) as [F OF]. pose proof (X_sub _ _ _ G0 Fu HC OF) as XS. pose proof (sub_in _ _ _ XS H6) as Iz.
    assert (NZ : adj (eV a) z <> []). { destruct (f_half _ _ _ Fu) as (q1 & q2 & q3 & Hh). apply (h_arcs _ _ _ _ _ _ _ Hh). apply in_vsof. auto. }
    assert (exists pre1 suf1, F = pre1 ++ suf1 /\ pre1 <> [] /\ suf1 <> [] /\ src (eV a) (hd NIL suf1) = z) as (pre1 & suf1 & EF & N1 & N2 & Ez).
    { destruct F as [|q F]; [destruct Iz|]. cbn [map tl] in Iz. apply in_map_iff in Iz. destruct Iz as (e & E1 & E2). apply in_split in E2. destruct E2 as (l1 & l2 & ->). exists (q :: l1), (e :: l2). cbn [hd]. split; [reflexivity|]. split; [discriminate|]. split; [discriminate|auto]. }
    rewrite EF in OF. destruct (mg_ov g0 kids a a1 R C' z xs G M H1 HC NCR H2 NC H3 eq_refl NZ pre1 suf1 pre2 suf2 OF N1 N2 Ez V) as (V' & M1 & M2 & M3 & M4).
    assert (Adj : forall D, isroot D -> D <> R -> adj (eV a1) D = adj (eV a) D) by (intros D HD ND; apply (mr_adj _ _ _ _ _ _ _ M); [unfold GeoP.prim, GeoP.isroot in *; lia|auto]).
    assert (Ag : forall D, isroot D -> adj (eV a) D <> [] -> D <> R -> D <> C' -> agree N (eV a) (eV a1) D) by (intros; apply (mg_agree g0 kids a a1 R C' z xs); auto).
    assert (Lag : forall D, isroot D -> adj (eV a) D <> [] -> D <> R -> D <> C' -> forall F', oface (eV a) D F' -> oface (eV a1) D F' /\ map (src (eV a1)) F' = map (src (eV a)) F').
    { intros D HD ND D1 D2 F' OF'. pose proof (closed_of _ _ _ _ G HD ND) as Cl. split; [apply (ag_oface N p (eV a)); auto|]. apply (ag_map N p (eV a) (eV a1) D); auto; apply OF'. }
    assert (B1 : forall z' R', In (z', R') fr -> B (eV a1) z' = B (eV a) z').
    { intros z' R' Hi. destruct (Low z' R' (or_intror Hi)) as (_ & L2 & _). rewrite (mr_B _ _ _ _ _ _ _ M). now rewrite eqb_false_neq. }
    assert (Lc1 : lc a1 Root fr).
    { assert (K : forall fr', (forall z' R', In (z', R') fr' -> In (z', R') fr) -> lc a Root fr' -> lc a1 Root fr').
      { induction fr' as [|[z2 R2] fr' IH']; intros Hin H; [exact I|]. cbn [lc] in *. destruct H as (J1 & J2 & J3 & J4 & J5 & J6 & J7). rewrite (B1 z2 R2) by (apply Hin; now left). rewrite (mr_X _ _ _ _ _ _ _ M).
        split; [auto|]. split; [rewrite Adj; auto; intros ->; apply H5; right; apply in_map_iff; exists (z2, R); split; [reflexivity|apply Hin; now left]|]. do 4 (split; [auto|]). apply IH'; [intros; apply Hin; now right|auto]. }
      apply K; auto. }
    destruct (IH a1 b W (pre1 ++ pre2) (suf2 ++ suf1)) as (pre & suf & I1 & I2 & I3 & I4 & I5 & I6).
    + exact Lc1.
    + exact Ms.
    + rewrite Adj; auto.
    + rewrite <- H4. intros D HD ND D2. assert (D1 : D <> R) by (intros ->; now rewrite (mr_adjR _ _ _ _ _ _ _ M) in ND). rewrite Adj in ND by auto. destruct (Ox D HD ND D1) as [F' OF']. exists F'. now apply Lag.
    + rewrite <- H4. exact V'.
    + rewrite hd_app by (apply (ov_ne _ _ _ _ _ V)). pose proof (ov_ne _ _ _ _ _ V) as N4. destruct suf2 as [|q suf2]; [congruence|]. cbn [hd map] in *. injection M3 as M3 _. congruence.
    + exists pre, suf. split; [auto|]. split; [auto|]. split; [|split; [auto|split]].
      * cbn [comb]. exists (tl (map (src (eV a)) pre1)), (tl (map (src (eV a)) suf1)). fold C'. split.
        -- exists (pre1 ++ suf1). split; [auto|]. rewrite map_app. destruct pre1 as [|q pre1]; [congruence|]. destruct suf1 as [|q1 suf1]; [congruence|]. cbn [hd map tl app] in *. now rewrite Ez.
        -- apply (comb_ext a a1).
           ++ exact B1.
           ++ intros z' R' L Hi (F' & O' & E'). destruct (Low z' R' (or_intror Hi)) as (L1 & L2 & _). assert (L3 : B (eV a) z' <> C') by (rewrite H4; apply (lc_low a Root fr H7 z' R' Hi)).
              assert (HB : isroot (B (eV a) z') /\ adj (eV a) (B (eV a) z') <> []).
              { destruct L1 as [<-|[L1|L1]]; [auto|congruence|now apply (Hall a fr)]. }
              destruct HB as [HB NB]. destruct (Ox _ HB NB L2) as [F2 O2]. destruct (Lag _ HB NB L2 L3 F2 O2) as [O3 E3]. pose proof (oface_uniq _ _ _ _ _ O' O3) as ->. exists F2. split; [auto|]. now rewrite <- E3.
           ++ rewrite !map_app, M1, M2, M3, M4 in I3. destruct pre1 as [|q pre1]; [congruence|]. destruct suf1 as [|q1 suf1]; [congruence|]. cbn [hd map tl app] in *. rewrite Ez in I3. exact I3.
      * intros r F' If Hr Nr. assert (Er : rot (eV a1) Root = rot (eV a) Root) by (apply (mg_rot g0 kids a a1 R C' z M); [unfold GeoP.prim, GeoP.isroot in *; lia|auto]).
        assert (J : iface (eV a1) Root r F' /\ map (src (eV a1)) F' = map (src (eV a)) F').
        { destruct (Z.eq_dec Root C') as [E|E].
          - rewrite E in *. apply (mg_iface g0 kids a a1 R C' z xs G M H1 HC NCR H2 H3 NZ (pre1 ++ suf1)); auto. rewrite <- EF. destruct F; [destruct Iz|]. right. exact Iz.
          - pose proof (closed_of _ _ _ _ G HR NR) as Cl. pose proof (Ag Root HR NR RR E) as A. split; [apply (ag_iface N p (eV a)); auto|]. apply (ag_map N p (eV a) (eV a1) Root); auto; apply If. }
        destruct J as [J1 J2]. destruct (I5 r F' J1) as [J3 J4]; [rewrite Adj; auto|rewrite Er; auto|]. split; [auto|]. now rewrite J4.
      * rewrite I6. apply (mg_rot g0 kids a a1 R C' z M); [unfold GeoP.prim, GeoP.isroot in *; lia|auto].
Qed.

(** ** The same arcs *)
Lemma ofx_ext T s t : geo NIL [] s -> nb t = nb s -> adj t = adj s -> o t = o s -> B t = B s -> ofx T s -> ofx T t.
Proof.
  intros G E1 E2 E3 E4 O D HD ND DT. rewrite E2 in ND. destruct (O D HD ND DT) as [F OF]. exists F. apply (ag_oface N p s); auto; [apply (g_base _ _ _ _ _ G)|apply (closed_of _ _ _ _ G HD ND)|].
  constructor; intros; rewrite ?E1, ?E2, ?E3; auto. unfold mem. now rewrite E4.
Qed.
Lemma ofx_sim T s t : geo NIL [] s -> fsim s t -> ofx T s -> ofx T t.
Proof.
  intros G S O D HD ND DT. rewrite (fs_adj _ _ S) in ND. destruct (O D HD ND DT) as [F OF]. pose proof (closed_of _ _ _ _ G HD ND) as Cl. pose proof (g_base _ _ _ _ _ G) as G0. destruct (fs_o _ _ S D HD) as [[_ E]|[_ E]].
  - exists F. apply (ag_oface N p s); auto. constructor; intros; rewrite ?(fs_nb _ _ S), ?(fs_adj _ _ S); auto. unfold mem. now rewrite (fs_B _ _ S).
  - exists (mirror F). apply (mi_oface N p s); auto; [apply (fs_nb _ _ S)|apply (fs_adj _ _ S)|apply (fs_B _ _ S)].
Qed.

(** ** Merging the components of a descent and adding an edge *)
Definition emface (s : gv) (cb : list Z -> list Z -> list Z -> list Z -> Prop) (t : gv) (Root W : Z) : Prop :=
  exists U0 V0 U V F f, Lw s (B s W) (U0 ++ W :: V0) /\ cb U0 (W :: V0) U V /\ Lw t Root V /\
    iface t Root (hd NIL (rot s Root)) F /\ tl (map (src t) F) = U ++ [W] /\ rot t Root = f :: rot s Root /\
    (forall r F', iface s Root r F' -> In r (adj s Root) -> r <> hd NIL (rot s Root) -> iface t Root r F' /\ map (src t) F' = map (src s) F').
Lemma embed_faces a a1 a2 Root W fr Q' f v l1 l2 : geo NIL [] (eV a) -> isroot Root -> adj (eV a) Root <> [] -> lc a Root fr -> mseq g0 kids a fr a1 -> geo Root (W :: Q') (eV a1) ->
  embed_rel a1 a2 Root W Q' f v l1 l2 -> ofx NIL (eV a) -> prim W -> B (eV a) W = hd Root (map snd fr) -> In W (X (eV a) (B (eV a) W)) -> B (eV a1) W = Root -> nb (eV a1) f = W ->
  (forall x, ~ In f (adj (eV a1) x) /\ ~ In (twin f) (adj (eV a1) x)) ->
  emface (eV a) (comb a fr) (eV a2) Root W /\ ofx NIL (eV a2).
Proof.
  intros G HR NR Lc Ms G1 E Ox PW BW XW B1 Nf Fr. pose proof (g_base _ _ _ _ _ G) as G0. set (T := hd Root (map snd fr)) in *. rewrite BW in *.
  assert (HT : isroot T /\ adj (eV a) T <> []) by (unfold T; destruct fr as [|[z R] fr]; cbn [map snd hd]; [auto|cbn [lc] in Lc; tauto]). destruct HT as [HT NT].
  assert (NTn : forall D, isroot D -> D <> NIL) by (intros D HD; unfold GeoP.isroot, GeoP.prim, NIL in *; lia).
  destruct (Ox T HT NT (NTn _ HT)) as [F0 O0]. pose proof (g_full _ _ _ _ _ G T HT NT (NTn _ HT)) as Fu. pose proof (sub_in _ _ _ (X_sub _ _ _ G0 Fu HT O0) XW) as Iz.
  assert (exists pre2 suf2, F0 = pre2 ++ suf2 /\ pre2 <> [] /\ suf2 <> [] /\ src (eV a) (hd NIL suf2) = W) as (pre2 & suf2 & EF & N1 & N2 & Ez).
  { destruct F0 as [|q F]; [destruct Iz|]. cbn [map tl] in Iz. apply in_map_iff in Iz. destruct Iz as (e & E1 & E2). apply in_split in E2. destruct E2 as (l3 & l4 & ->). exists (q :: l3), (e :: l4). cbn [hd]. split; [reflexivity|]. split; [discriminate|]. split; [discriminate|auto]. }
  rewrite EF in O0. pose proof (oface_ov N p _ _ _ _ G0 NT N1 N2 O0) as V0.
  destruct (mseq_ov Root HR fr a a1 W pre2 suf2 Lc Ms NR ltac:(intros D HD ND _; apply Ox; auto) V0 Ez) as (pre & suf & V1 & EW & K1 & K2 & K3 & K4).
  assert (NR1 : adj (eV a1) Root <> []) by (intros Q; apply NR; destruct (adj (eV a) Root) as [|x l] eqn:Ea; [auto|exfalso]; assert (I : In x (rot (eV a) Root)) by (apply in_rot; rewrite Ea; now left); rewrite <- K4 in I; apply in_rot in I; rewrite Q in I; destruct I).
  assert (NW : adj (eV a1) W <> []). { destruct (g_half _ _ _ _ _ G1 HR) as (q1 & q2 & q3 & Hh). apply (h_arcs _ _ _ _ _ _ _ Hh). apply in_vsof. auto. }
  destruct (eb_faces g0 kids a1 a2 Root W f v (W :: Q') Q' l1 l2 G1 E HR NR1 PW B1 NW Nf Fr pre suf V1 EW) as (J1 & J2 & J3 & J4). rewrite K4 in J2.
  assert (Npre : pre <> []) by (apply (ov_pre _ _ _ _ _ V1)).
  split.
  2:{ intros D HD ND _. destruct (Z.eq_dec D Root) as [->|Ne]; [eauto|]. assert (ND1 : adj (eV a1) D <> []).
    { intros Q. destruct (adj (eV a2) D) as [|e l] eqn:Ea; [congruence|]. assert (In e (adj (eV a2) D)) as He by (rewrite Ea; now left). apply (er_in _ _ _ _ _ _ _ _ _ E) in He. rewrite Q in He. destruct He as [[]|[[Q1 _]|[Q1 _]]]; [congruence|]. unfold GeoP.prim, GeoP.isroot in *. lia. }
    destruct (K2 D HD ND1 Ne) as [F' O']. exists F'. apply (ag_oface N p (eV a1)); auto; [apply (g_base _ _ _ _ _ G1)|apply (closed_of _ _ _ _ G1 HD ND1)|]. apply (eb_agree g0 a1 a2 Root W f v Q' l1 l2); auto. }
  exists (tl (map (src (eV a)) pre2)), (tl (map (src (eV a)) suf2)), (tl (map (src (eV a1)) pre)), (map (src (eV a1)) suf), (pre ++ [twin f]), f. rewrite BW.
  split. { exists (pre2 ++ suf2). split; [auto|]. rewrite map_app. destruct pre2 as [|q pre2]; [congruence|]. destruct suf2 as [|q1 suf2]; [congruence|]. cbn [hd map tl app] in *. now rewrite Ez. }
  split. { destruct suf2 as [|q1 suf2]; [congruence|]. cbn [hd map tl] in *. rewrite Ez in K1. exact K1. }
  split. { exists (f :: suf). split; [auto|]. rewrite J3. reflexivity. }
  split; [auto|]. split; [rewrite J4; destruct pre; [congruence|reflexivity]|]. split; [rewrite (er_rot _ _ _ _ _ _ _ _ _ E), Z.eqb_refl; now rewrite K4|].
  intros r F' If Hr Nr. destruct (K3 r F' If Hr Nr) as [I1 I2]. destruct (eb_iface g0 kids a1 a2 Root W f v (W :: Q') Q' l1 l2 G1 E HR NR1 PW NW Fr pre suf r F' V1 EW I1) as [I3 I4].
  - apply in_rot. rewrite K4. now apply in_rot.
  - now rewrite K4.
  - split; [auto|]. now rewrite I4.
Qed.
(** A component that is a single edge. *)
Lemma oface_edge s R x e : o s R = false -> o s x = false -> adj s R = [e] -> adj s x = [twin e] -> nb s e = x -> nb s (twin e) = R -> B s x = R -> prim x -> oface s R [e; twin e].
Proof.
  intros O1 O2 E1 E2 E3 E4 E5 Px. assert (R1 : rot s R = [e]) by (unfold rot; now rewrite O1). assert (R2 : rot s x = [twin e]) by (unfold rot; now rewrite O2).
  assert (S1 : src s e = R) by exact E4. assert (S2 : src s (twin e) = x) by (unfold src; now rewrite twin2).
  constructor.
  - split; [discriminate|]. cbn [hd fchain]. unfold stp, fstep. rewrite E3, E4, R1, R2, twin2. unfold cnext. cbn [hd cnext_from]. rewrite !Z.eqb_refl. auto.
  - repeat constructor; cbn [In]; [|tauto]. intros [Q|[]]. now apply (twin_ne e).
  - now rewrite R1.
  - intros a [<-|[<-|[]]]; unfold PlV.inc; rewrite ?S1, ?S2, ?E1, ?E2; (split; [apply in_vsof|now left]); auto.
  - intros a [<-|[<-|[]]]; rewrite ?S1, ?S2, ?R1, ?R2; reflexivity.
Qed.
End V3.
