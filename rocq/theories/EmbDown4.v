(** * EmbDown4: the walk down a component. *)
From Coq Require Import ZifyBool Permutation Sorted.
From Verif Require Import Base BaseP GraphRec GraphM GraphSpec GSimp LinkP GraphP GraphP2 ListM ListSpec ListP DFSM DFSSpec DFSP TestM TestP EmbM EmbSpec EmbP FaceP GeoP GeoP2 EmbInv EmbStep EmbTree EmbWalk EmbFan EmbUp EmbJoin PlV3 EmbDown PlanSpec EmbC1 EmbC2 EmbC3 EmbC4 EmbDown2 EmbDown3 PlI2 EmbU IsoM IsoKM IsoT IsoKB IsoB IsoKV.

Section Down4.
Variables (g0 : graph) (kids : Z -> list Z).
Hypothesis St : static g0 kids.
Local Notation N := (gN g0).
Local Notation p := (viParent (gVI g0)).
Local Notation prim := (prim (gN g0)).
Local Notation isroot := (isroot (gN g0)).
Local Notation geo := (geo (gN g0) (viParent (gVI g0))).
Local Notation anc := (ancestor (viParent (gVI g0))).
Local Notation via := (via g0).
Local Notation act := (act g0).
Local Notation fsim := (fsim g0).
Local Notation rp := (rp g0).
Local Notation HP := (Hp g0 kids St).
Local Notation vsof := (vsof (gN g0)).
Local Notation chain := (chain g0).
Local Notation dinv := (dinv g0 kids).
Local Notation drel := (drel g0).
Local Notation passed := (passed g0).
Local Notation mu := (mu g0).

Lemma dinv_V v c a V : dinv v c a -> geo NIL [] V -> nb V = nb (eV a) -> fl V = fl (eV a) -> adj V = adj (eV a) -> keep g0 v (set_V a V) -> outer g0 V -> dinv v c (set_V a V).
Proof.
  intros D G E1 E2 E3 K O. assert (Ea : forall d, act V d <-> act (eV a) d) by (intros d; unfold EmbTree.act; now rewrite E3).
  assert (Ec : forall e, childarc V e <-> childarc (eV a) e) by (intros e; unfold childarc; now rewrite E2).
  constructor; auto.
  - destruct (d_fw _ _ _ _ _ D). constructor; cbn [set_V fw eV]; rewrite ?E1, ?E3; auto. intros u f Hf. rewrite !Ec. eauto.
  - intros w Hw. destruct (d_fpc _ _ _ _ _ D w Hw) as (l1 & l2 & K1 & K2 & K3). exists l1, l2. cbn [set_V fpc eV]. split; [auto|]. split; [auto|]. intros d Hd. rewrite Ea. auto.
  - intros x. cbn [set_V pe fw eV]. rewrite E1. apply (d_pe _ _ _ _ _ D).
  - intros z d. cbn [set_V prl fw eV]. rewrite E1, Ea. apply (d_prl _ _ _ _ _ D).
  - apply (d_prlv _ _ _ _ _ D).
  - intros y H1 H2 H3. cbn [set_V eV]. rewrite Ea. now apply (d_act _ _ _ _ _ D).
  - intros f Hf. cbn [set_V eV pe fw] in *. rewrite E1. destruct (d_comp _ _ _ _ _ D f Hf) as [K1 K2]. split; [auto|]. intros d Ad. cbn [set_V eV prl] in *. apply Ea in Ad. now apply K2.
Qed.
Lemma drel_V v c a V : nb V = nb (eV a) -> fl V = fl (eV a) -> adj V = adj (eV a) -> drel v c a (set_V a V).
Proof.
  intros E1 E2 E3. constructor; auto; cbn [set_V eV].
  - intros. now rewrite E1.
  - intros d (H1 & H2 & H3). rewrite E3 in H3. split; auto.
  - constructor; cbn [set_V eV]; unfold arc; cbn [set_V eV fw]; rewrite ?E1, ?E2, ?E3; tauto.
Qed.
Lemma drel_ghost v c a b : eV b = eV a -> fw b = fw a -> prl b = prl a -> vis b = vis a -> drel v c a b.
Proof.
  intros E1 E2 E3 E4. constructor; rewrite ?E1, ?E2, ?E3; auto. constructor; rewrite ?E1; auto. intros e. unfold arc. rewrite E1, E2. tauto.
Qed.
Lemma passed_same v a b P : passed v a P -> pe b = pe a -> (forall d, act (eV b) d -> act (eV a) d) -> passed v b P.
Proof. intros H E Ha x Hx. destruct (H x Hx) as (H1 & H0 & H2 & H3). split; [now rewrite E|]. split; [auto|]. split; [auto|]. intros d Hd. auto. Qed.

(** The edges of the graph, for what is claimed about the answer NONEMBEDDABLE. *)
Variable EE : Z -> Z -> Prop.
Local Notation guard := (guard g0 EE).
Local Notation cinv := (cinv g0 EE).
Local Notation fine := (fine g0).
Local Notation cinvU := (EmbC3.cinv g0 anye).

(** What one side of the walk leaves. *)
Record sided (two : bool) (v c : Z) (a b : est) : Prop := {
  sd_inv : dinv v c b; sd_rel : drel v c a b; sd_act : act (eV b) c; sd_len : (2 <= length (X (eV b) (N + c)))%nat;
  sd_hd : pe b (hd NIL (X (eV b) (N + c))) = NIL; sd_last : pe b (last (X (eV b) (N + c)) NIL) = NIL; sd_o : o (eV b) (N + c) = o (eV a) (N + c);
  sd_cov : opl g0 = true -> covers g0 c b;
  sd_hdr : opl g0 = true -> prl b (hd NIL (X (eV b) (N + c))) = []; sd_lastr : two = true -> opl g0 = true -> prl b (last (X (eV b) (N + c)) NIL) = [];
  sd_more : guard -> cinv v c b /\ fine v b [] (X (eV b) (N + c)) /\ fin g0 two v c b;
  sd_u : cinvU v c b /\ finU g0 two v c b /\ (opl g0 = false -> PI g0 v c b) }.
Lemma sided_trans two v c a b d : drel v c a b -> o (eV b) (N + c) = o (eV a) (N + c) -> sided two v c b d -> sided two v c a d.
Proof. intros D E []. constructor; auto; [exact (drel_trans _ _ _ _ _ _ D sd_rel0)|congruence]. Qed.

Definition res_ok (two : bool) (v c : Z) (a : est) (r : res (graph * Z)) : Prop :=
  good g0 a -> exists g' x, r = Ret (g', x) /\ (x = C_NONEMBEDDABLE /\ ~ guard /\ isol g0 a g' \/ x = C_OK /\ exists b, rp g' b [] /\ sided two v c a b).
Lemma res_trans two v c a b r : drel v c a b -> o (eV b) (N + c) = o (eV a) (N + c) -> res_ok two v c b r -> res_ok two v c a r.
Proof.
  intros D E K Gd. destruct (K (good_sedge g0 a b (dr_edge _ _ _ _ _ D) Gd)) as (g' & x & Er & Hx). exists g', x. split; [auto|].
  destruct Hx as [(H1 & H2 & H3)|[Hx (d & H1 & H2)]]; [left; split; [auto|]; split; [auto|]; exact (isol_sedge g0 a b g' (dr_edge _ _ _ _ _ D) H3)|]. right. split; [auto|]. exists d. split; [auto|]. exact (sided_trans _ _ _ _ _ _ D E H2).
Qed.

(** Asked for an outerplanar embedding, what is known of the pertinent vertices. *)
Definition ocov (c : Z) (a : est) (W : Z) (fr : list (Z * Z)) : Prop := opl g0 = true -> (fr = [] -> pe a W = NIL) /\ (forall z R, In (z, R) fr -> pe a z = NIL) /\ covers g0 c a.
(** The state at the head of the loop. *)
Record linv (two : bool) (v c : Z) (a : est) (W : Z) (fr : list (Z * Z)) (P Q : list Z) : Prop := {
  l_inv : dinv v c a; l_act : act (eV a) c; l_chain : chain a (N + c) W fr P Q; l_passed : passed v a P; l_prim : prim W;
  l_tc : fr <> [] -> pe a W <> NIL \/ prl a W <> [];
  l_len : fr = [] -> (2 <= length (X (eV a) (N + c)))%nat \/ prl a W <> [];
  l_last : pe a (last (X (eV a) (N + c)) NIL) = NIL;
  l_oc : ocov c a W fr;
  l_lastr : two = true -> opl g0 = true -> prl a (last (X (eV a) (N + c)) NIL) = [];
  l_more : guard -> cinv v c a /\ fine v a (map snd fr) (jx (eV a) W fr Q) /\ (forall x, In x P -> ~ vat g0 v a [] x) /\ (two = true -> Gd g0 v c a);
  l_u : cinvU v c a /\ (forall x, In x P -> ~ vat g0 v a [] x) /\ (two = true -> Gd g0 v c a) /\ picks g0 v a fr /\ (opl g0 = false -> PI g0 v c a) }.

(** The vertices passed lead nowhere. *)
Lemma passed_none E v c a P Q : prim v -> prim c -> p c = v -> dinv v c a -> act (eV a) c -> EmbC3.cinv g0 E v c a -> X (eV a) (N + c) = P ++ Q -> passed v a P -> forall x, In x P -> ~ tat g0 v a [] x.
Proof.
  intros Pv Pc Ec D Ac C EX Pa x Hx T. destruct (X_in g0 kids St a v c D c x Ac) as (Px & _ & Ax); [rewrite EX; apply in_app_iff; auto|].
  apply (fpt_tat g0 kids St E a v c D C x Px (c_lt g0 kids St v c Pv Pc Ec x Px Ax)) in T. destruct (Pa x Hx) as (_ & N0 & N1 & N2). destruct T as [T|[T|(d & A1 & A2 & A3)]]; [congruence|lia|]. specialize (N2 d A1 A2). lia.
Qed.
Lemma not_pert E v c a W : prim v -> prim c -> p c = v -> dinv v c a -> EmbC3.cinv g0 E v c a -> prim W -> anc c W -> pe a W = NIL -> prl a W = [] -> ~ vat g0 v a [] W.
Proof.
  intros Pv Pc Ec D C PW AW E1 E2 V. apply (pert_vat g0 kids E a v c D C W PW (c_lt g0 kids St v c Pv Pc Ec W PW AW)) in V. destruct V; congruence.
Qed.
Lemma jx_frames s t W fr Q : (forall R, In R (map snd fr) -> X t R = X s R) -> jx t W fr Q = jx s W fr Q.
Proof. revert W. induction fr as [|[z R] fr IH]; intros W H; [reflexivity|]. cbn [jx]. rewrite H by (now left). rewrite IH; [reflexivity|]. intros; apply H; now right. Qed.

Lemma vsof_out a y R : GeoP.isroot N R -> ~ In y (vsof (eV a) R) <-> y <> R /\ (prim y -> B (eV a) y <> R).
Proof.
  intros HR. unfold GeoP.vsof, mem. cbn [In]. rewrite filter_In, in_zrange, Z.eqb_eq. unfold GeoP.prim. intuition lia.
Qed.

(** Going down into the first pertinent component of W. *)
Lemma down_ok two v c g a W fr P Q d l : prim v -> p c = v -> rp g a (enc (eV a) fr) -> linv two v c a W fr P Q -> prl a W = d :: l -> pe a W = NIL ->
  exists g1 g2 a2 r, stk_push2 g W (b2z (negb (o (eV a) W))) = Ret g1 /\ gN g1 = N /\ walkdown_choose g1 v (N + d) = Ret (g2, r) /\ rp g2 a2 (b2z (negb (o (eV a) W)) :: W :: enc (eV a) fr) /\ (length (enc (eV a) fr) + 4 <= Z.to_nat (gstackCap g0))%nat /\
    match r with
    | None => ~ guard /\ (good g0 a -> opl g0 = true -> forall g3, rp g3 a2 (0 :: N + d :: b2z (negb (o (eV a) W)) :: W :: enc (eV a) fr) -> exists h, _IsolateOuterplanarObstruction g3 v (N + c) = Ret (h, C_OK) /\ isolated g0 a h) /\
         (good g0 a -> opl g0 = false -> forall g3, rp g3 a2 (0 :: N + d :: b2z (negb (o (eV a) W)) :: W :: enc (eV a) fr) -> exists h, _IsolateKuratowskiSubgraph g3 v (N + c) = Ret (h, C_OK) /\ kisolated g0 a h)
    | Some (W', l', s') => exists g3 b, stk_push2 g2 (N + d) s' = Ret g3 /\ rp g3 b (enc (eV b) ((W, N + d) :: fr)) /\ linv two v c b W' ((W, N + d) :: fr) P Q /\ drel v c a b /\
         l' = b2z (negb (o (eV b) W')) /\ o (eV b) (N + c) = o (eV a) (N + c) /\ (mu b (N + c)%Z ((W, N + d)%Z :: fr) (bot W fr :: Q) < mu a (N + c)%Z fr (bot W fr :: Q))%nat
    end.
Proof.
  intros Hv Ec H L Ep EP. pose proof (l_inv _ _ _ _ _ _ _ _ L) as D. pose proof (d_geo _ _ _ _ _ D) as G. pose proof (l_chain _ _ _ _ _ _ _ _ L) as Ch. pose proof (l_prim _ _ _ _ _ _ _ _ L) as PW.
  pose proof (l_act _ _ _ _ _ _ _ _ L) as Ac. destruct (act_root g0 _ _ Ac) as [HC NC]. destruct (d_prl _ _ _ _ _ D W d) as (Pd & Vd & Ad & Fd); [rewrite Ep; now left|].
  destruct (act_root g0 _ _ Ad) as [HR NR]. set (R := N + d) in *. destruct (chain_lt g0 kids St _ _ _ _ _ _ _ G HC W Ch) as (L1 & L2 & L3). pose proof (chain_top g0 _ _ _ _ _ _ _ _ G HC Ch) as Tp.
  destruct (Hp g0 kids St d (proj1 Ad) (proj1 (proj2 Ad))) as [_ Lt]. rewrite Pd in Lt.
  assert (BW : B (eV a) W <> NIL). { rewrite Tp. destruct fr as [|[z R'] fr]; cbn [map snd hd]; [unfold GeoP.isroot, NIL in *; pose proof PW; unfold GeoP.prim in *; lia|]. specialize (L1 R' (or_introl eq_refl)). unfold GeoP.isroot, GeoP.prim, NIL in *. lia. }
  pose proof (B_le g0 kids St _ _ _ _ G PW BW) as BL.
  assert (Rl : forall R', In R' (N + c :: map snd fr) -> R' < R).
  { intros R' [<-|Hi]; [|specialize (L1 R' Hi); lia]. rewrite Tp in BL. destruct fr as [|[z R'] fr]; cbn [map snd hd] in *; [lia|]. specialize (L1 R' (or_introl eq_refl)). lia. }
  assert (Cap : (length (enc (eV a) fr) + 4 <= Z.to_nat (gstackCap g0))%nat).
  { rewrite enc_length. assert (2 * Z.of_nat (length (d :: map (fun R => R - N) (map snd fr))) <= gCap g0).
    - apply (roots_cap g0 g a (enc (eV a) fr) NIL []); auto; [discriminate| |].
      + constructor.
        * intros Hi. apply in_map_iff in Hi. destruct Hi as (R' & E & Hi). specialize (Rl R' (or_intror Hi)). lia.
        * clear - L2. induction L2 as [|R' l' Hn L2 IH]; [constructor|]. cbn [map]. constructor; [|auto]. intros Hi. apply in_map_iff in Hi. destruct Hi as (R2 & E & Hi). assert (R2 = R') by lia. congruence.
      + destruct (chain_in g0 kids St _ _ _ _ _ _ _ _ G eq_refl (proj1 Ac) W PW Ch) as (_ & _ & Fr). intros y [<-|Hi]; [auto|]. apply in_map_iff in Hi. destruct Hi as (R' & E & Hi).
        apply in_map_iff in Hi. destruct Hi as ([z R2] & E2 & Hi). cbn [snd] in E2. subst R2. destruct (Fr z R' Hi) as (d' & E' & A' & _). replace y with d' by lia. exact A'.
    - cbn [length] in *. rewrite !map_length in *. pose proof (st_cap _ _ St). lia. }
  destruct (push2_ok _ _ _ _ W (b2z (negb (o (eV a) W))) H ltac:(lia)) as (g1 & W1 & H1).
  destruct (choose_ok g0 kids St v c g1 a _ d H1 D Ad) as (g2 & a2 & r & W2 & H2 & D2 & E1 & E2 & E3 & E4 & E5 & HV).
  exists g1, g2, a2, r. split; [exact W1|]. split; [apply (k_N _ _ (r_keeps _ _ _ _ H1))|]. split; [exact W2|]. split; [exact H2|]. split; [exact Cap|].
  destruct r as [[[W' l'] s']|].
  2:{ destruct HV as [N1 N2]. split; [|split; [intros Gd Eo g3 H3; exact (inner_ok g0 kids St v c a a2 W d l fr P Q g3 _ D D2 E1 E2 E3 E4 Gd Eo Hv Ec Ac PW Ch Ep N1 N2 H3)|
        intros Gd Eo g3 H3; exact (kinner_ok g0 kids St v c a a2 W d l fr P Q g3 _ D D2 E1 E2 E3 E4 (proj1 (l_u _ _ _ _ _ _ _ _ L)) Gd Eo Hv Ec Ac PW Ch Ep N1 N2 H3)]].
      intros Gu. destruct (l_more _ _ _ _ _ _ _ _ L Gu) as (Ci & _).
      exact (blocked g0 kids St EE a v c Hv (proj1 Ac) Ec D Ci (gd_sym _ _ Gu) (gd_ap _ _ Gu) (gd_tree _ _ Gu) (gd_nk _ _ Gu) W d l fr P Q PW Ch Ep N1 N2). }
  destruct HV as (V & l2 & V1 & V2 & V3 & V4 & V4' & V5 & V6 & V7 & V8 & V9). fold R in V4, V4', V5, V8, V9.
  set (b := set_V a2 V) in *. destruct (push2_ok _ _ _ _ R s' V1) as (g3 & W3 & H3); [cbn [length]; lia|].
  assert (OW : o V W = o (eV a) W). { apply V8. apply vsof_out; [auto|]. split; [unfold GeoP.prim, GeoP.isroot in *; lia|]. intros _. lia. }
  assert (OR : forall R', isroot R' -> R' <> R -> o V R' = o (eV a) R'). { intros R' HR' NR'. apply V8. apply vsof_out; [auto|]. split; [auto|]. unfold GeoP.prim, GeoP.isroot in *. lia. }
  exists g3, b. split; [exact W3|].
  assert (AV : forall x, act V x <-> act (eV a) x) by (intros x; apply (fsim_act _ _ _ _ V3)).
  assert (Dr : drel v c a b).
  { apply (drel_trans _ _ _ _ a2); [apply drel_ghost; auto|]. apply drel_V; rewrite E1; [apply (fs_nb _ _ V3)|apply (fs_fl _ _ V3)|apply (fs_adj _ _ V3)]. }
  assert (Db : dinv v c b).
  { apply dinv_V; auto; rewrite ?E1; [apply (fs_nb _ _ V3)|apply (fs_fl _ _ V3)|apply (fs_adj _ _ V3)| |].
    - apply (fsim_keep g0 v a2); [apply (d_keep _ _ _ _ _ D2)|cbn [set_V eV]; rewrite E1; auto|auto].
    - apply (fsim_outer g0 kids St (eV a)); [auto|apply (d_out _ _ _ _ _ D)|auto]. }
  assert (Ad' : act V d) by (apply AV; auto). destruct (full_of g0 _ _ V2 Ad') as [_ F']. fold R in F'. destruct (X_facts g0 _ _ F') as (Xne & Xnd & Xin).
  destruct (Xin W') as [PW' BW']; [rewrite V4; now left|].
  split; [|split; [|split; [auto|split; [|split; [|]]]]].
  - cbn [enc b set_V eV]. rewrite OW, <- V5. rewrite (enc_ext (eV a) V fr); [exact H3|]. intros z R' Hi. destruct (L3 z R' Hi) as (Pz & HR' & Bz).
    assert (Hi' : In R' (map snd fr)) by (apply in_map_iff; exists (z, R'); auto). specialize (Rl R' (or_intror Hi')). split; [|apply OR; [auto|lia]].
    apply V8. apply vsof_out; [auto|]. split; [unfold GeoP.prim, GeoP.isroot in *; lia|]. intros _. lia.
  - assert (Chb : chain b (N + c) W fr P Q).
    { apply (chain_ext g0 a); auto; cbn [b set_V eV prl].
      - intros x _. now rewrite (fs_B _ _ V3).
      - intros R' Hi. apply V9. specialize (Rl R' Hi). lia.
      - intros d' x _ A' I'. rewrite AV, E3. auto. }
    constructor; auto.
    + cbn [b set_V eV]. apply AV. auto.
    + cbn [EmbJoin.chain b set_V eV prl]. split; [auto|]. split; [exists l2; auto|]. split; [exists d; rewrite E3, Ep; split; [auto|]; split; [auto|]; split; [auto|now left]|].
      exact Chb.
    + apply (passed_same v a); [apply (l_passed _ _ _ _ _ _ _ _ L)|exact E4|]. intros x Hx. apply AV. exact Hx.
    + intros _. cbn [b set_V pe prl]. rewrite E4, E3. exact V7.
    + discriminate.
    + cbn [b set_V pe eV]. rewrite E4, V9; [apply (l_last _ _ _ _ _ _ _ _ L)|]. specialize (Rl _ (or_introl eq_refl)). lia.
    + intros Eo. destruct (l_oc _ _ _ _ _ _ _ _ L Eo) as (O1 & O2 & O3). split; [discriminate|]. split.
      * intros z R' [Q0|Hi]; cbn [b set_V pe]; rewrite E4; [injection Q0 as <- _; auto|eauto].
      * apply (covers_same g0 c a); auto; [apply V9; specialize (Rl _ (or_introl eq_refl)); lia|intros x; cbn [b set_V eV]; now rewrite (fs_adj _ _ V3)|apply (fs_nb _ _ V3)].
    + intros Et Eo. cbn [b set_V prl eV]. rewrite E3, V9; [exact (l_lastr _ _ _ _ _ _ _ _ L Et Eo)|]. specialize (Rl _ (or_introl eq_refl)). lia.
    + intros Gu. destruct (l_more _ _ _ _ _ _ _ _ L Gu) as (Ci & Fi & Pn & Gn).
      assert (EN : nb (eV b) = nb (eV a)) by apply (fs_nb _ _ V3). assert (EF : fw b = fw a) by exact E2.
      assert (Cb : cinv v c b) by (apply (cinv_sim g0 EE v c a); auto; apply (gd_sym _ _ Gu)).
      assert (JX : jx (eV b) W fr Q = jx (eV a) W fr Q) by (apply jx_frames; intros R' Hi; apply V9; specialize (Rl R' (or_intror Hi)); lia).
      split; [exact Cb|]. split; [|split].
      * cbn [map snd jx]. refine (descend g0 kids St EE b v c Hv (proj1 Ac) Ec Db Cb (gd_sym _ _ Gu) (gd_ap _ _ Gu) _ (gd_tree _ _ Gu) (gd_nk _ _ Gu) W d l fr P Q PW Chb _ _ _ W' l2 V4 _ _).
        -- apply AV. auto.
        -- cbn [b set_V prl]. congruence.
        -- cbn [b set_V pe]. congruence.
        -- rewrite JX. apply (fine_same g0 a b); auto.
        -- unfold pert. cbn [b set_V pe prl]. rewrite E4, E3. exact V7.
        -- assert (FT : forall x, fpt g0 v b x <-> fpt g0 v a x).
           { intros x. unfold fpt. split; (intros [Qo|[Q0|(d' & Q1 & Q2)]]; [now left|right; now left|right; right; exists d'; split; [now apply AV|auto]]). }
           rewrite !FT. unfold pert. cbn [b set_V pe prl eV]. rewrite E4, E3. exact V4'.
      * intros x Hx. rewrite (vat_same g0 a b AV EN EF). auto.
      * intros Et. specialize (Gn Et). assert (EX : X (eV b) (N + c) = X (eV a) (N + c)) by (apply V9; specialize (Rl _ (or_introl eq_refl)); lia).
        unfold Gd, short, NV, NT in *. rewrite EX, EN, EF, (vat_same g0 a b AV EN EF), (tat_same g0 a b AV EN EF). exact Gn.
    + destruct (l_u _ _ _ _ _ _ _ _ L) as (Ci & Pn & Gn & Pk & HPI).
      assert (EN : nb (eV b) = nb (eV a)) by apply (fs_nb _ _ V3). assert (EF : fw b = fw a) by exact E2.
      assert (FT : forall x, fpt g0 v b x <-> fpt g0 v a x).
      { intros x. unfold fpt. split; (intros [Qo|[Q0|(d' & Q1 & Q2)]]; [now left|right; now left|right; right; exists d'; split; [now apply AV|auto]]). }
      split; [apply (cinv_sim g0 anye v c a); auto using anye_sym|]. split; [|split; [|split]].
      * intros x Hx. rewrite (vat_same g0 a b AV EN EF). auto.
      * intros Et. specialize (Gn Et). assert (EX : X (eV b) (N + c) = X (eV a) (N + c)) by (apply V9; specialize (Rl _ (or_introl eq_refl)); lia).
        unfold Gd, short, NV, NT in *. rewrite EX, EN, EF, (vat_same g0 a b AV EN EF), (tat_same g0 a b AV EN EF). exact Gn.
      * intros z d' [Q0|Hi].
        -- injection Q0 as <- Q0. assert (d' = d) by lia. subst d'. rewrite !FT. unfold pert. cbn [b set_V pe prl eV]. rewrite E4, E3. split; [auto|]. split; [eauto|]. fold R. rewrite V4 at 1. cbn [hd]. exact V4'.
        -- destruct (Pk z d' Hi) as (K1 & K2 & K3). rewrite !FT. unfold pert in *. cbn [b set_V pe prl eV]. rewrite E4, E3. split; [auto|]. split; [auto|].
           rewrite V9; [exact K3|]. assert (In (N + d') (map snd fr)) as Hi' by (apply in_map_iff; exists (z, N + d'); auto). specialize (Rl _ (or_intror Hi')). lia.
      * intros Eo. apply (PI_sim g0 v c a b); auto; [apply Ac|intros x; apply (vat_same g0 a b AV EN EF)|intros x; apply (tat_same g0 a b AV EN EF)].
  - exact V6.
  - cbn [b set_V eV]. apply OR; [auto|]. specialize (Rl _ (or_introl eq_refl)). lia.
  - apply mu_act with d; auto.
    + cbn [b set_V eV]. apply (fs_B _ _ V3).
    + intros Hi. specialize (Rl _ (or_intror Hi)). lia.
    + intros R'. cbn [map snd In]. intuition.
Qed.

Lemma wloop_ok two v c : prim v -> prim c -> p c = v -> forall n g a W fr P Q,
  rp g a (enc (eV a) fr) -> linv two v c a W fr P Q -> (mu a (N + c)%Z fr (bot W fr :: Q) < n)%nat ->
  res_ok two v c a (walkdown_loop n g v (N + c) (b2z (o (eV a) (N + c))) W (b2z (negb (o (eV a) W)))).
Proof.
  intros Hv Hc Ec. induction n as [|n IH]; intros g a W fr P Q H L Hn; [lia|]. cbn [walkdown_loop].
  pose proof (l_prim _ _ _ _ _ _ _ _ L) as PW. assert (WR : W <> N + c) by (unfold GeoP.prim in *; lia). rewrite (eqb_false_neq _ _ WR).
  (* what follows the embedding of an edge to W *)
  match goal with |- res_ok _ _ _ _ (bind _ (fun pe => bind _ ?k)) => set (K := k) end.
  assert (Cont : forall g a fr P Q, rp g a (enc (eV a) fr) -> linv two v c a W fr P Q -> pe a W = NIL -> (mu a (N + c)%Z fr (bot W fr :: Q) < S n)%nat ->
            res_ok two v c a (pr <- gp_GetVertexPertinentRootsList g W ;;
      if negb (pr =? NIL) then
        g <- stk_push2 g W (b2z (negb (o (eV a) W))) ;;
        let R := gp_GetRootFromDFSChild g pr in
        '(g, ch) <- walkdown_choose g v R ;;
        match ch with
        | Some (W', WPrevLink', side) =>
          g <- stk_push2 g R side ;;
          walkdown_loop n g v (N + c) (b2z (o (eV a) (N + c))) W' WPrevLink'
        | None =>
          '(g, r) <- _HandleBlockedBicomp g v (N + c) R ;;
          if negb (r =? C_OK) then Ret (g, r)
          else
            '(g, W, WPrevLink) <- stk_pop2 g ;;
            walkdown_loop n g v (N + c) (b2z (o (eV a) (N + c))) W WPrevLink
        end
      else
        g <- gp_UpdateVertexFuturePertinentChild g W v ;;
        fp <- FUTUREPERTINENT g W v ;;
        if fp || negb (Z.land (gembed g) EMBEDFLAGS_OUTERPLANAR =? 0) then
          g <- walkdown_stop g (N + c) (b2z (o (eV a) (N + c))) W (b2z (negb (o (eV a) W))) ;;
          Ret (g, C_OK)
        else
          '(W', WPrevLink') <- _HandleInactiveVertex g W (b2z (negb (o (eV a) W))) ;;
          walkdown_loop n g v (N + c) (b2z (o (eV a) (N + c))) W' WPrevLink')).
  { clear K g a fr P Q H L Hn. intros g a fr P Q H L EP Hn. pose proof (l_inv _ _ _ _ _ _ _ _ L) as D. pose proof (d_geo _ _ _ _ _ D) as G. pose proof (l_act _ _ _ _ _ _ _ _ L) as Ac.
    rewrite (roots_head _ _ _ _ _ H) by (unfold GeoP.prim in PW; lia). cbn [bind]. rewrite (roots_hd g0) by (intros d; apply (prl_prim g0 kids v c a W d D)).
    destruct (prl a W) as [|d l] eqn:Er; cbn [isnil negb hd].
    - assert (fr = []) as -> by (destruct fr; [auto|]; destruct (l_tc _ _ _ _ _ _ _ _ L); [discriminate|congruence|congruence]). cbn [enc] in H. cbn [bot] in Hn.
      pose proof (l_chain _ _ _ _ _ _ _ _ L) as [C1 C2]. destruct (l_len _ _ _ _ _ _ _ _ L eq_refl) as [L2|L2]; [|congruence].
      destruct (fpc_step g0 kids St v c g a [] W H D PW) as (g1 & i & W1 & H1 & D1 & F1 & F2). rewrite W1. cbn [bind]. set (a1 := set_fpc a W i) in *.
      rewrite (fp_read g0 kids St v c _ _ _ _ H1 D1 PW). cbn [bind]. cbn [a1 set_fpc fpc]. rewrite upd_same.
      set (fp := (viLeast (gVI g0) W <? v) || negb (i =? NIL) && (viLow (gVI g0) i <? v)).
      assert (NF : fp = false -> opl g0 = false -> nfp g0 v a W).
      { intros E Eo. unfold fp in E. apply orb_false_iff in E. destruct E as [E1 E2]. split; [exact Eo|]. split; [lia|]. apply F1. destruct (Z.eqb_spec i NIL) as [|Ne]; [auto|]. specialize (F2 Ne). cbn [negb andb] in E2. lia. }
      assert (NF' : fp = true -> fpt g0 v a W).
      { intros E. unfold fp in E. apply orb_true_iff in E. destruct E as [E|E]; [right; left; lia|]. apply andb_true_iff in E. destruct E as [E _]. right. right. exists i. destruct F2 as (K1 & K2 & K3); [lia|auto]. }
      clearbody fp. pose proof (l_passed _ _ _ _ _ _ _ _ L) as Pa. assert (Ch1 : chain a1 (N + c) W [] P Q) by (split; auto).
      destruct (full_of g0 _ _ G Ac) as [HR F]. destruct (X_facts g0 _ _ F) as (Xne & Xnd & Xin).
      apply (res_trans two v c a a1); [apply drel_fpc|reflexivity|].
      rewrite (k_embed _ _ (r_keeps _ _ _ _ H1)). fold (opl g0). destruct (fp || opl g0) eqn:Ef.
      + destruct (stop_ok g0 kids v c g1 a1 W P Q H1 D1 Ac Ch1 L2) as (g2 & V & P1 & w1 & xs & W2 & H2 & G2 & EX & XV & Nx & Alt & XO & EN & EF & EA & EO & EB). cbn [a1 set_fpc eV] in W2. rewrite W2. cbn [bind].
        intros _. exists g2, C_OK. split; [reflexivity|]. right. split; [reflexivity|]. exists (set_V a1 V). split; [exact H2|]. change (eV a1) with (eV a) in *.
        assert (HP1 : incl P1 P). { destruct Alt as [(_ & ->)|(_ & _ & ->)]; [apply incl_refl|apply incl_appl, incl_refl]. }
        assert (Dr : drel v c a1 (set_V a1 V)) by (apply drel_V; auto). constructor; auto.
        * assert (Stay : forall y, In y (X (eV a) (B (eV a) y)) -> ~ In y P1 -> In y (X V (B V y))).
          { intros y Hy Hny. rewrite EB. destruct (Z.eq_dec (B (eV a) y) (N + c)) as [E|E]; [|rewrite XO; auto].
            rewrite E, XV. rewrite E, C2, EX in Hy. apply in_app_iff in Hy. destruct Hy; [contradiction|auto]. }
          assert (Pa1 : passed v a1 P1) by (intros x Hx; apply Pa; auto).
          assert (HF : opl g0 = true -> fans g0 V).
          { intros Eo d Ad. assert (Ad0 : act (eV a) d) by (destruct Ad as (A1 & A2 & A3); rewrite EA in A3; split; auto). assert (EXV : X V (N + d) = X (eV a) (N + d)).
            - destruct (Z.eq_dec (N + d) (N + c)) as [E|E]; [|auto]. rewrite E, XV, C2, EX. rewrite (passed_opl g0 v a1 P1 Eo Pa1). reflexivity.
            - rewrite EXV. destruct (full_of g0 _ _ G Ad0) as [_ F']. destruct (X_facts g0 _ _ F') as (Xne' & _). apply (cfan_ext (nbrs (eV a))); [auto| |apply (proj1 (d_out _ _ _ _ _ D) Eo); auto].
              intros x _. unfold nbrs, rot. now rewrite EN, EA, EO. }
          apply dinv_V; auto; [apply (keep_step g0 v a1 _ P1); auto|apply (outer_step g0 v a1 (set_V a1 V) P1); auto; [apply (d_out _ _ _ _ _ D1)|apply (ofx_ext g0 NIL (eV a)); auto; apply (d_out _ _ _ _ _ D1)]].
          -- apply (d_fw _ _ _ _ _ D1).
          -- apply (d_keep _ _ _ _ _ D1).
          -- intros u f _ Hf. split; [exact Hf|]. cbn [set_V eV a1 set_fpc]. now rewrite EN.
          -- apply (dr_act _ _ _ _ _ Dr).
        * cbn [set_V eV]. destruct Ac as (A1 & A2 & A3). split; [auto|]. split; [auto|]. now rewrite EA.
        * cbn [set_V eV]. rewrite XV. destruct xs; [congruence|cbn [length]; lia].
        * cbn [set_V eV pe a1 set_fpc]. rewrite XV. cbn [hd]. destruct Alt as [(-> & _)|(_ & _ & EP1)]; [auto|]. apply Pa. rewrite EP1. apply in_app_iff. right. now left.
        * cbn [set_V eV pe a1 set_fpc]. rewrite XV. rewrite <- (last_app_ne P1) by discriminate. rewrite <- EX, <- C2. apply (l_last _ _ _ _ _ _ _ _ L).
        * cbn [set_V eV]. now rewrite EO.
        * intros Eo. destruct (l_oc _ _ _ _ _ _ _ _ L Eo) as (_ & _ & O3). apply (covers_same g0 c a); auto; [|intros x; cbn [set_V eV]; now rewrite EA]. cbn [set_V eV]. rewrite XV, C2, EX.
          assert (P1 = []) as ->; [|reflexivity]. apply (passed_opl g0 v a P1 Eo). intros x Hx. apply Pa. auto.
        * intros Eo. cbn [set_V eV prl a1 set_fpc]. rewrite XV. cbn [hd]. destruct Alt as [(-> & _)|(_ & _ & EP1)]; [auto|]. rewrite (passed_opl g0 v a P Eo Pa) in EP1. destruct P1; discriminate.
        * intros Et Eo. cbn [set_V eV prl a1 set_fpc]. rewrite XV. rewrite <- (last_app_ne P1) by discriminate. rewrite <- EX, <- C2. exact (l_lastr _ _ _ _ _ _ _ _ L Et Eo).
        * intros Gu. destruct (l_more _ _ _ _ _ _ _ _ L Gu) as (Ci & Fi & Pn & Gn). destruct (Xin W) as [_ BW]; [rewrite C2; apply in_app_iff; right; now left|].
          destruct (B_anc g0 kids St _ _ _ _ _ G Hc PW BW) as [AW _]. pose proof (c_lt g0 kids St v c Hv Hc Ec W PW AW) as LW.
          assert (Ef1 : fpt g0 v a W) by (apply orb_true_iff in Ef; destruct Ef as [Ef|Ef]; [auto|now left]).
          apply (stop_more g0 kids St EE v c a Hv Hc Ec D Ci Ac two (set_V a1 V) P W Q P1 w1 xs); auto.
          -- intros x Hx. split; [auto|]. exact (passed_none EE v c a P (W :: Q) Hv Hc Ec D Ac Ci C2 Pa x Hx).
          -- exact (not_pert EE v c a W Hv Hc Ec D Ci PW AW EP Er).
          -- apply (fpt_tat g0 kids St EE a v c D Ci W PW LW). auto.
        * destruct (l_u _ _ _ _ _ _ _ _ L) as (Ci & Pn & Gn & Pk & HPI). destruct (Xin W) as [_ BW]; [rewrite C2; apply in_app_iff; right; now left|].
          destruct (B_anc g0 kids St _ _ _ _ _ G Hc PW BW) as [AW _]. pose proof (c_lt g0 kids St v c Hv Hc Ec W PW AW) as LW.
          assert (Ef1 : fpt g0 v a W) by (apply orb_true_iff in Ef; destruct Ef as [Ef|Ef]; [auto|now left]).
          destruct (stop_u g0 kids St anye v c a Hv Hc Ec D Ci Ac two (set_V a1 V) P W Q P1 w1 xs) as [U1 U2]; auto.
          -- intros x Hx. split; [auto|]. exact (passed_none anye v c a P (W :: Q) Hv Hc Ec D Ac Ci C2 Pa x Hx).
          -- exact (not_pert anye v c a W Hv Hc Ec D Ci PW AW EP Er).
          -- apply (fpt_tat g0 kids St anye a v c D Ci W PW LW). auto.
          -- split; [exact U1|]. split; [exact U2|]. intros Eo. assert (AV : forall x, act V x <-> act (eV a) x) by (intros x; unfold EmbTree.act; now rewrite EA).
             apply (PI_ext g0 v c a (set_V a1 V)); auto; [apply Ac|intros x; apply (vat_same g0 a (set_V a1 V)); auto|intros x; apply (tat_same g0 a (set_V a1 V)); auto].
      + apply orb_false_iff in Ef. destruct Ef as [Ef Eo]. specialize (NF Ef Eo).
        destruct (pass_ok g0 kids v c g1 a1 W P Q H1 D1 Ac Ch1) as (l' & W2 & HQ). cbn [a1 set_fpc eV] in W2, HQ. rewrite W2. cbn [bind].
        assert (PaW : passed v a1 (P ++ [W])). { intros x Hx. apply in_app_iff in Hx. destruct Hx as [Hx|[<-|[]]]; [apply (Pa x Hx)|]. split; [exact EP|exact NF]. }
        assert (Lt : (mu a1 (N + c)%Z [] Q < n)%nat).
        { assert (mu a1 (N + c)%Z [] Q < mu a (N + c)%Z [] (W :: Q))%nat; [|lia]. apply mu_pass; [tauto|reflexivity|auto|auto|]. rewrite C2 in Xnd. apply NoDup_app_r in Xnd. apply NoDup_cons_iff in Xnd. apply Xnd. }
        destruct Q as [|q Q]; cbn [hd].
        * destruct n as [|n]; [lia|]. cbn [walkdown_loop]. rewrite Z.eqb_refl. intros _. exists g1, C_OK. split; [reflexivity|]. right. split; [reflexivity|]. exists a1. split; [exact H1|].
          constructor; auto.
          -- apply drel_refl.
          -- cbn [a1 set_fpc pe eV]. assert (In (hd NIL (X (eV a) (N + c))) (P ++ [W])) by (rewrite C2; apply hd_in; destruct P; discriminate). apply (PaW _ H0).
          -- exact (l_last _ _ _ _ _ _ _ _ L).
          -- intros Eo'. congruence.
          -- intros Eo'. congruence.
          -- intros _ Eo'. congruence.
          -- intros Gu. destruct (l_more _ _ _ _ _ _ _ _ L Gu) as (Ci & Fi & Pn & Gn). destruct (Xin W) as [_ BW]; [rewrite C2; apply in_app_iff; right; now left|].
             destruct (B_anc g0 kids St _ _ _ _ _ G Hc PW BW) as [AW _].
             assert (C1a : cinv v c a1) by (apply (cinv_sim g0 EE v c a); auto; [apply (gd_sym _ _ Gu)|apply fsim_refl]). split; [exact C1a|].
             apply (pass_more g0 kids St EE v c a1 Hv Hc Ec D1 C1a Ac two). cbn [a1 set_fpc eV]. rewrite C2. intros x Hx. split.
             ++ apply in_app_iff in Hx. destruct Hx as [Hx|[<-|[]]]; [exact (Pn x Hx)|]. exact (not_pert EE v c a W Hv Hc Ec D Ci PW AW EP Er).
             ++ apply (passed_none EE v c a1 (P ++ [W]) [] Hv Hc Ec D1 Ac C1a); auto. now rewrite app_nil_r.
          -- destruct (l_u _ _ _ _ _ _ _ _ L) as (Ci & Pn & Gn & Pk & HPI). destruct (Xin W) as [_ BW]; [rewrite C2; apply in_app_iff; right; now left|].
             destruct (B_anc g0 kids St _ _ _ _ _ G Hc PW BW) as [AW _].
             assert (C1a : cinvU v c a1) by (apply (cinv_sim g0 anye v c a); auto using anye_sym; apply fsim_refl). split; [exact C1a|]. split; [|exact HPI].
             apply (pass_u g0 kids St anye v c a1 Hv Hc Ec D1 C1a Ac two). cbn [a1 set_fpc eV]. rewrite C2. intros x Hx. split.
             ++ apply in_app_iff in Hx. destruct Hx as [Hx|[<-|[]]]; [exact (Pn x Hx)|]. exact (not_pert anye v c a W Hv Hc Ec D Ci PW AW EP Er).
             ++ apply (passed_none anye v c a1 (P ++ [W]) [] Hv Hc Ec D1 Ac C1a); auto. now rewrite app_nil_r.
        * rewrite (HQ q Q eq_refl). assert (E2 : X (eV a) (N + c) = (P ++ [W]) ++ q :: Q) by (rewrite C2, <- app_assoc; reflexivity).
          destruct (Xin q) as [Pq Bq]; [rewrite E2; apply in_app_iff; right; now left|].
          apply (IH g1 a1 q [] (P ++ [W]) Q); [exact H1| |exact Lt].
          constructor; auto; [split; auto|exact (l_last _ _ _ _ _ _ _ _ L)|intros Eo'; congruence|intros _ Eo'; congruence| |].
          { intros Gu. destruct (l_more _ _ _ _ _ _ _ _ L Gu) as (Ci & Fi & Pn & Gn). destruct (Xin W) as [_ BW]; [rewrite C2; apply in_app_iff; right; now left|].
          destruct (B_anc g0 kids St _ _ _ _ _ G Hc PW BW) as [AW _].
          split; [apply (cinv_sim g0 EE v c a); auto; [apply (gd_sym _ _ Gu)|apply fsim_refl]|]. split; [|split].
          -- cbn [map snd jx] in *. apply (fine_sub g0 v a [] (W :: q :: Q)); [apply (sub_drop [W])|exact Fi].
          -- intros x Hx. apply in_app_iff in Hx. destruct Hx as [Hx|[<-|[]]]; [exact (Pn x Hx)|]. exact (not_pert EE v c a W Hv Hc Ec D Ci PW AW EP Er).
          -- exact Gn. }
          destruct (l_u _ _ _ _ _ _ _ _ L) as (Ci & Pn & Gn & Pk & HPI). destruct (Xin W) as [_ BW]; [rewrite C2; apply in_app_iff; right; now left|].
          destruct (B_anc g0 kids St _ _ _ _ _ G Hc PW BW) as [AW _].
          split; [apply (cinv_sim g0 anye v c a); auto using anye_sym; apply fsim_refl|]. split; [|split; [exact Gn|split; [intros z y []|exact HPI]]].
          intros x Hx. apply in_app_iff in Hx. destruct Hx as [Hx|[<-|[]]]; [exact (Pn x Hx)|]. exact (not_pert anye v c a W Hv Hc Ec D Ci PW AW EP Er).
    - destruct (down_ok two v c g a W fr P Q d l Hv Ec H L Er EP) as (g1 & g2 & a2 & r & W1 & KN & W2 & H2 & Cap & HV). rewrite W1. cbn [bind].
      unfold gp_GetRootFromDFSChild. cbv zeta. rewrite KN. replace (d + N) with (N + d) by lia. rewrite W2. cbn [bind]. destruct r as [[[W' l'] s']|].
      + destruct HV as (g3 & b & W3 & H3 & L3 & Dr & -> & EO & Lt). rewrite W3. cbn [bind]. apply (res_trans two v c a b); auto. rewrite <- EO.
        apply (IH g3 b W' _ P Q H3 L3). cbn [bot]. lia.
      + intros Gd. destruct HV as (Ng & HV & HVK). destruct (block_ok g0 v a a2 g2 _ (N + c) (N + d) H2) as (g3 & W3 & I3).
        { intros _. cbn [length]. lia. }
        { intros Eo g3 H3. apply (HV Gd Eo). destruct (Z.eqb_spec (N + d) (N + c)) as [E|E]; [exfalso|exact H3].
          destruct (d_prl _ _ _ _ _ D W d) as (Pd & Vd & Ad & _); [rewrite Er; now left|]. assert (d = c) by lia. subst d.
          rewrite Ec in Pd. subst W. rewrite (d_prlv _ _ _ _ _ D) in Er. discriminate. }
        { intros Eo g3 H3. apply (HVK Gd Eo). destruct (Z.eqb_spec (N + d) (N + c)) as [E|E]; [exfalso|exact H3].
          destruct (d_prl _ _ _ _ _ D W d) as (Pd & Vd & Ad & _); [rewrite Er; now left|]. assert (d = c) by lia. subst d.
          rewrite Ec in Pd. subst W. rewrite (d_prlv _ _ _ _ _ D) in Er. discriminate. }
        rewrite W3. cbn [bind]. exists g3, C_NONEMBEDDABLE. split; [reflexivity|auto]. }
  pose proof (l_inv _ _ _ _ _ _ _ _ L) as D. unfold gp_GetVertexPertinentEdge. rewrite vi_ok by (rewrite (k_N _ _ (r_keeps _ _ _ _ H)); unfold GeoP.prim in PW; lia). cbn [bind]. rewrite (r_pe _ _ _ _ H). unfold K. clear K.
  destruct (Z.eqb_spec (pe a W) NIL) as [EP|EP]; cbn [negb bind].
  - exact (Cont g a fr P Q H L EP Hn).
  - destruct (emb_ok g0 kids St g a W fr P Q v c H D Hv Hc Ec (l_act _ _ _ _ _ _ _ _ L) (l_chain _ _ _ _ _ _ _ _ L) (l_passed _ _ _ _ _ _ _ _ L) PW EP) as (g1 & b & Q' & W1 & H1 & D1 & Dr & A1 & C1 & NQ & Pb & La & Eo & Lm & Em & Emf).
    { intros -> ->. destruct (l_chain _ _ _ _ _ _ _ _ L) as [_ C2]. pose proof (l_last _ _ _ _ _ _ _ _ L) as Q0. rewrite C2, last_snoc in Q0. congruence. }
    { intros Eo -> . destruct (l_oc _ _ _ _ _ _ _ _ L Eo) as (O1 & _). apply EP. auto. }
    rewrite W1. cbn [bind]. apply (res_trans two v c a b); [auto|now rewrite Eo|]. rewrite <- Eo. apply (Cont g1 b [] [] Q'); [exact H1| |rewrite Pb; apply upd_same|cbn [bot]; lia].
    constructor; auto.
    + intros x [].
    + intros _. left. destruct C1 as [_ ->]. destruct Q'; [congruence|]. cbn [app length]. lia.
    + rewrite La, Pb. unfold upd. destruct (_ =? _); [reflexivity|]. apply (l_last _ _ _ _ _ _ _ _ L).
    + intros Eo'. destruct (l_oc _ _ _ _ _ _ _ _ L Eo') as (O1 & O2 & O3). split; [intros _; rewrite Pb; apply upd_same|]. split; [intros z R []|].
      pose proof (l_chain _ _ _ _ _ _ _ _ L) as Ch. rewrite (passed_opl g0 v a P Eo' (l_passed _ _ _ _ _ _ _ _ L)) in Ch.
      apply (covers_embed g0 kids St v c a b W fr Q D D1 (l_act _ _ _ _ _ _ _ _ L)); auto. apply (proj1 (d_out _ _ _ _ _ D) Eo').
    + intros Et Eo'. pose proof (l_lastr _ _ _ _ _ _ _ _ L Et Eo') as Q0. rewrite La. destruct (prl b (last (X (eV a) (N + c)) NIL)) as [|d0 l0] eqn:E0; [reflexivity|].
      assert (In d0 (prl a (last (X (eV a) (N + c)) NIL))) as Q1 by (apply (dr_prl' _ _ _ _ _ Dr); rewrite E0; now left). rewrite Q0 in Q1. destruct Q1.
    + intros Gu. destruct (l_more _ _ _ _ _ _ _ _ L Gu) as (Ci & Fi & Pn & Gn). pose proof (l_chain _ _ _ _ _ _ _ _ L) as Ch. pose proof (l_act _ _ _ _ _ _ _ _ L) as Ac. destruct (chain_bot _ _ _ _ _ _ _ Ch) as [_ Xb].
      assert (HP : forall x, In x P -> ~ vat g0 v a [] x /\ ~ tat g0 v a [] x).
      { intros x Hx. split; [auto|]. exact (passed_none EE v c a P _ Hv Hc Ec D Ac Ci Xb (l_passed _ _ _ _ _ _ _ _ L) x Hx). }
      pose proof (dr_nb _ _ _ _ _ Dr) as Hnb.
      split; [exact (cinv_embed g0 kids St EE v c a b W fr P Q Hv Hc Ec D D1 Ci Ac PW Ch Em EP Hnb HP)|]. split; [|split].
      * cbn [map jx]. pose proof (em_fine g0 v c a b W fr Q Em Hnb Fi) as Fb. destruct C1 as [_ C1]. rewrite C1 in Fb. exact Fb.
      * intros x [].
      * intros Et. exact (Gd_embed g0 kids St EE v c a b W fr P Q Hv Hc Ec D Ci PW Ch Em EP Hnb (Gn Et)).
    + destruct (l_u _ _ _ _ _ _ _ _ L) as (Ci & Pn & Gn & Pk & HPI). pose proof (l_chain _ _ _ _ _ _ _ _ L) as Ch. pose proof (l_act _ _ _ _ _ _ _ _ L) as Ac. destruct (chain_bot _ _ _ _ _ _ _ Ch) as [_ Xb].
      assert (HP : forall x, In x P -> ~ vat g0 v a [] x /\ ~ tat g0 v a [] x).
      { intros x Hx. split; [auto|]. exact (passed_none anye v c a P _ Hv Hc Ec D Ac Ci Xb (l_passed _ _ _ _ _ _ _ _ L) x Hx). }
      pose proof (dr_nb _ _ _ _ _ Dr) as Hnb. pose proof (cinv_embed g0 kids St anye v c a b W fr P Q Hv Hc Ec D D1 Ci Ac PW Ch Em EP Hnb HP) as Cb.
      split; [exact Cb|]. split; [intros x []|]. split; [|split; [intros z y []|]].
      * intros Et. exact (Gd_embed g0 kids St anye v c a b W fr P Q Hv Hc Ec D Ci PW Ch Em EP Hnb (Gn Et)).
      * intros Eo'. exact (PI_embed g0 kids St anye v c a b W fr P Q Hv Hc Ec Eo' D D1 Ci Cb Ac PW Ch Em EP Hnb Emf Pk (HPI Eo')).
Qed.
End Down4.
