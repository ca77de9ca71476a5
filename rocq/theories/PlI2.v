(** * PlI2: what the planar isolator needs about the component being walked, and that embedding an edge keeps it. *)
From Coq Require Import ZifyBool Permutation Sorted.
From Verif Require Import Base BaseP GraphRec GraphM GraphSpec GSimp LinkP GraphP GraphP2 ListM ListSpec ListP DFSM DFSSpec DFSP TestSpec TestP TestP3 EmbM EmbSpec EmbP FaceP FanP GeoP GeoP2 EmbInv EmbStep EmbTree EmbWalk EmbFan EmbUp EmbJoin PlV PlV2 PlV3 NcP EmbDown PlanSpec EmbC1 EmbC2 EmbC3 EmbC4 PlI.

Lemma F2_impl {A B} (R R' : A -> B -> Prop) l m : (forall x y, R x y -> R' x y) -> Forall2 R l m -> Forall2 R' l m.
Proof. intros H K. induction K; constructor; auto. Qed.

Section PI.
Variables (g0 : graph) (kids : Z -> list Z).
Hypothesis St : static g0 kids.
Local Notation N := (gN g0).
Local Notation p := (viParent (gVI g0)).
Local Notation prim := (prim (gN g0)).
Local Notation isroot := (isroot (gN g0)).
Local Notation geo := (geo (gN g0) (viParent (gVI g0))).
Local Notation geob := (geob (gN g0) (viParent (gVI g0))).
Local Notation anc := (ancestor (viParent (gVI g0))).
Local Notation act := (act g0).
Local Notation fsim := (fsim g0).
Local Notation vsof := (vsof (gN g0)).
Local Notation inc := (inc (gN g0)).
Local Notation oface := (oface (gN g0)).
Local Notation iface := (iface (gN g0)).
Local Notation chain := (chain g0).
Local Notation Lw := (Lw g0).
Local Notation comb := (comb g0).
Local Notation lc := (lc g0).
Local Notation hs := (hs g0).
Local Notation vat := (vat g0).
Local Notation tat := (tat g0).
Local Notation fpt := (fpt g0).
Local Notation Fls := (Fls g0).
Local Notation dinv := (EmbDown.dinv g0 kids).
Local Notation low d := (viLow (gVI g0) d).

(** A vertex on the external face and on an inner face at the root, between two vertices that lead above v, that leads to v
    does so through a child component that leads above v. *)
Definition PW (v : Z) (a : est) (L Om : list Z) : Prop := forall La w Lb, L = La ++ w :: Lb -> In w Om -> (exists x, In x La /\ tat v a [] x) -> (exists x, In x Lb /\ tat v a [] x) -> vat v a [] w ->
  pe a w = NIL /\ exists d, In d (prl a w) /\ low d < v.
(** Between two consecutive common vertices of the external face and of an inner face at the root. *)
Definition EXF (v : Z) (a : est) (L fl : list Z) : Prop := forall l1 a1 mid b1 l2 La Lm Lb, fl = l1 ++ a1 :: mid ++ b1 :: l2 -> (forall x, In x mid -> ~ In x L) -> L = La ++ a1 :: Lm ++ b1 :: Lb ->
  (exists x, In x (La ++ [a1]) /\ tat v a [] x) -> (exists x, In x (b1 :: Lb) /\ tat v a [] x) -> (exists x, In x Lm /\ vat v a [] x) -> exists x, In x Lm /\ tat v a [] x.
Definition PI (v c : Z) (a : est) : Prop := exists L fls, Lw (eV a) (N + c) L /\ Fls (eV a) (N + c) (tl (rot (eV a) (N + c))) fls /\ nc (L ++ rev (concat fls)) /\
  PW v a L (concat fls) /\ (forall fl, In fl fls -> EXF v a L fl).
(** How the walk chose its way down. *)
Definition picks (v : Z) (a : est) (fr : list (Z * Z)) : Prop := forall z d, In (z, N + d) fr -> pe a z = NIL /\ (exists l, prl a z = d :: l) /\
  (~ fpt v a (hd NIL (X (eV a) (N + d))) \/ fpt v a (last (X (eV a) (N + d)) NIL) \/ ~ pert a (last (X (eV a) (N + d)) NIL)).

(** ** Start *)
Lemma PI_one v c a L e : Lw (eV a) (N + c) L -> NoDup L -> adj (eV a) (N + c) = [e] -> PI v c a.
Proof.
  intros HL Nd E. exists L, []. assert (Er : rot (eV a) (N + c) = [e]) by (unfold rot; rewrite E; destruct (o (eV a) (N + c)); reflexivity). rewrite Er. cbn [tl concat rev].
  split; [auto|]. split; [constructor|]. split; [rewrite app_nil_r; now apply nc_nodup|]. split; [intros La w Lb _ []|intros fl []].
Qed.

(** ** The same component *)
Section Same.
Variables (v c : Z) (a b : est).
Hypothesis G : geo NIL [] (eV a).
Hypotheses (HR : isroot (N + c)) (NR : adj (eV a) (N + c) <> []).
Hypotheses (HV : forall x, vat v b [] x <-> vat v a [] x) (HT : forall x, tat v b [] x <-> tat v a [] x) (Ep : pe b = pe a) (Er : prl b = prl a).
Lemma PW_same L Om : PW v a L Om -> PW v b L Om.
Proof. intros H La w Lb E I (x & X1 & X2) (y & Y1 & Y2) V. rewrite Ep, Er. apply (H La w Lb); auto; [exists x|exists y|now apply HV]; (split; [auto|now apply HT]). Qed.
Lemma EXF_same L fl : EXF v a L fl -> EXF v b L fl.
Proof.
  intros H l1 a1 mid b1 l2 La Lm Lb E1 Hm E2 (x & X1 & X2) (y & Y1 & Y2) (z & Z1 & Z2). destruct (H l1 a1 mid b1 l2 La Lm Lb E1 Hm E2) as (q & Q1 & Q2).
  - exists x. split; [auto|now apply HT].
  - exists y. split; [auto|now apply HT].
  - exists z. split; [auto|now apply HV].
  - exists q. split; [auto|now apply HT].
Qed.
Lemma PW_rev L Om Om' : (forall x, In x Om' -> In x Om) -> PW v a L Om -> PW v a (rev L) Om'.
Proof.
  intros HO H La w Lb E I (x & X1 & X2) (y & Y1 & Y2) V. apply (H (rev Lb) w (rev La)); auto.
  - rewrite <- (rev_involutive L), E, rev_app_distr. cbn [rev]. now rewrite <- app_assoc.
  - exists y. split; [now apply -> in_rev|auto].
  - exists x. split; [now apply -> in_rev|auto].
Qed.
Lemma EXF_rev L fl : EXF v a L fl -> EXF v a (rev L) (rev fl).
Proof.
  intros H l1 a1 mid b1 l2 La Lm Lb E1 Hm E2 (x & X1 & X2) (y & Y1 & Y2) (z & Z1 & Z2). destruct (H (rev l2) b1 (rev mid) a1 (rev l1) (rev Lb) (rev Lm) (rev La)) as (q & Q1 & Q2).
  - rewrite <- (rev_involutive fl), E1, rev_app_distr. cbn [rev]. rewrite rev_app_distr. cbn [rev]. rewrite <- !app_assoc. cbn [app]. reflexivity.
  - intros q Q. apply in_rev in Q. intros Q'. apply (Hm q Q). now apply in_rev in Q'.
  - rewrite <- (rev_involutive L), E2, rev_app_distr. cbn [rev]. rewrite rev_app_distr. cbn [rev]. rewrite <- !app_assoc. cbn [app]. reflexivity.
  - exists y. split; [|auto]. apply in_app_iff. destruct Y1 as [<-|Y1]; [right; now left|left; now apply -> in_rev].
  - exists x. split; [|auto]. apply in_app_iff in X1. destruct X1 as [X1|[<-|[]]]; [right; now apply -> in_rev|now left].
  - exists z. split; [now apply -> in_rev|auto].
  - exists q. split; [now apply in_rev|auto].
Qed.
Lemma PI_agree : agree N (eV a) (eV b) (N + c) -> PI v c a -> PI v c b.
Proof.
  intros A (L & fls & (F & O & EL) & H2 & H3 & H4 & H5). pose proof (g_base _ _ _ _ _ G) as G0. pose proof (closed_of g0 _ _ _ _ G HR NR) as Cl. exists L, fls. split; [|split; [|split; [auto|split]]].
  - exists F. split; [now apply (ag_oface N p (eV a))|]. rewrite (ag_map N p (eV a) (eV b) (N + c)); auto. apply O.
  - rewrite (ag_rot N (eV a) (eV b) (N + c) A) by now left. eapply F2_impl; [|exact H2]. intros r fl (F' & I & E). exists F'. split; [now apply (ag_iface N p (eV a))|].
    rewrite (ag_map N p (eV a) (eV b) (N + c)); auto. apply I.
  - now apply PW_same.
  - intros fl Hf. apply EXF_same. auto.
Qed.
(** The arc of the root that follows the one closing an inner face. *)
Lemma iface_prev s r F : geob s -> In r (adj s (N + c)) -> iface s (N + c) r F -> cnext (rot s (N + c)) (twin (last F NIL)) = r /\ In (twin (last F NIL)) (rot s (N + c)).
Proof.
  clear G NR HV HT Ep Er. intros G Hr I. pose proof (if_cl _ _ _ _ _ I) as [NF C]. pose proof (fchain_last _ _ _ C NF) as L. assert (Il := if_in _ _ _ _ _ I _ (last_in _ NIL NF)).
  destruct (arc_st N p s _ _ G (proj2 Il)) as (S1 & S2 & S3). rewrite (if_hd _ _ _ _ _ I) in L. rewrite L in S2. rewrite (arc_src N p s _ r G Hr) in S2. unfold stp, fstep in L. rewrite <- S2 in *. split; [auto|now apply in_rot].
Qed.
Lemma PI_mirror : nb (eV b) = nb (eV a) -> adj (eV b) = adj (eV a) -> B (eV b) = B (eV a) -> (forall x, In x (vsof (eV a) (N + c)) -> o (eV b) x = negb (o (eV a) x)) -> PI v c a -> PI v c b.
Proof.
  intros En Ea EB Eo (L & fls & (F & O & EL) & H2 & H3 & H4 & H5). pose proof (g_base _ _ _ _ _ G) as G0. pose proof (closed_of g0 _ _ _ _ G HR NR) as Cl. unfold PI. set (s := eV a) in *. set (t := eV b) in *.
  assert (EO : concat (rev (map (@rev Z) fls)) = rev (concat fls)). { clear. induction fls as [|x l IH]; [reflexivity|]. cbn [map rev concat]. rewrite concat_app, IH, rev_app_distr. cbn [concat]. now rewrite app_nil_r. }
  exists (rev L), (rev (map (@rev Z) fls)). rewrite EO. split; [|split; [|split; [|split]]].
  - exists (mirror F). split; [now apply (mi_oface N p s t (N + c))|]. rewrite (mi_src N p s t (N + c)); auto; try apply O. cbn [tl]. now rewrite EL.
  - assert (Er' : rot t (N + c) = rev (rot s (N + c))) by (apply (mi_rot N s t (N + c)); auto; now left). rewrite Er'. clear H3 H4 H5 EO.
    assert (Nd : NoDup (rot s (N + c))) by (apply rot_nodup, (g_nodup _ _ _ G0)). assert (Hin : forall r, In r (rot s (N + c)) -> In r (adj s (N + c))) by (intros r; apply in_rot).
    assert (K : forall pre r1 rs fls, rot s (N + c) = pre ++ r1 :: rs -> Fls s (N + c) rs fls -> Fls t (N + c) (removelast (r1 :: rs)) (map (@rev Z) fls)).
    { intros pre r1 rs. revert pre r1. induction rs as [|r rs IH]; intros pre r1 fs E Hf; inversion Hf as [|? ? ? ? Hf1 Hf2]; subst; [constructor|]. change (removelast (r1 :: r :: rs)) with (r1 :: removelast (r :: rs)). cbn [map]. constructor.
      - destruct Hf1 as (F' & I & ->). assert (Hr : In r (adj s (N + c))) by (apply Hin; rewrite E; apply in_app_iff; right; right; now left). destruct (iface_prev s r F' G0 Hr I) as [P1 P2].
        assert (E1 : twin (last F' NIL) = r1). { apply (cnext_inj (rot s (N + c))); auto; [rewrite E; apply in_app_iff; right; now left|]. rewrite P1, E. rewrite E in Nd. now rewrite (cnext_split _ _ _ Nd). }
        exists (mirror F'). split; [rewrite <- E1; now apply (mi_iface N p s t (N + c) G0 Cl En Ea EB Eo r)|]. rewrite (mi_src N p s t (N + c)); auto; try apply I.
      - apply (IH (pre ++ [r1])); [rewrite E, <- app_assoc; reflexivity|auto]. }
    destruct (rot s (N + c)) as [|r1 rs] eqn:E; [inversion H2; constructor|]. cbn [tl] in H2. specialize (K [] r1 rs fls eq_refl H2).
    assert (E2 : tl (rev (r1 :: rs)) = rev (removelast (r1 :: rs))). { destruct (exists_last (l := r1 :: rs) ltac:(discriminate)) as (l' & y & ->). rewrite rev_app_distr, removelast_app by discriminate. cbn [rev app tl removelast]. now rewrite app_nil_r. }
    rewrite E2. unfold PlI.Fls in *. clear - K. induction K as [|x y l l' H K IH]; [constructor|]. cbn [rev]. apply Forall2_app; [auto|]. constructor; [auto|constructor].
  - rewrite <- rev_app_distr. apply nc_rev. now apply nc_turn.
  - apply PW_same. apply (PW_rev _ (concat fls)); [intros x Hx; now apply in_rev|auto].
  - intros fl Hf. apply in_rev in Hf. apply in_map_iff in Hf. destruct Hf as (fl' & <- & Hf). apply EXF_same, EXF_rev. auto.
Qed.
Lemma PI_sim : fsim (eV a) (eV b) -> PI v c a -> PI v c b.
Proof.
  intros S H. destruct (fs_o _ _ S (N + c) HR) as [[_ E]|[_ E]].
  - apply PI_agree; [|auto]. constructor; intros; rewrite ?(fs_nb _ _ S), ?(fs_adj _ _ S); auto. unfold mem. now rewrite (fs_B _ _ S).
  - apply PI_mirror; auto; [apply (fs_nb _ _ S)|apply (fs_adj _ _ S)|apply (fs_B _ _ S)].
Qed.
Lemma PI_ext : nb (eV b) = nb (eV a) -> adj (eV b) = adj (eV a) -> B (eV b) = B (eV a) -> o (eV b) = o (eV a) -> PI v c a -> PI v c b.
Proof. intros En Ea EB Eo. apply PI_agree. constructor; intros; rewrite ?En, ?Ea, ?Eo; auto. unfold mem. now rewrite EB. Qed.
End Same.

(** ** Embedding *)
Section Embed.
Variables (E : Z -> Z -> Prop) (v c : Z) (a b : est) (W : Z) (fr : list (Z * Z)) (P Q : list Z).
Hypotheses (Pv : prim v) (Pc : prim c) (Ec : p c = v) (Eo : opl g0 = false).
Hypotheses (D : dinv v c a) (Db : dinv v c b) (C : cinv g0 E v c a) (Cb : cinv g0 E v c b) (Ac : act (eV a) c).
Hypotheses (HW : prim W) (Ch : chain a (N + c) W fr P Q) (Em : emrel g0 c a b W fr Q) (PE : pe a W <> NIL).
Hypothesis Hnb : forall u f, In f (fw b u) -> nb (eV b) f = nb (eV a) f.
Hypothesis Emf : emface g0 (eV a) (comb a fr) (eV b) (N + c) W.
Hypothesis Pk : picks v a fr.
Local Notation s := (eV a).
Local Notation G := (d_geo _ _ _ _ _ D).
Local Notation G0 := (g_base _ _ _ _ _ G).
Local Notation Rs := (map snd fr).
Local Notation HR := (c_root g0 c Pc).
Local Notation NR := (proj2 (proj2 Ac)).

Lemma fr_lc : lc a (N + c) fr.
Proof. apply (chain_lc g0 kids St a _ _ _ c P Q eq_refl HR Pc G fr W HW Ch). Qed.
Lemma fr_in z R : In (z, R) fr -> exists d, R = N + d /\ act s d /\ p d = z /\ In d (prl a z) /\ anc c z /\ prim z.
Proof. apply (chain_in g0 kids St _ _ _ _ _ _ _ _ G eq_refl Pc W HW Ch). Qed.
Lemma fr_d z d : In (z, N + d) fr -> act s d /\ p d = z /\ prim z /\ v < z /\ anc c z.
Proof. intros H. destruct (fr_in _ _ H) as (d' & E1 & E2 & E3 & E4 & E5 & E6). assert (d' = d) by lia. subst d'. split; [auto|]. split; [auto|]. split; [auto|]. split; [|auto]. apply (c_lt g0 kids St v c Pv Pc Ec); auto. Qed.
Lemma rs_fr d : In (N + d) Rs -> In (p d, N + d) fr.
Proof. intros H. apply in_map_iff in H. destruct H as ([z R] & E1 & H). cbn [snd] in E1. subst R. destruct (fr_d _ _ H) as (_ & -> & _). auto. Qed.
Lemma lc_inj f : lc a (N + c) f -> forall z R z' R', In (z, R) f -> In (z', R') f -> B s z = B s z' -> z = z'.
Proof.
  induction f as [|[z1 R1] f IH]; intros Lc z R z' R' H1 H2 EB; [destruct H1|]. cbn [PlV3.lc] in Lc. destruct Lc as (_ & _ & _ & L4 & _ & _ & L7). pose proof (lc_low g0 a (N + c) f L7) as Lo.
  destruct H1 as [H1|H1], H2 as [H2|H2].
  - congruence.
  - injection H1 as -> ->. destruct (Lo z' R' H2) as (_ & Q1 & _). congruence.
  - injection H2 as -> ->. destruct (Lo z R H1) as (_ & Q1 & _). congruence.
  - apply (IH L7 z R z' R'); auto.
Qed.
Lemma fr_W z R : In (z, R) fr -> B s z <> B s W.
Proof. intros H. destruct (lc_low g0 a (N + c) fr fr_lc z R H) as (_ & Q1 & _). now rewrite (chain_top g0 _ _ _ _ _ _ _ _ G HR Ch). Qed.
(** Vertices the walk did not descend from are as active as before. *)
Lemma tat_keep x : (forall d, In (x, N + d) fr -> False) -> tat v a [] x -> tat v b [] x.
Proof.
  intros Hn [Q0|(u & f & Hu & Hf & Hh)]; [congruence|]. right. assert (Hb : In f (fw b u)) by (apply (fw_other g0 kids v c a b W fr Q D Em PE); [auto|lia]). exists u, f. split; [auto|]. split; [auto|]. rewrite (Hnb u f Hb). apply (em_hs g0 c a b W fr Q Em).
  destruct Hh as [Q0|(d' & A1 & _ & A3 & A4 & A5)]; [now left|]. right. exists d'. split; [auto|]. split; [|auto]. intros Hi. apply rs_fr in Hi. rewrite A3 in Hi. eauto.
Qed.
Lemma tat_old x : tat v b [] x -> tat v a [] x.
Proof. intros T. apply (tat_nil g0 _ _ Rs). apply (em_tat g0 v c a b W fr Q Em Hnb x T). Qed.
Lemma vat_old x : vat v b [] x -> vat v a [] x.
Proof. intros T. apply (vat_nil g0 _ _ Rs). apply (em_vat g0 v c a b W fr Q Em Hnb x T). Qed.
(** Activity below a child the walk descended through. *)
Lemma tat_lift z d x : In (z, N + d) fr -> anc d x -> tat v b [] x -> tat v a [] z /\ low d < v.
Proof.
  intros Hi A T. destruct (fr_d z d Hi) as (Ad & Ed & Pz & _). apply tat_old in T. destruct T as [Q0|(u & f & Hu & Hf & Hh)]; [congruence|]. pose proof (hs_anc g0 _ _ _ _ Hh) as A1. pose proof (anc_trans _ _ _ _ A A1) as A2.
  split; [|pose proof (fo_lp _ _ (d_fw _ _ _ _ _ D) u f d Hf (proj1 Ad) A2); lia]. right. exists u, f. split; [auto|]. split; [auto|]. right. exists d. split; [auto|]. split; [intros []|]. split; [auto|]. split; [auto|]. apply (nb_prim g0 kids a v c D u f Hf).
Qed.
Lemma bot_in w f : f <> [] -> exists R, In (bot w f, R) f.
Proof. revert w. induction f as [|[z R] f IH]; intros w H; [congruence|]. cbn [bot]. destruct f as [|q f]; [exists R; now left|]. destruct (IH z ltac:(discriminate)) as [R' H']. exists R'. now right. Qed.

Lemma PI_embed : PI v c a -> PI v c b.
Proof.
  intros (L & fls & HL & HF & Hnc & HPW & HEX). destruct Emf as (U0 & V0 & U & V & F & f & LW & Cm & LV & IF & EF & Er & Old).
  pose proof fr_lc as Lc. pose proof (chain_top g0 _ _ _ _ _ _ _ _ G HR Ch) as Tp. pose proof (g_base _ _ _ _ _ (d_geo _ _ _ _ _ Db)) as Gb.
  assert (HT : isroot (B s W) /\ adj s (B s W) <> []). { rewrite Tp. destruct fr as [|[z R] fr']; cbn [map snd hd]; [split; [apply HR|apply NR]|]. cbn [PlV3.lc] in Lc. tauto. }
  destruct HT as [HT1 HT2]. destruct (Lw_facts g0 _ _ _ G0 HT1 HT2 LW) as [Nd0 In0]. destruct (Lw_facts g0 _ _ _ G0 HR NR HL) as [NdL InL].
  assert (NRb : adj (eV b) (N + c) <> []). { intros Q0. assert (In f (adj (eV b) (N + c))) as I by (apply in_rot; rewrite Er; now left). rewrite Q0 in I. destruct I. }
  destruct (Lw_facts g0 _ _ _ Gb HR NRb LV) as [NdV InV].
  pose proof (Om_facts g0 s (N + c) fls G0 HR HF) as InO.
  assert (Nrot : rot s (N + c) <> []) by (apply rot_ne, NR).
  destruct (comb_pref g0 _ _ _ _ _ _ Cm) as (S & S' & EV & EU). cbn [app] in EV.
  assert (ApW : forall z R r, fr = (z, R) :: r -> apart a (W :: U0 ++ W :: V0) (N + c :: map snd r)).
  { intros z R r Ef x Hx. assert (BW : B s W = R) by (rewrite Tp, Ef; reflexivity). assert (Hx' : In x (U0 ++ W :: V0)) by (destruct Hx as [<-|Hx]; [apply in_app_iff; right; now left|auto]). destruct (In0 x Hx') as [_ ->]. rewrite BW, Ef in *. cbn [PlV3.lc] in Lc. tauto. }
  destruct (comb_bot g0 a (N + c) fr W U0 (W :: V0) U V Cm ltac:(intros Ef; exists V0; split; [auto|]; rewrite Tp, Ef in LW; exact LW) Lc) as (Ub & Vb & Uh & Vh & B1 & B2 & B3 & B4).
  pose proof (Lw_uniq g0 _ _ _ _ HL B1) as EL. set (zb := bot W fr) in *.
  assert (CA : forall z d, In (z, N + d) fr -> forall La Lb, V = La ++ z :: Lb -> forall x, In x La -> anc d x).
  { intros z d Hi La Lb E1 x Hx. destruct (comb_anc g0 kids St a c P Q G Pc NR fr W U0 (W :: V0) U V HW Ch Cm) with (z := z) (d := d) as (La' & Lb' & E2 & H2); [|auto|].
    - intros z1 d1 r1 Ef x1 Hx1. assert (BW : B s W = N + d1) by (rewrite Tp, Ef; reflexivity). destruct (In0 x1) as [Px Bx]; [apply in_app_iff; auto|]. split; [auto|]. rewrite BW in Bx.
      destruct (fr_d z1 d1) as ((Pd & _) & _); [rewrite Ef; now left|]. apply (B_anc g0 kids St _ _ _ _ _ G Pd Px Bx).
    - rewrite E1 in E2, NdV. destruct (split_uniq _ _ _ _ _ NdV E2) as [-> _]. now apply H2. }
  assert (Cbot : forall La Lb, V = La ++ zb :: Lb -> La = Vh /\ Lb = Vb). { intros La Lb E1. rewrite B2 in E1, NdV. destruct (split_uniq _ _ _ _ _ NdV E1). auto. }
  assert (Fb : Vh = [] \/ exists d, In (zb, N + d) fr).
  { assert (fr = [] \/ fr <> []) as [Ef|Ef] by (clear; destruct fr; [now left|right; discriminate]); [left; now apply B4|right]. destruct (bot_in W fr Ef) as [R Hi]. fold zb in Hi. destruct (fr_in _ _ Hi) as (d & -> & _). eauto. }
  assert (ZbB : B s zb = N + c) by (apply InL; rewrite EL; apply in_app_iff; right; now left).
  assert (LiftH : forall x, In x Vh -> tat v b [] x -> tat v a [] zb).
  { intros x Hx T. destruct Fb as [E1|(d & Hi)]; [rewrite E1 in Hx; destruct Hx|]. apply (tat_lift zb d x); auto. apply (CA zb d Hi Vh Vb B2 x Hx). }
  assert (InZ : forall x, In x V -> B s x = N + c -> In x (zb :: Vb)).
  { intros x Hx Bx. rewrite B2 in Hx. apply in_app_iff in Hx. destruct Hx as [Hx|Hx]; [exfalso|auto]. destruct Fb as [E1|(d & Hi)]; [rewrite E1 in Hx; destruct Hx|]. destruct (fr_d _ _ Hi) as (Ad & Ed & Pz & _ & Az). pose proof (CA zb d Hi Vh Vb B2 x Hx) as Ax.
    assert (Px : prim x) by (apply InV; rewrite B2; apply in_app_iff; auto). pose proof (B_near g0 kids St _ _ _ _ _ G Ad Px Ax) as Bn. rewrite Bx in Bn. pose proof (proj2 (Hp g0 kids St d (proj1 Ad) (proj1 (proj2 Ad)))) as Q1. rewrite Ed in Q1.
    pose proof (anc_le g0 kids St _ _ Pz Az). lia. }
  assert (NfB : forall x d, In (x, N + d) fr -> B s x = N + c -> x = zb).
  { intros x d Hi Bx. destruct (bot_in W fr ltac:(intros Q0; rewrite Q0 in Hi; destruct Hi)) as [R Hz]. fold zb in Hz. apply (lc_inj fr Lc x _ zb _ Hi Hz). congruence. }
  assert (LVb : L = Ub ++ zb :: Vb) by exact EL.
  assert (Meet : forall x, In x U -> In x V -> In x (map fst fr)).
  { apply (comb_meet g0 a (N + c) G HR NR fr fr U0 (W :: V0) U V Lc Cm); auto.
    - intros Ne x Hx. destruct fr as [|[z R] r] eqn:Ef; [congruence|]. apply (ApW z R r eq_refl). now right.
    - intros x H1 H2. elim (NoDup_app_disj _ _ x Nd0 H1 H2). }
  exists V, ((W :: rev U) :: fls). split; [auto|]. rewrite Er. cbn [tl]. split; [|split; [|split]].
  - destruct (rot s (N + c)) as [|r1 rs] eqn:Ero; [congruence|]. cbn [hd tl] in *. constructor.
    + exists F. split; [auto|]. rewrite EF, rev_app_distr. reflexivity.
    + assert (Ndr : NoDup (r1 :: rs)) by (rewrite <- Ero; apply rot_nodup, (g_nodup _ _ _ G0)). assert (Ia : forall r, In r rs -> In r (adj s (N + c)) /\ r <> r1).
      { intros r Hr. split; [apply in_rot; rewrite Ero; now right|]. intros ->. apply NoDup_cons_iff in Ndr. tauto. }
      clear - HF Ia Old. unfold PlI.Fls in *. induction HF as [|r fl rs fls (F' & I & ->) HF IH]; constructor.
      * destruct (Ia r (or_introl eq_refl)) as [A1 A2]. destruct (Old r F' I A1 A2) as [O1 O2]. exists F'. split; [auto|]. now rewrite O2.
      * apply IH. intros; apply Ia; now right.
  - cbn [concat]. assert (K : nc (U ++ V ++ rev (concat fls))).
    { apply (comb_nc g0 a (N + c) G HR NR (concat fls) ltac:(intros; apply InO; auto) ltac:(intros L' HL'; rewrite (Lw_uniq g0 _ _ _ _ HL' HL); auto) fr U0 (W :: V0) U V Lc Cm).
      destruct fr as [|[z R] r] eqn:Ef.
      - cbn [map hd] in Tp. rewrite Tp in LW. pose proof (Lw_uniq g0 _ _ _ _ LW HL) as Q0. rewrite app_assoc. rewrite Q0. exact Hnc.
      - split; [now apply nc_nodup|]. cbn [tl]. intros x Hx. apply (ApW z R r eq_refl). now right. }
    rewrite rev_app_distr. cbn [rev]. rewrite rev_involutive. rewrite EV in *. cbn [app] in *. apply nc_turn in K. cbn [app] in K. rewrite <- app_assoc in K.
    apply (nc_dup [] W) in K. cbn [app] in K. change (nc ([W] ++ (W :: (V0 ++ S) ++ rev (concat fls) ++ U))) in K. apply nc_turn in K. cbn [app] in K. rewrite <- !app_assoc in *. exact K.
  - (* PW *)
    cbn [concat]. intros La w Lb E1 Iw (x & X1 & X2) (y & Y1 & Y2) Vw. cbn [app] in Iw. rewrite (em_pe _ _ _ _ _ _ _ Em).
    assert (NW : w <> W). { intros ->. rewrite EV in E1, NdV. cbn [app] in *. destruct (split_uniq [] W (V0 ++ S) _ _ NdV E1) as [<- _]. destruct X1. }
    rewrite upd_other by auto. destruct (in_dec Z.eq_dec w (map fst fr)) as [Hf|Hf].
    + apply in_map_iff in Hf. destruct Hf as ([z R] & E2 & Hi). cbn [fst] in E2. subst z. destruct (fr_in _ _ Hi) as (d & -> & _). destruct (Pk w d Hi) as (K1 & (l & K2) & _). destruct (fr_d w d Hi) as (Ad & Ed & Pw & Lv & Aw). split; [auto|].
      destruct (tat_lift w d x Hi (CA w d Hi La Lb E1 x X1) X2) as [_ Lo]. apply (pert_vat g0 kids E b v c Db Cb w Pw Lv) in Vw. destruct Vw as [Vw|Vw].
      { rewrite (em_pe _ _ _ _ _ _ _ Em), upd_other in Vw by auto. contradiction. }
      destruct (prl b w) as [|d1 l1] eqn:E3; [congruence|]. exists d1. split; [now left|]. assert (Hd1 : In d1 (prl b w)) by (rewrite E3; now left). apply (em_prl _ _ _ _ _ _ _ Em) in Hd1. destruct Hd1 as [Hd1 Hd2].
      rewrite K2 in Hd1. destruct Hd1 as [<-|Hd1]; [auto|]. pose proof (ci_ord _ _ _ _ _ C w) as So. rewrite K2 in So. inversion So as [|? ? _ Fo]; subst. rewrite Forall_forall in Fo. apply Fo; auto.
    + assert (Nfr : forall d, In (w, N + d) fr -> False) by (intros d Hi; apply Hf; apply in_map_iff; exists (w, N + d); auto).
      assert (IwV : In w V) by (rewrite E1; apply in_app_iff; right; now left).
      assert (IO : In w (concat fls)).
      { destruct Iw as [Q0|Iw]; [congruence|]. apply in_app_iff in Iw. destruct Iw as [Iw|Iw]; [exfalso|auto]. apply in_rev in Iw.
        apply Hf. apply (Meet w); auto. }
      assert (Bw : B s w = N + c) by now apply InO. pose proof (InZ w IwV Bw) as Jw.
      (* w is after zb, on the old face *)
      assert (ES : exists M, zb :: Vb = M ++ w :: Lb /\ La = Vh ++ M).
      { rewrite B2 in E1. destruct (split_or _ _ _ _ _ E1) as [(D' & F1 & F2)|(C' & F1 & F2)]; [exfalso|exists C'; auto]. rewrite B2 in NdV. apply (NoDup_app_disj _ _ w NdV); [rewrite F1; apply in_app_iff; right; now left|auto]. }
      destruct ES as (M & ES & ELa). destruct (HPW (Ub ++ M) w Lb) as (K1 & d & K2 & K3).
      * rewrite LVb, ES, <- app_assoc. reflexivity.
      * auto.
      * rewrite ELa in X1. apply in_app_iff in X1. destruct X1 as [X1|X1]; [|exists x; split; [apply in_app_iff; auto|now apply tat_old]]. pose proof (LiftH x X1 X2) as Tz.
        destruct M as [|m M]; [|injection ES as <- ES; exists zb; split; [apply in_app_iff; right; now left|auto]].
        (* w = zb *) injection ES as Q0 _. exfalso. destruct Fb as [E2|(d & Hi)]; [rewrite E2 in X1; destruct X1|]. apply Hf. apply in_map_iff. exists (zb, N + d). auto.
      * exists y. split; [auto|now apply tat_old].
      * now apply vat_old.
      * split; [auto|]. exists d. split; [|auto]. apply (em_prl _ _ _ _ _ _ _ Em). split; [auto|]. intros Hi. apply rs_fr in Hi. destruct (d_prl _ _ _ _ _ D w d K2) as (Pd & _). rewrite Pd in Hi. eauto.
  - (* EXF *)
    intros fl [<-|Hfl] l1 a1 mid b1 l2 La Lm Lb E1 Hm E2 (x & X1 & X2) (y & Y1 & Y2) (z & Z1 & Z2).
    + (* the new face *)
      assert (Nf : newf g0 a W fr U V).
      { apply (comb_new g0 kids St a c P Q G Pc NR W fr fr W U0 (W :: V0) U V HW Ch Cm); auto.
        - exists [], [], U0, V0. split; [auto|]. split; [auto|]. split; [auto|]. intros q H1 H2. apply (NoDup_app_disj _ _ q Nd0 H1 H2).
        - now apply NoDup_app_r in Nd0.
        - apply NoDup_mid in Nd0. constructor; [intros Q0; apply (proj2 Nd0); apply in_app_iff; auto|]. exact (NoDup_app_l _ _ (proj1 Nd0)).
        - intros m1 a2 md b2 m2 La2 Lm2 Lb2 G1 _ G2. exfalso. assert (I1 : In b2 U0).
          { destruct m1 as [|q m1]; cbn [app] in G1; injection G1 as _ G1; apply in_rev; rewrite G1; [apply in_app_iff; right; now left|]. apply in_app_iff. right. right. apply in_app_iff. right. now left. }
          apply (NoDup_app_disj _ _ b2 Nd0 I1). rewrite G2. apply in_app_iff. right. right. apply in_app_iff. right. now left. }
      destruct (Nf l1 a1 mid b1 l2 La Lm Lb E1 Hm E2) as (Ha1 & d & Uc & Hb1 & Lc1 & (l & EX)). destruct (fr_d b1 d Hb1) as (Ad & Ed & Pb & Lb1 & Ab1). pose proof (proj2 (proj2 Ad)) as NRd.
      assert (HRd : isroot (N + d)) by (destruct Ad as (Pd & _); unfold GeoP.isroot, GeoP.prim in *; lia). destruct (Lw_facts g0 _ _ _ G0 HRd NRd Lc1) as [Ndc Inc].
      destruct (Inc a1) as [Pa Ba]; [apply in_app_iff; right; now left|].
      assert (Ta : tat v a [] a1).
      { apply in_app_iff in X1. destruct X1 as [X1|[<-|[]]]; [|now apply tat_old]. destruct Ha1 as [->|(d1 & Hd1)].
        - exfalso. rewrite EV in E2, NdV. cbn [app] in *. destruct (split_uniq [] W (V0 ++ S) _ _ NdV E2) as [<- _]. destruct X1.
        - apply (tat_lift a1 d1 x Hd1 (CA a1 d1 Hd1 La _ E2 x X1) X2). }
      assert (Nfm : forall q, In q Lm -> forall d', In (q, N + d') fr -> False).
      { intros q Hq d' Hi. destruct (Inc q) as [_ Bq]; [apply in_app_iff; right; now right|]. assert (q <> a1). { intros ->. apply NoDup_app_r in Ndc. apply NoDup_cons_iff in Ndc. tauto. }
        destruct Ha1 as [->|(d1 & Hd1)]; [apply (fr_W q _ Hi); congruence|]. apply H. apply (lc_inj fr Lc q _ a1 _ Hi Hd1). congruence. }
      assert (Ne : d <> c) by (intros ->; rewrite Ec in Ed; pose proof (c_lt g0 kids St v c Pv Pc Ec b1 Pb Ab1); lia).
      assert (Acd : anc c d) by (apply anc_step; [apply Ad|now rewrite Ed]).
      assert (Vold : forall q, In q Lm -> vat v b [] q -> In q l).
      { intros q Hq Vq. apply vat_old in Vq. destruct (Inc q) as [Pq Bq]; [apply in_app_iff; right; now right|]. destruct Vq as (f1 & Hf1 & Hh). destruct (ci_keep _ _ _ _ _ C v f1 ltac:(lia) Hf1) as [K1 K2].
        assert (Iq : In q (X s (N + d))). { destruct Hh as [Q0|(d2 & A1 & _ & A3 & A4 & A5)]; [rewrite Q0, Bq in K1; auto|]. assert (Lq : v < p d2) by (rewrite A3; apply (c_lt g0 kids St v c Pv Pc Ec q Pq); apply anc_trans with d; [auto|]; apply (B_anc g0 kids St _ _ _ _ _ G (proj1 Ad) Pq Bq)). specialize (K2 d2 A1 A4 Lq). rewrite A3, Bq in K2. auto. }
        rewrite EX in Iq. destruct Iq as [<-|Iq]; [|auto]. exfalso. apply NoDup_app_r in Ndc. apply NoDup_cons_iff in Ndc. tauto. }
      destruct (full_of g0 _ _ G Ad) as [_ Fu]. destruct Lc1 as (F1 & O1 & EF1). pose proof (X_sub g0 s (N + d) F1 G0 Fu HRd O1) as XS. rewrite EF1, EX in XS.
      assert (Sl : sub l Lm). { clear - XS Ndc. induction Uc as [|q Uc IH]; cbn [app] in *; [inversion XS; subst; [auto|]; apply NoDup_cons_iff in Ndc; elim (proj1 Ndc); apply (sub_in _ _ _ H1); now left|]. apply NoDup_cons_iff in Ndc. inversion XS; subst; [elim (proj1 Ndc); apply in_app_iff; right; now left|]. apply IH; tauto. }
      assert (Il : In z l) by now apply Vold. assert (Nl : l <> []) by (intros Q0; rewrite Q0 in Il; destruct Il). pose proof (last_in l NIL Nl) as Iy. set (yy := last l NIL) in *. pose proof (sub_in _ _ _ Sl Iy) as Jy.
      assert (Ely : last (X s (N + d)) NIL = yy) by (rewrite EX; change (a1 :: l) with ([a1] ++ l); now apply last_app_ne).
      assert (Py : forall q, In q (X s (N + d)) -> prim q /\ v < q). { intros q Hq. destruct (X_in g0 kids St a v c D d q Ad Hq) as (Q1 & _ & Q3). split; [auto|]. apply (c_lt g0 kids St v c Pv Pc Ec); auto. exact (anc_trans _ _ _ _ Acd Q3). }
      destruct (Py a1) as [_ La1]; [rewrite EX; now left|]. destruct (Py yy) as [Pyy Lyy]; [rewrite EX; now right|].
      assert (Ty : tat v a [] yy).
      { destruct (Pk b1 d Hb1) as (_ & _ & K3). rewrite Ely, EX in K3. cbn [hd] in K3. rewrite (fpt_tat g0 kids St E a v c D C a1 Pa La1), (fpt_tat g0 kids St E a v c D C yy Pyy Lyy), (pert_vat g0 kids E a v c D C yy Pyy Lyy) in K3.
        destruct K3 as [K3|[K3|K3]]; [contradiction|auto|]. destruct (ci_ends _ _ _ _ _ C d Ad Ne) as [K|[K|[_ K]]].
        - exfalso. apply K3. rewrite EX in K. cbn [length] in K. destruct l as [|q [|q' l]]; [congruence| |cbn [length] in K; lia]. destruct Il as [<-|[]]. unfold yy. cbn [last]. now apply vat_old.
        - exfalso. pose proof (vat_old _ Z2) as (f1 & Hf1 & Hh). apply (K v f1); [lia|auto|]. destruct (Inc z) as [Pz Bz]; [apply in_app_iff; right; now right|]. apply anc_trans with z; [apply (B_anc g0 kids St _ _ _ _ _ G (proj1 Ad) Pz Bz)|]. eapply hs_anc; eauto.
        - rewrite Ely in K. destruct (uact_split g0 E a v c C d _ K) as [K4|K4]; [contradiction|auto]. }
      exists yy. split; [auto|]. apply tat_keep; [|auto]. intros d'. now apply Nfm.
    + (* an old face *)
      assert (Bf : forall q, In q fl -> B s q = N + c) by (intros q Hq; apply InO; apply in_concat; eauto).
      assert (Ia : In a1 (zb :: Vb)) by (apply InZ; [rewrite E2; apply in_app_iff; right; now left|apply Bf; rewrite E1; apply in_app_iff; right; now left]).
      assert (ES : exists M, zb :: Vb = M ++ a1 :: Lm ++ b1 :: Lb /\ La = Vh ++ M).
      { rewrite B2 in E2. destruct (split_or _ _ _ _ _ E2) as [(D' & F1 & F2)|(C' & F1 & F2)]; [exfalso|exists C'; auto]. rewrite B2 in NdV. apply (NoDup_app_disj _ _ a1 NdV); [rewrite F1; apply in_app_iff; right; now left|auto]. }
      destruct ES as (M & ES & ELa). destruct (HEX fl Hfl l1 a1 mid b1 l2 (Ub ++ M) Lm Lb E1) as (q & Q1 & Q2).
      * intros q Hq HqL. rewrite LVb in HqL. apply in_app_iff in HqL. destruct HqL as [HqL|HqL]; [|apply (Hm q Hq); rewrite B2; apply in_app_iff; now right].
        assert (Nq : q <> a1). { intros ->. rewrite LVb in NdL. apply (NoDup_app_disj _ _ a1 NdL HqL Ia). }
        apply (Hnc q a1 Nq). change [q; a1; q; a1] with ([q; a1] ++ [q; a1]). apply sub_app.
        -- rewrite LVb. change [q; a1] with ([q] ++ [a1]). apply sub_app; apply in_sub1; auto.
        -- apply in_split in Hfl. destruct Hfl as (f1 & f2 & ->). rewrite concat_app. cbn [concat]. rewrite !rev_app_distr, <- app_assoc. change [q; a1] with ([] ++ [q; a1] ++ []). apply sub_app; [constructor|]. rewrite <- ?app_assoc. apply sub_app; [|constructor].
           rewrite E1, rev_app_distr. cbn [rev]. rewrite rev_app_distr. cbn [rev]. rewrite <- !app_assoc. change [q; a1] with ([] ++ [] ++ [q] ++ [a1] ++ []). repeat apply sub_app; try constructor; try constructor. apply in_sub1. now apply -> in_rev.
      * rewrite LVb, ES, <- app_assoc. reflexivity.
      * apply in_app_iff in X1. destruct X1 as [X1|[<-|[]]]; [|exists a1; split; [apply in_app_iff; right; now left|now apply tat_old]]. rewrite ELa in X1. apply in_app_iff in X1.
        destruct X1 as [X1|X1]; [|exists x; split; [rewrite !in_app_iff; auto|now apply tat_old]]. exists zb. split; [|now apply (LiftH x)]. rewrite <- app_assoc. apply in_app_iff. right. destruct M as [|m M]; injection ES as <- ES; now left.
      * exists y. split; [auto|now apply tat_old].
      * exists z. split; [auto|now apply vat_old].
      * exists q. split; [auto|]. apply tat_keep; [|auto]. intros d Hi.
        assert (Iq : In q (tl (zb :: Vb))). { rewrite ES. destruct M as [|m M]; cbn [app tl]; [apply in_app_iff; auto|]. apply in_app_iff. right. right. apply in_app_iff. auto. }
        cbn [tl] in Iq. assert (q = zb). { apply (NfB q d Hi). apply InL. rewrite LVb. apply in_app_iff. right. now right. }
        subst q. rewrite LVb in NdL. apply NoDup_app_r in NdL. apply NoDup_cons_iff in NdL. tauto.
Qed.
End Embed.
End PI.
