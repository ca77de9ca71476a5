(** * EmbDown3: the steps of the walk down on the graph. *)
From Coq Require Import ZifyBool Permutation Sorted.
From Verif Require Import Base BaseP GraphRec GraphM GraphSpec GSimp LinkP GraphP GraphP2 ListM ListSpec ListP DFSM DFSSpec DFSP TestP EmbM EmbSpec EmbP FaceP GeoP GeoP2 EmbInv EmbStep EmbTree EmbWalk EmbFan EmbUp EmbJoin PlV3 EmbDown EmbDown2 PlanSpec EmbC1 EmbC2 EmbC3.

Section Down3.
Variables (g0 : graph) (kids : Z -> list Z).
Hypothesis St : static g0 kids.
Local Notation N := (gN g0).
Local Notation p := (viParent (gVI g0)).
Local Notation prim := (prim (gN g0)).
Local Notation isroot := (isroot (gN g0)).
Local Notation geo := (geo (gN g0) (viParent (gVI g0))).
Local Notation anc := (ancestor (viParent (gVI g0))).
Local Notation via := (via g0).
Local Notation act := (act g0).
Local Notation fsim := (fsim g0).
Local Notation rp := (rp g0).
Local Notation HP := (Hp g0 kids St).
Local Notation vsof := (vsof (gN g0)).
Local Notation jrel := (jrel g0 kids).
Local Notation chain := (chain g0).
Local Notation pof := (pof g0).
Local Notation dinv := (dinv g0 kids).
Local Notation drel := (drel g0).
Local Notation passed := (passed g0).
Local Notation nfp := (nfp g0).
Local Notation mu := (mu g0).

Lemma act_root s c : act s c -> isroot (N + c) /\ N + c <> NIL.
Proof. intros (A & _). unfold GeoP.isroot, GeoP.prim, NIL in *. lia. Qed.

Lemma emb_ok g a W fr P Q v c : rp g a (enc (eV a) fr) -> dinv v c a -> prim v -> prim c -> p c = v -> act (eV a) c ->
  chain a (N + c) W fr P Q -> passed v a P -> prim W -> pe a W <> NIL -> (fr = [] -> Q <> []) -> (opl g0 = true -> fr <> []) ->
  exists g' b Q', (g1 <- (if negb (stk_empty g) then _MergeBicomps g else Ret g) ;;
                   g2 <- _EmbedBackEdgeToDescendant g1 (b2z (o (eV a) (N + c))) (N + c) W (b2z (negb (o (eV a) W))) ;;
                   gp_SetVertexPertinentEdge g2 W NIL) = Ret g' /\
    rp g' b [] /\ dinv v c b /\ drel v c a b /\ act (eV b) c /\ chain b (N + c) W [] [] Q' /\ Q' <> [] /\ pe b = upd (pe a) W NIL /\
    last (X (eV b) (N + c)) NIL = last (X (eV a) (N + c)) NIL /\ o (eV b) = o (eV a) /\ (mu b (N + c) [] (W :: Q') <= mu a (N + c) fr (bot W fr :: Q))%nat /\ emrel g0 c a b W fr Q /\ emface g0 (eV a) (comb g0 a fr) (eV b) (N + c) W.
Proof.
  intros H D Hv Hc Ec Ac Ch Pa PW PE HQ HO. pose proof (d_geo _ _ _ _ _ D) as G. destruct (act_root _ _ Ac) as [HC NC].
  destruct (jx_hd _ _ _ _ _ _ _ Ch) as (Q' & Ej & EjN & EjE). destruct (chain_bot _ _ _ _ _ _ _ Ch) as [Bb Xb].
  destruct (chain_in g0 kids St _ _ _ _ _ _ _ _ G eq_refl Hc W PW Ch) as (AW & PnW & Fr). destruct (chain_lt g0 kids St _ _ _ _ _ _ _ G HC W Ch) as (L1 & L2 & L3).
  assert (HQ' : Q' <> []). { destruct fr as [|x fr]; [rewrite (EjE eq_refl); auto|apply EjN; discriminate]. }
  set (f := pe a W) in *. destruct (d_pe _ _ _ _ _ D W PE) as [Hf Enf]. fold f in Hf, Enf.
  pose proof Hf as Hf'. apply in_split in Hf'. destruct Hf' as (l1 & l2 & Efw).
  (* merging *)
  assert (exists g1 a1, (if negb (stk_empty g) then _MergeBicomps g else Ret g) = Ret g1 /\ rp g1 a1 [] /\ geo (N + c) (W :: Q') (eV a1) /\ jrel a a1 (map snd fr) (N + c) /\ mseq g0 kids a fr a1 /\
      (opl g0 = true -> fo g0 (eV a1) (N + c) (W :: Q') /\ sub (nbrs (eV a1) (N + c)) Q' /\ sub (nbrs (eV a1) W) Q')) as (g1 & a1 & W1 & H1 & G1 & J1 & MS & FO1).
  { unfold stk_empty. rewrite (r_stack _ _ _ _ H). destruct fr as [|[z R] fr].
    - cbn [enc isnil negb]. exists g, a. split; [auto|]. split; [exact H|]. split; [|split; [apply jrel_refl|split; [reflexivity|intros Eo; elim (HO Eo); reflexivity]]]. rewrite (EjE eq_refl). destruct Ch as [_ Ch]. apply (geo_open N p) with P; auto; apply Ac.
    - cbn [enc isnil negb]. destruct Ch as (C1 & (l & C2) & (d & D1 & D2 & D3 & D4) & C4). pose proof (act_root _ _ D2) as [HR _]. rewrite <- D1 in HR.
      destruct (full_of _ _ _ G D2) as [_ Fu]. rewrite <- D1 in Fu. cbn [jx] in Ej.
      unfold _MergeBicomps. rewrite (r_stack _ _ _ _ H). rewrite enc_length. cbn [length].
      destruct (merge_all g0 kids St (N + c) c P Q eq_refl fr (4 * S (length fr)) g a z R (W :: l) d) as (g1 & a1 & W1 & H1 & G1 & J1 & MS & FO1); auto.
      + apply (geo_open N p) with []; auto. rewrite D1. apply D2.
      + split.
        * intros x Ex. inversion Ex; subst x l. pose proof (f_ep _ _ _ Fu) as F1. pose proof (f_one _ _ _ Fu) as F2. rewrite C2 in F1, F2. split; [now apply F2|exact F1].
        * intros x y l' Ex. apply (xcond_long g0) with x y l'; auto; [rewrite <- C2; apply (f_half _ _ _ Fu)|rewrite Ex; cbn [length]; lia].
      + intros x d' Hd. apply (d_prl _ _ _ _ _ D) in Hd. tauto.
      + lia.
      + exists g1, a1. split; [exact W1|]. split; [auto|]. rewrite C2 in Ej. split; [rewrite <- Ej; exact G1|]. split; [exact J1|]. split; [exact MS|]. intros Eo. pose proof (passed_opl g0 v a P Eo Pa) as EP. change ((W :: l) ++ jx (eV a) z fr Q) with (W :: l ++ jx (eV a) z fr Q) in FO1. cbn [app] in Ej. injection Ej as Ej. rewrite Ej in FO1. cbn [tl hd] in FO1.
        apply FO1; [auto|]. rewrite D1, <- C2, D1. apply fans_fo; [|auto]. apply (proj1 (d_out _ _ _ _ _ D) Eo). }
  rewrite W1. cbn [bind].
  assert (Ff : fw a1 v = l1 ++ f :: l2) by (rewrite (j_fw _ _ _ _ _ _ J1); auto).
  pose proof (d_fw _ _ _ _ _ D) as F. pose proof (r_fwnd _ _ _ _ H v) as Ndf. rewrite Efw in Ndf.
  assert (NR : ~ In (N + c) (map snd fr)) by (intros Hi; specialize (L1 _ Hi); lia).
  assert (NF : forall x, ~ In f (adj (eV a1) x) /\ ~ In (twin f) (adj (eV a1) x)).
  { intros x. split; intros Hx; destruct (proj1 (j_arc _ _ _ _ _ _ J1 _) (ex_intro _ x Hx)) as [y Hy]; [exact (proj1 (fo_free _ _ F v f y Hf) Hy)|exact (proj2 (fo_free _ _ F v f y Hf) Hy)]. }
  assert (Nb1 : nb (eV a1) f = W) by (rewrite (j_nb2 _ _ _ _ _ _ J1); auto; intros x; apply (fo_free _ _ F v f x Hf)).
  assert (Ty : ~ childarc (eV a1) f /\ ~ childarc (eV a1) (twin f)) by (unfold childarc; rewrite !(j_fl _ _ _ _ _ _ J1); apply (fo_type _ _ F v f Hf)).
  assert (Pe1 : pe a1 W = f) by (rewrite (j_pe _ _ _ _ _ _ J1); reflexivity).
  assert (Tf : forall u, ~ In (twin f) (fw a1 u)) by (intros u; rewrite (j_fw _ _ _ _ _ _ J1); apply (fo_tw _ _ F v u f Hf)).
  destruct (embed_ok g0 g1 a1 [] (N + c) W Q' c v f l1 l2 H1 G1 HC HQ' eq_refl Hc Ec Hv Pe1 Ff Nb1 NF Tf (proj1 Ty) (proj2 Ty)) as (g2 & a2 & W2 & H2 & G2 & E2).
  rewrite (j_o _ _ _ _ _ _ J1) in W2. rewrite W2. cbn [bind].
  destruct (set_pe_ok _ _ _ _ W NIL H2 PW) as (g3 & W3 & H3). exists g3, (set_pe a2 W NIL), Q'.
  assert (B1 : B (eV a1) W = N + c).
  { rewrite (j_B _ _ _ _ _ _ J1). pose proof (chain_top _ _ _ _ _ _ _ _ _ G HC Ch) as Bt. rewrite Bt. destruct fr as [|[z R] fr]; cbn [map snd hd inb existsb]; [auto|]. now rewrite Z.eqb_refl. }
  assert (HX : forall y, In y (X (eV a) (B (eV a) y)) -> ~ In y P -> In y (X (eV a2) (B (eV a2) y))).
  { intros y Hy NP. rewrite (er_B _ _ _ _ _ _ _ _ _ E2), (er_X _ _ _ _ _ _ _ _ _ E2), (j_B _ _ _ _ _ _ J1), (j_X _ _ _ _ _ _ J1). destruct (inb (B (eV a) y) (map snd fr)) eqn:Ei.
    - rewrite Z.eqb_refl. apply inb_true in Ei. rewrite <- Ej. apply jx_in. left. eauto.
    - destruct (Z.eqb_spec (B (eV a) y) (N + c)) as [Eb|]; [|auto]. rewrite <- Ej. apply jx_in. right. rewrite Eb, Xb in Hy. apply in_app_iff in Hy. tauto. }
  assert (HRs : forall d, In (N + d) (map snd fr) -> act (eV a) d /\ anc c (p d) /\ prim (p d)).
  { intros d Hd. apply in_map_iff in Hd. destruct Hd as ([z R] & E & Hi). cbn [snd] in E. destruct (Fr z R Hi) as (d' & D1 & D2 & D3 & D4 & D5 & D6). assert (d' = d) by lia. subst d'. rewrite D3. auto. }
  assert (HF : opl g0 = true -> fans g0 (eV a2)).
  { intros Eo. destruct (FO1 Eo) as (K1 & K2 & K3). apply (fans_embed g0 kids St a1 a2 (N + c) c W Q' f v l1 l2); auto. apply (jrel_act _ _ _ _ _ _ _ J1). auto. }
  assert (EMF : emface g0 (eV a) (comb g0 a fr) (eV a2) (N + c) W /\ ofx g0 NIL (eV a2)).
  { apply (embed_faces g0 kids a a1 a2 (N + c) W fr Q' f v l1 l2); auto; [apply Ac|apply (chain_lc g0 kids St a NIL [] (N + c) c P Q eq_refl HC Hc G fr W PW Ch)|apply (d_out _ _ _ _ _ D)| |].
    - apply (chain_top _ _ _ _ _ _ _ _ _ G HC Ch).
    - destruct fr as [|[z R] fr]; [destruct Ch as [-> ->]; apply in_app_iff; right; now left|]. destruct Ch as (-> & (l & ->) & _). now left. }
  destruct (dinv_embed g0 kids St v c a a1 a2 (map snd fr) W Q' f l1 l2 P D Hv Hc Ec Ac J1 E2 G2 Efw Ndf Enf PW B1 NR HRs Pa HX HF (proj2 EMF)) as (Db & Rb & Hact & Hfw).
  split; [exact W3|]. split; [auto|]. split; [exact Db|]. split; [exact Rb|]. split; [apply Hact; auto|]. cbn [set_pe eV pe chain].
  assert (XC : X (eV a2) (N + c) = W :: Q') by (rewrite (er_X _ _ _ _ _ _ _ _ _ E2), Z.eqb_refl; auto).
  split; [split; [rewrite (er_B _ _ _ _ _ _ _ _ _ E2); auto|exact XC]|]. split; [auto|]. split; [now rewrite (er_pe _ _ _ _ _ _ _ _ _ E2), (j_pe _ _ _ _ _ _ J1)|].
  split; [rewrite XC, <- Ej, jx_last, Xb; symmetry; apply last_app_ne; discriminate|]. split; [now rewrite (er_o _ _ _ _ _ _ _ _ _ E2), (j_o _ _ _ _ _ _ J1)|].
  split.
  2:{ split; [|apply EMF]. constructor; cbn [set_pe eV fw prl pe]; auto.
      - intros R. rewrite (er_X _ _ _ _ _ _ _ _ _ E2), (j_X _ _ _ _ _ _ J1), Ej. reflexivity.
      - intros z. rewrite (er_B _ _ _ _ _ _ _ _ _ E2). apply (j_B _ _ _ _ _ _ J1).
      - intros x d. rewrite (er_prl _ _ _ _ _ _ _ _ _ E2). apply (j_prl _ _ _ _ _ _ J1).
      - intros T x Hs. rewrite (er_prl _ _ _ _ _ _ _ _ _ E2). now apply (j_ord _ _ _ _ _ _ J1).
      - now rewrite (er_pe _ _ _ _ _ _ _ _ _ E2), (j_pe _ _ _ _ _ _ J1).
      - intros x y Hy. apply (j_nbr _ _ _ _ _ _ J1) in Hy. unfold nbrs in *. apply in_map_iff in Hy. destruct Hy as (e & Ey & He). apply in_rot in He. apply in_map_iff. exists e. split.
        + rewrite (er_nb _ _ _ _ _ _ _ _ _ E2), eqb_false_neq; [exact Ey|]. intros ->. apply (proj2 (NF _) He).
        + apply in_rot. apply (er_in _ _ _ _ _ _ _ _ _ E2). auto. }
  apply mu_le.
  - intros d Hd _. apply Hact in Hd. exact Hd.
  - cbn [set_pe eV]. intros z Pz Hz. rewrite (er_B _ _ _ _ _ _ _ _ _ E2), (j_B _ _ _ _ _ _ J1) in Hz. destruct (inb (B (eV a) z) (map snd fr)) eqn:Ei.
    + left. apply inb_true in Ei. intros Q0. rewrite Q0 in Ei. contradiction.
    + destruct Hz as [Hz|Hz]; [auto|]. rewrite <- Ej in Hz. apply jx_in in Hz. destruct Hz as [(R & R1 & R2)|Hz]; [|auto]. left.
      apply in_map_iff in R1. destruct R1 as ([z' R'] & E & Hi). cbn [snd] in E. subst R'. destruct (Fr z' R Hi) as (d & D1 & D2 & _). destruct (full_of _ _ _ G D2) as [_ Fu]. rewrite <- D1 in Fu.
      destruct (X_facts _ _ _ Fu) as (_ & _ & Xin). destruct (Xin z R2) as [_ ->]. intros Q0. apply NR. rewrite <- Q0. apply in_map_iff. exists (z', R). auto.
Qed.

(** ** Room on the stack: every component has an edge of its own *)
Lemma roots_cap g a stk C xs cs : rp g a stk -> geo C xs (eV a) -> cs <> [] -> NoDup cs -> (forall d, In d cs -> act (eV a) d) -> 2 * Z.of_nat (length cs) <= gCap g0.
Proof.
  intros H G Nn Nd Ha. pose proof (g_base _ _ _ _ _ G) as G0.
  assert (exists es, length es = (2 * length cs)%nat /\ NoDup es /\ forall e, In e es ->
            (exists d, In d cs /\ In e (adj (eV a) (N + d)) /\ childarc (eV a) e /\ nb (eV a) e = d /\ prim d) \/
            (exists d, In d cs /\ In (twin e) (adj (eV a) (N + d)) /\ childarc (eV a) (twin e) /\ nb (eV a) (twin e) = d /\ prim d)) as (es & L & Ne & He).
  { clear Nn. induction cs as [|d cs IH]; [exists []; split; [auto|]; split; [constructor|]; intros e []|].
    apply NoDup_cons_iff in Nd. destruct Nd as [Nd1 Nd2]. destruct IH as (es & L & Ne & He); [auto|intros; apply Ha; now right|].
    destruct (Ha d (or_introl eq_refl)) as (A1 & A2 & A3). destruct (g_child _ _ _ G0 d A1 A2) as (e & C1 & C2 & C3).
    assert (C4 : In e (adj (eV a) (N + d))) by (revert C3; generalize (eq_refl (adj (eV a) (N + d))); destruct (adj (eV a) (N + d)) at 2 3; intros EA C3; [congruence|exact C3]). clear C3.
    assert (Dif : forall d', In d' cs -> d' <> d) by (intros d' Hd ->; contradiction).
    exists (e :: twin e :: es). split; [cbn [length]; lia|]. split.
    - constructor; [|constructor; [|auto]].
      + intros [Q|Q]; [apply (twin_ne e); auto|]. destruct (He e Q) as [(d' & K1 & K2 & K3 & K4 & K5)|(d' & K1 & K2 & K3 & K4 & K5)].
        * apply (Dif d' K1). congruence.
        * destruct (g_twins _ _ _ G0 _ _ K2) as [_ T]. rewrite twin_invol, K4 in T. pose proof (g_disj _ _ _ G0 _ _ _ C4 T). unfold GeoP.prim in *. lia.
      + intros Q. destruct (He _ Q) as [(d' & K1 & K2 & K3 & K4 & K5)|(d' & K1 & K2 & K3 & K4 & K5)].
        * destruct (g_twins _ _ _ G0 _ _ C4) as [_ T]. rewrite C2 in T. pose proof (g_disj _ _ _ G0 _ _ _ K2 T). unfold GeoP.prim in *. lia.
        * rewrite twin_invol in K4. apply (Dif d' K1). congruence.
    - intros x [<-|[<-|Hx]].
      + left. exists d. split; [now left|]. auto.
      + right. exists d. rewrite twin_invol. split; [now left|]. auto.
      + destruct (He x Hx) as [(d' & K1 & K2)|(d' & K1 & K2)]; [left|right]; exists d'; (split; [now right|auto]). }
  assert (I : incl es (zrange 2 (Z.to_nat (gCap g0)))).
  { intros e Hi. pose proof (k_cap _ _ (r_keeps _ _ _ _ H)) as KC. assert (exists x, In e (adj (eV a) x)) as [x Hx].
    { destruct (He e Hi) as [(d & _ & K & _)|(d & _ & K & _)]; [eauto|]. destruct (g_twins _ _ _ G0 _ _ K) as [_ T]. rewrite twin_invol in T. eauto. }
    pose proof (ch_range _ _ (r_chains _ _ _ _ H) _ _ Hx) as R. unfold gp_EdgeIndexBound in R. apply in_zrange. lia. }
  pose proof (NoDup_incl_length Ne I) as Le. rewrite zrange_length in Le. destruct cs; [congruence|]. cbn [length] in *. lia.
Qed.

(** ** Future pertinence and pertinence *)
Lemma dinv_fpc v c a w i : dinv v c a -> fpcok g0 kids v (set_fpc a w i) -> dinv v c (set_fpc a w i).
Proof.
  intros [] F. constructor; auto. apply (fsim_via_fwok g0 a); auto. apply fsim_refl.
Qed.
Lemma drel_fpc v c a w i : drel v c a (set_fpc a w i).
Proof. constructor; auto. constructor; intros; auto; tauto. Qed.
Lemma kids_len w : (length (kids w) <= Z.to_nat N)%nat.
Proof.
  assert (I : incl (kids w) (zrange 1 (Z.to_nat N))). { intros x Hx. apply (st_kid _ _ St) in Hx. destruct Hx as [Hx _]. unfold GeoP.prim in Hx. apply in_zrange. lia. }
  pose proof (NoDup_incl_length (static_kids_nd g0 kids St w) I) as L. now rewrite zrange_length in L.
Qed.
Lemma fpc_step v c g a stk w : rp g a stk -> dinv v c a -> prim w ->
  exists g' i, gp_UpdateVertexFuturePertinentChild g w v = Ret g' /\ rp g' (set_fpc a w i) stk /\ dinv v c (set_fpc a w i) /\
    (i = NIL -> forall d, act (eV a) d -> p d = w -> v <= viLow (gVI g0) d) /\ (i <> NIL -> viLow (gVI g0) i < v /\ act (eV a) i /\ p i = w).
Proof.
  intros H D Hw. destruct (d_fpc _ _ _ _ _ D w Hw) as (l1 & l2 & E1 & E2 & E3). unfold gp_UpdateVertexFuturePertinentChild. rewrite (k_N _ _ (r_keeps _ _ _ _ H)).
  pose proof (kids_len w) as Lk. rewrite E1, app_length in Lk.
  destruct (update_fpc_ok g0 kids w v (st_kids _ _ St) Hw (S (S (Z.to_nat N))) g a stk l1 l2 H E1 E2 ltac:(lia)) as (g' & m1 & m2 & W1 & H1 & M1 & M2 & M3).
  exists g', (hd NIL m2). split; [exact W1|]. split; [exact H1|].
  assert (K : forall d, In d (l1 ++ m1) -> ~ act (eV a) d \/ v <= viLow (gVI g0) d).
  { intros d Hd. apply in_app_iff in Hd. destruct Hd as [Hd|Hd]; [auto|]. destruct (M2 d Hd) as [Q|Q]; [auto|]. left. intros (_ & _ & A). apply A. now rewrite Z.add_comm. }
  split; [|split].
  - apply dinv_fpc; [auto|]. intros w' Hw'. cbn [set_fpc fpc eV]. unfold upd. destruct (Z.eqb_spec w' w) as [->|]; [|now apply (d_fpc _ _ _ _ _ D)].
    exists (l1 ++ m1), m2. split; [rewrite <- app_assoc, <- M1; auto|]. auto.
  - intros E d Ad Ed. destruct m2 as [|y m2].
    + rewrite app_nil_r in M1. subst l2. destruct (K d); [|contradiction|auto]. rewrite <- E1. apply (st_kid _ _ St). destruct Ad as (A1 & A2 & A3). split; [auto|]. split; auto.
    + exfalso. cbn [hd] in E. assert (Hy : In y (kids w)) by (rewrite E1, M1, !in_app_iff; right; right; now left). apply (st_kid _ _ St) in Hy. destruct Hy as [Hy _]. unfold GeoP.prim, NIL in *. lia.
  - intros E. destruct M3 as [M3|[M3 M4]]; [rewrite M3 in E; elim E; reflexivity|]. split; [auto|]. destruct m2 as [|y m2]; [elim E; reflexivity|]. cbn [hd] in *.
    assert (Hy : In y (kids w)) by (rewrite E1, M1, !in_app_iff; right; right; now left). apply (st_kid _ _ St) in Hy. destruct Hy as (Y1 & Y2 & Y3). rewrite Z.add_comm in M4. split; [|auto]. split; [auto|]. split; [rewrite Y3; now apply (prim_ne g0)|auto].
Qed.
Lemma fp_read v c g a stk w : rp g a stk -> dinv v c a -> prim w ->
  FUTUREPERTINENT g w v = Ret ((viLeast (gVI g0) w <? v) || negb (fpc a w =? NIL) && (viLow (gVI g0) (fpc a w) <? v)).
Proof.
  intros H D Hw. pose proof (k_N _ _ (r_keeps _ _ _ _ H)) as KN. unfold GeoP.prim in Hw. unfold FUTUREPERTINENT, gp_GetVertexLeastAncestor. rewrite vi_ok by lia. cbn [bind].
  rewrite (k_least _ _ (r_keeps _ _ _ _ H)). destruct (viLeast (gVI g0) w <? v); [reflexivity|]. cbn [orb].
  unfold gp_GetVertexFuturePertinentChild. rewrite vi_ok by lia. cbn [bind]. rewrite (r_fpc _ _ _ _ H). destruct (Z.eqb_spec (fpc a w) NIL) as [E|E]; [reflexivity|].
  destruct (d_fpc _ _ _ _ _ D w Hw) as (l1 & l2 & E1 & E2 & E3). destruct l2 as [|y l2]; [cbn [hd] in E2; congruence|]. cbn [hd] in E2.
  assert (Hy : In y (kids w)) by (rewrite E1, !in_app_iff; right; now left). apply (st_kid _ _ St) in Hy. destruct Hy as [Hy _]. unfold GeoP.prim in Hy.
  unfold gp_GetVertexLowpoint. rewrite vi_ok by lia. cbn [bind negb andb]. now rewrite (k_low _ _ (r_keeps _ _ _ _ H)).
Qed.
Lemma roots_hd a x : (forall d, In d (prl a x) -> prim d) -> (hd NIL (prl a x) =? NIL) = isnil (prl a x).
Proof.
  intros Hd. destruct (prl a x) as [|d l] eqn:E; [reflexivity|]. cbn [hd isnil]. apply eqb_false_neq. specialize (Hd d (or_introl eq_refl)). unfold GeoP.prim, NIL in *. lia.
Qed.
Lemma prl_prim v c a x d : dinv v c a -> In d (prl a x) -> prim d.
Proof. intros D Hd. apply (d_prl _ _ _ _ _ D) in Hd. destruct Hd as (_ & _ & (A & _) & _). exact A. Qed.
Lemma pert_read v c g a stk w : rp g a stk -> dinv v c a -> prim w -> PERTINENT g w = Ret (negb (pe a w =? NIL) || negb (isnil (prl a w))).
Proof.
  intros H D Hw. pose proof (k_N _ _ (r_keeps _ _ _ _ H)) as KN. unfold GeoP.prim in Hw. unfold PERTINENT, gp_GetVertexPertinentEdge. rewrite vi_ok by lia. cbn [bind].
  rewrite (r_pe _ _ _ _ H). destruct (pe a w =? NIL); cbn [negb orb]; [|reflexivity]. rewrite (roots_head _ _ _ _ _ H) by lia. cbn [bind].
  rewrite roots_hd; [reflexivity|]. intros d. apply (prl_prim v c a w d D).
Qed.

(** ** Choosing a direction *)
Lemma choose_ok v c g a stk d : rp g a stk -> dinv v c a -> act (eV a) d ->
  exists g' a' r, walkdown_choose g v (N + d) = Ret (g', r) /\ rp g' a' stk /\ dinv v c a' /\
    eV a' = eV a /\ fw a' = fw a /\ prl a' = prl a /\ pe a' = pe a /\ vis a' = vis a /\
    match r with
    | None => ~ pert a (hd NIL (X (eV a) (N + d))) /\ ~ pert a (last (X (eV a) (N + d)) NIL)
    | Some (W', l', s') => exists V l, rp g' (set_V a' V) stk /\ geo NIL [] V /\ fsim (eV a) V /\ X V (N + d) = W' :: l /\
        (~ fpt g0 v a W' \/ fpt g0 v a (last (X V (N + d)) NIL) \/ ~ pert a (last (X V (N + d)) NIL)) /\
        s' = b2z (o V (N + d)) /\ l' = b2z (negb (o V W')) /\ (pe a W' <> NIL \/ prl a W' <> []) /\
        (forall y, ~ In y (vsof (eV a) (N + d)) -> o V y = o (eV a) y) /\ (forall R, R <> N + d -> X V R = X (eV a) R)
    end.
Proof.
  intros H D Ad. pose proof (d_geo _ _ _ _ _ D) as G. destruct (full_of _ _ _ G Ad) as [HR F]. destruct (X_facts _ _ _ F) as (Xne & Xnd & Xin).
  set (R := N + d) in *. assert (RX : 1 <= R <= 2 * N) by (unfold GeoP.isroot in HR; lia).
  destruct (X_root _ _ _ F) as [En Ep].
  assert (Ph : prim (hd NIL (X (eV a) R))) by (apply Xin; now apply hd_in). assert (Pl : prim (last (X (eV a) R) NIL)) by (apply Xin; now apply last_in).
  assert (P0 : prim (e0 (eV a) R) /\ prim (e1 (eV a) R)) by (unfold en, ep in *; destruct (o (eV a) R); split; congruence).
  destruct P0 as [P0 P1]. unfold GeoP.prim in P0, P1. set (x := e0 (eV a) R) in *. set (y := e1 (eV a) R) in *.
  unfold walkdown_choose. repeat (rewrite (rp_ext_get _ _ _ _ _ _ H) by lia; cbn [bind Z.eqb]; fold x y).
  destruct (fpc_step v c g a stk x H D P0) as (g1 & i1 & W1 & H1 & D1 & I1 & I1'). rewrite W1. cbn [bind].
  destruct (fpc_step v c g1 _ stk y H1 D1 P1) as (g2 & i2 & W2 & H2 & D2 & I2 & I2'). rewrite W2. cbn [bind].
  rewrite (pert_read v c _ _ _ _ H2 D2 P0), (fp_read v c _ _ _ _ H2 D2 P0), (pert_read v c _ _ _ _ H2 D2 P1), (fp_read v c _ _ _ _ H2 D2 P1). cbn [bind].
  set (a2 := set_fpc (set_fpc a x i1) y i2) in *. change (pe a2) with (pe a). change (prl a2) with (prl a).
  assert (FP : forall w i, (i = NIL -> forall d, act (eV a) d -> p d = w -> v <= viLow (gVI g0) d) -> (i <> NIL -> viLow (gVI g0) i < v /\ act (eV a) i /\ p i = w) ->
             ((viLeast (gVI g0) w <? v) || negb (i =? NIL) && (viLow (gVI g0) i <? v) = true -> fpt g0 v a w) /\
             ((viLeast (gVI g0) w <? v) || negb (i =? NIL) && (viLow (gVI g0) i <? v) = false -> opl g0 = false -> ~ fpt g0 v a w)).
  { intros w i J1 J2. destruct (Z.ltb_spec (viLeast (gVI g0) w) v) as [L|L]; cbn [orb]; [split; [intros _; right; now left|discriminate]|].
    destruct (Z.eqb_spec i NIL) as [E|E]; cbn [negb andb].
    - split; [discriminate|]. intros _ Eo [Q|[Q|(d' & A1 & A2 & A3)]]; [congruence|lia|]. specialize (J1 E d' A1 A2). lia.
    - destruct (J2 E) as (K1 & K2 & K3). split; [intros _; right; right; exists i; auto|lia]. }
  assert (FX : fpc a2 x = if x =? y then i2 else i1) by (cbn [a2 set_fpc fpc]; unfold upd; destruct (x =? y); [reflexivity|]; now rewrite Z.eqb_refl).
  assert (FY : fpc a2 y = i2) by (cbn [a2 set_fpc fpc]; apply upd_same).
  assert (FPx : ((viLeast (gVI g0) x <? v) || negb (fpc a2 x =? NIL) && (viLow (gVI g0) (fpc a2 x) <? v) = true -> fpt g0 v a x) /\
                ((viLeast (gVI g0) x <? v) || negb (fpc a2 x =? NIL) && (viLow (gVI g0) (fpc a2 x) <? v) = false -> opl g0 = false -> ~ fpt g0 v a x)).
  { apply FP; rewrite FX; destruct (Z.eqb_spec x y) as [->|]; auto. }
  assert (FPy : ((viLeast (gVI g0) y <? v) || negb (fpc a2 y =? NIL) && (viLow (gVI g0) (fpc a2 y) <? v) = true -> fpt g0 v a y) /\
                ((viLeast (gVI g0) y <? v) || negb (fpc a2 y =? NIL) && (viLow (gVI g0) (fpc a2 y) <? v) = false -> opl g0 = false -> ~ fpt g0 v a y)).
  { apply FP; rewrite FY; auto. }
  set (fx := (viLeast (gVI g0) x <? v) || _) in *. set (fy := (viLeast (gVI g0) y <? v) || _) in *. clearbody fx fy. clear FP FX FY I1 I1' I2 I2'.
  exists g2, a2. eexists. split; [reflexivity|]. split; [exact H2|]. split; [exact D2|]. do 5 (split; [reflexivity|]).
  assert (Side : forall b, exists V l, rp g2 (set_V a2 V) stk /\ geo NIL [] V /\ fsim (eV a) V /\ X V R = (if b : bool then y else x) :: l /\ last (X V R) NIL = (if b then x else y) /\ b2z b = b2z (o V R) /\
             (if b then (if e0 (eV a) y =? R then 0 else 1) else (if e1 (eV a) x =? R then 1 else 0)) = b2z (negb (o V (if b then y else x))) /\
             (forall y, ~ In y (vsof (eV a) R) -> o V y = o (eV a) y) /\ (forall R', R' <> R -> X V R' = X (eV a) R')).
  { intros b. destruct (orient g0 a2 stk g2 d R b H2 G Ad (or_introl eq_refl)) as (V & V1 & V2 & V3 & V4 & V5 & V6). fold R in V6.
    assert (Ad' : act V d) by (apply (fsim_act _ _ _ _ V2); exact Ad). destruct (full_of _ _ _ V3 Ad') as [_ F']. fold R in F'.
    destruct (X_facts _ _ _ F') as (Xne' & Xnd' & Xin'). destruct (X_root _ _ _ F') as [En' Ep']. destruct (X V R) as [|w l] eqn:EX; [congruence|].
    change (eV a2) with (eV a) in V2. assert (Ew : w = if b then y else x).
    { cbn [hd] in En'. unfold en in En'. rewrite V4, (fs_e0 _ _ V2), (fs_e1 _ _ V2) in En'. fold x y in En'. now destruct b. }
    assert (Ew' : last (w :: l) NIL = if b then x else y).
    { unfold ep in Ep'. rewrite V4, (fs_e0 _ _ V2), (fs_e1 _ _ V2) in Ep'. fold x y in Ep'. now destruct b. }
    exists V, l. rewrite EX, <- Ew. split; [auto|]. split; [auto|]. split; [auto|]. split; [auto|]. split; [exact Ew'|]. split; [now rewrite V4|]. split; [|auto].
    pose proof (f_ep _ _ _ F') as Fp. pose proof (f_one _ _ _ F') as Fo. rewrite EX in Fp, Fo. cbn [hd] in Fp, Fo.
    assert (Ene : l <> [] -> en V w <> R).
    { intros Hl. destruct (X_links g0 V R [] w l F' EX) as [_ ->]. destruct l as [|w2 l]; [congruence|]. cbn [hd]. destruct (Xin' w2) as [Pw _]; [right; now left|]. unfold GeoP.prim, GeoP.isroot in *. lia. }
    unfold ep in Fp. unfold en in Ene. rewrite (fs_e0 _ _ V2), (fs_e1 _ _ V2) in *. rewrite V4 in Fo. destruct l as [|w2 l].
    - specialize (Fo eq_refl). rewrite Fo in *. destruct b; subst w; cbn [negb b2z]; rewrite Fp, Z.eqb_refl; reflexivity.
    - specialize (Ene ltac:(discriminate)). revert Fp Ene. clear - Ew. destruct b; subst w; destruct (o V _); cbn [negb b2z]; intros;
        repeat match goal with |- context [?u =? ?v] => destruct (Z.eqb_spec u v) end; congruence. }
  destruct (Side false) as (V0 & m0 & S0). destruct (Side true) as (V1 & m1 & S1).
  assert (PX : forall w, (negb (pe a w =? NIL) || negb (isnil (prl a w)) = true -> pe a w <> NIL \/ prl a w <> []) /\ (negb (pe a w =? NIL) || negb (isnil (prl a w)) = false -> ~ pert a w)).
  { intros w. split.
    - intros Hw. apply orb_true_iff in Hw. destruct Hw as [Hw|Hw]; [left; lia|right]. destruct (prl a w); [discriminate|discriminate].
    - intros Hw. apply orb_false_iff in Hw. destruct Hw as [Hw Hw']. intros [Q|Q]; [lia|]. destruct (prl a w); [congruence|discriminate]. }
  pose proof (PX x) as PXx. pose proof (PX y) as PXy. set (px := negb (pe a x =? NIL) || _) in *. set (py := negb (pe a y =? NIL) || _) in *. clearbody px py.
  destruct S0 as (S01 & S02 & S03 & S04 & S0l & S05 & S06 & S07 & S08). destruct S1 as (S11 & S12 & S13 & S14 & S1l & S15 & S16 & S17 & S18).
  assert (T0 : px = true -> (opl g0 = false -> ~ fpt g0 v a x \/ fpt g0 v a y \/ ~ pert a y) -> exists V l, rp g2 (set_V a2 V) stk /\ geo NIL [] V /\ fsim (eV a) V /\ X V R = x :: l /\
      (~ fpt g0 v a x \/ fpt g0 v a (last (X V R) NIL) \/ ~ pert a (last (X V R) NIL)) /\ 0 = b2z (o V R) /\ (if e1 (eV a) x =? R then 1 else 0) = b2z (negb (o V x)) /\
      (pe a x <> NIL \/ prl a x <> []) /\ (forall y, ~ In y (vsof (eV a) R) -> o V y = o (eV a) y) /\ (forall R', R' <> R -> X V R' = X (eV a) R')).
  { intros E Ho. exists V0, m0. rewrite S0l. destruct PXx as [PXx _]. assert (Ho' : ~ fpt g0 v a x \/ fpt g0 v a y \/ ~ pert a y) by (destruct (opl g0) eqn:Eo; [right; left; now left|auto]). auto 12. }
  assert (T1 : py = true -> (opl g0 = false -> ~ fpt g0 v a y \/ fpt g0 v a x \/ ~ pert a x) -> exists V l, rp g2 (set_V a2 V) stk /\ geo NIL [] V /\ fsim (eV a) V /\ X V R = y :: l /\
      (~ fpt g0 v a y \/ fpt g0 v a (last (X V R) NIL) \/ ~ pert a (last (X V R) NIL)) /\ 1 = b2z (o V R) /\ (if e0 (eV a) y =? R then 0 else 1) = b2z (negb (o V y)) /\
      (pe a y <> NIL \/ prl a y <> []) /\ (forall y, ~ In y (vsof (eV a) R) -> o V y = o (eV a) y) /\ (forall R', R' <> R -> X V R' = X (eV a) R')).
  { intros E Ho. exists V1, m1. rewrite S1l. destruct PXy as [PXy _]. assert (Ho' : ~ fpt g0 v a y \/ fpt g0 v a x \/ ~ pert a x) by (destruct (opl g0) eqn:Eo; [right; left; now left|auto]). auto 12. }
  assert (TN : px = false -> py = false -> ~ pert a (hd NIL (X (eV a) R)) /\ ~ pert a (last (X (eV a) R) NIL)).
  { intros E1 E2. rewrite <- En, <- Ep. unfold en, ep. fold x y. destruct (o (eV a) R); split; first [apply (proj2 PXx E1)|apply (proj2 PXy E2)]. }
  destruct FPx as [FPx1 FPx2], FPy as [FPy1 FPy2], PXx as [_ PXx], PXy as [_ PXy].
  destruct px, py, fx, fy; cbn [negb andb]; auto 6.
Qed.

(** ** Stopping *)
Lemma stop_ok v c g a W P Q : rp g a [] -> dinv v c a -> act (eV a) c -> chain a (N + c) W [] P Q -> (2 <= length (X (eV a) (N + c)))%nat ->
  exists g' V P1 w1 xs, walkdown_stop g (N + c) (b2z (o (eV a) (N + c))) W (b2z (negb (o (eV a) W))) = Ret g' /\ rp g' (set_V a V) [] /\ geo NIL [] V /\
    P ++ W :: Q = P1 ++ w1 :: xs /\ X V (N + c) = w1 :: xs /\ xs <> [] /\ (w1 = W /\ P1 = P \/ Q = [] /\ xs = [W] /\ P = P1 ++ [w1]) /\
    (forall R, R <> N + c -> X V R = X (eV a) R) /\ nb V = nb (eV a) /\ fl V = fl (eV a) /\ adj V = adj (eV a) /\ o V = o (eV a) /\ B V = B (eV a).
Proof.
  intros H D Ac [C1 C2] L2. pose proof (d_geo _ _ _ _ _ D) as G. destruct (full_of _ _ _ G Ac) as [HR F]. destruct (X_facts _ _ _ F) as (Xne & Xnd & Xin).
  set (R := N + c) in *. assert (RX : 1 <= R <= 2 * N) by (unfold GeoP.isroot in HR; lia).
  assert (PW : prim W) by (apply Xin; rewrite C2; apply in_app_iff; right; now left). assert (WX : 1 <= W <= 2 * N) by (unfold GeoP.prim in PW; lia).
  destruct (X_root _ _ _ F) as [En Ep]. unfold walkdown_stop. rewrite (get_ep _ _ _ _ _ H RX). cbn [bind]. rewrite Ep, C2.
  assert (Fin : forall P1 w1 xs, X (eV a) R = P1 ++ w1 :: xs -> xs <> [] ->
     exists g' V, (g1 <- gp_SetExtFaceVertex g R (b2z (o (eV a) R)) w1 ;; gp_SetExtFaceVertex g1 w1 (b2z (negb (o (eV a) w1))) R) = Ret g' /\ rp g' (set_V a V) [] /\ geo NIL [] V /\
       X V R = w1 :: xs /\ (forall R', R' <> R -> X V R' = X (eV a) R') /\ nb V = nb (eV a) /\ fl V = fl (eV a) /\ adj V = adj (eV a) /\ o V = o (eV a) /\ B V = B (eV a)).
  { intros P1 w1 xs E Hx. assert (Pw : prim w1) by (apply Xin; rewrite E; apply in_app_iff; right; now left). assert (WX1 : 1 <= w1 <= 2 * N) by (unfold GeoP.prim in Pw; lia).
    assert (Nw : w1 <> R) by (unfold GeoP.prim, GeoP.isroot in *; lia).
    destruct (set_ext_ok _ _ _ _ R _ w1 H RX (b2z_01 (o (eV a) R))) as (g1 & W1 & H1). rewrite W1. cbn [bind].
    destruct (set_ext_ok _ _ _ _ w1 _ R H1 WX1 (b2z_01 (negb (o (eV a) w1)))) as (g2 & W2 & H2). rewrite W2.
    set (s1 := eV (set_V a _)) in H2 at 1. unfold set_V in H2. cbn [eV fw prl pe fpc vis v_ext nb fl e0 e1 adj o X B] in H2.
    match type of H2 with EmbInv.rp _ _ (mkE ?U _ _ _ _ _) _ => set (U1 := U) in H2 end.
    exists g2, (v_gh U1 (o (eV a)) (upd (X (eV a)) R (w1 :: xs)) (B (eV a))). split; [reflexivity|]. split; [apply (rp_ghost _ _ _ _ _ H2); reflexivity|].
    split; [|split; [cbn [v_gh X]; apply upd_same|split; [intros R' HR'; cbn [v_gh X]; now apply upd_other|repeat split]]].
    apply (geo_close N p) with (eV a) R (w1 :: xs); auto; try reflexivity.
    - apply (geo_open N p) with P1; auto. apply Ac.
    - apply Ac.
    - intros R' HR'. cbn [v_gh X]. now apply upd_other.
    - cbn [v_gh X]. apply upd_same.
    - destruct xs; [congruence|discriminate].
    - intros x. cbn [v_gh U1 s1 set_V eV v_ext e0 e1 hd]. destruct (o (eV a) R), (o (eV a) w1); cbn [negb b2z Z.eqb andb]; unfold upd; rewrite ?andb_false_r, ?andb_true_r;
        destruct (Z.eqb_spec x R), (Z.eqb_spec x w1); subst; try congruence; reflexivity.
    - intros x. cbn [v_gh U1 s1 set_V eV v_ext e0 e1 hd]. destruct (o (eV a) R), (o (eV a) w1); cbn [negb b2z Z.eqb andb]; unfold upd; rewrite ?andb_false_r, ?andb_true_r;
        destruct (Z.eqb_spec x R), (Z.eqb_spec x w1); subst; try congruence; reflexivity. }
  destruct Q as [|q Q].
  - rewrite last_snoc, Z.eqb_refl. destruct (list_snoc P) as [->|(P1 & w1 & EP)]; [rewrite C2 in L2; cbn [app length] in L2; lia|].
    assert (E1 : X (eV a) R = P1 ++ w1 :: [W]) by (rewrite C2, EP, <- app_assoc; reflexivity).
    assert (Pw : prim w1) by (apply Xin; rewrite E1; apply in_app_iff; right; now left).
    destruct (X_links g0 _ _ _ _ _ F C2) as [LW _]. rewrite EP, last_snoc in LW.
    destruct (X_links g0 _ _ _ _ _ F E1) as [Lw1 Lw2]. cbn [hd] in Lw2.
    assert (Nw : ep (eV a) w1 <> W).
    { rewrite Lw1. destruct (list_snoc P1) as [->|(P2 & w2 & EP2)]; [change (last [] R) with R; unfold GeoP.prim, GeoP.isroot in *; lia|]. rewrite EP2, last_snoc. intros Q.
      rewrite E1, EP2 in Xnd. rewrite <- app_assoc in Xnd. apply NoDup_app_r in Xnd. cbn [app] in Xnd. apply NoDup_cons_iff in Xnd. apply (proj1 Xnd). right. left. auto. }
    replace (gp_GetExtFaceVertex g W (b2z (negb (o (eV a) W)))) with (@Ret Z w1).
    2:{ rewrite (rp_ext_get _ _ _ _ _ _ H WX (b2z_01 _)). f_equal. rewrite <- LW. unfold ep. destruct (o (eV a) W); reflexivity. }
    cbn [bind]. rewrite (rp_ext_get _ _ _ _ _ _ H) by (unfold GeoP.prim in Pw; lia). cbn [bind Z.eqb].
    replace (if e0 (eV a) w1 =? W then 1 else 0) with (b2z (negb (o (eV a) w1))).
    2:{ unfold en, ep in *. destruct (o (eV a) w1); cbn [negb b2z]; destruct (Z.eqb_spec (e0 (eV a) w1) W); congruence. }
    destruct (Fin P1 w1 [W] E1 ltac:(discriminate)) as (g' & V & W1 & H1 & G1 & X1 & R1). exists g', V, P1, w1, [W]. split; [exact W1|]. split; [auto|]. split; [auto|].
    split; [rewrite <- C2; exact E1|]. split; [auto|]. split; [discriminate|]. split; [right; auto|exact R1].
  - assert (EL : last (P ++ W :: q :: Q) NIL <> W).
    { rewrite last_app_ne by discriminate. rewrite last_cons_ne by discriminate. intros E. rewrite C2 in Xnd. apply NoDup_app_r in Xnd. apply NoDup_cons_iff in Xnd. apply (proj1 Xnd). rewrite <- E. apply last_in. discriminate. }
    rewrite (eqb_false_neq _ _ EL). cbn [bind]. destruct (Fin P W (q :: Q) C2 ltac:(discriminate)) as (g' & V & W1 & H1 & G1 & X1 & R1). exists g', V, P, W, (q :: Q). split; [exact W1|]. split; [auto|]. split; [auto|].
    split; [reflexivity|]. split; [auto|]. split; [discriminate|]. split; [left; auto|exact R1].
Qed.

(** ** Passing an inactive vertex *)
Lemma pass_ok v c g a W P Q : rp g a [] -> dinv v c a -> act (eV a) c -> chain a (N + c) W [] P Q ->
  exists l', _HandleInactiveVertex g W (b2z (negb (o (eV a) W))) = Ret (hd (N + c) Q, l') /\ forall q Q1, Q = q :: Q1 -> l' = b2z (negb (o (eV a) q)).
Proof.
  intros H D Ac [C1 C2]. pose proof (d_geo _ _ _ _ _ D) as G. destruct (full_of _ _ _ G Ac) as [HR F]. destruct (X_facts _ _ _ F) as (Xne & Xnd & Xin).
  set (R := N + c) in *. assert (PW : prim W) by (apply Xin; rewrite C2; apply in_app_iff; right; now left).
  destruct (X_links g0 _ _ _ _ _ F C2) as [_ LW]. unfold _HandleInactiveVertex. rewrite (get_en _ _ _ _ _ H) by (unfold GeoP.prim in PW; lia). cbn [bind]. rewrite LW.
  assert (Pq : 1 <= hd R Q <= 2 * N).
  { destruct Q as [|q Q]; cbn [hd]; [unfold GeoP.isroot in HR; lia|]. destruct (Xin q) as [Pq _]; [rewrite C2; apply in_app_iff; right; right; now left|]. unfold GeoP.prim in Pq. lia. }
  rewrite (rp_ext_get _ _ _ _ _ _ H Pq) by lia. cbn [bind Z.eqb]. eexists. split; [reflexivity|]. intros q Q1 ->. cbn [hd].
  assert (E2 : X (eV a) R = (P ++ [W]) ++ q :: Q1) by (rewrite C2, <- app_assoc; reflexivity). destruct (X_links g0 _ _ _ _ _ F E2) as [L1 L2]. rewrite last_snoc in L1.
  assert (Ne : en (eV a) q <> W).
  { rewrite L2. destruct Q1 as [|q2 Q1]; cbn [hd]; [unfold GeoP.prim, GeoP.isroot in *; lia|]. intros ->. rewrite C2 in Xnd. apply NoDup_app_r in Xnd. apply NoDup_cons_iff in Xnd. apply (proj1 Xnd). right. now left. }
  unfold en, ep in *. destruct (o (eV a) q); cbn [negb b2z]; destruct (Z.eqb_spec (e0 (eV a) q) W); congruence.
Qed.
(** ** What asking for outerplanarity adds: every pertinent vertex lies under a chord *)
Definition covers (c : Z) (a : est) : Prop := forall w, In w (X (eV a) (N + c)) -> pe a w <> NIL -> cover (nbrs (eV a)) (X (eV a) (N + c)) w.
Lemma nbrs_incl s t : (forall x, adj t x = adj s x) -> nb t = nb s -> forall x y, In y (nbrs s x) -> In y (nbrs t x).
Proof.
  intros E1 E2 x y. unfold nbrs. rewrite E2. intros H. apply in_map_iff in H. destruct H as (e & <- & He). apply in_map_iff. exists e. split; [auto|]. apply in_rot. rewrite E1. now apply in_rot in He.
Qed.
Lemma covers_same c a b : covers c a -> X (eV b) (N + c) = X (eV a) (N + c) -> (forall x, adj (eV b) x = adj (eV a) x) -> nb (eV b) = nb (eV a) -> pe b = pe a -> covers c b.
Proof.
  intros H E1 E2 E3 E4 w Hw Hp. rewrite E1 in *. rewrite E4 in Hp. apply (cover_mono (nbrs (eV a))); [intros x y _; now apply nbrs_incl|]. auto.
Qed.
Lemma covers_sim c a V : geo NIL [] (eV a) -> act (eV a) c -> covers c a -> fsim (eV a) V -> covers c (set_V a V).
Proof.
  intros G Ac H S. assert (E1 : forall x, adj V x = adj (eV a) x) by (intros x; now rewrite (fs_adj _ _ S)). destruct (fs_X _ _ S (N + c)) as [E|E].
  - apply (covers_same c a); auto. apply (fs_nb _ _ S).
  - intros w. cbn [set_V eV pe]. rewrite E. rewrite <- in_rev. intros Hw Hp. destruct (full_of g0 _ _ G Ac) as [_ F]. destruct (X_facts g0 _ _ F) as (_ & Nd & _).
    apply (cover_rev (nbrs (eV a))); auto; [apply (nbrs_sym g0), G|apply nbrs_incl; auto; apply (fs_nb _ _ S)].
Qed.
Lemma jx_cover a c Q Rs : geo NIL [] (eV a) -> fans g0 (eV a) -> covers c a -> forall fr W, chain a (N + c) W fr [] Q -> (forall z R, In (z, R) fr -> pe a z = NIL /\ prim z) -> incl (map snd fr) Rs ->
  (forall R, In R Rs -> isroot R) -> act (eV a) c -> NoDup (jx (eV a) W fr Q) ->
  forall w, In w (jx (eV a) W fr Q) -> w <> W -> pe a w <> NIL ->
  exists x y, In x (jx (eV a) W fr Q) /\ In y (jx (eV a) W fr Q) /\ idx (jx (eV a) W fr Q) x < idx (jx (eV a) W fr Q) w /\ idx (jx (eV a) W fr Q) w < idx (jx (eV a) W fr Q) y /\
    exists x0 y0, In y0 (nbrs (eV a) x0) /\ x = rt g0 Rs x0 /\ y = rt g0 Rs y0.
Proof.
  intros G Fa Co. assert (RI : forall Rs x, (forall R, In R Rs -> isroot R) -> prim x -> rt g0 Rs x = x).
  { intros Rs' x HR Px. unfold rt. destruct (inb x Rs') eqn:E; [|auto]. apply inb_true in E. specialize (HR x E). unfold GeoP.prim, GeoP.isroot in *. lia. }
  induction fr as [|[z R] fr IH]; intros W Ch Hpe Hi HR Ac Nd w Hw Nw Pw.
  - cbn [jx] in *. destruct Ch as [_ C2]. cbn [app] in C2. rewrite <- C2 in *. destruct (Co w Hw Pw) as (x & y & X1 & X2 & X3 & X4 & X5). exists x, y. split; [auto|]. split; [auto|]. split; [auto|]. split; [auto|].
    exists x, y. split; [auto|]. destruct (full_of g0 _ _ G Ac) as [_ F]. destruct (X_facts g0 _ _ F) as (_ & _ & Xin). rewrite !RI; auto; [apply (Xin y X2)|apply (Xin x X1)].
  - pose proof Ch as Ch0. destruct Ch as (C1 & (l & C2) & (d & D1 & D2 & D3 & D4) & C4). cbn [jx] in *. pose proof (jx_hd g0 _ _ _ _ _ _ C4) as (l' & Ej & _). destruct (Hpe z R (or_introl eq_refl)) as [Pz0 Pz].
    apply in_app_iff in Hw. destruct Hw as [Hw|Hw].
    + exists W, z. assert (Nz : ~ In z (X (eV a) R)) by (intros K; apply (NoDup_app_disj _ _ z Nd K); rewrite Ej; now left). assert (IW : In W (X (eV a) R)) by (rewrite C2; now left).
      split; [apply in_app_iff; auto|]. split; [apply in_app_iff; right; rewrite Ej; now left|]. rewrite !(idx_app_l _ _ w), (idx_app_l _ _ W), (idx_app_r _ _ z) by auto. rewrite Ej, idx_hd.
      pose proof (proj1 (idx_lt _ _) Hw). rewrite C2 at 1 2. rewrite idx_hd. rewrite (idx_tl W w l) by auto. pose proof (idx_nn l w). split; [lia|]. split; [lia|].
      exists W, R. pose proof (Fa d D2) as Cf. rewrite <- D1 in Cf. split.
      * apply (nbrs_sym g0); [apply G|]. pose proof (cf_hd _ _ _ Cf) as Eh. rewrite C2 in Eh. cbn [hd] in Eh. pose proof (of_T _ _ _ (cf_open _ _ _ Cf)) as OT.
        rewrite <- Eh. apply hd_in. intros E0. destruct (full_of g0 _ _ G D2) as [_ F]. destruct (X_facts g0 _ _ F) as (_ & _ & Xin). rewrite <- D1 in Xin. destruct (Xin W IW) as [PW _].
        rewrite E0 in Eh. cbn [hd] in Eh. rewrite <- Eh in PW. unfold GeoP.prim, NIL in PW. lia.
      * split.
        -- rewrite RI; auto. destruct (full_of g0 _ _ G D2) as [_ F]. destruct (X_facts g0 _ _ F) as (_ & _ & Xin). rewrite <- D1 in Xin. apply (Xin W IW).
        -- unfold rt. destruct (inb R Rs) eqn:E; [rewrite D1; replace (N + d - N) with d by lia; congruence|]. exfalso. assert (inb R Rs = true) by (apply inb_true, Hi; now left). congruence.
    + assert (Nd2 : NoDup (jx (eV a) z fr Q)) by (apply NoDup_app_r in Nd; auto). destruct (Z.eq_dec w z) as [->|Nz]; [congruence|].
      destruct (IH z C4 (fun z' R' H' => Hpe z' R' (or_intror H')) ltac:(intros y Hy; apply Hi; now right) HR Ac Nd2 w Hw Nz Pw) as (x & y & X1 & X2 & X3 & X4 & X5). exists x, y.
      assert (Ot : forall y, In y (jx (eV a) z fr Q) -> ~ In y (X (eV a) R)) by (intros u Hu K; apply (NoDup_app_disj _ _ u Nd K Hu)).
      split; [apply in_app_iff; auto|]. split; [apply in_app_iff; auto|]. rewrite !idx_app_r by auto. split; [lia|]. split; [lia|auto].
Qed.
Lemma covers_embed v c a b W fr Q : dinv v c a -> dinv v c b -> act (eV a) c -> act (eV b) c -> prim c -> fans g0 (eV a) -> covers c a -> prim W -> chain a (N + c) W fr [] Q -> emrel g0 c a b W fr Q ->
  (forall z R, In (z, R) fr -> pe a z = NIL) -> covers c b.
Proof.
  intros D Db Ac Ab Pc Fa Co PW Ch Em Hz w Hw Pw. pose proof (d_geo _ _ _ _ _ D) as G. destruct (full_of g0 _ _ (d_geo _ _ _ _ _ Db) Ab) as [_ F]. destruct (X_facts g0 _ _ F) as (_ & Nd & _). clear F.
  destruct (chain_in g0 kids St _ _ _ _ _ _ _ _ G eq_refl Pc W PW Ch) as (_ & _ & Fr).
  pose proof (em_X _ _ _ _ _ _ _ Em (N + c)) as EX. rewrite Z.eqb_refl in EX. rewrite EX in *. rewrite (em_pe _ _ _ _ _ _ _ Em) in Pw. unfold upd in Pw. destruct (Z.eqb_spec w W) as [|Nw]; [congruence|].
  destruct (jx_cover a c Q (map snd fr) G Fa Co fr W Ch) with (w := w) as (x & y & X1 & X2 & X3 & X4 & x0 & y0 & X5 & -> & ->); auto.
  - intros z R Hi. split; [eauto|]. destruct (Fr z R Hi) as (d & K). apply K.
  - intros R Hi. exact Hi.
  - intros R Hi. apply in_map_iff in Hi. destruct Hi as ([z R'] & E & Hi). cbn [snd] in E. subst R'. destruct (Fr z R Hi) as (d & -> & Ad & _). apply (act_isroot g0 _ _ Ad).
  - exists (rt g0 (map snd fr) x0), (rt g0 (map snd fr) y0). do 4 (split; [auto|]). now apply (em_nbr _ _ _ _ _ _ _ Em).
Qed.
End Down3.
