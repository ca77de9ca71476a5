(** * IsoB: the outerplanar isolator at the points where the embedder calls it. *)
From Coq Require Import ZifyBool Permutation Sorted.
From Verif Require Import Base BaseP GraphRec GraphM GraphSpec GSimp LinkP GraphP GraphP2 GraphP3 ListM ListSpec DFSM DFSSpec DFSP TestM TestSpec TestP ObsSpec EmbM EmbSpec EmbP EmbP2 FaceP GeoP EmbInv EmbStep EmbTree EmbWalk EmbUp EmbOrient EmbJoin EmbDown PlanSpec EmbC3 EmbDown3 EmbFan EmbStor FanP IsoM IsoP1 IsoP4 IsoT.

Section Blk.
Variables (g0 : graph) (kids : Z -> list Z).
Hypothesis St : static g0 kids.
Local Notation N := (gN g0).
Local Notation p := (viParent (gVI g0)).
Local Notation prim := (prim (gN g0)).
Local Notation anc := (ancestor (viParent (gVI g0))).
Local Notation geo := (geo (gN g0) (viParent (gVI g0))).
Local Notation act := (act g0).
Local Notation rp := (rp g0).
Local Notation fsim := (fsim g0).
Local Notation dinv := (dinv g0 kids).
Local Notation sedge := (sedge g0).

(** What the isolator needs of the edges. *)
(** No two edges have the same ends. *)
Definition nopar (a : est) : Prop := forall e f, arc a e -> arc a f -> pof g0 (nb (eV a) e) = pof g0 (nb (eV a) f) -> pof g0 (nb (eV a) (twin e)) = pof g0 (nb (eV a) (twin f)) -> e = f.
Definition good (a : est) : Prop := noloop g0 a /\ ptypes a /\ stor g0 a /\ nopar a.
Lemma good_sedge a b : sedge a b -> good a -> good b.
Proof.
  intros E (H1 & H2 & H3 & H4). split; [|split; [exact (sedge_ptypes g0 a b E H2)|split; [exact (stor_sedge g0 a b E H3)|]]].
  - intros e He. rewrite !(se_nb _ _ _ E). apply H1. now apply (se_arc _ _ _ E).
  - intros e f He Hf. rewrite !(se_nb _ _ _ E). apply H4; now apply (se_arc _ _ _ E).
Qed.
Lemma isolated_sedge a b h : sedge a b -> isolated g0 b h -> isolated g0 a h.
Proof.
  intros E (ME & A & L & K). exists ME, A. split; [|exact K]. destruct L. constructor; auto.
  - intros x e. rewrite lv_in. rewrite (se_arc _ _ _ E), (se_nb _ _ _ E). tauto.
  - intros x e He. rewrite (lv_nbr x e He). apply (se_nb _ _ _ E).
Qed.

(** ** Room on the stack *)
Lemma tree_cap g a stk C xs zs : rp g a stk -> geo C xs (eV a) -> zs <> [] -> NoDup zs -> (forall z, In z zs -> prim z /\ p z <> NIL) -> 2 * Z.of_nat (length zs) <= gCap g0.
Proof.
  intros H G Nn Nd Hz. pose proof (g_base _ _ _ _ _ G) as G0.
  set (at_ := fun e z => exists x, In e (adj (eV a) x) /\ childarc (eV a) e /\ nb (eV a) e = z /\ (x = N + z \/ x = p z)).
  assert (exists es, length es = (2 * length zs)%nat /\ NoDup es /\ forall e, In e es -> exists z, In z zs /\ (at_ e z \/ at_ (twin e) z)) as (es & L & Ne & He).
  { clear Nn. induction zs as [|d zs IH]; [exists []; split; [auto|]; split; [constructor|]; intros e []|].
    apply NoDup_cons_iff in Nd. destruct Nd as [Nd1 Nd2]. destruct IH as (es & L & Ne & He); [auto|intros; apply Hz; now right|].
    destruct (Hz d (or_introl eq_refl)) as (A1 & A2). destruct (g_child _ _ _ G0 d A1 A2) as (e & C1 & C2 & C3).
    assert (At : at_ e d) by (exists (match adj (eV a) (N + d) with [] => p d | _ => N + d end); split; [auto|]; split; [auto|]; split; [auto|]; destruct (adj (eV a) (N + d)); auto).
    assert (Cr : forall z, In z zs -> at_ (twin e) z -> False).
    { intros z Hi (x' & K1 & K2 & K3 & K4). destruct At as (x & L1 & L2 & L3 & L4). destruct (Hz z (or_intror Hi)) as [Pz Nz].
      destruct (g_twins _ _ _ G0 _ _ L1) as [_ T]. rewrite L3 in T. pose proof (g_disj _ _ _ G0 _ _ _ K1 T) as E1.
      destruct (g_twins _ _ _ G0 _ _ K1) as [_ T']. rewrite twin_invol, K3 in T'. pose proof (g_disj _ _ _ G0 _ _ _ L1 T') as E2.
      destruct (Hp g0 kids St d A1 A2) as [Q1 Q2], (Hp g0 kids St z Pz Nz) as [Q3 Q4]. unfold GeoP.prim in *. lia. }
    assert (Sm : forall z, In z zs -> at_ e z -> False). { intros z Hi (x' & K1 & K2 & K3 & K4). destruct At as (x & L1 & L2 & L3 & L4). apply Nd1. congruence. }
    exists (e :: twin e :: es). split; [cbn [length]; lia|]. split.
    - constructor; [|constructor; [|auto]].
      + intros [Q|Q]; [apply (twin_ne e); auto|]. destruct (He e Q) as (z & Hi & [K|K]); [eauto|eauto].
      + intros Q. destruct (He _ Q) as (z & Hi & [K|K]); [eauto|]. rewrite twin_invol in K. eauto.
    - intros x [<-|[<-|Hx]].
      + exists d. split; [now left|auto].
      + exists d. rewrite twin_invol. split; [now left|auto].
      + destruct (He x Hx) as (z & Hi & K). exists z. split; [now right|auto]. }
  assert (I : incl es (zrange 2 (Z.to_nat (gCap g0)))).
  { intros e Hi. pose proof (k_cap _ _ (r_keeps _ _ _ _ H)) as KC. assert (exists x, In e (adj (eV a) x)) as [x Hx].
    { destruct (He e Hi) as (z & _ & [(x & K & _)|(x & K & _)]); [eauto|]. destruct (g_twins _ _ _ G0 _ _ K) as [_ T]. rewrite twin_invol in T. eauto. }
    pose proof (ch_range _ _ (r_chains _ _ _ _ H) _ _ Hx) as R. unfold gp_EdgeIndexBound in R. apply in_zrange. lia. }
  pose proof (NoDup_incl_length Ne I) as Le. rewrite zrange_length in Le. destruct zs; [congruence|]. cbn [length] in *. lia.
Qed.
Lemma adj_cap g a stk C xs x : rp g a stk -> geo C xs (eV a) -> adj (eV a) x <> [] -> Z.of_nat (length (adj (eV a) x)) <= gCap g0.
Proof.
  intros H G Na. assert (I : incl (adj (eV a) x) (zrange 2 (Z.to_nat (gCap g0)))).
  { intros e Hi. pose proof (k_cap _ _ (r_keeps _ _ _ _ H)) as KC. pose proof (ch_range _ _ (r_chains _ _ _ _ H) _ _ Hi) as R. unfold gp_EdgeIndexBound in R. apply in_zrange. lia. }
  pose proof (NoDup_incl_length (g_nodup _ _ _ (g_base _ _ _ _ _ G) x) I) as Le. rewrite zrange_length in Le. destruct (adj (eV a) x); [congruence|]. cbn [length] in *. lia.
Qed.
(** The vertices of a component and the children below other roots. *)
Lemma mem_cap g a stk C xs d rs : rp g a stk -> geo C xs (eV a) -> act (eV a) d -> NoDup rs -> (forall c, In c rs -> act (eV a) c /\ c <> d) ->
  2 * (Z.of_nat (length rs) + Z.of_nat (length (mem N (eV a) (N + d)))) <= gCap g0.
Proof.
  intros H G Ad Nd Hr. pose proof (g_base _ _ _ _ _ G) as G0. assert (In d (mem N (eV a) (N + d))) as Id.
  { destruct Ad as (A1 & A2 & A3). unfold mem. apply filter_In. split; [unfold GeoP.prim in A1; apply in_zrange; lia|]. rewrite (g_B1 _ _ _ G0 d A1 A2 A3). lia. }
  assert (Hm : forall z, In z (mem N (eV a) (N + d)) -> prim z /\ B (eV a) z = N + d).
  { intros z Hz. unfold mem in Hz. apply filter_In in Hz. destruct Hz as [Z1 Z2]. apply in_zrange in Z1. unfold GeoP.prim. lia. }
  assert (L : 2 * Z.of_nat (length (rs ++ mem N (eV a) (N + d))) <= gCap g0); [|rewrite app_length in L; lia].
  apply (tree_cap g a stk C xs _ H G).
  - intros E. apply app_eq_nil in E. destruct E as [_ E]. rewrite E in Id. destruct Id.
  - apply NoDup_app_intro; [auto|unfold mem; apply NoDup_filter, NoDup_zrange|]. intros z Z1 Z2. destruct (Hr z Z1) as [(A1 & A2 & A3) Ne]. destruct (Hm z Z2) as [_ Bz]. rewrite (g_B1 _ _ _ G0 z A1 A2 A3) in Bz. lia.
  - intros z Hz. apply in_app_iff in Hz. destruct Hz as [Hz|Hz]; [destruct (Hr z Hz) as [(A1 & A2 & _) _]; auto|]. destruct (Hm z Hz) as [Pz Bz]. split; [auto|]. intros E0.
    destruct (g_B0 _ _ _ G0 z Pz E0) as [Q _]. destruct Ad as (A1 & _). unfold GeoP.prim, NIL in *. lia.
Qed.

(** ** A pertinent vertex *)
Lemma pert_in v c a d f : dinv v c a -> opl g0 = true -> act (eV a) d -> v <= p d -> In f (fw a v) -> anc d (nb (eV a) f) -> f <> NIL -> exists w, In w (X (eV a) (N + d)) /\ pert a w.
Proof.
  intros D Eo Ad Lv Hf Af Nf. pose proof (d_geo _ _ _ _ _ D) as G. destruct (d_comp _ _ _ _ _ D f Hf) as [C1 C2]. destruct (proj1 (d_out _ _ _ _ _ D) Eo) as [Ou _].
  destruct (fo_via _ _ (d_fw _ _ _ _ _ D) v f Hf) as (c' & (_ & _ & _ & V3 & _) & _). set (y := nb (eV a) f) in *.
  assert (K : forall n x, (Z.to_nat x < n)%nat -> prim x -> anc d x -> anc x y -> (x = y \/ exists d', act (eV a) d' /\ p d' = x /\ anc d' y) -> exists w, In w (X (eV a) (N + d)) /\ pert a w).
  { induction n as [|n IH]; intros x Hn Px Ax Axy Hx; [lia|].
    assert (Nx : p x <> NIL). { destruct Ad as (A1 & A2 & _). destruct (Z.eq_dec d x) as [<-|Ne]; [auto|]. apply (anc_up g0 _ _ Ax Ne). }
    destruct (B_act g0 kids St _ _ _ _ G Px Nx) as (d1 & B1 & A1 & A2). pose proof (B_near g0 kids St _ _ _ d x G Ad Px Ax) as Bn.
    destruct (Hp g0 kids St d (proj1 Ad) (proj1 (proj2 Ad))) as [Pp Lp].
    destruct (Z.eq_dec d1 d) as [->|Ne].
    - exists x. split; [rewrite <- B1; now apply Ou|]. destruct Hx as [-> |(d' & D1 & D2 & D3)]; [left; rewrite C1; exact Nf|]. right.
      assert (In d' (prl a (p d'))) as Q; [|rewrite D2 in Q; intros E; rewrite E in Q; destruct Q]. apply C2; auto. rewrite D2. pose proof (anc_le g0 kids St _ _ Px Ax). lia.
    - assert (Add : anc d d1) by (apply (anc_total g0 kids St d d1 x); auto; lia). destruct (anc_up g0 _ _ Add ltac:(congruence)) as [N1 A3]. destruct (Hp g0 kids St d1 (proj1 A1) N1) as [P1 L1]. pose proof (anc_le g0 kids St _ _ Px A2).
      apply (IH (p d1)); auto.
      + unfold GeoP.prim in *. lia.
      + apply (anc_trans _ _ d1); [|now apply (anc_trans _ _ x)]. apply anc_step; [auto|constructor].
      + right. exists d1. split; [auto|]. split; [auto|]. now apply (anc_trans _ _ x). }
  apply (K (S (Z.to_nat y)) y); auto. constructor.
Qed.

Lemma pertb_spec a x : pertb a x = true <-> pert a x.
Proof.
  unfold pertb, pert. rewrite orb_true_iff, !negb_true_iff, Z.eqb_neq. destruct (prl a x); cbn [isnil]; intuition congruence.
Qed.
Lemma pertb_false a x : ~ pert a x -> pertb a x = false.
Proof. rewrite <- pertb_spec. destruct (pertb a x); congruence. Qed.

(** ** The call *)
Lemma iso_ok v c a d g stk stk0 R0 : dinv v c a -> good a -> opl g0 = true -> act (eV a) d -> prim v -> anc v (p d) ->
  ~ pert a (hd NIL (X (eV a) (N + d))) -> ~ pert a (last (X (eV a) (N + d)) NIL) -> (exists w, In w (X (eV a) (N + d)) /\ pert a w) -> (p d = v -> covers g0 d a) ->
  rp g a stk -> (stk = [] /\ stk0 = [] /\ R0 = N + d) \/ (exists y, stk = y :: N + d :: stk0) ->
  Z.of_nat (length stk0) + 2 * Z.of_nat (length (mem N (eV a) (N + d))) <= gstackCap g0 -> (p d = v -> Z.of_nat (length stk0) + Z.of_nat (length (adj (eV a) (N + d))) + 4 <= gstackCap g0) ->
  exists h, _IsolateOuterplanarObstruction g v R0 = Ret (h, C_OK) /\ isolated g0 a h.
Proof.
  intros D (Gl & Gp & Gs & Gn) Eo Ad Hv Av P1 P2 P3 Cv H Hs Cap Cap2. pose proof (d_geo _ _ _ _ _ D) as G.
  destruct (orient g0 a stk g d (N + d) false H G Ad (or_introl eq_refl)) as (V & H1 & S & G1 & O1 & _ & _). set (b := set_V a V).
  assert (Sb : fsim (eV a) (eV b)) by exact S. assert (Ab : act V d) by (apply (fsim_act _ _ _ _ S); auto). assert (Se : sedge a b).
  { constructor; cbn [b set_V eV]; rewrite ?(fs_nb _ _ S), ?(fs_fl _ _ S); auto. intros e. unfold arc. cbn [b set_V eV fw]. rewrite (fs_adj _ _ S). tauto. }
  destruct (good_sedge a b Se (conj Gl (conj Gp (conj Gs Gn)))) as (Gl' & Gp' & Gs' & Gn'). destruct (proj1 (fsim_outer g0 kids St (eV a) V G (d_out _ _ _ _ _ D) S) Eo) as [Ou Fa].
  assert (Ep : forall x, pertb b x = pertb a x) by reflexivity.
  assert (Em : mem N V (N + d) = mem N (eV a) (N + d)) by (unfold mem; now rewrite (fs_B _ _ S)).
  destruct (iso_core g0 kids St b d v g stk stk0 R0) as (h & E & I); auto; cbn [b set_V eV].
  - apply (fsim_via_fwok g0 a); auto. apply (d_fw _ _ _ _ _ D).
  - intros x. unfold b. cbn [set_V pe fw eV]. rewrite (fs_nb _ _ S). apply (d_pe _ _ _ _ _ D).
  - apply (fsim_prlok g0 v a); auto. apply (d_prl _ _ _ _ _ D).
  - fold b. rewrite Ep. apply pertb_false. destruct (fs_X _ _ S (N + d)) as [-> | ->]; rewrite ?hd_rev; auto.
  - fold b. rewrite Ep. apply pertb_false. destruct (fs_X _ _ S (N + d)) as [-> | ->]; rewrite ?last_rev; auto.
  - destruct P3 as (w & W1 & W2). exists w. fold b. rewrite Ep, pertb_spec. split; [|auto]. destruct (fs_X _ _ S (N + d)) as [-> | ->]; [auto|now apply in_rev in W1].
  - intros Epd. exact (covers_sim g0 d a V G Ad (Cv Epd) S).
  - now rewrite Em.
  - now rewrite (fs_adj _ _ S).
  - exists h. split; [exact E|]. exact (isolated_sedge a b h Se I).
Qed.
(** Both directions below W are blocked. *)
Lemma inner_ok v c a b W d l fr P Q g x : dinv v c a -> dinv v c b -> eV b = eV a -> fw b = fw a -> prl b = prl a -> pe b = pe a -> good a -> opl g0 = true -> prim v -> p c = v -> act (eV a) c -> prim W ->
  EmbJoin.chain g0 a (N + c) W fr P Q -> prl a W = d :: l -> ~ pert a (hd NIL (X (eV a) (N + d))) -> ~ pert a (last (X (eV a) (N + d)) NIL) ->
  rp g b (0 :: N + d :: x :: W :: enc (eV a) fr) -> exists h, _IsolateOuterplanarObstruction g v (N + c) = Ret (h, C_OK) /\ isolated g0 a h.
Proof.
  intros D D' E1 E2 E3 E4 Gd Eo Hv Ec Ac PW Ch Ep N1 N2 H. pose proof (d_geo _ _ _ _ _ D) as G. destruct (d_prl _ _ _ _ _ D W d) as (Pd & Vd & Ad & f & Hf & Af); [rewrite Ep; now left|].
  destruct (chain_in g0 kids St _ _ _ _ _ _ _ _ G eq_refl (proj1 Ac) W PW Ch) as (AW & _ & Fr).
  assert (Av : anc v W). { apply (anc_trans _ _ c); [|auto]. apply anc_step; rewrite Ec; [unfold GeoP.prim, NIL in *; lia|constructor]. }
  assert (Nv : W <> v) by (intros ->; rewrite (d_prlv _ _ _ _ _ D) in Ep; discriminate).
  assert (Se : sedge a b). { constructor; rewrite ?E1; auto. intros e. unfold arc. rewrite E1, E2. tauto. }
  assert (Ph : forall z, pert b z <-> pert a z) by (intros z; unfold pert; rewrite E3, E4; tauto).
  pose proof (r_fwrange _ _ _ _ H v f ltac:(now rewrite E2)) as Rf.
  destruct (iso_ok v c b d g (0 :: N + d :: x :: W :: enc (eV a) fr) (x :: W :: enc (eV a) fr) (N + c)) as (h & Eh & Ih); rewrite ?E1, ?Ph; auto.
  - exact (good_sedge a b Se Gd).
  - now rewrite Pd.
  - rewrite <- E1. apply (pert_in v c b d f); rewrite ?E1, ?E2; auto; [lia|unfold NIL; lia].
  - intros Q0. congruence.
  - eauto.
  - assert (HC : GeoP.isroot N (N + c)) by (destruct Ac as [Q0 _]; unfold GeoP.prim, GeoP.isroot in *; lia). destruct (chain_lt g0 kids St _ _ _ _ _ _ _ G HC W Ch) as (L1 & L2 & L3). pose proof (chain_top g0 _ _ _ _ _ _ _ _ G HC Ch) as Tp.
    assert (BW : B (eV a) W <> NIL). { rewrite Tp. destruct fr as [|[z R'] fr']; cbn [map snd hd]; [unfold GeoP.isroot, NIL in *; pose proof PW; unfold GeoP.prim in *; lia|]. specialize (L1 R' (or_introl eq_refl)). unfold GeoP.isroot, GeoP.prim, NIL in *. lia. }
    pose proof (B_le g0 kids St _ _ _ _ G PW BW) as BL. destruct (Hp g0 kids St d (proj1 Ad) (proj1 (proj2 Ad))) as [_ Lt]. rewrite Pd in Lt.
    pose proof (mem_cap g b _ NIL [] d (map (fun R => R - N) (map snd fr)) H ltac:(rewrite E1; exact G) ltac:(rewrite E1; exact Ad)) as MC. rewrite E1, !map_length in MC.
    assert (In d (mem N (eV a) (N + d))) as Id.
    { destruct Ad as (A1 & A2 & A3). unfold mem. apply filter_In. split; [unfold GeoP.prim in A1; apply in_zrange; lia|]. rewrite (g_B1 _ _ _ (g_base _ _ _ _ _ G) d A1 A2 A3). lia. }
    assert (1 <= length (mem N (eV a) (N + d)))%nat by (destruct (mem N (eV a) (N + d)); [destruct Id|cbn [length]; lia]).
    assert (2 * (Z.of_nat (length fr) + Z.of_nat (length (mem N (eV a) (N + d)))) <= gCap g0).
    { apply MC.
      - clear - L2. induction L2 as [|R' l' Hn L2 IH]; [constructor|]. cbn [map]. constructor; [|auto]. intros Hi. apply in_map_iff in Hi. destruct Hi as (R2 & E & Hi). assert (R2 = R') by lia. congruence.
      - intros y Hy. apply in_map_iff in Hy. destruct Hy as (R' & E & Hi). pose proof (L1 R' Hi). apply in_map_iff in Hi. destruct Hi as ([z R2] & Q1 & Hi). cbn [snd] in Q1. subst R2. destruct (Fr z R' Hi) as (d' & D1 & D2 & _).
        replace y with d' by lia. split; [auto|]. lia. }
    pose proof (st_cap _ _ St). cbn [length]. rewrite enc_length. lia.
  - intros Q0. congruence.
  - exists h. split; [exact Eh|]. exact (isolated_sedge a b h Se Ih).
Qed.
End Blk.
