(** * EmbStep: merging one component into another and embedding one edge keep the partial
    embedding well formed. *)
From Coq Require Import ZifyBool Permutation.
From Verif Require Import Base BaseP GraphRec GraphM GraphSpec GSimp LinkP GraphP GraphP2 GraphP3 ListM ListSpec ListP DFSM DFSSpec TestM TestSpec TestP TestP3 EmbM EmbSpec EmbP EmbP2 EmbP3 FaceP GeoP GeoP2 EmbInv.

Definition b2z (b : bool) : Z := if b then 1 else 0.
Lemma b2z_01 b : b2z b = 0 \/ b2z b = 1.
Proof. destruct b; auto. Qed.
Lemma b2z_lxor b : Z.lxor 1 (b2z b) = b2z (negb b).
Proof. now destruct b. Qed.
Lemma lxor_16_type f : Z.land (Z.lxor f EDGEFLAG_INVERTED_MASK) EDGE_TYPE_MASK = Z.land f EDGE_TYPE_MASK.
Proof.
  apply Z.bits_inj'. intros n Hn. rewrite !Z.land_spec, Z.lxor_spec. unfold EDGEFLAG_INVERTED_MASK, EDGE_TYPE_MASK.
  destruct (Z.eq_dec n 4) as [->|]; [cbn; now rewrite !andb_false_r|]. replace (Z.testbit 16 n) with false; [now rewrite xorb_false_r|].
  symmetry. change 16 with (2 ^ 4). apply Z.pow2_bits_false. lia.
Qed.
Lemma land_16 f : Z.land f EDGEFLAG_INVERTED_MASK = if Z.testbit f 4 then 16 else 0.
Proof.
  apply Z.bits_inj'. intros n Hn. rewrite Z.land_spec. unfold EDGEFLAG_INVERTED_MASK. change 16 with (2 ^ 4) at 1.
  destruct (Z.eq_dec n 4) as [->|Ne]; [rewrite Z.pow2_bits_true by lia; destruct (Z.testbit f 4); reflexivity|].
  rewrite Z.pow2_bits_false by lia. rewrite andb_false_r. destruct (Z.testbit f 4).
  - change 16 with (2 ^ 4). now rewrite Z.pow2_bits_false by lia.
  - now rewrite Z.bits_0.
Qed.
Lemma lxor_16_inv f : negb (Z.land (Z.lxor f EDGEFLAG_INVERTED_MASK) EDGEFLAG_INVERTED_MASK =? 0) = negb (negb (Z.land f EDGEFLAG_INVERTED_MASK =? 0)).
Proof. rewrite !land_16, Z.lxor_spec. replace (Z.testbit EDGEFLAG_INVERTED_MASK 4) with true by reflexivity. now destruct (Z.testbit f 4). Qed.

Section Step.
Variables (g0 : graph) (kids : Z -> list Z).
Local Notation N := (gN g0).
Local Notation p := (viParent (gVI g0)).
Local Notation prim := (prim (gN g0)).
Local Notation isroot := (isroot (gN g0)).
Local Notation geo := (geo (gN g0) (viParent (gVI g0))).
Local Notation rp := (rp g0).
Hypothesis Hp : forall z, prim z -> p z <> NIL -> prim (p z) /\ p z < z.
Hypothesis Hk : kids_ok g0 kids.

(** What a merge of the component of R into that of C' at Z0 leaves alone. *)
Record merge_rel (a b : est) (R C' Z0 : Z) : Prop := {
  mr_fw : fw b = fw a; mr_pe : pe b = pe a; mr_vis : vis b = vis a;
  mr_prl : forall x, prl b x = if x =? Z0 then remove Z.eq_dec (R - N) (prl a Z0) else prl a x;
  mr_fpc : forall x, fpc b x = fpc a x \/ (x = Z0 /\ fpc a x = R - N /\ forall l1 l2, kids Z0 = l1 ++ (R - N) :: l2 -> fpc b x = hd NIL l2);
  mr_o : o (eV b) = o (eV a); mr_X : X (eV b) = X (eV a);
  mr_B : forall z, B (eV b) z = if B (eV a) z =? R then C' else B (eV a) z;
  mr_nb : forall e, nb (eV b) e = if inb (twin e) (adj (eV a) R) then Z0 else nb (eV a) e;
  mr_fl : forall e, Z.land (fl (eV b) e) EDGE_TYPE_MASK = Z.land (fl (eV a) e) EDGE_TYPE_MASK;
  mr_adjR : adj (eV b) R = []; mr_adjZ : forall e, In e (adj (eV b) Z0) <-> In e (adj (eV a) Z0) \/ In e (adj (eV a) R);
  mr_adj : forall x, x <> Z0 -> x <> R -> adj (eV b) x = adj (eV a) x;
  mr_rot : rot (eV b) Z0 = rot (eV a) Z0 ++ rot (eV a) R }.

Lemma root_child C xs s c : geo C xs s -> prim c -> p c <> NIL -> adj s (N + c) <> [] ->
  exists l1 e l2, adj s (N + c) = l1 ++ e :: l2 /\ childarc s e /\ (forall y, In y (l1 ++ l2) -> ~ childarc s y).
Proof.
  intros G Hc Pc Na. pose proof (g_base _ _ _ _ _ G) as G0. destruct (g_child _ _ _ G0 c Hc Pc) as (e & Ce & Ne & He).
  destruct (adj s (N + c)) as [|y l] eqn:Ea; [congruence|]. rewrite Ea in He.
  destruct (in_split _ _ He) as (l1 & l2 & E). exists l1, e, l2. split; [auto|]. split; [auto|]. intros z Hz Cz.
  assert (Iz : In z (adj s (N + c))) by (rewrite Ea, E; apply in_app_iff in Hz; apply in_app_iff; destruct Hz; [auto|right; now right]).
  pose proof (g_nodup _ _ _ G0 (N + c)) as Nd. rewrite Ea, E in Nd. apply NoDup_mid in Nd. destruct Nd as [_ Nd]. apply Nd.
  assert (e = z); [|congruence]. rewrite <- Ea in He. apply (g_childq _ _ _ G0 _ _ _ _ He Iz Ce Cz).
  destruct (g_childu _ _ _ G0 _ _ Iz Cz) as (Q1 & Q2 & [Q|Q]); [lia|]. exfalso. destruct (Hp _ Q1 Q2) as [Q3 _]. unfold GeoP.prim in *. lia.
Qed.

Lemma merge_one_ok g a stk R xs P Z0 Q c :
  rp g a stk -> geo R xs (eV a) -> isroot R -> adj (eV a) R <> [] ->
  (forall x, xs = [x] -> o (eV a) x = o (eV a) R /\ ep (eV a) x = R) ->
  (forall x y l, xs = x :: y :: l -> ep (eV a) (last xs NIL) <> R) ->
  R = N + c -> prim c -> p c = Z0 -> prim Z0 -> isroot (B (eV a) Z0) -> adj (eV a) (B (eV a) Z0) <> [] -> B (eV a) Z0 <> R ->
  X (eV a) (B (eV a) Z0) = P ++ Z0 :: Q -> In c (prl a Z0) -> In c (kids Z0) ->
  exists g' b, merge_one g R (b2z (o (eV a) R)) Z0 (b2z (negb (o (eV a) Z0))) = Ret g' /\ rp g' b stk /\
    geo (B (eV a) Z0) (xs ++ Z0 :: Q) (eV b) /\ merge_rel a b R (B (eV a) Z0) Z0 /\ ep (eV b) Z0 = last xs NIL.
Proof.
  intros H G HR NR H1 H2 Ec Pc Pz PZ HC' NC' CR EX Hc Hkc. set (s := eV a) in *. set (C' := B s Z0) in *.
  assert (KN : gN g = N) by (apply (k_N _ _ (r_keeps _ _ _ _ H))).
  pose proof (g_base _ _ _ _ _ G) as G0.
  destruct (g_half _ _ _ _ _ G HR) as (pre & segs & FS & Hh).
  pose proof (h_last _ _ _ _ _ _ _ Hh) as El. pose proof (h_ne _ _ _ _ _ _ _ Hh) as Nx.
  set (x := last xs NIL) in *. assert (Hx : In x xs) by (apply last_in; auto).
  destruct (h_in _ _ _ _ _ _ _ Hh x Hx) as [Px Bx].
  assert (xR : x <> R) by (unfold GeoP.prim, GeoP.isroot in *; lia).
  assert (xZ : x <> Z0) by (intros E; apply CR; unfold C'; congruence).
  assert (ZR : Z0 <> R) by (unfold GeoP.prim, GeoP.isroot in *; lia).
  assert (Pc' : p c <> NIL) by (rewrite Pz; unfold GeoP.prim, NIL in *; lia).
  assert (Enx : en s x = R).
  { pose proof (h_linked _ _ _ _ _ _ _ Hh) as L. destruct (list_snoc xs) as [->|(l & y & Ey)]; [congruence|].
    unfold x. rewrite Ey, last_snoc. rewrite Ey in L. apply linked_mid in L. apply L. }
  unfold merge_one. rewrite b2z_lxor.
  assert (RX : 1 <= R <= 2 * N) by (unfold GeoP.isroot, GeoP.prim in *; lia).
  assert (XX : 1 <= x <= 2 * N) by (unfold GeoP.prim in *; lia). assert (ZX : 1 <= Z0 <= 2 * N) by (unfold GeoP.prim in *; lia).
  rewrite (rp_ext_get _ _ _ _ _ _ H RX (b2z_01 _)). cbn [bind].
  replace (if b2z (negb (o s R)) =? 0 then e0 (eV a) R else e1 (eV a) R) with x.
  2:{ rewrite <- El. unfold ep. fold s. destruct (o s R); reflexivity. }
  destruct (set_ext_ok _ _ _ _ Z0 _ x H ZX (b2z_01 (negb (o s Z0)))) as (gA & EA & HA). rewrite EA. cbn [bind]. fold s in HA.
  match type of HA with EmbInv.rp _ _ ?A _ => set (a1 := A) in * end.
  rewrite (rp_ext_get _ _ _ _ x 0 HA XX (or_introl eq_refl)). rewrite (rp_ext_get _ _ _ _ x 1 HA XX (or_intror eq_refl)). cbn [bind Z.eqb].
  assert (A0 : e0 (eV a1) x = e0 s x).
  { unfold a1, set_V, v_ext. cbn [eV e0]. destruct (b2z (negb (o s Z0)) =? 0); [now apply upd_other|reflexivity]. }
  assert (A1 : e1 (eV a1) x = e1 s x).
  { unfold a1, set_V, v_ext. cbn [eV e1]. destruct (b2z (negb (o s Z0)) =? 0); [reflexivity|now apply upd_other]. }
  rewrite A0, A1.
  (* the link of x is redirected *)
  assert (K1 : (if e0 s x =? e1 s x then gp_SetExtFaceVertex gA x (b2z (o s R)) Z0
                else gp_SetExtFaceVertex gA x (if e0 s x =? R then 0 else 1) Z0) = gp_SetExtFaceVertex gA x (b2z (o s x)) Z0).
  { unfold en in Enx. destruct xs as [|x1 [|x2 l]]; [congruence| |].
    - assert (Ex : x = x1) by reflexivity. destruct (H1 x1 eq_refl) as [Q1 Q2]. rewrite <- Ex in Q1, Q2. unfold ep in Q2.
      rewrite Q1 in *. destruct (o s R); rewrite Enx, Q2, Z.eqb_refl; reflexivity.
    - pose proof (H2 x1 x2 l eq_refl) as Q2. fold x in Q2. unfold ep in Q2. destruct (o s x).
      + rewrite eqb_false_neq by congruence. now rewrite eqb_false_neq by congruence.
      + rewrite eqb_false_neq by congruence. rewrite Enx, Z.eqb_refl. reflexivity. }
  rewrite K1. clear K1.
  destruct (set_ext_ok _ _ _ _ x _ Z0 HA XX (b2z_01 (o s x))) as (gB & EB & HB). rewrite EB. cbn [bind].
  match type of HB with EmbInv.rp _ _ ?A _ => set (a2 := A) in * end.
  assert (En2 : forall y, y <> R -> en (eV a2) y = if y =? x then Z0 else en s y).
  { intros y Hy. unfold en, a2, a1, set_V, v_ext. cbn [eV e0 e1 o]. fold s.
    destruct (Z.eqb_spec y x) as [->|N1].
    - destruct (o s x); cbn [b2z Z.eqb]; rewrite upd_same; reflexivity.
    - destruct (o s y) eqn:Oy.
      + destruct (o s x); cbn [b2z Z.eqb]; rewrite ?(upd_other _ _ _ _ N1); destruct (Z.eq_dec y Z0) as [->|N2];
          [rewrite Oy; reflexivity|destruct (o s Z0); cbn [negb b2z Z.eqb]; rewrite ?(upd_other _ _ _ _ N2); reflexivity
          |rewrite Oy; reflexivity|destruct (o s Z0); cbn [negb b2z Z.eqb]; rewrite ?(upd_other _ _ _ _ N2); reflexivity].
      + destruct (o s x); cbn [b2z Z.eqb]; rewrite ?(upd_other _ _ _ _ N1); destruct (Z.eq_dec y Z0) as [->|N2];
          [rewrite Oy; reflexivity|destruct (o s Z0); cbn [negb b2z Z.eqb]; rewrite ?(upd_other _ _ _ _ N2); reflexivity
          |rewrite Oy; reflexivity|destruct (o s Z0); cbn [negb b2z Z.eqb]; rewrite ?(upd_other _ _ _ _ N2); reflexivity]. }
  assert (Ep2 : forall y, y <> R -> ep (eV a2) y = if y =? Z0 then x else ep s y).
  { intros y Hy. unfold ep, a2, a1, set_V, v_ext. cbn [eV e0 e1 o]. fold s.
    destruct (Z.eqb_spec y Z0) as [->|N1].
    - destruct (o s Z0); cbn [b2z Z.eqb negb]; destruct (o s x); cbn [b2z Z.eqb]; rewrite ?(upd_other _ x _ Z0) by congruence; rewrite upd_same; reflexivity.
    - destruct (Z.eq_dec y x) as [->|N2].
      + destruct (o s x) eqn:Oy; cbn [b2z Z.eqb]; destruct (o s Z0); cbn [negb b2z Z.eqb]; rewrite ?(upd_other _ _ _ _ N1); reflexivity.
      + destruct (o s y), (o s x); cbn [b2z Z.eqb]; destruct (o s Z0); cbn [negb b2z Z.eqb]; rewrite ?(upd_other _ _ _ _ N2), ?(upd_other _ _ _ _ N1); reflexivity. }
  destruct (root_child R xs s c G Pc Pc' ltac:(rewrite <- Ec; exact NR)) as (l1 & ec & l2 & Eadj & Cec & Cno). rewrite <- Ec in Eadj.
  (* inversion *)
  set (dif := xorb (o s Z0) (o s R)).
  set (adjR' := if dif then rev (adj s R) else adj s R).
  set (fl' := if dif then upd (fl s) ec (Z.lxor (fl s ec) EDGEFLAG_INVERTED_MASK) else fl s).
  assert (K2 : exists g3 E0 E1, (if b2z (negb (o s Z0)) =? b2z (o s R) then
      f <- gp_GetFirstArc gB R;; l <- gp_GetLastArc gB R;;
      g <- (if negb (f =? l) then _InvertVertex gB R else Ret gB);; e <- gp_GetFirstArc g R;; flip_sign_loop (efuel g) g e else Ret gB) = Ret g3 /\
      (forall y, y <> R -> E0 y = e0 (eV a2) y) /\ (forall y, y <> R -> E1 y = e1 (eV a2) y) /\
      rp g3 (set_V a (mkGV (nb s) fl' E0 E1 (upd (adj s) R adjR') (o s) (X s) (B s))) stk).
  { unfold adjR', fl', dif. destruct (xorb (o s Z0) (o s R)) eqn:D.
    - replace (b2z (negb (o s Z0)) =? b2z (o s R)) with true by (destruct (o s Z0), (o s R); auto; discriminate).
      rewrite (rp_first _ _ _ _ _ HB RX), (rp_last _ _ _ _ _ HB RX). cbn [bind].
      change (adj (eV a2) R) with (adj s R).
      assert (K3 : exists g3 E0 E1, (if negb (hd NIL (adj s R) =? last (adj s R) NIL) then _InvertVertex gB R else Ret gB) = Ret g3 /\
          (forall y, y <> R -> E0 y = e0 (eV a2) y) /\ (forall y, y <> R -> E1 y = e1 (eV a2) y) /\
          rp g3 (set_V a (mkGV (nb s) (fl s) E0 E1 (upd (adj s) R (rev (adj s R))) (o s) (X s) (B s))) stk).
      { destruct (Z.eqb_spec (hd NIL (adj s R)) (last (adj s R) NIL)) as [Q1|Q1]; cbn [negb].
        - exists gB, (e0 (eV a2)), (e1 (eV a2)). split; [reflexivity|]. split; [auto|]. split; [auto|].
          eapply (rp_ext _ _ _ _ _ _ _ _ _ _ HB); cbn [nb fl e0 e1 adj]; auto.
          intros y. change (adj (eV a2) y) with (adj s y). unfold upd. destruct (Z.eqb_spec y R) as [->|]; [|reflexivity].
          pose proof (g_nodup _ _ _ G0 R) as Nd. destruct (adj s R) as [|z l]; [reflexivity|]. destruct (list_snoc l) as [->|(l' & w & ->)]; [reflexivity|].
          exfalso. cbn [hd] in Q1. change (z :: l' ++ [w]) with ((z :: l') ++ [w]) in Q1. rewrite last_snoc in Q1. subst w.
          apply NoDup_cons_iff in Nd. apply (proj1 Nd). apply in_app_iff. right. now left.
        - destruct (invert_rp _ _ _ _ R HB RX) as (g3 & E3 & H3). exists g3. eexists. eexists. split; [exact E3|]. split; [|split; [|exact H3]].
          + intros y Hy. now apply upd_other.
          + intros y Hy. now apply upd_other. }
      destruct K3 as (g3 & E0 & E1 & E3 & F0 & F1 & H3). rewrite E3. cbn [bind].
      rewrite (rp_first _ _ _ _ _ H3 RX). cbn [bind]. cbn [set_V eV adj]. rewrite upd_same. rewrite Eadj, rev_app_distr. cbn [rev]. rewrite <- app_assoc. cbn [app].
      destruct (flip_sign_ok _ _ _ _ R ec (rev l1) H3 (rev l2) [] (efuel g3)) as (g4 & E4 & H4).
      + cbn [set_V eV adj app]. rewrite upd_same, Eadj, rev_app_distr. cbn [rev]. now rewrite <- app_assoc.
      + intros y Hy Cy. apply in_rev in Hy. apply (Cno y); [apply in_app_iff; auto|exact Cy].
      + exact Cec.
      + pose proof (adj_len_chains _ _ R (r_chains _ _ _ _ H3)) as Le. cbn [set_V eV adj] in Le. rewrite upd_same, Eadj, rev_length, app_length in Le. cbn [length] in Le. rewrite rev_length. lia.
      + rewrite E4. exists g4, E0, E1. split; [reflexivity|]. split; [auto|]. split; [auto|].
        eapply (rp_ext _ _ _ _ _ _ _ _ _ _ H4); cbn [nb fl e0 e1 adj set_V v_fl eV]; auto.
        intros y. unfold upd. destruct (y =? R); [|reflexivity]. rewrite Eadj, rev_app_distr. cbn [rev]. now rewrite <- app_assoc.
    - replace (b2z (negb (o s Z0)) =? b2z (o s R)) with false by (destruct (o s Z0), (o s R); auto; discriminate).
      exists gB, (e0 (eV a2)), (e1 (eV a2)). split; [reflexivity|]. split; [auto|]. split; [auto|].
      eapply (rp_ext _ _ _ _ _ _ _ _ _ _ HB); cbn [nb fl e0 e1 adj]; auto.
      intros y. change (adj (eV a2) y) with (adj s y). unfold upd. destruct (Z.eqb_spec y R) as [->|]; reflexivity. }
  destruct K2 as (g3 & E0 & E1 & E3 & F0 & F1 & H3). rewrite E3. cbn [bind].
  match type of H3 with EmbInv.rp _ _ ?A _ => set (a3 := A) in * end.
  (* pertinent roots and the future pertinent child *)
  assert (K3 : gN g3 = N) by (apply (k_N _ _ (r_keeps _ _ _ _ H3))).
  replace R with (c + gN g3) by lia.
  destruct (delete_root_ok _ _ _ _ Z0 c H3 PZ Hc) as (g4 & E4 & H4). rewrite E4. cbn [bind]. replace (c + gN g3) with R by lia.
  assert (K4 : gN g4 = N) by (apply (k_N _ _ (r_keeps _ _ _ _ H4))).
  unfold gp_GetVertexFuturePertinentChild. rewrite vi_ok by (unfold GeoP.prim in PZ; lia). cbn [bind]. rewrite (r_fpc _ _ _ _ H4). change (fpc _ Z0) with (fpc a Z0).
  unfold gp_GetDFSChildFromRoot. replace (R - gN g4) with c by lia.
  match type of H4 with EmbInv.rp _ _ ?A _ => set (a4 := A) in * end.
  destruct (in_split _ _ Hkc) as (k1 & k2 & Ek).
  assert (K5 : exists g5 F, (if c =? fpc a Z0 then c0 <- gp_GetVertexNextDFSChild g4 Z0 (fpc a Z0);; gp_SetVertexFuturePertinentChild g4 Z0 c0 else Ret g4) = Ret g5 /\
      rp g5 (mkE (eV a4) (fw a4) (prl a4) (pe a4) F (vis a4)) stk /\
      forall y, F y = fpc a y \/ (y = Z0 /\ fpc a y = c /\ F y = hd NIL k2)).
  { destruct (Z.eqb_spec c (fpc a Z0)) as [Q1|Q1].
    - rewrite <- Q1. rewrite (next_child _ _ _ _ _ _ _ _ _ H4 Hk PZ Ek). cbn [bind].
      destruct (set_fpc_ok _ _ _ _ Z0 (hd NIL k2) H4 PZ) as (g5 & E5 & H5). exists g5. eexists. split; [exact E5|]. split; [exact H5|].
      intros y. unfold upd. change (fpc a4) with (fpc a). destruct (Z.eqb_spec y Z0) as [->|]; auto.
    - exists g4, (fpc a4). split; [reflexivity|]. split; [destruct a4; exact H4|]. auto. }
  destruct K5 as (g5 & F & E5 & H5 & HF). rewrite E5. cbn [bind].
  match type of H5 with EmbInv.rp _ _ ?A _ => set (a5 := A) in * end.
  assert (AR : adj (eV a5) R = adjR') by (cbn [a5 a4 a3 set_prl set_V eV adj]; now rewrite upd_same).
  assert (InR : forall e, In e adjR' <-> In e (adj s R)) by (intros e; unfold adjR'; destruct dif; [symmetry; apply in_rev|tauto]).
  assert (InbR : forall e, inb e adjR' = inb e (adj s R)).
  { intros e. destruct (inb_spec e adjR') as [Q1|Q1], (inb_spec e (adj s R)) as [Q2|Q2]; auto; exfalso; rewrite InR in Q1; auto. }
  destruct (merge_rp _ _ _ _ Z0 (b2z (negb (o s Z0))) R H5 ZX HR ZR (b2z_01 _)) as (g6 & E6 & H6).
  { rewrite AR. unfold adjR'. destruct dif; [|exact NR]. intros E. apply NR. rewrite <- (rev_involutive (adj s R)), E. reflexivity. }
  { intros e He. rewrite AR, InR in He. apply (g_twins _ _ _ G0 R e He). }
  rewrite E6. rewrite AR in H6.
  match type of H6 with EmbInv.rp _ _ (set_V _ (mkGV ?A1 ?A2 ?A3 ?A4 ?A5 _ _ _)) _ => set (NB := A1) in *; set (AD := A5) in * end.
  set (BB := fun z => if B s z =? R then C' else B s z).
  set (b := set_V a5 (mkGV NB fl' E0 E1 AD (o s) (X s) BB)).
  exists g6, b. split; [reflexivity|].
  assert (ADe : AD Z0 = if o s Z0 then adjR' ++ adj s Z0 else adj s Z0 ++ adjR').
  { unfold AD, merged_lists. rewrite upd_same. rewrite AR. cbn [a5 a4 a3 set_prl set_V eV adj]. rewrite upd_other by auto. now destruct (o s Z0). }
  assert (ADo : forall y, y <> Z0 -> y <> R -> AD y = adj s y).
  { intros y Y1 Y2. unfold AD, merged_lists. rewrite !upd_other by auto. cbn [a5 a4 a3 set_prl set_V eV adj]. now rewrite upd_other by auto. }
  assert (ADr : AD R = []). { unfold AD, merged_lists. rewrite upd_other by auto. now rewrite upd_same. }
  assert (NBe : forall e, NB e = if inb (twin e) (adj s R) then Z0 else nb s e) by (intros e; unfold NB; rewrite InbR; reflexivity).
  assert (Tfl : forall e, Z.land (fl' e) EDGE_TYPE_MASK = Z.land (fl s e) EDGE_TYPE_MASK).
  { intros e. unfold fl'. destruct dif; [|reflexivity]. unfold upd. destruct (Z.eqb_spec e ec) as [->|]; [apply lxor_16_type|reflexivity]. }
  split; [|split; [|split]].
  - eapply (rp_ext _ _ _ _ _ _ _ _ _ _ H6); cbn [nb fl e0 e1 adj set_V eV]; auto.
  - apply (geo_merge N p Hp s (eV b) R xs C' P Z0 Q c G HR HC' CR NC' EX Ec Pc Pz); cbn [b set_V eV o X nb fl adj B]; auto.
    + intros e. unfold childarc. cbn [fl]. now rewrite Tfl.
    + intros e He. unfold invarc. cbn [fl]. unfold fl'. destruct (inb_spec e (adj s R)) as [Q1|Q1].
      * assert (e = ec) as ->.
        { destruct (Z.eq_dec e ec); [auto|]. exfalso. rewrite Eadj in Q1. apply (Cno e); [|exact He]. apply in_app_iff in Q1. apply in_app_iff. destruct Q1 as [|[|]]; auto; congruence. }
        fold dif. destruct dif; [rewrite upd_same, lxor_16_inv; now destruct (Z.land _ _ =? 0)|now rewrite xorb_false_r].
      * destruct dif; [|reflexivity]. rewrite upd_other; [reflexivity|]. intros ->. apply Q1. rewrite Eadj. apply in_app_iff. right. now left.
    + unfold rot. cbn [o adj]. rewrite ADe. unfold adjR', dif. destruct (o s Z0), (o s R); cbn [xorb]; rewrite ?rev_app_distr, ?rev_involutive; reflexivity.
    + intros y Hy. fold x. rewrite <- (En2 y Hy). unfold en. cbn [o e0 e1]. rewrite (F0 _ Hy), (F1 _ Hy). reflexivity.
    + intros y Hy. fold x. rewrite <- (Ep2 y Hy). unfold ep. cbn [o e0 e1]. rewrite (F0 _ Hy), (F1 _ Hy). reflexivity.
  - constructor; cbn [b set_V eV o X nb fl adj B fw prl pe fpc vis a5 a4 a3 set_prl]; auto.
    + intros y. unfold upd. replace (R - N) with c by lia. now destruct (y =? Z0).
    + intros y. destruct (HF y) as [Q1|(Q1 & Q2 & Q3)]; [auto|]. right. replace (R - N) with c by lia. split; [auto|]. split; [auto|].
      intros m1 m2 Em. rewrite Q3. f_equal. rewrite Ek in Em. pose proof (ho_nodup _ _ Hk Z0) as Nd. rewrite Ek in Nd.
      destruct (NoDup_split_unique k1 k2 m1 m2 c Nd Em) as [_ ->]. reflexivity.
    + intros e. rewrite ADe. destruct (o s Z0); rewrite in_app_iff, InR; tauto.
    + unfold rot. cbn [o adj]. rewrite ADe. fold s. unfold adjR', dif. destruct (o s Z0), (o s R); cbn [xorb]; rewrite ?rev_app_distr, ?rev_involutive; reflexivity.
  - assert (Q1 : ep (eV b) Z0 = ep (eV a2) Z0) by (unfold ep; cbn [b set_V eV o e0 e1]; rewrite (F0 _ ZR), (F1 _ ZR); reflexivity).
    rewrite Q1, (Ep2 _ ZR), Z.eqb_refl. reflexivity.
Qed.

(** What embedding the forward arc f from the root C to W leaves alone. *)
Record embed_rel (a b : est) (C W Q f v l1 l2 : _) : Prop := {
  er_fw : forall x, fw b x = if x =? v then l1 ++ l2 else fw a x;
  er_prl : prl b = prl a; er_pe : pe b = pe a; er_vis : vis b = vis a; er_fpc : fpc b = fpc a;
  er_o : o (eV b) = o (eV a); er_X : forall R, X (eV b) R = if R =? C then W :: Q else X (eV a) R;
  er_B : B (eV b) = B (eV a);
  er_nb : forall e, nb (eV b) e = if e =? twin f then C else nb (eV a) e;
  er_fl : fl (eV b) = fl (eV a);
  er_in : forall x e, In e (adj (eV b) x) <-> In e (adj (eV a) x) \/ (x = C /\ e = f) \/ (x = W /\ e = twin f);
  er_rot : forall x, rot (eV b) x = if x =? C then f :: rot (eV a) C else if x =? W then rot (eV a) W ++ [twin f] else rot (eV a) x }.
Lemma embed_ok g a stk C W Q c v f l1 l2 :
  rp g a stk -> geo C (W :: Q) (eV a) -> isroot C -> Q <> [] -> C = N + c -> prim c -> p c = v -> prim v ->
  pe a W = f -> fw a v = l1 ++ f :: l2 -> nb (eV a) f = W ->
  (forall x, ~ In f (adj (eV a) x) /\ ~ In (twin f) (adj (eV a) x)) -> (forall u, ~ In (twin f) (fw a u)) ->
  ~ childarc (eV a) f -> ~ childarc (eV a) (twin f) ->
  exists g' b, _EmbedBackEdgeToDescendant g (b2z (o (eV a) C)) C W (b2z (negb (o (eV a) W))) = Ret g' /\ rp g' b stk /\
    geo NIL [] (eV b) /\ embed_rel a b C W Q f v l1 l2.
Proof.
  intros H G HC NQ Ec Pc Pv Hv Epe Efw Enb Na Nf C1 C2. set (s := eV a) in *.
  assert (KN : gN g = N) by (apply (k_N _ _ (r_keeps _ _ _ _ H))). assert (KC : gCap g = gCap g0) by (apply (k_cap _ _ (r_keeps _ _ _ _ H))).
  pose proof (g_base _ _ _ _ _ G) as G0. destruct (g_half _ _ _ _ _ G HC) as (pre & segs & FS & Hh).
  destruct (h_in _ _ _ _ _ _ _ Hh W (or_introl eq_refl)) as [PW BW].
  assert (NC : adj s C <> []) by (apply (h_arcs _ _ _ _ _ _ _ Hh); apply in_vsof; auto).
  assert (NW : adj s W <> []) by (apply (h_arcs _ _ _ _ _ _ _ Hh); apply in_vsof; auto).
  assert (WC : W <> C) by (unfold GeoP.prim, GeoP.isroot in *; lia).
  assert (Hf : In f (fw a v)) by (rewrite Efw; apply in_app_iff; right; now left).
  pose proof (r_fwrange _ _ _ _ H v f Hf) as Rf. assert (Rf' : 2 <= f < gp_EdgeIndexBound g0) by (unfold gp_EdgeIndexBound in *; lia).
  assert (Rt : 2 <= twin f < gp_EdgeIndexBound g0).
  { split; [apply twin_ge_2; lia|]. apply twin_lt_even; try lia.
    unfold gp_EdgeIndexBound. pose proof (r_even _ _ _ _ H) as Ev. rewrite KC in Ev. now rewrite even_add2. }
  assert (CX : 1 <= C <= 2 * N) by (unfold GeoP.isroot, GeoP.prim in *; lia). assert (WX : 1 <= W <= 2 * N) by (unfold GeoP.prim in *; lia).
  assert (Ntf : twin f <> f) by apply twin_ne.
  unfold _EmbedBackEdgeToDescendant. unfold gp_GetVertexPertinentEdge. rewrite vi_ok by (unfold GeoP.prim in PW; lia). cbn [bind].
  rewrite (r_pe _ _ _ _ H), Epe, twin_eq. unfold gp_GetPrimaryVertexFromRoot, gp_GetDFSChildFromRoot, gp_GetVertexParent. replace (C - gN g) with c by lia.
  rewrite vi_ok by (unfold GeoP.prim in Pc; lia). cbn [bind]. rewrite (k_parent _ _ (r_keeps _ _ _ _ H)), Pv.
  destruct (take_fwd_ok _ _ _ _ v l1 f l2 H Hv Efw) as (ga & Ea & Ha). rewrite Ea. cbn [bind].
  assert (Nff : forall u, ~ In f (upd (fw a) v (l1 ++ l2) u)).
  { intros u. unfold upd. destruct (Z.eqb_spec u v) as [->|Ne].
    - pose proof (r_fwnd _ _ _ _ H v) as Nd. rewrite Efw in Nd. apply NoDup_mid in Nd. apply Nd.
    - intros Q0. apply Ne. eapply (r_fwdisj _ _ _ _ H); eauto. }
  assert (Nft : forall u, ~ In (twin f) (upd (fw a) v (l1 ++ l2) u)).
  { intros u. unfold upd. destruct (Z.eqb_spec u v) as [->|Ne]; [|apply Nf]. intros Q0. apply (Nf v). rewrite Efw. apply in_app_iff in Q0. apply in_app_iff.
    destruct Q0; [auto|right; now right]. }
  destruct (add_end_ok _ _ _ _ C (b2z (o s C)) f Ha CX (b2z_01 _) NC Rf' ltac:(intros y; apply Na) Nff) as (gb & Eb & Hb). rewrite Eb. cbn [bind].
  destruct (add_end_ok _ _ _ _ W (b2z (negb (o s W))) (twin f) Hb WX (b2z_01 _)) as (gc & E3 & Hc).
  { cbn [set_V v_adj eV adj set_fw]. unfold end_lists. now rewrite upd_other. }
  { exact Rt. }
  { intros y. cbn [set_V v_adj eV adj set_fw]. unfold end_lists, upd. destruct (Z.eqb_spec y C) as [->|]; [|apply Na].
    destruct (b2z (o s C) =? 0); [intros [Q0|Q0]; [congruence|now apply Na in Q0]|]. intros Q0. apply in_app_iff in Q0. destruct Q0 as [Q0|[Q0|[]]]; [now apply Na in Q0|congruence]. }
  { exact Nft. }
  rewrite E3. cbn [bind].
  destruct (set_nbr_ok _ _ _ _ (twin f) C Hc Rt) as (gd & Ed & Hd). rewrite Ed. cbn [bind].
  destruct (set_ext_ok _ _ _ _ C (b2z (o s C)) W Hd CX (b2z_01 _)) as (ge & Ee & He). rewrite Ee. cbn [bind].
  destruct (set_ext_ok _ _ _ _ W (b2z (negb (o s W))) C He WX (b2z_01 _)) as (gf & Ef & Hf'). rewrite Ef.
  unfold set_V, set_fw, v_adj, v_nb, v_ext in Hf'. cbn [eV nb fl e0 e1 adj o X B fw prl pe fpc vis] in Hf'.
  match type of Hf' with EmbInv.rp _ _ (mkE (mkGV ?A1 _ ?A3 ?A4 ?A5 _ _ _) ?A6 _ _ _ _) _ => set (NB := A1) in *; set (E0 := A3) in *; set (E1 := A4) in *; set (AD := A5) in *; set (FW := A6) in * end.
  set (XX := fun R => if R =? C then W :: Q else X s R).
  set (b := mkE (mkGV NB (fl s) E0 E1 AD (o s) XX (B s)) FW (prl a) (pe a) (fpc a) (vis a)).
  exists gf, b. split; [reflexivity|].
  assert (ADe : forall x, AD x = if x =? C then (if o s C then adj s C ++ [f] else f :: adj s C)
                       else if x =? W then (if o s W then twin f :: adj s W else adj s W ++ [twin f]) else adj s x).
  { intros x. unfold AD, end_lists, upd. destruct (Z.eqb_spec x W) as [->|N1].
    - rewrite (eqb_false_neq _ _ WC). now destruct (o s W).
    - destruct (Z.eqb_spec x C) as [->|N2]; [|reflexivity]. now destruct (o s C). }
  split; [|split].
  - eapply (rp_ext _ _ _ _ _ _ _ _ _ _ Hf'); cbn [nb fl e0 e1 adj eV]; auto.
  - set (t := mkGV NB (fl s) (e0 s) (e1 s) AD (o s) (X s) (B s)).
    assert (G1 : geo C (W :: Q) t).
    { apply (geo_add N p s t C W Q f G HC); cbn [t nb fl e0 e1 adj o X B]; auto; try lia.
      intros e. unfold NB, upd. destruct (Z.eqb_spec e (twin f)) as [->|]; [now rewrite (eqb_false_neq _ _ Ntf)|].
      destruct (Z.eqb_spec e f) as [->|]; auto. }
    assert (NA : AD C <> []) by (rewrite ADe, Z.eqb_refl; destruct (o s C); [intros Q0; apply app_eq_nil in Q0; now destruct Q0|discriminate]).
    apply (geo_close N p t (eV b) C (W :: Q) G1 HC NA); cbn [b t eV nb fl e0 e1 adj o X B hd]; auto.
    + intros R NR. unfold XX. now rewrite (eqb_false_neq _ _ NR).
    + unfold XX. now rewrite Z.eqb_refl.
    + intros L. exfalso. destruct Q; [congruence|discriminate].
    + intros x. unfold E0, upd. destruct (Z.eqb_spec x C) as [Q1|Q1], (Z.eqb_spec x W) as [Q2|Q2]; try congruence;
        destruct (o s C), (o s W); cbn; rewrite ?(eqb_false_neq _ _ Q1), ?(eqb_false_neq _ _ Q2), ?(proj2 (Z.eqb_eq _ _) Q1), ?(proj2 (Z.eqb_eq _ _) Q2); reflexivity.
    + intros x. unfold E1, upd. destruct (Z.eqb_spec x C) as [Q1|Q1], (Z.eqb_spec x W) as [Q2|Q2]; try congruence;
        destruct (o s C), (o s W); cbn; rewrite ?(eqb_false_neq _ _ Q1), ?(eqb_false_neq _ _ Q2), ?(proj2 (Z.eqb_eq _ _) Q1), ?(proj2 (Z.eqb_eq _ _) Q2); reflexivity.
  - constructor; cbn [b eV o X nb fl adj B fw prl pe fpc vis]; auto.
    + intros x e. rewrite ADe. destruct (Z.eqb_spec x C) as [->|N1].
      * destruct (o s C); rewrite ?in_app_iff; cbn [In]; intuition congruence.
      * destruct (Z.eqb_spec x W) as [->|N2]; [|fold s; tauto].
        destruct (o s W); rewrite ?in_app_iff; cbn [In]; fold s; intuition congruence.
    + intros x. unfold rot. cbn [o adj]. rewrite ADe. fold s. destruct (Z.eqb_spec x C) as [->|N1].
      * destruct (o s C); rewrite ?rev_app_distr; reflexivity.
      * destruct (Z.eqb_spec x W) as [->|N2]; [|reflexivity]. destruct (o s W); reflexivity.
Qed.
End Step.
