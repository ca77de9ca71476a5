(** * GeoP2: adding an edge to, and merging, the components of a partial embedding. *)
From Coq Require Import ZifyBool Permutation.
From Verif Require Import Base BaseP GraphRec GraphM GraphSpec LinkP EmbP DFSSpec TestSpec TestP TestP3 FaceP GeoP.

Section Geo2.
Variables (N : Z) (p : Z -> Z).
Hypothesis Hp : forall z, GeoP.prim N z -> p z <> NIL -> GeoP.prim N (p z) /\ p z < z.
Local Notation prim := (prim N).
Local Notation isroot := (isroot N).
Local Notation mem := (mem N).
Local Notation vsof := (vsof N).
Local Notation half := (half N).
Local Notation halfopen := (halfopen N).
Local Notation full := (full N).
Local Notation geob := (geob N p).
Local Notation geo := (geo N p).
Local Notation agree := (agree N).

(** ** A new edge n from the root C to the first listed external vertex W *)
Lemma geo_add s t C W Q n : geo C (W :: Q) s -> isroot C -> 2 <= n ->
  (forall x, ~ In n (adj s x) /\ ~ In (twin n) (adj s x)) -> 2 <= twin n ->
  ~ childarc s n -> ~ childarc s (twin n) ->
  fl t = fl s -> o t = o s -> B t = B s -> X t = X s -> e0 t = e0 s -> e1 t = e1 s ->
  (forall e, nb t e = if e =? n then W else if e =? twin n then C else nb s e) ->
  (forall x, adj t x = if x =? C then (if o s C then adj s C ++ [n] else n :: adj s C)
                       else if x =? W then (if o s W then twin n :: adj s W else adj s W ++ [twin n]) else adj s x) ->
  geo C (W :: Q) t.
Proof.
  intros G HC Rn Fr Rt Cn Ct Ef Eo EB EX E0 E1 En Ea. pose proof (g_base _ _ _ _ _ G) as G0.
  destruct (g_half _ _ _ _ _ G HC) as (pre & segs & FS & H).
  destruct (h_in _ _ _ _ _ _ _ H W (or_introl eq_refl)) as [PW BW].
  assert (NWC : W <> C) by (unfold prim, isroot in *; lia).
  assert (NC : adj s C <> []) by (apply (h_arcs _ _ _ _ _ _ _ H); now left).
  assert (NW : adj s W <> []) by (apply (h_arcs _ _ _ _ _ _ _ H); apply in_vsof; auto).
  assert (Ach : forall e, childarc t e = childarc s e) by (intros; unfold childarc; now rewrite Ef).
  assert (Ain : forall e, invarc t e = invarc s e) by (intros; unfold invarc; now rewrite Ef).
  assert (AC : adj t C = if o s C then adj s C ++ [n] else n :: adj s C) by now rewrite Ea, Z.eqb_refl.
  assert (AW : adj t W = if o s W then twin n :: adj s W else adj s W ++ [twin n]) by now rewrite Ea, (eqb_false_neq W C), Z.eqb_refl.
  assert (AO : forall x, x <> C -> x <> W -> adj t x = adj s x) by (intros; rewrite Ea, !eqb_false_neq; auto).
  assert (Ia : forall x e, In e (adj t x) <-> In e (adj s x) \/ (x = C /\ e = n) \/ (x = W /\ e = twin n)).
  { intros x e. destruct (Z.eq_dec x C) as [->|N1]; [|destruct (Z.eq_dec x W) as [->|N2]].
    - rewrite AC. destruct (o s C); [rewrite in_app_iff|]; cbn [In]; intuition congruence.
    - rewrite AW. destruct (o s W); [|rewrite in_app_iff]; cbn [In]; intuition congruence.
    - rewrite AO by auto. intuition congruence. }
  assert (Nn : nb t n = W) by now rewrite En, Z.eqb_refl.
  assert (Nt : nb t (twin n) = C) by now rewrite En, (eqb_false_neq (twin n) n), Z.eqb_refl by apply twin_ne.
  assert (No : forall x e, In e (adj s x) -> nb t e = nb s e).
  { intros x e He. rewrite En, !eqb_false_neq; auto; intros ->; apply (Fr x) in He; auto. }
  assert (Nne : forall x, adj t x = [] <-> adj s x = []).
  { intros x. destruct (Z.eq_dec x C) as [->|N1]; [|destruct (Z.eq_dec x W) as [->|N2]].
    - rewrite AC. split; [|tauto]. destruct (o s C); intros E; [now apply app_eq_nil in E|discriminate].
    - rewrite AW. split; [|tauto]. destruct (o s W); intros E; [discriminate|now apply app_eq_nil in E].
    - now rewrite AO. }
  constructor.
  - constructor; rewrite ?EB.
    + intros v e He. apply Ia in He as [He|[[-> ->]|[-> ->]]].
      * destruct (g_twins _ _ _ G0 _ _ He) as [T1 T2]. rewrite (No _ _ T2), (No _ _ He). split; [auto|]. apply Ia. auto.
      * rewrite Nn, Nt. split; [auto|]. apply Ia. auto.
      * rewrite twin2, Nn, Nt. split; [auto|]. apply Ia. auto.
    + intros v. destruct (Z.eq_dec v C) as [->|N1]; [|destruct (Z.eq_dec v W) as [->|N2]].
      * rewrite AC. pose proof (g_nodup _ _ _ G0 C). destruct (Fr C). destruct (o s C); [apply NoDup_app_intro; auto|constructor; auto].
        { repeat constructor; auto. }
        { intros x Hx [<-|[]]. auto. }
      * rewrite AW. pose proof (g_nodup _ _ _ G0 W). destruct (Fr W). destruct (o s W); [constructor; auto|apply NoDup_app_intro; auto].
        { repeat constructor; auto. }
        { intros x Hx [<-|[]]. auto. }
      * rewrite AO by auto. apply (g_nodup _ _ _ G0).
    + intros v w e Hv Hw. apply Ia in Hv. apply Ia in Hw. pose proof (twin_ne n) as Tn.
      destruct Hv as [Hv|[[-> ->]|[-> ->]]], Hw as [Hw|[[-> E]|[-> E]]]; auto; subst; try congruence;
        try (destruct (Fr v); contradiction); try (destruct (Fr w); contradiction).
      apply (g_disj _ _ _ G0 _ _ _ Hv Hw).
    + intros v e He. apply Ia in He as [He|[[-> ->]|[-> ->]]]; auto. apply (g_range _ _ _ G0 _ _ He).
    + intros v e He. apply Ia in He as [He|[[-> ->]|[-> ->]]]; auto; [apply (g_out _ _ _ G0 _ _ He)| |]; unfold prim, isroot in *; lia.
    + intros z Pz Nz Hz. apply (g_B1 _ _ _ G0); auto. now rewrite <- Nne.
    + intros z Pz Nz Hz. apply (g_B2 _ _ _ G0); auto. now apply Nne.
    + intros z Pz Nz. rewrite !Nne. now apply (g_B0 _ _ _ G0).
    + intros x e He. rewrite Ach, Ain, Eo. intros Hc. apply Ia in He as [He|[[-> ->]|[-> ->]]]; try tauto.
      rewrite (No _ _ He). now apply (g_sign _ _ _ G0).
    + intros z Pz Nz. destruct (g_child _ _ _ G0 z Pz Nz) as (e & H1 & H2 & H3). exists e. rewrite Ach. split; [auto|].
      rewrite (No _ _ H3). split; [auto|]. apply Ia. left.
      destruct (adj t (N + z)) as [|] eqn:Et.
      * apply Nne in Et. now rewrite Et in H3.
      * destruct (adj s (N + z)) as [|] eqn:Es in H3; [|auto]. apply Nne in Es. congruence.
    + intros x e He. rewrite Ach. intros Hc. apply Ia in He as [He|[[-> ->]|[-> ->]]]; try tauto.
      rewrite (No _ _ He). now apply (g_childu _ _ _ G0).
    + intros x y e e' He He'. rewrite !Ach. intros Hc Hc'.
      apply Ia in He as [He|[[-> ->]|[-> ->]]]; try tauto. apply Ia in He' as [He'|[[-> ->]|[-> ->]]]; try tauto.
      rewrite (No _ _ He), (No _ _ He'). apply (g_childq _ _ _ G0 x y); auto.
  - intros R HR NR Ne. rewrite Nne in NR. apply (full_congr N s t R); [| | |now apply (g_full _ _ _ _ _ G)].
    + assert (Nv : forall x, In x (vsof s R) -> x <> C /\ x <> W).
      { intros x Hx. split; intros ->; apply Ne; apply (vsof_inj N s R C _ HR HC Hx); [now left|apply in_vsof; auto]. }
      constructor; intros; rewrite ?Eo; auto.
      * apply AO; now apply Nv.
      * eapply No; eauto.
      * unfold GeoP.mem. now rewrite EB.
    + intros x Hx. now rewrite E0, E1.
    + now rewrite EX.
  - intros _. pose proof (h_segs _ _ _ _ _ _ _ H) as Sg. inversion Sg as [|? sg ? segs' S1 S2]. subst x l segs.
    assert (RC : rot t C = n :: rot s C).
    { unfold rot. rewrite Eo, AC. destruct (o s C); [now rewrite rev_app_distr|reflexivity]. }
    assert (RW : rot t W = rot s W ++ [twin n]).
    { unfold rot. rewrite Eo, AW. destruct (o s W); reflexivity. }
    assert (RO : forall x, x <> C -> x <> W -> rot t x = rot s x) by (intros; unfold rot; now rewrite Eo, AO).
    exists [n], (sg :: segs'), ((twin n :: pre) :: FS). destruct S1 as [S1 S1'].
    constructor.
    + assert (EV : vsof t C = vsof s C) by (unfold GeoP.vsof, GeoP.mem; now rewrite EB). rewrite EV.
      cbn [app]. eapply (pc_add (nb s) (rot s) _ FS pre (concat (sg :: segs')) C W n); auto.
      * apply (h_pc _ _ _ _ _ _ _ H).
      * now left.
      * apply in_vsof; auto.
      * now apply rot_ne.
      * now apply rot_ne.
      * apply (proj1 (h_pre _ _ _ _ _ _ _ H)).
      * cbn. destruct sg; [tauto|discriminate].
      * apply (proj2 (h_pre _ _ _ _ _ _ _ H)).
      * cbn [concat]. now rewrite hd_app.
      * intros x Hx. rewrite !in_rot. apply Fr.
      * intros x e Hx He. apply in_rot in He. eapply No; eauto.
    + split; [discriminate|]. now rewrite RC.
    + constructor; [split; [auto|]|].
      * rewrite RW, hd_app; [auto|now apply rot_ne].
      * eapply starts_all; [|exact S2]. intros x Hx. apply RO.
        -- intros ->. destruct (h_in _ _ _ _ _ _ _ H C (or_intror Hx)) as [Q1 _]. unfold prim, isroot in *. lia.
        -- intros ->. pose proof (h_nodup _ _ _ _ _ _ _ H) as Nd. now inversion Nd.
    + unfold en, ep. rewrite Eo, E0, E1. apply (h_linked _ _ _ _ _ _ _ H).
    + unfold ep. rewrite Eo, E0, E1. apply (h_last _ _ _ _ _ _ _ H).
    + discriminate.
    + apply (h_nodup _ _ _ _ _ _ _ H).
    + rewrite EB. apply (h_in _ _ _ _ _ _ _ H).
    + intros x Hx. rewrite Nne. apply (h_arcs _ _ _ _ _ _ _ H). unfold GeoP.vsof, GeoP.mem in *. now rewrite EB in Hx.
Qed.

(** ** The component of C is merged into that of C' at its vertex Z0 *)
Lemma geo_merge s t C xs C' P Z0 Q c : geo C xs s -> isroot C -> isroot C' -> C' <> C -> adj s C' <> [] ->
  X s C' = P ++ Z0 :: Q -> C = N + c -> prim c -> p c = Z0 ->
  o t = o s -> (forall R, R <> C' -> X t R = X s R) ->
  (forall e, nb t e = if inb (twin e) (adj s C) then Z0 else nb s e) ->
  (forall e, childarc t e <-> childarc s e) ->
  (forall e, childarc s e -> invarc t e = if inb e (adj s C) then xorb (invarc s e) (xorb (o s Z0) (o s C)) else invarc s e) ->
  rot t Z0 = rot s Z0 ++ rot s C -> adj t C = [] -> (forall x, x <> Z0 -> x <> C -> adj t x = adj s x) ->
  (forall x, x <> C -> en t x = if x =? last xs NIL then Z0 else en s x) ->
  (forall x, x <> C -> ep t x = if x =? Z0 then last xs NIL else ep s x) ->
  (forall z, B t z = if B s z =? C then C' else B s z) ->
  geo C' (xs ++ Z0 :: Q) t.
Proof.
  intros G HC HC' NCC NC' EX' Ec Pc Ep Eo EX En Ech Einv RZ AC AO EEn EEp EB. pose proof (g_base _ _ _ _ _ G) as G0.
  destruct (g_half _ _ _ _ _ G HC) as (pre2 & segs2 & FS2 & H2).
  pose proof (g_full _ _ _ _ _ G C' HC' NC' NCC) as F1. destruct (f_half _ _ _ F1) as (pre1 & segs1 & FS1 & H1).
  rewrite EX' in H1.
  destruct (h_in _ _ _ _ _ _ _ H1 Z0 ltac:(apply in_app_iff; right; now left)) as [PZ BZ].
  assert (NZC : Z0 <> C) by (unfold prim, isroot in *; lia).
  assert (NZC' : Z0 <> C') by (unfold prim, isroot in *; lia).
  assert (IZ : In Z0 (vsof s C')) by (apply in_vsof; auto).
  assert (NC : adj s C <> []) by (apply (h_arcs _ _ _ _ _ _ _ H2); now left).
  assert (NZ : adj s Z0 <> []) by (apply (h_arcs _ _ _ _ _ _ _ H1); auto).
  assert (PNZ : p Z0 <> NIL).
  { intros E. destruct (g_B0 _ _ _ G0 Z0 PZ E) as [Q1 _]. unfold isroot, NIL in *. lia. }
  assert (PNc : p c <> NIL) by (rewrite Ep; unfold prim, NIL in *; lia).
  assert (Bc : B s c = C) by (rewrite Ec; apply (g_B1 _ _ _ G0); auto; now rewrite <- Ec).
  assert (Ia : forall x e, In e (adj t x) <-> (x <> C /\ In e (adj s x)) \/ (x = Z0 /\ In e (adj s C))).
  { intros x e. destruct (Z.eq_dec x C) as [->|N1]; [|destruct (Z.eq_dec x Z0) as [->|N2]].
    - rewrite AC. cbn [In]. intuition congruence.
    - rewrite <- (in_rot t), RZ, in_app_iff, !in_rot. tauto.
    - rewrite AO by auto. tauto. }
  assert (Nne : forall x, x <> C -> adj t x = [] <-> adj s x = []).
  { intros x N1. destruct (Z.eq_dec x Z0) as [->|N2]; [|now rewrite AO].
    split; [|tauto]. intros E. exfalso. apply NZ. destruct (adj s Z0) as [|a l] eqn:Ea; [auto|].
    assert (In a (adj t Z0)) by (apply Ia; left; split; [auto|rewrite Ea; now left]). rewrite E in H. destruct H. }
  assert (Cnb : forall x e, In e (adj s x) -> childarc s e -> nb t e = nb s e).
  { intros x e He Hc. rewrite En. destruct (inb_spec (twin e) (adj s C)) as [I|_]; [|auto]. exfalso.
    destruct (g_twins _ _ _ G0 _ _ I) as [T1 _]. rewrite twin2 in T1.
    destruct (g_childu _ _ _ G0 x e He Hc) as [Q1 _]. unfold prim, isroot in *. lia. }
  assert (CC : forall e, In e (adj s C) -> childarc s e -> nb s e = c).
  { intros e He Hc. destruct (g_childu _ _ _ G0 C e He Hc) as (Q1 & Q2 & [Q3|Q3]); [lia|].
    destruct (Hp _ Q1 Q2) as [Q4 _]. unfold prim, isroot in *. lia. }
  constructor.
  - constructor.
    + intros v e He. rewrite (En (twin e)), twin2. split.
      * destruct (inb_spec e (adj s C)) as [I|I].
        -- apply Ia in He as [[N1 He]|[-> _]]; [|auto]. now destruct (N1 (g_disj _ _ _ G0 _ _ _ He I)).
        -- apply Ia in He as [[N1 He]|[_ He]]; [|tauto]. now apply (g_twins _ _ _ G0).
      * rewrite En. destruct (inb_spec (twin e) (adj s C)) as [I|I]; [apply Ia; auto|].
        assert (T : In (twin e) (adj s (nb s e))).
        { apply Ia in He as [[N1 He]|[_ He]]; now apply (g_twins _ _ _ G0) in He. }
        apply Ia. left. split; [|auto]. intros E. rewrite E in T. tauto.
    + intros v. destruct (Z.eq_dec v C) as [->|N1]; [rewrite AC; constructor|]. destruct (Z.eq_dec v Z0) as [->|N2].
      * rewrite <- (rot_nodup t), RZ. apply NoDup_app_intro.
        -- apply rot_nodup, (g_nodup _ _ _ G0).
        -- apply rot_nodup, (g_nodup _ _ _ G0).
        -- intros x Hx Hy. apply in_rot in Hx. apply in_rot in Hy. apply NZC. apply (g_disj _ _ _ G0 _ _ _ Hx Hy).
      * rewrite AO by auto. apply (g_nodup _ _ _ G0).
    + intros v w e Hv Hw. apply Ia in Hv. apply Ia in Hw.
      destruct Hv as [[V1 Hv]|[-> Hv]], Hw as [[W1 Hw]|[-> Hw]]; auto.
      * apply (g_disj _ _ _ G0 _ _ _ Hv Hw).
      * now destruct (V1 (g_disj _ _ _ G0 _ _ _ Hv Hw)).
      * now destruct (W1 (g_disj _ _ _ G0 _ _ _ Hw Hv)).
    + intros v e He. apply Ia in He as [[_ He]|[_ He]]; apply (g_range _ _ _ G0 _ _ He).
    + intros v e He. apply Ia in He as [[_ He]|[-> He]]; [apply (g_out _ _ _ G0 _ _ He)|]. unfold prim in PZ. lia.
    + intros z Pz Nz Hz. assert (N1 : N + z <> C) by (intros E; rewrite E, AC in Hz; tauto).
      rewrite Nne in Hz by auto. rewrite EB, (g_B1 _ _ _ G0 z Pz Nz Hz). now rewrite eqb_false_neq.
    + intros z Pz Nz Hz. destruct (Z.eq_dec (N + z) C) as [E|Ne].
      * assert (z = c) by lia. subst z. rewrite Ep, !EB, Bc, Z.eqb_refl, BZ, (eqb_false_neq C' C) by auto. auto.
      * rewrite Nne in Hz by auto. destruct (g_B2 _ _ _ G0 z Pz Nz Hz) as [Q1 Q2]. rewrite !EB, Q1. auto.
    + intros z Pz Ez. destruct (g_B0 _ _ _ G0 z Pz Ez) as (Q1 & Q2 & Q3).
      assert (N1 : N + z <> C) by (intros E; rewrite E in Q3; tauto).
      assert (N2 : z <> C) by (unfold prim, isroot in *; lia).
      rewrite !Nne by auto. rewrite EB, Q1, eqb_false_neq by (unfold isroot, NIL in *; lia). auto.
    + intros x e He Hc. apply Ech in Hc. rewrite Eo, Einv by auto.
      apply Ia in He as [[N1 He]|[-> He]].
      * rewrite (Cnb _ _ He Hc). destruct (inb_spec e (adj s C)) as [I|_].
        -- now destruct (N1 (g_disj _ _ _ G0 _ _ _ He I)).
        -- now apply (g_sign _ _ _ G0).
      * rewrite (Cnb _ _ He Hc). destruct (inb_spec e (adj s C)) as [_|I]; [|tauto].
        rewrite (g_sign _ _ _ G0 C e He Hc). destruct (o s C), (o s Z0), (invarc s e); reflexivity.
    + intros z Pz Nz. destruct (g_child _ _ _ G0 z Pz Nz) as (e & K1 & K2 & K3). exists e. rewrite Ech. split; [auto|].
      rewrite (Cnb _ _ K3 K1). split; [auto|]. apply Ia. destruct (Hp _ Pz Nz) as [Ppz _].
      assert (p z <> C) by (unfold prim, isroot in *; lia).
      destruct (Z.eq_dec (N + z) C) as [E|Ne].
      * assert (z = c) by lia. rewrite E, AC. right. split; [congruence|].
        rewrite E in K3. destruct (adj s C) as [|] eqn:Es; [tauto|]. cbn iota in K3. now rewrite Es in K3.
      * left. destruct (adj t (N + z)) as [|] eqn:Et.
        -- apply (Nne _ Ne) in Et. rewrite Et in K3. auto.
        -- destruct (adj s (N + z)) as [|] eqn:Es in K3; [apply (Nne _ Ne) in Es; congruence|auto].
    + intros x e He Hc. apply Ech in Hc. apply Ia in He as [[N1 He]|[-> He]].
      * rewrite (Cnb _ _ He Hc). now apply (g_childu _ _ _ G0).
      * rewrite (Cnb _ _ He Hc). rewrite (CC _ He Hc). cbn zeta. split; [auto|]. split; [auto|]. auto.
    + intros x y e e' He He' Hc Hc'. apply Ech in Hc. apply Ech in Hc'.
      apply Ia in He as [[_ He]|[_ He]]; apply Ia in He' as [[_ He']|[_ He']];
        rewrite (Cnb _ _ He Hc), (Cnb _ _ He' Hc'); intros E; eapply (g_childq _ _ _ G0); eauto.
  - intros R HR NR Ne. assert (NRC : R <> C) by (intros ->; rewrite AC in NR; tauto).
    rewrite Nne in NR by auto. apply (full_congr N s t R); [| | |now apply (g_full _ _ _ _ _ G)].
    + assert (Nv : forall x, In x (vsof s R) -> x <> C /\ x <> Z0).
      { intros x Hx. split; intros ->; [apply NRC|apply Ne]; eapply (vsof_inj N s); eauto; now left. }
      constructor; intros; rewrite ?Eo; auto.
      * apply AO; now apply Nv.
      * rewrite En. destruct (inb_spec (twin e) (adj s C)) as [I|_]; [|auto]. exfalso. apply NRC.
        apply (vsof_inj N s R C C); auto; [|now left].
        destruct (g_twins _ _ _ G0 _ _ I) as [T1 _]. rewrite twin2 in T1. rewrite <- T1. eapply arc_comp; eauto.
      * unfold GeoP.mem. apply filter_ext_in. intros z _. rewrite EB. destruct (Z.eqb_spec (B s z) C) as [E|_]; [|auto].
        rewrite E, !eqb_false_neq; auto.
    + intros x Hx. assert (N1 : x <> C) by (intros ->; apply NRC; eapply (vsof_inj N s); eauto; now left).
      pose proof (EEn x N1) as K1. pose proof (EEp x N1) as K2.
      rewrite (eqb_false_neq x Z0) in K2 by (intros ->; apply Ne; eapply (vsof_inj N s); eauto).
      rewrite (eqb_false_neq x (last xs NIL)) in K1.
      2:{ intros ->. apply NRC. apply (vsof_inj N s R C (last xs NIL)); auto. apply in_vsof. right.
          apply (h_in _ _ _ _ _ _ _ H2). apply last_in, (h_ne _ _ _ _ _ _ _ H2). }
      unfold en, ep in *. rewrite Eo in *. destruct (o s x); auto.
    + now apply EX.
  - intros _. pose proof (h_segs _ _ _ _ _ _ _ H1) as Sg. apply Forall2_app_inv_l in Sg as (s1 & s2' & Sg1 & Sg2 & ->).
    inversion Sg2 as [|? sz ? s2 Sz Sg3]. subst x l s2'. destruct Sz as [Sz1 Sz2].
    assert (RO : forall x, x <> C -> x <> Z0 -> rot t x = rot s x) by (intros; unfold rot; now rewrite Eo, AO).
    pose proof (h_ne _ _ _ _ _ _ _ H2) as Nxs.
    assert (Xin : forall x, In x xs -> prim x /\ B s x = C) by apply (h_in _ _ _ _ _ _ _ H2).
    assert (NxZ : forall x, In x xs -> x <> Z0) by (intros x Hx ->; destruct (Xin _ Hx); congruence).
    assert (NxC : forall x, In x xs -> x <> C) by (intros x Hx ->; destruct (Xin _ Hx); unfold prim, isroot in *; lia).
    assert (Qin : forall x, In x (P ++ Z0 :: Q) -> prim x /\ B s x = C') by apply (h_in _ _ _ _ _ _ _ H1).
    assert (QC : forall x, In x Q -> x <> C /\ x <> Z0 /\ x <> last xs NIL).
    { intros x Hx. destruct (Qin x ltac:(apply in_app_iff; cbn; auto)) as [Q1 Q2].
      split; [unfold prim, isroot in *; lia|]. split.
      - intros ->. pose proof (h_nodup _ _ _ _ _ _ _ H1) as Nd. apply NoDup_app_r in Nd. now inversion Nd.
      - intros E. destruct (Xin (last xs NIL) (last_in _ _ Nxs)) as [_ Q4]. congruence. }
    exists ((pre1 ++ concat s1) ++ pre2), (segs2 ++ sz :: s2), (FS1 ++ FS2). constructor.
    + eapply pc_vperm with (vs := vsof s C' ++ mem s C).
      * assert (Q0 : pc (nb t) (rot t) (vsof s C' ++ mem s C)
           (((pre1 ++ concat s1) ++ (pre2 ++ concat segs2) ++ concat (sz :: s2)) :: FS1 ++ FS2)).
        { apply (pc_merge (nb s) (rot s) (vsof s C') (pre1 ++ concat s1) (concat (sz :: s2)) FS1 C (mem s C)
                   (pre2 ++ concat segs2) FS2 Z0); auto.
          - rewrite <- app_assoc, <- concat_app. apply (h_pc _ _ _ _ _ _ _ H1).
          - apply (h_pc _ _ _ _ _ _ _ H2).
          - intros x V1 V2. apply NCC. apply (vsof_inj N s C' C x); auto.
          - intros x y e V1 V2 A1 A2. apply in_rot in A1. apply in_rot in A2.
            assert (x = y) by apply (g_disj _ _ _ G0 _ _ _ A1 A2). subst y. apply NCC. apply (vsof_inj N s C' C x); auto.
          - now apply rot_ne.
          - now apply rot_ne.
          - cbn. destruct sz; [tauto|discriminate].
          - cbn [concat]. now rewrite hd_app.
          - destruct (h_pre _ _ _ _ _ _ _ H2) as [K1 K2]. now rewrite hd_app.
          - intros x V1 V2. apply RO; [|auto]. intros ->. apply NCC. apply (vsof_inj N s C' C C); auto. now left.
          - intros x V1. apply in_mem in V1 as [V1 V2]. apply RO; [unfold prim, isroot in *; lia|congruence].
          - intros e He. apply in_rot in He. rewrite En, twin2. destruct (inb_spec e (adj s C)); tauto.
          - intros x e _ _ He. rewrite in_rot in He. rewrite En. destruct (inb_spec (twin e) (adj s C)); tauto. }
        rewrite concat_app. cbn [concat] in *. rewrite <- !app_assoc in *. exact Q0.
      * apply NoDup_Permutation.
        -- apply NoDup_app_intro; [now apply vsof_nodup|apply mem_nodup|].
           intros x V1 V2. apply NCC. apply (vsof_inj N s C' C x); auto. now right.
        -- now apply vsof_nodup.
        -- intros x. rewrite in_app_iff, !in_vsof, in_mem, EB.
           destruct (Z.eqb_spec (B s x) C) as [E|Ne]; split; intros K; intuition congruence.
    + destruct (h_pre _ _ _ _ _ _ _ H1) as [K1 K2]. split.
      * destruct pre1; [tauto|discriminate].
      * rewrite <- app_assoc, hd_app by auto. rewrite RO by auto. exact K2.
    + apply Forall2_app.
      * eapply starts_all; [|apply (h_segs _ _ _ _ _ _ _ H2)]. intros x Hx. apply RO; auto.
      * constructor; [split; [auto|]|].
        -- rewrite RZ, hd_app; [auto|now apply rot_ne].
        -- eapply starts_all; [|exact Sg3]. intros x Hx. apply RO; now apply QC.
    + apply linked_app. pose proof (h_linked _ _ _ _ _ _ _ H2) as L2. cbn [hd].
      pose proof (h_linked _ _ _ _ _ _ _ H1) as L1. apply linked_app in L1 as [_ (_ & L1 & L3)].
      rewrite hd_app by auto. split.
      * destruct (list_snoc xs) as [E|(m & y & E)]; [tauto|]. rewrite E in *. rewrite last_snoc in *.
        apply linked_app in L2 as [L2 (L4 & L5 & _)]. pose proof (h_nodup _ _ _ _ _ _ _ H2) as Nd.
        assert (Hy : forall x, In x m -> x <> y) by (intros x Hx ->; apply (NoDup_app_disj _ _ y Nd Hx); now left).
        apply linked_app. cbn [linked hd].
        assert (Hh : ep t (hd NIL (m ++ [y])) = ep s (hd NIL (m ++ [y]))).
        { assert (Ih : In (hd NIL (m ++ [y])) (m ++ [y])) by (apply hd_in, app_ne; discriminate).
          rewrite EEp by auto. rewrite eqb_false_neq; auto. }
        rewrite Hh. split.
        -- eapply linked_ext; [|exact L2]. intros x Hx. assert (In x (m ++ [y])) by (apply in_app_iff; auto).
           rewrite EEn, EEp by auto. rewrite !eqb_false_neq; auto.
        -- assert (Iy : In y (m ++ [y])) by (apply in_app_iff; right; now left).
           rewrite EEn, EEp by auto. rewrite Z.eqb_refl, eqb_false_neq; auto.
      * cbn [linked]. rewrite EEn, EEp, Z.eqb_refl by auto.
        assert (Ih : In (hd NIL xs) xs) by now apply hd_in.
        rewrite (eqb_false_neq Z0 (last xs NIL)) by (apply not_eq_sym, NxZ; now apply last_in).
        split; [destruct (list_snoc xs) as [E|(m & y & ->)]; [tauto|now rewrite !last_snoc]|].
        split; [exact L1|]. eapply linked_ext; [|exact L3]. intros x Hx. destruct (QC x Hx) as (q1 & q2 & q3).
        rewrite EEn, EEp, !eqb_false_neq; auto.
    + rewrite EEp, eqb_false_neq by auto. rewrite (h_last _ _ _ _ _ _ _ H1). now rewrite !last_app_ne by discriminate.
    + destruct xs; discriminate.
    + apply NoDup_app_intro.
      * apply (h_nodup _ _ _ _ _ _ _ H2).
      * pose proof (h_nodup _ _ _ _ _ _ _ H1) as Nd. now apply NoDup_app_r in Nd.
      * intros x V1 V2. destruct (Xin _ V1) as [_ Q1]. destruct (Qin x ltac:(apply in_app_iff; auto)) as [_ Q2]. congruence.
    + intros x Hx. rewrite EB. apply in_app_iff in Hx as [Hx|Hx].
      * destruct (Xin _ Hx) as [Q1 ->]. now rewrite Z.eqb_refl.
      * destruct (Qin x ltac:(apply in_app_iff; auto)) as [Q1 ->]. now rewrite eqb_false_neq.
    + intros x Hx. apply in_vsof in Hx. rewrite EB in Hx. assert (x <> C) by (unfold prim, isroot in *; lia).
      rewrite Nne by auto. destruct Hx as [->|[Q1 Q2]]; [auto|].
      destruct (Z.eqb_spec (B s x) C) as [E|Ne].
      * apply (h_arcs _ _ _ _ _ _ _ H2). apply in_vsof. auto.
      * apply (h_arcs _ _ _ _ _ _ _ H1). apply in_vsof. auto.
Qed.
End Geo2.
