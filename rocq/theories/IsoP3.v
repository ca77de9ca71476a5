(** * IsoP3: the isolator adds forward arcs to the adjacency lists and deletes unmarked edges. *)
From Coq Require Import ZifyBool Permutation Sorted.
From Verif Require Import Base BaseP GraphRec GraphM GraphSpec GSimp LinkP GraphP GraphP2 GraphP3 ListM ListSpec ListP DFSM DFSSpec DFSP TestM TestSpec TestP TestP2 TestP3 EmbM EmbSpec EmbP EmbP2 EmbP3 FaceP GeoP GeoP2 EmbInv EmbStep EmbTree EmbWalk EmbJoin EmbDown EmbStor IsoM IsoP1 IsoP2.

Lemma take_off_ok g0 g a stk u l1 f l2 : rp g0 g a stk -> 1 <= u <= gN g0 -> fw a u = l1 ++ f :: l2 ->
  exists g', take_off g u f = Ret g' /\ rp g0 g' (set_fw a (upd (fw a) u (l1 ++ l2))) stk.
Proof.
  intros H Hu E. pose proof (k_N _ _ (r_keeps _ _ _ _ H)) as KN. pose proof (k_cap _ _ (r_keeps _ _ _ _ H)) as KC.
  pose proof (r_ring _ _ _ _ H u) as R. pose proof (r_fwnd _ _ _ _ H u) as Nd. rewrite E in R, Nd.
  assert (Hf : In f (fw a u)) by (rewrite E; apply in_app_iff; right; now left).
  destruct (ring_at _ _ _ _ _ R) as [Nf Pf]. pose proof (r_fwrange _ _ _ _ H u) as Rg.
  destruct (ring_next_in _ _ _ f (r_ring _ _ _ _ H u) Hf) as [In1 In2].
  pose proof (Rg _ Hf) as Rf. pose proof (Rg _ In1) as Rn. pose proof (Rg _ In2) as Rv.
  unfold take_off. unfold gp_GetVertexFwdArcList at 1. rewrite vi_ok by lia. cbn [bind]. rewrite (r_fwhd _ _ _ _ H u ltac:(lia)), E.
  pose proof (proj1 (NoDup_mid l1 l2 f) Nd) as [Nd' Nf'].
  assert (A : (exists w, (if hd NIL (l1 ++ f :: l2) =? f then
       n <- gp_GetNextArc g f;; gp_SetVertexFwdArcList g u (if n =? f then NIL else n) else Ret g) = Ret (set_gVI g (set_viFwd (gVI g) w)) /\
       forall x, w x = upd (viFwd (gVI g)) u (hd NIL (l1 ++ l2)) x)).
  { destruct l1 as [|y l1]; cbn [app hd].
    - rewrite Z.eqb_refl. run. unfold gp_SetVertexFwdArcList at 1. rewrite vi_guard by lia. cbn [bind].
      rewrite Nf. cbn [app hd]. destruct l2 as [|z l2]; cbn [hd].
      + rewrite Z.eqb_refl. eexists. split; [reflexivity|]. auto.
      + rewrite eqb_false_neq by (intros ->; apply Nf'; now left). eexists. split; [reflexivity|]. auto.
    - rewrite eqb_false_neq by (intros ->; apply Nf'; now left). exists (viFwd (gVI g)). split; [destruct g as [? ? ? ? ? ? ? ? ? ? ? ? ? ? ? ? ? V ?]; gsimp; destruct V; reflexivity|].
      intros x. unfold upd. destruct (Z.eqb_spec x u) as [->|]; [|reflexivity]. rewrite (r_fwhd _ _ _ _ H u ltac:(lia)), E. reflexivity. }
  assert (Kn : upd (enext g) (eprev g f) (enext g f) f = enext g f) by (unfold upd; now destruct (f =? eprev g f)).
  destruct A as (w & -> & Ew). cbn [bind]. run. gsimp. rewrite Kn. run. gsimp. eexists. split; [reflexivity|].
  pose proof (r_fwdisj _ _ _ _ H) as Dj. pose proof (r_fwadj _ _ _ _ H) as Da.
  assert (Fr1 : forall x, ~ In x (fw a u) -> upd (enext g) (eprev g f) (enext g f) x = enext g x).
  { intros x Hx. apply upd_other. intros ->. contradiction. }
  assert (Fr2 : forall x, ~ In x (fw a u) -> upd (eprev g) (enext g f) (eprev g f) x = eprev g x).
  { intros x Hx. apply upd_other. intros ->. contradiction. }
  assert (Sub : forall u' x, In x (upd (fw a) u (l1 ++ l2) u') -> In x (fw a u')).
  { intros u' x. unfold upd. destruct (Z.eqb_spec u' u) as [->|]; [|auto]. rewrite E. intros Hx. apply in_app_iff in Hx. apply in_app_iff. destruct Hx; [auto|right; now right]. }
  pose proof (r_keeps _ _ _ _ H) as KP. destruct H. unfold set_fw. constructor; cbn [eV fw prl pe fpc vis]; gsimp; auto.
  - destruct KP; constructor; gsimp; auto.
  - apply (chains_agree g _ _ r_chains); gsimp; auto; [unfold gp_EdgeIndexBound; gsimp; lia|].
    intros x e9 He. split; [apply Fr1|apply Fr2]; intros Q; exact (Da _ _ _ Q He).
  - intros u' Hu'. rewrite Ew. unfold upd. destruct (Z.eqb_spec u' u) as [->|]; auto.
  - intros u' Hu'. unfold upd. destruct (Z.eqb_spec u' u) as [->|]; [lia|auto].
  - intros u'. unfold upd at 3. destruct (Z.eqb_spec u' u) as [->|Ne].
    + apply (ring_remove (enext g) (eprev g) _ _ l1 f l2 R Nd); intros x Hx; unfold upd.
      * now destruct (x =? eprev g f).
      * now destruct (x =? enext g f).
    + eapply ring_ext; [|apply r_ring]. intros x Hx. split; [apply Fr1|apply Fr2]; intros Q; apply Ne; eapply Dj; eauto.
  - intros u'. unfold upd. destruct (Z.eqb_spec u' u) as [->|]; auto.
  - intros u' x Hx. apply (r_fwrange u'). auto.
  - intros u1 u2 x H1 H2. eapply Dj; eauto.
  - intros u' x f' Hx. eapply Da. eauto.
Qed.
Lemma fwd_len g0 g a stk u : rp g0 g a stk -> (length (fw a u) < efuel g)%nat.
Proof.
  intros H. destruct (list_eq_dec Z.eq_dec (fw a u) []) as [->|Ne]; [cbn; unfold efuel; lia|].
  assert (L : (length (fw a u) <= length (zrange 2 (Z.to_nat (gp_EdgeIndexBound g - 2))))%nat).
  { apply NoDup_incl_length; [apply (r_fwnd _ _ _ _ H)|]. intros f Hf. pose proof (r_fwrange _ _ _ _ H u f Hf). apply in_zrange. lia. }
  rewrite zrange_length in L. destruct (fw a u) as [|f l] eqn:E; [congruence|]. pose proof (r_fwrange _ _ _ _ H u f ltac:(rewrite E; now left)). unfold efuel, gp_EdgeIndexBound in *. lia.
Qed.
Lemma fwd_arc_ok g0 g a stk u d : rp g0 g a stk -> 1 <= u <= gN g0 -> forall l l0 n, fw a u = l0 ++ l -> (length l < n)%nat ->
  exists f, fwd_arc_loop n g u d (hd NIL l) = Ret f /\ (f = NIL /\ (forall x, In x l -> nb (eV a) x <> d) \/ exists l1 l2, l = l1 ++ f :: l2 /\ nb (eV a) f = d /\ 2 <= f).
Proof.
  intros H Hu. pose proof (k_N _ _ (r_keeps _ _ _ _ H)) as KN. induction l as [|y l IH]; intros l0 n El Hn; (destruct n as [|n]; [cbn [length] in Hn; lia|]); cbn [fwd_arc_loop hd].
  - exists NIL. split; [reflexivity|]. left. split; [auto|]. intros x [].
  - assert (Hy : In y (fw a u)) by (rewrite El; apply in_app_iff; right; now left). pose proof (r_fwrange _ _ _ _ H u y Hy) as Ry.
    rewrite eqb_false_neq by (unfold NIL; lia). run. rewrite (r_nb _ _ _ _ H).
    destruct (Z.eqb_spec (nb (eV a) y) d) as [Q|Q].
    + exists y. split; [reflexivity|]. right. exists [], l. split; [auto|]. split; [auto|lia].
    + run. unfold gp_GetVertexFwdArcList. rewrite vi_ok by lia. cbn [bind]. rewrite (r_fwhd _ _ _ _ H u ltac:(lia)).
      pose proof (r_ring _ _ _ _ H u) as R. rewrite El in R. destruct (ring_at _ _ _ _ _ R) as [-> _]. rewrite <- El in R. pose proof (r_fwnd _ _ _ _ H u) as Nd.
      assert (E : (if hd (hd NIL (l0 ++ y :: l)) l =? hd NIL (fw a u) then NIL else hd (hd NIL (l0 ++ y :: l)) l) = hd NIL l).
      { destruct l as [|z l]; cbn [hd].
        - rewrite El, Z.eqb_refl. reflexivity.
        - destruct (Z.eqb_spec z (hd NIL (fw a u))) as [Q2|]; [|reflexivity]. exfalso. rewrite El in Nd, Q2. destruct l0 as [|q l0]; cbn [app hd] in *.
          + subst z. inversion Nd. apply H2. now left.
          + subst z. inversion Nd. apply H2. apply in_app_iff. right. right. now left. }
      rewrite E. destruct (IH (l0 ++ [y]) n) as (f & W & D); [rewrite El, <- app_assoc; auto|cbn [length] in Hn; lia|]. exists f. split; [exact W|].
      destruct D as [[-> D]|(l1 & l2 & -> & D1 & D2)]; [left; split; [auto|]; intros x [<-|Hx]; auto|right; exists (y :: l1), l2; auto].
Qed.

Section Iso3.
Variables (g0 : graph) (kids : Z -> list Z).
Hypothesis St : static g0 kids.
Local Notation N := (gN g0).
Local Notation p := (viParent (gVI g0)).
Local Notation prim := (prim (gN g0)).
Local Notation anc := (ancestor (viParent (gVI g0))).
Local Notation pof := (pof g0).
Local Notation sedge := (sedge g0).
Local Notation stor := (stor g0).
Local Notation rpv := (rpv g0).
Local Notation fwok := (fwok g0).
Local Notation marked := (marked g0).
Variable a : est.
Local Notation s := (eV a).
Hypothesis G : geob N p s.
Hypothesis FW : fwok a.
Local Notation flat := (flat g0 a).

Lemma flat_fw j u f : flat j -> In f (fw j u) -> exists c, via g0 u c (nb s f) /\ c <> nb s f.
Proof. intros Fl Hf. apply (fo_via _ _ FW). eapply fl_fw; eauto. Qed.
Lemma flat_ends j u f : flat j -> In f (fw j u) -> prim u /\ prim (nb s f) /\ u <> nb s f /\ adj (eV j) u <> [] /\ adj (eV j) (nb s f) <> [].
Proof.
  intros Fl Hf. destruct (flat_fw _ _ _ Fl Hf) as (c & V & Nc). pose proof (via_lt _ _ St _ _ _ V) as L. destruct V as (V1 & V2 & V3 & V4 & V5).
  assert (Nd : p (nb s f) <> NIL). { apply (anc_up g0 _ _ V5). auto. }
  assert (Nc' : p c <> NIL) by (rewrite V2; unfold GeoP.prim, NIL in *; lia).
  split; [auto|]. split; [auto|]. split; [lia|]. split; [|apply (fl_par _ _ _ Fl _ V4 Nd)]. rewrite <- V2. apply (fl_par _ _ _ Fl _ V1 Nc').
Qed.
Lemma add_back_ok j stk g u d : rpv g j stk -> flat j -> (exists f, In f (fw j u) /\ nb s f = d) ->
  exists g' j' l1 f l2, _AddBackEdge g u d = Ret g' /\ rpv g' j' stk /\ flat j' /\ fl (eV j') = fl (eV j) /\
    fw j u = l1 ++ f :: l2 /\ nb s f = d /\ (forall x, fw j' x = upd (fw j) u (l1 ++ l2) x) /\ hd NIL (adj (eV j') u) = f /\ hd NIL (adj (eV j') d) = twin f /\ In f (fw a u).
Proof.
  intros H Fl (f0 & Hf0 & Ef0). destruct (flat_ends _ _ _ Fl Hf0) as (Pu & Pd & Nud & _ & _). rewrite Ef0 in Pd, Nud. unfold _AddBackEdge. pose proof (rpv_N g0 _ _ _ H) as KN.
  unfold gp_GetVertexFwdArcList. rewrite vi_ok by (unfold GeoP.prim in Pu; lia). cbn [bind]. rewrite (r_fwhd _ _ _ _ H u ltac:(unfold GeoP.prim in Pu; lia)).
  destruct (fwd_arc_ok _ g j stk u d H ltac:(cbn [set_vflags gN]; unfold GeoP.prim in Pu; lia) (fw j u) [] (efuel g) eq_refl (fwd_len _ _ _ _ u H)) as (f & W & D). rewrite W. cbn [bind].
  destruct D as [[_ D]|(l1 & l2 & El & Ef & Rf)]; [elim (D f0 Hf0); rewrite (fl_fwnb _ _ _ Fl _ _ Hf0); auto|].
  rewrite eqb_false_neq by (unfold NIL; lia). rewrite twin_eq. assert (Hf : In f (fw j u)) by (rewrite El; apply in_app_iff; right; now left).
  rewrite (fl_fwnb _ _ _ Fl _ _ Hf) in Ef. destruct (flat_ends _ _ _ Fl Hf) as (_ & _ & _ & Nu & Nd). rewrite Ef in Nd.
  pose proof (fl_fw _ _ _ Fl _ _ Hf) as Hfa. pose proof (fo_twin _ _ FW _ _ Hfa) as Etf.
  assert (Rt : 2 <= f < gp_EdgeIndexBound g0 /\ 2 <= twin f < gp_EdgeIndexBound g0).
  { pose proof (r_fwrange _ _ _ _ H u f Hf) as Q. pose proof (r_even _ _ _ _ H) as Ev. pose proof (k_cap _ _ (r_keeps _ _ _ _ H)) as Kc. cbn [set_vflags gCap] in Kc. unfold gp_EdgeIndexBound in *. rewrite Kc in *.
    assert (E2 : Z.even (2 + gCap g0) = true) by (rewrite Z.even_add, Ev; reflexivity). pose proof (twin_range f (2 + gCap g0) ltac:(lia) E2 ltac:(lia)) as T. pose proof (twin_ge f 2 ltac:(lia) eq_refl ltac:(lia)) as T2. unfold twin in *. lia. }
  destruct Rt as [Rf2 Rt]. assert (Ntf : twin f <> f) by apply twin_ne.
  destruct (take_off_ok _ g j stk u l1 f l2 H ltac:(cbn [set_vflags gN]; unfold GeoP.prim in Pu; lia) El) as (g1 & W1 & H1). rewrite W1. cbn [bind].
  pose proof (r_fwnd _ _ _ _ H u) as Ndu. rewrite El in Ndu. apply NoDup_mid in Ndu. destruct Ndu as [_ Nf].
  assert (Fwin : forall x y, In x (upd (fw j) u (l1 ++ l2) y) -> In x (fw j y) /\ x <> f).
  { intros x y. unfold upd. destruct (Z.eqb_spec y u) as [->|Ny].
    - intros Q. split; [rewrite El; apply in_app_iff in Q; apply in_app_iff; destruct Q; [auto|right; now right]|]. intros ->. contradiction.
    - intros Q. split; [auto|]. intros ->. apply Ny. eapply (r_fwdisj _ _ _ _ H); eauto. }
  change (push_front g1 u f) with (add_end g1 u 0 f).
  destruct (add_end_ok _ g1 _ stk u 0 f H1) as (g2 & W2 & H2); cbn [set_fw eV fw set_vflags gN]; auto.
  { unfold GeoP.prim in Pu; lia. }
  { intros y Q. exact (r_fwadj _ _ _ _ H _ _ _ Hf Q). }
  { intros y Q. apply Fwin in Q. tauto. }
  rewrite W2. cbn [bind]. change (push_front g2 d (twin f)) with (add_end g2 d 0 (twin f)).
  destruct (add_end_ok _ g2 _ stk d 0 (twin f) H2) as (g3 & W3 & H3); cbn [set_fw set_V v_adj eV fw adj set_vflags gN]; auto.
  { unfold GeoP.prim in Pd; lia. }
  { unfold end_lists, upd. rewrite eqb_false_neq by auto. auto. }
  { intros y Q. unfold end_lists, upd in Q. change (0 =? 0) with true in Q. cbv iota in Q. destruct (y =? u).
    - destruct Q as [Q|Q]; [congruence|]. exact (fl_tw _ _ _ Fl _ _ _ Hf Q).
    - exact (fl_tw _ _ _ Fl _ _ _ Hf Q). }
  { intros y Q. apply Fwin in Q. destruct Q as [Q _]. apply (fl_fw _ _ _ Fl) in Q. exact (fo_tw _ _ FW _ _ _ Hfa Q). }
  rewrite W3. cbn [bind]. destruct (set_nbr_ok _ g3 _ stk (twin f) u H3) as (g4 & W4 & H4); [exact Rt|].
  cbn [set_fw set_V v_adj v_nb eV fw adj nb fl] in H4. rewrite W4.
  assert (AD : forall x e, In e (end_lists (end_lists (adj (eV j)) u 0 f) d 0 (twin f) x) <-> (x = d /\ e = twin f) \/ (x = u /\ e = f) \/ In e (adj (eV j) x)).
  { intros x e. unfold end_lists. change (0 =? 0) with true. cbv iota. unfold upd. rewrite (eqb_false_neq d u) by auto. destruct (Z.eqb_spec x d) as [->|N1].
    - cbn [In]. split; intros Q; [destruct Q as [<-|Q]; auto|destruct Q as [[_ ->]|[[Q _]|Q]]; auto; congruence].
    - destruct (Z.eqb_spec x u) as [->|N2]; cbn [In]; [split; intros Q; [destruct Q as [<-|Q]; auto|destruct Q as [[Q _]|[[_ ->]|Q]]; auto; congruence]|].
      split; [auto|]. intros [[Q _]|[[Q _]|Q]]; auto; congruence. }
  assert (Narc : forall x, ~ In f (adj (eV j) x) /\ ~ In (twin f) (adj (eV j) x)) by (intros x; split; [apply (r_fwadj _ _ _ _ H _ _ _ Hf)|apply (fl_tw _ _ _ Fl _ _ _ Hf)]).
  exists g4. eexists. exists l1, f, l2. split; [reflexivity|]. split; [eapply rpv_any; exact H4|]. split; [|split; [reflexivity|]; split; [auto|]; split; [auto|]; split; [reflexivity|]; split; [|split; [|auto]]].
  - constructor; cbn [set_fw set_V v_adj v_nb eV fw adj nb fl].
    + intros x e He. apply AD in He. destruct He as [[-> ->]|[[-> ->]|He]].
      * split; [right; exists u; right; now rewrite twin_invol|]. split; [auto|]. rewrite twin_invol, Ef. split; [symmetry; now apply pof_prim|]. rewrite upd_same, Etf. split; [symmetry; now apply pof_prim|]. apply AD. auto.
      * split; [right; exists u; now left|]. split; [auto|]. rewrite Etf. split; [symmetry; now apply pof_prim|]. rewrite upd_other by auto. rewrite (fl_fwnb _ _ _ Fl _ _ Hf), Ef. split; [symmetry; now apply pof_prim|]. apply AD. auto.
      * destruct (fl_adj _ _ _ Fl _ _ He) as (Q1 & Q2 & Q3 & Q4 & Q5). rewrite upd_other by (intros ->; exact (proj2 (Narc x) He)). split; [auto|]. split; [auto|]. split; [auto|]. split; [auto|]. apply AD. auto.
    + intros e He. destruct (Z.eq_dec e f) as [->|N1]; [left; exists u; apply AD; auto|]. destruct (Z.eq_dec e (twin f)) as [->|N2]; [left; exists d; apply AD; auto|].
      destruct (fl_all _ _ _ Fl e He) as [(x & Hx)|(y & Hy)]; [left; exists x; apply AD; auto|right; exists y].
      assert (FF : forall x, In x (fw j y) -> x <> f -> In x (upd (fw j) u (l1 ++ l2) y)).
      { intros x Q Nx. unfold upd. destruct (Z.eqb_spec y u) as [->|]; [|auto]. rewrite El in Q. apply in_app_iff in Q. apply in_app_iff. destruct Q as [Q|[Q|Q]]; auto. congruence. }
      destruct Hy as [Hy|Hy]; [left; now apply FF|right; apply FF; auto]. intros Q. apply N2. now rewrite <- Q, twin_invol.
    + intros y x Q. apply Fwin in Q. destruct Q as [Q _]. now apply (fl_fw _ _ _ Fl).
    + intros y x Q. apply Fwin in Q. destruct Q as [Q Nx]. rewrite upd_other; [now apply (fl_fwnb _ _ _ Fl y)|]. intros ->. apply (fl_fw _ _ _ Fl) in Q. exact (fo_tw _ _ FW _ _ _ Hfa Q).
    + intros y x z Q K. apply Fwin in Q. destruct Q as [Q Nx]. apply AD in K. destruct K as [[_ K]|[[_ K]|K]].
      * apply Nx. now apply twin_inj in K.
      * apply (fo_tw _ _ FW u y f Hfa). rewrite <- K, twin_invol. now apply (fl_fw _ _ _ Fl).
      * exact (fl_tw _ _ _ Fl _ _ _ Q K).
    + intros e He. rewrite upd_other; [now apply (fl_out _ _ _ Fl)|]. intros ->. apply He. right. exists u. right. now rewrite twin_invol.
    + intros z Pz Nz. destruct (fl_par _ _ _ Fl z Pz Nz) as [Q1 Q2]. split.
      * destruct (adj (eV j) z) as [|e l] eqn:Ea; [congruence|]. intros Q. assert (K : In e (adj (eV j) z)) by (rewrite Ea; now left). pose proof (proj2 (AD z e) (or_intror (or_intror K))) as K2. rewrite Q in K2. destruct K2.
      * destruct (adj (eV j) (p z)) as [|e l] eqn:Ea; [congruence|]. intros Q. assert (K : In e (adj (eV j) (p z))) by (rewrite Ea; now left). pose proof (proj2 (AD (p z) e) (or_intror (or_intror K))) as K2. rewrite Q in K2. destruct K2.
  - cbn [set_fw set_V v_adj v_nb eV fw adj nb fl]. unfold end_lists, upd. rewrite (eqb_false_neq u d) by auto. now rewrite Z.eqb_refl.
  - cbn [set_fw set_V v_adj v_nb eV fw adj nb fl]. unfold end_lists, upd. now rewrite Z.eqb_refl.
Qed.

(** The chosen edge is added and marked. *)
Lemma flat_setfl j F : flat j -> flat (setfl j F).
Proof. intros []. constructor; auto. Qed.
Lemma add_mark_ok2 j stk g u d F0 F ME : rpv g (setfl j F) stk -> flat j -> marked F0 F ME -> (exists f, In f (fw j u) /\ nb s f = d) ->
  exists g' j' F' f, _AddAndMarkEdge g u d = Ret g' /\ rpv g' (setfl j' F') stk /\ flat j' /\ marked F0 F' (f :: ME) /\ In f (fw a u) /\ nb s f = d /\
    (forall u' f', In f' (fw j u') -> ~ (u' = u /\ nb s f' = d) -> In f' (fw j' u')).
Proof.
  intros H Fl M Hd. destruct Hd as (f0 & Hf0 & Ef0). destruct (flat_ends _ _ _ Fl Hf0) as (Pu & Pd & Nud & _ & _). rewrite Ef0 in Pd, Nud.
  destruct (add_back_ok _ stk g u d H (flat_setfl _ F Fl)) as (g1 & j1 & l1 & f & l2 & W1 & H1 & Fl1 & E1 & E2 & E3 & E4 & E5 & E6 & E7); [exists f0; auto|].
  unfold _AddAndMarkEdge. rewrite W1. cbn [bind]. destruct (set_vmark g0 g1 _ stk u H1 ltac:(unfold GeoP.prim in *; lia)) as (g2 & W2 & H2). rewrite W2. cbn [bind].
  assert (Vu : 1 <= u <= 2 * N) by (unfold GeoP.prim in *; lia). assert (Vd : 1 <= d <= 2 * N) by (unfold GeoP.prim in *; lia).
  rewrite (rp_first _ _ _ _ u H2 Vu). cbn [bind]. rewrite E5.
  assert (Nu : adj (eV j1) u <> []) by (destruct (adj (eV j1) u); [|discriminate]; cbn [hd] in E5; pose proof (r_fwrange _ _ _ _ H u f) as Q; cbn [setfl set_V fw] in Q, E2; rewrite E2 in Q; specialize (Q ltac:(apply in_app_iff; right; now left)); unfold NIL in *; lia).
  assert (Hfu : In f (adj (eV j1) u)) by (rewrite <- E5; now apply hd_in).
  destruct (fl_adj _ _ _ Fl1 _ _ Hfu) as (_ & _ & _ & _ & Htf).
  assert (Rf : 2 <= f < gp_EdgeIndexBound g0) by (rewrite <- (rpv_cap g0 _ _ _ H1); apply (ch_range _ _ (r_chains _ _ _ _ H1) _ _ Hfu)).
  assert (Rt : 2 <= twin f < gp_EdgeIndexBound g0) by (rewrite <- (rpv_cap g0 _ _ _ H1); apply (ch_range _ _ (r_chains _ _ _ _ H1) _ _ Htf)).
  assert (H2' : rpv g2 (setfl j1 F) stk).
  { unfold IsoP1.rpv in *. eapply (rp_ext _ _ _ _ (v_fl (eV j1) F) (fw j1) (prl j1) (pe j1) (fpc j1) (vis j1) H2); auto. cbn [v_fl fl]. intros x. now rewrite E1. }
  destruct (mark_edge g0 g2 j1 stk F0 F ME f H2' M Rf Rt) as (g4 & F4 & W4 & H4 & M4 & V4).
  destruct (gp_SetEdgeVisited g2 f) as [g3| |] eqn:Q3; cbn [bind] in W4; try discriminate. cbn [bind].
  destruct (set_emark g0 g2 _ stk f H2' Rf) as (g3' & W3 & H3 & _). rewrite Q3 in W3. injection W3 as <-.
  rewrite (rp_first _ _ _ _ d H3 Vd). cbn [bind setfl set_V v_fl eV adj]. rewrite E6. rewrite twin_eq in W4. rewrite W4. cbn [bind].
  destruct (set_vmark g0 g4 _ stk d H4 Vd) as (g5 & W5 & H5). exists g5, j1, F4, f. split; [exact W5|]. split; [auto|]. split; [auto|]. split; [auto|]. split; [auto|]. split; [auto|].
  cbn [setfl set_V fw] in E2, E4. intros u' f' Hf' Nf. rewrite E4. unfold upd. destruct (Z.eqb_spec u' u) as [->|]; [|auto]. rewrite E2 in Hf'. rewrite in_app_iff in *. cbn [In] in Hf'. destruct Hf' as [Q|[<-|Q]]; auto. exfalso. auto.
Qed.
Lemma add_mark_ok j stk g u d F0 F ME : rpv g (setfl j F) stk -> flat j -> marked F0 F ME -> (exists f, In f (fw j u) /\ nb s f = d) ->
  exists g' j' F' f, _AddAndMarkEdge g u d = Ret g' /\ rpv g' (setfl j' F') stk /\ flat j' /\ marked F0 F' (f :: ME) /\ In f (fw a u) /\ nb s f = d.
Proof. intros H Fl M Hd. destruct (add_mark_ok2 j stk g u d F0 F ME H Fl M Hd) as (g' & j' & F' & f & Q). exists g', j', F', f. tauto. Qed.

(** The remaining forward arcs are added without marks. *)
Lemma add_rest_ok stk u : forall n j g F, (length (fw j u) < n)%nat -> rpv g (setfl j F) stk -> flat j -> prim u ->
  exists g' j', add_rest_loop n g u = Ret g' /\ rpv g' (setfl j' F) stk /\ flat j' /\ forall x, fw j' x = if x =? u then [] else fw j x.
Proof.
  induction n as [|n IH]; intros j g F Hn H Fl Pu; [lia|]. cbn [add_rest_loop]. pose proof (rpv_N g0 _ _ _ H) as KN.
  unfold gp_GetVertexFwdArcList. rewrite vi_ok by (unfold GeoP.prim in Pu; lia). cbn [bind]. rewrite (r_fwhd _ _ _ _ H u ltac:(unfold GeoP.prim in Pu; lia)). cbn [setfl set_V fw].
  destruct (fw j u) as [|f l] eqn:El; cbn [hd].
  - rewrite Z.eqb_refl. exists g, j. split; [reflexivity|]. split; [auto|]. split; [auto|]. intros x. destruct (Z.eqb_spec x u) as [->|]; auto.
  - assert (Hf : In f (fw j u)) by (rewrite El; now left). pose proof (r_fwrange _ _ _ _ H u f Hf) as Rf. rewrite eqb_false_neq by (unfold NIL; lia). run. rewrite (r_nb _ _ _ _ H). cbn [setfl set_V v_fl eV nb]. rewrite (fl_fwnb _ _ _ Fl _ _ Hf).
    destruct (add_back_ok _ stk g u (nb s f) H (flat_setfl _ F Fl)) as (g1 & j1 & l1 & f1 & l2 & W1 & H1 & Fl1 & E1 & E2 & E3 & E4 & _); [exists f; auto|]. rewrite W1. cbn [bind].
    cbn [setfl set_V fw v_fl eV fl] in E1, E2, E4.
    assert (H1' : rpv g1 (setfl j1 F) stk).
    { unfold IsoP1.rpv in *. eapply (rp_ext _ _ _ _ (v_fl (eV j1) F) (fw j1) (prl j1) (pe j1) (fpc j1) (vis j1) H1); auto. cbn [v_fl fl]. intros x. now rewrite E1. }
    destruct (IH j1 g1 F) as (g' & j' & W & H' & Fl' & E'); auto.
    + rewrite E4, upd_same, app_length. rewrite El in E2. apply (f_equal (@length Z)) in E2. rewrite app_length in E2. cbn [length] in *. lia.
    + exists g', j'. split; [exact W|]. split; [auto|]. split; [auto|]. intros x. rewrite E', E4. unfold upd. now destruct (x =? u).
Qed.
Lemma add_all_ok stk F : forall n k g j, 0 <= k -> k + Z.of_nat n = N -> rpv g (setfl j F) stk -> flat j -> (forall x, prim x -> x <= k -> fw j x = []) ->
  exists g' j', for_up n (k + 1) (fun v g => add_rest_loop (efuel g) g v) g = Ret g' /\ rpv g' (setfl j' F) stk /\ flat j' /\ forall x, fw j' x = [].
Proof.
  induction n as [|n IH]; intros k g j Hk Hn H Fl E.
  - exists g, j. split; [reflexivity|]. split; [auto|]. split; [auto|]. intros x. destruct (Z.leb_spec 1 x), (Z.leb_spec x N); try (apply (r_fwout _ _ _ _ H); rewrite (rpv_N g0 _ _ _ H); lia). apply E; unfold GeoP.prim; lia.
  - cbn [for_up]. assert (Pk : prim (k + 1)) by (unfold GeoP.prim; lia). destruct (add_rest_ok stk (k + 1) (efuel g) j g F (fwd_len _ _ _ _ _ H) H Fl Pk) as (g1 & j1 & W1 & H1 & Fl1 & E1). rewrite W1. cbn [bind].
    apply (IH (k + 1) g1 j1); [lia|lia|auto|auto|]. intros x Px Hx. rewrite E1. destruct (Z.eqb_spec x (k + 1)); [auto|]. apply E; [auto|lia].
Qed.

(** ** A well formed graph again *)
Lemma flat_rep g j F stk : rpv g (setfl j F) stk -> flat j -> (forall x, fw j x = []) -> stor a -> rep g (adj (eV j)).
Proof.
  intros H Fl E S. pose proof (r_keeps _ _ _ _ H) as K.
  assert (EN : gN g = N) by apply (k_N _ _ K).
  assert (EU : gp_EdgeInUseIndexBound g = gp_EdgeInUseIndexBound g0) by (unfold gp_EdgeInUseIndexBound; now rewrite (k_M _ _ K), (k_holes _ _ K)).
  assert (EB : gp_EdgeIndexBound g = gp_EdgeIndexBound g0) by (unfold gp_EdgeIndexBound; now rewrite (k_cap _ _ K)).
  assert (Nb : forall e, enbr g e = nb (eV j) e) by (intros e; apply (r_nb _ _ _ _ H)).
  assert (Tw : twins_ok g (adj (eV j))).
  { intros v e He. destruct (fl_adj _ _ _ Fl _ _ He) as (Q1 & Q2 & Q3 & Q4 & Q5). rewrite !Nb. split; [|auto]. destruct (fl_adj _ _ _ Fl _ _ Q5) as (_ & _ & _ & Q6 & _). congruence. }
  constructor; [exact (r_chains _ _ _ _ H)|exact Tw|]. constructor; rewrite ?EN, ?EU, ?EB, ?(k_M _ _ K), ?(k_holes _ _ K), ?(k_holesCap _ _ K); try apply S.
  - apply (r_even _ _ _ _ H).
  - rewrite (k_cap _ _ K). apply S.
  - intros v e He. apply (so_used _ _ S). apply (fl_adj _ _ _ Fl _ _ He).
  - intros h Hh. destruct (so_holes _ _ S h Hh) as (Q1 & Q2 & Q3), (so_free _ _ S h Hh) as [F1 F2]. rewrite !Nb, !(fl_out _ _ _ Fl) by auto. auto.
  - intros e He. destruct (so_cover _ _ S e He) as [Q|Q]; [left|auto]. destruct (fl_all _ _ _ Fl e Q) as [(x & Hx)|(u & Hu)]; [|rewrite E in Hu; destruct Hu as [[]|[]]].
    destruct (Tw _ _ Hx) as [-> _]. auto.
Qed.
End Iso3.
