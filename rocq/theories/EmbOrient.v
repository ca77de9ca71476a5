(** * EmbOrient: giving all vertices of an embedding the same orientation. *)
From Coq Require Import ZifyBool Permutation.
From Verif Require Import Base BaseP GraphRec GraphM GraphSpec GSimp LinkP GraphP GraphP2 ListM ListSpec ListP DFSM DFSSpec DFSP TestM TestP EmbM EmbSpec EmbP FaceP GeoP GeoP2 EmbInv EmbStep EmbTree.

Lemma ldiff_16_type f : Z.land (Z.ldiff f EDGEFLAG_INVERTED_MASK) EDGE_TYPE_MASK = Z.land f EDGE_TYPE_MASK.
Proof.
  apply Z.bits_inj'. intros n Hn. rewrite !Z.land_spec, Z.ldiff_spec. unfold EDGEFLAG_INVERTED_MASK, EDGE_TYPE_MASK.
  destruct (Z.eq_dec n 4) as [->|]; [cbn; now rewrite !andb_false_r|]. replace (Z.testbit 16 n) with false; [now rewrite andb_true_r|].
  symmetry. change 16 with (2 ^ 4). apply Z.pow2_bits_false. lia.
Qed.

(** The stack holds pairs of a vertex and its sign. *)
Definition ob (b : bool) : Z := if b then 16 else 0.
Definition sflat (s : Z -> bool) (ws : list Z) : list Z := flat_map (fun w => [ob (s w); w]) ws.
Lemma sflat_len s ws : length (sflat s ws) = (2 * length ws)%nat.
Proof. induction ws as [|w ws IH]; [reflexivity|]. cbn [sflat flat_map app length] in *. unfold sflat in IH. rewrite IH. lia. Qed.
Definition isch (g : graph) (e : Z) : bool := Z.land (eflags g e) EDGE_TYPE_MASK =? EDGE_TYPE_CHILD.

Lemma push_ok s inv : forall l n g p ws,
  linked (enext g) (eprev g) p l NIL -> NoDup l -> (forall e, In e l -> 2 <= e < gp_EdgeIndexBound g) ->
  (forall e, In e l -> isch g e = true -> Z.lxor inv (Z.land (eflags g e) EDGEFLAG_INVERTED_MASK) = ob (s (enbr g e))) ->
  gstack g = sflat s ws -> 2 * Z.of_nat (length ws + length (filter (isch g) l)) <= gstackCap g -> (length l < n)%nat ->
  exists fl', orient_push_loop n g inv false (hd NIL l) =
      Ret (set_eflags (set_gstack g (sflat s (rev (map (enbr g) (filter (isch g) l)) ++ ws))) fl') /\
    forall x, fl' x = if inb x l && isch g x then Z.ldiff (eflags g x) EDGEFLAG_INVERTED_MASK else eflags g x.
Proof.
  induction l as [|e l IH]; intros n g p ws L Nd Hr Hs Hst Hc Hn.
  - destruct n as [|n]; [cbn in Hn; lia|]. cbn [hd orient_push_loop]. change (NIL =? NIL) with true. cbv iota.
    exists (eflags g). split; [|reflexivity]. cbn [filter map rev app]. rewrite <- Hst. destruct g; reflexivity.
  - destruct n as [|n]; [cbn in Hn; lia|]. cbn [hd orient_push_loop].
    destruct L as (Lp & Ln & L). apply NoDup_cons_iff in Nd. destruct Nd as [Ni Nd].
    pose proof (Hr e (or_introl eq_refl)) as Re. rewrite (eqb_false_neq e NIL) by (unfold NIL; lia).
    unfold gp_GetEdgeType, rd_eflags. rewrite guard_true by bnd. cbn [bind].
    change (Z.land (eflags g e) EDGE_TYPE_MASK =? EDGE_TYPE_CHILD) with (isch g e). cbn [filter] in *. destruct (isch g e) eqn:Ec.
    + rewrite get_nbr by bnd. cbn [bind]. unfold gp_GetEdgeFlagInverted, rd_eflags. rewrite guard_true by bnd. cbn [bind].
      rewrite (Hs e (or_introl eq_refl) Ec). cbn [length] in *.
      unfold stk_push2, stk_push. rewrite guard_true by (rewrite Hst, sflat_len; lia). cbn [bind]. gsimp.
      rewrite guard_true by (cbn [length]; rewrite Hst, sflat_len; lia). cbn [bind]. gsimp.
      unfold gp_ClearEdgeFlagInverted, rd_eflags, wr_eflags. rewrite !guard_true by bnd. cbn [bind]. gsimp. rewrite guard_true by bnd. cbn [bind].
      rewrite get_next by bnd. cbn [bind]. gsimp. rewrite Ln.
      match goal with |- context [orient_push_loop n ?h _ _ _] => set (h1 := h) end.
      assert (Ei : forall x, isch h1 x = isch g x).
      { intros x. unfold isch, h1. gsimp. unfold upd. destruct (Z.eqb_spec x e) as [->|]; [now rewrite ldiff_16_type|reflexivity]. }
      assert (Ef : forall m, filter (isch h1) m = filter (isch g) m) by (intros m; apply filter_ext; auto).
      destruct (IH n h1 e (enbr g e :: ws)) as (fl' & E1 & E2).
      * unfold h1. gsimp. exact L.
      * exact Nd.
      * intros x Hx. apply Hr. now right.
      * intros x Hx Hi. rewrite Ei in Hi. unfold h1. gsimp. rewrite upd_other by (intros ->; contradiction). apply Hs; [now right|auto].
      * unfold h1. gsimp. rewrite Hst. reflexivity.
      * rewrite Ef. unfold h1. gsimp. cbn [length]. lia.
      * cbn in Hn. lia.
      * exists fl'. split.
        -- rewrite E1. rewrite Ef. unfold h1. gsimp. cbn [map rev]. rewrite <- app_assoc. cbn [app]. reflexivity.
        -- intros x. rewrite E2, Ei. unfold h1. gsimp. cbn [inb existsb]. fold (inb x l). unfold upd.
           destruct (Z.eqb_spec x e) as [->|]; cbn [orb]; [|reflexivity]. rewrite Ec. cbn [andb].
           destruct (inb_spec e l); [contradiction|]. reflexivity.
    + cbn [bind]. rewrite get_next by bnd. cbn [bind]. rewrite Ln.
      destruct (IH n g e ws L Nd) as (fl' & E1 & E2); auto.
      * intros x Hx. apply Hr. now right.
      * intros x Hx. apply Hs. now right.
      * cbn in Hn. lia.
      * exists fl'. split; [exact E1|]. intros x. rewrite E2. cbn [inb existsb]. fold (inb x l). destruct (Z.eqb_spec x e) as [->|]; [|reflexivity].
        rewrite Ec, !andb_false_r. reflexivity.
Qed.

Section Orient.
Variables (g0 : graph) (kids : Z -> list Z).
Hypothesis St : static g0 kids.
Local Notation N := (gN g0).
Local Notation p := (viParent (gVI g0)).
Local Notation prim := (prim (gN g0)).
Local Notation isroot := (isroot (gN g0)).
Local Notation geo := (geo (gN g0) (viParent (gVI g0))).
Local Notation vsof := (vsof (gN g0)).
Variable s : gv.
Hypothesis G : geo NIL [] s.
Let G0 := g_base _ _ _ _ _ G.

(** The vertices in [D] have been given their final orientation. *)
Definition dlist (D : Z -> bool) (x : Z) : list Z := if D x then rot s x else adj s x.
Record os (D : Z -> bool) (g : graph) (stk : list Z) : Prop := {
  os_keeps : keeps g0 g;
  os_even : Z.even (gCap g) = true;
  os_chains : chains g (dlist D);
  os_nb : forall x, enbr g x = nb s x;
  os_fl : forall x e, In e (adj s x) -> D x = false -> eflags g e = fl s e;
  os_ty : forall e, Z.land (eflags g e) EDGE_TYPE_MASK = Z.land (fl s e) EDGE_TYPE_MASK;
  os_stack : gstack g = stk }.
Lemma in_dlist D x e : In e (dlist D x) <-> In e (adj s x).
Proof. unfold dlist. destruct (D x); [apply in_rot|tauto]. Qed.
Lemma os_isch D g stk e : os D g stk -> isch g e = true <-> childarc s e.
Proof. intros H. unfold isch, childarc. rewrite (os_ty _ _ _ H). apply Z.eqb_eq. Qed.

(** The search within one component. *)
Record ol (R : Z) (D : Z -> bool) (ws : list Z) : Prop := {
  ol_in : forall w, In w ws -> In w (vsof s R) /\ D w = false;
  ol_nd : NoDup ws;
  ol_root : D R = true \/ In R ws;
  ol_closed : forall x e, In x (vsof s R) -> D x = true -> In e (adj s x) -> childarc s e -> D (nb s e) = true \/ In (nb s e) ws;
  ol_up : forall x e, In e (adj s x) -> childarc s e -> D (nb s e) = true \/ In (nb s e) ws -> D x = true }.

(** Every waiting vertex but the root has a tree arc of its own. *)
Lemma wait_cap D g stk R ws : os D g stk -> isroot R -> adj s R <> [] -> (forall w, In w ws -> In w (vsof s R) /\ w <> R) -> NoDup ws -> 2 * Z.of_nat (length ws) <= gstackCap g0.
Proof.
  intros H HR NR Hw Nd. pose proof (st_cap _ _ St) as SC.
  assert (exists es, length es = length ws /\ NoDup es /\ forall e, In e es -> childarc s e /\ (exists x, In e (adj s x)) /\ In (nb s e) ws) as (es & L & Ne & He).
  { induction ws as [|w ws IH]; [exists []; split; [auto|]; split; [constructor|]; intros e []|].
    apply NoDup_cons_iff in Nd. destruct Nd as [N1 N2]. destruct IH as (es & L & Ne & He); [intros; apply Hw; now right|auto|].
    destruct (Hw w (or_introl eq_refl)) as [W1 W2]. apply in_vsof in W1. destruct W1 as [W1|[W1 W3]]; [contradiction|].
    assert (Pw : p w <> NIL). { intros E. destruct (g_B0 _ _ _ G0 w W1 E) as [Q _]. unfold GeoP.isroot in HR. unfold GeoP.prim in W1. unfold NIL in Q. lia. }
    destruct (g_child _ _ _ G0 w W1 Pw) as (e & C1 & C2 & C3). exists (e :: es). split; [cbn; now rewrite L|]. split.
    - constructor; [|auto]. intros Q. destruct (He e Q) as (_ & _ & Q'). rewrite C2 in Q'. contradiction.
    - intros x [<-|Hx]; [split; [auto|]; split; [eauto|]; left; auto|]. destruct (He x Hx) as (A1 & A2 & A3). split; [auto|]. split; [auto|]. now right. }
  assert (I : incl es (zrange 2 (Z.to_nat (gCap g0)))).
  { intros e Hi. destruct (He e Hi) as (_ & (x & Hx) & _). apply (in_dlist D) in Hx. pose proof (ch_range _ _ (os_chains _ _ _ H) _ _ Hx) as Q.
    pose proof (k_cap _ _ (os_keeps _ _ _ H)). unfold gp_EdgeIndexBound in Q. apply in_zrange. lia. }
  pose proof (NoDup_incl_length Ne I) as Q. rewrite zrange_length in Q.
  destruct (adj s R) as [|e l] eqn:ER; [congruence|]. assert (He' : In e (dlist D R)) by (apply in_dlist; rewrite ER; now left).
  pose proof (ch_range _ _ (os_chains _ _ _ H) _ _ He') as Q'. pose proof (k_cap _ _ (os_keeps _ _ _ H)). unfold gp_EdgeIndexBound in Q'. lia.
Qed.

Definition todo (R : Z) (D : Z -> bool) : nat := length (filter (fun x => negb (D x)) (vsof s R)).
Lemma filter_length_le (f : Z -> bool) l : (length (filter f l) <= length l)%nat.
Proof. induction l as [|x l IH]; [auto|]. cbn [filter length]. destruct (f x); cbn [length]; lia. Qed.
Lemma filter_drop (f f' : Z -> bool) l w : In w l -> f w = true -> f' w = false -> (forall x, f' x = true -> f x = true) -> (length (filter f' l) < length (filter f l))%nat.
Proof.
  intros Hi F F' Hf. assert (M : forall m, (length (filter f' m) <= length (filter f m))%nat).
  { induction m as [|y m IH]; [auto|]. cbn [filter]. specialize (Hf y). destruct (f' y), (f y); cbn [length]; lia. }
  induction l as [|y l IH]; [destruct Hi|]. cbn [filter]. destruct (Z.eq_dec y w) as [->|Ne].
  - rewrite F, F'. cbn [length]. specialize (M l). lia.
  - destruct Hi as [|Hi]; [congruence|]. specialize (IH Hi). specialize (Hf y). destruct (f' y), (f y); cbn [length]; lia.
Qed.

Lemma chains_ext g (A A' : Z -> list Z) : (forall x, A' x = A x) -> chains g A -> chains g A'.
Proof.
  intros E C. constructor; intros; repeat rewrite E in *.
  - now apply C.
  - now apply C.
  - now apply C.
  - now apply C.
  - apply C.
  - eapply (ch_disj _ _ C); eauto.
  - eapply (ch_range _ _ C); eauto.
Qed.

Lemma orient_loop_ok R : isroot R -> adj s R <> [] -> forall n D g ws stk0,
  os D g (sflat (o s) ws ++ stk0) -> stk0 = [] -> ol R D ws -> (todo R D < n)%nat ->
  exists g' D', orient_loop n g 0 false = Ret g' /\ os D' g' [] /\ ol R D' [] /\ (forall x, ~ In x (vsof s R) -> D' x = D x) /\ (forall x, D x = true -> D' x = true).
Proof.
  intros HR NR. induction n as [|n IH]; intros D g ws stk0 H -> O Hn; [lia|]. rewrite app_nil_r in H. cbn [orient_loop].
  unfold stk_size. rewrite (os_stack _ _ _ H), sflat_len. destruct ws as [|W ws].
  - cbn [length]. replace (Z.of_nat (2 * 0) <=? 0) with true by reflexivity. exists g, D. split; [reflexivity|]. split; [exact H|]. split; [exact O|]. split; auto.
  - cbn [length]. replace (Z.of_nat (2 * S (length ws)) <=? 0) with false by lia.
    destruct (ol_in _ _ _ O W (or_introl eq_refl)) as [WV WD].
    pose proof (os_keeps _ _ _ H) as K. pose proof (k_N _ _ K) as KN.
    assert (WR : 1 <= W <= 2 * N). { apply in_vsof in WV. unfold GeoP.isroot, GeoP.prim in *. destruct WV as [->|[? _]]; lia. }
    unfold stk_pop2, stk_pop. rewrite (os_stack _ _ _ H). cbn [sflat flat_map app bind]. gsimp. fold (sflat (o s) ws).
    set (D1 := upd D W true). set (g1 := set_gstack (set_gstack g _) _).
    assert (Inv : exists g2, (if negb (ob (o s W) =? 0) then _InvertVertex g1 W else Ret g1) = Ret g2 /\
        keeps g0 g2 /\ Z.even (gCap g2) = true /\ chains g2 (dlist D1) /\ (forall x, enbr g2 x = nb s x) /\
        (forall x, eflags g2 x = eflags g x) /\ gstack g2 = sflat (o s) ws).
    { assert (C1 : chains g1 (dlist D)) by (destruct (os_chains _ _ _ H); constructor; auto).
      assert (K1 : keeps g0 g1) by (destruct K; constructor; auto).
      destruct (o s W) eqn:Eo; cbn [ob Z.eqb negb].
      - pose proof (invert_ok g1 (dlist D) W C1 ltac:(unfold is_vertex; gsimp; cbn; lia)) as IV.
        destruct (_InvertVertex g1 W) as [g2| |]; cbn [wp] in IV; try contradiction. exists g2. split; [reflexivity|].
        pose proof (iv_core _ _ _ _ IV) as F. split; [|split; [|split; [|split; [|split]]]].
        + eapply keeps_trans; [exact K1|]. constructor; try (apply F); try (now rewrite (fc_VI _ _ F)); auto.
          intros x _. now rewrite (iv_vindex _ _ _ _ IV), (iv_vflags _ _ _ _ IV).
        + rewrite (fc_cap _ _ F). apply (os_even _ _ _ H).
        + eapply chains_ext; [|apply IV]. intros x. unfold dlist, D1, upd. destruct (Z.eqb_spec x W) as [->|]; [|reflexivity]. rewrite WD. unfold rot. now rewrite Eo.
        + intros x. rewrite (iv_enbr _ _ _ _ IV). apply (os_nb _ _ _ H).
        + intros x. now rewrite (iv_eflags _ _ _ _ IV).
        + rewrite (fc_stack _ _ F). reflexivity.
      - exists g1. split; [reflexivity|]. split; [exact K1|]. split; [apply (os_even _ _ _ H)|]. split; [|split; [exact (os_nb _ _ _ H)|split; reflexivity]].
        eapply chains_ext; [|exact C1]. intros x. unfold dlist, D1, upd. destruct (Z.eqb_spec x W) as [->|]; [|reflexivity]. rewrite WD. unfold rot. now rewrite Eo. }
    destruct Inv as (g2 & E2 & K2 & Ev2 & C2 & Nb2 & Fl2 & S2). rewrite E2. cbn [bind]. clear E2.
    pose proof (k_N _ _ K2) as KN2. assert (V2 : is_vertex g2 W) by (unfold is_vertex; lia).
    rewrite get_first by bnd. cbn [bind]. rewrite (ch_first _ _ C2 W V2).
    assert (EW : dlist D1 W = rot s W) by (unfold dlist, D1; now rewrite upd_same). pose proof (ch_linked _ _ C2 W V2) as L2. pose proof (ch_nodup _ _ C2 W) as Nd2.
    pose proof (ch_range _ _ C2 W) as Rg2. pose proof (adj_len_chains _ _ W C2) as Le2. rewrite EW in *.
    assert (Ic : forall e, isch g2 e = true <-> childarc s e) by (intros e; unfold isch; rewrite Fl2; apply (os_isch _ _ _ e H)).
    set (cs := map (nb s) (filter (isch g2) (rot s W))).
    assert (Ics : forall c, In c cs <-> exists e, In e (adj s W) /\ childarc s e /\ nb s e = c).
    { intros c. unfold cs. rewrite in_map_iff. split.
      - intros (e & E & Hi). apply filter_In in Hi. exists e. rewrite Ic, in_rot in Hi. tauto.
      - intros (e & A1 & A2 & A3). exists e. split; [auto|]. apply filter_In. rewrite Ic, in_rot. auto. }
    assert (Cns : forall c, In c cs -> In c (vsof s R) /\ c <> R /\ c <> W /\ D c = false /\ ~ In c ws).
    { intros c Hc. apply Ics in Hc. destruct Hc as (e & A1 & A2 & <-). destruct (g_childu _ _ _ G0 W e A1 A2) as (P1 & P2 & P3). destruct (st_p _ _ St _ P1 P2) as [Q1 Q2].
      split; [eapply (arc_comp _ _ _ _ _ R W); eauto|]. split; [unfold GeoP.isroot, GeoP.prim in *; lia|]. split; [unfold GeoP.prim in *; lia|].
      split; [|intros Hi; assert (D W = true) by (eapply (ol_up _ _ _ O); eauto; right; right; auto); congruence].
      destruct (D (nb s e)) eqn:Q; [|auto]. assert (D W = true) by (eapply (ol_up _ _ _ O); eauto). congruence. }
    pose proof (ol_nd _ _ _ O) as Ndw. apply NoDup_cons_iff in Ndw. destruct Ndw as [Nw Ndw].
    assert (Ndc : NoDup (rev cs ++ ws)).
    { apply NoDup_app_intro; [|exact Ndw|].
      - apply NoDup_rev. unfold cs. assert (Q : NoDup (filter (isch g2) (rot s W))) by now apply NoDup_filter.
        assert (Q2 : forall e, In e (filter (isch g2) (rot s W)) -> In e (adj s W) /\ childarc s e) by (intros e Hi; apply filter_In in Hi; rewrite Ic, in_rot in Hi; tauto).
        clear - Q Q2 G0. induction (filter (isch g2) (rot s W)) as [|e l IHl]; [constructor|]. apply NoDup_cons_iff in Q. destruct Q as [Q Q']. cbn [map]. constructor.
        + rewrite in_map_iff. intros (e' & E & Hi). apply Q. destruct (Q2 e (or_introl eq_refl)), (Q2 e' (or_intror Hi)).
          rewrite (g_childq _ _ _ G0 W W e e'); auto.
        + apply IHl; auto. intros; apply Q2; now right.
      - intros c Hc. apply in_rev in Hc. destruct (Cns c Hc) as (_ & _ & _ & _ & Q). exact Q. }
    assert (Rws : forall w, In w ws -> w <> R).
    { intros w Hi ->. destruct (ol_root _ _ _ O) as [Q|[Q|Q]].
      - destruct (ol_in _ _ _ O R (or_intror Hi)). congruence.
      - subst. contradiction.
      - destruct (ol_in _ _ _ O R (or_intror Hi)) as [_ Q1].
        (* W is not the root, so its tree arc starts at a vertex that is done *)
        assert (W <> R) by (intros ->; contradiction).
        assert (P : forall n z, (Z.to_nat z < n)%nat -> prim z -> B s z = R -> D z = true \/ In z (W :: ws) -> False).
        { clear - O Q1 G0 St HR. induction n as [|n IHn]; intros z Hz Pz Bz Hd; [lia|].
          assert (Pn : p z <> NIL). { intros E. destruct (g_B0 _ _ _ G0 z Pz E) as [Q _]. unfold GeoP.isroot in HR. unfold GeoP.prim in Pz. unfold NIL in Q. lia. }
          destruct (g_child _ _ _ G0 z Pz Pn) as (e & C1 & C2 & C3).
          assert (DS : forall x, In e (adj s x) -> D x = true) by (intros x Hx; eapply (ol_up _ _ _ O); eauto; now rewrite C2).
          revert C3. generalize (eq_refl (adj s (N + z))). destruct (adj s (N + z)) at 2 3; intros EA C3.
          - destruct (g_B2 _ _ _ G0 z Pz Pn EA) as [B2 _]. destruct (st_p _ _ St _ Pz Pn) as [P1 P2]. apply (IHn (p z)); auto; [unfold GeoP.prim in *; lia|congruence].
          - pose proof (g_B1 _ _ _ G0 z Pz Pn ltac:(congruence)) as B1. specialize (DS _ C3). congruence. }
        apply in_vsof in WV. destruct WV as [WV|[WV WB]]; [contradiction|]. apply (P (S (Z.to_nat W)) W); auto. right. now left. }
    destruct (push_ok (o s) (ob (o s W)) (rot s W) (efuel g2) g2 NIL ws L2 Nd2 Rg2) as (fl' & P1 & P2).
    + intros e He Hc. apply Ic in Hc. apply in_rot in He. rewrite Fl2, (os_fl _ _ _ H W e He WD), Nb2, (g_sign _ _ _ G0 W e He Hc).
      unfold invarc. rewrite land_16. destruct (Z.testbit (fl s e) 4), (o s W); reflexivity.
    + exact S2.
    + pose proof (k_stackCap _ _ K2) as KS. rewrite KS. replace (length ws + length (filter (isch g2) (rot s W)))%nat with (length (rev cs ++ ws)).
      2:{ rewrite app_length, rev_length. unfold cs. rewrite map_length. lia. }
      eapply (wait_cap D g _ R); [exact H|exact HR|exact NR| |exact Ndc]. intros w Hw. apply in_app_iff in Hw. destruct Hw as [Hw|Hw].
      * apply in_rev in Hw. split; apply (Cns w Hw).
      * split; [apply (ol_in _ _ _ O w (or_intror Hw))|auto].
    + exact Le2.
    + rewrite P1. cbn [bind]. replace (map (enbr g2) (filter (isch g2) (rot s W))) with cs by (unfold cs; apply map_ext; intros; now rewrite Nb2).
      destruct (IH D1 (set_eflags (set_gstack g2 (sflat (o s) (rev cs ++ ws))) fl') (rev cs ++ ws) []) as (g' & D' & R1 & R2 & R3 & R4 & R5).
      * constructor.
        -- destruct K2; constructor; auto.
        -- exact Ev2.
        -- destruct C2; constructor; auto.
        -- exact Nb2.
        -- intros x e Hx Dx. cbn. rewrite P2. destruct (inb_spec e (rot s W)) as [Hi|Hi].
           ++ apply in_rot in Hi. pose proof (g_disj _ _ _ G0 _ _ _ Hx Hi). subst x. unfold D1 in Dx. rewrite upd_same in Dx. discriminate.
           ++ cbn [andb]. rewrite Fl2. apply (os_fl _ _ _ H x); auto. unfold D1, upd in Dx. destruct (x =? W); [discriminate|auto].
        -- intros e. cbn. rewrite P2, Fl2. destruct (inb e (rot s W) && isch g2 e); [rewrite ldiff_16_type|]; apply (os_ty _ _ _ H).
        -- cbn. now rewrite app_nil_r.
      * reflexivity.
      * assert (DT : forall x, D1 x = true <-> x = W \/ D x = true) by (intros x; unfold D1, upd; destruct (Z.eqb_spec x W) as [->|]; split; auto; intros [|]; auto; contradiction).
        constructor.
        -- intros w Hw. apply in_app_iff in Hw. destruct Hw as [Hw|Hw].
           ++ apply in_rev in Hw. destruct (Cns w Hw) as (A1 & A2 & A3 & A4 & A5). split; [auto|]. unfold D1. now rewrite upd_other.
           ++ destruct (ol_in _ _ _ O w (or_intror Hw)). split; [auto|]. unfold D1. rewrite upd_other by (intros ->; contradiction). auto.
        -- exact Ndc.
        -- destruct (ol_root _ _ _ O) as [Q|[Q|Q]]; [left; apply DT; auto|left; apply DT; auto|right; apply in_app_iff; auto].
        -- intros x e Hx Dx He Hc. apply DT in Dx. destruct Dx as [->|Dx].
           ++ right. apply in_app_iff. left. apply -> in_rev. apply Ics. eauto.
           ++ destruct (ol_closed _ _ _ O x e Hx Dx He Hc) as [Q|[Q|Q]]; [left; apply DT; auto|left; apply DT; auto|right; apply in_app_iff; auto].
        -- intros x e He Hc Hd. apply DT. destruct Hd as [Hd|Hd].
           ++ apply DT in Hd. destruct Hd as [Hd|Hd]; right; apply (ol_up _ _ _ O x e He Hc); [right; left; auto|auto].
           ++ apply in_app_iff in Hd. destruct Hd as [Hd|Hd]; [|right; apply (ol_up _ _ _ O x e He Hc); right; right; auto].
              left. apply in_rev in Hd. apply Ics in Hd. destruct Hd as (e' & A1 & A2 & A3). assert (e = e') by (eapply (g_childq _ _ _ G0); eauto). subst e'. apply (g_disj _ _ _ G0 _ _ e); auto.
      * assert (todo R D1 < todo R D)%nat; [|lia]. unfold todo. apply (filter_drop _ _ _ W); auto.
        -- now rewrite WD.
        -- unfold D1. now rewrite upd_same.
        -- intros x. unfold D1, upd. destruct (x =? W); [discriminate|auto].
      * exists g', D'. split; [exact R1|]. split; [exact R2|]. split; [exact R3|]. split.
        -- intros x Hx. rewrite (R4 x Hx). unfold D1. apply upd_other. intros ->. contradiction.
        -- intros x Hx. apply R5. unfold D1, upd. destruct (x =? W); auto.
Qed.
(** In the end the whole component is done. *)
Lemma ol_all R D : isroot R -> adj s R <> [] -> ol R D [] -> forall x, In x (vsof s R) -> D x = true.
Proof.
  intros HR NR O. assert (DR : D R = true) by (destruct (ol_root _ _ _ O) as [|[]]; auto).
  assert (Cl : forall x e, In x (vsof s R) -> D x = true -> In e (adj s x) -> childarc s e -> D (nb s e) = true) by (intros x e A1 A2 A3 A4; destruct (ol_closed _ _ _ O x e A1 A2 A3 A4) as [|[]]; auto).
  assert (P : forall n z, (Z.to_nat z < n)%nat -> prim z -> B s z = R -> D z = true).
  { induction n as [|n IHn]; intros z Hz Pz Bz; [lia|].
    assert (Pn : p z <> NIL). { intros E. destruct (g_B0 _ _ _ G0 z Pz E) as [Q _]. unfold GeoP.isroot in HR. unfold GeoP.prim in Pz. unfold NIL in Q. lia. }
    destruct (g_child _ _ _ G0 z Pz Pn) as (e & C1 & C2 & C3). rewrite <- C2.
    revert C3. generalize (eq_refl (adj s (N + z))). destruct (adj s (N + z)) at 2 3; intros EA C3.
    - destruct (g_B2 _ _ _ G0 z Pz Pn EA) as [B2 _]. destruct (st_p _ _ St _ Pz Pn) as [P1 P2]. apply (Cl (p z)); auto.
      + apply in_vsof. right. split; [auto|congruence].
      + apply (IHn (p z)); auto; [unfold GeoP.prim in *; lia|congruence].
    - pose proof (g_B1 _ _ _ G0 z Pz Pn ltac:(congruence)) as B1. apply (Cl (N + z)); auto; rewrite <- B1, Bz; [now left|auto]. }
  intros x Hx. apply in_vsof in Hx. destruct Hx as [->|[Hx Bx]]; [auto|]. apply (P (S (Z.to_nat x))); auto.
Qed.

(** All roots have the standard orientation. *)
Hypothesis Ho : forall R, isroot R -> adj s R <> [] -> o s R = false.

(** The components with a root below R are done, those above are not touched. *)
Definition upto (R : Z) (D : Z -> bool) : Prop :=
  forall R' x, isroot R' -> adj s R' <> [] -> In x (vsof s R') -> D x = (R' <? R).
Lemma orient_step_ok R D g : isroot R -> os D g [] -> upto R D -> exists g' D', orient_step R g = Ret g' /\ os D' g' [] /\ upto (R + 1) D'.
Proof.
  intros HR H U. unfold orient_step, gp_VirtualVertexInUse. pose proof (os_keeps _ _ _ H) as K. pose proof (k_N _ _ K) as KN.
  assert (V : is_vertex g R) by (unfold is_vertex, GeoP.isroot in *; lia). rewrite get_first by bnd. cbn [bind]. rewrite (ch_first _ _ (os_chains _ _ _ H) R V).
  destruct (adj s R) as [|e l] eqn:EA.
  - replace (dlist D R) with (@nil Z) by (unfold dlist, rot; rewrite EA; destruct (D R), (o s R); reflexivity). cbn [hd]. change (NIL =? NIL) with true. cbn [negb]. cbv iota.
    exists g, D. split; [reflexivity|]. split; [exact H|]. intros R' x A1 A2 A3. rewrite (U R' x A1 A2 A3). assert (R' <> R) by congruence. lia.
  - assert (NR : adj s R <> []) by congruence. pose proof (U R R HR NR (or_introl eq_refl)) as DR. rewrite Z.ltb_irrefl in DR.
    assert (Er : dlist D R = e :: l) by (unfold dlist; now rewrite DR). rewrite Er. cbn [hd].
    pose proof (ch_range _ _ (os_chains _ _ _ H) R e ltac:(rewrite Er; now left)) as Re. rewrite eqb_false_neq by (unfold NIL; lia). cbn [negb].
    unfold _OrientVerticesInBicomp, stk_size. rewrite (os_stack _ _ _ H). cbn [length Z.of_nat].
    assert (CAP : 2 <= gstackCap g).
    { rewrite (k_stackCap _ _ K). pose proof (st_cap _ _ St). assert (e' : 2 <= gCap g0); [|lia]. rewrite <- (k_cap _ _ K).
      pose proof (os_even _ _ _ H) as Ev. unfold gp_EdgeIndexBound in Re. apply Z.even_spec in Ev. destruct Ev as [k Ek]. lia. }
    unfold stk_push2, stk_push. rewrite (os_stack _ _ _ H). cbn [length]. rewrite guard_true by lia. cbn [bind]. gsimp. cbn [length]. rewrite guard_true by lia. cbn [bind].
    destruct (orient_loop_ok R HR NR (S (S (Z.to_nat (2 * gN g)))) D (set_gstack g (sflat (o s) [R])) [R] []) as (g' & D' & E & H' & O' & U1 & U2).
    + destruct H as [K1 K2 K3 K4 K5 K6 K7]. constructor; auto; [destruct K1; constructor; auto|destruct K3; constructor; auto].
    + reflexivity.
    + constructor.
      * intros w [<-|[]]. split; [now left|auto].
      * repeat constructor. intros [].
      * right. now left.
      * intros x e' Hx Dx. rewrite (U R x HR NR Hx), Z.ltb_irrefl in Dx. discriminate.
      * intros x e' He Hc. destruct (arc_home _ _ (st_p _ _ St) _ _ _ x e' G He) as (R' & A1 & A2 & A3). pose proof (arc_comp _ _ _ _ _ R' x e' G A1 A2 A3 He) as A4.
        rewrite (U R' _ A1 A2 A4), (U R' _ A1 A2 A3). intros [|[Q|[]]]; [auto|]. exfalso.
        destruct (g_childu _ _ _ G0 _ _ He Hc) as (Q1 & _). rewrite <- Q in Q1. unfold GeoP.prim, GeoP.isroot in *. lia.
    + unfold todo. rewrite KN. assert (Q : (length (vsof s R) <= S (Z.to_nat N))%nat).
      { unfold GeoP.vsof, mem. cbn [length]. apply le_n_S. etransitivity; [apply filter_length_le|]. rewrite zrange_length. lia. }
      pose proof (filter_length_le (fun x => negb (D x)) (vsof s R)). pose proof (st_N _ _ St). lia.
    + replace (sflat (o s) [R]) with [0; R] in E by (cbn; now rewrite Ho). replace (gN (set_gstack (set_gstack g [R]) [0; R])) with (gN g) by reflexivity.
      change (set_gstack (set_gstack g [R]) [0; R]) with (set_gstack g [0; R]). change (Z.of_nat 0) with 0. rewrite E. exists g', D'. split; [reflexivity|]. split; [exact H'|].
      intros R' x A1 A2 A3. destruct (Z.eq_dec R' R) as [->|Ne].
      * rewrite (ol_all R D' HR NR O' x A3). lia.
      * rewrite (U1 x). { rewrite (U R' x A1 A2 A3). lia. } intros Q. apply Ne. eapply vsof_inj; eauto.
Qed.

Theorem orient_all g stk : os (fun _ => false) g stk ->
  exists g', _OrientVerticesInEmbedding g = Ret (g', C_OK) /\ keeps g0 g' /\ Z.even (gCap g') = true /\ chains g' (rot s) /\ (forall x, enbr g' x = nb s x) /\
    (forall e, Z.land (eflags g' e) EDGE_TYPE_MASK = Z.land (fl s e) EDGE_TYPE_MASK) /\ gstack g' = [].
Proof.
  intros H. unfold _OrientVerticesInEmbedding. pose proof (k_N _ _ (os_keeps _ _ _ H)) as KN. pose proof (st_N _ _ St) as SN.
  assert (W : wp (for_up (Z.to_nat (gN g)) (gN g + 1) orient_step (stk_clear g)) (fun g' => exists D, os D g' [] /\ upto (gN g + 1 + Z.of_nat (Z.to_nat (gN g))) D)).
  { apply (for_up_inv (fun R g' => exists D, os D g' [] /\ upto R D)).
    - exists (fun _ => false). split.
      + destruct H as [K1 K2 K3 K4 K5 K6 K7]. constructor; auto; [destruct K1; constructor; auto|destruct K3; constructor; auto].
      + intros R' x A1 _ _. unfold GeoP.isroot in A1. lia.
    - intros R h HR (D & A1 & A2). destruct (orient_step_ok R D h) as (h' & D' & E & B1 & B2); auto; [unfold GeoP.isroot; lia|].
      rewrite E. cbn [wp]. eauto. }
  destruct (for_up _ _ _ _) as [g'| |]; cbn [wp] in W; try contradiction. destruct W as (D & H' & U). exists g'. split; [reflexivity|].
  split; [apply H'|]. split; [apply H'|]. split; [|split; [apply H'|split; apply H']].
  eapply chains_ext; [|apply H']. intros x. unfold dlist. destruct (adj s x) as [|e l] eqn:EA.
  - unfold rot. rewrite EA. destruct (D x), (o s x); reflexivity.
  - destruct (arc_home _ _ (st_p _ _ St) _ _ _ x e G ltac:(rewrite EA; now left)) as (R & A1 & A2 & A3). rewrite (U R x A1 A2 A3). unfold GeoP.isroot in A1.
    replace (R <? gN g + 1 + Z.of_nat (Z.to_nat (gN g))) with true by lia. reflexivity.
Qed.
End Orient.
