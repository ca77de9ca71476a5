(** * IsoKI: the context of the isolator of Kuratowski subgraphs. *)
From Coq Require Import ZifyBool Permutation.
From Verif Require Import Base BaseP GraphRec GraphM GraphSpec GSimp LinkP GraphP GraphP2 GraphP3 ListM ListSpec DFSM DFSSpec DFSP TestM TestSpec TestP TestP3 EmbM EmbSpec EmbP EmbP2 FaceP GeoP EmbInv EmbStep EmbTree EmbWalk EmbOrient EmbJoin EmbDown EmbDown3 EmbFan FanP IsoM IsoKM IsoP1 IsoP2 IsoP3 IsoP4 IsoO IsoO2 IsoX IsoX2 IsoX3 IsoX4 PlV PlV3 PlI.

Definition setfp (b : est) (fp : Z -> Z) : est := mkE (eV b) (fw b) (prl b) (pe b) fp (vis b).

Lemma update_fpc_vflags n g w v g' : update_fpc n g w v = Ret g' -> vflags g' = vflags g.
Proof.
  revert g. induction n as [|n IH]; intros g; [discriminate|]. cbn [update_fpc]. destruct (gp_GetVertexFuturePertinentChild g w) as [c| |]; cbn [bind]; try discriminate.
  destruct (c =? NIL); [intros H; now injection H as <-|]. destruct (gp_GetVertexLowpoint g c) as [lp| |]; cbn [bind]; try discriminate.
  destruct (if v <=? lp then _ else _) as [[]| |]; cbn [bind negb]; try discriminate; [intros H; now injection H as <-|].
  destruct (gp_GetVertexNextDFSChild g w c) as [c'| |]; cbn [bind]; try discriminate. unfold gp_SetVertexFuturePertinentChild, guard. destruct (inVI g w); cbn [bind]; try discriminate.
  intros H. apply IH in H. exact H.
Qed.

Section KInit.
Variables (g0 : graph) (kids : Z -> list Z).
Hypothesis St : static g0 kids.
Local Notation N := (gN g0).
Local Notation p := (viParent (gVI g0)).
Local Notation prim := (prim (gN g0)).
Local Notation isroot := (isroot (gN g0)).
Local Notation anc := (ancestor (viParent (gVI g0))).
Local Notation geo := (geo (gN g0) (viParent (gVI g0))).
Local Notation act := (act g0).
Local Notation rp := (rp g0).
Local Notation rpv := (rpv g0).
Local Notation marked := (marked g0).
Local Notation vsof := (vsof (gN g0)).
Variables (a : est) (v d : Z) (L : list Z).
Local Notation s := (eV a).
Local Notation R := (gN g0 + d).
Hypothesis G : geo NIL [] s.
Hypothesis Ad : act s d.
Hypothesis LW : Lw g0 s R L.
Local Notation G0 := (g_base _ _ _ _ _ G).

Lemma KR : isroot R.
Proof. destruct Ad as [P _]. unfold GeoP.isroot, GeoP.prim in *. lia. Qed.
Lemma K_facts : NoDup (R :: L) /\ (forall x, In x L -> prim x /\ B s x = R /\ anc d x /\ p x <> NIL).
Proof.
  destruct (Lw_facts g0 s R L G0 KR (proj2 (proj2 Ad)) LW) as [Nd H]. assert (P : forall x, In x L -> prim x /\ B s x = R /\ anc d x /\ p x <> NIL).
  { intros x Hx. destruct (H x Hx) as [P1 P2]. destruct (B_anc g0 kids St _ _ _ d x G (proj1 Ad) P1 P2). auto. }
  split; [|exact P]. constructor; [|auto]. intros Q. apply P in Q. destruct Q as [Q _]. pose proof KR. unfold GeoP.isroot, GeoP.prim in *. lia.
Qed.
Lemma K_rng x : In x (R :: L) -> 1 <= x <= 2 * N.
Proof. destruct K_facts as (_ & P). intros [<-|Hx]; [destruct Ad as [Q _]|apply P in Hx; destruct Hx as [Q _]]; unfold GeoP.prim in Q; lia. Qed.
Lemma K_vs x : In x (R :: L) -> In x (vsof s R).
Proof. destruct K_facts as (_ & P). intros [<-|Hx]; [now left|]. apply in_vsof. right. destruct (P x Hx) as (P1 & P2 & _). auto. Qed.
Lemma K_len : Z.of_nat (length L) <= N.
Proof.
  destruct K_facts as (Q & P). apply NoDup_cons_iff in Q. destruct Q as [_ Q]. assert (length L <= length (zrange 1 (Z.to_nat N)))%nat; [|rewrite zrange_length in H; destruct Ad as [A1 _]; unfold GeoP.prim in A1; lia].
  apply NoDup_incl_length; [auto|]. intros z Hz. destruct (P z Hz) as [Q1 _]. unfold GeoP.prim in Q1. apply in_zrange. lia.
Qed.

(** ** The external face after turning the component *)
Section Turned.
Variables (D : Z -> bool) (b : est).
Hypothesis Tu : turned a D b.
Hypothesis DT : forall x, In x (vsof s R) -> D x = true.
Lemma Kt_same x e : In e (adj (eV b) x) <-> In e (adj s x).
Proof. rewrite (tu_adj _ _ _ Tu). unfold EmbOrient.dlist. destruct (D x); [apply in_rot|tauto]. Qed.
Lemma Kt_act c : act (eV b) c <-> act s c.
Proof.
  unfold EmbTree.act. assert (adj (eV b) (N + c) <> [] <-> adj s (N + c) <> []); [|tauto].
  split; intros H Q; apply H; apply incl_l_nil; intros e He; apply Kt_same in He; now rewrite Q in He.
Qed.
Lemma Kt_tw x e : In e (adj (eV b) x) -> nb (eV b) (twin e) = x /\ In (twin e) (adj (eV b) (nb (eV b) e)).
Proof. intros H. apply Kt_same in H. destruct (g_twins _ _ _ G0 _ _ H) as [H1 H2]. rewrite (tu_nb _ _ _ Tu). split; [auto|]. now apply Kt_same. Qed.
Lemma Kt_rims : rims (eV b) R L.
Proof.
  destruct LW as (F & O & EL). pose proof (oface_srcs N p s R F G0 (proj2 (proj2 Ad)) O) as ES. rewrite EL in ES.
  assert (EN : map (nb s) F = L ++ [R]).
  { rewrite (face_nb N p s F G0); [rewrite EL; f_equal; f_equal; apply (oface_R N p s R F G0 (proj2 (proj2 Ad)) O)| |apply O]. intros e He. destruct (of_in _ _ _ _ O e He) as [_ I]. eauto. }
  intros l1 u w l2 E. assert (exists e, In e F /\ src s e = u /\ nb s e = w) as (e & He & <- & <-).
  { assert (Q1 : nth_error (R :: L ++ [R]) (length l1) = Some u) by (rewrite E, nth_error_app2, Nat.sub_diag by lia; reflexivity).
    assert (Q2 : nth_error (L ++ [R]) (length l1) = Some w).
    { change (nth_error (R :: L ++ [R]) (S (length l1)) = Some w). rewrite E, nth_error_app2 by lia. replace (S (length l1) - length l1)%nat with 1%nat by lia. reflexivity. }
    rewrite <- EN, nth_error_map in Q2. destruct (nth_error F (length l1)) as [e|] eqn:Ee; [|discriminate]. cbn in Q2. injection Q2 as Q2. exists e. split; [eapply nth_error_In; eauto|]. split; [|auto].
    change (R :: L ++ [R]) with ((R :: L) ++ [R]) in Q1. rewrite <- ES in Q1. rewrite nth_error_app1 in Q1 by (rewrite map_length; apply nth_error_Some; congruence). rewrite nth_error_map, Ee in Q1. cbn in Q1. congruence. }
  assert (IS : forall f, In f F -> In (src s f) (R :: L)) by (intros f Hf; rewrite <- ES; now apply in_map).
  pose proof (fclosed_step _ _ _ (of_cl _ _ _ _ O) He) as He2. destruct (of_in _ _ _ _ O e He) as [I1 I2]. destruct (arc_st N p s _ e G0 I2) as (A1 & A2 & A3).
  assert (HX : forall f, In f F -> adj (eV b) (src s f) = rot s (src s f) /\ In f (adj s (src s f)) /\ f = hd NIL (rot s (src s f))).
  { intros f Hf. destruct (of_in _ _ _ _ O f Hf) as [J1 J2]. split; [rewrite (tu_adj _ _ _ Tu); unfold EmbOrient.dlist; now rewrite DT|]. split; [auto|]. now apply (of_st _ _ _ _ O). }
  destruct (HX e He) as (X1 & X2 & X3). destruct (HX _ He2) as (Y1 & Y2 & Y3). rewrite A2 in *.
  assert (Et : twin e = last (rot s (nb s e)) NIL).
  { apply cnext_last_iff; [apply rot_nodup, (g_nodup _ _ _ G0)|now apply in_rot|]. rewrite <- Y3. reflexivity. }
  rewrite X1, Y1, (tu_nb _ _ _ Tu), <- X3, <- Et. split; [auto|]. split; [rewrite <- A2; auto|]. split; [apply rot_ne; intros Q; now rewrite Q in X2|]. split; [apply rot_ne; intros Q; rewrite Q in A3; destruct A3|]. auto.
Qed.
End Turned.

(** ** Future pertinence *)
Definition futp (w : Z) : Prop := viLeast (gVI g0) w < v \/ exists c, act s c /\ p c = w /\ viLow (gVI g0) c < v.
Definition fpo (fp : Z -> Z) : Prop := forall w, prim w -> exists l1 l2, kids w = l1 ++ l2 /\ fp w = hd NIL l2 /\ forall c, In c l1 -> ~ act s c \/ v <= viLow (gVI g0) c.
Variable fp : Z -> bool.
Hypothesis Hfp : forall w, In w L -> fp w = true <-> futp w.

Lemma fpc_rpv g b stk w : rpv g b stk -> (forall c, act (eV b) c <-> act s c) -> fpo (fpc b) -> prim w ->
  exists g' f, gp_UpdateVertexFuturePertinentChild g w v = Ret g' /\ rpv g' (setfp b f) stk /\ fpo f /\ vflags g' = vflags g /\
    exists r, FUTUREPERTINENT g' w v = Ret r /\ (r = true <-> futp w).
Proof.
  intros H Ha Fo Hw. destruct (Fo w Hw) as (l1 & l2 & E1 & E2 & E3). unfold gp_UpdateVertexFuturePertinentChild. rewrite (rpv_N g0 _ _ _ H).
  pose proof (kids_len g0 kids St w) as Lk. rewrite E1, app_length in Lk.
  destruct (update_fpc_ok (set_vflags g0 (vflags g)) kids w v (st_kids _ _ St) Hw (S (S (Z.to_nat N))) g b stk l1 l2 H E1 E2 ltac:(lia)) as (g' & m1 & m2 & W1 & H1 & M1 & M2 & M3).
  cbn [set_vflags gN gVI] in M2, M3.
  assert (H1' : rpv g' (setfp b (upd (fpc b) w (hd NIL m2))) stk) by (apply (rpv_any g0 (vflags g)); exact H1).
  exists g', (upd (fpc b) w (hd NIL m2)). split; [exact W1|]. split; [exact H1'|].
  assert (Aa : forall c, act s c -> adj (eV b) (c + N) <> []). { intros c Ac. rewrite Z.add_comm. apply Ha in Ac. apply Ac. }
  assert (K : forall c, In c (l1 ++ m1) -> ~ act s c \/ v <= viLow (gVI g0) c).
  { intros c Hc. apply in_app_iff in Hc. destruct Hc as [Hc|Hc]; [auto|]. destruct (M2 c Hc) as [Q|Q]; [auto|]. left. intros A. now apply (Aa c A). }
  split; [|split].
  - intros w' Hw'. unfold upd. destruct (Z.eqb_spec w' w) as [->|]; [|now apply Fo]. exists (l1 ++ m1), m2. split; [rewrite <- app_assoc, <- M1; auto|]. auto.
  - exact (update_fpc_vflags _ _ _ _ _ W1).
  - pose proof (rpv_N g0 _ _ _ H1') as KN. unfold GeoP.prim in Hw. unfold FUTUREPERTINENT, gp_GetVertexLeastAncestor. rewrite vi_ok by lia. cbn [bind].
    rewrite (k_least _ _ (r_keeps _ _ _ _ H1')). cbn [set_vflags gVI]. unfold futp. destruct (Z.ltb_spec (viLeast (gVI g0) w) v) as [Lt|Ge]; [exists true; tauto|].
    unfold gp_GetVertexFuturePertinentChild. rewrite vi_ok by lia. cbn [bind]. rewrite (r_fpc _ _ _ _ H1'). cbn [setfp fpc]. rewrite upd_same.
    assert (Kd : forall c, In c (kids w) -> prim c /\ p c = w) by (intros c Hc; apply (st_kid _ _ St) in Hc; tauto).
    destruct m2 as [|y m2]; cbn [hd] in *.
    + rewrite Z.eqb_refl. exists false. split; [reflexivity|]. split; [discriminate|]. intros [Q|(c & C1 & C2 & C3)]; [lia|]. exfalso. rewrite app_nil_r in M1. subst m1.
      destruct (K c); [|contradiction|lia]. rewrite <- E1. apply (st_kid _ _ St). destruct C1 as (A1 & A2 & A3). split; [auto|]. split; [|auto]. unfold GeoP.prim. lia.
    + assert (Hy : In y (kids w)) by (rewrite E1, M1, !in_app_iff; right; right; now left). destruct (Kd y Hy) as [Py Ey]. unfold GeoP.prim in Py. rewrite eqb_false_neq by (unfold NIL; lia).
      unfold gp_GetVertexLowpoint. rewrite vi_ok by lia. cbn [bind]. rewrite (k_low _ _ (r_keeps _ _ _ _ H1')). cbn [set_vflags gVI]. destruct M3 as [M3|[M3 M4]]; [discriminate|]. exists true. split; [f_equal; lia|]. split; [|auto]. intros _. right. exists y.
      split; [|auto]. apply Ha. split; [exact Py|]. split; [rewrite Ey; unfold NIL; lia|]. now rewrite Z.add_comm.
Qed.

Variable pt : Z -> bool.
Hypothesis Hpt : forall y, In y L -> pt y = negb (pe a y =? NIL) || negb (isnil (prl a y)).
Hypothesis Hpr : forall y e, In y L -> In e (prl a y) -> prim e.

Section Walks.
Variables (D : Z -> bool) (b : est).
Hypothesis Tu : turned a D b.
Hypothesis DT : forall x, In x (vsof s R) -> D x = true.
Lemma pert_K g f F stk z : rpv g (setfl (setfp b f) F) stk -> In z L -> PERTINENT g z = Ret (pt z).
Proof.
  intros H Hz. destruct K_facts as (_ & P). destruct (P z Hz) as (P1 & _). rewrite (pert_rpv g0 g _ _ z H P1); cbn [setfl setfp set_V prl pe]; rewrite (tu_prl _ _ _ Tu); [|intros e; now apply Hpr]. now rewrite (tu_pe _ _ _ Tu), Hpt.
Qed.
Lemma fa_loop link x stk F : pt x = true \/ fp x = true -> In x L -> forall A m g f, rpv g (setfl (setfp b f) F) stk -> fpo f -> (forall f, walk g0 (setfp b f) link (A ++ [x])) -> incl A L ->
  (forall y, In y A -> pt y = false /\ fp y = false) -> (length A < m)%nat ->
  exists g' f', find_active_loop m g v (hd NIL (A ++ [x])) link = Ret (g', x) /\ rpv g' (setfl (setfp b f') F) stk /\ fpo f' /\ vflags g' = vflags g.
Proof.
  intros Hx Ix. induction A as [|y A IH]; intros m g f H Fo Wk IA HA Hm; (destruct m as [|m]; [cbn [length] in *; lia|]); cbn [app hd find_active_loop].
  - destruct K_facts as (_ & P). destruct (P x Ix) as (P1 & _). destruct (fpc_rpv g _ stk x H (Kt_act D b Tu) Fo P1) as (g' & f' & E & H' & Fo' & V & r & Er & Hr). rewrite E. cbn [bind]. exists g', f'.
    assert (Hrf : r = fp x) by (apply eq_true_iff_eq; rewrite Hr; symmetry; now apply Hfp). unfold INACTIVE. rewrite (pert_K g' f' F stk x H' Ix). cbn [bind]. rewrite Er, Hrf.
    split; [destruct Hx as [-> | ->]; cbn [bind negb]; [reflexivity|destruct (pt x); reflexivity]|]. auto.
  - destruct K_facts as (_ & P). assert (Iy : In y L) by (apply IA; now left). destruct (P y Iy) as (P1 & _). destruct (fpc_rpv g _ stk y H (Kt_act D b Tu) Fo P1) as (g' & f' & E & H' & Fo' & V & r & Er & Hr). rewrite E. cbn [bind].
    assert (Hrf : r = fp y) by (apply eq_true_iff_eq; rewrite Hr; symmetry; now apply Hfp). destruct (HA y (or_introl eq_refl)) as [A1 A2]. unfold INACTIVE. rewrite (pert_K g' f' F stk y H' Iy). cbn [bind]. rewrite A1, Er, Hrf, A2. cbn [bind negb].
    assert (Nx : nxt g0 (setfp b f') link y (hd NIL (A ++ [x]))) by (specialize (Wk f'); destruct A as [|z A]; cbn [app walk] in Wk; apply Wk). rewrite (Nx g' F stk H'). cbn [bind].
    destruct (IH m g' f' H' Fo') as (g2 & f2 & E2 & H2 & Fo2 & V2).
    + intros f0. specialize (Wk f0). apply (walk_r g0 _ link [y]) in Wk. exact Wk.
    + intros z Hz. apply IA. now right.
    + intros z Hz. apply HA. now right.
    + cbn [length] in Hm. lia.
    + exists g2, f2. rewrite E2. split; [reflexivity|]. split; [auto|]. split; [auto|]. congruence.
Qed.
End Walks.

(** ** The types *)
Lemma set_types_hi b link hi low X W stk F : Z.land low VERTEX_VISITED_MASK = 0 -> Z.land low VERTEX_OBSTRUCTIONTYPE_MASK = low -> Z.land hi VERTEX_VISITED_MASK = 0 -> Z.land hi VERTEX_OBSTRUCTIONTYPE_MASK = hi ->
  forall A l m g, rpv g (setfl b F) stk -> vis0 g0 g -> walk g0 b link (A ++ X :: l ++ [W]) -> NoDup (A ++ X :: l ++ [W]) ->
  (forall x, In x (A ++ X :: l) -> 1 <= x <= 2 * N) -> (length A + length l + 2 <= m)%nat ->
  exists g', set_types_loop m g low X W (hd NIL (A ++ [X])) link hi = Ret g' /\ rpv g' (setfl b F) stk /\ vis0 g0 g' /\
    (forall x, In x A -> vtype g' x = hi) /\ (forall x, In x (X :: l) -> vtype g' x = low) /\ (forall x, ~ In x (A ++ X :: l) -> vtype g' x = vtype g x).
Proof.
  intros T1 T2 T3 T4. induction A as [|z A IH]; intros l m g H V0 Wk Nd Hr Hm.
  - cbn [app hd length] in *. assert (NW : ~ In W (X :: l)). { change (X :: l ++ [W]) with ((X :: l) ++ [W]) in Nd. intros Q. apply (NoDup_app_disj _ _ W Nd Q). now left. }
    destruct (set_types_ok g0 b link low X W stk F T1 T2 l X m g hi H V0 Wk NW (or_introl eq_refl) Hr ltac:(lia)) as (g' & E & H' & V' & Ty). exists g'. split; [exact E|]. split; [auto|]. split; [auto|]. split; [intros x []|].
    split; intros x Hx; rewrite Ty; destruct (in_dec Z.eq_dec x (X :: l)); tauto.
  - cbn [app hd length] in *. destruct m as [|m]; [lia|]. cbn [set_types_loop]. apply NoDup_cons_iff in Nd. destruct Nd as [Nz Nd].
    assert (In X (A ++ X :: l ++ [W]) /\ In W (A ++ X :: l ++ [W])) as [IX IW] by (split; apply in_app_iff; right; [now left|right; apply in_app_iff; right; now left]).
    rewrite eqb_false_neq by (intros ->; contradiction). rewrite (eqb_false_neq z X) by (intros ->; contradiction).
    destruct (reset_type g0 b g F stk z hi H (Hr z (or_introl eq_refl)) T3 T4 V0) as (g1 & E1 & H1 & V1 & Ty1). rewrite E1. cbn [bind].
    assert (Nx : nxt g0 b link z (hd NIL (A ++ [X]))) by (destruct A as [|y A]; cbn [app walk] in Wk; apply Wk). rewrite (Nx g1 F stk H1). cbn [bind].
    destruct (IH l m g1 H1 V1) as (g' & E' & H' & V' & A1 & A2 & A3); auto.
    + apply (walk_r g0 b link [z]) in Wk. exact Wk.
    + intros z0 Hz0. apply Hr. now right.
    + lia.
    + assert (Nz' : ~ In z (A ++ X :: l)). { intros Q. apply Nz. rewrite in_app_iff in *. cbn [In] in *. rewrite in_app_iff. tauto. }
      exists g'. split; [exact E'|]. split; [auto|]. split; [auto|]. split; [|split; [exact A2|]].
      * intros x [<-|Hx]; [|auto]. rewrite (A3 z Nz'), Ty1, Z.eqb_refl. reflexivity.
      * intros x Hx. rewrite A3 by (intros Q; apply Hx; now right). rewrite Ty1, eqb_false_neq; [reflexivity|]. intros ->. apply Hx. now left.
Qed.

Variables (x w y : Z) (A0 A1 A2 A3 : list Z).
Hypothesis EL : L = A0 ++ x :: A1 ++ w :: A2 ++ y :: A3.
Hypothesis I03 : forall z, In z (A0 ++ A3) -> pt z = false /\ fp z = false.
Hypothesis Hx : fp x = true.
Hypothesis Hy : fp y = true.
Hypothesis I1 : forall z, In z A1 -> pt z = false.
Hypothesis Pw : pt w = true.
Hypothesis Oz : o s R = false.
Hypothesis Fo : fpo (fpc a).

(** The context found by the isolator. *)
Record kctx (g : graph) (b : est) (f : Z -> Z) (D : Z -> bool) (F : Z -> Z) (stk0 : list Z) : Prop := {
  kx_rp : rpv g (setfl (setfp b f) F) stk0; kx_turn : turned a D b; kx_D : forall y, In y (vsof s R) -> D y = true; kx_fpo : fpo f;
  kx_mark : marked (fl s) F []; kx_vis : vis0 g0 g; kx_hx : forall z, In z A0 -> vtype g z = OBS_HIGH_RXW;
  kx_lx : forall z, In z (x :: A1) -> vtype g z = OBS_LOW_RXW; kx_ly : forall z, In z (A2 ++ [y]) -> vtype g z = OBS_LOW_RYW; kx_hy : forall z, In z A3 -> vtype g z = OBS_HIGH_RYW;
  kx_0 : forall z, In z (vsof s R) -> ~ In z (A0 ++ x :: A1) -> ~ In z (A2 ++ y :: A3) -> vtype g z = 0 }.

Lemma K_mem : mem N s R <> [].
Proof.
  assert (Ix : In x L) by (rewrite EL, in_app_iff; right; now left). intros Q. assert (H : In x (vsof s R)) by (apply K_vs; now right). unfold GeoP.vsof in H. rewrite Q in H. destruct H as [H|[]].
  destruct (proj2 K_facts x Ix) as (P1 & _). destruct Ad as [Q0 _]. unfold GeoP.prim in *. lia.
Qed.

Lemma kinit_ok g F stk stk0 R0 : rpv g (setfl a F) stk -> marked (fl s) F [] -> vis0 g0 g ->
  (forall e, Z.land (F e) EDGEFLAG_INVERTED_MASK = Z.land (fl s e) EDGEFLAG_INVERTED_MASK) ->
  (stk = [] /\ stk0 = [] /\ R0 = R) \/ (exists y, stk = y :: R :: stk0) -> Z.of_nat (length stk0) + 2 * Z.of_nat (length (mem N s R)) <= gstackCap g0 ->
  exists g' b f D F', _InitializeNonplanarityContextK g v R0 = Ret (g', C_OK, (R, x, y, w)) /\ kctx g' b f D F' stk0.
Proof.
  intros H Mk V0 Iv Hs Cap. destruct K_facts as (Nd & P). pose proof KR as HR. pose proof K_mem as NMe. pose proof (proj2 (proj2 Ad)) as NA.
  unfold _InitializeNonplanarityContextK.
  assert (exists g1, (if stk_empty g then Ret (g, R0) else '(g, R, _) <- stk_pop2 g ;; Ret (g, R)) = Ret (g1, R) /\ rpv g1 (setfl a F) stk0 /\ vis0 g0 g1) as (g1 & E1 & H1 & V1).
  { unfold stk_empty. rewrite (r_stack _ _ _ _ H). destruct Hs as [(-> & -> & ->)|(y' & ->)]; [exists g; auto|].
    rewrite (DFSP.pop2_ok g R y' stk0) by (apply (r_stack _ _ _ _ H)). cbn [bind]. exists (set_gstack g stk0). split; [reflexivity|]. split; [|exact V0]. exact (rp_stack _ _ _ _ stk0 H). }
  rewrite E1. cbn [bind]. clear E1.
  destruct (orient_pres g0 kids St a G R HR NA stk0 Cap NMe g1 F H1 Mk V1 Iv Oz) as (g2 & b & D & E2 & H2 & Tu & DT & _ & V2). rewrite E2. cbn [bind]. clear E2.
  pose proof (Kt_same D b Tu) as Sm. pose proof (Kt_rims D b Tu DT) as PR.
  destruct (clear_vis_ok g0 kids St a G R HR NA stk0 Cap NMe g2 b F H2 Sm (tu_nb _ _ _ Tu) Mk V2) as (g3 & F3 & E3 & H3 & Mk3 & V3). rewrite E3. cbn [bind]. clear E3.
  assert (Wf : forall f, walk g0 (setfp b f) 1 (R :: A0 ++ x :: A1 ++ w :: A2 ++ y :: A3 ++ [R])).
  { intros f. pose proof (walk_fwd g0 (setfp b f) R L K_rng PR) as Q. rewrite EL in Q. repeat (rewrite <- ?app_assoc in Q; cbn [app] in Q). exact Q. }
  assert (Wb : forall f, walk g0 (setfp b f) 0 (R :: rev A3 ++ y :: rev A2 ++ w :: rev A1 ++ x :: rev A0 ++ [R])).
  { intros f. pose proof (walk_bwd g0 (setfp b f) R L K_rng PR) as Q. rewrite EL in Q. repeat (rewrite ?rev_app_distr in Q; cbn [rev] in Q). repeat (rewrite <- ?app_assoc in Q; cbn [app] in Q). exact Q. }
  assert (IL : forall z, In z (A0 ++ x :: A1 ++ w :: A2 ++ y :: A3) -> In z L) by (intros z; rewrite EL; auto).
  assert (Ix : In x L) by (apply IL; rewrite in_app_iff; right; now left). assert (Iw : In w L) by (apply IL; rewrite in_app_iff; right; right; rewrite in_app_iff; right; now left).
  assert (Iy : In y L) by (apply IL; rewrite in_app_iff; right; right; rewrite in_app_iff; right; right; rewrite in_app_iff; right; now left).
  assert (LenL : (length A0 + length A1 + length A2 + length A3 + 3 <= Z.to_nat N)%nat). { pose proof K_len as Q. rewrite EL in Q. repeat (cbn [length] in Q; rewrite ?app_length in Q). lia. }
  assert (LN : (Z.to_nat N <= Z.to_nat (2 * N))%nat) by (destruct Ad as [A _]; unfold GeoP.prim in A; lia).
  unfold _FindActiveVerticesK.
  assert (Nf : forall f, nxt g0 (setfp b f) 1 R (hd NIL (A0 ++ [x]))) by (intros f; specialize (Wf f); destruct A0; cbn [app walk] in Wf; apply Wf).
  assert (Nb : forall f, nxt g0 (setfp b f) 0 R (hd NIL (rev A3 ++ [y]))) by (intros f; specialize (Wb f); destruct (rev A3); cbn [app walk] in Wb; apply Wb).
  assert (H3f : rpv g3 (setfl (setfp b (fpc b)) F3) stk0) by exact H3. assert (Fob : fpo (fpc b)) by (rewrite (tu_fpc _ _ _ Tu); exact Fo).
  rewrite (Nf _ g3 F3 stk0 H3f). cbn [bind]. rewrite (Nb _ g3 F3 stk0 H3f). cbn [bind].
  assert (Wx : forall f, walk g0 (setfp b f) 1 (A0 ++ [x])).
  { intros f. specialize (Wf f). apply (walk_r g0 _ 1 [R]) in Wf. replace (A0 ++ x :: A1 ++ w :: A2 ++ y :: A3 ++ [R]) with ((A0 ++ [x]) ++ A1 ++ w :: A2 ++ y :: A3 ++ [R]) in Wf by (rewrite <- app_assoc; reflexivity). now apply walk_l in Wf. }
  assert (Wy : forall f, walk g0 (setfp b f) 0 (rev A3 ++ [y])).
  { intros f. specialize (Wb f). apply (walk_r g0 _ 0 [R]) in Wb. replace (rev A3 ++ y :: rev A2 ++ w :: rev A1 ++ x :: rev A0 ++ [R]) with ((rev A3 ++ [y]) ++ rev A2 ++ w :: rev A1 ++ x :: rev A0 ++ [R]) in Wb by (rewrite <- app_assoc; reflexivity). now apply walk_l in Wb. }
  rewrite (rpv_N g0 _ _ _ H3).
  destruct (fa_loop D b Tu 1 x stk0 F3 (or_intror Hx) Ix A0 (S (S (Z.to_nat (2 * N)))) g3 (fpc b) H3f Fob Wx) as (g4 & f4 & E4 & H4 & Fo4 & Vf4).
  { intros z Hz. apply IL, in_app_iff. now left. } { intros z Hz. apply I03, in_app_iff. now left. } { lia. }
  rewrite E4. cbn [bind]. clear E4. rewrite (rpv_N g0 _ _ _ H4).
  destruct (fa_loop D b Tu 0 y stk0 F3 (or_intror Hy) Iy (rev A3) (S (S (Z.to_nat (2 * N)))) g4 f4 H4 Fo4 Wy) as (g5 & f5 & E5 & H5 & Fo5 & Vf5).
  { intros z Hz. apply in_rev in Hz. apply IL. rewrite in_app_iff. right. right. rewrite in_app_iff. right. right. rewrite in_app_iff. right. now right. } { intros z Hz. apply I03, in_app_iff. right. now apply in_rev. } { rewrite rev_length. lia. }
  rewrite E5. cbn [bind]. clear E5. assert (V5 : vis0 g0 g5) by (intros z Hz; rewrite Vf5, Vf4; now apply V3).
  assert (Nd' : NoDup (R :: A0 ++ x :: A1 ++ w :: A2 ++ y :: A3)) by (rewrite <- EL; exact Nd).
  unfold _FindPertinentVertex. rewrite (rpv_N g0 _ _ _ H5).
  assert (Nd1 : NoDup (x :: A1 ++ w :: A2 ++ y :: A3)) by (apply NoDup_cons_iff in Nd'; destruct Nd' as [_ Q]; now apply NoDup_app_r in Q).
  apply NoDup_cons_iff in Nd1. destruct Nd1 as [Nx1 Nd1]. assert (Nxw : x <> w) by (intros ->; apply Nx1, in_app_iff; right; now left).
  assert (Nd2 : NoDup (w :: A2 ++ y :: A3)) by (now apply NoDup_app_r in Nd1). assert (Nwy : w <> y) by (intros ->; apply NoDup_cons_iff in Nd2; apply Nd2; apply in_app_iff; right; now left).
  assert (Ny1 : ~ In y A1). { intros Q. apply (NoDup_app_disj _ _ y Nd1 Q). right. apply in_app_iff. right. now left. }
  rewrite (find_pert_ok g0 (setfp b f5) L g5 F3 stk0 y w pt H5) with (K := A1); auto.
  2:{ intros z Hz. apply (pert_K D b Tu g5 f5 F3 stk0 z H5 Hz). }
  2:{ specialize (Wf f5). apply (walk_r g0 _ 1 (R :: A0)) in Wf. replace (x :: A1 ++ w :: A2 ++ y :: A3 ++ [R]) with ((x :: A1 ++ [w]) ++ A2 ++ y :: A3 ++ [R]) in Wf by (cbn [app]; rewrite <- app_assoc; reflexivity). now apply walk_l in Wf. }
  2:{ intros Q. apply in_app_iff in Q. destruct Q as [Q|[Q|[]]]; [auto|congruence]. }
  2:{ intros z Hz. apply IL, in_app_iff. right. right. apply in_app_iff. now left. }
  2:{ lia. }
  cbn [bind]. unfold _SetVertexTypesForMarkingXYPath.
  assert (Pz : forall z, In z L -> z <> NIL) by (intros z Hz; destruct (P z Hz) as [Q _]; unfold GeoP.prim, NIL in *; lia).
  assert (Nn : (R =? NIL) || (x =? NIL) || (y =? NIL) || (w =? NIL) = false).
  { rewrite !eqb_false_neq; [reflexivity|..]; try (now apply Pz). unfold GeoP.isroot, NIL in *. lia. }
  rewrite Nn.
  destruct (clear_type_ok g0 kids St a G R HR NA stk0 Cap NMe g5 (setfp b f5) F3 H5 Sm (tu_nb _ _ _ Tu) Mk3 V5) as (g6 & F6 & E6 & H6 & Mk6 & V6 & T6). rewrite E6. cbn [bind]. clear E6.
  rewrite (Nf _ g6 F6 stk0 H6). cbn [bind]. rewrite (rpv_N g0 _ _ _ H6).
  destruct (set_types_hi (setfp b f5) 1 OBS_HIGH_RXW OBS_LOW_RXW x w stk0 F6 eq_refl eq_refl eq_refl eq_refl A0 A1 (S (S (Z.to_nat (2 * N)))) g6 H6 V6) as (g7 & E7 & H7 & V7 & T7a & T7b & T7c).
  { specialize (Wf f5). apply (walk_r g0 _ 1 [R]) in Wf. replace (A0 ++ x :: A1 ++ w :: A2 ++ y :: A3 ++ [R]) with ((A0 ++ x :: A1 ++ [w]) ++ A2 ++ y :: A3 ++ [R]) in Wf by (rewrite <- app_assoc; cbn [app]; rewrite <- app_assoc; reflexivity). now apply walk_l in Wf. }
  { apply NoDup_cons_iff in Nd'. destruct Nd' as [_ Q]. replace (A0 ++ x :: A1 ++ w :: A2 ++ y :: A3) with ((A0 ++ x :: A1 ++ [w]) ++ A2 ++ y :: A3) in Q by (rewrite <- app_assoc; cbn [app]; rewrite <- app_assoc; reflexivity). now apply NoDup_app_l in Q. }
  { intros z Hz. apply K_rng. right. apply IL. rewrite in_app_iff in *. cbn [In] in *. rewrite in_app_iff. tauto. }
  { lia. }
  rewrite E7. cbn [bind]. clear E7. rewrite (Nb _ g7 F6 stk0 H7). cbn [bind]. rewrite (rpv_N g0 _ _ _ H7).
  assert (NdR : NoDup (rev A3 ++ y :: rev A2 ++ [w])).
  { pose proof (NoDup_rev Nd2) as Q. cbn [rev] in Q. rewrite rev_app_distr in Q. cbn [rev] in Q. repeat (rewrite <- ?app_assoc in Q; cbn [app] in Q). exact Q. }
  destruct (set_types_hi (setfp b f5) 0 OBS_HIGH_RYW OBS_LOW_RYW y w stk0 F6 eq_refl eq_refl eq_refl eq_refl (rev A3) (rev A2) (S (S (Z.to_nat (2 * N)))) g7 H7 V7) as (g8 & E8 & H8 & V8 & T8a & T8b & T8c).
  { specialize (Wb f5). apply (walk_r g0 _ 0 [R]) in Wb. replace (rev A3 ++ y :: rev A2 ++ w :: rev A1 ++ x :: rev A0 ++ [R]) with ((rev A3 ++ y :: rev A2 ++ [w]) ++ rev A1 ++ x :: rev A0 ++ [R]) in Wb by (rewrite <- app_assoc; cbn [app]; rewrite <- app_assoc; reflexivity). now apply walk_l in Wb. }
  { exact NdR. }
  { intros z Hz. apply K_rng. right. apply IL. repeat (rewrite in_app_iff in *; cbn [In] in *). rewrite <- !in_rev in Hz. tauto. }
  { rewrite !rev_length. lia. }
  rewrite E8. cbn [bind]. exists g8, b, f5, D, F6. split; [reflexivity|].
  assert (E2 : forall z, In z (rev A3 ++ y :: rev A2) <-> In z (A2 ++ y :: A3)) by (intros z; repeat (rewrite in_app_iff; cbn [In]); rewrite <- !in_rev; tauto).
  assert (Dj : forall z, In z (A0 ++ x :: A1) -> ~ In z (A2 ++ y :: A3)).
  { intros z Z1 Z2. apply NoDup_cons_iff in Nd'. destruct Nd' as [_ Q]. replace (A0 ++ x :: A1 ++ w :: A2 ++ y :: A3) with ((A0 ++ x :: A1) ++ w :: A2 ++ y :: A3) in Q by (rewrite <- app_assoc; reflexivity). apply (NoDup_app_disj _ _ z Q Z1). now right. }
  constructor; auto.
  - intros z Hz. rewrite T8c; [now apply T7a|]. rewrite E2. apply Dj, in_app_iff. now left.
  - intros z Hz. rewrite T8c; [now apply T7b|]. rewrite E2. apply Dj, in_app_iff. now right.
  - intros z Hz. apply T8b. apply in_app_iff in Hz. destruct Hz as [Hz|[<-|[]]]; [right; now apply in_rev in Hz|now left].
  - intros z Hz. apply T8a. now apply in_rev in Hz.
  - intros z Hv Z1 Z2. rewrite T8c by now rewrite E2. rewrite T7c by auto. now apply T6.
Qed.
End KInit.
