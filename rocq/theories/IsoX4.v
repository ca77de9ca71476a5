(** * IsoX4: finding an unembedded edge from the current vertex into a subtree. *)
From Coq Require Import ZifyBool Permutation Sorted.
From Verif Require Import Base BaseP GraphRec GraphM GraphSpec GSimp LinkP GraphP GraphP2 GraphP3 ListM ListSpec ListP DFSM DFSSpec DFSP TestM TestP EmbM EmbSpec EmbP EmbP2 FaceP GeoP EmbInv EmbStep EmbTree EmbWalk EmbDown EmbDown3 FanP IsoM IsoP1 IsoP3 IsoO2.

Section Sub.
Variables (g0 : graph) (kids : Z -> list Z).
Hypothesis St : static g0 kids.
Local Notation N := (gN g0).
Local Notation p := (viParent (gVI g0)).
Local Notation prim := (prim (gN g0)).
Local Notation anc := (ancestor (viParent (gVI g0))).
Local Notation rpv := (rpv g0).

(** Two descendants of one vertex: one is above the other, or they are below different siblings. *)
Lemma branch v d y : prim d -> prim y -> prim v -> anc v d -> anc v y -> anc d y \/ anc y d \/ exists c1 c2, prim c1 /\ prim c2 /\ p c1 = p c2 /\ p c1 <> NIL /\ c1 <> c2 /\ anc c1 d /\ anc c2 y.
Proof.
  intros Hd Hy Hv Ad Ay. revert Hy. induction Ay as [|y Hn Ay IH]; intros Hy; [auto|]. destruct (st_p _ _ St y Hy Hn) as [Hpy _]. destruct (IH Hpy) as [Q|[Q|(c1 & c2 & P1 & P2 & P3 & P4 & P5 & P6 & P7)]].
  - left. now apply anc_step.
  - destruct (Z.eq_dec (p y) d) as [E|Ne]; [left; rewrite <- E; apply anc_step; [auto|constructor]|]. destruct (via_of g0 kids St _ _ Hd Hpy Q Ne) as (c1 & C1 & C2 & C3 & C4 & C5).
    destruct (Z.eq_dec c1 y) as [->|Ne2]; [auto|]. right. right. exists c1, y. split; [auto|]. split; [auto|]. split; [auto|]. split; [now rewrite C2|]. split; [auto|]. split; [auto|constructor].
  - right. right. exists c1, c2. repeat (split; [auto|]). now apply anc_step.
Qed.
Lemma interval v d y z : prim d -> prim y -> prim v -> prim z -> anc v d -> anc v y -> anc d z -> d <= y <= z -> anc d y.
Proof.
  intros Hd Hy Hv Hz Ad Ay Az I. destruct (branch v d y Hd Hy Hv Ad Ay) as [Q|[Q|(c1 & c2 & P1 & P2 & P3 & P4 & P5 & P6 & P7)]]; [auto|..].
  - pose proof (anc_le _ _ St _ _ Hd Q). assert (y = d) by lia. subst. constructor.
  - exfalso. assert (A1 : anc c1 z) by (eapply anc_trans; eauto). destruct (Z.lt_trichotomy c1 c2) as [Lt|[E|Lt]]; [|congruence|].
    + pose proof (st_sub _ _ St c1 c2 z P1 P2 P3 P4 Lt Hz A1). pose proof (anc_le _ _ St _ _ Hy P7). lia.
    + pose proof (st_sub _ _ St c2 c1 y P2 P1 (eq_sym P3) ltac:(congruence) Lt Hy P7). pose proof (anc_le _ _ St _ _ Hd P6). lia.
Qed.

Lemma least_ok g a stk u root : rpv g a stk -> 1 <= u <= N -> (forall f, In f (fw a u) -> nb (eV a) f <> NIL) -> forall l l0 n d, fw a u = l0 ++ l -> (length l < n)%nat ->
  exists d', least_desc_loop n g u root (hd NIL l) d = Ret d' /\ (d' = d \/ exists x, In x l /\ nb (eV a) x = d' /\ root <= d') /\
    (d <> NIL -> d' <= d /\ d' <> NIL) /\ (forall x, In x l -> root <= nb (eV a) x -> d' <> NIL /\ d' <= nb (eV a) x).
Proof.
  intros H Hu Hnb. pose proof (rpv_N g0 _ _ _ H) as KN. induction l as [|y l IH]; intros l0 n d El Hn; (destruct n as [|n]; [cbn [length] in Hn; lia|]); cbn [least_desc_loop hd].
  - exists d. split; [reflexivity|]. split; [auto|]. split; [intros; split; [lia|auto]|intros x []].
  - assert (Hy : In y (fw a u)) by (rewrite El; apply in_app_iff; right; now left). pose proof (r_fwrange _ _ _ _ H u y Hy) as Ry.
    rewrite eqb_false_neq by (unfold NIL; lia). rewrite get_nbr by (apply inE_true; lia). cbn [bind]. rewrite (r_nb _ _ _ _ H). set (w := nb (eV a) y).
    rewrite get_next by (apply inE_true; lia). cbn [bind]. unfold gp_GetVertexFwdArcList. rewrite vi_ok by lia. cbn [bind]. rewrite (r_fwhd _ _ _ _ H u ltac:(lia)).
    pose proof (r_ring _ _ _ _ H u) as R. rewrite El in R. destruct (ring_at _ _ _ _ _ R) as [-> _]. rewrite <- El in R. pose proof (r_fwnd _ _ _ _ H u) as Nd.
    assert (E : (if hd (hd NIL (l0 ++ y :: l)) l =? hd NIL (fw a u) then NIL else hd (hd NIL (l0 ++ y :: l)) l) = hd NIL l).
    { destruct l as [|z l]; cbn [hd].
      - rewrite El, Z.eqb_refl. reflexivity.
      - destruct (Z.eqb_spec z (hd NIL (fw a u))) as [Q2|]; [|reflexivity]. exfalso. rewrite El in Nd, Q2. destruct l0 as [|q l0]; cbn [app hd] in *.
        + subst z. inversion Nd. apply H2. now left.
        + subst z. inversion Nd. apply H2. apply in_app_iff. right. right. now left. }
    rewrite E. set (d1 := if root <=? w then if (d =? NIL) || (w <? d) then w else d else d).
    assert (Hw : w <> NIL) by (apply Hnb; auto).
    destruct (IH (l0 ++ [y]) n d1) as (d' & W & D1 & D2 & D3); [rewrite El, <- app_assoc; auto|cbn [length] in Hn; lia|]. exists d'. split; [exact W|].
    assert (Cs : d1 = d \/ d1 = w /\ root <= w) by (unfold d1; destruct (Z.leb_spec root w); [|auto]; destruct ((d =? NIL) || (w <? d)); auto).
    assert (C2 : root <= w -> d1 <> NIL /\ d1 <= w).
    { intros Q. unfold d1. replace (root <=? w) with true by lia. destruct (Z.eqb_spec d NIL) as [->|]; cbn [orb]; [split; [auto|lia]|]. destruct (Z.ltb_spec w d); split; auto; lia. }
    assert (C3 : d <> NIL -> d1 <= d /\ d1 <> NIL).
    { intros Q. unfold d1. destruct (root <=? w); [|split; [lia|auto]]. rewrite eqb_false_neq by auto. cbn [orb]. destruct (Z.ltb_spec w d); split; auto; lia. }
    split; [|split].
    + destruct D1 as [->|(x & X1 & X2 & X3)]; [destruct Cs as [->|[-> Q]]; [auto|right; exists y; split; [now left|auto]]|right; exists x; split; [now right|auto]].
    + intros Q. destruct (C3 Q) as [C4 C5]. destruct (D2 C5). split; [lia|auto].
    + intros x [<-|Hx] Q; [|now apply D3]. destruct (C2 Q) as [C4 C5]. destruct (D2 C4). split; [auto|]. fold w. lia.
Qed.
Lemma descends_ok g a stk root : rpv g a stk -> forall n y, prim y -> anc root y -> y < Z.of_nat n -> descends_loop n g root y = Ret true.
Proof.
  intros H. pose proof (rpv_N g0 _ _ _ H) as KN. induction n as [|n IH]; intros y Hy A Hn; [unfold GeoP.prim in *; lia|]. cbn [descends_loop]. destruct (Z.eqb_spec y root) as [->|Ne]; [reflexivity|].
  destruct (anc_up _ _ _ A (not_eq_sym Ne)) as [A1 A2]. destruct (st_p _ _ St y Hy A1) as [P1 P2]. unfold gp_GetVertexParent. unfold GeoP.prim in Hy. rewrite vi_ok by lia. cbn [bind]. rewrite (rpv_parent g0 _ _ _ H).
  rewrite !eqb_false_neq by (auto; lia). cbn [orb]. apply IH; auto. lia.
Qed.
Lemma find_subtree_ok g a stk v d : rpv g a stk -> prim v -> prim d -> anc v d -> (forall f, In f (fw a v) -> prim (nb (eV a) f) /\ anc v (nb (eV a) f)) -> (exists f, In f (fw a v) /\ anc d (nb (eV a) f)) ->
  exists f, _FindUnembeddedEdgeToSubtree g v d = Ret (Some (nb (eV a) f)) /\ In f (fw a v) /\ anc d (nb (eV a) f).
Proof.
  intros H Hv Hd Av Hf (f0 & F1 & F2). pose proof (rpv_N g0 _ _ _ H) as KN. unfold GeoP.prim in Hv, Hd. unfold _FindUnembeddedEdgeToSubtree.
  replace (gp_IsVirtualVertex g d) with false by (unfold gp_IsVirtualVertex; lia). cbv zeta. unfold gp_GetVertexFwdArcList. rewrite vi_ok by lia. cbn [bind]. rewrite (r_fwhd _ _ _ _ H v ltac:(lia)).
  destruct (least_ok g a stk v d H Hv) with (l := fw a v) (l0 := @nil Z) (n := efuel g) (d := NIL) as (d' & E & D1 & _ & D3).
  - intros f Q. destruct (Hf f Q) as [P _]. unfold GeoP.prim, NIL in *. lia.
  - reflexivity.
  - exact (fwd_len _ _ _ _ v H).
  - rewrite E. cbn [bind]. destruct (Hf f0 F1) as [P0 A0]. pose proof (anc_le _ _ St _ _ P0 F2) as L0. destruct (D3 f0 F1 L0) as [D4 D5]. rewrite eqb_false_neq by auto. destruct D1 as [D1|(f & X1 & X2 & X3)]; [congruence|].
    destruct (Hf f X1) as [P1 A1]. subst d'. assert (A : anc d (nb (eV a) f)) by (apply (interval v d _ (nb (eV a) f0)); auto; lia).
    rewrite (descends_ok g a stk d H) by (auto; unfold GeoP.prim in P1; lia). cbn [bind]. exists f. auto.
Qed.
Lemma roots_hd_rpv g a stk w : rpv g a stk -> prim w -> gp_GetVertexPertinentRootsList g w = Ret (hd NIL (prl a w)).
Proof. intros H Hw. exact (roots_head _ _ _ _ _ H Hw). Qed.
Lemma last_root_ok g a stk w : rpv g a stk -> prim w -> prl a w <> [] -> gp_GetVertexLastPertinentRootChild g w = Ret (last (prl a w) NIL).
Proof.
  intros H Hw Nn. unfold gp_GetVertexLastPertinentRootChild. rewrite (roots_hd_rpv g a stk w H Hw). cbn [bind]. unfold mLCGetPrev. rewrite Z.eqb_refl.
  destruct (prl a w) as [|h t] eqn:E; [congruence|]. cbn [hd]. destruct (holds_cons _ _ w h t (r_prl _ _ _ _ H) E) as (_ & m & q & Em & Hq & _ & Rh & _). cbn [cl_c] in *. rewrite rd_prev_ok by lia. rewrite Hq, Em. now rewrite last_snoc.
Qed.
Lemma pert_rpv g a stk w : rpv g a stk -> prim w -> (forall d, In d (prl a w) -> prim d) -> PERTINENT g w = Ret (negb (pe a w =? NIL) || negb (isnil (prl a w))).
Proof.
  intros H Hw Hd. pose proof (rpv_N g0 _ _ _ H) as KN. unfold PERTINENT, gp_GetVertexPertinentEdge. pose proof Hw as Hw'. unfold GeoP.prim in Hw'. rewrite vi_ok by lia. cbn [bind].
  rewrite (r_pe _ _ _ _ H). destruct (pe a w =? NIL); cbn [negb orb]; [|reflexivity]. rewrite (roots_hd_rpv g a stk w H Hw). cbn [bind]. now rewrite (roots_hd g0).
Qed.
(** The edge found for a pertinent vertex. *)
Lemma find_cur_ok g a stk v w : rpv g a stk -> prim v -> prim w -> anc v w -> (forall f, In f (fw a v) -> prim (nb (eV a) f) /\ anc v (nb (eV a) f)) ->
  (pe a w <> NIL -> In (pe a w) (fw a v) /\ nb (eV a) (pe a w) = w) -> (forall d, In d (prl a w) -> prim d /\ p d = w /\ exists f, In f (fw a v) /\ anc d (nb (eV a) f)) ->
  (pe a w <> NIL \/ prl a w <> []) ->
  exists f, _FindUnembeddedEdgeToCurVertex g v w = Ret (Some (nb (eV a) f)) /\ In f (fw a v) /\ anc w (nb (eV a) f) /\ (pe a w <> NIL -> nb (eV a) f = w) /\ (nb (eV a) f = w \/ exists d, In d (prl a w) /\ anc d (nb (eV a) f)).
Proof.
  intros H Hv Hw Av Hf Hpe Hpr Hor. pose proof (rpv_N g0 _ _ _ H) as KN. unfold _FindUnembeddedEdgeToCurVertex, gp_GetVertexPertinentEdge. pose proof Hw as Hw'. unfold GeoP.prim in Hw'. rewrite vi_ok by lia. cbn [bind].
  rewrite (r_pe _ _ _ _ H). destruct (Z.eqb_spec (pe a w) NIL) as [Q|Q]; cbn [negb].
  - destruct Hor as [Hor|Hor]; [contradiction|]. rewrite (roots_hd_rpv g a stk w H Hw). cbn [bind]. destruct (prl a w) as [|h t] eqn:E; [congruence|]. cbn [hd]. destruct (Hpr h (or_introl eq_refl)) as (P1 & P2 & P3).
    assert (Aw : anc w h) by (apply anc_step; rewrite P2; [unfold GeoP.prim, NIL in *; lia|constructor]).
    destruct (find_subtree_ok g a stk v h H Hv P1) as (f & E1 & E2 & E3); auto; [now apply (anc_trans _ _ w)|]. exists f. split; [exact E1|]. split; [auto|]. split; [now apply (anc_trans _ _ h)|]. split; [congruence|]. right. exists h. split; [now left|auto].
  - destruct (Hpe Q) as [P1 P2]. exists (pe a w). rewrite P2. split; [reflexivity|]. split; [auto|]. split; [constructor|]. auto.
Qed.
End Sub.
