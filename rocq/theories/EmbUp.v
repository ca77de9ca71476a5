(** * EmbUp: the walk up records the pertinent components on every path from a descendant to v. *)
From Coq Require Import ZifyBool Permutation Sorted.
From Verif Require Import Base BaseP GraphRec GraphM GraphSpec GSimp LinkP GraphP GraphP2 ListM ListSpec ListP DFSM DFSSpec DFSP TestP EmbM EmbSpec EmbP FaceP GeoP GeoP2 EmbInv EmbStep EmbTree EmbWalk.

Section Up.
Variables (g0 : graph) (kids : Z -> list Z).
Hypothesis St : static g0 kids.
Local Notation N := (gN g0).
Local Notation p := (viParent (gVI g0)).
Local Notation prim := (prim (gN g0)).
Local Notation isroot := (isroot (gN g0)).
Local Notation geo := (geo (gN g0) (viParent (gVI g0))).
Local Notation anc := (ancestor (viParent (gVI g0))).
Local Notation via := (via g0).
Local Notation act := (act g0).
Local Notation fsim := (fsim g0).
Local Notation rp := (rp g0).
Local Notation HP := (Hp g0 kids St).
Local Notation vsof := (vsof (gN g0)).

Lemma get_en g a stk x : rp g a stk -> 1 <= x <= 2 * N -> gp_GetExtFaceVertex g x (Z.lxor 1 (b2z (negb (o (eV a) x)))) = Ret (en (eV a) x).
Proof. intros H Hx. unfold en. destruct (o (eV a) x); cbn [negb b2z]; [change (Z.lxor 1 0) with 1|change (Z.lxor 1 1) with 0]; rewrite (rp_ext_get _ _ _ _ _ _ H Hx); auto. Qed.
Lemma get_ep g a stk x : rp g a stk -> 1 <= x <= 2 * N -> gp_GetExtFaceVertex g x (Z.lxor 1 (b2z (o (eV a) x))) = Ret (ep (eV a) x).
Proof. intros H Hx. unfold ep. destruct (o (eV a) x); cbn [negb b2z]; [change (Z.lxor 1 1) with 0|change (Z.lxor 1 0) with 1]; rewrite (rp_ext_get _ _ _ _ _ _ H Hx); auto. Qed.
Lemma get_vis g a stk x : rp g a stk -> prim x -> gp_GetVertexVisitedInfo g x = Ret (vis a x).
Proof. intros H Hx. unfold GeoP.prim in Hx. pose proof (k_N _ _ (r_keeps _ _ _ _ H)). vi1. now rewrite (r_vis _ _ _ _ H). Qed.
(** The other end of a component, seen from one of them. *)
Lemma other_end g a stk R y : rp g a stk -> isroot R -> full N (eV a) R ->
  (y = hd NIL (X (eV a) R) -> (bind (gp_GetExtFaceVertex g R 0) (fun r0 => gp_GetExtFaceVertex g R (if r0 =? y then 1 else 0))) = Ret (last (X (eV a) R) NIL)) /\
  (y = last (X (eV a) R) NIL -> (bind (gp_GetExtFaceVertex g R 0) (fun r0 => gp_GetExtFaceVertex g R (if r0 =? y then 1 else 0))) = Ret (hd NIL (X (eV a) R))).
Proof.
  intros H HR F. unfold GeoP.isroot in HR. rewrite !(rp_ext_get _ _ _ _ _ _ H) by lia. cbn [bind Z.eqb].
  destruct (X_root _ _ _ F) as [En Ep]. unfold en, ep in *.
  destruct (Z.eqb_spec (e0 (eV a) R) y) as [E|E]; rewrite (rp_ext_get _ _ _ _ _ _ H) by lia; cbn [Z.eqb]; destruct (o (eV a) R); split; intros; f_equal; congruence.
Qed.

Definition up_look (a : est) (v R Zig Zag : Z) (A D : list Z) : wu_found :=
  match D with
  | [] => if vis a Zig =? v then WU_break else if vis a (hd NIL (X (eV a) R)) =? v then WU_break else WU_found R R (hd NIL (X (eV a) R))
  | d :: _ =>
    match A with
    | [] => if vis a Zag =? v then WU_break else if vis a (last (X (eV a) R) NIL) =? v then WU_break else WU_found R (last (X (eV a) R) NIL) R
    | _ => if vis a Zig =? v then WU_break else if vis a Zag =? v then WU_break else WU_found NIL d (last A NIL)
    end
  end.

Lemma ends_split {A : Type} (d0 : A) L : L <> [] -> exists L1 L2, L = hd d0 L :: L2 /\ L = L1 ++ [last L d0].
Proof. intros H. exists (removelast L), (tl L). split; [destruct L; [congruence|reflexivity]|]. now apply app_removelast_last. Qed.
Lemma look_ok g a stk v c A L D : rp g a stk -> geo NIL [] (eV a) -> act (eV a) c -> X (eV a) (N + c) = A ++ L ++ D -> L <> [] ->
  walkup_look g v (last L NIL) (hd NIL L) (b2z (negb (o (eV a) (last L NIL)))) (b2z (o (eV a) (hd NIL L))) = Ret (up_look a v (N + c) (last L NIL) (hd NIL L) A D).
Proof.
  intros H G Ac EX HL. destruct (full_of _ _ _ G Ac) as [HR F]. destruct (X_facts _ _ _ F) as (Xne & Xnd & Xin).
  pose proof (k_N _ _ (r_keeps _ _ _ _ H)) as KN.
  destruct (ends_split NIL L HL) as (L1 & L2 & E2 & E1). set (Zig := last L NIL) in *. set (Zag := hd NIL L) in *.
  assert (EZ : X (eV a) (N + c) = (A ++ L1) ++ Zig :: D) by (rewrite EX, E1, <- !app_assoc; reflexivity).
  assert (EG : X (eV a) (N + c) = A ++ Zag :: (L2 ++ D)) by (rewrite EX, E2 at 1; reflexivity).
  assert (PZ : prim Zig) by (apply Xin; rewrite EZ; apply in_app_iff; right; now left).
  assert (PG : prim Zag) by (apply Xin; rewrite EG; apply in_app_iff; right; now left).
  destruct (X_links g0 _ _ _ _ _ F EZ) as [_ LZ]. destruct (X_links g0 _ _ _ _ _ F EG) as [LG _].
  assert (Hh : prim (hd NIL (X (eV a) (N + c)))) by (apply Xin; destruct (X (eV a) (N + c)); [congruence|now left]).
  assert (Hl : prim (last (X (eV a) (N + c)) NIL)) by (apply Xin; now apply last_in).
  unfold walkup_look, up_look, gp_IsVirtualVertex. rewrite (get_en _ _ _ _ H) by (unfold GeoP.prim in PZ; lia). cbn [bind]. rewrite LZ, KN.
  destruct D as [|d D]; cbn [hd].
  - replace (N <? N + c) with true by (unfold GeoP.isroot in HR; lia). rewrite (get_vis _ _ _ _ H PZ). cbn [bind]. destruct (vis a Zig =? v); [reflexivity|].
    pose proof (proj2 (other_end _ _ _ _ Zig H HR F) ltac:(rewrite EZ, last_snoc; reflexivity)) as OE.
    destruct (gp_GetExtFaceVertex g (N + c) 0) as [r0| |]; cbn [bind] in OE |- *; try discriminate. rewrite OE. cbn [bind]. rewrite (get_vis _ _ _ _ H Hh). cbn [bind].
    destruct (vis a (hd NIL (X (eV a) (N + c))) =? v); reflexivity.
  - assert (Pd : prim d) by (apply Xin; rewrite EZ; apply in_app_iff; right; right; now left). replace (N <? d) with false by (unfold GeoP.prim in Pd; lia).
    rewrite (get_ep _ _ _ _ H) by (unfold GeoP.prim in PG; lia). cbn [bind]. rewrite LG. destruct A as [|x A].
    + change (last [] (N + c)) with (N + c). replace (N <? N + c) with true by (unfold GeoP.isroot in HR; lia). rewrite (get_vis _ _ _ _ H PG). cbn [bind]. destruct (vis a Zag =? v); [reflexivity|].
      pose proof (proj1 (other_end _ _ _ _ Zag H HR F) ltac:(rewrite EG; reflexivity)) as OE.
      destruct (gp_GetExtFaceVertex g (N + c) 0) as [r0| |]; cbn [bind] in OE |- *; try discriminate. rewrite OE. cbn [bind]. rewrite (get_vis _ _ _ _ H Hl). cbn [bind].
      destruct (vis a (last (X (eV a) (N + c)) NIL) =? v); reflexivity.
    + assert (EL : last (x :: A) (N + c) = last (x :: A) NIL) by (apply last_default; discriminate). rewrite EL.
      assert (Pl : prim (last (x :: A) NIL)) by (apply Xin; rewrite EX; apply in_app_iff; left; apply last_in; discriminate).
      replace (N <? last (x :: A) NIL) with false by (unfold GeoP.prim in Pl; lia). rewrite (get_vis _ _ _ _ H PZ). cbn [bind]. destruct (vis a Zig =? v); [reflexivity|].
      rewrite (get_vis _ _ _ _ H PG). cbn [bind]. destruct (vis a Zag =? v); reflexivity.
Qed.

(** ** The invariant of the walk up *)
Definition i2ok (v : Z) (a : est) : Prop := forall z c, In c (prl a z) -> vis a (hd NIL (X (eV a) (N + c))) = v \/ vis a (last (X (eV a) (N + c)) NIL) = v.
(** Every component on the way from x up to v is recorded. *)
Definition recd (v : Z) (a : est) (x : Z) : Prop := forall d, act (eV a) d -> anc d x -> v < p d -> In d (prl a (p d)).
Definition marks (v : Z) (a : est) : Prop := forall x, prim x -> vis a x = v -> exists c, via v c x /\ prl a c <> [] /\ recd v a x.
(** The components that reach above v come last. *)
Definition prlord (v : Z) (a : est) : Prop := forall x, StronglySorted (fun d d' => viLow (gVI g0) d < v -> viLow (gVI g0) d' < v) (prl a x).
Record upst (v : Z) (a : est) : Prop := {
  us_geo : geo NIL [] (eV a); us_keep : keep g0 (v + 1) a; us_fw : fwok g0 a; us_act : actok g0 v v a; us_prl : prlok g0 v a; us_i2 : i2ok v a; us_ord : prlord v a }.
Record uprel (v : Z) (a b : est) : Prop := {
  ur_sim : fsim (eV a) (eV b); ur_fw : fw b = fw a; ur_pe : pe b = pe a; ur_fpc : fpc b = fpc a;
  ur_prl : forall z c, In c (prl a z) -> In c (prl b z); ur_vis : forall x, vis b x = vis a x \/ vis b x = v }.
Lemma uprel_refl v a : uprel v a a.
Proof. constructor; auto. apply fsim_refl. Qed.
Lemma uprel_trans v a b c : uprel v a b -> uprel v b c -> uprel v a c.
Proof.
  intros [] []. constructor; try congruence; auto.
  - eapply fsim_trans; eauto.
  - intros x. destruct (ur_vis1 x) as [E|E]; [rewrite E|]; auto.
Qed.
Lemma recd_mono v a b x : recd v a x -> fsim (eV a) (eV b) -> (forall z c, In c (prl a z) -> In c (prl b z)) -> recd v b x.
Proof. intros R S M d Ad An Lt. apply M, R; auto. now apply (fsim_act _ _ _ _ S). Qed.
Lemma recd_same v a c x y : geo NIL [] (eV a) -> prim x -> prim y -> B (eV a) x = N + c -> anc c y -> recd v a y -> recd v a x.
Proof.
  intros G Px Py Bx Cy R d Ad An Lt. apply R; auto. pose proof (B_near g0 kids St _ _ _ _ _ G Ad Px An) as L. rewrite Bx in L.
  assert (Np : p x <> NIL). { intros E. destruct Ad as (A1 & A2 & _). apply (anc_root _ _ _ E) in An. congruence. }
  destruct (B_act g0 kids St _ _ _ _ G Px Np) as (c2 & E2 & _ & A2). assert (c2 = c) as -> by lia.
  apply anc_trans with c; [|auto]. apply (anc_total g0 kids St) with x; auto. lia.
Qed.
Lemma ss_snoc {A} (R : A -> A -> Prop) l x : StronglySorted R l -> (forall y, In y l -> R y x) -> StronglySorted R (l ++ [x]).
Proof.
  induction 1 as [|y l S IH F]; intros H; cbn [app]; constructor; auto; [constructor|apply IH; intros; apply H; now right|].
  apply Forall_app. split; [auto|]. constructor; [|constructor]. apply H. now left.
Qed.
Lemma fsim_via_fwok a b : fwok g0 a -> fsim (eV a) (eV b) -> fw b = fw a -> fwok g0 b.
Proof.
  intros [] S E. constructor; rewrite ?E, ?(fs_nb _ _ S), ?(fs_adj _ _ S); auto. intros u f Hf. rewrite !(fsim_child _ _ _ S). eauto.
Qed.
Lemma fsim_keep m a b : keep g0 m a -> fsim (eV a) (eV b) -> fw b = fw a -> keep g0 m b.
Proof.
  intros K S E u f Hu Hf. rewrite E in Hf. rewrite (fs_nb _ _ S), (fs_B _ _ S). destruct (K u f Hu Hf) as [K1 K2]. split.
  - now apply (fsim_in _ _ _ _ S).
  - intros c Hc. apply (fsim_act _ _ _ _ S) in Hc. intros Ha Hl. apply (fsim_in _ _ _ _ S). now apply K2.
Qed.
Lemma fsim_actok v k a b : actok g0 v k a -> fsim (eV a) (eV b) -> actok g0 v k b.
Proof. intros K S y H1 H2 H3. apply (fsim_act _ _ _ _ S). now apply K. Qed.
Lemma fsim_prlok v a b : prlok g0 v a -> fsim (eV a) (eV b) -> fw b = fw a -> prl b = prl a -> prlok g0 v b.
Proof.
  intros K S E E' z c Hc. rewrite E' in Hc. destruct (K z c Hc) as (K1 & K2 & K3 & K4). rewrite (fsim_act _ _ _ _ S), E, (fs_nb _ _ S). auto.
Qed.
Lemma fsim_i2 v a b : i2ok v a -> fsim (eV a) (eV b) -> prl b = prl a -> (forall x, vis a x = v -> vis b x = v) -> i2ok v b.
Proof.
  intros K S E Hv z c Hc. rewrite E in Hc. apply (fsim_ends _ _ (N + c) (fun x => vis b x = v) S). destruct (K z c Hc); auto.
Qed.
Definition unmarked (v : Z) (a : est) : nat := length (filter (fun x => negb (vis a x =? v)) (zrange 1 (Z.to_nat N))).

Record upat (v w0 c' : Z) (a : est) (z0 c : Z) (A L D : list Z) : Prop := {
  ua_act : act (eV a) c; ua_anc : anc c z0; ua_w : anc z0 w0; ua_via : via v c' z0; ua_B : B (eV a) z0 = N + c;
  ua_X : X (eV a) (N + c) = A ++ L ++ D; ua_L : L <> [];
  ua_marks : forall x, prim x -> vis a x = v -> (exists c1, via v c1 x /\ prl a c1 <> [] /\ recd v a x) \/
    anc c' x /\ (In x L /\ x <> last L NIL /\ x <> hd NIL L \/ N + c < B (eV a) x) /\ exists c2, B (eV a) x = N + c2 /\ anc c2 w0;
  ua_done : prl a c' <> [] \/ z0 <> c';
  ua_rec : forall d, act (eV a) d -> anc d w0 -> c < d -> v < p d -> In d (prl a (p d)) }.

Lemma zr_in x : prim x <-> In x (zrange 1 (Z.to_nat N)).
Proof. unfold GeoP.prim. rewrite in_zrange. lia. Qed.
Lemma set_vis_unmarked v a x y : prim x -> vis a x <> v -> (unmarked v (set_vis (set_vis a x v) y v) < unmarked v a)%nat.
Proof.
  intros Hx Nv. unfold unmarked. apply filter_lt with x.
  - intros z _. cbn [set_vis vis]. unfold upd. destruct (z =? y), (z =? x); lia.
  - now apply zr_in.
  - cbn [set_vis vis]. unfold upd. rewrite Z.eqb_refl. destruct (x =? y); lia.
  - lia.
Qed.

Lemma mkvia u c w : prim c -> p c = u -> prim u -> prim w -> anc c w -> via u c w.
Proof. unfold EmbTree.via. auto. Qed.
Section Loop.
Variables (v f c' : Z).
Hypothesis Hv : prim v.

Lemma upat_low a z0 c A L D w0 : upst v a -> upat v w0 c' a z0 c A L D -> c' <= c /\ anc c' c /\ v <= p c /\ (p c = v -> c = c' /\ z0 = c').
Proof.
  intros U Q. destruct Q as [Q1 Q2 Q3 Q4 Q5 _ _ _ _ _]. pose proof Q4 as (V1 & V2 & V3 & V4 & V5).
  assert (Ac : act (eV a) c').
  { apply (us_act _ _ U); auto; [rewrite V2; now apply prim_ne with g0|]. left. rewrite V2. destruct (Z.eq_dec (p v) NIL) as [->|Nv]; [unfold GeoP.prim, NIL in *; lia|]. now apply (Hp g0 kids St). }
  pose proof (B_near g0 kids St _ _ _ _ _ (us_geo _ _ U) Ac V4 V5) as Bn. assert (Lc : c' <= c) by lia.
  assert (AA : anc c' c) by (apply (anc_total g0 kids St) with z0; auto). split; [auto|]. split; [auto|].
  destruct Q1 as (P1 & P2 & P3). destruct (Z.eq_dec c' c) as [<-|Ne].
  - split; [lia|]. intros _. split; [auto|]. apply (lone g0 kids St NIL [] (eV a) c' (us_geo _ _ U) Ac); auto.
    intros y Hy Ey. apply (us_act _ _ U); auto; [rewrite Ey; now apply prim_ne with g0|]. right. rewrite Ey. pose proof (via_lt g0 kids St _ _ _ Q4). lia.
  - destruct (anc_up g0 _ _ AA Ne) as [_ A2]. pose proof (anc_le g0 kids St _ _ (proj1 (Hp g0 kids St c P1 P2)) A2). pose proof (via_lt g0 kids St _ _ _ Q4). split; lia.
Qed.

Definition upgoal (n : nat) g a stk Zig Zag zl gl : Prop :=
  exists g' b, walkup_loop n g v Zig Zag zl gl = Ret g' /\ rp g' b stk /\ upst v b /\ uprel v a b /\ marks v b /\ prl b c' <> [] /\ recd v b (nb (eV a) f).

Lemma upst_vis a x y : upst v a -> upst v (set_vis (set_vis a x v) y v).
Proof.
  intros U. constructor; try (destruct U; assumption); [apply (fsim_via_fwok a); auto; [apply (us_fw _ _ U)|apply fsim_refl]|]. intros z c Hc. cbn [set_vis vis eV]. unfold upd.
  destruct (us_i2 _ _ U z c Hc) as [E|E]; [left|right]; rewrite E; repeat match goal with |- context [if ?b then _ else _] => destruct b end; auto.
Qed.
Lemma uprel_vis a x y : uprel v a (set_vis (set_vis a x v) y v).
Proof. constructor; auto; [apply fsim_refl|]. intros z. cbn [set_vis vis]. unfold upd. destruct (z =? y), (z =? x); auto. Qed.
Lemma goal_trans n g a a' stk Zig Zag zl gl : uprel v a a' -> upgoal n g a' stk Zig Zag zl gl -> upgoal n g a stk Zig Zag zl gl.
Proof. intros R (g' & b & E & H & U & R' & M & D). exists g', b. split; [auto|]. split; [auto|]. split; [auto|]. split; [eapply uprel_trans; eauto|]. rewrite <- (fs_nb _ _ (ur_sim _ _ _ R)). auto. Qed.

(** The mirrored state. *)
Lemma upst_sim a V : upst v a -> fsim (eV a) V -> geo NIL [] V -> upst v (set_V a V) /\ uprel v a (set_V a V).
Proof.
  intros U S G. split; constructor; auto.
  - apply (fsim_keep _ a); auto. apply (us_keep _ _ U).
  - apply (fsim_via_fwok a); auto. apply (us_fw _ _ U).
  - apply (fsim_actok _ _ a); auto. apply (us_act _ _ U).
  - apply (fsim_prlok _ a); auto. apply (us_prl _ _ U).
  - apply (fsim_i2 _ a); auto. apply (us_i2 _ _ U).
  - exact (us_ord _ _ U).
Qed.
(** Recording a component. *)
Lemma upst_record a z c l : upst v a -> p c = z -> v <= z -> act (eV a) c -> In f (fw a v) -> anc c (nb (eV a) f) ->
  (forall x, In x l <-> x = c \/ In x (prl a z)) -> vis a (hd NIL (X (eV a) (N + c))) = v \/ vis a (last (X (eV a) (N + c)) NIL) = v ->
  StronglySorted (fun d d' => viLow (gVI g0) d < v -> viLow (gVI g0) d' < v) l ->
  upst v (set_prl a (upd (prl a) z l)) /\ uprel v a (set_prl a (upd (prl a) z l)).
Proof.
  intros U H1 H2 H3 H4 H5 Hl Hm Ho. split; constructor; auto; try apply fsim_refl.
  - apply (us_geo _ _ U).
  - apply (us_keep _ _ U).
  - apply (fsim_via_fwok a); auto; [apply (us_fw _ _ U)|apply fsim_refl].
  - apply (us_act _ _ U).
  - intros y d. cbn [set_prl prl eV fw]. unfold upd. destruct (Z.eqb_spec y z) as [->|]; [|apply (us_prl _ _ U)].
    intros Hd. apply Hl in Hd. destruct Hd as [->|Hd]; [|now apply (us_prl _ _ U)]. split; [auto|]. split; [auto|]. split; [auto|]. eauto.
  - intros y d. cbn [set_prl prl eV vis]. unfold upd. destruct (Z.eqb_spec y z) as [->|]; [|apply (us_i2 _ _ U)].
    intros Hd. apply Hl in Hd. destruct Hd as [->|Hd]; [auto|]. now apply (us_i2 _ _ U z).
  - intros y. cbn [set_prl prl]. unfold upd. destruct (y =? z); [auto|apply (us_ord _ _ U)].
  - intros y d. cbn [set_prl prl]. unfold upd. destruct (Z.eqb_spec y z) as [->|]; auto. intros Hd. apply Hl. auto.
Qed.

Lemma loop_ok : forall n g a stk Zig Zag zl gl, rp g a stk -> In f (fw a v) -> via v c' (nb (eV a) f) -> upst v a -> (unmarked v a < n)%nat ->
  (Zig = v /\ prl a c' <> [] /\ recd v a (nb (eV a) f) /\ marks v a \/
   exists z0 c A L D, upat v (nb (eV a) f) c' a z0 c A L D /\ Zig = last L NIL /\ Zag = hd NIL L /\
     zl = b2z (negb (o (eV a) Zig)) /\ gl = b2z (o (eV a) Zag)) ->
  upgoal n g a stk Zig Zag zl gl.
Proof.
  induction n as [|n IH]; intros g a stk Zig Zag zl gl H Hf Vf U Hn HQ; [lia|].
  destruct HQ as [(E & HD & HM0 & HM)|(z0 & c & A & L & D & Q & -> & -> & -> & ->)].
  { exists g, a. cbn [walkup_loop]. rewrite E, Z.eqb_refl. split; [auto|]. split; [auto|]. split; [auto|]. split; [apply uprel_refl|]. auto. }
  pose proof (upat_low _ _ _ _ _ _ _ U Q) as (Lc & Acc & Lv & Top). pose proof Q as Q0. destruct Q as [Ac Az Aw Va Bz EX HL Mk Dn Rc].
  destruct (full_of _ _ _ (us_geo _ _ U) Ac) as [HR F]. destruct (X_facts _ _ _ F) as (Xne & Xnd & Xin).
  pose proof Va as (V1 & V2 & V3 & V4 & V5). pose proof Ac as (Pc & Pn & Aj).
  assert (Xanc : forall x, In x (X (eV a) (N + c)) -> via v c' x).
  { intros x Hx. destruct (Xin x Hx) as [Px Bx]. split; [auto|]. split; [auto|]. split; [auto|]. split; [auto|].
    assert (Px' : p x <> NIL). { intros E. destruct (g_B0 _ _ _ (g_base _ _ _ _ _ (us_geo _ _ U)) x Px E) as [Q _]. unfold GeoP.isroot, NIL in *. lia. }
    destruct (B_act g0 kids St _ _ _ _ (us_geo _ _ U) Px Px') as (c2 & E2 & _ & A2). assert (c2 = c) as -> by lia. exact (anc_trans _ _ _ _ Acc A2). }
  destruct (ends_split NIL L HL) as (L1 & L2 & E2 & E1). set (Zig := last L NIL) in *. set (Zag := hd NIL L) in *.
  assert (EZ : X (eV a) (N + c) = (A ++ L1) ++ Zig :: D) by (rewrite EX, E1, <- !app_assoc; reflexivity).
  assert (EG : X (eV a) (N + c) = A ++ Zag :: (L2 ++ D)) by (rewrite EX, E2 at 1; reflexivity).
  assert (IZ : In Zig (X (eV a) (N + c))) by (rewrite EZ; apply in_app_iff; right; now left).
  assert (IG : In Zag (X (eV a) (N + c))) by (rewrite EG; apply in_app_iff; right; now left).
  (* a marked vertex that is not strictly inside shows that the rest of the path is recorded *)
  assert (Brk : forall x, In x (X (eV a) (N + c)) -> vis a x = v -> (In x L -> x = Zig \/ x = Zag) -> prl a c' <> [] /\ recd v a (nb (eV a) f)).
  { intros x Hx Vx Nx. destruct (Xin x Hx) as [Px Bx]. destruct (Mk x Px Vx) as [(c1 & W1 & W2 & W3)|(_ & [(I1 & I2 & I3)|Q] & _)].
    - split; [now rewrite (via_unique g0 kids St _ _ _ _ (Xanc x Hx) W1)|]. intros d Ad An Lt. destruct (Z_le_dec d c) as [Ld|Ld]; [|apply Rc; auto; lia]. apply W3; auto.
      assert (Px' : p x <> NIL). { intros E. destruct (g_B0 _ _ _ (g_base _ _ _ _ _ (us_geo _ _ U)) x Px E) as [Q _]. unfold GeoP.isroot, NIL in *. lia. }
      destruct (B_act g0 kids St _ _ _ _ (us_geo _ _ U) Px Px') as (c2 & E9 & _ & A2). assert (c2 = c) as -> by lia. apply anc_trans with c; [|auto].
      apply (anc_total g0 kids St) with (nb (eV a) f); auto; [apply Vf|exact (anc_trans _ _ _ _ Az Aw)].
    - destruct (Nx I1); contradiction.
    - lia. }
  assert (Fin : prl a c' <> [] /\ recd v a (nb (eV a) f) -> marks v a).
  { intros [Hd Hr] x Px Vx. destruct (Mk x Px Vx) as [|(A1 & _ & c2 & B2 & A2)]; [auto|]. exists c'. split; [apply mkvia; auto|]. split; [auto|].
    apply (recd_same v a c2 x (nb (eV a) f)); auto; [apply (us_geo _ _ U)|apply Vf]. }
  assert (Stop : prl a c' <> [] /\ recd v a (nb (eV a) f) -> forall r, r = Ret g -> exists g' b, r = Ret g' /\ rp g' b stk /\ upst v b /\ uprel v a b /\ marks v b /\ prl b c' <> [] /\ recd v b (nb (eV a) f)).
  { intros Hd r ->. pose proof Hd as [Hd1 Hd2]. exists g, a. split; [auto|]. split; [auto|]. split; [auto|]. split; [apply uprel_refl|]. auto. }
  unfold upgoal. cbn [walkup_loop].
  assert (NZ : Zig <> v). { pose proof (via_lt g0 kids St _ _ _ (Xanc Zig IZ)). lia. }
  rewrite (eqb_false_neq _ _ NZ). pose proof (look_ok _ _ _ v c A L D H (us_geo _ _ U) Ac EX HL) as LK. fold Zig Zag in LK. rewrite LK. cbn [bind].
  (* the step that marks and goes on *)
  destruct (Xin Zig IZ) as [PZ BZ]. destruct (Xin Zag IG) as [PG BG].
  destruct (set_vis_ok _ _ _ _ Zig v H PZ) as (g1 & W1 & H1). destruct (set_vis_ok _ _ _ _ Zag v H1 PG) as (g2 & W2 & H2).
  set (a2 := set_vis (set_vis a Zig v) Zag v) in *. pose proof (upst_vis a Zig Zag U) as U2. fold a2 in U2.
  pose proof (uprel_vis a Zig Zag) as R2. fold a2 in R2.
  assert (V2' : forall x, vis a2 x = v -> vis a x = v \/ x = Zig \/ x = Zag).
  { intros x. cbn [a2 set_vis vis]. unfold upd. destruct (Z.eqb_spec x Zag), (Z.eqb_spec x Zig); auto. }
  assert (VZ : vis a2 Zig = v /\ vis a2 Zag = v).
  { cbn [a2 set_vis vis]. unfold upd. rewrite !Z.eqb_refl. destruct (Zig =? Zag); auto. }
  (* recording the component *)
  assert (Rec : forall nz ng, vis a Zig <> v \/ vis a Zag <> v -> vis a (hd NIL (X (eV a) (N + c))) <> v -> vis a (last (X (eV a) (N + c)) NIL) <> v ->
     (hd NIL (X (eV a) (N + c)) = Zag \/ last (X (eV a) (N + c)) NIL = Zig) ->
     exists g' b, (g1' <- gp_SetVertexVisitedInfo g Zig v;;
                   g2' <- gp_SetVertexVisitedInfo g1' Zag v;;
                   (if N + c =? NIL then
                      x <- gp_GetExtFaceVertex g2' nz 0;; y <- gp_GetExtFaceVertex g2' ng 0;;
                      walkup_loop n g2' v nz ng (if x =? Zig then 0 else 1) (if y =? Zag then 0 else 1)
                    else
                      z <- gp_GetPrimaryVertexFromRoot g2' (N + c);;
                      lp <- gp_GetVertexLowpoint g2' (gp_GetDFSChildFromRoot g2' (N + c));;
                      g3' <- (if lp <? v then gp_AppendVertexPertinentRoot g2' z (N + c) else gp_PrependVertexPertinentRoot g2' z (N + c));;
                      walkup_loop n g3' v z z 1 0)) = Ret g' /\ rp g' b stk /\ upst v b /\ uprel v a b /\ marks v b /\ prl b c' <> [] /\ recd v b (nb (eV a) f)).
  { intros nz ng HV Hh Hl He. rewrite W1. cbn [bind]. rewrite W2. cbn [bind]. rewrite (eqb_false_neq (N + c) NIL) by (unfold GeoP.isroot, NIL in *; lia).
    pose proof (r_keeps _ _ _ _ H2) as K2. pose proof (k_N _ _ K2) as KN. unfold GeoP.prim in Pc.
    unfold gp_GetPrimaryVertexFromRoot, gp_GetDFSChildFromRoot, gp_GetVertexParent, gp_GetVertexLowpoint. rewrite KN. replace (N + c - N) with c by lia.
    rewrite !vi_ok by lia. cbn [bind]. rewrite (k_parent _ _ K2), (k_low _ _ K2).
    destruct (Hp g0 kids St c Pc Pn) as [Pz Lz].
    assert (Fr : forall j, ~ In c (prl a2 j)). { intros j Hj. destruct (us_i2 _ _ U j c Hj); auto. }
    assert (Hend : vis a2 (hd NIL (X (eV a2) (N + c))) = v \/ vis a2 (last (X (eV a2) (N + c)) NIL) = v).
    { change (eV a2) with (eV a). destruct VZ. destruct He as [-> | ->]; auto. }
    assert (exists g3 l, (if viLow (gVI g0) c <? v then gp_AppendVertexPertinentRoot g2 (p c) (N + c) else gp_PrependVertexPertinentRoot g2 (p c) (N + c)) = Ret g3 /\
              rp g3 (set_prl a2 (upd (prl a2) (p c) l)) stk /\ (forall x, In x l <-> x = c \/ In x (prl a2 (p c))) /\
              StronglySorted (fun d d' => viLow (gVI g0) d < v -> viLow (gVI g0) d' < v) l) as (g3 & l & W3 & H3 & Hl3 & Ho3).
    { replace (N + c) with (c + gN g2) by lia. destruct (Z.ltb_spec (viLow (gVI g0) c) v) as [Hlo|Hlo].
      - destruct (append_root_ok _ _ _ _ (p c) c H2 Pz Pc Fr) as (g3 & W3 & H3). exists g3, (prl a2 (p c) ++ [c]). split; [auto|]. split; [auto|].
        split; [intros x; clear; rewrite in_app_iff; cbn [In]; intuition|]. apply ss_snoc; [apply (us_ord _ _ U)|auto].
      - destruct (prepend_root_ok _ _ _ _ (p c) c H2 Pz Pc Fr) as (g3 & W3 & H3). exists g3, (c :: prl a2 (p c)). split; [auto|]. split; [auto|].
        split; [intros x; clear; cbn [In]; intuition|]. constructor; [apply (us_ord _ _ U)|]. apply Forall_forall. intros. lia. }
    rewrite W3. cbn [bind]. set (a3 := set_prl a2 (upd (prl a2) (p c) l)) in *.
    assert (Aw0 : anc c (nb (eV a2) f)) by (exact (anc_trans _ _ _ _ Az Aw)).
    destruct (upst_record a2 (p c) c l U2 eq_refl Lv Ac Hf Aw0 Hl3 Hend Ho3) as [U3 R3]. fold a3 in U3, R3.
    assert (Lu : (unmarked v a3 < n)%nat).
    { change (unmarked v a3) with (unmarked v a2). destruct HV as [HV|HV].
      - pose proof (set_vis_unmarked v a Zig Zag PZ HV). unfold a2. lia.
      - assert (unmarked v a2 < unmarked v a)%nat; [|lia]. unfold unmarked. apply filter_lt with Zag; [|now apply zr_in|lia|lia].
        intros z _. cbn [a2 set_vis vis]. unfold upd. destruct (z =? Zag), (z =? Zig); lia. }
    assert (Pm : forall z, prl a z <> [] -> prl a3 z <> []).
    { intros z Hz. destruct (prl a z) as [|d0 l0] eqn:Ez; [congruence|]. pose proof (ur_prl _ _ _ R3 z d0) as I. change (prl a2) with (prl a) in I. rewrite Ez in I. specialize (I (or_introl eq_refl)). destruct (prl a3 z); [destruct I|discriminate]. }
    assert (Pc3 : prl a3 (p c) <> []). { pose proof (proj2 (Hl3 c) (or_introl eq_refl)) as I. unfold a3. cbn [set_prl prl]. rewrite upd_same. destruct l; [destruct I|discriminate]. }
    (* the marks so far *)
    assert (Mk3 : forall x, prim x -> vis a3 x = v -> (exists c1, via v c1 x /\ prl a3 c1 <> [] /\ recd v a3 x) \/ anc c' x /\ N + c <= B (eV a3) x /\ exists c2, B (eV a3) x = N + c2 /\ anc c2 (nb (eV a) f)).
    { intros x Px Vx. change (eV a3) with (eV a). destruct (V2' x Vx) as [Vx'|[-> | ->]].
      - destruct (Mk x Px Vx') as [(c1 & I1 & I2 & I3)|(I1 & I2 & I2')].
        + left. exists c1. split; [auto|]. split; [auto|]. apply (recd_mono v a a3); auto; [apply fsim_refl|exact (ur_prl _ _ _ R3)].
        + right. split; [auto|]. split; [|auto]. destruct I2 as [[I2 _]|I2]; [|lia].
          assert (In x (X (eV a) (N + c))) as I3 by (rewrite EX, !in_app_iff; auto). destruct (Xin x I3). lia.
      - right. split; [apply (Xanc Zig IZ)|]. split; [lia|]. exists c. split; [auto|]. exact (anc_trans _ _ _ _ Az Aw).
      - right. split; [apply (Xanc Zag IG)|]. split; [lia|]. exists c. split; [auto|]. exact (anc_trans _ _ _ _ Az Aw). }
    assert (Rc3 : forall d, act (eV a3) d -> anc d (nb (eV a) f) -> c <= d -> v < p d -> In d (prl a3 (p d))).
    { intros d Ad An Ld Lt. destruct (Z.eq_dec d c) as [->|Nd].
      - unfold a3. cbn [set_prl prl]. rewrite upd_same. apply Hl3. auto.
      - apply (ur_prl _ _ _ R3). apply Rc; auto. lia. }
    assert (E3 : forall V, fsim (eV a3) V -> geo NIL [] V -> rp g3 (set_V a3 V) stk ->
      (p c = v /\ prl (set_V a3 V) c' <> [] /\ recd v (set_V a3 V) (nb (eV a) f) /\ marks v (set_V a3 V) \/
       exists z1 c1 A1 L3 D1, upat v (nb V f) c' (set_V a3 V) z1 c1 A1 L3 D1 /\ p c = last L3 NIL /\ p c = hd NIL L3 /\ 1 = b2z (negb (o V (p c))) /\ 0 = b2z (o V (p c))) ->
      exists g' b, walkup_loop n g3 v (p c) (p c) 1 0 = Ret g' /\ rp g' b stk /\ upst v b /\ uprel v a b /\ marks v b /\ prl b c' <> [] /\ recd v b (nb (eV a) f)).
    { intros V SV GV HV4 Q4. destruct (upst_sim a3 V U3 SV GV) as [U4 R4].
      apply (goal_trans n g3 a (set_V a3 V) stk (p c) (p c) 1 0).
      - eapply uprel_trans; [exact R2|]. eapply uprel_trans; [exact R3|exact R4].
      - apply (IH g3 (set_V a3 V) stk); auto; cbn [eV set_V]; rewrite (fs_nb _ _ SV); [exact Vf|]. rewrite (fs_nb _ _ SV) in Q4. exact Q4. }
    destruct (Z.eq_dec (p c) v) as [Ev|Nv].
    - destruct (Top Ev) as [-> Ez0]. apply (E3 (eV a3)); auto; [apply fsim_refl|apply (us_geo _ _ U3)|]. left. split; [auto|].
      assert (Hd : prl a3 c' <> []) by (apply Pm; destruct Dn; auto; congruence). split; [exact Hd|].
      assert (Hr : recd v (set_V a3 (eV a3)) (nb (eV a) f)).
      { intros d Ad An Lt. apply Rc3; auto. destruct (Z_le_dec c' d) as [|Ld]; [auto|exfalso]. assert (A3 : anc d c') by (apply (anc_total g0 kids St) with (nb (eV a) f); auto; [apply Vf|lia]).
        destruct (anc_up g0 _ _ A3 ltac:(lia)) as [_ A4]. rewrite Ev in A4. pose proof (anc_le g0 kids St _ _ Hv A4). destruct Ad as (D1 & D2 & _). pose proof (proj2 (Hp g0 kids St d D1 D2)). lia. }
      split; [exact Hr|].
      intros x Px Vx. destruct (Mk3 x Px Vx) as [|(I1 & _ & c2 & B2 & I3)]; [auto|]. exists c'. split; [apply mkvia; auto|]. split; [exact Hd|].
      apply (recd_same v (set_V a3 (eV a3)) c2 x (nb (eV a) f)); auto; [apply (us_geo _ _ U3)|apply Vf].
    - assert (Ne : c' <> c) by (intros <-; congruence). destruct (anc_up g0 _ _ Acc Ne) as [_ A2].
      destruct (us_keep _ _ U v f ltac:(lia) Hf) as [_ KP]. pose proof (KP c Ac Aw0 ltac:(lia)) as IX.
      assert (Pp : p (p c) <> NIL). { intros E. pose proof (anc_root _ _ _ E A2) as E'. rewrite <- E', V2 in E. now apply (prim_ne g0 v V3). }
      destruct (B_act g0 kids St _ _ _ _ (us_geo _ _ U) Pz Pp) as (c2 & B2 & Ac2 & An2).
      assert (IV : In (p c) (vsof (eV a3) (N + c2))).
      { right. unfold mem. apply filter_In. split; [now apply zr_in|]. change (eV a3) with (eV a). lia. }
      destruct (orient g0 _ _ _ c2 (p c) false H3 (us_geo _ _ U3) Ac2 IV) as (V & HV4 & SV & GV & OV & _ & _).
      apply (E3 V); auto. right. assert (IX' : In (p c) (X V (N + c2))) by (apply (fsim_in _ _ _ _ SV); change (eV a3) with (eV a); rewrite <- B2; exact IX).
      apply in_split in IX'. destruct IX' as (A1 & D1 & EX1). exists (p c), c2, A1, [p c], D1. rewrite OV. split; [|auto].
      constructor; cbn [set_V eV prl vis]; auto.
      + apply (fsim_act _ _ _ _ SV). exact Ac2.
      + rewrite (fs_nb _ _ SV). change (eV a3) with (eV a). eapply anc_trans; [|exact Aw0]. apply anc_step; [auto|constructor].
      + apply mkvia; auto.
      + rewrite (fs_B _ _ SV). exact B2.
      + discriminate.
      + intros x Px Vx. destruct (Mk3 x Px Vx) as [(c1 & J1 & J2 & J3)|(I1 & I2 & I3)].
        * left. exists c1. split; [auto|]. split; [auto|]. apply (recd_mono v a3); auto.
        * right. split; [auto|]. rewrite (fs_B _ _ SV), (fs_nb _ _ SV). split; [|exact I3]. right. pose proof (anc_le g0 kids St _ _ Pz An2). lia.
      + destruct (Z.eq_dec (p c) c') as [<-|]; auto.
      + intros d Ad An Ld Lt. apply (fsim_act _ _ _ _ SV) in Ad. rewrite (fs_nb _ _ SV) in An. apply Rc3; auto. destruct (Z_le_dec c d) as [|Nl]; [auto|exfalso].
        assert (A3 : anc d c) by (apply (anc_total g0 kids St) with (nb (eV a) f); auto; [apply Vf|lia]). destruct (anc_up g0 _ _ A3 ltac:(lia)) as [_ A4].
        pose proof (B_near g0 kids St _ _ _ _ _ (us_geo _ _ U) Ad Pz A4). lia. }
  unfold up_look. destruct D as [|d D].
  - assert (El : last (X (eV a) (N + c)) NIL = Zig) by (rewrite EZ; apply last_snoc).
    destruct (Z.eqb_spec (vis a Zig) v) as [E|NV1]; [apply Stop; auto; apply (Brk Zig); auto|].
    destruct (Z.eqb_spec (vis a (hd NIL (X (eV a) (N + c)))) v) as [E|NV2].
    { apply Stop; auto. apply (Brk _ (hd_in _ NIL Xne) E). intros Hi. right. destruct A as [|x A]; [rewrite EG; reflexivity|]. exfalso.
      rewrite EX in Xnd, Hi. cbn [hd app] in Hi. rewrite <- app_comm_cons in Xnd. apply NoDup_cons_iff in Xnd. apply (proj1 Xnd). rewrite !in_app_iff. auto. }
    apply Rec; auto. now rewrite El.
  - destruct A as [|x A].
    + assert (Eh : hd NIL (X (eV a) (N + c)) = Zag) by (rewrite EG; reflexivity).
      destruct (Z.eqb_spec (vis a Zag) v) as [E|NV1]; [apply Stop; auto; apply (Brk Zag); auto|].
      destruct (Z.eqb_spec (vis a (last (X (eV a) (N + c)) NIL)) v) as [E|NV2].
      { apply Stop; auto. apply (Brk _ (last_in _ NIL Xne) E). intros Hi. exfalso. rewrite EX in Xnd, Hi. cbn [app] in Xnd, Hi.
        rewrite last_app_ne in Hi by discriminate. pose proof (last_in (d :: D) NIL ltac:(discriminate)) as Hi2. apply (NoDup_app_disj _ _ _ Xnd Hi Hi2). }
      apply Rec; auto. now rewrite Eh.
    + destruct (Z.eqb_spec (vis a Zig) v) as [E|NV1]; [apply Stop; auto; apply (Brk Zig); auto|].
      destruct (Z.eqb_spec (vis a Zag) v) as [E|NV2]; [apply Stop; auto; apply (Brk Zag); auto|].
      rewrite W1. cbn [bind]. rewrite W2. cbn [bind]. cbn [Z.eqb NIL]. set (AA := x :: A) in *.
      destruct (ends_split NIL AA ltac:(discriminate)) as (A1 & _ & _ & EA). set (y := last AA NIL) in *.
      assert (EX2 : X (eV a) (N + c) = A1 ++ (y :: L ++ [d]) ++ D) by (rewrite EX, EA, <- !app_assoc; cbn [app]; rewrite <- app_assoc; reflexivity).
      assert (Id : In d (X (eV a) (N + c))) by (rewrite EZ; apply in_app_iff; right; right; now left).
      assert (Iy : In y (X (eV a) (N + c))) by (rewrite EX, EA, !in_app_iff; left; right; now left).
      destruct (Xin d Id) as [Pd Bd]. destruct (Xin y Iy) as [Py By]. unfold GeoP.prim in Pd, Py.
      rewrite !(rp_ext_get _ _ _ _ _ _ H2) by lia. cbn [bind Z.eqb]. change (eV a2) with (eV a).
      assert (Xd : X (eV a) (N + c) = ((A1 ++ y :: L1) ++ [Zig]) ++ d :: D) by (rewrite EZ, EA; rewrite <- !app_assoc; reflexivity).
      assert (Xy : X (eV a) (N + c) = A1 ++ y :: Zag :: (L2 ++ d :: D)) by (rewrite EX, EA; rewrite E2 at 1; rewrite <- app_assoc; reflexivity).
      destruct (X_links g0 _ _ _ _ _ F Xd) as [Ld1 Ld2]. destruct (X_links g0 _ _ _ _ _ F Xy) as [Ly1 Ly2]. rewrite last_snoc in Ld1. cbn [hd] in Ly2.
      assert (Nd : en (eV a) d <> Zig).
      { rewrite Ld2. destruct D as [|d2 D2]; cbn [hd]; [unfold GeoP.isroot, GeoP.prim in *; lia|]. intros EE. rewrite EZ in Xnd. apply NoDup_remove_2 in Xnd. apply Xnd. rewrite !in_app_iff. right. right. left. exact EE. }
      assert (Ny : ep (eV a) y <> Zag).
      { rewrite Ly1. destruct (list_snoc A1) as [->|(A2 & y2 & ->)]; [change (last [] (N + c)) with (N + c); unfold GeoP.isroot, GeoP.prim in *; lia|]. rewrite last_snoc. intros EE.
        rewrite EG in Xnd. apply NoDup_remove_2 in Xnd. apply Xnd. rewrite EA, !in_app_iff. left. left. right. left. exact EE. }
      assert (Ez : (if e0 (eV a) d =? Zig then 0 else 1) = b2z (negb (o (eV a) d))).
      { unfold en, ep in *. destruct (o (eV a) d); cbn [negb b2z]; destruct (Z.eqb_spec (e0 (eV a) d) Zig); congruence. }
      assert (Eg : (if e0 (eV a) y =? Zag then 0 else 1) = b2z (o (eV a) y)).
      { unfold en, ep in *. destruct (o (eV a) y); cbn [negb b2z]; destruct (Z.eqb_spec (e0 (eV a) y) Zag); congruence. }
      rewrite Ez, Eg. apply (goal_trans n g2 a a2 stk d y _ _ R2). apply (IH g2 a2 stk); auto.
      { pose proof (set_vis_unmarked v a Zig Zag PZ NV1). fold a2 in H0. lia. }
      right. exists z0, c, A1, (y :: L ++ [d]), D. assert (Ela : last (y :: L ++ [d]) NIL = d) by exact (last_snoc (y :: L) d NIL).
      split; [|rewrite Ela; auto]. constructor; auto; [discriminate|].
      intros z Pz Vz. rewrite Ela. change (eV a2) with (eV a). cbn [hd].
      assert (Inner : In z L -> z <> d /\ z <> y).
      { intros Hz. rewrite EX2 in Xnd. apply NoDup_app_r in Xnd. cbn [app] in Xnd. rewrite <- app_assoc in Xnd. apply NoDup_cons_iff in Xnd. destruct Xnd as [N1 N2]. split.
        - intros ->. apply (NoDup_app_disj _ _ d N2 Hz). now left.
        - intros ->. apply N1. rewrite in_app_iff. auto. }
      assert (IL : In Zig L /\ In Zag L) by (split; [apply last_in; auto|apply hd_in; auto]).
      assert (InL : In z L -> In z (y :: L ++ [d])) by (intros; right; rewrite in_app_iff; auto).
      destruct (V2' z Vz) as [Vz'|[-> | ->]].
      * destruct (Mk z Pz Vz') as [|(I1 & [[I2 _]|I2] & I3)]; [auto| |]; right; (split; [auto|]); (split; [|auto]); [left|auto]. destruct (Inner I2). auto.
      * right. split; [apply (Xanc Zig IZ)|]. split; [left; destruct (Inner (proj1 IL)); split; [apply InL; tauto|auto]|]. exists c. split; [auto|]. exact (anc_trans _ _ _ _ Az Aw).
      * right. split; [apply (Xanc Zag IG)|]. split; [left; destruct (Inner (proj2 IL)); split; [apply InL; tauto|auto]|]. exists c. split; [auto|]. exact (anc_trans _ _ _ _ Az Aw).
Qed.
End Loop.

Record wrel (v : Z) (a b : est) : Prop := {
  wr_sim : fsim (eV a) (eV b); wr_fw : fw b = fw a; wr_fpc : fpc b = fpc a; wr_prl : forall z c, In c (prl a z) -> In c (prl b z);
  wr_vis : forall x, vis b x = vis a x \/ vis b x = v }.
Lemma wrel_trans v a b c : wrel v a b -> wrel v b c -> wrel v a c.
Proof.
  intros [] []. constructor; try congruence; auto.
  - eapply fsim_trans; eauto.
  - intros x. destruct (wr_vis1 x) as [E|E]; [rewrite E|]; auto.
Qed.
Lemma upst_pe v a x i : upst v a -> upst v (set_pe a x i).
Proof. intros U. constructor; try (destruct U; assumption). apply (fsim_via_fwok a); auto; [apply (us_fw _ _ U)|apply fsim_refl]. Qed.
Lemma filt_len {A} (h : A -> bool) l : (length (filter h l) <= length l)%nat.
Proof. induction l; cbn [filter length]; [auto|]. destruct (h a); cbn [length]; lia. Qed.
Lemma unmarked_le v a : (unmarked v a <= Z.to_nat N)%nat.
Proof. unfold unmarked. transitivity (length (zrange 1 (Z.to_nat N))); [apply filt_len|]. rewrite zrange_length. lia. Qed.

Lemma walkup_ok v f c' g a stk : prim v -> rp g a stk -> upst v a -> In f (fw a v) -> via v c' (nb (eV a) f) -> marks v a ->
  exists g' b, _WalkUp g v f = Ret g' /\ rp g' b stk /\ upst v b /\ wrel v a b /\ marks v b /\ prl b c' <> [] /\ recd v b (nb (eV a) f) /\ pe b = upd (pe a) (nb (eV a) f) f.
Proof.
  intros Hv H U Hf Vf Mk. pose proof Vf as (V1 & V2 & V3 & V4 & V5). set (W := nb (eV a) f) in *.
  pose proof (k_N _ _ (r_keeps _ _ _ _ H)) as KN.
  unfold _WalkUp. pose proof (r_fwrange _ _ _ _ H v f Hf) as Rf. rewrite get_nbr by (apply inE_true; lia). cbn [bind]. rewrite (r_nb _ _ _ _ H). fold W.
  destruct (set_pe_ok _ _ _ _ W f H V4) as (g1 & W1 & H1). rewrite W1. cbn [bind].
  set (a1 := set_pe a W f) in *. pose proof (upst_pe v a W f U) as U1. fold a1 in U1.
  assert (PW : p W <> NIL). { intros E. pose proof (anc_root _ _ _ E V5) as E'. rewrite <- E', V2 in E. now apply (prim_ne g0 v V3). }
  destruct (B_act g0 kids St _ _ _ _ (us_geo _ _ U) V4 PW) as (c & B1 & Ac & An).
  assert (IV : In W (vsof (eV a1) (N + c))).
  { right. unfold mem. apply filter_In. split; [now apply zr_in|]. change (eV a1) with (eV a). lia. }
  destruct (orient g0 _ _ _ c W false H1 (us_geo _ _ U1) Ac IV) as (V & HV & SV & GV & OV & _ & _).
  destruct (upst_sim v a1 V U1 SV GV) as [U2 R2].
  destruct (us_keep _ _ U v f ltac:(lia) Hf) as [IX _]. fold W in IX.
  assert (IX' : In W (X V (N + c))) by (apply (fsim_in _ _ _ _ SV); change (eV a1) with (eV a); rewrite <- B1; exact IX).
  apply in_split in IX'. destruct IX' as (A1 & D1 & EX1).
  pose proof (k_N _ _ (r_keeps _ _ _ _ H1)) as KN1. rewrite KN1.
  destruct (loop_ok v f c' Hv (S (Z.to_nat N)) g1 (set_V a1 V) stk W W 1 0) as (g' & b & E & Hb & Ub & Rb & Mb & Db & Rcb); auto.
  - cbn [set_V eV]. rewrite (fs_nb _ _ SV). exact Vf.
  - pose proof (unmarked_le v (set_V a1 V)). lia.
  - right. exists W, c, A1, [W], D1. cbn [set_V eV]. rewrite OV. split; [|auto]. constructor; cbn [set_V eV prl vis]; auto.
    + apply (fsim_act _ _ _ _ SV). exact Ac.
    + rewrite (fs_nb _ _ SV). constructor.
    + rewrite (fs_B _ _ SV). exact B1.
    + discriminate.
    + intros x Px Vx. destruct (Mk x Px Vx) as (c1 & J1 & J2 & J3). left. exists c1. split; [auto|]. split; [auto|]. apply (recd_mono v a); auto.
    + right. intros E. destruct (fo_via _ _ (us_fw _ _ U) v f Hf) as (c1 & W2 & W3). fold W in W2, W3. apply W3. rewrite E. symmetry. eapply (via_unique g0 kids St); eauto.
    + intros d Ad An9 Ld Lt. exfalso. apply (fsim_act _ _ _ _ SV) in Ad. rewrite (fs_nb _ _ SV) in An9. pose proof (B_near g0 kids St _ _ _ _ _ (us_geo _ _ U) Ad V4 An9). lia.
  - pose proof (uprel_trans _ _ _ _ R2 Rb) as R3. exists g', b. split; [auto|]. split; [auto|]. split; [auto|]. split; [|split; [auto|split; [auto|split]]].
    + destruct R3. constructor; auto.
    + cbn [set_V eV] in Rcb. rewrite (fs_nb _ _ SV) in Rcb. exact Rcb.
    + rewrite (ur_pe _ _ _ R3). reflexivity.
Qed.

Lemma walkups_ok v : prim v -> forall n l1 l2 g a stk, rp g a stk -> upst v a -> marks v a -> peok v a -> fw a v = l1 ++ l2 -> (length l2 < n)%nat ->
  (forall f, In f l1 -> (exists c, via v c (nb (eV a) f) /\ prl a c <> []) /\ recd v a (nb (eV a) f) /\ pe a (nb (eV a) f) = f) ->
  exists g' b, walkups_loop n g v (hd NIL l2) = Ret g' /\ rp g' b stk /\ upst v b /\ wrel v a b /\ peok v b /\
    forall f, In f (fw b v) -> (exists c, via v c (nb (eV b) f) /\ prl b c <> []) /\ recd v b (nb (eV b) f) /\ pe b (nb (eV b) f) = f.
Proof.
  intros Hv. induction n as [|n IH]; intros l1 l2 g a stk H U Mk Pe E Hn Dn; [lia|]. destruct l2 as [|f l2]; cbn [hd walkups_loop].
  { cbn [Z.eqb NIL]. exists g, a. split; [auto|]. split; [auto|]. split; [auto|]. split; [constructor; auto; apply fsim_refl|]. split; [auto|]. rewrite E, app_nil_r. auto. }
  assert (Hf : In f (fw a v)) by (rewrite E; apply in_app_iff; right; now left).
  pose proof (r_fwrange _ _ _ _ H v f Hf) as Rf. rewrite (eqb_false_neq f NIL) by (unfold NIL; lia).
  destruct (fo_via _ _ (us_fw _ _ U) v f Hf) as (c & Vc & _).
  destruct (walkup_ok v f c g a stk Hv H U Hf Vc Mk) as (g1 & a1 & W1 & H1 & U1 & R1 & M1 & D1 & Rc1 & P1). rewrite W1. cbn [bind].
  assert (E1 : fw a1 v = l1 ++ f :: l2) by (rewrite (wr_fw _ _ _ R1); exact E).
  pose proof (r_ring _ _ _ _ H1 v) as Rg. pose proof (r_fwnd _ _ _ _ H1 v) as Nd. rewrite E1 in Rg, Nd. destruct (ring_at _ _ _ _ _ Rg) as [Nx _].
  pose proof (k_N _ _ (r_keeps _ _ _ _ H1)) as KN. pose proof (k_cap _ _ (r_keeps _ _ _ _ H1)) as KC. pose proof (k_cap _ _ (r_keeps _ _ _ _ H)) as KC0.
  rewrite get_next by (apply inE_true; unfold gp_EdgeIndexBound in *; lia). cbn [bind]. rewrite Nx.
  unfold GeoP.prim in Hv. vi1. cbn [bind]. rewrite (r_fwhd _ _ _ _ H1) by lia. rewrite E1.
  assert (En : (if hd (hd NIL (l1 ++ f :: l2)) l2 =? hd NIL (l1 ++ f :: l2) then NIL else hd (hd NIL (l1 ++ f :: l2)) l2) = hd NIL l2).
  { destruct l2 as [|h l2]; cbn [hd]; [now rewrite Z.eqb_refl|]. rewrite eqb_false_neq; [auto|]. intros Q. destruct l1 as [|y l1]; cbn [app hd] in Q, Nd.
    - apply NoDup_cons_iff in Nd. apply (proj1 Nd). subst. now left.
    - apply NoDup_cons_iff in Nd. apply (proj1 Nd). rewrite in_app_iff. right. right. left. auto. }
  rewrite En. destruct (IH (l1 ++ [f]) l2 g1 a1 stk) as (g' & b & W2 & H2 & U2 & R2 & P2 & D2); auto.
  - intros x. rewrite P1, (wr_fw _ _ _ R1), (fs_nb _ _ (wr_sim _ _ _ R1)). unfold upd. destruct (Z.eqb_spec x (nb (eV a) f)) as [->|]; auto.
  - rewrite E1, <- app_assoc. reflexivity.
  - cbn [length] in Hn. lia.
  - intros h Hh. rewrite (fs_nb _ _ (wr_sim _ _ _ R1)), P1. apply in_app_iff in Hh. destruct Hh as [Hh|[<-|[]]].
    + destruct (Dn h Hh) as ((c1 & Q1 & Q2) & Q3 & Q4). split; [|split].
      * exists c1. split; [auto|]. destruct (prl a c1) as [|d0 l0] eqn:Ed; [congruence|].
        pose proof (wr_prl _ _ _ R1 c1 d0) as I. rewrite Ed in I. specialize (I (or_introl eq_refl)). destruct (prl a1 c1); [destruct I|discriminate].
      * apply (recd_mono v a a1); auto; [apply (wr_sim _ _ _ R1)|apply (wr_prl _ _ _ R1)].
      * unfold upd. destruct (Z.eqb_spec (nb (eV a) h) (nb (eV a) f)) as [En'|]; [exfalso|auto].
        pose proof (fo_sorted _ _ (us_fw _ _ U) v) as So. rewrite E in So. apply in_split in Hh. destruct Hh as (h1 & h2 & ->). rewrite <- app_assoc in So. cbn [app] in So.
        assert (Sf : StronglySorted (fun e e' => nb (eV a) e < nb (eV a) e') (h :: h2 ++ f :: l2)) by (clear -So; induction h1; [exact So|]; apply IHh1; now inversion So).
        inversion Sf as [|? ? _ Fa]; subst. rewrite Forall_forall in Fa. specialize (Fa f ltac:(rewrite in_app_iff; right; now left)). cbn beta in Fa. lia.
    + split; [eauto|]. split; [exact Rc1|]. apply upd_same.
  - exists g', b. split; [auto|]. split; [auto|]. split; [auto|]. split; [eapply wrel_trans; eauto|]. auto.
Qed.
End Up.
