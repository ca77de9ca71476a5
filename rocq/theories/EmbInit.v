(** * EmbInit: the lists built by the search that starts the embedder. *)
From Coq Require Import ZifyBool Permutation Sorted.
From Verif Require Import Base BaseP GraphRec GraphM GraphSpec GSimp LinkP GraphP GraphP2 GraphP5 ListM ListSpec ListP DFSM DFSSpec DFSP DFSP2 TestM EmbM EmbSpec EmbP FaceP GeoP EmbInv.

(** ** Appending to a circular list *)
Lemma ring_append nx pv nx' pv' l f : ring nx pv l -> NoDup l -> ~ In f l ->
  (forall x, In x l -> nx' x = if x =? last l NIL then f else nx x) ->
  (forall x, In x l -> pv' x = if x =? hd NIL l then f else pv x) ->
  nx' f = hd f l -> pv' f = last l f -> ring nx' pv' (l ++ [f]).
Proof.
  intros R Nd Nf En Ep Ef Ff. unfold ring in *. rewrite linked_char in R. apply linked_char. intros a e b E. rewrite last_snoc.
  destruct (list_snoc b) as [->|(b' & y & ->)].
  - apply app_inj_tail in E. destruct E as [<- <-]. rewrite Ef, Ff. split; [auto|]. cbn [hd]. destruct l; reflexivity.
  - assert (E2 : l = a ++ e :: b' /\ f = y).
    { replace (a ++ e :: b' ++ [y]) with ((a ++ e :: b') ++ [y]) in E by (now rewrite <- app_assoc). apply app_inj_tail in E. exact E. }
    destruct E2 as [E2 <-]. assert (Ie : In e l) by (rewrite E2; apply in_app_iff; right; now left). destruct (R a e b' E2) as [R1 R2].
    rewrite (En e Ie), (Ep e Ie). subst l. split.
    + destruct a as [|x a].
      * cbn [app hd]. rewrite Z.eqb_refl. reflexivity.
      * cbn [app hd]. rewrite eqb_false_neq.
        2:{ intros ->. cbn [app] in Nd. apply NoDup_cons_iff in Nd. apply (proj1 Nd). apply in_app_iff. right. now left. }
        rewrite R1. apply last_default. discriminate.
    + destruct b' as [|x b'].
      * cbn [app hd]. rewrite last_app_ne by discriminate. cbn [last]. now rewrite Z.eqb_refl.
      * rewrite eqb_false_neq; [rewrite R2; reflexivity|]. intros Q. rewrite last_app_ne in Q by discriminate. apply NoDup_app_r in Nd. apply NoDup_cons_iff in Nd. apply (proj1 Nd).
        rewrite Q. change (last (e :: x :: b') NIL) with (last (x :: b') NIL). apply last_in. discriminate.
Qed.

(** The graph with the lists of the virtual vertices emptied. *)
Definition view (g : graph) : graph :=
  set_vlast (set_vfirst g (fun x => if x <=? gN g then vfirst g x else NIL)) (fun x => if x <=? gN g then vlast g x else NIL).

Definition unlink (h : graph) (w et : Z) : res graph :=
  ePrev <- gp_GetPrevArc h et ;;
  eNext <- gp_GetNextArc h et ;;
  g <- (if negb (ePrev =? NIL) then gp_SetNextArc h ePrev eNext
        else gp_SetFirstArc h w eNext) ;;
  (if negb (eNext =? NIL) then gp_SetPrevArc g eNext ePrev
   else gp_SetLastArc g w ePrev).
Definition ringins (g : graph) (w eTwin : Z) : res graph :=
  f <- gp_GetVertexFwdArcList g w ;;
  (if negb (f =? NIL) then
     ePrev <- gp_GetPrevArc g f ;;
     g <- gp_SetPrevArc g eTwin ePrev ;;
     g <- gp_SetNextArc g eTwin f ;;
     g <- gp_SetPrevArc g f eTwin ;;
     gp_SetNextArc g ePrev eTwin
   else
     g <- gp_SetVertexFwdArcList g w eTwin ;;
     g <- gp_SetPrevArc g eTwin eTwin ;;
     gp_SetNextArc g eTwin eTwin).

Definition lset (h : graph) (nx pv vf vl fd : Z -> Z) : graph :=
  set_gVI (set_vlast (set_vfirst (set_eprev (set_enext h nx) pv) vf) vl) (set_viFwd (gVI h) fd).
Lemma lset_id h : lset h (enext h) (eprev h) (vfirst h) (vlast h) (viFwd (gVI h)) = h.
Proof. destruct h as [? ? ? ? ? ? ? ? ? ? ? ? ? ? ? ? ? i ?]. destruct i. reflexivity. Qed.

Lemma unlink_ok h A w l1 et l2 : chains (view h) A -> A w = l1 ++ et :: l2 -> 1 <= w <= gN h ->
  exists nx pv vf vl, let k := lset h nx pv vf vl (viFwd (gVI h)) in unlink h w et = Ret k /\ del_effect (view h) (view k) w l1 l2 /\
    (forall x, gN h < x -> vf x = vfirst h x /\ vl x = vlast h x).
Proof.
  intros C E Hw. pose proof (chains_links _ _ _ _ _ _ C E) as [Ep En]. cbn [view eprev enext set_vfirst set_vlast] in Ep, En.
  assert (Rg : forall x, In x (l1 ++ et :: l2) -> 2 <= x < gp_EdgeIndexBound h) by (intros x Hx; rewrite <- E in Hx; apply (ch_range _ _ C _ _ Hx)).
  assert (Re : 2 <= et < gp_EdgeIndexBound h) by (apply Rg; apply in_app_iff; right; now left).
  unfold unlink. rewrite get_prev by bnd. cbn [bind]. rewrite get_next by bnd. cbn [bind]. rewrite Ep, En.
  pose (nx := if isnil l1 then enext h else upd (enext h) (last l1 NIL) (hd NIL l2)).
  pose (pv := if isnil l2 then eprev h else upd (eprev h) (hd NIL l2) (last l1 NIL)).
  pose (vf := if isnil l1 then upd (vfirst h) w (hd NIL l2) else vfirst h).
  pose (vl := if isnil l2 then upd (vlast h) w (last l1 NIL) else vlast h).
  exists nx, pv, vf, vl. cbv zeta. split; [|split].
  - assert (R1 : l1 <> [] -> 2 <= last l1 NIL < gp_EdgeIndexBound h) by (intros N1; apply Rg, in_app_iff; left; now apply last_in).
    assert (R2 : l2 <> [] -> 2 <= hd NIL l2 < gp_EdgeIndexBound h) by (intros N2; apply Rg, in_app_iff; right; right; now apply hd_in).
    assert (S1 : (if negb (last l1 NIL =? NIL) then gp_SetNextArc h (last l1 NIL) (hd NIL l2) else gp_SetFirstArc h w (hd NIL l2)) = Ret (set_vfirst (set_enext h nx) vf)).
    { unfold nx, vf. destruct l1 as [|y l1].
      - cbn [last]. rewrite Z.eqb_refl. cbn [negb isnil]. rewrite set_first by bnd. destruct h; reflexivity.
      - specialize (R1 ltac:(discriminate)). rewrite (eqb_false_neq _ NIL) by (unfold NIL in *; lia). cbn [negb isnil]. rewrite set_next by bnd. destruct h; reflexivity. }
    rewrite S1. cbn [bind]. unfold pv, vl. destruct l2 as [|y l2].
    + cbn [hd]. rewrite Z.eqb_refl. cbn [negb isnil]. rewrite set_last by bnd. unfold lset. destruct h as [? ? ? ? ? ? ? ? ? ? ? ? ? ? ? ? ? i ?]. destruct i. reflexivity.
    + specialize (R2 ltac:(discriminate)). rewrite (eqb_false_neq (hd NIL (y :: l2)) NIL) by (unfold NIL in *; lia). cbn [negb isnil]. rewrite set_prev by bnd.
      unfold lset. destruct h as [? ? ? ? ? ? ? ? ? ? ? ? ? ? ? ? ? i ?]. destruct i. reflexivity.
  - constructor.
    + constructor; try reflexivity. unfold lset, view. gsimp. destruct (gVI h); reflexivity.
    + intros x. unfold lset, view. gsimp. unfold nx. destruct (isnil l1); cbn [negb andb]; [reflexivity|]. unfold upd. destruct (x =? last l1 NIL); reflexivity.
    + intros x. unfold lset, view. gsimp. unfold pv. destruct (isnil l2); cbn [negb andb]; [reflexivity|]. unfold upd. destruct (x =? hd NIL l2); reflexivity.
    + intros x. unfold lset, view. gsimp. unfold vf. destruct (isnil l1); cbn [negb andb]; [|reflexivity]. unfold upd. destruct (Z.eqb_spec x w) as [->|]; [|reflexivity]. now replace (w <=? gN h) with true by lia.
    + intros x. unfold lset, view. gsimp. unfold vl. destruct (isnil l2); cbn [negb andb]; [|reflexivity]. unfold upd. destruct (Z.eqb_spec x w) as [->|]; [|reflexivity]. now replace (w <=? gN h) with true by lia.
  - intros x Hx. unfold vf, vl. split; [destruct (isnil l1)|destruct (isnil l2)]; auto; apply upd_other; lia.
Qed.

Lemma ringins_ok h w F et : 1 <= w <= gN h -> viFwd (gVI h) w = hd NIL F -> ring (enext h) (eprev h) F -> NoDup F -> ~ In et F ->
  (forall x, In x F -> 2 <= x < gp_EdgeIndexBound h) -> 2 <= et < gp_EdgeIndexBound h ->
  exists nx pv fd, let k := lset h nx pv (vfirst h) (vlast h) fd in ringins h w et = Ret k /\ ring nx pv (F ++ [et]) /\
    fd w = hd NIL (F ++ [et]) /\ (forall x, x <> w -> fd x = viFwd (gVI h) x) /\
    (forall x, ~ In x F -> x <> et -> nx x = enext h x /\ pv x = eprev h x).
Proof.
  intros Hw Ef R Nd Nf Rg Re. unfold ringins, gp_GetVertexFwdArcList. rewrite vi_ok by lia. cbn [bind]. rewrite Ef.
  destruct F as [|f F].
  - cbn [hd]. rewrite Z.eqb_refl. cbn [negb]. exists (upd (enext h) et et), (upd (eprev h) et et), (upd (viFwd (gVI h)) w et). cbv zeta. split; [|split; [|split; [|split]]].
    + unfold gp_SetVertexFwdArcList. rewrite vi_guard by lia. cbn [bind]. rewrite set_prev by bnd. cbn [bind]. rewrite set_next by bnd. unfold lset. destruct h as [? ? ? ? ? ? ? ? ? ? ? ? ? ? ? ? ? i ?]. destruct i. reflexivity.
    + unfold ring. cbn. rewrite !upd_same. auto.
    + apply upd_same.
    + intros x Hx. now apply upd_other.
    + intros x _ Hx. rewrite !upd_other by auto. auto.
  - cbn [hd]. assert (If : In f (f :: F)) by now left. pose proof (Rg f If) as Rf. rewrite (eqb_false_neq f NIL) by (unfold NIL; lia). cbn [negb].
    assert (Ep : eprev h f = last (f :: F) NIL).
    { unfold ring in R. cbn [linked] in R. tauto. }
    assert (Il : In (last (f :: F) NIL) (f :: F)) by (apply last_in; discriminate). pose proof (Rg _ Il) as Rl.
    assert (Net : et <> f /\ et <> last (f :: F) NIL) by (split; intros ->; auto).
    set (L := last (f :: F) NIL) in *.
    exists (upd (upd (enext h) et f) L et), (upd (upd (eprev h) et L) f et), (viFwd (gVI h)). cbv zeta. split; [|split; [|split; [|split]]].
    + rewrite get_prev by bnd. cbn [bind]. rewrite Ep. rewrite set_prev by bnd. cbn [bind]. rewrite set_next by bnd. cbn [bind]. gsimp. rewrite set_prev by bnd. cbn [bind]. gsimp. rewrite set_next by bnd.
      unfold lset. destruct h as [? ? ? ? ? ? ? ? ? ? ? ? ? ? ? ? ? i ?]. destruct i. reflexivity.
    + apply (ring_append (enext h) (eprev h)); auto.
      * intros x Hx. fold L. destruct (Z.eqb_spec x L) as [->|N1]; [apply upd_same|]. rewrite !upd_other; auto. intros ->; auto.
      * intros x Hx. cbn [hd]. destruct (Z.eqb_spec x f) as [->|N1]; [apply upd_same|]. rewrite !upd_other; auto. intros ->; auto.
      * rewrite upd_other by tauto. apply upd_same.
      * rewrite upd_other by tauto. rewrite upd_same. apply last_default. discriminate.
    + cbn [app hd]. auto.
    + auto.
    + intros x H1 H2. rewrite !upd_other; auto; intros ->; auto.
Qed.

Lemma filter_true {A} (f : A -> bool) l : (forall x, In x l -> f x = true) -> filter f l = l.
Proof. induction l as [|x l IH]; intros H; cbn [filter]; [reflexivity|]. rewrite (H x) by now left. f_equal. apply IH. intros y Hy. apply H. now right. Qed.
Lemma filter_filter {A} (f h : A -> bool) l : filter f (filter h l) = filter (fun x => h x && f x) l.
Proof. induction l as [|x l IH]; cbn [filter]; [reflexivity|]. destruct (h x); cbn [filter andb]; [destruct (f x)|]; now rewrite IH. Qed.
Lemma chains_same g h A : chains g A -> gN h = gN g -> gCap h = gCap g -> vfirst h = vfirst g -> vlast h = vlast g ->
  enext h = enext g -> eprev h = eprev g -> chains h A.
Proof.
  intros [C1 C2 C3 C4 C5 C6 C7] E1 E2 E3 E4 E5 E6.
  constructor; unfold is_vertex, gp_EdgeIndexBound in *; rewrite ?E1, ?E2, ?E3, ?E4, ?E5, ?E6; auto.
Qed.
Lemma chains_set_links g nx pv A : chains g A -> (forall v x, In x (A v) -> nx x = enext g x /\ pv x = eprev g x) ->
  chains (set_eprev (set_enext g nx) pv) A.
Proof.
  intros [C1 C2 C3 C4 C5 C6 C7] E. constructor; auto. intros v Hv. gsimp. eapply linked_ext; [|apply C3; exact Hv]. intros e He. now apply (E v).
Qed.

Definition simple_adj (g0 : graph) (adj : Z -> list Z) : Prop :=
  (forall u e, In e (adj u) -> enbr g0 e <> u) /\ (forall u e e', In e (adj u) -> In e' (adj u) -> enbr g0 e = enbr g0 e' -> e = e').

Section Init.
Variables (g0 : graph) (adj : Z -> list Z).
Hypotheses (R0 : rep g0 adj) (P0 : primary_edges g0 adj) (Sm : simple_adj g0 adj).

Definition al (g : graph) (u : Z) : list Z := filter (fun e => negb (etype g e =? EDGE_TYPE_FORWARD)) (adj u).
(** The arcs of a vertex are in its list, except the forward arcs, which are in its ring. *)
Record lnk (g : graph) (F : Z -> list Z) : Prop := {
  lk_ch : chains (view g) (al g);
  lk_hd : forall u, primary g0 u -> viFwd (gVI g) u = hd NIL (F u);
  lk_ring : forall u, ring (enext g) (eprev g) (F u);
  lk_in : forall u f, In f (F u) <-> In f (adj u) /\ etype g f = EDGE_TYPE_FORWARD;
  lk_nd : forall u, NoDup (F u) }.

Lemma lnk_same g h F : lnk g F -> gN h = gN g -> gCap h = gCap g -> vfirst h = vfirst g -> vlast h = vlast g ->
  enext h = enext g -> eprev h = eprev g -> eflags h = eflags g -> viFwd (gVI h) = viFwd (gVI g) -> lnk h F.
Proof.
  intros [L1 L2 L3 L4 L5] E1 E2 E3 E4 E5 E6 E7 E8.
  assert (T : forall x, etype h x = etype g x) by (intros x; unfold etype; now rewrite E7).
  constructor; rewrite ?E5, ?E6, ?E8; auto.
  - apply (chains_ext _ (al g)).
    + apply (chains_same (view g)); auto; unfold view; gsimp; now rewrite E1, ?E3, ?E4.
    + intros v. unfold al. apply filter_ext. intros x. now rewrite T.
  - intros u f. rewrite T. apply L4.
Qed.
Lemma adj_disj u v e : In e (adj u) -> In e (adj v) -> u = v.
Proof. apply (ch_disj _ _ (rep_chains _ _ R0)). Qed.

Lemma move_ok g F e u : gN g = gN g0 -> gCap g = gCap g0 -> enbr g = enbr g0 -> lnk g F -> In e (adj u) -> etype g e = 0 -> etype g (twin e) = 0 ->
  let w := enbr g0 e in let et := twin e in let g1 := mark_edge g e EDGE_TYPE_BACK EDGE_TYPE_FORWARD in
  exists nx pv vf vl fd, let g' := lset g1 nx pv vf vl fd in
    (k <- unlink g1 w et ;; ringins k w et) = Ret g' /\ lnk g' (upd F w (F w ++ [et])) /\
    (forall x, gN g0 < x -> vf x = vfirst g x /\ vl x = vlast g x).
Proof.
  intros EN EC EB L He T1 T2 w et g1.
  destruct (arc_twin g0 adj R0 _ _ He) as (Es & Het & Htt & Hnt). fold et w in Het, Htt, Hnt.
  destruct (arc_primary g0 adj R0 P0 _ _ He) as [Pu Pw]. fold w in Pw.
  assert (Ty : forall x, etype g1 x = if x =? et then EDGE_TYPE_FORWARD else if x =? e then EDGE_TYPE_BACK else etype g x).
  { intros x. apply etype_mark; auto. }
  assert (Rr : forall v x, In x (adj v) -> 2 <= x < gp_EdgeIndexBound g).
  { intros v x Hx. pose proof (ch_range _ _ (rep_chains _ _ R0) v x Hx) as Q. unfold gp_EdgeIndexBound in *. now rewrite EC. }
  assert (Ia : In et (al g w)) by (apply filter_In; split; [auto|]; fold et in T2; now rewrite T2).
  apply in_split in Ia. destruct Ia as (l1 & l2 & El).
  assert (C1 : chains (view g1) (al g)) by (apply (chains_same (view g)); [apply L|reflexivity..]).
  destruct (unlink_ok g1 (al g) w l1 et l2 C1 El) as (nx & pv & vf & vl & E1 & DE & Hv); [change (gN g1) with (gN g); rewrite EN; exact Pw|].
  set (k := lset g1 nx pv vf vl (viFwd (gVI g1))) in *.
  pose proof (chains_delete _ _ _ _ _ _ _ C1 El DE) as C2.
  assert (NdA : forall v, NoDup (adj v)) by (apply (ch_nodup _ _ (rep_chains _ _ R0))).
  assert (EA : forall v, al g1 v = upd (al g) w (l1 ++ l2) v).
  { intros v. unfold upd. destruct (Z.eqb_spec v w) as [->|Nv].
    - assert (NdL : NoDup (l1 ++ et :: l2)) by (rewrite <- El; apply NoDup_filter, NdA).
      apply NoDup_remove in NdL. destruct NdL as [_ NdL].
      transitivity (filter (fun x => negb (x =? et)) (al g w)).
      + unfold al. rewrite filter_filter. apply filter_ext_in. intros x Hx. rewrite Ty. destruct (Z.eqb_spec x et) as [->|N1].
        * cbn [negb]. now rewrite andb_false_r.
        * cbn [negb]. rewrite andb_true_r. destruct (Z.eqb_spec x e) as [->|N2]; [now rewrite T1|]. reflexivity.
      + rewrite El, filter_app. cbn [filter]. rewrite Z.eqb_refl. cbn [negb]. rewrite <- filter_app. apply filter_true. intros x Hx.
        apply negb_true_iff, Z.eqb_neq. intros ->. auto.
    - unfold al. apply filter_ext_in. intros x Hx. rewrite Ty. destruct (Z.eqb_spec x et) as [->|N1].
      + exfalso. apply Nv. now apply (adj_disj _ _ et).
      + destruct (Z.eqb_spec x e) as [->|N2]; [now rewrite T1|]. reflexivity. }
  assert (C3 : chains (view k) (al g1)) by (now apply (chains_ext _ (upd (al g) w (l1 ++ l2)))).
  assert (Nal : forall v v' x, In x (F v) -> ~ In x (al g v')).
  { intros v v' x Hx Hy. apply (lk_in _ _ L) in Hx. apply filter_In in Hy. destruct Hx as [_ Hx], Hy as [_ Hy]. rewrite Hx in Hy. discriminate. }
  assert (Lk : forall v x, In x (F v) -> nx x = enext g x /\ pv x = eprev g x).
  { intros v x Hx. pose proof (de_next _ _ _ _ _ DE x) as D1. pose proof (de_prev _ _ _ _ _ DE x) as D2.
    change (enext (view k) x) with (nx x) in D1. change (eprev (view k) x) with (pv x) in D2.
    change (enext (view g1) x) with (enext g x) in D1. change (eprev (view g1) x) with (eprev g x) in D2. rewrite D1, D2.
    assert (N1 : negb (isnil l1) && (x =? last l1 NIL) = false).
    { destruct l1 as [|y l1]; [reflexivity|]. cbn [isnil negb andb]. apply Z.eqb_neq. intros ->. apply (Nal v w _ Hx). rewrite El. apply in_app_iff. left. apply last_in. discriminate. }
    assert (N2 : negb (isnil l2) && (x =? hd NIL l2) = false).
    { destruct l2 as [|y l2]; [reflexivity|]. cbn [isnil negb andb]. apply Z.eqb_neq. intros ->. apply (Nal v w _ Hx). rewrite El. apply in_app_iff. right. right. now left. }
    now rewrite N1, N2. }
  assert (NF : ~ In et (F w)) by (intros Hi; apply (lk_in _ _ L) in Hi; destruct Hi as [_ Hi]; fold et in T2; rewrite T2 in Hi; discriminate).
  destruct (ringins_ok k w (F w) et) as (nx2 & pv2 & fd & E2 & R2 & H2 & H3 & H4).
  { change (gN k) with (gN g). rewrite EN. exact Pw. }
  { change (viFwd (gVI k) w) with (viFwd (gVI g) w). now apply L. }
  { unfold ring. eapply linked_ext; [|apply (lk_ring _ _ L w)]. intros x Hx. now apply (Lk w). }
  { apply L. }
  { exact NF. }
  { intros x Hx. apply (lk_in _ _ L) in Hx. exact (Rr w x (proj1 Hx)). }
  { exact (Rr w et Het). }
  exists nx2, pv2, vf, vl, fd. cbv zeta. rewrite E1. cbn [bind]. split; [exact E2|]. split; [|exact (fun x Hx => Hv x (eq_ind_r (fun n => n < x) Hx EN))].
  set (g' := lset g1 nx2 pv2 vf vl fd).
  constructor.
  - apply (chains_same (set_eprev (set_enext (view k) nx2) pv2)); try reflexivity.
    change (al g') with (al g1). apply chains_set_links; [exact C3|]. intros v x Hx. apply filter_In in Hx. destruct Hx as [Hx Hy]. rewrite Ty in Hy.
    apply H4.
    + intros Hi. apply (lk_in _ _ L) in Hi. destruct Hi as [_ Hi]. destruct (x =? et); [discriminate|]. destruct (Z.eqb_spec x e) as [->|]; [rewrite T1 in Hi; discriminate|]. rewrite Hi in Hy. discriminate.
    + intros ->. rewrite Z.eqb_refl in Hy. discriminate.
  - intros v Pv. change (viFwd (gVI g') v) with (fd v). unfold upd. destruct (Z.eqb_spec v w) as [->|Nv]; [exact H2|]. rewrite H3 by auto. now apply (lk_hd _ _ L).
  - intros v. unfold upd. destruct (Z.eqb_spec v w) as [->|Nv]; [exact R2|]. unfold ring. eapply linked_ext; [|apply (lk_ring _ _ L v)].
    intros x Hx. destruct (Lk v x Hx) as [Q1 Q2]. change (enext g' x) with (nx2 x). change (eprev g' x) with (pv2 x). rewrite <- Q1, <- Q2. apply H4.
    + intros Hi. apply (lk_in _ _ L) in Hx, Hi. apply Nv. now apply (adj_disj _ _ x).
    + intros ->. apply (lk_in _ _ L) in Hx. destruct Hx as [_ Hx]. fold et in T2. rewrite T2 in Hx. discriminate.
  - intros v f. change (etype g' f) with (etype g1 f). rewrite Ty. unfold upd. destruct (Z.eqb_spec v w) as [->|Nv].
    + rewrite in_app_iff, (lk_in _ _ L). cbn [In]. destruct (Z.eqb_spec f et) as [->|N1].
      * tauto.
      * destruct (Z.eqb_spec f e) as [->|N2]; [|intuition congruence]. rewrite T1. split; [intros [[_ Q]|[Q|[]]]; [discriminate|congruence]|intros [_ Q]; discriminate].
    + rewrite (lk_in _ _ L). destruct (Z.eqb_spec f et) as [->|N1].
      * split; intros [Q _]; exfalso; apply Nv; now apply (adj_disj _ _ et).
      * destruct (Z.eqb_spec f e) as [->|N2]; [|tauto]. rewrite T1. split; intros [_ Q]; discriminate.
  - intros v. unfold upd. destruct (Z.eqb_spec v w) as [->|Nv]; [|apply L]. apply NoDup_app_intro; [apply L|constructor; [intros []|constructor]|]. intros x Hx [<-|[]]. auto.
Qed.

(** ** The loop over the arcs of a newly numbered vertex *)
Record mframe (gs g : graph) : Prop := {
  mf_N : gN g = gN gs; mf_M : gM g = gM gs; mf_cap : gCap g = gCap gs;
  mf_vindex : vindex g = vindex gs; mf_vflags : vflags g = vflags gs; mf_enbr : enbr g = enbr gs;
  mf_holes : gholes g = gholes gs; mf_holesCap : gholesCap g = gholesCap gs; mf_stackCap : gstackCap g = gstackCap gs;
  mf_if : giflags g = giflags gs; mf_embed : gembed g = gembed gs; mf_X : gX g = gX gs;
  mf_VI : gVI g = set_viLeast (set_viFwd (gVI gs) (viFwd (gVI g))) (viLeast (gVI g));
  mf_virt : forall x, gN g0 < x -> vfirst g x = vfirst gs x /\ vlast g x = vlast gs x;
  mf_fl : forall x, Z.ldiff (eflags g x) EDGE_TYPE_MASK = Z.ldiff (eflags gs x) EDGE_TYPE_MASK }.

Section Arcs.
Variables (gs : graph) (u : Z) (F0 : Z -> list Z).
Definition bk (x : Z) : bool := visited gs (enbr g0 x) && negb (etype gs x =? EDGE_TYPE_PARENT).
Definition fsorted (F : Z -> list Z) : Prop := forall v, StronglySorted (fun a b => vindex gs (enbr g0 a) < vindex gs (enbr g0 b)) (F v).
Hypotheses (HN : gN gs = gN g0) (HC : gCap gs = gCap g0) (HB : enbr gs = enbr g0).
Hypothesis L0 : lnk gs F0.
Hypothesis S0 : fsorted F0.
Hypothesis Pu : primary g0 u.
Hypothesis Top : forall v f, In f (F0 v) -> vindex gs (enbr g0 f) < vindex gs u.
Hypothesis Clean : forall e, In e (adj u) -> etype gs e <> EDGE_TYPE_FORWARD.
Hypothesis Zero : forall e, In e (adj u) -> bk e = true -> etype gs e = 0 /\ etype gs (twin e) = 0.

Record mid (done : list Z) (g : graph) (F : Z -> list Z) : Prop := {
  md_fr : mframe gs g;
  md_stk : gstack g = flat g0 (rev (filter (fun e => negb (visited gs (enbr g0 e))) done)) ++ gstack gs;
  md_ty1 : forall x, In x done -> bk x = true -> etype g x = EDGE_TYPE_BACK /\ etype g (twin x) = EDGE_TYPE_FORWARD;
  md_ty2 : forall x, ~ (In x done /\ bk x = true) -> ~ (In (twin x) done /\ bk (twin x) = true) -> etype g x = etype gs x;
  md_lnk : lnk g F;
  md_sort : fsorted F;
  md_la : forall x, x <> u -> viLeast (gVI g) x = viLeast (gVI gs) x;
  md_lau : viLeast (gVI g) u <= viLeast (gVI gs) u;
  md_lab : forall e, In e done -> bk e = true -> viLeast (gVI g) u <= vindex gs (enbr g0 e);
  md_lax : viLeast (gVI g) u = viLeast (gVI gs) u \/ exists e, In e done /\ bk e = true /\ viLeast (gVI g) u = vindex gs (enbr g0 e) }.

Lemma mframe_refl g : mframe g g.
Proof. constructor; auto. destruct (gVI g); reflexivity. Qed.

Lemma sort_snoc {A} (R : A -> A -> Prop) l x : StronglySorted R l -> Forall (fun y => R y x) l -> StronglySorted R (l ++ [x]).
Proof.
  intros S. induction S as [|y l S IH H]; intros Q; cbn [app].
  - constructor; [constructor|constructor].
  - inversion Q; subst. constructor; [now apply IH|]. apply Forall_app. split; [auto|]. constructor; [auto|constructor].
Qed.

Lemma arcs_split n g e : e <> NIL -> inE g e = true -> inE g (twin e) = true ->
  einit_arcs_loop (S n) g u e =
      (w <- gp_GetNeighbor g e ;;
      vis <- gp_GetVertexVisited g w ;;
      g <- (if vis =? 0 then stk_push2 g u e
            else
              t <- gp_GetEdgeType g e ;;
              if t =? EDGE_TYPE_PARENT then Ret g
              else
                g <- (k <- unlink (mark_edge g e EDGE_TYPE_BACK EDGE_TYPE_FORWARD) w (twin e) ;; ringins k w (twin e)) ;;
                i <- gp_GetVertexIndex g w ;;
                la <- gp_GetVertexLeastAncestor g u ;;
                if i <? la then gp_SetVertexLeastAncestor g u i else Ret g) ;;
      e' <- gp_GetNextArc g e ;;
      einit_arcs_loop n g u e').
Proof.
  intros Ne I1 I2. cbn [einit_arcs_loop]. rewrite (eqb_false_neq _ _ Ne).
  destruct (gp_GetNeighbor g e) as [w| |]; cbn [bind]; try reflexivity.
  destruct (gp_GetVertexVisited g w) as [vis| |]; cbn [bind]; try reflexivity.
  destruct (vis =? 0); [reflexivity|]. destruct (gp_GetEdgeType g e) as [t| |]; cbn [bind]; try reflexivity.
  destruct (t =? EDGE_TYPE_PARENT); [reflexivity|].
  pose proof (mark_edge_ok g e EDGE_TYPE_BACK EDGE_TYPE_FORWARD I1 I2) as E.
  destruct (gp_SetEdgeType g e EDGE_TYPE_BACK) as [h| |]; cbn [bind] in E |- *; try discriminate. rewrite E. cbn [bind]. rewrite twin_eq.
  set (m := mark_edge g e EDGE_TYPE_BACK EDGE_TYPE_FORWARD). clearbody m. unfold unlink.
  destruct (gp_GetPrevArc m (twin e)) as [ep| |]; cbn [bind]; try reflexivity.
  destruct (gp_GetNextArc m (twin e)) as [en| |]; cbn [bind]; try reflexivity.
  destruct (if negb (ep =? NIL) then gp_SetNextArc m ep en else gp_SetFirstArc m w en) as [m1| |]; cbn [bind]; try reflexivity.
  destruct (if negb (en =? NIL) then gp_SetPrevArc m1 en ep else gp_SetLastArc m1 w ep) as [m2| |]; cbn [bind]; try reflexivity.
  unfold ringins. destruct (gp_GetVertexFwdArcList m2 w) as [f| |]; cbn [bind]; reflexivity.
Qed.

Lemma arcs_loop_ok : forall l done n g F, adj u = done ++ l -> (length l < n)%nat -> mid done g F ->
  Z.of_nat (length (gstack g)) + 2 * Z.of_nat (length (filter (fun e => negb (visited gs (enbr g0 e))) l)) <= gstackCap g ->
  exists g' F', einit_arcs_loop n g u (hd NIL l) = Ret g' /\ mid (adj u) g' F'.
Proof.
  induction l as [|e l IH]; intros done n g F E Hn M Hc; destruct n as [|n]; cbn [length] in Hn; try lia.
  { cbn [einit_arcs_loop hd]. rewrite Z.eqb_refl. exists g, F. split; [reflexivity|]. rewrite app_nil_r in E. now rewrite E. }
  assert (Hi : In e (adj u)) by (rewrite E; apply in_app_iff; right; now left).
  destruct (arc_twin g0 adj R0 _ _ Hi) as (Es & Het & Htt & Hnt). destruct (arc_primary g0 adj R0 P0 _ _ Hi) as [_ Pw].
  pose proof (md_fr _ _ _ M) as Fr.
  assert (EC : gCap g = gCap g0) by (rewrite (mf_cap _ _ Fr); exact HC). assert (EN : gN g = gN g0) by (rewrite (mf_N _ _ Fr); exact HN).
  assert (EB : enbr g = enbr g0) by (rewrite (mf_enbr _ _ Fr); exact HB).
  assert (Ie : inE g e = true) by (apply (arc_inE g0 adj R0 _ u); auto). assert (Ie' : inE g (twin e) = true) by (apply (arc_inE g0 adj R0 _ (enbr g0 e)); auto).
  cbn [hd]. rewrite arcs_split; [|apply (ch_nonnil _ _ _ _ (rep_chains _ _ R0) Hi)|exact Ie|exact Ie'].
  rewrite (get_nbr _ _ Ie). cbn [bind]. rewrite EB.
  destruct (prim_inV g0 g (enbr g0 e) EN Pw) as [Iw Iw']. rewrite (get_visited _ _ Iw). cbn [bind]. rewrite (mf_vflags _ _ Fr).
  assert (NdU : NoDup (done ++ e :: l)) by (rewrite <- E; apply (ch_nodup _ _ (rep_chains _ _ R0))).
  assert (Nd : ~ In e done) by (intros Q; apply NoDup_remove_2 in NdU; apply NdU, in_app_iff; auto).
  assert (Ntd : ~ In (twin e) done).
  { intros Q. assert (In (twin e) (adj u)) as Q2 by (rewrite E; apply in_app_iff; auto). pose proof (adj_disj _ _ _ Q2 Het) as Q3. symmetry in Q3. revert Q3. now apply Sm. }
  assert (Tge : etype g e = etype gs e) by (apply (md_ty2 _ _ _ M); tauto).
  assert (Tgt : etype g (twin e) = etype gs (twin e)) by (apply (md_ty2 _ _ _ M); rewrite ?Htt; tauto).
  (* reading the next arc *)
  assert (Nxt : forall g' F', lnk g' F' -> (forall x, In x (adj u) -> etype g' x <> EDGE_TYPE_FORWARD) -> enext g' e = hd NIL l).
  { intros g' F' L' Q. assert (Ea : al g' u = done ++ e :: l).
    { unfold al. rewrite filter_true; [exact E|]. intros x Hx. apply negb_true_iff, Z.eqb_neq. auto. }
    pose proof (chains_links _ _ _ _ _ _ (lk_ch _ _ L') Ea) as [_ Q2]. exact Q2. }
  assert (NF : forall g' d F', mid d g' F' -> (forall x, In x d -> In x (adj u)) -> forall x, In x (adj u) -> etype g' x <> EDGE_TYPE_FORWARD).
  { intros g' d F' M' Q x Hx T.
    destruct (in_dec Z.eq_dec (twin x) d) as [Ht|Ht].
    - apply Q in Ht. destruct (arc_twin g0 adj R0 _ _ Hx) as (_ & A2 & _). pose proof (adj_disj _ _ _ Ht A2) as A3. symmetry in A3. revert A3. now apply Sm.
    - destruct (in_dec Z.eq_dec x d) as [Hd|Hd]; [destruct (bk x) eqn:B|].
      + destruct (md_ty1 _ _ _ M' x Hd B) as [A _]. rewrite A in T. discriminate.
      + rewrite (md_ty2 _ _ _ M' x) in T; [now apply (Clean x)|intros [_ A]; congruence|tauto].
      + rewrite (md_ty2 _ _ _ M' x) in T; [now apply (Clean x)|tauto|tauto]. }
  assert (Sub : forall x, In x (done ++ [e]) -> In x (adj u)) by (intros x Hx; rewrite E; apply in_app_iff in Hx; apply in_app_iff; destruct Hx as [|[<-|[]]]; [auto|right; now left]).
  (* the rest of the loop *)
  assert (Go : forall g' F', mid (done ++ [e]) g' F' ->
     Z.of_nat (length (gstack g')) + 2 * Z.of_nat (length (filter (fun e => negb (visited gs (enbr g0 e))) l)) <= gstackCap g' ->
     exists g'' F'', (e' <- gp_GetNextArc g' e ;; einit_arcs_loop n g' u e') = Ret g'' /\ mid (adj u) g'' F'').
  { intros g' F' M' Hc'. rewrite get_next by (apply (arc_inE g0 adj R0 _ u); [rewrite (mf_cap _ _ (md_fr _ _ _ M')); exact HC|exact Hi]). cbn [bind].
    rewrite (Nxt g' F'); [|apply M'|now apply (NF g' (done ++ [e]) F')].
    apply (IH (done ++ [e]) n g' F'); [now rewrite <- app_assoc|lia|exact M'|exact Hc']. }
  fold (visited gs (enbr g0 e)). destruct (Z.land (vflags gs (enbr g0 e)) VERTEX_VISITED_MASK =? 0) eqn:Ev.
  - assert (Uv : visited gs (enbr g0 e) = false) by (unfold visited; now rewrite Ev).
    cbn [filter] in Hc. rewrite Uv in Hc. cbn [negb length] in Hc. rewrite DFSP.push2_ok by lia. cbn [bind].
    assert (Bf : bk e = false) by (unfold bk; now rewrite Uv).
    apply (Go _ F).
    + destruct M as [M1 M2 M3 M4 M5 M6 M7 M8 M9 M10]. constructor.
      * destruct M1. constructor; auto.
      * gsimp. rewrite M2, filter_app. cbn [filter]. rewrite Uv. cbn [negb]. rewrite rev_app_distr. cbn [rev app flat flat_map]. rewrite Es. reflexivity.
      * intros x Hx B. apply M3; [|auto]. apply in_app_iff in Hx. destruct Hx as [|[<-|[]]]; [auto|congruence].
      * intros x Q1 Q2. apply M4; rewrite in_app_iff in *; tauto.
      * apply (lnk_same g); auto.
      * exact M6.
      * exact M7.
      * exact M8.
      * intros x Hx B. apply M9; [|auto]. apply in_app_iff in Hx. destruct Hx as [|[<-|[]]]; [auto|congruence].
      * destruct M10 as [M10|(x & Hx & Q)]; [now left|]. right. exists x. rewrite in_app_iff. auto.
    + gsimp. cbn [length]. lia.
  - assert (Uv : visited gs (enbr g0 e) = true) by (unfold visited; now rewrite Ev).
    cbn [filter] in Hc. rewrite Uv in Hc. cbn [negb] in Hc.
    unfold gp_GetEdgeType. rewrite rd_eflags_ok by exact Ie. cbn [bind]. fold (etype g e). rewrite Tge.
    assert (Fl : filter (fun e => negb (visited gs (enbr g0 e))) (done ++ [e]) = filter (fun e => negb (visited gs (enbr g0 e))) done).
    { rewrite filter_app. cbn [filter]. rewrite Uv. cbn [negb]. apply app_nil_r. }
    destruct (etype gs e =? EDGE_TYPE_PARENT) eqn:Ep.
    + assert (Bf : bk e = false) by (unfold bk; now rewrite Uv, Ep). cbn [bind]. apply (Go _ F); [|lia].
      destruct M as [M1 M2 M3 M4 M5 M6 M7 M8 M9 M10]. constructor; auto.
      * now rewrite Fl.
      * intros x Hx B. apply M3; [|auto]. apply in_app_iff in Hx. destruct Hx as [|[<-|[]]]; [auto|congruence].
      * intros x Q1 Q2. apply M4; rewrite in_app_iff in *; tauto.
      * intros x Hx B. apply M9; [|auto]. apply in_app_iff in Hx. destruct Hx as [|[<-|[]]]; [auto|congruence].
      * destruct M10 as [M10|(x & Hx & Q)]; [now left|]. right. exists x. rewrite in_app_iff. auto.
    + assert (Bt : bk e = true) by (unfold bk; now rewrite Uv, Ep).
      destruct (Zero e Hi Bt) as [Z1 Z2]. rewrite <- Tge in Z1. rewrite <- Tgt in Z2.
      destruct (move_ok g F e u EN EC EB (md_lnk _ _ _ M) Hi Z1 Z2) as (nx & pv & vf & vl & fd & E1 & L1 & Hv). cbv zeta in E1, L1. rewrite E1. cbn [bind].
      set (w := enbr g0 e) in *. set (m := mark_edge g e EDGE_TYPE_BACK EDGE_TYPE_FORWARD) in *.
      set (g1 := lset m nx pv vf vl fd) in *.
      unfold gp_GetVertexIndex. rewrite guard_true by exact Iw. cbn [bind]. change (vindex g1 w) with (vindex g w). rewrite (mf_vindex _ _ Fr).
      assert (Iu : inVI g1 u = true) by (apply (prim_inV g0 g u EN Pu)).
      unfold gp_GetVertexLeastAncestor, rd_vi. rewrite guard_true by exact Iu. cbn [bind]. change (viLeast (gVI g1) u) with (viLeast (gVI g) u).
      assert (Ty : forall x, etype m x = if x =? twin e then EDGE_TYPE_FORWARD else if x =? e then EDGE_TYPE_BACK else etype g x) by (intros x; now apply etype_mark).
      set (F1 := upd F w (F w ++ [twin e])) in *.
      assert (Srt : fsorted F1).
      { intros v. unfold F1, upd. destruct (Z.eqb_spec v w) as [->|Nv]; [|apply (md_sort _ _ _ M)]. apply sort_snoc; [apply (md_sort _ _ _ M)|].
        apply Forall_forall. intros f Hf. rewrite Hnt. apply (lk_in _ _ (md_lnk _ _ _ M)) in Hf. destruct Hf as [Hf1 Hf2].
        destruct (arc_twin g0 adj R0 _ _ Hf1) as (A1 & A2 & A3 & A4).
        destruct (in_dec Z.eq_dec (twin f) done) as [Ht|Ht].
        - exfalso. assert (A5 : In (twin f) (adj u)) by (rewrite E; apply in_app_iff; auto).
          assert (A6 : twin f = e) by (apply (proj2 Sm u); [exact A5|exact Hi|rewrite A4; reflexivity]). congruence.
        - apply (Top w). apply (lk_in _ _ L0). split; [exact Hf1|]. rewrite <- Hf2. symmetry. apply (md_ty2 _ _ _ M); [|tauto].
          intros [A5 _]. assert (A6 : In f (adj u)) by (rewrite E; apply in_app_iff; auto). pose proof (adj_disj _ _ _ A6 Hf1) as A7. symmetry in A7. revert A7. now apply Sm. }
      assert (Fr1 : forall la, mframe gs (set_gVI g1 (set_viLeast (gVI g1) la))).
      { intros la. destruct Fr. constructor; auto.
        - unfold g1, m, lset, mark_edge. gsimp. rewrite mf_VI0. reflexivity.
        - intros x Hx. destruct (Hv x Hx) as [A1 A2]. destruct (mf_virt0 x Hx) as [A3 A4]. unfold g1, lset. gsimp. split; congruence.
        - intros x. rewrite <- mf_fl0. unfold g1, m, lset, mark_edge. gsimp. unfold upd. destruct (x =? twin e) eqn:X1.
          + apply Z.eqb_eq in X1. subst x. rewrite (eqb_false_neq (twin e) e) by (apply twin_neq). now rewrite ldiff_lor_mask.
          + destruct (x =? e) eqn:X2; [|reflexivity]. apply Z.eqb_eq in X2. subst x. now rewrite ldiff_lor_mask. }
      assert (Mid : forall la, (forall x, x <> u -> la x = viLeast (gVI g) x) -> la u <= viLeast (gVI g) u -> la u <= vindex gs w -> la u = viLeast (gVI g) u \/ la u = vindex gs w ->
         mid (done ++ [e]) (set_gVI g1 (set_viLeast (gVI g1) la)) F1).
      { intros la La1 La2 La3 La4. destruct M as [M1 M2 M3 M4 M5 M6 M7 M8 M9 M10]. set (g2 := set_gVI g1 (set_viLeast (gVI g1) la)).
        assert (T2 : forall x, etype g2 x = etype m x) by reflexivity.
        assert (Oth : forall x, In x done -> x <> e /\ x <> twin e /\ twin x <> e /\ twin x <> twin e).
        { intros x Hx. assert (x <> e) by (intros ->; auto). assert (x <> twin e) by (intros ->; auto). repeat split; auto.
          - intros Q. apply H0. rewrite <- Q. symmetry. apply twin_twin.
          - intros Q. apply H. now apply twin_inj. }
        constructor.
        - apply Fr1.
        - rewrite Fl. exact M2.
        - intros x Hx B. rewrite !T2, !Ty. apply in_app_iff in Hx. destruct Hx as [Hx|[<-|[]]].
          + destruct (Oth x Hx) as (O1 & O2 & O3 & O4). rewrite !eqb_false_neq by auto. now apply M3.
          + rewrite !Z.eqb_refl, (eqb_false_neq e (twin e)) by (apply not_eq_sym, twin_neq). auto.
        - intros x Q1 Q2. rewrite T2, Ty. rewrite in_app_iff in Q1, Q2. cbn [In] in Q1, Q2.
          rewrite (eqb_false_neq x (twin e)); [rewrite (eqb_false_neq x e)|].
          + apply M4; tauto.
          + intros ->. tauto.
          + intros ->. rewrite Htt in Q2. tauto.
        - apply (lnk_same g1); auto.
        - exact Srt.
        - intros x Hx. change (viLeast (gVI g2) x) with (la x). rewrite La1 by auto. now apply M7.
        - change (viLeast (gVI g2) u) with (la u). lia.
        - intros x Hx B. change (viLeast (gVI g2) u) with (la u). apply in_app_iff in Hx. destruct Hx as [Hx|[<-|[]]]; [|exact La3]. specialize (M9 x Hx B). lia.
        - change (viLeast (gVI g2) u) with (la u). destruct La4 as [->| ->]; [|right; exists e; rewrite in_app_iff; cbn [In]; auto].
          destruct M10 as [M10|(x & Hx & Q)]; [now left|]. right. exists x. rewrite in_app_iff. auto. }
      destruct (vindex gs w <? viLeast (gVI g) u) eqn:Lt.
      * unfold gp_SetVertexLeastAncestor. rewrite guard_true by exact Iu. cbn [bind].
        apply (Go _ F1); [|exact Hc]. apply Mid.
        -- intros x Hx. now apply upd_other.
        -- rewrite upd_same. lia.
        -- rewrite upd_same. lia.
        -- right. apply upd_same.
      * cbn [bind]. apply (Go _ F1); [|exact Hc]. replace g1 with (set_gVI g1 (set_viLeast (gVI g1) (viLeast (gVI g)))) by (unfold g1, m, lset, mark_edge; reflexivity).
        apply Mid; [auto|lia|lia|now left].
Qed.
End Arcs.

(** ** The search, in step with gp_CreateDFSTree's search on a ghost graph [gd] *)
Record iframe (g : graph) : Prop := {
  if_N : gN g = gN g0; if_M : gM g = gM g0; if_cap : gCap g = gCap g0; if_enbr : enbr g = enbr g0;
  if_holes : gholes g = gholes g0; if_holesCap : gholesCap g = gholesCap g0; if_stackCap : gstackCap g = gstackCap g0;
  if_if : giflags g = giflags g0; if_embed : gembed g = gembed g0;
  if_fl : forall x, Z.ldiff (eflags g x) EDGE_TYPE_MASK = Z.ldiff (eflags g0 x) EDGE_TYPE_MASK;
  if_X : gX g = set_sdlPrev (set_sdlNext (gX g0) (sdlNext (gX g))) (sdlPrev (gX g));
  if_pe : viPertEdge (gVI g) = viPertEdge (gVI g0); if_pr : viPertRoots (gVI g) = viPertRoots (gVI g0);
  if_vv : viVisited (gVI g) = viVisited (gVI g0); if_fpc : viFPChild (gVI g) = viFPChild (gVI g0) }.

Record irel (gd g : graph) (es ord : list Z) (ta : Z -> Z) (F kd : Z -> list Z) : Prop := {
  ir_fr : iframe g;
  ir_vf : vflags g = vflags gd; ir_ix : vindex g = vindex gd; ir_par : viParent (gVI g) = viParent (gVI gd);
  ir_stk : gstack g = flat g0 es;
  ir_tf : forall u x, In x (adj u) -> In x es -> visited gd (enbr g0 x) = true -> etype g x = EDGE_TYPE_FORWARD /\ etype g (twin x) = EDGE_TYPE_BACK;
  ir_to : forall u x, In x (adj u) -> ~ (In x es /\ visited gd (enbr g0 x) = true) -> ~ (In (twin x) es /\ visited gd u = true) -> etype g x = etype gd x;
  ir_lnk : lnk g F;
  ir_srt : forall v, StronglySorted (fun a b => vindex gd (enbr g0 a) < vindex gd (enbr g0 b)) (F v);
  ir_kids : holds (mkCl (sdl g) (sdcheads g)) kd;
  ir_kid : forall u c, In c (kd u) <-> exists v, In v ord /\ vindex gd v = c /\ par gd v = u /\ u <> NIL;
  ir_ksort : forall u, StronglySorted Z.lt (kd u);
  ir_vt1 : forall v, In v ord -> par gd v <> NIL -> vfirst g (vindex gd v + gN g0) = ta v /\ vlast g (vindex gd v + gN g0) = ta v;
  ir_vt2 : forall x, gN g0 < x <= 2 * gN g0 -> (forall v, In v ord -> par gd v <> NIL -> x <> vindex gd v + gN g0) -> vfirst g x = NIL /\ vlast g x = NIL;
  ir_la1 : forall v, In v ord -> viLeast (gVI g) v <= vindex gd v;
  ir_la2 : forall v e, In v ord -> In e (adj v) -> etype g e = EDGE_TYPE_BACK -> viLeast (gVI g) v <= vindex gd (enbr g0 e);
  ir_la3 : forall v, In v ord -> viLeast (gVI g) v = vindex gd v \/
    exists e, In e (adj v) /\ etype g e = EDGE_TYPE_BACK /\ viLeast (gVI g) v = vindex gd (enbr g0 e) }.

Lemma kid_append g kd up c : holds (mkCl (sdl g) (sdcheads g)) kd -> 1 <= up <= gN g -> 1 <= c <= gN g -> (forall j, ~ In c (kd j)) ->
  exists sn sp sd, let g' := set_gVI (set_gX g (set_sdlPrev (set_sdlNext (gX g) sn) sp)) (set_viSDC (gVI g) sd) in
    gp_StoreAppendDFSChild g up c = Ret g' /\ holds (mkCl (sdl g') (sdcheads g')) (upd kd up (kd up ++ [c])).
Proof.
  intros H Hz Hc Fr. unfold gp_StoreAppendDFSChild, gp_GetVertexSortedDFSChildList. rewrite vi_ok by lia. cbn [bind].
  destruct (mlstep_refines _ _ (LAppend up c) H) as (s' & E1 & E3 & E2).
  { cbn [lop_valid cl_c sdl lcN]. unfold free_node, gp_PrimaryVertexIndexBound. split; [lia|auto]. }
  cbn [mlstep cl_heads cl_c] in E1. unfold sdcheads at 1 in E1. replace ((1 <=? up) && (up <=? gN g)) with true in E1 by lia.
  destruct (mLCAppend (sdl g) (viSDC (gVI g) up) c) as [[h c']| |]; try discriminate. cbn [bind] in *. injection E1 as <-. cbn [cl_c cl_heads] in *.
  cbn [lspec] in E2. exists (lcnext c'), (lcprev c'), (upd (viSDC (gVI g)) up h). cbv zeta. split.
  - unfold gp_SetVertexSortedDFSChildList. rewrite vi_guard by (unfold put_sdl; gsimp; lia). unfold put_sdl. gsimp. reflexivity.
  - destruct E2 as [h1 h2 h3 h4 h5 h6]. cbn [cl_c cl_heads] in *.
    assert (Ec : sdl (set_gVI (set_gX g (set_sdlPrev (set_sdlNext (gX g) (lcnext c')) (lcprev c'))) (set_viSDC (gVI g) (upd (viSDC (gVI g)) up h))) = c').
    { unfold sdl, gp_PrimaryVertexIndexBound. gsimp. unfold gp_PrimaryVertexIndexBound in E3. cbn [sdl lcN] in E3. unfold gp_PrimaryVertexIndexBound in E3. destruct c' as [n a b]. cbn [lcN lcnext lcprev] in *. f_equal. lia. }
    constructor; cbn [cl_c cl_heads]; rewrite ?Ec; auto.
    intros i. rewrite <- h1. unfold sdcheads, upd. gsimp. destruct (Z.eqb_spec i up) as [->|]; [|reflexivity]. now replace ((1 <=? up) && (up <=? gN g)) with true by lia.
Qed.

Definition evisit (g : graph) (u uparent e DFI : Z) : res graph :=
        g <- gp_SetVertexVisited g u ;;
        g <- gp_SetVertexIndex g u DFI ;;
        g <- gp_SetVertexParent g u uparent ;;
        g <- (if negb (e =? NIL) then
                g <- gp_SetEdgeType g e EDGE_TYPE_CHILD ;;
                g <- gp_SetEdgeType g (gp_GetTwinArc e) EDGE_TYPE_PARENT ;;
                i <- gp_GetVertexIndex g u ;;
                g <- gp_StoreAppendDFSChild g uparent i ;;
                i <- gp_GetVertexIndex g u ;;
                let R := gp_GetRootFromDFSChild g i in
                g <- gp_SetFirstArc g R e ;;
                gp_SetLastArc g R e
              else Ret g) ;;
        i <- gp_GetVertexIndex g u ;;
        g <- gp_SetVertexLeastAncestor g u i ;;
        e0 <- gp_GetFirstArc g u ;;
        einit_arcs_loop (efuel g) g u e0.
Lemma etree_unfold n g DFI v : einit_tree_loop (S n) g DFI v =
    if stk_empty g then Ret (g, DFI)
    else
      '(g, uparent, e) <- stk_pop2 g ;;
      u <- (if uparent =? NIL then Ret v else gp_GetNeighbor g e) ;;
      vis <- gp_GetVertexVisited g u ;;
      if vis =? 0 then
        g <- evisit g u uparent e DFI ;;
        einit_tree_loop n g (DFI + 1) v
      else einit_tree_loop n g DFI v.
Proof.
  cbn [einit_tree_loop]. destruct (stk_empty g); [reflexivity|].
  destruct (stk_pop2 g) as [[[g1 up] e]| |]; cbn [bind]; try reflexivity.
  destruct (if up =? NIL then Ret v else gp_GetNeighbor g1 e) as [u| |]; cbn [bind]; try reflexivity.
  destruct (gp_GetVertexVisited g1 u) as [vis| |]; cbn [bind]; try reflexivity.
  destruct (vis =? 0); [|reflexivity]. unfold evisit.
  destruct (gp_SetVertexVisited g1 u) as [h1| |]; cbn [bind]; try reflexivity.
  destruct (gp_SetVertexIndex h1 u DFI) as [h2| |]; cbn [bind]; try reflexivity.
  destruct (gp_SetVertexParent h2 u up) as [h3| |]; cbn [bind]; try reflexivity.
  match goal with |- bind ?m _ = _ => destruct m as [h4| |]; cbn [bind]; try reflexivity end.
  destruct (gp_GetVertexIndex h4 u) as [h5| |]; cbn [bind]; try reflexivity.
  destruct (gp_SetVertexLeastAncestor h4 u h5) as [h6| |]; cbn [bind]; try reflexivity.
  destruct (gp_GetFirstArc h6 u) as [h7| |]; cbn [bind]; reflexivity.
Qed.

(** The ghost graph after a visit. *)
Definition gvisit (gd : graph) (w DFI up e : Z) : graph :=
  if e =? NIL then mark_vertex gd w DFI up else mark_edge (mark_vertex gd w DFI up) e EDGE_TYPE_CHILD EDGE_TYPE_PARENT.
Lemma gvisit_fields gd w DFI up e : vflags (gvisit gd w DFI up e) = upd (vflags gd) w (Z.lor (vflags gd w) 1) /\
  vindex (gvisit gd w DFI up e) = upd (vindex gd) w DFI /\ viParent (gVI (gvisit gd w DFI up e)) = upd (viParent (gVI gd)) w up.
Proof. unfold gvisit. destruct (e =? NIL); unfold mark_edge, mark_vertex; gsimp; auto. Qed.

Lemma ghost_visit gd es' es ord ta r w up e :
  dinv g0 gd adj es' ord ta r -> primary g0 w -> visited gd w = false ->
  (es' = e :: es /\ up = src g0 e /\ enbr g0 e = w) \/ (es' = [] /\ es = [] /\ up = NIL /\ e = NIL /\ r <= w) ->
  let g1 := gvisit gd w (1 + Z.of_nat (length ord)) up e in
  dinv g0 g1 adj (newarcs g0 adj g1 w ++ es) (w :: ord) (if e =? NIL then ta else upd ta w e) (if e =? NIL then w else r).
Proof.
  intros D Pw Uw V g1. set (DFI := 1 + Z.of_nat (length ord)) in *. pose proof (di_frame _ _ _ _ _ _ _ D) as F.
  set (ga := mark_vertex gd w DFI up).
  assert (Fa : dfs_frame g0 ga) by (apply frame_mark_vertex; auto).
  assert (Fb : dfs_frame g0 g1) by (unfold g1, gvisit; destruct (e =? NIL); [auto|]; apply frame_mark_edge; auto).
  assert (Ne : forall e', es' = e' :: es -> e' <> NIL).
  { intros e' E. destruct (di_es_arc _ _ _ _ _ _ _ D e') as (B & _); [rewrite E; now left|].
    apply (ch_nonnil _ _ _ _ (rep_chains _ _ R0) B). }
  apply (visit_step g0 adj R0 P0 gd g1 es' es ord ta _ r _ w up D); auto.
  - destruct V as [(E & E1 & E2)|(E & E1 & E2 & E3 & E4)].
    + left. exists e. unfold g1, gvisit. rewrite (eqb_false_neq e NIL) by auto.
      destruct (di_es_arc _ _ _ _ _ _ _ D e) as (B1 & B2 & B3); [rewrite E; now left|].
      pose proof (di_edge _ _ _ _ _ _ _ D _ _ B1 B2) as S. rewrite E2 in S.
      assert (T : etype ga e = 0 /\ etype ga (twin e) = 0) by (destruct S; try congruence; auto).
      destruct T as [T1 T2].
      assert (Te := fun x => etype_mark ga e EDGE_TYPE_CHILD EDGE_TYPE_PARENT x eq_refl eq_refl T1 T2).
      do 5 (split; [auto|]). split; [|split].
      * etransitivity; [apply Te|]. rewrite (eqb_false_neq e (twin e)) by (apply not_eq_sym, twin_neq).
        now rewrite Z.eqb_refl.
      * etransitivity; [apply Te|]. now rewrite Z.eqb_refl.
      * intros x N1 N2. etransitivity; [apply Te|].
        now rewrite (eqb_false_neq x (twin e)), (eqb_false_neq x e) by auto.
    + right. unfold g1, gvisit. subst e. rewrite Z.eqb_refl. do 6 (split; [auto|]). reflexivity.
  - unfold g1, gvisit. destruct (e =? NIL); reflexivity.
  - intros x. transitivity (visited ga x); [unfold g1, gvisit; destruct (e =? NIL); reflexivity|]. apply (visited_mark gd).
  - unfold g1, gvisit. destruct (e =? NIL); reflexivity.
  - unfold g1, gvisit. destruct (e =? NIL); reflexivity.
Qed.
End Init.
