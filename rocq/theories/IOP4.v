(** * IOP4: pulling arcs out of the detached list. *)
From Coq Require Import ZifyBool Permutation.
From Verif Require Import Base BaseP GraphRec GraphM GraphSpec GSimp LinkP GraphP GraphP2 GraphP3 GraphP4 GraphP5 EmbP IOP2 IOP3 IOM.

Lemma last_app_ne {A} (l l' : list A) d : l' <> [] -> last (l ++ l') d = last l' d.
Proof.
  intros H. destruct (list_snoc l') as [->|(m & x & ->)]; [congruence|]. rewrite app_assoc, !last_snoc. reflexivity.
Qed.
Lemma hd_app_ne {A} (l l' : list A) d : l <> [] -> hd d (l ++ l') = hd d l.
Proof. destruct l; [congruence|reflexivity]. Qed.
Lemma hd_ne {A} (l : list A) d d' : l <> [] -> hd d l = hd d' l.
Proof. destruct l; [congruence|reflexivity]. Qed.
Lemma last_ne {A} (l : list A) d d' : l <> [] -> last l d = last l d'.
Proof. intros H. destruct (list_snoc l) as [->|(m & x & ->)]; [congruence|]. rewrite !last_snoc. reflexivity. Qed.

Lemma circ_rot g A B : circ g (A ++ B) -> circ g (B ++ A).
Proof.
  unfold circ. destruct A as [|a A]; [rewrite app_nil_r; auto|]. destruct B as [|b B]; [rewrite app_nil_r; auto|].
  rewrite !linked_app, !last_app_ne by discriminate. rewrite !hd_app_ne by discriminate.
  cbn [hd]. intros [H1 H2]. split.
  - rewrite (last_ne (a :: A) NIL (last (b :: B) NIL)) by discriminate. exact H2.
  - rewrite (last_ne (b :: B) (last (a :: A) NIL) NIL) by discriminate. exact H1.
Qed.

Lemma reclose nx pv T p q a b : linked nx pv p T q -> NoDup T -> T <> [] -> a = hd NIL T -> b = last T NIL ->
  linked (upd nx b a) (upd pv a b) b T a.
Proof.
  intros H ND NE Ea Eb. apply linked_char. intros l1 e l2 E. rewrite linked_char in H. destruct (H _ _ _ E) as [H1 H2].
  split.
  - unfold upd. destruct l1 as [|x l1].
    + cbn [last]. rewrite Ea, E. cbn [app hd]. rewrite Z.eqb_refl. reflexivity.
    + destruct (Z.eqb_spec e a) as [->|N].
      * exfalso. assert (Ex : a = x) by (rewrite Ea, E; reflexivity). subst x. rewrite E in ND. cbn [app] in ND.
        inversion ND as [|y z N1 N2]; subst y z. apply N1. rewrite in_app_iff. right. left. reflexivity.
      * rewrite H1. apply last_ne. discriminate.
  - unfold upd. destruct l2 as [|x l2].
    + cbn [hd]. rewrite Eb, E, last_snoc, Z.eqb_refl. reflexivity.
    + destruct (Z.eqb_spec e b) as [->|N]; [|exact H2].
      exfalso. rewrite E in ND. apply NoDup_remove_2 in ND. apply ND. rewrite in_app_iff. right.
      assert (Eb' : b = last (x :: l2) NIL).
      { rewrite Eb, E. change (b :: x :: l2) with ([b] ++ x :: l2). rewrite app_assoc. apply last_app_ne. discriminate. }
      rewrite Eb'. apply last_in. discriminate.
Qed.

Lemma attach_first_ok g adj v new :
  chains g adj -> is_vertex g v -> (forall w, ~ In new (adj w)) -> 2 <= new < gp_EdgeIndexBound g ->
  wp (gp_AttachFirstArc g v new) (fun g' => ins_effect g g' v [] (adj v) new).
Proof.
  intros C Hv Hf Hr. unfold gp_AttachFirstArc, gp_BindLastArc, gp_BindFirstArc.
  assert (HnN : new <> 0) by lia. run. rewrite (ch_first _ _ C v Hv).
  destruct (adj v) as [|f l] eqn:E; cbn [hd].
  - rewrite Z.eqb_refl. cbn [negb]. run.
    gsimp.  constructor; gsimp; cbn [hd last isnil andb negb].
    + constructor; reflexivity.
    + intros x. unfold upd. eqbs; try congruence; try reflexivity.
    + intros x. unfold upd. eqbs; try congruence; try reflexivity.
    + intros x. unfold upd. eqbs; congruence.
    + intros x. unfold upd. eqbs; congruence.
  - assert (Hfin : In f (adj v)) by (rewrite E; simpl; auto).
    pose proof (ch_range _ _ C _ _ Hfin) as Hfr.
    assert (Hfn : f <> new) by (intros ->; exact (Hf v Hfin)).
    destruct (Z.eqb_spec f NIL) as [->|_]; [unfold NIL in *; lia|]. cbn [negb].
    run.
    gsimp.  constructor; gsimp; cbn [hd last isnil andb negb].
    + constructor; reflexivity.
    + intros x. unfold upd. eqbs; try congruence; try reflexivity.
    + intros x. unfold upd. eqbs; try congruence; try reflexivity.
    + intros x. unfold upd. eqbs; congruence.
    + intros x. reflexivity.
Qed.

(** Unlinking e from the circular list. *)
Lemma unlink_ok n C g adj v D1 e D2 :
  mid n C g adj v (D1 ++ e :: D2) ->
  exists g', unlink_circular g e = Ret g' /\ circ g' (D1 ++ D2) /\
    (exists nx pv, g' = set_enext (set_eprev g pv) nx) /\
    forall x, ~ In x (D1 ++ e :: D2) -> enext g' x = enext g x /\ eprev g' x = eprev g x.
Proof.
  intros M. pose proof (md_circ _ _ _ _ _ _ M) as Ci. pose proof (md_nodup _ _ _ _ _ _ M) as ND.
  assert (Rg : forall x, In x (D1 ++ e :: D2) -> inE g x = true).
  { intros x Hx. apply inE_true. pose proof (mid_range _ _ _ _ _ _ v x M (or_intror (conj eq_refl Hx))). lia. }
  apply circ_rot in Ci. change ((e :: D2) ++ D1) with (e :: (D2 ++ D1)) in Ci. set (T := D2 ++ D1) in *.
  assert (PT : forall x, In x (e :: T) <-> In x (D1 ++ e :: D2)).
  { intros x. unfold T. cbn [In]. rewrite !in_app_iff. cbn [In]. tauto. }
  assert (NT : NoDup (e :: T)).
  { eapply Permutation_NoDup; [|exact ND]. unfold T. change (e :: D2 ++ D1) with ((e :: D2) ++ D1). apply Permutation_app_comm. }
  unfold circ in Ci. destruct Ci as (C1 & C2 & C3). cbn [hd] in *.
  assert (Ie : In e (D1 ++ e :: D2)) by (apply PT; left; reflexivity).
  unfold unlink_circular. rewrite get_next by auto. rewrite bind_ret. rewrite get_prev by auto. rewrite bind_ret.
  assert (In1 : In (enext g e) (D1 ++ e :: D2)).
  { apply PT. rewrite C2. destruct T as [|t T]; [left; reflexivity|right; left; reflexivity]. }
  assert (Ip1 : In (eprev g e) (D1 ++ e :: D2)).
  { apply PT. rewrite C1. apply last_in. discriminate. }
  rewrite set_prev by auto. rewrite bind_ret. rewrite get_prev by (apply Rg; exact Ie). rewrite bind_ret.
  rewrite get_next by (apply Rg; exact Ie). rewrite bind_ret. cbn [enext eprev set_eprev].
  assert (EP : upd (eprev g) (enext g e) (eprev g e) e = eprev g e) by (unfold upd; destruct (e =? enext g e); reflexivity).
  rewrite EP. rewrite set_next by (apply Rg; exact Ip1).
  eexists. split; [reflexivity|]. split; [|split; [eexists; eexists; reflexivity|]].
  - apply circ_rot. fold T. unfold circ. cbn [enext eprev set_enext set_eprev].
    destruct T as [|t T']; [exact Logic.I|]. set (T := t :: T') in *.
    assert (EL : eprev g e = last T NIL) by (rewrite C1; reflexivity).
    assert (EH : enext g e = hd NIL T) by (rewrite C2; reflexivity).
    rewrite EL, EH. inversion NT as [|y z N1 N2]; subst y z.
    exact (reclose _ _ T _ _ (hd NIL T) (last T NIL) C3 N2 ltac:(discriminate) eq_refl eq_refl).
  - intros x Hx. cbn [enext eprev set_enext set_eprev]. split; apply upd_other; intros ->; auto.
Qed.

Lemma relink_ok n C g adj v D1 e D2 :
  mid n C g adj v (D1 ++ e :: D2) -> is_vertex g v ->
  exists g1 g', unlink_circular g e = Ret g1 /\ gp_AttachFirstArc g1 v e = Ret g' /\
    mid n C g' (upd adj v (e :: adj v)) v (D1 ++ D2) /\ enbr g' = enbr g /\ gM g' = gM g /\ giflags g' = giflags g /\
    gVI g' = gVI g.
Proof.
  intros M Hv. destruct (unlink_ok _ _ _ _ _ _ _ _ M) as (g1 & E1 & Ci & (nx & pv & G1) & Fr).
  assert (Ie : In e (D1 ++ e :: D2)) by (rewrite in_app_iff; right; left; reflexivity).
  assert (NA : forall w, ~ In e (adj w)) by (intros w H; exact (md_disj _ _ _ _ _ _ M w e H Ie)).
  assert (C1 : chains g1 adj).
  { eapply chains_agree; [apply (md_chains _ _ _ _ _ _ M)|subst g1; reflexivity|subst g1; unfold gp_EdgeIndexBound; cbn; lia|..].
    - intros w _. subst g1. split; reflexivity.
    - intros w x Hx. apply Fr. exact (md_disj _ _ _ _ _ _ M w x Hx). }
  assert (Re : 2 <= e < gp_EdgeIndexBound g1).
  { pose proof (mid_range _ _ _ _ _ _ v e M (or_intror (conj eq_refl Ie))). subst g1. exact H. }
  assert (Hv1 : is_vertex g1 v) by (subst g1; exact Hv).
  destruct (wp_inv _ _ (attach_first_ok g1 adj v e C1 Hv1 NA Re)) as (g' & E2 & I2).
  exists g1, g'. split; [exact E1|]. split; [exact E2|]. pose proof (ie_frame _ _ _ _ _ _ I2) as F.
  pose proof (chains_insert _ _ _ v [] (adj v) e C1 Hv1 eq_refl NA Re I2) as C2. cbn [app] in C2.
  pose proof (md_nodup _ _ _ _ _ _ M) as ND.
  assert (NeD : ~ In e (D1 ++ D2)) by (apply NoDup_remove_2; exact ND).
  assert (OW : forall w x, owned (upd adj v (e :: adj v)) v (D1 ++ D2) w x <-> owned adj v (D1 ++ e :: D2) w x).
  { intros w x. unfold owned, upd. rewrite !in_app_iff. cbn [In]. destruct (Z.eqb_spec w v) as [->|N]; cbn [In]; tauto. }
  split; [|subst g1; rewrite (fl_enbr _ _ F), (fl_M _ _ F), (fl_iflags _ _ F), (fl_VI _ _ F); auto].
  constructor.
  - exact C2.
  - apply (circ_frame g1); [|exact Ci]. intros x Hx. rewrite (ie_next _ _ _ _ _ _ I2), (ie_prev _ _ _ _ _ _ I2).
    assert (x <> e) by (intros ->; auto). replace (x =? e) with false by lia. cbn [isnil negb andb]. split; [reflexivity|].
    destruct (adj v) as [|f l] eqn:Ev; [reflexivity|]. cbn [isnil negb andb hd]. destruct (Z.eqb_spec x f) as [->|]; [|reflexivity].
    exfalso. apply (md_disj _ _ _ _ _ _ M v f); [rewrite Ev; left; reflexivity|]. rewrite in_app_iff in *. cbn [In]. tauto.
  - apply NoDup_remove_1 in ND. exact ND.
  - intros w x Hx. unfold upd in Hx. destruct (Z.eqb_spec w v) as [->|N].
    + destruct Hx as [<-|Hx]; [exact NeD|]. intros H. apply (md_disj _ _ _ _ _ _ M v x Hx). rewrite in_app_iff in *. cbn [In]. tauto.
    + intros H. apply (md_disj _ _ _ _ _ _ M w x Hx). rewrite in_app_iff in *. cbn [In]. tauto.
  - intros w x H. apply OW in H. rewrite (fl_M _ _ F), (fl_enbr _ _ F). subst g1. apply (md_own _ _ _ _ _ _ M). exact H.
  - rewrite (fl_M _ _ F), (fl_enbr _ _ F). subst g1. intros x H. apply OW. apply (md_cover _ _ _ _ _ _ M). exact H.
  - rewrite (fl_holes _ _ F). subst g1. apply M.
  - rewrite (fl_N _ _ F). subst g1. apply M.
  - rewrite (fl_M _ _ F). subst g1. apply M.
  - rewrite (fl_M _ _ F), (fl_cap _ _ F). subst g1. apply M.
  - rewrite (fl_cap _ _ F). subst g1. apply M.
  - rewrite (fl_cap _ _ F). subst g1. apply M.
  - rewrite (fl_cap _ _ F), (fl_holesCap _ _ F). subst g1. apply M.
  - rewrite (fl_stack _ _ F). subst g1. apply M.
  - rewrite (fl_stackCap _ _ F). subst g1. apply M.
  - rewrite (fl_cap _ _ F), (fl_eflags _ _ F). subst g1. apply M.
Qed.

Lemma mid_visited n C g adj v D vi : mid n C g adj v D -> mid n C (set_gVI g vi) adj v D.
Proof.
  intros M. constructor; gsimp; try apply M. eapply chains_congr; [..|apply (md_chains _ _ _ _ _ _ M)]; reflexivity.
Qed.

Lemma pull_ok n C g adj v D1 e D2 W :
  mid n C g adj v (D1 ++ e :: D2) -> is_vertex g v -> 1 <= W <= n -> viVisited (gVI g) W = e ->
  exists g', pull_arc g v W (hd NIL (D1 ++ e :: D2)) = Ret (g', hd NIL (D1 ++ D2)) /\
    mid n C g' (upd adj v (e :: adj v)) v (D1 ++ D2) /\ enbr g' = enbr g /\ gM g' = gM g /\ giflags g' = giflags g /\
    viVisited (gVI g') = upd (viVisited (gVI g)) W NIL.
Proof.
  intros M Hv HW HVis. unfold pull_arc, gp_GetVertexVisitedInfo, rd_vi, gp_SetVertexVisitedInfo.
  pose proof (md_N _ _ _ _ _ _ M) as EN.
  rewrite guard_true by (unfold inVI, gp_PrimaryVertexIndexBound; lia). rewrite bind_ret, HVis.
  rewrite guard_true by (unfold inVI, gp_PrimaryVertexIndexBound; lia). rewrite bind_ret.
  set (g0 := set_gVI g _).
  assert (M0 : mid n C g0 adj v (D1 ++ e :: D2)) by (apply mid_visited; exact M).
  destruct (relink_ok _ _ _ _ _ _ _ _ M0 Hv) as (g1 & g2 & E1 & E2 & M2 & N2 & Mm & I2 & V2).
  assert (EA : (if hd NIL (D1 ++ e :: D2) =? e then nx <- gp_GetNextArc g0 e ;; Ret (if nx =? e then NIL else nx)
                else Ret (hd NIL (D1 ++ e :: D2))) = Ret (hd NIL (D1 ++ D2))).
  { pose proof (md_nodup _ _ _ _ _ _ M) as ND. pose proof (md_circ _ _ _ _ _ _ M0) as Ci.
    assert (Ie : In e (D1 ++ e :: D2)) by (rewrite in_app_iff; right; left; reflexivity).
    destruct D1 as [|d D1]; cbn [app hd] in *.
    - rewrite Z.eqb_refl. rewrite get_next.
      2:{ apply inE_true. pose proof (mid_range _ _ _ _ _ _ v e M0 (or_intror (conj eq_refl Ie))). lia. }
      rewrite bind_ret. destruct Ci as (_ & C2 & _). cbn [hd] in C2. rewrite C2. destruct D2 as [|d D2]; cbn [hd].
      + rewrite Z.eqb_refl. reflexivity.
      + inversion ND as [|x y N1 N3]; subst x y. destruct (Z.eqb_spec d e) as [->|]; [|reflexivity]. exfalso. apply N1. left. reflexivity.
    - inversion ND as [|x y N1 N3]; subst x y. destruct (Z.eqb_spec d e) as [->|]; [|reflexivity].
      exfalso. apply N1. rewrite in_app_iff. right. left. reflexivity. }
  rewrite EA, bind_ret, E1, bind_ret, E2, bind_ret. exists g2. split; [reflexivity|]. split; [exact M2|].
  split; [exact N2|]. split; [exact Mm|]. split; [exact I2|]. rewrite V2. reflexivity.
Qed.
