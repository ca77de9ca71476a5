(** * GraphP6: hiding and restoring edges and vertices. *)
From Coq Require Import ZifyBool.
From Verif Require Import Base BaseP GraphRec GraphM GraphSpec GSimp LinkP GraphP GraphP2 GraphP3 GraphP4 GraphP5.

Lemma eq_links_refl g : eq_links g g.
Proof. constructor; reflexivity. Qed.
Lemma eq_links_trans a b c : eq_links a b -> eq_links b c -> eq_links a c.
Proof. intros A B. constructor; intros x; [rewrite (el_first _ _ A)|rewrite (el_last _ _ A)|rewrite (el_next _ _ A)|rewrite (el_prev _ _ A)]; apply B. Qed.

Lemma chains_eq_links g h adj : chains g adj -> eq_links h g -> gN h = gN g -> gCap h = gCap g -> chains h adj.
Proof.
  intros C E HN HC. eapply chains_agree; [exact C|auto|unfold gp_EdgeIndexBound; lia|..]; intros; split; apply E.
Qed.

(** Undoing one detach. *)
Lemma undo_detach g g1 h adj v arc l1 l2 :
  chains g adj -> adj v = l1 ++ arc :: l2 -> del_effect g g1 v l1 l2 ->
  eq_links h g1 -> gN h = gN g -> gCap h = gCap g -> enbr h (twin arc) = v -> inE g (twin arc) = true ->
  wp (_RestoreArc h arc) (fun h' => eq_links h' g /\ frame_links h h').
Proof.
  intros C E D EL HN HC Hn Ht.
  assert (Hin : In arc (adj v)) by (rewrite E, in_app_iff; simpl; auto).
  assert (Hv : is_vertex g v) by (eapply ch_isvertex; eauto).
  pose proof (ch_range _ _ C _ _ Hin) as Har.
  assert (Nd : NoDup (l1 ++ arc :: l2)) by (rewrite <- E; apply C).
  pose proof (NoDup_remove_2 _ _ _ Nd) as Nin. rewrite in_app_iff in Nin.
  destruct (chains_links _ _ _ _ _ _ C E) as [Lp Ln].
  pose proof (chains_delete _ _ _ _ _ _ _ C E D) as C1.
  assert (F := de_frame _ _ _ _ _ D).
  assert (Ch : chains h (upd adj v (l1 ++ l2))).
  { eapply chains_eq_links; [exact C1|exact EL|..]; [rewrite (fl_N _ _ F)|rewrite (fl_cap _ _ F)]; auto. }
  assert (A1 : l1 <> [] -> arc <> last l1 NIL).
  { intros HH ->. apply Nin. left. clear -HH. destruct (list_snoc l1) as [->|(l & x & ->)]; [congruence|].
    rewrite last_snoc, in_app_iff. simpl; auto. }
  assert (A2 : l2 <> [] -> arc <> hd NIL l2).
  { intros HH ->. apply Nin. right. destruct l2; [congruence|]. simpl; auto. }
  eapply wp_mono.
  { apply (restore_arc_ok h (upd adj v (l1 ++ l2)) v arc l1 l2); auto.
    - unfold is_vertex. rewrite HN. exact Hv.
    - apply upd_same.
    - intros w. unfold upd. destruct (Z.eqb_spec w v) as [->|Hw]; [now rewrite in_app_iff|].
      intros H. apply Hw. symmetry. eapply (ch_disj _ _ C v w arc); auto.
    - unfold gp_EdgeIndexBound. rewrite HC. exact Har.
    - unfold inE, gp_EdgeIndexBound in *. now rewrite HC.
    - rewrite (el_prev _ _ EL), (de_prev _ _ _ _ _ D).
      destruct l2 as [|b l2']; cbn [isnil negb andb]; [exact Lp|].
      rewrite eqb_false_neq by (apply A2; congruence). exact Lp.
    - rewrite (el_next _ _ EL), (de_next _ _ _ _ _ D).
      destruct l1 as [|b l1']; cbn [isnil negb andb]; [exact Ln|].
      rewrite eqb_false_neq by (apply A1; congruence). exact Ln. }
  intros h' I. cbv beta. split; [|apply I].
  assert (B1 : forall x, x <> arc -> l1 <> [] -> x = last l1 NIL -> enext g x = arc).
  { intros x Hx HH ->. destruct (list_snoc l1) as [->|(l & y & ->)]; [congruence|]. rewrite last_snoc in *.
    rewrite <- app_assoc in E. cbn [app] in E. destruct (chains_links _ _ _ _ _ _ C E) as [_ X]. exact X. }
  assert (B2 : forall x, x <> arc -> l2 <> [] -> x = hd NIL l2 -> eprev g x = arc).
  { intros x Hx HH ->. destruct l2 as [|y l]; [congruence|]. cbn [hd] in *.
    assert (E' : adj v = (l1 ++ [arc]) ++ y :: l) by (rewrite <- app_assoc; exact E).
    destruct (chains_links _ _ _ _ _ _ C E') as [X _]. now rewrite last_snoc in X. }
  constructor; intros x.
  - rewrite (ie_first _ _ _ _ _ _ I), (el_first _ _ EL), (de_first _ _ _ _ _ D).
    destruct l1; cbn [isnil andb]; [|reflexivity]. destruct (Z.eqb_spec x v) as [->|]; [|reflexivity].
    rewrite (ch_first _ _ C) by auto. now rewrite E.
  - rewrite (ie_last _ _ _ _ _ _ I), (el_last _ _ EL), (de_last _ _ _ _ _ D).
    destruct l2; cbn [isnil andb]; [|reflexivity]. destruct (Z.eqb_spec x v) as [->|]; [|reflexivity].
    rewrite (ch_last _ _ C) by auto. now rewrite E, last_snoc.
  - rewrite (ie_next _ _ _ _ _ _ I), (el_next _ _ EL), (de_next _ _ _ _ _ D).
    destruct (Z.eqb_spec x arc) as [->|Hx]; [auto|].
    destruct l1 as [|b l1']; cbn [isnil negb andb]; [reflexivity|].
    destruct (Z.eqb_spec x (last (b :: l1') NIL)) as [Hl|]; [|reflexivity].
    symmetry. apply B1; auto; congruence.
  - rewrite (ie_prev _ _ _ _ _ _ I), (el_prev _ _ EL), (de_prev _ _ _ _ _ D).
    destruct (Z.eqb_spec x arc) as [->|Hx]; [auto|].
    destruct l2 as [|b l2']; cbn [isnil negb andb]; [reflexivity|].
    destruct (Z.eqb_spec x (hd NIL (b :: l2'))) as [Hl|]; [|reflexivity].
    symmetry. apply B2; auto; congruence.
Qed.

(** From any state with the links of [g1], restoring e gives the links of [g]. *)
Definition undoes (g g1 : graph) (e : Z) : Prop :=
  forall h, eq_links h g1 -> gN h = gN g -> gCap h = gCap g -> (forall x, enbr h x = enbr g x) ->
    wp (gp_RestoreEdge h e) (fun h' => eq_links h' g /\ frame_links h h').

Record hidden (g g1 : graph) (adj : Z -> list Z) (e : Z) : Prop := {
  hi_chains : chains g1 (adj_remove adj e);
  hi_twins : twins_ok g1 (adj_remove adj e);
  hi_frame : frame_links g g1;
  hi_next : enbr g e <> enbr g (twin e) -> enext g1 e = enext g e;
  hi_undo : undoes g g1 e }.

Lemma hide_ok g adj e v :
  chains g adj -> twins_ok g adj -> In e (adj v) -> wp (gp_HideEdge g e) (fun g1 => hidden g g1 adj e).
Proof.
  intros C T Hin. destruct (T _ _ Hin) as [T1 T2].
  eapply wp_mono; [apply (hide_edge_ok g adj e v); auto|].
  intros g1 (gm & l1 & l2 & m1 & m2 & E1 & D1 & C1 & E2 & D2 & C2 & F).
  assert (F1 := de_frame _ _ _ _ _ D1).
  assert (R1 := ch_range _ _ C _ _ Hin). assert (R2 := ch_range _ _ C _ _ T2).
  constructor; auto.
  - intros w x Hx. rewrite in_adj_remove in Hx. destruct Hx as (Hx & N1 & N2).
    rewrite !(fl_enbr _ _ F). destruct (T _ _ Hx) as [X1 X2]. split; [auto|].
    apply in_adj_remove. split; [auto|]. split; intros HH.
    + apply N2. now rewrite <- HH, twin_invol.
    + apply N1. now apply twin_inj.
  - intros Hne. rewrite (de_next _ _ _ _ _ D2), (de_next _ _ _ _ _ D1).
    assert (Nd : NoDup (l1 ++ e :: l2)) by (rewrite <- E1; apply C).
    pose proof (NoDup_remove_2 _ _ _ Nd) as Nin. rewrite in_app_iff in Nin.
    assert (A1 : l1 <> [] -> e <> last l1 NIL).
    { intros HH ->. apply Nin. left. clear -HH. destruct (list_snoc l1) as [->|(l & x & ->)]; [congruence|].
      rewrite last_snoc, in_app_iff. simpl; auto. }
    assert (A2 : m1 <> [] -> e <> last m1 NIL).
    { intros HH Hl. assert (In e (rem e (adj (enbr g e)))).
      { rewrite E2, in_app_iff. left. rewrite Hl. clear -HH. destruct (list_snoc m1) as [->|(l & x & ->)]; [congruence|].
        rewrite last_snoc, in_app_iff. simpl; auto. }
      apply in_rem in H. tauto. }
    destruct m1 as [|a m1']; cbn [isnil negb andb]; [|rewrite eqb_false_neq by (apply A2; congruence)];
    (destruct l1 as [|b l1']; cbn [isnil negb andb]; [|rewrite eqb_false_neq by (apply A1; congruence)]); reflexivity.
  - intros h EL HN HC Hnb. unfold gp_RestoreEdge. change (gp_GetTwinArc e) with (twin e).
    apply wp_bind. eapply wp_mono.
    { apply (undo_detach gm g1 h (fun w => rem e (adj w)) (enbr g e) (twin e) m1 m2); auto.
      - rewrite (fl_N _ _ F1). auto.
      - rewrite (fl_cap _ _ F1). auto.
      - now rewrite twin_invol.
      - rewrite twin_invol. apply inE_true. unfold gp_EdgeIndexBound in *. rewrite (fl_cap _ _ F1). lia. }
    intros h1 [EL1 FL1]. cbv beta. eapply wp_mono.
    { apply (undo_detach g gm h1 adj v e l1 l2); auto.
      - rewrite (fl_N _ _ FL1). auto.
      - rewrite (fl_cap _ _ FL1). auto.
      - rewrite (fl_enbr _ _ FL1), Hnb. auto.
      - apply inE_true. lia. }
    intros h2 [EL2 FL2]. split; [auto|]. eapply frame_links_trans; eauto.
Qed.

Lemma adj_without_nil adj v : adj_without adj [] v = adj v.
Proof. unfold adj_without. cbn [existsb negb]. induction (adj v); cbn [filter]; congruence. Qed.
Lemma adj_without_cons adj e es v : adj_without (adj_remove adj e) es v = adj_without adj (e :: es) v.
Proof.
  unfold adj_without, adj_remove. induction (adj v) as [|a l IH]; [reflexivity|]. cbn [filter existsb].
  destruct (a =? e), (a =? twin e); cbn [negb andb orb filter]; rewrite ?IH; try reflexivity.
Qed.
Lemma adj_without_snoc adj e es v : adj_remove (adj_without adj es) e v = adj_without adj (es ++ [e]) v.
Proof.
  unfold adj_without, adj_remove. induction (adj v) as [|a l IH]; [reflexivity|]. cbn [filter].
  rewrite existsb_app. cbn [existsb].
  destruct (existsb _ es) eqn:EX; cbn [negb andb orb filter]; [exact IH|].
  destruct (a =? e), (a =? twin e); cbn [negb andb orb filter]; rewrite ?IH; try reflexivity.
Qed.
Lemma distinct_remove adj e : forall es,
  ~ In e es -> ~ In (twin e) es -> distinct_edges adj es -> distinct_edges (adj_remove adj e) es.
Proof.
  induction es as [|x es IH]; cbn [distinct_edges In]; auto. intros N1 N2 ((v & Hv) & D1 & D2 & D3).
  split; [|split; [auto|split; [auto|apply IH; tauto]]].
  exists v. apply in_adj_remove. split; [auto|]. split; intros ->; tauto.
Qed.

Lemma restore_all_app a : forall b g, restore_all g (a ++ b) = (g1 <- restore_all g a ;; restore_all g1 b).
Proof.
  induction a as [|e a IH]; intros b g; cbn [app restore_all]; [reflexivity|].
  destruct (gp_RestoreEdge g e); cbn [bind]; auto.
Qed.

Lemma hide_all_ok es : forall g adj, chains g adj -> twins_ok g adj -> distinct_edges adj es ->
  wp (hide_all g es) (fun g1 =>
    chains g1 (adj_without adj es) /\ twins_ok g1 (adj_without adj es) /\ frame_links g g1 /\
    forall h, eq_links h g1 -> gN h = gN g -> gCap h = gCap g -> (forall x, enbr h x = enbr g x) ->
      wp (restore_all h (rev es)) (fun h' => eq_links h' g /\ frame_links h h')).
Proof.
  induction es as [|e es IH]; intros g adj C T D; cbn [hide_all].
  - cbn [wp]. split; [|split; [|split; [apply frame_links_refl|]]].
    + eapply chains_ext; [exact C|]. intros w. now rewrite adj_without_nil.
    + intros w x Hx. rewrite adj_without_nil in *. auto.
    + intros h EL HN HC Hnb. cbn [rev restore_all wp]. split; [auto|apply frame_links_refl].
  - cbn [distinct_edges] in D. destruct D as ((v & Hv) & D1 & D2 & D3).
    apply wp_bind. eapply wp_mono; [apply (hide_ok g adj e v); auto|].
    intros g1 [C1 T1 F1 _ U]. cbv beta.
    eapply wp_mono; [apply (IH g1 (adj_remove adj e)); auto; now apply distinct_remove|].
    intros g2 (C2 & T2 & F2 & U2).
    split; [|split; [|split]].
    + eapply chains_ext; [exact C2|]. intros w. now rewrite adj_without_cons.
    + intros w x Hx. rewrite <- adj_without_cons in *. auto.
    + eapply frame_links_trans; eauto.
    + intros h EL HN HC Hnb. cbn [rev]. rewrite restore_all_app. apply wp_bind.
      eapply wp_mono.
      { apply U2; auto; [rewrite (fl_N _ _ F1)|rewrite (fl_cap _ _ F1)|intros x; rewrite (fl_enbr _ _ F1)]; auto. }
      intros h1 [EL1 FL1]. cbv beta. cbn [restore_all]. apply wp_bind. eapply wp_mono.
      { apply U; auto; [rewrite (fl_N _ _ FL1)|rewrite (fl_cap _ _ FL1)|intros x; rewrite (fl_enbr _ _ FL1)]; auto. }
      intros h2 [EL2 FL2]. cbn [wp]. split; [auto|]. eapply frame_links_trans; eauto.
Qed.

Lemma frame_geq g h : frame_links g h -> eq_links h g -> geq h g.
Proof.
  intros F E. constructor; try apply F; try apply E; intros x;
    [rewrite (fl_vindex _ _ F)|rewrite (fl_vflags _ _ F)|rewrite (fl_enbr _ _ F)|rewrite (fl_eflags _ _ F)]; reflexivity.
Qed.
