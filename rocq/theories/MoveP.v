(** * MoveP: moving an arc to the front or the back of its list. *)
From Coq Require Import ZifyBool.
From Verif Require Import Base BaseP GraphRec GraphM GraphSpec GSimp LinkP GraphP GraphP2.

Lemma chains_congr_adj g adj adj' : chains g adj -> (forall v, adj' v = adj v) -> chains g adj'.
Proof. apply chains_ext. Qed.

Lemma move_last_ok g adj v e l1 l2 :
  chains g adj -> adj v = l1 ++ e :: l2 ->
  wp (gp_MoveArcToLast g v e) (fun g' => frame_links g g' /\ chains g' (upd adj v (l1 ++ l2 ++ [e]))).
Proof.
  intros C E.
  assert (He : In e (adj v)) by (rewrite E, in_app_iff; simpl; auto).
  assert (Hv : is_vertex g v) by (eapply ch_isvertex; eauto).
  pose proof (ch_range _ _ C _ _ He) as Her.
  assert (Nd : NoDup (l1 ++ e :: l2)) by (rewrite <- E; apply C).
  destruct (chains_links _ _ _ _ _ _ C E) as [Lp Ln].
  assert (A1 : forall x, In x (l1 ++ l2) -> 2 <= x < gp_EdgeIndexBound g).
  { intros x Hx. apply (ch_range _ _ C v). rewrite E. rewrite in_app_iff in *. simpl; tauto. }
  assert (Nin : ~ In e (l1 ++ l2)) by (apply NoDup_remove_2 in Nd; auto).
  unfold gp_MoveArcToLast. run. rewrite (ch_last _ _ C v Hv), E.
  destruct (list_snoc l2) as [->|(l2' & t & ->)].
  - rewrite last_snoc, Z.eqb_refl. apply wp_ret. split; [apply frame_links_refl|].
    apply chains_ext with adj; [auto|]. intros w. unfold upd. destruct (Z.eqb_spec w v) as [->|]; [now rewrite E|auto].
  - rewrite (last_app_ne l1) by discriminate. rewrite last_cons_ne by (destruct l2'; discriminate). rewrite last_snoc.
    assert (Ht : e <> t) by (intros ->; apply Nin; rewrite !in_app_iff; simpl; auto).
    rewrite (eqb_false_neq _ _ Ht). run. rewrite (ch_first _ _ C v Hv), Ln, E.
    assert (Hn : In (hd NIL (l2' ++ [t])) (l2' ++ [t])) by (apply hd_in; destruct l2'; discriminate).
    set (n := hd NIL (l2' ++ [t])) in *.
    pose proof (A1 n ltac:(rewrite in_app_iff; auto)) as Rn. pose proof (A1 t ltac:(rewrite !in_app_iff; simpl; auto)) as Rt.
    (* first phase *)
    apply wp_bind. match goal with |- wp ?m _ => assert (W : wp m (fun g1 => del_effect g g1 v l1 (l2' ++ [t]))) end.
    { destruct (list_snoc l1) as [->|(l & h & ->)].
      - cbn [app hd]. rewrite Z.eqb_refl. run. gsimp. run.
        constructor; gsimp; fold n; cbn [last isnil negb andb]; rewrite ?(isnil_false (l2' ++ [t])) by (destruct l2'; discriminate); cbn [negb andb].
        + constructor; reflexivity.
        + reflexivity.
        + intros x. unfold upd. eqbs; congruence.
        + intros x. unfold upd. eqbs; congruence.
        + reflexivity.
      - assert (Hh : hd NIL ((l ++ [h]) ++ e :: l2' ++ [t]) <> e).
        { intros Q. apply Nin. rewrite in_app_iff. left. destruct l; cbn [app hd] in *; [left|left]; auto. }
        rewrite eqb_false_neq by auto. pose proof (A1 h ltac:(rewrite !in_app_iff; simpl; auto)) as Rh.
        assert (h <> e) by (intros ->; apply Nin; rewrite !in_app_iff; simpl; auto).
        rewrite last_snoc in Lp. run. rewrite Lp. run. gsimp. run. gsimp.
        rewrite ?upd_other by auto. rewrite ?Ln. run.
        constructor; gsimp; fold n; rewrite ?last_snoc, ?(isnil_false (l2' ++ [t])), ?(isnil_false (l ++ [h])) by (try destruct l2'; try destruct l; discriminate); cbn [negb andb].
        + constructor; reflexivity.
        + intros x. unfold upd. eqbs; congruence.
        + intros x. unfold upd. eqbs; congruence.
        + reflexivity.
        + reflexivity. }
    eapply wp_mono; [exact W|]. clear W. intros g1 D.
    pose proof (chains_delete _ _ _ _ _ _ _ C E D) as C1.
    pose proof (de_frame _ _ _ _ _ D) as F. pose proof (frame_ebound _ _ F) as EB.
    assert (Hv1 : is_vertex g1 v) by (apply (frame_vertex _ _ _ F); auto).
    run. rewrite (ch_last _ _ C1 v Hv1), upd_same. rewrite app_assoc, last_snoc. run. gsimp. run. gsimp.
    unfold gp_BindLastArc. run. gsimp. run.
    set (g2 := set_vlast _ _).
    assert (I : ins_effect g1 g2 v ((l1 ++ l2') ++ [t]) [] e).
    { unfold g2. constructor; gsimp; rewrite ?last_snoc, ?(isnil_false ((l1 ++ l2') ++ [t])) by (destruct (l1 ++ l2'); discriminate); cbn [hd isnil negb andb].
      - constructor; reflexivity.
      - intros x. unfold upd. eqbs; congruence.
      - intros x. unfold upd. eqbs; congruence.
      - reflexivity.
      - intros x. unfold upd. eqbs; congruence. }
    split; [exact (frame_links_trans _ _ _ F (ie_frame _ _ _ _ _ _ I))|].
    apply chains_ext with (upd (upd adj v (l1 ++ l2' ++ [t])) v (((l1 ++ l2') ++ [t]) ++ [e])).
    + apply (chains_insert g1); auto.
      * rewrite upd_same, app_nil_r, app_assoc. reflexivity.
      * intros w. unfold upd. destruct (Z.eqb_spec w v) as [->|Hw]; [auto|].
        intros Q. apply Hw. eapply (ch_disj _ _ C); eauto.
      * rewrite EB. auto.
    + intros w. unfold upd. destruct (w =? v); [|auto]. now rewrite <- !app_assoc.
Qed.

Lemma move_first_ok g adj v e l1 l2 :
  chains g adj -> adj v = l1 ++ e :: l2 ->
  wp (gp_MoveArcToFirst g v e) (fun g' => frame_links g g' /\ chains g' (upd adj v (e :: l1 ++ l2))).
Proof.
  intros C E.
  assert (He : In e (adj v)) by (rewrite E, in_app_iff; simpl; auto).
  assert (Hv : is_vertex g v) by (eapply ch_isvertex; eauto).
  pose proof (ch_range _ _ C _ _ He) as Her.
  assert (Nd : NoDup (l1 ++ e :: l2)) by (rewrite <- E; apply C).
  destruct (chains_links _ _ _ _ _ _ C E) as [Lp Ln].
  assert (A1 : forall x, In x (l1 ++ l2) -> 2 <= x < gp_EdgeIndexBound g).
  { intros x Hx. apply (ch_range _ _ C v). rewrite E. rewrite in_app_iff in *. simpl; tauto. }
  assert (Nin : ~ In e (l1 ++ l2)) by (apply NoDup_remove_2 in Nd; auto).
  unfold gp_MoveArcToFirst. run. rewrite (ch_first _ _ C v Hv), E.
  destruct l1 as [|t l1].
  - cbn [app hd]. rewrite Z.eqb_refl. apply wp_ret. split; [apply frame_links_refl|].
    apply chains_ext with adj; [auto|]. intros w. unfold upd. destruct (Z.eqb_spec w v) as [->|]; [now rewrite E|auto].
  - cbn [app hd].
    assert (Ht : e <> t) by (intros ->; apply Nin; now left).
    rewrite (eqb_false_neq _ _ Ht). run. rewrite (ch_last _ _ C v Hv), Lp, E.
    assert (Hn : In (last (t :: l1) NIL) (t :: l1)) by (apply last_in; discriminate).
    set (p := last (t :: l1) NIL) in *.
    pose proof (A1 p ltac:(rewrite in_app_iff; auto)) as Rn. pose proof (A1 t ltac:(now left)) as Rt.
    assert (Hp : p <> e) by (intros Q; apply Nin; rewrite in_app_iff; left; rewrite <- Q; auto).
    apply wp_bind. match goal with |- wp ?m _ => assert (W : wp m (fun g1 => del_effect g g1 v (t :: l1) l2)) end.
    { destruct l2 as [|b l2].
      - rewrite last_snoc, Z.eqb_refl. run. gsimp. run.
        constructor; gsimp; fold p; cbn [hd isnil negb andb].
        + constructor; reflexivity.
        + intros x. unfold upd. eqbs; congruence.
        + reflexivity.
        + reflexivity.
        + intros x. unfold upd. eqbs; congruence.
      - assert (Hh : last ((t :: l1) ++ e :: b :: l2) NIL <> e).
        { intros Q. apply Nin. rewrite in_app_iff. right. rewrite <- Q, last_app_ne, last_cons_ne by discriminate. apply last_in. discriminate. }
        rewrite eqb_false_neq by auto. pose proof (A1 b ltac:(rewrite !in_app_iff; simpl; auto)) as Rh.
        assert (b <> e) by (intros ->; apply Nin; rewrite !in_app_iff; simpl; auto).
        cbn [hd] in Ln. run. rewrite Ln. run. gsimp. run. gsimp. rewrite ?Lp. run.
        constructor; gsimp; fold p; cbn [hd isnil negb andb].
        + constructor; reflexivity.
        + intros x. unfold upd. eqbs; congruence.
        + intros x. unfold upd. eqbs; congruence.
        + reflexivity.
        + reflexivity. }
    eapply wp_mono; [exact W|]. clear W. intros g1 D.
    pose proof (chains_delete _ _ _ _ _ _ _ C E D) as C1.
    pose proof (de_frame _ _ _ _ _ D) as F. pose proof (frame_ebound _ _ F) as EB.
    assert (Hv1 : is_vertex g1 v) by (apply (frame_vertex _ _ _ F); auto).
    run. rewrite (ch_first _ _ C1 v Hv1), upd_same. cbn [app hd]. run. gsimp. run. gsimp.
    unfold gp_BindFirstArc. run. gsimp. run.
    set (g2 := set_vfirst _ _).
    assert (I : ins_effect g1 g2 v [] (t :: l1 ++ l2) e).
    { unfold g2. constructor; gsimp; cbn [hd last isnil negb andb].
      - constructor; reflexivity.
      - intros x. unfold upd. eqbs; congruence.
      - intros x. unfold upd. eqbs; congruence.
      - intros x. unfold upd. eqbs; congruence.
      - reflexivity. }
    split; [exact (frame_links_trans _ _ _ F (ie_frame _ _ _ _ _ _ I))|].
    apply chains_ext with (upd (upd adj v (t :: l1 ++ l2)) v ([] ++ e :: t :: l1 ++ l2)).
    + apply (chains_insert g1); auto.
      * apply upd_same.
      * intros w. unfold upd. destruct (Z.eqb_spec w v) as [->|Hw]; [auto|].
        intros Q. apply Hw. eapply (ch_disj _ _ C); eauto.
      * rewrite EB. auto.
    + intros w. unfold upd. destruct (w =? v); auto.
Qed.

(** Permuting one list keeps the whole representation. *)
Lemma rep_permute g g' adj v l : rep g adj -> frame_links g g' -> chains g' (upd adj v l) ->
  (forall x, In x l <-> In x (adj v)) -> rep g' (upd adj v l).
Proof.
  intros [C T S] F C' Hl.
  assert (I : forall w x, In x (upd adj v l w) <-> In x (adj w)) by (intros w x; unfold upd; destruct (Z.eqb_spec w v) as [->|]; [apply Hl|tauto]).
  pose proof (frame_bound _ _ F) as B. pose proof (frame_ebound _ _ F) as B2.
  constructor; auto.
  - intros w e He. apply I in He. rewrite (fl_enbr _ _ F). destruct (T w e He) as [T1 T2]. split; [auto|]. now apply I.
  - destruct S. constructor; rewrite ?B, ?B2, ?(fl_N _ _ F), ?(fl_M _ _ F), ?(fl_cap _ _ F), ?(fl_holes _ _ F), ?(fl_holesCap _ _ F), ?(fl_enbr _ _ F); auto.
    + intros w e He. apply I in He. eauto.
    + intros e He. rewrite I. auto.
Qed.
