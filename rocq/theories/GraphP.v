(** * GraphP: the graph operations preserve well-formedness and have the specified effect. *)
From Coq Require Import ZifyBool Permutation.
From Verif Require Import Base BaseP GraphRec GraphM GraphSpec GSimp LinkP.

(** ** Accessors *)
Lemma inE_true g e : 0 <= e < gp_EdgeIndexBound g -> inE g e = true.
Proof. unfold inE. lia. Qed.
Lemma inV_true g v : is_vertex g v -> inV g v = true.
Proof. unfold inV, is_vertex, gp_VertexIndexBound. lia. Qed.

Ltac rw_acc :=
  repeat first
   [ rewrite bind_ret
   | rewrite guard_true by (first [assumption | apply inE_true; bnd | apply inV_true; bnd | bnd]) ].

Lemma get_next g e : inE g e = true -> gp_GetNextArc g e = Ret (enext g e).
Proof. intros H. unfold gp_GetNextArc. now rewrite guard_true. Qed.
Lemma get_prev g e : inE g e = true -> gp_GetPrevArc g e = Ret (eprev g e).
Proof. intros H. unfold gp_GetPrevArc. now rewrite guard_true. Qed.
Lemma get_nbr g e : inE g e = true -> gp_GetNeighbor g e = Ret (enbr g e).
Proof. intros H. unfold gp_GetNeighbor. now rewrite guard_true. Qed.
Lemma get_first g v : inV g v = true -> gp_GetFirstArc g v = Ret (vfirst g v).
Proof. intros H. unfold gp_GetFirstArc. now rewrite guard_true. Qed.
Lemma get_last g v : inV g v = true -> gp_GetLastArc g v = Ret (vlast g v).
Proof. intros H. unfold gp_GetLastArc. now rewrite guard_true. Qed.
Lemma set_next g e x : inE g e = true -> gp_SetNextArc g e x = Ret (set_enext g (upd (enext g) e x)).
Proof. intros H. unfold gp_SetNextArc. now rewrite guard_true. Qed.
Lemma set_prev g e x : inE g e = true -> gp_SetPrevArc g e x = Ret (set_eprev g (upd (eprev g) e x)).
Proof. intros H. unfold gp_SetPrevArc. now rewrite guard_true. Qed.
Lemma set_nbr g e x : inE g e = true -> gp_SetNeighbor g e x = Ret (set_enbr g (upd (enbr g) e x)).
Proof. intros H. unfold gp_SetNeighbor. now rewrite guard_true. Qed.
Lemma set_first g v x : inV g v = true -> gp_SetFirstArc g v x = Ret (set_vfirst g (upd (vfirst g) v x)).
Proof. intros H. unfold gp_SetFirstArc. now rewrite guard_true. Qed.
Lemma set_last g v x : inV g v = true -> gp_SetLastArc g v x = Ret (set_vlast g (upd (vlast g) v x)).
Proof. intros H. unfold gp_SetLastArc. now rewrite guard_true. Qed.
Lemma rd_eflags_ok g e : inE g e = true -> rd_eflags g e = Ret (eflags g e).
Proof. intros H. unfold rd_eflags. now rewrite guard_true. Qed.
Lemma wr_eflags_ok g e x : inE g e = true -> wr_eflags g e x = Ret (set_eflags g (upd (eflags g) e x)).
Proof. intros H. unfold wr_eflags. now rewrite guard_true. Qed.
Lemma rd_vflags_ok g e : inV g e = true -> rd_vflags g e = Ret (vflags g e).
Proof. intros H. unfold rd_vflags. now rewrite guard_true. Qed.
Lemma wr_vflags_ok g e x : inV g e = true -> wr_vflags g e x = Ret (set_vflags g (upd (vflags g) e x)).
Proof. intros H. unfold wr_vflags. now rewrite guard_true. Qed.

Lemma sadj0 g e x : gp_SetAdjacentArc g e 0 x = gp_SetNextArc g e x. Proof. reflexivity. Qed.
Lemma sadj1 g e x : gp_SetAdjacentArc g e 1 x = gp_SetPrevArc g e x. Proof. reflexivity. Qed.
Lemma gadj0 g e : gp_GetAdjacentArc g e 0 = gp_GetNextArc g e. Proof. reflexivity. Qed.
Lemma gadj1 g e : gp_GetAdjacentArc g e 1 = gp_GetPrevArc g e. Proof. reflexivity. Qed.
Lemma sarc0 g e x : gp_SetArc g e 0 x = gp_SetFirstArc g e x. Proof. reflexivity. Qed.
Lemma sarc1 g e x : gp_SetArc g e 1 x = gp_SetLastArc g e x. Proof. reflexivity. Qed.
Lemma garc0 g e : gp_GetArc g e 0 = gp_GetFirstArc g e. Proof. reflexivity. Qed.
Lemma garc1 g e : gp_GetArc g e 1 = gp_GetLastArc g e. Proof. reflexivity. Qed.

(** Run accessors whose bounds are known. *)
Ltac run1 :=
  first
  [ rewrite bind_ret
  | rewrite sadj0 | rewrite sadj1 | rewrite gadj0 | rewrite gadj1
  | rewrite sarc0 | rewrite sarc1 | rewrite garc0 | rewrite garc1
  | rewrite get_next by bnd | rewrite get_prev by bnd | rewrite get_nbr by bnd
  | rewrite get_first by bnd | rewrite get_last by bnd
  | rewrite set_next by bnd | rewrite set_prev by bnd | rewrite set_nbr by bnd
  | rewrite set_first by bnd | rewrite set_last by bnd
  | rewrite rd_eflags_ok by bnd | rewrite wr_eflags_ok by bnd
  | rewrite rd_vflags_ok by bnd | rewrite wr_vflags_ok by bnd ].
Ltac run := repeat run1.

Ltac eqbs :=
  repeat match goal with
  | |- context [?a =? ?b] => destruct (Z.eqb_spec a b)
  end.

(** ** gp_AttachArc: insertion at the ends *)
Lemma attach_nil_ok g adj v link new :
  chains g adj -> is_vertex g v -> link_ok link -> (forall w, ~ In new (adj w)) ->
  2 <= new < gp_EdgeIndexBound g ->
  wp (gp_AttachArc g v NIL link new)
     (fun g' => ins_effect g g' v (if link =? 0 then [] else adj v) (if link =? 0 then adj v else []) new).
Proof.
  intros C Hv Hl Hf Hr. unfold gp_AttachArc. rewrite Z.eqb_refl. cbn [negb].
  assert (HnN : new <> 0) by lia.
  destruct Hl as [->| ->].
  - change (Z.lxor 1 0) with 1. change (0 =? 0) with true. cbv iota.
    run. gsimp. rewrite (ch_first _ _ C v Hv).
    destruct (adj v) as [|f l] eqn:E; cbn [hd].
    + rewrite Z.eqb_refl. cbn [negb]. run.
      gsimp.  constructor; gsimp; cbn [hd last isnil andb negb].
      * constructor; reflexivity.
      * intros x. unfold upd. eqbs; try congruence; try reflexivity.
      * intros x. unfold upd. eqbs; try congruence; try reflexivity.
      * intros x. unfold upd. eqbs; congruence.
      * intros x. unfold upd. eqbs; congruence.
    + assert (Hfin : In f (adj v)) by (rewrite E; simpl; auto).
      pose proof (ch_range _ _ C _ _ Hfin) as Hfr.
      assert (Hfn : f <> new) by (intros ->; exact (Hf v Hfin)).
      destruct (Z.eqb_spec f NIL) as [->|_]; [unfold NIL in *; lia|]. cbn [negb].
      run.
      gsimp.  constructor; gsimp; cbn [hd last isnil andb negb].
      * constructor; reflexivity.
      * intros x. unfold upd. eqbs; try congruence; try reflexivity.
      * intros x. unfold upd. eqbs; try congruence; try reflexivity.
      * intros x. unfold upd. eqbs; congruence.
      * intros x. reflexivity.
  - change (Z.lxor 1 1) with 0. change (1 =? 0) with false. cbv iota.
    run. gsimp. rewrite (ch_last _ _ C v Hv).
    destruct (list_snoc (adj v)) as [E|(l & f & E)]; rewrite E.
    + cbn [last]. rewrite Z.eqb_refl. cbn [negb]. run.
      gsimp.  constructor; gsimp; cbn [hd last isnil andb negb].
      * constructor; reflexivity.
      * intros x. unfold upd. eqbs; try congruence; try reflexivity.
      * intros x. unfold upd. eqbs; try congruence; try reflexivity.
      * intros x. unfold upd. eqbs; congruence.
      * intros x. unfold upd. eqbs; congruence.
    + rewrite last_snoc.
      assert (Hfin : In f (adj v)) by (rewrite E, in_app_iff; simpl; auto).
      pose proof (ch_range _ _ C _ _ Hfin) as Hfr.
      assert (Hfn : f <> new) by (intros ->; exact (Hf v Hfin)).
      destruct (Z.eqb_spec f NIL) as [->|_]; [unfold NIL in *; lia|]. cbn [negb].
      run.
      gsimp. constructor; gsimp; rewrite ?last_snoc, ?(isnil_false (l ++ [f])) by (destruct l; discriminate);
        cbn [hd isnil andb negb].
      * constructor; reflexivity.
      * intros x. unfold upd. eqbs; try congruence; try reflexivity.
      * intros x. unfold upd. eqbs; try congruence; try reflexivity.
      * intros x. reflexivity.
      * intros x. unfold upd. eqbs; congruence.
Qed.

(** ** gp_AttachArc next to an arc *)
Lemma attach_arc_ok g adj v e link new l1 l2 :
  chains g adj -> adj v = l1 ++ e :: l2 -> link_ok link -> (forall w, ~ In new (adj w)) ->
  2 <= new < gp_EdgeIndexBound g ->
  wp (gp_AttachArc g v e link new)
     (fun g' => ins_effect g g' v (if link =? 0 then l1 ++ [e] else l1)
                                  (if link =? 0 then l2 else e :: l2) new).
Proof.
  intros C E Hl Hf Hr. unfold gp_AttachArc.
  assert (He : In e (adj v)) by (rewrite E, in_app_iff; simpl; auto).
  assert (Hv : is_vertex g v) by (eapply ch_isvertex; eauto).
  pose proof (ch_range _ _ C _ _ He) as Her.
  assert (Hen : e <> new) by (intros ->; exact (Hf v He)).
  assert (Nd : NoDup (l1 ++ e :: l2)) by (rewrite <- E; apply C).
  destruct (Z.eqb_spec e NIL) as [->|_]; [unfold NIL in *; lia|]. cbn [negb].
  destruct (chains_links _ _ _ _ _ _ C E) as [Lp Ln].
  destruct Hl as [->| ->].
  - change (Z.lxor 1 0) with 1. change (0 =? 0) with true. cbv iota.
    run. gsimp. rewrite Ln.
    assert (Hnn : isnil (l1 ++ [e]) = false) by (destruct l1; reflexivity).
    destruct l2 as [|f l2']; cbn [hd].
    + rewrite Z.eqb_refl. cbn [negb]. run. gsimp.
      constructor; gsimp; rewrite ?last_snoc, ?Hnn; cbn [hd isnil andb negb].
      * constructor; reflexivity.
      * intros x. unfold upd. eqbs; try congruence; try reflexivity.
      * intros x. unfold upd. eqbs; try congruence; try reflexivity.
      * intros x. reflexivity.
      * intros x. unfold upd. eqbs; congruence.
    + assert (Hfin : In f (adj v)) by (rewrite E, in_app_iff; simpl; auto).
      pose proof (ch_range _ _ C _ _ Hfin) as Hfr.
      assert (Hfn : f <> new) by (intros ->; exact (Hf v Hfin)).
      assert (Hfe : f <> e).
      { intros ->. apply NoDup_app_r in Nd. inversion Nd; subst. apply H1; simpl; auto. }
      destruct (Z.eqb_spec f NIL) as [->|_]; [unfold NIL in *; lia|]. cbn [negb]. run. gsimp.
      constructor; gsimp; rewrite ?last_snoc, ?Hnn; cbn [hd isnil andb negb].
      * constructor; reflexivity.
      * intros x. unfold upd. eqbs; try congruence; try reflexivity.
      * intros x. unfold upd. eqbs; try congruence; try reflexivity.
      * intros x. reflexivity.
      * intros x. reflexivity.
  - change (Z.lxor 1 1) with 0. change (1 =? 0) with false. cbv iota.
    run. gsimp. rewrite Lp.
    destruct (list_snoc l1) as [->|(l & f & ->)].
    + cbn [last]. rewrite Z.eqb_refl. cbn [negb]. run. gsimp.
      constructor; gsimp; cbn [hd last isnil andb negb].
      * constructor; reflexivity.
      * intros x. unfold upd. eqbs; try congruence; try reflexivity.
      * intros x. unfold upd. eqbs; try congruence; try reflexivity.
      * intros x. unfold upd. eqbs; congruence.
      * intros x. reflexivity.
    + rewrite last_snoc.
      assert (Hfin : In f (adj v)) by (rewrite E, !in_app_iff; simpl; auto).
      pose proof (ch_range _ _ C _ _ Hfin) as Hfr.
      assert (Hfn : f <> new) by (intros ->; exact (Hf v Hfin)).
      assert (Hfe : f <> e).
      { intros ->. rewrite <- app_assoc in Nd. apply NoDup_app_r in Nd. inversion Nd; subst.
        apply H1; simpl; auto. }
      destruct (Z.eqb_spec f NIL) as [->|_]; [unfold NIL in *; lia|]. cbn [negb]. run. gsimp.
      constructor; gsimp; rewrite ?last_snoc, ?(isnil_false (l ++ [f])) by (destruct l; discriminate);
        cbn [hd isnil andb negb].
      * constructor; reflexivity.
      * intros x. unfold upd. eqbs; try congruence; try reflexivity.
      * intros x. unfold upd. eqbs; try congruence; try reflexivity.
      * intros x. reflexivity.
      * intros x. reflexivity.
Qed.

(** ** gp_DetachArc *)
Lemma detach_ok g adj v arc l1 l2 :
  chains g adj -> adj v = l1 ++ arc :: l2 -> inE g (twin arc) = true -> enbr g (twin arc) = v ->
  wp (gp_DetachArc g arc) (fun g' => del_effect g g' v l1 l2).
Proof.
  intros C E Ht Hn. unfold gp_DetachArc. change (gp_GetTwinArc arc) with (twin arc).
  assert (He : In arc (adj v)) by (rewrite E, in_app_iff; simpl; auto).
  assert (Hv : is_vertex g v) by (eapply ch_isvertex; eauto).
  pose proof (ch_range _ _ C _ _ He) as Her.
  assert (Nd : NoDup (l1 ++ arc :: l2)) by (rewrite <- E; apply C).
  destruct (chains_links _ _ _ _ _ _ C E) as [Lp Ln].
  run. rewrite Lp, Ln.
  assert (A1 : forall x, In x (l1 ++ l2) -> 2 <= x < gp_EdgeIndexBound g).
  { intros x Hx. apply (ch_range _ _ C v). rewrite E. rewrite in_app_iff in *. simpl; tauto. }
  destruct l2 as [|f l2'], (list_snoc l1) as [->|(l & h & ->)];
    cbn [hd last]; rewrite ?last_snoc, ?Z.eqb_refl; cbn [negb].
  - run. rewrite Hn. run. gsimp. run. gsimp. rewrite Hn. run.
    gsimp. constructor; gsimp; cbn [hd last isnil andb negb].
    + constructor; reflexivity.
    + intros x. reflexivity.
    + intros x. reflexivity.
    + intros x. unfold upd. eqbs; congruence.
    + intros x. unfold upd. eqbs; congruence.
  - pose proof (A1 h) as Hh. rewrite !in_app_iff in Hh. simpl in Hh. specialize (Hh ltac:(auto)).
    destruct (Z.eqb_spec h NIL) as [->|_]; [unfold NIL in *; lia|]. cbn [negb].
    run. rewrite Hn. run. gsimp.
    constructor; gsimp; rewrite ?last_snoc, ?(isnil_false (l ++ [h])) by (destruct l; discriminate);
      cbn [hd isnil andb negb].
    + constructor; reflexivity.
    + intros x. unfold upd. eqbs; congruence.
    + intros x. reflexivity.
    + intros x. reflexivity.
    + intros x. unfold upd. eqbs; congruence.
  - pose proof (A1 f) as Hf. simpl in Hf. specialize (Hf ltac:(auto)).
    destruct (Z.eqb_spec f NIL) as [->|_]; [unfold NIL in *; lia|]. cbn [negb].
    run. gsimp. rewrite Hn. run. gsimp.
    constructor; gsimp; cbn [hd last isnil andb negb].
    + constructor; reflexivity.
    + intros x. reflexivity.
    + intros x. unfold upd. eqbs; congruence.
    + intros x. unfold upd. eqbs; congruence.
    + intros x. reflexivity.
  - pose proof (A1 h) as Hh. rewrite !in_app_iff in Hh. simpl in Hh. specialize (Hh ltac:(auto)).
    pose proof (A1 f) as Hf. rewrite !in_app_iff in Hf. simpl in Hf. specialize (Hf ltac:(auto)).
    destruct (Z.eqb_spec f NIL) as [->|_]; [unfold NIL in *; lia|].
    destruct (Z.eqb_spec h NIL) as [->|_]; [unfold NIL in *; lia|]. cbn [negb].
    run. gsimp.
    constructor; gsimp; rewrite ?last_snoc, ?(isnil_false (l ++ [h])) by (destruct l; discriminate);
      cbn [hd isnil andb negb].
    + constructor; reflexivity.
    + intros x. unfold upd. eqbs; congruence.
    + intros x. unfold upd. eqbs; congruence.
    + intros x. reflexivity.
    + intros x. reflexivity.
Qed.

(** ** _RestoreArc *)
Lemma restore_arc_ok g adj v arc l1 l2 :
  chains g adj -> is_vertex g v -> adj v = l1 ++ l2 -> (forall w, ~ In arc (adj w)) ->
  2 <= arc < gp_EdgeIndexBound g -> inE g (twin arc) = true -> enbr g (twin arc) = v ->
  eprev g arc = last l1 NIL -> enext g arc = hd NIL l2 ->
  wp (_RestoreArc g arc) (fun g' => ins_effect g g' v l1 l2 arc).
Proof.
  intros C Hv E Hfr Hr Ht Hn Lp Ln. unfold _RestoreArc. change (gp_GetTwinArc arc) with (twin arc).
  run. rewrite Lp, Ln.
  assert (A1 : forall x, In x (l1 ++ l2) -> 2 <= x < gp_EdgeIndexBound g /\ x <> arc).
  { intros x Hx. rewrite <- E in Hx. split; [exact (ch_range _ _ C v x Hx)|].
    intros ->. exact (Hfr v Hx). }
  destruct l2 as [|f l2'], (list_snoc l1) as [->|(l & h & ->)];
    cbn [hd last] in *; rewrite ?last_snoc in *; rewrite ?Z.eqb_refl; cbn [negb].
  - run. rewrite Hn. run. gsimp. run. gsimp. rewrite Hn. run.
    gsimp. constructor; gsimp; cbn [hd last isnil andb negb].
    + constructor; reflexivity.
    + intros x. eqbs; congruence.
    + intros x. eqbs; congruence.
    + intros x. unfold upd. eqbs; congruence.
    + intros x. unfold upd. eqbs; congruence.
  - pose proof (A1 h) as Hh. rewrite !in_app_iff in Hh. simpl in Hh. specialize (Hh ltac:(auto)).
    destruct (Z.eqb_spec h NIL) as [->|_]; [unfold NIL in *; lia|]. cbn [negb].
    run. rewrite Hn. run. gsimp.
    constructor; gsimp; rewrite ?last_snoc, ?(isnil_false (l ++ [h])) by (destruct l; discriminate);
      cbn [hd isnil andb negb].
    + constructor; reflexivity.
    + intros x. unfold upd. eqbs; intuition congruence.
    + intros x. eqbs; congruence.
    + intros x. reflexivity.
    + intros x. unfold upd. eqbs; congruence.
  - pose proof (A1 f) as Hf. simpl in Hf. specialize (Hf ltac:(auto)).
    destruct (Z.eqb_spec f NIL) as [->|_]; [unfold NIL in *; lia|]. cbn [negb].
    run. gsimp. rewrite Hn. run. gsimp.
    constructor; gsimp; cbn [hd last isnil andb negb].
    + constructor; reflexivity.
    + intros x. eqbs; congruence.
    + intros x. unfold upd. eqbs; intuition congruence.
    + intros x. unfold upd. eqbs; congruence.
    + intros x. reflexivity.
  - pose proof (A1 h) as Hh. rewrite !in_app_iff in Hh. simpl in Hh. specialize (Hh ltac:(auto)).
    pose proof (A1 f) as Hf. rewrite !in_app_iff in Hf. simpl in Hf. specialize (Hf ltac:(auto)).
    destruct (Z.eqb_spec f NIL) as [->|_]; [unfold NIL in *; lia|].
    destruct (Z.eqb_spec h NIL) as [->|_]; [unfold NIL in *; lia|]. cbn [negb].
    run. gsimp.
    constructor; gsimp; rewrite ?last_snoc, ?(isnil_false (l ++ [h])) by (destruct l; discriminate);
      cbn [hd isnil andb negb].
    + constructor; reflexivity.
    + intros x. unfold upd. eqbs; intuition congruence.
    + intros x. unfold upd. eqbs; intuition congruence.
    + intros x. reflexivity.
    + intros x. reflexivity.
Qed.
